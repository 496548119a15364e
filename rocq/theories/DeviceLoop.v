(** The loop of subtract_fixed. *)
From Verif Require Import Np NpFacts ChainFacts KernelModel KernelFacts KernelSum PackModel PackFacts PackBuild PackProps PackPsf StoreFacts DeviceModel DeviceFacts.
From Coq Require Import Reals Lra.
Open Scope R_scope.
Close Scope R_scope.
Open Scope nat_scope.

Lemma last_shift {A} (l : list A) : forall a d, List.last (a :: l) d = List.last l a.
Proof. induction l as [|b l IH]; intros a d; auto. change (List.last (b :: l) d = List.last (b :: l) a). now rewrite !IH. Qed.
(** ** Blocks *)
Lemma arange_eq m n : 0 < m -> np_arange m n m = map (fun j => m * (0 + S j)) (seq 0 ((n - 1) / m)).
Proof.
  intros Hm. unfold np_arange. replace ((n - m + (m - 1)) / m) with ((n - 1) / m).
  - apply map_ext. intros; lia.
  - destruct (Nat.le_gt_cases m n); [f_equal; lia|]. rewrite !Nat.div_small; lia.
Qed.
Lemma split_blocks {A} m (l : list A) : forall k j0, m * (j0 + k) <= List.length l ->
  let bs := split_from (m * j0) (map (fun j => m * (j0 + S j)) (seq 0 k)) l in
  concat bs = skipn (m * j0) l /\ Forall (fun b => List.length b = m \/ b = skipn (m * (j0 + k)) l) bs /\ bs <> [].
Proof.
  induction k as [|k IH]; intros j0 H; cbn [seq map split_from concat].
  - rewrite app_nil_r, Nat.add_0_r. repeat split; auto. discriminate.
  - specialize (IH (S j0)). rewrite <- seq_shift, map_map.
    replace (map (fun x => m * (j0 + S (S x))) (seq 0 k)) with (map (fun j => m * (S j0 + S j)) (seq 0 k)) by (apply map_ext; intros; f_equal; lia).
    replace (m * (j0 + 1)) with (m * S j0) by lia. destruct IH as (H1 & H2 & H3); [lia|]. rewrite H1.
    replace (m * S j0 - m * j0) with m by lia. replace (m * S j0) with (m * j0 + m) by lia. repeat split.
    + rewrite <- skipn_skipn. apply firstn_skipn.
    + constructor.
      * left. rewrite firstn_length, skipn_length. lia.
      * replace (m * (j0 + S k)) with (m * (S j0 + k)) by lia. replace (m * j0 + m) with (m * S j0) by lia. exact H2.
    + discriminate.
Qed.
Lemma blocks_spec m (cat : list catrow) : 0 < m ->
  concat (blocks_of m cat) = cat /\ (cat <> [] -> Forall (fun b => b <> [] /\ List.length b <= m) (blocks_of m cat)) /\ blocks_of m cat <> [].
Proof.
  intros Hm. unfold blocks_of, np_split. rewrite arange_eq by auto. set (n := List.length cat). set (k := (n - 1) / m).
  assert (Hk : m * k <= n - 1) by (apply Nat.mul_div_le; lia).
  assert (Hr : n - 1 < m * S k) by (apply Nat.mul_succ_div_gt; lia).
  pose proof (split_blocks m cat k 0) as H. cbv zeta in H. rewrite Nat.mul_0_r in H. destruct H as (H1 & H2 & H3); [fold n; lia|].
  split; [exact H1|]. split; [|exact H3]. intros Hne. assert (Hn : 0 < n) by (unfold n; destruct cat; [congruence|simpl; lia]).
  eapply Forall_impl; [|exact H2]. intros b [Hb|Hb].
  - split; [|lia]. intros ->. simpl in Hb. lia.
  - assert (HL : List.length b = n - m * k) by (subst b; rewrite skipn_length; fold n; f_equal). split; [|lia]. intros ->. simpl in HL. lia.
Qed.

Section Loop.
Variables (sub : R -> R -> R) (allbands : list string) (exps : list (exposure R)) (offsets : option (list R)) (E : env) (gpu : bool).
Hypothesis built : build_patch sub allbands exps offsets = Some (pk E).
Hypothesis lengths : Forall aligned exps.
Hypothesis bands_ok : bands E = map x_band exps.
Hypothesis wcs_ok : List.length (wcses E) = List.length exps.
Hypothesis psf_ok : forall b, In b (map x_band exps) -> psf_attr E b = Some (List.length (nth 0 (psf_parameters E b) [])).
Notation NB := (List.length (bandlist (pk E))).
Notation NP := (List.length (pk_data (pk E))).

Lemma pack_meta_ok sc : sc_sources sc <> [] -> exists ref sc' m, pack_meta E sc = Some (ref, sc', m).
Proof.
  intros H. unfold pack_meta. cbn [zerocoords sc_sources sc_spline]. set (srcs := map _ (sc_sources sc)).
  assert (Hs : srcs <> []) by (unfold srcs; destruct (sc_sources sc); [congruence|discriminate]).
  destruct (C41_psf_rows sub allbands exps offsets (pk E) (psf_attr E) (get_local_psf (psf_parameters E) (psf_nearest E)) srcs built lengths) as (t & Ht & _).
  { intros b Hb. eexists. split; [now apply psf_ok|]. reflexivity. }
  rewrite bands_ok, Ht. clearbody srcs. destruct srcs; [now contradiction Hs|]. eauto.
Qed.

Open Scope R_scope.
(** Counts from source [s] (absolute position) at pixel number [pix] of exposure [e]. *)
Definition galaxy_counts (sp : spline) (k e pix : nat) (s : galaxy) : R :=
  match nth_error exps e, nth_error (wcses E) e with
  | Some ex, Some w =>
      source_counts sp (nth 0 (psf_parameters E (x_band ex)) []) w (g_ra s, g_dec s) (nth k (g_flux s) 0)
        (g_ra s) (g_dec s) (g_q s) (g_pa s) (g_sersic s) (g_rhalf s) (nth pix (pk_xpix (pk E)) 0) (nth pix (pk_ypix (pk E)) 0)
  | _, _ => 0
  end.
Definition scene_counts (k e pix : nat) (sc : scene) : R := sumR (galaxy_counts (sc_spline sc) k e pix) (sc_sources sc).
Close Scope R_scope.

(** One evaluation of a packed scene. *)
Lemma scene_residual sc ref sc' m data old k e ex p : pack_meta E sc = Some (ref, sc', m) -> List.length old = NP ->
  nth_error (bandlist (pk E)) k = Some (x_band ex) -> nth_error exps e = Some ex -> p < List.length (x_flux ex) ->
  let pix := nth e (pk_exposure_start (pk E)) 0 + p in
  nth pix (write_residual (kernel_patch E m data) NB (fun i => nth i (get_proposal sc') no_source) old) 0%R
  = (nth pix data 0 - scene_counts k e pix sc)%R.
Proof.
  intros Hm HL Hk He Hp pix. destruct (residual_pixel sub allbands exps offsets E built lengths wcs_ok m data (fun i => nth i (get_proposal sc') no_source) old k e ex p HL Hk He Hp) as (Hw & _).
  cbv zeta in Hw. fold pix in Hw. rewrite (nth_error_nth _ _ _ Hw). unfold residual_at. f_equal.
  destruct (nth_error (wcses E) e) as [w|] eqn:Ew.
  2:{ apply nth_error_None in Ew. assert (e < List.length exps) by (apply nth_error_Some; congruence). lia. }
  destruct (pack_meta_sources E _ _ _ _ Hm) as (Hz & Hne & Hns). unfold zerocoords in Hz. cbv zeta iota in Hz.
  set (z := (np_median (map g_ra (sc_sources sc)), np_median (map g_dec (sc_sources sc)))) in *.
  assert (Er : ref = z) by congruence. assert (Es : sc' = mkScene (sc_spline sc) (map (shift_source (- fst z, - snd z)%R) (sc_sources sc))) by congruence. clear Hz.
  unfold get_proposal. rewrite Es. cbn [sc_spline sc_sources].
  rewrite (model_counts sub allbands exps offsets E built lengths bands_ok wcs_ok psf_ok sc ref sc' m data (map (shift_source (- fst z, - snd z)%R) (sc_sources sc)) k e ex w pix Hm (map_length _ _) Hk He Ew).
  unfold scene_counts. rewrite Er. clearbody z. clear -He Ew. induction (sc_sources sc) as [|s l IH]; cbn [map combine]; auto.
  rewrite !sumR_cons, IH. f_equal. unfold galaxy_counts. rewrite He, Ew. cbn [fst snd shift_source g_ra g_dec g_flux g_q g_pa g_sersic g_rhalf kernel_patch P_xpix P_ypix].
  replace (g_ra s + - fst z + fst z)%R with (g_ra s) by ring. replace (g_dec s + - snd z + snd z)%R with (g_dec s) by ring. reflexivity.
Qed.

(** The scene of [r], originally [sc], is on the device over the data [data]. *)
Inductive on_device (st : state) (heap : list scene) (r : nat) (sc : scene) (data : list R) : Prop :=
  mkOn (sc' : scene) (m : meta) (ref : R * R) (d a id : nat) (old : list R)
  (od_heap : nth_error heap r = Some sc')
  (od_pack : pack_meta E sc = Some (ref, sc', m))
  (od_reference : reference st = ref)
  (od_struct : struct st = Some (d, Some a, (id, m)))
  (od_host : host_meta st = Some (id, m))
  (od_ne : d <> a)
  (od_data : nth_error (buffers st) d = Some data)
  (od_res : nth_error (buffers st) a = Some old)
  (od_len : List.length data = NP /\ List.length old = NP)
  (od_pd : ptr_data st = Some d)
  (od_pr : ptr_residual st = Some a)
  (od_attr : if gpu then attr_data st <> d /\ attr_data st <> a else attr_data st = d /\ attr_residual st = Some a)
  (od_rr : return_residual st = true).

(** What the swaps never change: on the GPU the patch keeps its own pixel array. *)
Definition host_data (st : state) : option (list R) := nth_error (buffers st) (attr_data st).

(** evaluate never changes the data. *)
Lemma evaluate_on_device st heap r sc data props : on_device st heap r sc data -> exists chi der res st1,
  evaluate E gpu st props = Some (st1, (chi, der, Some res)) /\ on_device st1 heap r sc data /\
  nth_error (buffers st1) match struct st1 with Some (_, Some a, _) => a | _ => 0 end = Some res /\
  (gpu = true -> host_data st1 = host_data st) /\ dirty st1 = dirty st /\
  (forall m ref sc', pack_meta E sc = Some (ref, sc', m) -> exists old, List.length old = NP /\
      res = write_residual (kernel_patch E m data) NB (fun i => nth i props no_source) old).
Proof.
  intros [sc' m ref d a id old Hh Hpk Hr Hs Hm Hne Hd Ho [L1 L2] Hpd Hpr Ha Hrr].
  unfold evaluate. rewrite Hs, Hm, Nat.eqb_refl. cbn [negb]. rewrite andb_false_r, Hd, Ho, Hrr.
  set (new := write_residual (kernel_patch E m data) NB (fun i => nth i props no_source) old).
  assert (La : a < List.length (buffers st)) by (apply nth_error_Some; congruence).
  assert (Na : nth_error (upd a new (buffers st)) a = Some new).
  { rewrite nth_error_upd, Nat.eqb_refl. destruct (Nat.ltb_spec a (List.length (buffers st))); [reflexivity|lia]. }
  assert (Er : (if gpu then ptr_residual st else attr_residual st) = Some a) by (destruct gpu; [auto|apply Ha]).
  rewrite Er, Na. do 4 eexists. split; [reflexivity|]. cbn [buffers struct dirty host_data attr_data].
  split; [|split; [|split; [|split]]].
  - apply (mkOn _ _ _ _ _ sc' m ref d a id new); auto.
    + cbn [buffers]. rewrite nth_error_upd. destruct (Nat.eqb_spec a d); [congruence|exact Hd].
    + split; auto. unfold new. rewrite write_residual_length. exact L2.
  - exact Na.
  - intros G. rewrite G in Ha. unfold host_data. cbn [buffers attr_data]. rewrite nth_error_upd. destruct (Nat.eqb_spec a (attr_data st)); [destruct Ha; congruence|reflexivity].
  - reflexivity.
  - intros m' ref' sc'' Hp. assert (m' = m) by congruence. subst m'. exists old. split; auto.
Qed.

(** One round of the loop. *)
Lemma loop_step st heap r sc data r2 sc2 t : on_device st heap r sc data -> nth_error heap r2 = Some sc2 -> sc_sources sc2 <> [] ->
  exists st' heap' data', subtract_loop E gpu st heap r (r2 :: t) = subtract_loop E gpu st' heap' r2 t /\
    on_device st' heap' r2 sc2 data' /\ (exists sc2', heap' = upd r2 sc2' heap) /\
    (gpu = true -> host_data st' = host_data st) /\ dirty st' = (gpu || dirty st) /\
    forall k e ex p, nth_error (bandlist (pk E)) k = Some (x_band ex) -> nth_error exps e = Some ex -> p < List.length (x_flux ex) ->
      let pix := nth e (pk_exposure_start (pk E)) 0 + p in nth pix data' 0%R = (nth pix data 0 - scene_counts k e pix sc)%R.
Proof.
  intros Hon H2 Hne2. assert (Hon0 := Hon). destruct Hon0 as [sc' m ref d a id old Hh Hpk _ _ _ _ _ _ _ _ _ _ _].
  destruct (evaluate_on_device _ _ _ _ _ (get_proposal sc') Hon) as (chi & der & res & st1 & He & Hon1 & Hres & Hhost & Hdirty & Hval).
  destruct (Hval m ref sc' Hpk) as (old1 & Lold & Eres). destruct (pack_meta_ok sc2 Hne2) as (ref2 & sc2' & m2 & Hpk2).
  cbn [subtract_loop]. rewrite Hh, He. unfold pack_object. rewrite H2, Hpk2. clear Hval Hon d a id old.
  destruct Hon1 as [sc1 m1 ref1 d a id old Hh1 Hpk1 Hr Hs Hm Hn Hd Ho [L1 L2] Hpd Hpr Ha Hrr].
  rewrite Hs in Hres. assert (old = res) by congruence. subst old.
  unfold swap_on_device. cbn [set_meta ptr_residual ptr_data]. rewrite Hpr, Hpd. unfold replace_meta. cbn [set_meta host_meta].
  cbn [set_meta buffers attr_data attr_residual host_meta packings reference ptr_data ptr_residual ptr_meta struct dirty return_residual].
  assert (LH : r2 < List.length heap) by (apply nth_error_Some; congruence).
  assert (Hh2 : nth_error (upd r2 sc2' heap) r2 = Some sc2').
  { rewrite nth_error_upd, Nat.eqb_refl. destruct (Nat.ltb_spec r2 (List.length heap)); [reflexivity|lia]. }
  assert (Hpix : forall k e ex p, nth_error (bandlist (pk E)) k = Some (x_band ex) -> nth_error exps e = Some ex -> p < List.length (x_flux ex) ->
      let pix := nth e (pk_exposure_start (pk E)) 0 + p in nth pix res 0%R = (nth pix data 0 - scene_counts k e pix sc)%R).
  { intros k e ex p Hk Hx Hp. cbv zeta. rewrite Eres. apply (scene_residual sc ref sc' m data old1 k e ex p); auto. }
  destruct gpu eqn:G.
  - unfold send_patchstruct. cbn [buffers attr_data attr_residual host_meta packings reference ptr_data ptr_residual ptr_meta struct dirty return_residual negb andb option_map].
    do 3 eexists. split; [reflexivity|]. split; [|split; [eauto|split; [|split; [|exact Hpix]]]].
    + apply (mkOn _ _ _ _ _ sc2' m2 ref2 a d (S (packings st1)) data);
        cbn [buffers attr_data attr_residual host_meta packings reference ptr_data ptr_residual ptr_meta struct dirty return_residual]; auto. rewrite G. tauto.
    + intros _. rewrite <- (Hhost eq_refl). reflexivity.
    + reflexivity.
  - destruct Ha as [Ha1 Ha2]. rewrite Ha2. unfold send_patchstruct.
    cbn [buffers attr_data attr_residual host_meta packings reference ptr_data ptr_residual ptr_meta struct dirty return_residual negb andb option_map].
    do 3 eexists. split; [reflexivity|]. split; [|split; [eauto|split; [discriminate|split; [|exact Hpix]]]].
    + apply (mkOn _ _ _ _ _ sc2' m2 ref2 a d (S (packings st1)) data);
        cbn [buffers attr_data attr_residual host_meta packings reference ptr_data ptr_residual ptr_meta struct dirty return_residual]; auto. rewrite G, Ha1. auto.
    + cbn [orb dirty]. exact Hdirty.
Qed.

Definition pixel_eq (data' data : list R) (minus : nat -> nat -> nat -> R) : Prop :=
  forall k e ex p, nth_error (bandlist (pk E)) k = Some (x_band ex) -> nth_error exps e = Some ex -> p < List.length (x_flux ex) ->
    let pix := nth e (pk_exposure_start (pk E)) 0 + p in nth pix data' 0%R = (nth pix data 0 - minus k e pix)%R.

(** All rounds: the scene objects [rest] are distinct and hold [scs]. *)
Lemma loop_all : forall rest scs st heap r sc data, on_device st heap r sc data -> NoDup rest -> 
  Forall2 (fun r sc => nth_error heap r = Some sc /\ sc_sources sc <> []) rest scs ->
  exists st' heap' data', subtract_loop E gpu st heap r rest = Some (st', heap') /\
    on_device st' heap' (List.last rest r) (List.last scs sc) data' /\
    (gpu = true -> host_data st' = host_data st) /\
    dirty st' = (match rest with [] => false | _ => gpu end || dirty st) /\
    pixel_eq data' data (fun k e pix => sumR (scene_counts k e pix) (removelast (sc :: scs))).
Proof.
  induction rest as [|r2 rest IH]; intros scs st heap r sc data Hon ND HF; inversion HF; subst.
  - exists st, heap, data. split; [reflexivity|]. split; [exact Hon|]. split; [auto|]. split; [reflexivity|].
    intros k e ex p _ _ _. cbv zeta. cbn [removelast]. unfold sumR. simpl. ring.
  - inversion ND; subst. destruct H1 as [Hr2 Hne]. destruct (loop_step st heap r sc data r2 y rest Hon Hr2 Hne) as (st1 & heap1 & data1 & E1 & Hon1 & (s2 & Hh) & Hho & Hdi & Hp1).
    rewrite E1. destruct (IH l' st1 heap1 r2 y data1 Hon1) as (st' & heap' & data' & E2 & Hon' & Hho' & Hdi' & Hp'); auto.
    { clear -H3 H2 Hh. subst heap1. revert H3 H2. generalize l' as m. induction rest as [|x t IHt]; intros m HF NI; inversion HF; subst; constructor.
      - destruct H1 as [A B]. split; auto. rewrite nth_error_upd. destruct (Nat.eqb_spec r2 x); [subst; exfalso; apply NI; simpl; auto|exact A].
      - apply IHt; auto. intros HI. apply NI. simpl. auto. }
    exists st', heap', data'. split; [exact E2|]. split.
    { rewrite !last_shift. exact Hon'. }
    split; [intros G; rewrite Hho', Hho; auto|]. split.
    { rewrite Hdi', Hdi. destruct rest, gpu; auto. }
    intros k e ex p Hk He Hp. cbv zeta. rewrite (Hp' k e ex p Hk He Hp), (Hp1 k e ex p Hk He Hp).
    change (removelast (sc :: y :: l')) with (sc :: removelast (y :: l')). rewrite sumR_cons. ring.
Qed.
End Loop.
