(** C30 on a prepared patch: design_matrix and optimize_fluxes. *)
From Verif Require Import Np NpFacts ChainFacts KernelModel KernelFacts KernelSum PackModel PackFacts PackBuild PackProps PackPsf StoreFacts DeviceModel DeviceFacts DeviceLoop DeviceProps DeviceZero LinOptModel LinOptProps.
From Coq Require Import Reals Lra.
Open Scope R_scope.
Close Scope R_scope.
Open Scope nat_scope.

(** ** Splitting by position *)
Lemma split_from_map {A B} (f : A -> B) cuts : forall i l, split_from i cuts (map f l) = map (map f) (split_from i cuts l).
Proof. induction cuts as [|c cuts IH]; intros i l; cbn [split_from map]; rewrite skipn_map; [reflexivity|]. now rewrite firstn_map, IH. Qed.
Lemma split_band_map {A B V} (pk : packed V) (f : A -> B) l : split_band pk (map f l) = map (map f) (split_band pk l).
Proof. apply split_from_map. Qed.
Lemma list_as_map {A} (l : list A) d : l = map (fun i => nth i l d) (seq 0 (List.length l)).
Proof.
  induction l as [|x l IH]; auto. cbn [List.length seq map nth]. f_equal. rewrite <- seq_shift, map_map. exact IH.
Qed.

(** ** Linearity in the flux *)
Lemma residual_linear f xp yp a x y c r2 d1 d2 CW T Z1 Z2 g :
  residual_term xp yp (GetGaussianAndJacobian (mkPG a x y c f r2 d1 d2 CW T Z1 Z2) g) =
  (f * residual_term xp yp (GetGaussianAndJacobian (mkPG a x y c 1 r2 d1 d2 CW T Z1 Z2) g))%R.
Proof.
  unfold residual_term. cbv zeta. unfold GetGaussianAndJacobian. cbv zeta. cbn [s_covar s_T s_G s_flux s_amp s_xcen s_ycen fxx fyy fxy xcen ycen amp].
  destruct (Rlt_dec _ _); ring.
Qed.
Lemma counts_linear sp psf w cat f ra dec q pa n rh xp yp :
  source_counts sp psf w cat f ra dec q pa n rh xp yp = (f * source_counts sp psf w cat 1 ra dec q pa n rh xp yp)%R.
Proof. unfold source_counts. cbv zeta. rewrite <- sumR_scal. apply sumR_ext. intros g _. apply residual_linear. Qed.

(** Counts at (xp, yp) per unit flux of the source of a catalog row *)
Definition unit_counts (E : env) (ex : exposure R) (w : wcs) (row : catrow) (xp yp : R) : R :=
  source_counts (splinedata E) (nth 0 (psf_parameters E (x_band ex)) []) w (c_ra row, c_dec row) 1
    (c_ra row) (c_dec row) (c_q row) (c_pa row) (c_sersic row) (c_rhalf row) xp yp.
(** chi^2 of the images of band [b] as a function of the fluxes [g] of the sources *)
Definition band_chi2 (E : env) (exps : list (exposure R)) (data : list R) (active : list catrow) (b : string) (g : list R) : R :=
  sumR (fun e => match nth_error exps e, nth_error (wcses E) e, nth_error (split_pix (pk E) data) e with
                 | Some ex, Some w, Some img =>
                   if string_dec (x_band ex) b then
                     sumR (fun p => ((nth p img 0 - sumR (fun ir => nth (fst ir) g 0 * unit_counts E ex w (snd ir) (nth p (x_xpix ex) 0) (nth p (x_ypix ex) 0))
                                        (combine (seq 0 (List.length active)) active)) * nth p (x_ierr ex) 0) ^ 2)%R (seq 0 (List.length (x_flux ex)))
                   else 0%R
                 | _, _, _ => 0%R
                 end) (seq 0 (List.length exps)).

Section Fluxes.
Variables (sub : R -> R -> R) (allbands : list string) (exps : list (exposure R)) (offsets : option (list R)) (E : env) (gpu : bool).
Hypothesis ready : patch_built sub allbands exps offsets E.
Let built := proj1 ready.
Let lengths := proj1 (proj2 ready).
Let bands_ok := proj1 (proj2 (proj2 ready)).
Let wcs_ok := proj1 (proj2 (proj2 (proj2 ready))).
Let psf_ok := proj2 (proj2 (proj2 (proj2 ready))).
Notation NB := (List.length (bandlist (pk E))).
Notation NP := (List.length (pk_data (pk E))).

(** Data and residual buffers are in place. *)
Inductive device_ready (st : state) (data : list R) : Prop :=
  mkReady (d a : nat) (old : list R)
  (rd_ne : d <> a)
  (rd_data : nth_error (buffers st) d = Some data)
  (rd_res : nth_error (buffers st) a = Some old)
  (rd_len : List.length data = NP /\ List.length old = NP)
  (rd_pd : ptr_data st = Some d)
  (rd_pr : ptr_residual st = Some a)
  (rd_attr : if gpu then attr_data st <> d /\ attr_data st <> a else attr_data st = d /\ attr_residual st = Some a)
  (rd_rr : return_residual st = true).
Lemma on_ready st heap r sc data : on_device E gpu st heap r sc data -> device_ready st data.
Proof. intros [sc' m ref d a id old H1 H2 H3 H4 H5 H6 H7 H8 H9 H10 H11 H12 H13]. apply (mkReady _ _ d a old); auto. Qed.
Lemma ready_retrieve st data : device_ready st data -> retrieve_data gpu st = Some data.
Proof. intros [d a old H1 H2 H3 H4 H5 H6 H7 H8]. unfold retrieve_data. destruct gpu; [now rewrite H5|]. destruct H7 as [-> _]. exact H2. Qed.
Lemma load_scene st data sc ref sc' m : device_ready st data -> pack_meta E sc = Some (ref, sc', m) -> exists st1 st2,
  replace_meta (set_meta ref m st) = Some st1 /\ send_patchstruct gpu st1 = Some st2 /\ on_device E gpu st2 [sc'] 0 sc data.
Proof.
  intros [d a old H1 H2 H3 H4 H5 H6 H7 H8] Hp. unfold replace_meta. cbn [set_meta host_meta]. eexists. unfold send_patchstruct.
  cbn [set_meta buffers attr_data attr_residual host_meta packings reference ptr_data ptr_residual ptr_meta struct dirty return_residual]. 
  assert (Hx : forall (X : option state) (st2 : state), X = Some st2 -> on_device E gpu st2 [sc'] 0 sc data -> exists st2, X = Some st2 /\ on_device E gpu st2 [sc'] 0 sc data) by eauto.
  assert (G : exists st2, send_patchstruct gpu (mkState (buffers st) (attr_data st) (attr_residual st) (Some (S (packings st), m)) (S (packings st)) ref (ptr_data st) (ptr_residual st) (Some (S (packings st), m)) (struct st) (dirty st) (return_residual st)) = Some st2 /\ on_device E gpu st2 [sc'] 0 sc data).
  { unfold send_patchstruct. cbn [buffers attr_data attr_residual host_meta packings reference ptr_data ptr_residual ptr_meta struct dirty return_residual]. rewrite H5, H6.
    replace (negb gpu && false) with false by (destruct gpu; reflexivity). eexists. split; [reflexivity|].
    apply (mkOn _ _ _ _ _ _ _ sc' m ref d a (S (packings st)) old); auto. }
  destruct G as (st2 & G1 & G2). exists st2. split; [reflexivity|]. split; [exact G1|exact G2].
Qed.

(** Pixel numbers of band [k] *)
Definition indices (k : nat) : list nat := nth k (split_band (pk E) (seq 0 NP)) [].
Lemma band_part arr k : List.length arr = NP -> k < NB -> nth_error (split_band (pk E) arr) k = Some (map (fun i => nth i arr 0%R) (indices k)).
Proof.
  intros HL Hk. rewrite (list_as_map arr 0%R) at 1. rewrite HL, split_band_map, nth_error_map.
  destruct (C25_bands sub _ _ _ _ built lengths) as (_ & _ & _ & _ & _ & _ & Hb).
  destruct (nth_error (bandlist (pk E)) k) as [b|] eqn:Ek; [|apply nth_error_None in Ek; lia].
  destruct (Hb k b Ek) as (s & n & npx & H1 & H2 & _).
  destruct (C25_split sub _ _ _ _ built lengths (seq 0 NP) (seq_length _ _)) as (_ & _ & _ & _ & _ & _ & Hsp).
  unfold indices. rewrite (nth_error_nth _ _ [] (Hsp k s n H1 H2)), (Hsp k s n H1 H2). reflexivity.
Qed.
(** A sum over the pixels of a band is a sum over its exposures and their pixels. *)
Lemma band_sum k b (F : nat -> R) : nth_error (bandlist (pk E)) k = Some b ->
  sumR F (indices k) = sumR (fun e => match nth_error exps e with
    | Some ex => if string_dec (x_band ex) b then sumR (fun p => F (nth e (pk_exposure_start (pk E)) 0 + p)) (seq 0 (List.length (x_flux ex))) else 0%R
    | None => 0%R end) (seq 0 (List.length exps)).
Proof.
  intros Hk. destruct (C25_bands sub _ _ _ _ built lengths) as (_ & _ & _ & _ & _ & _ & Hb).
  destruct (Hb k b Hk) as (s & n & npx & H1 & H2 & _ & _ & _ & H3 & _).
  destruct (C25_split sub _ _ _ _ built lengths (seq 0 NP) (seq_length _ _)) as (_ & _ & HLen & Hx & _ & _ & Hsp).
  destruct (C25_exposures sub _ _ _ _ built lengths) as (L1 & L2 & Hex & _ & Hend & _).
  assert (LS : List.length (split_pix (pk E) (seq 0 NP)) = List.length exps) by (rewrite <- L2, <- HLen; now rewrite map_length).
  unfold indices. rewrite (nth_error_nth _ _ [] (Hsp k s n H1 H2)).
  assert (Ecat : slice s n (split_pix (pk E) (seq 0 NP)) = map (fun e => nth e (split_pix (pk E) (seq 0 NP)) []) (filter (fun e => match nth_error exps e with Some ex => if string_dec (x_band ex) b then true else false | None => false end) (seq 0 (List.length exps)))).
  { rewrite (list_as_map (split_pix (pk E) (seq 0 NP)) []) at 1. unfold slice. rewrite skipn_map, firstn_map, LS. f_equal.
    assert (G : forall (c : nat -> bool) len a, (forall e, a <= e < a + len -> c e = ((s <=? e) && (e <? s + n))%bool) ->
       filter c (seq a len) = firstn (s + n - Nat.max a s) (skipn (s - a) (seq a len))).
    { clear. intros c. induction len as [|len IH]; intros a H; simpl seq; [now rewrite skipn_nil, firstn_nil|].
      cbn [filter]. rewrite (H a) by lia. rewrite IH by (intros; apply H; lia).
      destruct (Nat.leb_spec s a) as [L|L]; destruct (Nat.ltb_spec a (s + n)) as [L'|L']; cbn [andb].
      - replace (s - a) with 0 by lia. replace (s - S a) with 0 by lia. rewrite !skipn_O. replace (s + n - Nat.max a s) with (S (s + n - Nat.max (S a) s)) by lia. reflexivity.
      - replace (s + n - Nat.max (S a) s) with 0 by lia. replace (s + n - Nat.max a s) with 0 by lia. reflexivity.
      - replace (s - a) with (S (s - S a)) by lia. cbn [skipn]. replace (Nat.max (S a) s) with (Nat.max a s) by lia. reflexivity.
      - lia. }
    rewrite (G _ (List.length exps) 0).
    - rewrite Nat.max_0_l, Nat.sub_0_r. replace (s + n - s) with n by lia. reflexivity.
    - intros e [_ He]. simpl in He. destruct (nth_error exps e) as [ex|] eqn:Ee; [|apply nth_error_None in Ee; lia]. specialize (H3 e ex Ee).
      destruct (string_dec (x_band ex) b) as [Eb|Nb].
      + apply H3 in Eb. symmetry. apply andb_true_iff. split; [apply Nat.leb_le|apply Nat.ltb_lt]; lia.
      + symmetry. apply andb_false_iff. destruct (Nat.leb_spec s e); [right|left; reflexivity]. apply Nat.ltb_ge. destruct (Nat.le_gt_cases (s + n) e); auto. exfalso. apply Nb. apply H3. lia. }
  rewrite Ecat. rewrite <- flat_map_concat_map, sumR_flat.
  rewrite (sumR_ext _ (fun e => match nth_error exps e with
    | Some ex => if string_dec (x_band ex) b then sumR (fun p => F (nth e (pk_exposure_start (pk E)) 0 + p)) (seq 0 (List.length (x_flux ex))) else 0%R
    | None => 0%R end)).
  - apply sumR_filter. intros e H. destruct (nth_error exps e); auto. destruct (string_dec _ _); [discriminate|reflexivity].
  - intros e He. apply filter_In in He. destruct He as [He Hc]. destruct (nth_error exps e) as [ex|] eqn:Ee; [|discriminate]. destruct (string_dec (x_band ex) b); [|discriminate].
    destruct (Hex e ex Ee) as (s0 & Hs0 & Hn0 & _). rewrite (nth_error_nth _ _ [] (Hx e s0 _ Hs0 Hn0)), (nth_error_nth _ _ 0 Hs0).
    assert (Hb0 : s0 + List.length (x_flux ex) <= NP).
    { rewrite (npix_sum sub allbands exps offsets E built lengths). assert (He' : e < List.length exps) by (apply nth_error_Some; congruence).
      pose proof (exposure_tiles sub allbands exps offsets E built lengths e He') as T. rewrite (nth_error_nth _ _ 0 Hs0) in T. rewrite T.
      rewrite <- (sum_firstn_skipn (pk_exposure_N (pk E)) (S e)). rewrite <- Nat.add_1_r at 1. rewrite firstn_sum_add.
      assert (Efs : firstn 1 (skipn e (pk_exposure_N (pk E))) = [List.length (x_flux ex)]).
      { pose proof (nth_error_skipn (pk_exposure_N (pk E)) e 0) as Hsk. rewrite Nat.add_0_r, Hn0 in Hsk. destruct (skipn e (pk_exposure_N (pk E))) as [|x l]; [discriminate|]. simpl in *. congruence. }
      rewrite Efs. simpl. lia. }
    assert (Esl : slice s0 (List.length (x_flux ex)) (seq 0 NP) = map (fun p => s0 + p) (seq 0 (List.length (x_flux ex)))).
    { rewrite seq_plus. unfold slice. replace NP with (s0 + (List.length (x_flux ex) + (NP - s0 - List.length (x_flux ex)))) by lia.
      rewrite !seq_app. rewrite skipn_app, seq_length, Nat.sub_diag, skipn_all2 by (rewrite seq_length; lia). simpl. rewrite firstn_app, seq_length, Nat.sub_diag, firstn_O, app_nil_r. apply firstn_all2. rewrite seq_length. lia. }
    rewrite Esl, sumR_map. reflexivity.
Qed.

(** [U] gives, at every pixel number of band [b], the counts per unit flux of [row]. *)
Definition unit_fn (b : string) (row : catrow) (U : nat -> R) : Prop :=
  forall e ex w p xp yp, nth_error exps e = Some ex -> x_band ex = b -> nth_error (wcses E) e = Some w ->
    nth_error (x_xpix ex) p = Some xp -> nth_error (x_ypix ex) p = Some yp ->
    U (nth e (pk_exposure_start (pk E)) 0 + p) = unit_counts E ex w row xp yp.
Definition nonzero_fluxes (row : catrow) : Prop := forall b, In b (map x_band exps) -> exists f, c_flux row b = Some f /\ f <> 0%R.

Lemma design_row_spec st data row : device_ready st data -> nonzero_fluxes row -> exists st' rws,
  design_row E gpu None data st row = Some (st', rws) /\ device_ready st' data /\ reference st' = (c_ra row, c_dec row) /\
  forall k b, nth_error (bandlist (pk E)) k = Some b -> exists U, nth_error rws k = Some (map U (indices k)) /\ unit_fn b row U.
Proof.
  intros Hr Hf. assert (Hfx : has_fluxes exps [row]).
  { intros r b [<-|[]] Hb. destruct (Hf b Hb) as (f & -> & _). discriminate. }
  destruct (scene_of sub allbands exps offsets E ready [row] None Hfx) as (sc & Esc & Hsp & HF). cbn in Hsp.
  inversion HF as [|row0 g l l' Hs HF' E1 E2]; subst row0 l. inversion HF'; subst l'. symmetry in E2.
  destruct (pack_meta_ok sub allbands exps offsets E built lengths bands_ok psf_ok sc) as (ref & sc' & m & Hp); [rewrite E2; discriminate|].
  destruct (load_scene st data sc ref sc' m Hr Hp) as (st1 & st2 & Q1 & Q2 & Hon).
  destruct (evaluate_on_device exps E gpu wcs_ok _ _ _ _ _ (get_proposal sc') Hon) as (chi & der & res & st3 & Ev & Hon3 & _ & _ & _ & Hval).
  destruct (Hval m ref sc' Hp) as (old & Lold & Eres). unfold design_row. rewrite Esc, Hp, Q1, Q2, Ev.
  assert (Ldata : List.length data = NP) by (destruct Hr as [? ? ? ? ? ? [? ?]]; auto).
  assert (Lres : List.length res = NP) by (rewrite Eres, write_residual_length; auto).
  assert (Lv : List.length (vsub data res) = NP) by (rewrite vsub_length; congruence).
  set (flux := fun b => match c_flux row b with Some f => f | None => 0%R end).
  assert (HM : mapM (fun jb => match nth_error (split_band (pk E) (vsub data res)) (fst jb), c_flux row (snd jb) with
                               | Some part, Some f => if Req_EM_T f 0 then None else Some (map (fun v => (v / f)%R) part) | _, _ => None end)
                    (combine (seq 0 NB) (bandlist (pk E)))
             = Some (map (fun jb => map (fun i => ((nth i data 0 - nth i res 0) / flux (snd jb))%R) (indices (fst jb))) (combine (seq 0 NB) (bandlist (pk E))))).
  { assert (G : forall l, (forall jb, In jb l -> fst jb < NB /\ In (snd jb) (map x_band exps)) ->
      mapM (fun jb => match nth_error (split_band (pk E) (vsub data res)) (fst jb), c_flux row (snd jb) with
                               | Some part, Some f => if Req_EM_T f 0 then None else Some (map (fun v => (v / f)%R) part) | _, _ => None end) l
      = Some (map (fun jb => map (fun i => ((nth i data 0 - nth i res 0) / flux (snd jb))%R) (indices (fst jb))) l)).
    { induction l as [|[j b] l IH]; intros Hl; auto. cbn [mapM map fst snd]. destruct (Hl (j, b)) as [Hj Hb]; [simpl; auto|]. cbn [fst snd] in Hj, Hb.
      rewrite (band_part _ j Lv Hj). destruct (Hf b Hb) as (f & Ef & Hf0). unfold flux at 1. rewrite Ef. destruct (Req_EM_T f 0); [contradiction|].
      rewrite IH by (intros; apply Hl; simpl; auto). rewrite map_map. f_equal. f_equal. apply map_ext. intros i. rewrite vsub_nth by congruence. reflexivity. }
    apply G. intros [j b] Hin. cbn [fst snd]. split; [apply in_combine_l in Hin; apply in_seq in Hin; lia|].
    apply in_combine_r in Hin. now apply (bandlist_in sub allbands exps offsets E ready). }
  rewrite HM. do 2 eexists. split; [reflexivity|]. split; [eapply on_ready; eauto|]. split.
  { destruct Hon3 as [sx mx refx dx ax idx oldx O1 O2 O3 _ _ _ _ _ _ _ _ _ _]. rewrite O3. destruct (pack_meta_zero _ _ _ _ _ O2) as [_ Hz].
    unfold zerocoords in Hz. cbv zeta iota in Hz. rewrite E2 in Hz. assert (Er : refx = fst (refx, sx)) by reflexivity. rewrite Hz in Er. rewrite Er. cbn [fst map].
    destruct Hs as (-> & -> & _). reflexivity. }
  intros k b Hk. exists (fun i => ((nth i data 0 - nth i res 0) / flux b)%R). split.
  - rewrite nth_error_map. assert (Hc : nth_error (combine (seq 0 NB) (bandlist (pk E))) k = Some (k, b)); [|now rewrite Hc].
    assert (Hkn : k < NB) by (apply nth_error_Some; congruence). clear -Hk Hkn.
    assert (G : forall (l : list string) a k b, nth_error l k = Some b -> nth_error (combine (seq a (List.length l)) l) k = Some (a + k, b)).
    { induction l as [|x l IH]; intros a [|k'] b' H; simpl in *; try discriminate.
      - injection H as ->. now rewrite Nat.add_0_r.
      - rewrite (IH (S a) k' b' H). f_equal. f_equal. lia. }
    apply (G _ 0). exact Hk.
  - intros e ex w p xp yp He Hb Hw Hx Hy. destruct (pixel_xy sub allbands exps offsets E ready e ex p xp yp He Hx Hy) as (Hpx & Px & Py). cbv zeta in Px, Py.
    assert (Hk' : nth_error (bandlist (pk E)) k = Some (x_band ex)) by congruence.
    pose proof (scene_residual sub allbands exps offsets E built lengths bands_ok wcs_ok psf_ok sc ref sc' m data old k e ex p Hp Lold Hk' He Hpx) as Hsr. cbv zeta in Hsr.
    rewrite Eres. change (fun i : nat => nth i (get_proposal sc') no_source) with (fun i => nth i (get_proposal sc') no_source) in Hsr. rewrite Hsr.
    unfold scene_counts. rewrite E2, sumR_cons. unfold galaxy_counts. rewrite He, Hw, Px, Py, Hsp. destruct Hs as (S1 & S2 & S3 & S4 & S5 & S6 & S7). rewrite S1, S2, S3, S4, S5, S6.
    specialize (S7 k b Hk). unfold flux. rewrite S7. destruct (Hf b) as (f & Ef & Hf0); [rewrite <- Hb; apply in_map; eapply nth_error_In; eauto|].
    assert (Ef' : nth k (g_flux g) 0%R = f) by congruence. rewrite Ef', (counts_linear _ _ _ _ f). unfold unit_counts. unfold sumR. cbn [fold_right]. field. exact Hf0.
Qed.

Lemma design_loop_spec : forall active st data, device_ready st data -> List.Forall nonzero_fluxes active -> exists st' rs,
  design_loop E gpu None data st active = Some (st', rs) /\ device_ready st' data /\ List.length rs = List.length active /\
  (forall l row, active = l ++ [row] -> reference st' = (c_ra row, c_dec row)) /\
  forall k b, nth_error (bandlist (pk E)) k = Some b -> exists Us, Forall2 (unit_fn b) active Us /\ map (fun r => nth k r []) rs = map (fun U => map U (indices k)) Us.
Proof.
  induction active as [|row active IH]; intros st data Hr Hf.
  - exists st, []. split; [reflexivity|]. split; auto. split; auto. split; [intros l row E0; destruct l; discriminate|]. intros k b _. exists []. split; [constructor|reflexivity].
  - inversion Hf; subst. destruct (design_row_spec st data row Hr H1) as (st1 & r1 & E1 & R1 & Rf1 & U1).
    destruct (IH st1 data R1 H2) as (st' & rs & E' & R' & L' & Rf' & U'). exists st', (r1 :: rs). cbn [design_loop]. rewrite E1, E'. split; [reflexivity|]. split; auto. split; [simpl; auto|]. split.
    + intros l r0 E0. destruct l as [|x l]; simpl in E0.
      * injection E0 as <- ->. cbn in E'. injection E' as <- _. exact Rf1.
      * injection E0 as <- ->. eapply Rf'. reflexivity.
    + intros k b Hk. destruct (U1 k b Hk) as (U & EU & HU). destruct (U' k b Hk) as (Us & HUs & EUs). exists (U :: Us). split; [constructor; auto|].
      cbn [map]. rewrite EUs. f_equal. now apply nth_error_nth.
Qed.

Lemma sum_nth_map {A} (I : list A) d (H : A -> R) : sumR (fun q => H (nth q I d)) (seq 0 (List.length I)) = sumR H I.
Proof. symmetry. rewrite (list_as_map I d) at 1. now rewrite sumR_map. Qed.
Lemma model_sum (P : catrow -> (nat -> R) -> Prop) (V : catrow -> R) i g d active Us : Forall2 P active Us -> (forall row U, P row U -> U i = V row) ->
  sumR (fun j => nth j g 0 * nth j Us d i)%R (seq 0 (List.length Us)) = sumR (fun ir => nth (fst ir) g 0 * V (snd ir))%R (combine (seq 0 (List.length active)) active).
Proof.
  intros HF HV. assert (G : forall g', sumR (fun j => g' j * nth j Us d i)%R (seq 0 (List.length Us)) = sumR (fun ir => g' (fst ir) * V (snd ir))%R (combine (seq 0 (List.length active)) active)).
  { induction HF as [|row U active Us HP _ IH]; intros g'; auto. cbn [List.length seq combine]. rewrite !sumR_cons. cbn [fst snd nth]. rewrite (HV row U HP). f_equal.
    rewrite sumR_seq_shift. cbn [nth]. rewrite IH. clear. rewrite <- (seq_shift (List.length active) 0). generalize (seq 0 (List.length active)) as ks. induction active as [|r a IHa]; intros [|k ks]; cbn [map combine]; auto. rewrite !sumR_cons. cbn [fst snd]. f_equal. apply IHa. }
  apply (G (fun j => nth j g 0%R)).
Qed.

Lemma chi2_band data active k b Us g : List.length data = NP -> nth_error (bandlist (pk E)) k = Some b -> Forall2 (unit_fn b) active Us ->
  chi2 (map (fun U => map U (indices k)) Us) (map (fun i => nth i (pk_ierr (pk E)) 0%R) (indices k)) (map (fun i => nth i data 0%R) (indices k))
       (repeat 0%R (List.length (map (fun i => nth i data 0%R) (indices k)))) g
  = band_chi2 E exps data active b g.
Proof.
  intros HL Hk HF. unfold chi2. rewrite !map_length.
  transitivity (sumR (fun i => ((nth i data 0 - sumR (fun j => nth j g 0 * nth j Us (fun _ => 0) i) (seq 0 (List.length Us))) * nth i (pk_ierr (pk E)) 0) ^ 2)%R (indices k)).
  - rewrite <- (sum_nth_map (indices k) 0). apply sumR_ext. intros q Hq. apply in_seq in Hq.
    assert (G : forall U : nat -> R, nth q (map U (indices k)) 0%R = U (nth q (indices k) 0)).
    { intros U. rewrite (nth_indep _ 0%R (U 0)) by (rewrite map_length; lia). apply map_nth. }
    rewrite !G, nth_repeat. f_equal. f_equal. rewrite Rminus_0_r. f_equal. apply sumR_ext. intros j Hj. apply in_seq in Hj.
    rewrite (nth_indep _ [] ((fun U : nat -> R => map U (indices k)) (fun _ => 0%R))) by (rewrite map_length; lia). rewrite (map_nth (fun U : nat -> R => map U (indices k))), G. reflexivity.
  - rewrite (band_sum k b _ Hk). apply sumR_ext. intros e He. apply in_seq in He. destruct (nth_error exps e) as [ex|] eqn:Ee; [|reflexivity].
    destruct (nth_error (wcses E) e) as [w|] eqn:Ew; [|apply nth_error_None in Ew; lia].
    destruct (pixel_image sub allbands exps offsets E ready e ex data Ee HL) as (img & Hi & _ & Pi). rewrite Hi.
    destruct (string_dec (x_band ex) b) as [Eb|]; [|reflexivity]. apply sumR_ext. intros p Hp. apply in_seq in Hp.
    rewrite Pi by lia. pose proof lengths as HA. rewrite Forall_forall in HA. destruct (HA ex (nth_error_In _ _ Ee)) as (La & Lx & Ly).
    assert (Hie : nth (nth e (pk_exposure_start (pk E)) 0 + p) (pk_ierr (pk E)) 0%R = nth p (x_ierr ex) 0%R).
    { destruct (C25_exposures sub _ _ _ _ built lengths) as (_ & _ & Ht & _). destruct (Ht e ex Ee) as (s & Hs & Hn & H1 & H2 & H3 & H4).
      rewrite (nth_error_nth _ _ 0 Hs), <- H2. symmetry. apply (slice_nth sub allbands exps offsets E ready). lia. }
    rewrite Hie. f_equal. f_equal. f_equal.
    apply (model_sum (unit_fn b) (fun row => unit_counts E ex w row (nth p (x_xpix ex) 0%R) (nth p (x_ypix ex) 0%R)) (nth e (pk_exposure_start (pk E)) 0 + p) g (fun _ => 0%R) active Us); auto. intros row U HU. apply (HU e ex w p); auto; apply nth_error_nth'; lia.
Qed.

Section Solve.
Variable linalg_solve : list (list R) -> list R -> option (list R).
Hypothesis solver : solves linalg_solve.

Lemma optimize_bands_nth : forall l i fs ps, optimize_bands linalg_solve i l = inl (fs, ps) -> List.length fs = List.length l /\ List.length ps = List.length l /\
  forall k w X y, nth_error l k = Some (w, X, y) -> exists f A, nth_error fs k = Some f /\ nth_error ps k = Some A /\ optimize_one_band linalg_solve X w y None = Some (f, A).
Proof.
  induction l as [|[[w X] y] l IH]; intros i fs ps H; cbn [optimize_bands] in H.
  - injection H as <- <-. repeat split; auto. intros [|k] ? ? ? E0; discriminate.
  - destruct (optimize_one_band linalg_solve X w y None) as [[f A]|] eqn:Eo; [|discriminate].
    destruct (optimize_bands linalg_solve (S i) l) as [[fs' ps']|] eqn:Eb; [|discriminate]. injection H as <- <-.
    destruct (IH _ _ _ Eb) as (L1 & L2 & Hn). simpl. repeat split; auto. intros [|k] w' X' y' E0; [|apply (Hn k); exact E0].
    cbn in E0. injection E0 as <- <- <-. exists f, A. auto.
Qed.

(** On a patch whose data are on the device, optimize_fluxes returns, for every band
    of the patch, the fluxes of least chi^2 over the images of that band, a symmetric
    positive semi-definite precision matrix that is the curvature of that chi^2, and
    leaves the data alone. *)
Theorem C30_fluxes : forall st data active, device_ready (set_return_residual true st) data -> List.Forall nonzero_fluxes active ->
  exists st' res, optimize_fluxes linalg_solve E gpu st active = Some (st', res) /\ retrieve_data gpu st' = Some data /\
  match res with
  | inr _ => True
  | inl (fs, ps) => List.length fs = NB /\ List.length ps = NB /\
    forall k b, nth_error (bandlist (pk E)) k = Some b -> exists f A, nth_error fs k = Some f /\ nth_error ps k = Some A /\
      List.length f = List.length active /\ (forall g, band_chi2 E exps data active b f <= band_chi2 E exps data active b g)%R /\
      (forall i j, i < List.length active -> j < List.length active -> nth j (nth i A []) 0%R = nth i (nth j A []) 0%R) /\
      (forall z, 0 <= sumR (fun i => sumR (fun j => nth i z 0 * nth j (nth i A []) 0 * nth j z 0) (seq 0 (List.length active))) (seq 0 (List.length active)))%R /\
      (forall g, band_chi2 E exps data active b g = band_chi2 E exps data active b f +
         sumR (fun i => sumR (fun j => (nth i g 0 - nth i f 0) * nth j (nth i A []) 0 * (nth j g 0 - nth j f 0)) (seq 0 (List.length active))) (seq 0 (List.length active)))%R
  end.
Proof.
  intros st data active Hr Hf. destruct (design_loop_spec active _ data Hr Hf) as (st' & rs & El & R' & Lrs & _ & HU).
  unfold optimize_fluxes, design_matrix. assert (Er : retrieve_data gpu st = Some data).
  { rewrite <- (ready_retrieve _ _ Hr). unfold retrieve_data. destruct gpu; reflexivity. }
  rewrite Er, El. exists st'. eexists. split; [reflexivity|]. split; [now apply ready_retrieve|].
  set (l := combine _ _). destruct (optimize_bands linalg_solve 0 l) as [[fs ps]|] eqn:Eb; auto.
  assert (Ld : List.length data = NP) by (destruct Hr as [? ? ? ? ? ? [? ?]]; auto).
  assert (Li : List.length (pk_ierr (pk E)) = NP) by (destruct (C25_exposures sub _ _ _ _ built lengths) as (_ & _ & _ & _ & _ & ? & _); auto).
  assert (Hl : forall k b, nth_error (bandlist (pk E)) k = Some b ->
    nth_error l k = Some (map (fun i => nth i (pk_ierr (pk E)) 0%R) (indices k), map (fun r => nth k r []) rs, map (fun i => nth i data 0%R) (indices k))).
  { intros k b Hk. assert (Hkn : k < NB) by (apply nth_error_Some; congruence). unfold l.
    assert (G : forall {A B} (a : list A) (c : list B) k x y, nth_error a k = Some x -> nth_error c k = Some y -> nth_error (combine a c) k = Some (x, y)).
    { clear. intros A B a. induction a as [|u a IH]; intros [|v c] [|k] x y H1 H2; simpl in *; try discriminate; auto. congruence. }
    apply G; [apply G|].
    - now apply band_part.
    - rewrite nth_error_map. assert (Hs : nth_error (seq 0 NB) k = Some k) by (rewrite nth_error_nth' with (d := 0) by (rewrite seq_length; lia); now rewrite seq_nth). now rewrite Hs.
    - now apply band_part. }
  destruct (optimize_bands_nth _ _ _ _ Eb) as (L1 & L2 & Hn).
  assert (LL : List.length l = NB).
  { unfold l. rewrite !combine_length, map_length, seq_length.
    destruct (C25_split sub _ _ _ _ built lengths (pk_ierr (pk E)) Li) as (_ & _ & _ & _ & _ & M1 & _). destruct (C25_split sub _ _ _ _ built lengths data Ld) as (_ & _ & _ & _ & _ & M2 & _).
    apply (f_equal (@List.length nat)) in M1, M2. rewrite map_length in M1, M2. rewrite M1, M2.
    destruct (C25_bands sub _ _ _ _ built lengths) as (_ & _ & ? & _). lia. }
  split; [congruence|]. split; [congruence|]. intros k b Hk. destruct (Hn k _ _ _ (Hl k b Hk)) as (f & A & Ef & EA & Eo). exists f, A. split; auto. split; auto.
  destruct (HU k b Hk) as (Us & HUs & EX). rewrite EX in Eo. pose proof (forall2_len _ _ _ HUs) as LU.
  set (y := map (fun i => nth i data 0%R) (indices k)) in *. set (w := map (fun i => nth i (pk_ierr (pk E)) 0%R) (indices k)) in *.
  assert (Rx : rectangular (List.length y) (map (fun U : nat -> R => map U (indices k)) Us)).
  { unfold rectangular. apply List.Forall_forall. intros r Hr'. apply in_map_iff in Hr'. destruct Hr' as (U & <- & _). unfold y. now rewrite !map_length. }
  assert (Lw : List.length w = List.length y) by (unfold w, y; now rewrite !map_length).
  destruct (C30_least_squares linalg_solve solver _ w y Rx Lw None I f A Eo) as [Lf Hmin]. rewrite map_length, <- LU in Lf. split; [exact Lf|].
  destruct (C30_precision linalg_solve solver _ w y Rx Lw None I f A Eo) as (_ & _ & Hsym & Hpsd). rewrite map_length, <- LU in Hsym, Hpsd. split; [|split; [exact Hsym|split; [exact Hpsd|]]].
  2:{ intros g. pose proof (C30_curvature linalg_solve solver _ w y Rx Lw None I f A Eo g) as Hc. rewrite map_length, <- LU in Hc. unfold noimage in Hc. unfold w, y in Hc. rewrite !(chi2_band data active k b Us) in Hc by auto. exact Hc. }
  intros g. specialize (Hmin g). unfold noimage in Hmin. unfold w, y in Hmin. rewrite !(chi2_band data active k b Us) in Hmin by auto. exact Hmin.
Qed.

(** prepare_model, then optimize_fluxes. *)
Theorem C30_prepared : forall st data0 active0 fixed big maxactive big_spline active,
  host_data st = Some data0 -> List.length data0 = NP -> dirty st = false ->
  0 < maxactive -> active0 <> [] -> has_fluxes exps active0 -> group exps fixed -> group exps big -> List.Forall nonzero_fluxes active ->
  exists st1 sc data st2 res, prepare_model E gpu st (Some active0) fixed big maxactive big_spline = Some (st1, sc) /\ retrieve_data gpu st1 = Some data /\
  optimize_fluxes linalg_solve E gpu st1 active = Some (st2, res) /\ retrieve_data gpu st2 = Some data /\
  (forall l row, active = l ++ [row] -> reference st2 = (c_ra row, c_dec row)) /\
  match res with
  | inr _ => True
  | inl (fs, ps) => forall k b, nth_error (bandlist (pk E)) k = Some b -> exists f, nth_error fs k = Some f /\
      List.length f = List.length active /\ forall g, (band_chi2 E exps data active b f <= band_chi2 E exps data active b g)%R
  end.
Proof.
  intros st data0 active0 fixed big maxactive big_spline active H1 H2 H3 H4 H5 H6 H7 H8 H9.
  destruct (prepare_core sub allbands exps offsets E gpu ready st data0 active0 fixed big maxactive big_spline H1 H2 H3 H4 H5 H6 H7 H8)
    as (st3 & heap3 & r & sa & sa' & data & Ep & _ & _ & _ & Hon & _).
  pose proof (on_ready _ _ _ _ _ (reset_on_device E gpu _ _ _ _ _ Hon)) as Hr.
  destruct (C30_fluxes (set_return_residual false st3) data active Hr H9) as (st2 & res & Eo & R2 & Hres).
  exists (set_return_residual false st3), sa', data, st2, res. split; [exact Ep|]. split; [eapply retrieve_on_device; eauto|]. split; [exact Eo|]. split; [exact R2|]. split.
  - destruct (design_loop_spec active _ data Hr H9) as (st' & rs & El & _ & _ & Hl & _). intros l row E0. unfold optimize_fluxes, design_matrix in Eo.
    assert (Er : retrieve_data gpu (set_return_residual false st3) = Some data) by (eapply retrieve_on_device; eauto). rewrite Er, El in Eo. injection Eo as <- _. eapply Hl. exact E0.
  - destruct res as [[fs ps]|]; auto. destruct Hres as (_ & _ & Hk). intros k b Hb. destruct (Hk k b Hb) as (f & A & F1 & _ & F2 & F3 & _). exists f. auto.
Qed.

(** optimize_fluxes moves the recorded reference to the last source it was given, so
    that afterwards it no longer undoes the zeroing of the prepared scene. *)
Theorem C39_linear_optimize_refuted : forall st data0 active0 fixed big maxactive big_spline active row,
  host_data st = Some data0 -> List.length data0 = NP -> dirty st = false ->
  0 < maxactive -> active0 <> [] -> has_fluxes exps active0 -> group exps fixed -> group exps big -> List.Forall nonzero_fluxes (active ++ [row]) ->
  exists st1 sc st2 res, prepare_model E gpu st (Some active0) fixed big maxactive big_spline = Some (st1, sc) /\
    optimize_fluxes linalg_solve E gpu st1 (active ++ [row]) = Some (st2, res) /\
    set_scene (bandlist (pk E)) (splinedata E) None active0 = Some (unzerocoords (reference st1) sc) /\
    (reference st1 <> (c_ra row, c_dec row) -> set_scene (bandlist (pk E)) (splinedata E) None active0 <> Some (unzerocoords (reference st2) sc)).
Proof.
  intros st data0 active0 fixed big maxactive big_spline active row H1 H2 H3 H4 H5 H6 H7 H8 H9.
  destruct (C30_prepared st data0 active0 fixed big maxactive big_spline (active ++ [row]) H1 H2 H3 H4 H5 H6 H7 H8 H9) as (st1 & sc & data & st2 & res & P1 & _ & P2 & _ & P3 & _).
  exists st1, sc, st2, res. split; [exact P1|]. split; [exact P2|]. pose proof (C39_prepare _ _ _ _ _ _ _ _ _ _ P1) as Hu. split; [exact Hu|].
  intros Hne Heq. rewrite Hu in Heq. rewrite (P3 active row eq_refl) in Heq. apply Hne.
  assert (Hs : sc_sources sc <> []).
  { intros E0. destruct (scene_of sub allbands exps offsets E ready active0 None H6) as (sc1 & E1 & _ & HF). rewrite Hu in E1. injection E1 as E1.
    assert (E2 : sc_sources sc1 = []) by (rewrite <- E1; unfold unzerocoords; cbn; now rewrite E0). rewrite E2 in HF. inversion HF. congruence. }
  destruct sc as [sp [|g l]]; [easy|]. unfold unzerocoords in Heq. cbn [sc_sources sc_spline map] in Heq. unfold shift_source at 1 3 in Heq. cbn [fst snd] in Heq.
  destruct (reference st1) as [a b]. cbn [fst snd] in Heq. f_equal; injection Heq; intros; lra.
Qed.
End Solve.
End Fluxes.

(** A source whose flux is zero in some band of the patch has no design row: no flux
    of any source in any band is returned. *)
Theorem C30_zero_flux_refuted : forall linalg_solve E gpu st active row b, In row active -> In b (bandlist (pk E)) -> c_flux row b = Some 0%R ->
  optimize_fluxes linalg_solve E gpu st active = None.
Proof.
  intros ls E gpu st active row b Hr Hb Hf. unfold optimize_fluxes, design_matrix. destruct (retrieve_data gpu st) as [y|]; auto.
  assert (G : forall active st, In row active -> design_loop E gpu None y st active = None); [|now rewrite G].
  assert (D : forall st, design_row E gpu None y st row = None).
  { intros s. unfold design_row. destruct (set_scene _ _ _ _); auto. destruct (pack_meta _ _) as [[[? ?] ?]|]; auto. destruct (replace_meta _); auto. destruct (send_patchstruct _ _); auto.
    destruct (evaluate _ _ _ _) as [[? [[? ?] [res|]]]|]; auto. destruct (mapM _ _) as [rws|] eqn:Em; auto. exfalso.
    apply In_nth_error in Hb. destruct Hb as (k & Hk).
    assert (Hc : In (k, b) (combine (seq 0 (List.length (bandlist (pk E)))) (bandlist (pk E)))).
    { assert (Hkn : k < List.length (bandlist (pk E))) by (apply nth_error_Some; congruence).
      apply (nth_error_In _ k). clear -Hk.
      assert (G : forall (l : list string) a k b, nth_error l k = Some b -> nth_error (combine (seq a (List.length l)) l) k = Some (a + k, b)).
      { induction l as [|x l IH]; intros a [|k'] b' H; simpl in *; try discriminate.
        - injection H as ->. now rewrite Nat.add_0_r.
        - rewrite (IH (S a) k' b' H). f_equal. f_equal. lia. }
      apply (G _ 0). exact Hk. }
    apply In_nth_error in Hc. destruct Hc as (i & Hi). destruct (mapM_nth _ _ _ Em) as [_ Hm]. destruct (Hm i _ Hi) as (v & _ & Hv). cbn [fst snd] in Hv.
    assert (X : forall o : option (list R), match o, c_flux row b with Some part, Some f => if Req_EM_T f 0 then None else Some (map (fun v => (v / f)%R) part) | _, _ => None end = None).
    { intros [o|]; auto. rewrite Hf. destruct (Req_EM_T 0 0); [reflexivity|lra]. }
    rewrite X in Hv. discriminate. }
  clear Hr. intros act. induction act as [|x l IH]; intros s Hin; [easy|]. cbn [design_loop]. destruct Hin as [->|Hin]; [now rewrite D|].
  destruct (design_row E gpu None y s x) as [[s1 r1]|]; auto. now rewrite IH.
Qed.
