(** Properties C29 and C39: subtracting fixed sources; zeroing coordinates. *)
From Verif Require Import Np NpFacts ChainFacts KernelModel KernelFacts KernelSum PackModel PackFacts PackBuild PackProps PackPsf StoreFacts DeviceModel DeviceFacts DeviceLoop.
From Coq Require Import Reals Lra.
Open Scope R_scope.
Close Scope R_scope.
Open Scope nat_scope.

(** A patch built from [exps]: the packed pixels, one band and WCS per exposure, and a
    PSF store that declares the size of its tables. *)
Definition patch_built (sub : R -> R -> R) (allbands : list string) (exps : list (exposure R)) (offsets : option (list R)) (E : env) : Prop :=
  build_patch sub allbands exps offsets = Some (pk E) /\ Forall aligned exps /\ bands E = map x_band exps /\
  List.length (wcses E) = List.length exps /\
  forall b, In b (map x_band exps) -> psf_attr E b = Some (List.length (nth 0 (psf_parameters E b) [])).
(** A catalog with a flux column for every band of the patch *)
Definition has_fluxes (exps : list (exposure R)) (cat : list catrow) : Prop :=
  forall row b, In row cat -> In b (map x_band exps) -> c_flux row b <> None.
(** A group of sources to subtract: absent, or at least one *)
Definition group (exps : list (exposure R)) (cat : option (list catrow)) : Prop :=
  match cat with None => True | Some c => c <> [] /\ has_fluxes exps c end.
Definition rows (cat : option (list catrow)) : list catrow := match cat with None => [] | Some c => c end.

Open Scope R_scope.
(** Counts from the source of a catalog row at (xp, yp) on an exposure *)
Definition row_counts (E : env) (sp : spline) (ex : exposure R) (w : wcs) (row : catrow) (xp yp : R) : R :=
  match c_flux row (x_band ex) with
  | Some f => source_counts sp (nth 0 (psf_parameters E (x_band ex)) []) w (c_ra row, c_dec row) f
                (c_ra row) (c_dec row) (c_q row) (c_pa row) (c_sersic row) (c_rhalf row) xp yp
  | None => 0
  end.
(** Counts from a source with other parameters [g] (absolute position), drawn with the
    local linear WCS of the catalog row *)
Definition moved_counts (E : env) (sp : spline) (ex : exposure R) (w : wcs) (k : nat) (ref : R * R) (rg : catrow * galaxy) (xp yp : R) : R :=
  let g := snd rg in
  source_counts sp (nth 0 (psf_parameters E (x_band ex)) []) w (c_ra (fst rg), c_dec (fst rg)) (nth k (g_flux g) 0)
    (g_ra g + fst ref) (g_dec g + snd ref) (g_q g) (g_pa g) (g_sersic g) (g_rhalf g) xp yp.
Close Scope R_scope.

Section Props.
Variables (sub : R -> R -> R) (allbands : list string) (exps : list (exposure R)) (offsets : option (list R)) (E : env) (gpu : bool).
Hypothesis ready : patch_built sub allbands exps offsets E.
Let built := proj1 ready.
Let lengths := proj1 (proj2 ready).
Let bands_ok := proj1 (proj2 (proj2 ready)).
Let wcs_ok := proj1 (proj2 (proj2 (proj2 ready))).
Let psf_ok := proj2 (proj2 (proj2 (proj2 ready))).
Notation NB := (List.length (bandlist (pk E))).
Notation NP := (List.length (pk_data (pk E))).

Lemma bandlist_in b : In b (bandlist (pk E)) -> In b (map x_band exps).
Proof.
  intros Hb. destruct (C25_bands sub _ _ _ _ built lengths) as (_ & _ & _ & _ & Hin & _). apply Hin in Hb.
  destruct Hb as (ex & He & <-). now apply in_map.
Qed.
Lemma row_galaxy row : (forall b, In b (map x_band exps) -> c_flux row b <> None) -> exists g, from_catalog_row (bandlist (pk E)) row = Some g /\
  g_ra g = c_ra row /\ g_dec g = c_dec row /\ g_q g = c_q row /\ g_pa g = c_pa row /\ g_sersic g = c_sersic row /\ g_rhalf g = c_rhalf row /\
  forall k b, nth_error (bandlist (pk E)) k = Some b -> c_flux row b = Some (nth k (g_flux g) 0%R).
Proof.
  intros H. unfold from_catalog_row. destruct (mapM (c_flux row) (bandlist (pk E))) as [f|] eqn:Ef.
  - eexists. split; [reflexivity|]. cbn [g_ra g_dec g_q g_pa g_sersic g_rhalf g_flux]. repeat split; auto.
    intros k b Hk. destruct (proj2 (mapM_nth _ _ _ Ef) _ _ Hk) as (v & Hv & Hf). rewrite Hf. f_equal. symmetry. now apply nth_error_nth.
  - exfalso. revert Ef. assert (G : forall l, (forall b, In b l -> c_flux row b <> None) -> mapM (c_flux row) l <> None).
    { induction l as [|b l IH]; intros Hl; simpl; [discriminate|]. destruct (c_flux row b) eqn:Eb; [|exfalso; apply (Hl b); simpl; auto].
      destruct (mapM (c_flux row) l) eqn:El; [discriminate|]. exfalso. apply IH; auto. intros; apply Hl; simpl; auto. }
    apply G. intros b Hb. apply H. now apply bandlist_in.
Qed.
(** The sources of a scene made from catalog rows *)
Definition same_source (row : catrow) (g : galaxy) : Prop :=
  g_ra g = c_ra row /\ g_dec g = c_dec row /\ g_q g = c_q row /\ g_pa g = c_pa row /\ g_sersic g = c_sersic row /\ g_rhalf g = c_rhalf row /\
  forall k b, nth_error (bandlist (pk E)) k = Some b -> c_flux row b = Some (nth k (g_flux g) 0%R).
Lemma scene_of cat sp : has_fluxes exps cat -> exists sc, set_scene (bandlist (pk E)) (splinedata E) sp cat = Some sc /\
  sc_spline sc = match sp with Some s => s | None => splinedata E end /\ Forall2 same_source cat (sc_sources sc).
Proof.
  intros H. unfold set_scene.
  assert (G : exists gs, mapM (from_catalog_row (bandlist (pk E))) cat = Some gs /\ Forall2 same_source cat gs).
  { induction cat as [|row cat IH]; [exists []; split; auto|]. destruct IH as (gs & Hg & HF); [intros r b Hr; apply H; simpl; auto|].
    destruct (row_galaxy row) as (g & Eg & Hs); [intros b Hb; apply H; simpl; auto|]. exists (g :: gs). simpl. rewrite Eg, Hg. split; auto. }
  destruct G as (gs & Hg & HF). rewrite Hg. eexists. split; [reflexivity|]. split; auto.
Qed.
Lemma forall2_len {A B} (P : A -> B -> Prop) l m : Forall2 P l m -> List.length l = List.length m.
Proof. induction 1; simpl; congruence. Qed.

Lemma counts_of_rows sp cat gs k e ex w p xp yp : Forall2 same_source cat gs ->
  nth_error (bandlist (pk E)) k = Some (x_band ex) -> nth_error exps e = Some ex -> nth_error (wcses E) e = Some w ->
  nth p (pk_xpix (pk E)) 0%R = xp -> nth p (pk_ypix (pk E)) 0%R = yp ->
  sumR (galaxy_counts exps E sp k e p) gs = sumR (fun row => row_counts E sp ex w row xp yp) cat.
Proof.
  intros HF Hk He Hw Hx Hy. induction HF as [|row g cat gs Hs _ IH]; auto. rewrite !sumR_cons, IH. f_equal.
  destruct Hs as (H1 & H2 & H3 & H4 & H5 & H6 & H7). unfold galaxy_counts, row_counts. rewrite He, Hw, (H7 _ _ Hk), Hx, Hy, H1, H2, H3, H4, H5, H6. reflexivity.
Qed.

(** The scenes of a group hold its sources in order, between one and [maxactive] per scene. *)
Theorem C29_blocks : forall maxactive sp cat, 0 < maxactive -> group exps cat -> exists scs,
  group_scenes E maxactive sp cat = Some scs /\
  Forall (fun sc => 0 < List.length (sc_sources sc) <= maxactive /\ sc_spline sc = match sp with Some s => s | None => splinedata E end) scs /\
  Forall2 same_source (rows cat) (concat (map sc_sources scs)).
Proof.
  intros maxactive sp cat Hm Hg. destruct cat as [c|]; [|exists []; split; auto; split; simpl; auto]. destruct Hg as [Hne Hf].
  unfold group_scenes. destruct (Nat.eqb_spec maxactive 0); [lia|]. destruct (blocks_spec maxactive c Hm) as (Hc & Hb & _). specialize (Hb Hne).
  assert (Hin : forall b, In b (blocks_of maxactive c) -> has_fluxes exps b).
  { intros b Hb' row x Hr. apply Hf. rewrite <- Hc. apply in_concat. eauto. }
  simpl rows. revert Hc Hb Hin. generalize (blocks_of maxactive c) as bs. intros bs Hc. rewrite <- Hc. clear Hc Hne Hf. induction bs as [|b bs IH]; intros Hb Hin.
  - exists []. split; [reflexivity|]. split; simpl; auto.
  - inversion Hb as [|? ? H1 Hbt]; subst. destruct (IH Hbt) as (scs & Hs & HF & HR). { intros x Hx. apply Hin. simpl. auto. }
    destruct (scene_of b sp) as (sc & Esc & Hsp & Hrows); [apply Hin; simpl; auto|]. exists (sc :: scs). cbn [mapM]. rewrite Esc, Hs. split; [reflexivity|]. split.
    + constructor; auto. split; auto. rewrite <- (forall2_len _ _ _ Hrows). destruct H1 as [N L]. destruct b; [congruence|simpl in *; lia].
    + simpl. now apply Forall2_app.
Qed.

Lemma counts_of_scenes scs cat sp k e ex w p xp yp : Forall (fun sc => sc_spline sc = sp) scs -> Forall2 same_source cat (concat (map sc_sources scs)) ->
  nth_error (bandlist (pk E)) k = Some (x_band ex) -> nth_error exps e = Some ex -> nth_error (wcses E) e = Some w ->
  nth p (pk_xpix (pk E)) 0%R = xp -> nth p (pk_ypix (pk E)) 0%R = yp ->
  sumR (scene_counts exps E k e p) scs = sumR (fun row => row_counts E sp ex w row xp yp) cat.
Proof.
  intros Hs HF Hk He Hw Hx Hy. rewrite <- (counts_of_rows sp cat (concat (map sc_sources scs)) k e ex w p xp yp) by auto. clear HF.
  induction Hs as [|sc scs Hsp _ IH]; auto. rewrite sumR_cons. simpl concat. rewrite sumR_app, IH. f_equal. unfold scene_counts. now rewrite Hsp.
Qed.

(** Pixel [p] of exposure [e] in the flat arrays *)
Lemma slice_nth {A} s n (arr : list A) p d : p < n -> nth p (slice s n arr) d = nth (s + p) arr d.
Proof.
  intros Hp. unfold slice. destruct (nth_error arr (s + p)) as [v|] eqn:Ev.
  - rewrite (nth_error_nth _ _ _ Ev). apply nth_error_nth. rewrite nth_error_firstn, nth_error_skipn by auto. exact Ev.
  - rewrite (nth_overflow arr) by now apply nth_error_None. apply nth_overflow. rewrite firstn_length, skipn_length. apply nth_error_None in Ev. lia.
Qed.
Lemma pixel_image e ex arr : nth_error exps e = Some ex -> List.length arr = NP ->
  exists img, nth_error (split_pix (pk E) arr) e = Some img /\ List.length img = List.length (x_flux ex) /\
    forall p, p < List.length (x_flux ex) -> nth p img 0%R = nth (nth e (pk_exposure_start (pk E)) 0 + p) arr 0%R.
Proof.
  intros He HL. destruct (C25_exposures sub _ _ _ _ built lengths) as (_ & _ & Hx & _ & _ & _ & Hxl & _). destruct (Hx e ex He) as (s & Hs & Hn & H1 & H2 & H3 & H4).
  destruct (C25_split sub _ _ _ _ built lengths arr HL) as (_ & _ & _ & Hsp & _).
  exists (slice s (List.length (x_flux ex)) arr). split; [now apply Hsp|]. rewrite (nth_error_nth _ _ 0 Hs). split; [|intros p Hp; now apply slice_nth].
  assert (Hlen : List.length (slice s (List.length (x_flux ex)) (pk_xpix (pk E))) = List.length (x_flux ex)).
  { rewrite H3. pose proof lengths as HA. rewrite Forall_forall in HA. destruct (HA ex (nth_error_In _ _ He)) as (? & ? & ?). congruence. }
  unfold slice in *. rewrite firstn_length, skipn_length in *. rewrite Hxl in Hlen. lia.
Qed.
Lemma pixel_xy e ex p xp yp : nth_error exps e = Some ex -> nth_error (x_xpix ex) p = Some xp -> nth_error (x_ypix ex) p = Some yp ->
  let pix := nth e (pk_exposure_start (pk E)) 0 + p in
  p < List.length (x_flux ex) /\ nth pix (pk_xpix (pk E)) 0%R = xp /\ nth pix (pk_ypix (pk E)) 0%R = yp.
Proof.
  intros He Hx Hy pix. destruct (C25_exposures sub _ _ _ _ built lengths) as (_ & _ & Ht & _). destruct (Ht e ex He) as (s & Hs & Hn & H1 & H2 & H3 & H4).
  assert (Hp : p < List.length (x_flux ex)).
  { pose proof lengths as HA. rewrite Forall_forall in HA. destruct (HA ex (nth_error_In _ _ He)) as (? & ? & ?).
    assert (p < List.length (x_xpix ex)) by (apply nth_error_Some; congruence). lia. }
  split; auto. unfold pix. rewrite (nth_error_nth _ _ 0 Hs). split.
  - rewrite <- (slice_nth s _ _ p 0%R Hp), H3. now apply nth_error_nth.
  - rewrite <- (slice_nth s _ _ p 0%R Hp), H4. now apply nth_error_nth.
Qed.

(** The first scene is packed and sent. *)
Lemma first_send st heap r sc data0 : host_data st = Some data0 -> List.length data0 = NP -> return_residual st = true ->
  nth_error heap r = Some sc -> sc_sources sc <> [] ->
  exists st1 heap1 st2 sc', pack_object E st heap r = Some (st1, heap1) /\ send_to_device gpu st1 = Some st2 /\ heap1 = upd r sc' heap /\
    on_device E gpu st2 heap1 r sc data0 /\ (gpu = true -> host_data st2 = Some data0) /\ dirty st2 = negb gpu && dirty st.
Proof.
  intros Hd HL Hr Hh Hne. destruct (pack_meta_ok sub allbands exps offsets E built lengths bands_ok psf_ok sc Hne) as (ref & sc' & m & Hp).
  unfold pack_object. rewrite Hh, Hp. exists (set_meta ref m st), (upd r sc' heap). unfold host_data in Hd.
  assert (La : attr_data st < List.length (buffers st)) by (apply nth_error_Some; congruence).
  assert (LH : r < List.length heap) by (apply nth_error_Some; congruence).
  assert (Hh2 : nth_error (upd r sc' heap) r = Some sc').
  { rewrite nth_error_upd, Nat.eqb_refl. destruct (Nat.ltb_spec r (List.length heap)); [reflexivity|lia]. }
  unfold send_to_device. cbn [set_meta buffers attr_data host_meta return_residual]. rewrite Hd, Hr. unfold send_patchstruct.
  assert (N0 : forall z, nth_error (buffers st ++ [z]) (List.length (buffers st)) = Some z) by (intros z; rewrite nth_error_app2, Nat.sub_diag by lia; reflexivity).
  destruct gpu eqn:G; cbn [set_meta buffers attr_data attr_residual host_meta packings reference ptr_data ptr_residual ptr_meta struct dirty return_residual negb andb option_map].
  - eexists. exists sc'. split; [reflexivity|]. split; [reflexivity|]. split; [reflexivity|]. split; [|split].
    + apply (mkOn _ _ _ _ _ _ _ sc' m ref (List.length (buffers st)) (S (List.length (buffers st))) (S (packings st)) (repeat 0%R (List.length data0)));
        cbn [buffers attr_data attr_residual host_meta packings reference ptr_data ptr_residual ptr_meta struct dirty return_residual]; auto.
      * rewrite nth_error_app2, Nat.sub_diag by lia. reflexivity.
      * rewrite nth_error_app2 by lia. replace (S (List.length (buffers st)) - List.length (buffers st)) with 1 by lia. reflexivity.
      * rewrite repeat_length. auto.
      * lia.
    + intros _. unfold host_data. cbn [buffers attr_data]. rewrite nth_error_app1 by auto. exact Hd.
    + reflexivity.
  - eexists. exists sc'. split; [reflexivity|]. split; [reflexivity|]. split; [reflexivity|]. split; [|split].
    + apply (mkOn _ _ _ _ _ _ _ sc' m ref (attr_data st) (List.length (buffers st)) (S (packings st)) (repeat 0%R (List.length data0)));
        cbn [buffers attr_data attr_residual host_meta packings reference ptr_data ptr_residual ptr_meta struct dirty return_residual]; auto.
      * lia.
      * rewrite nth_error_app1 by auto. exact Hd.
      * rewrite repeat_length. auto.
    + discriminate.
    + reflexivity.
Qed.
Lemma reset_on_device st heap r sc data : on_device E gpu st heap r sc data ->
  on_device E gpu (set_return_residual true (set_return_residual false st)) heap r sc data.
Proof.
  intros [sc' m ref d a id old H1 H2 H3 H4 H5 H6 H7 H8 H9 H10 H11 H12 H13]. apply (mkOn _ _ _ _ _ _ _ sc' m ref d a id old); auto.
Qed.
Lemma retrieve_on_device st heap r sc data b : on_device E gpu st heap r sc data -> retrieve_data gpu (set_return_residual b st) = Some data.
Proof.
  intros [sc' m ref d a id old H1 H2 H3 H4 H5 H6 H7 H8 H9 H10 H11 H12 H13]. unfold retrieve_data. cbn [set_return_residual ptr_data buffers attr_data].
  destruct gpu; [now rewrite H10|]. destruct H12 as [-> _]. exact H7.
Qed.

(** The run of prepare_model *)
Lemma prepare_core : forall st data0 active fixed big maxactive big_spline,
  host_data st = Some data0 -> List.length data0 = NP -> dirty st = false ->
  0 < maxactive -> active <> [] -> has_fluxes exps active -> group exps fixed -> group exps big ->
  exists st3 heap3 r sa sa' data, prepare_model E gpu st (Some active) fixed big maxactive big_spline = Some (set_return_residual false st3, sa') /\
    set_scene (bandlist (pk E)) (splinedata E) None active = Some sa /\ sc_spline sa = splinedata E /\ Forall2 same_source active (sc_sources sa) /\
    on_device E gpu st3 heap3 r sa data /\ nth_error heap3 r = Some sa' /\
    (exists sb sf, Forall (fun sc => sc_spline sc = match big_spline with Some s => s | None => splinedata E end) sb /\ Forall2 same_source (rows big) (concat (map sc_sources sb)) /\
       Forall (fun sc => sc_spline sc = splinedata E) sf /\ Forall2 same_source (rows fixed) (concat (map sc_sources sf)) /\
       pixel_eq exps E data data0 (fun k e pix => sumR (scene_counts exps E k e pix) (sb ++ sf))) /\
    (gpu = true -> host_data st3 = Some data0) /\
    dirty st3 = (gpu && negb (match rows big ++ rows fixed with [] => true | _ => false end)).
Proof.
  intros st data0 active fixed big maxactive big_spline Hhost HL Hdirty Hmax Hane Haf Hfix Hbig.
  destruct (C29_blocks maxactive big_spline big Hmax Hbig) as (sb & Esb & Fb & Rb).
  destruct (C29_blocks maxactive None fixed Hmax Hfix) as (sf & Esf & Ff & Rf).
  destruct (scene_of active None Haf) as (sa & Esa & Spa & Ra).
  unfold prepare_model, subtract_fixed. rewrite Esb, Esf, Esa. set (n := List.length (sb ++ sf)). cbn [seq]. cbn [set_return_residual dirty]. rewrite Hdirty.
  set (st0 := set_return_residual true st). set (scs := sb ++ sf ++ [sa]).
  assert (Hscs : scs = (sb ++ sf) ++ [sa]) by (unfold scs; now rewrite app_assoc).
  assert (Hne : Forall (fun sc => sc_sources sc <> []) scs).
  { rewrite Hscs. apply Forall_app. split; [apply Forall_app; split|].
    - eapply Forall_impl; [|exact Fb]. cbv beta. intros sc [[H _] _] E0. rewrite E0 in H. simpl in H. lia.
    - eapply Forall_impl; [|exact Ff]. cbv beta. intros sc [[H _] _] E0. rewrite E0 in H. simpl in H. lia.
    - constructor; auto. intros E0. rewrite E0 in Ra. inversion Ra. congruence. }
  assert (HLs : List.length scs = S n) by (rewrite Hscs, app_length; simpl; fold n; lia).
  destruct scs as [|s0 t] eqn:Es; [simpl in HLs; lia|]. assert (HLt : List.length t = n) by (simpl in HLs; lia). inversion Hne as [|x l Hne0 Hnet]; subst x l.
  destruct (first_send st0 (s0 :: t) 0 s0 data0) as (st1 & heap1 & st2 & s0' & Ep & Esend & Eh & Hon & Hho & Hdi); auto.
  rewrite Ep, Esend.
  destruct (loop_all sub allbands exps offsets E gpu built lengths bands_ok wcs_ok psf_ok (seq 1 n) t st2 heap1 0 s0 data0 Hon) as (st3 & heap3 & data & El & Hon3 & Hho3 & Hdi3 & Hpix).
  { apply seq_NoDup. }
  { rewrite Eh. cbn [upd]. rewrite <- HLt. clear -Hnet. assert (G : forall t pre, Forall (fun sc => sc_sources sc <> []) t ->
      Forall2 (fun r sc => nth_error (pre ++ t) r = Some sc /\ sc_sources sc <> []) (seq (List.length pre) (List.length t)) t).
    { induction t0 as [|s t0 IH]; intros pre H; simpl; constructor; inversion H; subst.
      - split; auto. rewrite nth_error_app2, Nat.sub_diag by lia. reflexivity.
      - specialize (IH (pre ++ [s]) H3). rewrite app_length, Nat.add_1_r in IH. rewrite <- app_assoc in IH. exact IH. }
    apply (G t [s0'] Hnet). }
  rewrite El.
  assert (Hrl : removelast (s0 :: t) = sb ++ sf) by (rewrite Hscs; apply removelast_last).
  assert (Hlast : List.last t s0 = sa) by (rewrite <- (last_shift t s0 s0), Hscs; apply last_last).
  rewrite Hlast in Hon3. assert (Hon4 := Hon3). destruct Hon4 as [sa' m ref d a id old O1 O2 O3 O4 O5 O6 O7 O8 [O9 O9'] O10 O11 O12 O13]. rewrite O1.
  exists st3, heap3, (List.last (seq 1 n) 0), sa, sa', data. split; [reflexivity|]. split; [reflexivity|]. split; [exact Spa|]. split; [exact Ra|]. split; [exact Hon3|]. split; [exact O1|]. split; [|split].
  - exists sb, sf. rewrite <- Hrl. split; [eapply Forall_impl; [|exact Fb]; cbv beta; tauto|]. split; [exact Rb|]. split; [eapply Forall_impl; [|exact Ff]; cbv beta; tauto|]. split; [exact Rf|exact Hpix].
  - intros G. cbn. rewrite <- (Hho G). apply Hho3; auto.
  - cbn [set_return_residual dirty]. rewrite Hdi3, Hdi. cbn [st0 set_return_residual dirty]. rewrite Hdirty, andb_false_r, orb_false_r.
    assert (Hn0 : n = 0 <-> rows big ++ rows fixed = []).
    { assert (G : forall cat scs, Forall2 same_source cat (concat (map sc_sources scs)) -> Forall (fun sc => sc_sources sc <> []) scs -> (scs = [] <-> cat = [])).
      { clear. intros cat scs H F. split; intros ->; [simpl in H; inversion H; auto|]. apply forall2_len in H. destruct scs as [|sc scs]; auto. inversion F as [|? ? Hs _]; subst. simpl in H. rewrite app_length in H. destruct (sc_sources sc); [congruence|simpl in H; discriminate]. }
      rewrite Hscs in Hne. apply Forall_app in Hne. destruct Hne as [Hne _]. apply Forall_app in Hne. destruct Hne as [N1 N2].
      pose proof (G _ _ Rb N1) as G1. pose proof (G _ _ Rf N2) as G2. unfold n. rewrite app_length. split.
      - intros H. rewrite (proj1 G1), (proj1 G2); auto; apply length_zero_iff_nil; lia.
      - intros H. apply app_eq_nil in H. destruct H as [A B]. apply G1 in A. apply G2 in B. subst. reflexivity. }
    destruct (rows big ++ rows fixed) eqn:Erows.
    + rewrite (proj2 Hn0 eq_refl). simpl. now rewrite andb_false_r.
    + destruct n as [|n']; [pose proof (proj1 Hn0 eq_refl); discriminate|]. simpl. now rewrite andb_true_r.
Qed.

(** *** C29 *)
(** After prepare_model, whatever the state of the patch was before except that its
    pixel array [data0] is intact: the device holds, for every pixel of every
    exposure, the pixel minus the counts of every fixed and big source once; the
    evaluation of any parameters [gals] of the active sources subtracts exactly their
    counts from it and leaves it alone; the returned scene and reference give back the
    catalog positions; on the GPU the pixel array of the patch itself is unchanged. *)
Theorem C29_subtracted_once_partial : forall st data0 active fixed big maxactive big_spline,
  host_data st = Some data0 -> List.length data0 = NP -> dirty st = false ->
  0 < maxactive -> active <> [] -> has_fluxes exps active -> group exps fixed -> group exps big ->
  exists st' sc data, prepare_model E gpu st (Some active) fixed big maxactive big_spline = Some (st', sc) /\
    retrieve_data gpu st' = Some data /\ List.length data = List.length data0 /\
    (forall e ex w img0, nth_error exps e = Some ex -> nth_error (wcses E) e = Some w -> nth_error (split_pix (pk E) data0) e = Some img0 ->
       exists img, nth_error (split_pix (pk E) data) e = Some img /\ List.length img = List.length (x_flux ex) /\
       forall p xp yp, nth_error (x_xpix ex) p = Some xp -> nth_error (x_ypix ex) p = Some yp ->
         nth p img 0%R = (nth p img0 0
           - sumR (fun row => row_counts E (match big_spline with Some s => s | None => splinedata E end) ex w row xp yp) (rows big)
           - sumR (fun row => row_counts E (splinedata E) ex w row xp yp) (rows fixed))%R) /\
    Forall2 (fun row g => (g_ra g + fst (reference st') = c_ra row)%R /\ (g_dec g + snd (reference st') = c_dec row)%R) active (sc_sources sc) /\
    (forall gals, List.length gals = List.length active -> exists chi der res st'',
       evaluate E gpu (set_return_residual true st') (map (proposal (splinedata E)) gals) = Some (st'', (chi, der, Some res)) /\
       retrieve_data gpu st'' = Some data /\
       forall k e ex w img, nth_error (bandlist (pk E)) k = Some (x_band ex) -> nth_error exps e = Some ex -> nth_error (wcses E) e = Some w ->
         nth_error (split_pix (pk E) data) e = Some img ->
         exists rimg, nth_error (unpack_residuals (pk E) res) e = Some rimg /\
         forall p xp yp, nth_error (x_xpix ex) p = Some xp -> nth_error (x_ypix ex) p = Some yp ->
           nth p rimg 0%R = (nth p img 0 - sumR (fun rg => moved_counts E (splinedata E) ex w k (reference st') rg xp yp) (combine active gals))%R) /\
    (gpu = true -> host_data st' = Some data0) /\
    dirty st' = (gpu && negb (match rows big ++ rows fixed with [] => true | _ => false end)).
Proof.
  intros st data0 active fixed big maxactive big_spline Hhost HL Hdirty Hmax Hane Haf Hfix Hbig.
  destruct (prepare_core st data0 active fixed big maxactive big_spline Hhost HL Hdirty Hmax Hane Haf Hfix Hbig)
    as (st3 & heap3 & r & sa & sa1 & data & Eprep & Esa & Spa & Ra & Hon3 & Hsa1 & (sb & sf & Fb & Rb & Ff & Rf & Hpix) & Hho & Hdi).
  rewrite Eprep. assert (Hon4 := Hon3). destruct Hon4 as [sa' m ref d a id old O1 O2 O3 O4 O5 O6 O7 O8 [O9 O9'] O10 O11 O12 O13].
  assert (sa1 = sa') by congruence. subst sa1.
  destruct (pack_meta_sources E _ _ _ _ O2) as (Hz & Hsne & Hns). unfold zerocoords in Hz. cbv zeta iota in Hz.
  set (z := (np_median (map g_ra (sc_sources sa)), np_median (map g_dec (sc_sources sa)))) in *.
  assert (Er : ref = z) by congruence. assert (Esa' : sa' = mkScene (sc_spline sa) (map (shift_source (- fst z, - snd z)%R) (sc_sources sa))) by congruence. clear Hz. clearbody z.
  exists (set_return_residual false st3), sa', data. split; [reflexivity|]. split; [eapply retrieve_on_device; eauto|]. split; [congruence|]. split; [|split; [|split; [|split]]].
  - intros e ex w img0 He Hw Hi0. destruct (pixel_image e ex data He O9) as (img & Himg & Limg & Pimg). exists img. split; auto. split; auto.
    destruct (pixel_image e ex data0 He HL) as (img0' & Himg0 & _ & Pimg0). assert (img0' = img0) by congruence. subst img0'.
    intros p xp yp Hx Hy. destruct (pixel_xy e ex p xp yp He Hx Hy) as (Hp & Px & Py). cbv zeta in Px, Py. rewrite Pimg, Pimg0 by auto.
    destruct (locate sub allbands exps offsets E built lengths e ex He) as (k & _ & _ & Hk & _). pose proof (Hpix k e ex p Hk He Hp) as Hv. cbv zeta in Hv. rewrite Hv, sumR_app.
    rewrite (counts_of_scenes sb (rows big) (match big_spline with Some s => s | None => splinedata E end) k e ex w _ xp yp); auto.
    rewrite (counts_of_scenes sf (rows fixed) (splinedata E) k e ex w _ xp yp); auto.
    ring.
  - cbn [set_return_residual reference]. rewrite O3, Er, Esa'. cbn [sc_sources]. clear -Ra. induction Ra as [|row g l l' Hs _ IH]; simpl; constructor; auto.
    destruct Hs as (H1 & H2 & _). simpl. rewrite H1, H2. split; ring.
  - intros gals HLg. destruct (evaluate_on_device exps E gpu wcs_ok _ _ _ _ _ (map (proposal (splinedata E)) gals) (reset_on_device _ _ _ _ _ Hon3)) as (chi & der & res & st5 & Ev & Hon5 & _ & _ & _ & Hval).
    destruct (Hval m ref sa' O2) as (old5 & Lold & Eres). exists chi, der, res, st5. split; [exact Ev|]. split.
    { replace st5 with (set_return_residual true st5); [eapply retrieve_on_device; eauto|]. assert (Hrr : return_residual st5 = true) by (destruct Hon5; auto). clear -Hrr. destruct st5. simpl in Hrr. rewrite Hrr. reflexivity. }
    intros k e ex w img Hk He Hw Hi. destruct (pixel_image e ex data He O9) as (img' & Himg & Limg & Pimg). assert (img' = img) by congruence. subst img'.
    assert (Lres : List.length res = NP) by (rewrite Eres, write_residual_length; auto).
    destruct (C25_split sub _ _ _ _ built lengths res Lres) as (Hun & _). rewrite Hun.
    destruct (pixel_image e ex res He Lres) as (rimg & Hrimg & _ & Primg). exists rimg. split; auto.
    intros p xp yp Hx Hy. destruct (pixel_xy e ex p xp yp He Hx Hy) as (Hp & Px & Py). cbv zeta in Px, Py. rewrite Pimg, Primg by auto.
    destruct (residual_pixel sub allbands exps offsets E built lengths wcs_ok m data (fun i => nth i (map (proposal (splinedata E)) gals) no_source) old5 k e ex p Lold Hk He Hp) as (Hwr & _).
    cbv zeta in Hwr. rewrite Eres, (nth_error_nth _ _ _ Hwr). unfold residual_at. f_equal.
    assert (Hg : List.length gals = List.length (sc_sources sa)) by (rewrite HLg; eapply forall2_len; eauto).
    pose proof (model_counts sub allbands exps offsets E built lengths bands_ok wcs_ok psf_ok sa ref sa' m data gals k e ex w
                  (nth e (pk_exposure_start (pk E)) 0 + p) O2 Hg Hk He Hw) as Hmc.
    cbv zeta in Hmc. rewrite Spa in Hmc. rewrite Hmc. cbn [kernel_patch P_xpix P_ypix]. rewrite Px, Py. cbn [set_return_residual reference]. rewrite O3.
    clear -Ra. revert gals. induction Ra as [|row g l l' Hs _ IH]; intros [|h gals]; simpl; auto. rewrite !sumR_cons, IH. f_equal.
    unfold moved_counts. cbn [fst snd]. destruct Hs as (-> & -> & _). reflexivity.
  - exact Hho.
  - exact Hdi.
Qed.
End Props.

(** Refuted parts of C29. *)
(** An empty (not absent) catalog of fixed sources always fails. *)
Theorem C29_empty_fixed_refuted : forall E gpu st active maxactive big_spline,
  prepare_model E gpu st active (Some []) None maxactive big_spline = None.
Proof.
  intros E gpu st active maxactive big_spline. unfold prepare_model, subtract_fixed. cbn [group_scenes].
  destruct (Nat.eqb_spec maxactive 0) as [|Hm]; auto.
  assert (Eb : blocks_of maxactive [] = [[]]).
  { unfold blocks_of, np_split. rewrite arange_eq by lia. cbn [List.length]. rewrite Nat.div_0_l by lia. reflexivity. }
  rewrite Eb. cbn [mapM set_scene option_map app List.length].
  destruct active as [a|]; cbn [negb orb]; auto. destruct (set_scene _ _ _ a); auto. cbn [seq]. destruct (dirty _); auto.
Qed.

(** A patch whose data on the GPU were changed cannot be prepared again. *)
Theorem C29_gpu_refuses_second : forall E st active fixed big maxactive big_spline, dirty st = true ->
  prepare_model E true st active fixed big maxactive big_spline = None.
Proof.
  intros. unfold prepare_model, subtract_fixed. cbn [set_return_residual dirty]. rewrite H.
  destruct (group_scenes _ _ _ big); auto. destruct (group_scenes _ _ _ fixed); auto.
  destruct active as [a|]; [destruct (set_scene _ _ _ a); auto|]. { destruct (_ || _)%bool; auto. destruct (seq _ _ ++ _); auto. }
Qed.

(** On the CPU preparing a patch again subtracts the fixed sources again. *)
Theorem C29_cpu_twice_refuted : forall sub allbands exps offsets E st data0 active fixed maxactive,
  patch_built sub allbands exps offsets E -> host_data st = Some data0 -> List.length data0 = List.length (pk_data (pk E)) -> dirty st = false ->
  0 < maxactive -> active <> [] -> has_fluxes exps active -> group exps fixed ->
  exists st1 st2 sc1 sc2 data, prepare_model E false st (Some active) fixed None maxactive None = Some (st1, sc1) /\
    prepare_model E false st1 (Some active) fixed None maxactive None = Some (st2, sc2) /\ retrieve_data false st2 = Some data /\
    forall e ex w img0, nth_error exps e = Some ex -> nth_error (wcses E) e = Some w -> nth_error (split_pix (pk E) data0) e = Some img0 ->
      exists img, nth_error (split_pix (pk E) data) e = Some img /\
      forall p xp yp, nth_error (x_xpix ex) p = Some xp -> nth_error (x_ypix ex) p = Some yp ->
        nth p img 0%R = (nth p img0 0 - 2 * sumR (fun row => row_counts E (splinedata E) ex w row xp yp) (rows fixed))%R.
Proof.
  intros sub allbands exps offsets E st data0 active fixed maxactive Hb Hh HL Hd Hm Ha Haf Hf.
  destruct (C29_subtracted_once_partial sub allbands exps offsets E false Hb st data0 active fixed None maxactive None Hh HL Hd Hm Ha Haf Hf I)
    as (st1 & sc1 & data1 & P1 & R1 & L1 & D1 & _ & _ & _ & Hd1). cbn [andb] in Hd1.
  destruct (C29_subtracted_once_partial sub allbands exps offsets E false Hb st1 data1 active fixed None maxactive None R1 ltac:(congruence) Hd1 Hm Ha Haf Hf I)
    as (st2 & sc2 & data2 & P2 & R2 & L2 & D2 & _).
  exists st1, st2, sc1, sc2, data2. repeat (split; auto). intros e ex w img0 He Hw Hi.
  destruct (D1 e ex w img0 He Hw Hi) as (img1 & I1 & _ & V1). destruct (D2 e ex w img1 He Hw I1) as (img2 & I2 & _ & V2).
  exists img2. split; auto. intros p xp yp Hx Hy. rewrite (V2 p xp yp Hx Hy), (V1 p xp yp Hx Hy). cbn [rows]. unfold sumR at 1 3. simpl. ring.
Qed.
