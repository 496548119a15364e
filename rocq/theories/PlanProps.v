(** C51: the reference likelihood and its gradient. *)
From Coquelicot Require Import Coquelicot.
From Verif Require Import Np NpFacts KernelModel KernelJac KernelSum SlowModel SlowProps SlowGrad SceneModel SceneSpec SceneFacts
  PlanModel PlanFacts PlanScene PlanGrad.
From Coq Require Import Reals Lra.
Open Scope R_scope.

(** The image gradients of the reference renderer are the derivatives of its image
    in flux, position, axis ratio, position angle, Sersic index and half-light
    radius. *)
Theorem C51_render_gradient : forall radii amps dan dar row st xp yp p, tables_fit radii amps dan dar ->
  List.length row = 7%nat -> (p < 7)%nat -> smooth_at radii amps dan dar row st xp yp ->
  is_derive (fun t => fst (slow_render (src_row radii amps dan dar (upd p t row)) st xp yp)) (nth p row 0)
    (nth p (snd (slow_render (src_row radii amps dan dar row) st xp yp)) 0).
Proof. intros. now apply render_derive. Qed.
Print Assumptions C51_render_gradient.

(** Both kinds of plan give the same likelihood and gradient for active sources. *)
Theorem C51_plans_agree : forall px st sources,
  work_lnlike px (map (fun s => convert_to_gaussians s st) sources) [] =
  fast_lnlike px (map (fun s => convert_to_gaussians s st) sources) [].
Proof.
  intros px st sources. rewrite work_closed, fast_closed; auto.
  apply List.Forall_forall. intros g Hg. apply in_map_iff in Hg as (s & <- & _). apply convert_shaped.
Qed.
Print Assumptions C51_plans_agree.

(** The chi-square of data minus the images of all sources, fixed ones included *)
Definition chi2_of (px : list spixel) (sources : list slow_source) (st : stamp) : R :=
  sumR (fun q => ((q_value q - sumR (fun s => fst (slow_render s st (q_x q) (q_y q))) sources) * q_ierr q) ^ 2) px.
Theorem C51_fast_value : forall px st active fixed,
  fst (fast_lnlike px (map (fun s => convert_to_gaussians s st) active) (map (fun s => convert_to_gaussians s st) fixed)) =
  - chi2_of px (active ++ fixed) st / 2.
Proof.
  intros px st active fixed. unfold fast_lnlike. cbn [fst]. rewrite total_sumR. unfold chi2_of.
  rewrite (sumR_ext (fun q => fast_chi _ _ q * fast_chi _ _ q)
    (fun q => ((q_value q - sumR (fun s => fst (slow_render s st (q_x q) (q_y q))) (active ++ fixed)) * q_ierr q) ^ 2)).
  - field.
  - intros q _. rewrite fast_chi_closed, <- map_app. rewrite sumR_map. unfold at_pixel, slow_render. ring.
Qed.
Print Assumptions C51_fast_value.

(** A star on a stamp with unit scales and a unit Gaussian PSF *)
Definition unit_psf : slow_psf := [(1, (0, 0), M22 1 0 0 1)].
Definition unit_stamp : stamp := mkStamp (M22 1 0 0 1) (M22 1 0 0 1) (0, 0) (0, 0) 1 unit_psf.
Definition unit_star (ra dec fl : R) : slow_source := mkSS ra dec 1 0 fl [0] [1] [0] [0].
Lemma unit_T ra dec fl : slow_T (unit_star ra dec fl) unit_stamp = M22 1 0 0 1.
Proof.
  unfold slow_T, unit_star, unit_stamp, rotation_matrix, scale_matrix, dot_dot. cbn [scale ss_pa ss_q v11 v12 v21 v22].
  rewrite cos_0, sin_0. f_equal; field.
Qed.
Lemma unit_covar : mplus (matmul_matmul (M22 1 0 0 1) (covariance 0) (transpose (M22 1 0 0 1))) (M22 1 0 0 1) = M22 1 0 0 1.
Proof. unfold mplus, matmul_matmul, dot2, covariance, transpose. cbn [v11 v12 v21 v22]. f_equal; ring. Qed.
Lemma unit_inv : fast_inv (M22 1 0 0 1) = M22 1 0 0 1.
Proof. unfold fast_inv. cbn [v11 v12 v21 v22]. f_equal; field. Qed.
Lemma unit_gaussian ra dec fl : slow_gaussian (unit_star ra dec fl) unit_stamp 0 1 (1, (0, 0), M22 1 0 0 1) = mkSG (fl / (2 * PI)) ra dec 1 0 1 [].
Proof.
  unfold slow_gaussian. cbv zeta. rewrite unit_T, unit_covar, unit_inv.
  cbn [unit_star unit_stamp ss_ra ss_dec ss_flux st_crval st_crpix dpix_dsky photocounts fst snd v11 v12 v21 v22].
  assert (E : fast_det (M22 1 0 0 1) = 1) by (unfold fast_det; simpl; ring). rewrite E, sqrt_1. pose proof PI_neq0. f_equal; field; auto.
Qed.
Lemma unit_star_image ra dec fl x y : fst (slow_render (unit_star ra dec fl) unit_stamp x y) =
  fl / (2 * PI) * exp (- (1/2) * ((x - ra) * (x - ra) + (y - dec) * (y - dec))) * (1 + ((x - ra) * (x - ra) + (y - dec) * (y - dec) - 2) / 24).
Proof.
  unfold slow_render. rewrite gig_image. unfold convert_to_gaussians, slow_components.
  cbn [unit_star ss_radii ss_amplitudes ss_da_dsersic ss_da_drh combine flat_map map st_psf unit_stamp unit_psf app].
  fold (unit_star ra dec fl). fold unit_psf. fold unit_stamp. cbv zeta. rewrite sumR_cons, unit_gaussian. cbn [g_amp g_xcen g_ycen g_fxx g_fxy g_fyy].
  unfold compute_gaussian. cbv zeta. cbn [fst g_amp g_xcen g_ycen g_fxx g_fxy g_fyy]. unfold sumR. cbn [fold_right]. rewrite Rplus_0_r.
  match goal with |- _ * exp ?a * _ * _ = _ * exp ?b * _ => replace a with b by ring end. pose proof PI_neq0. field. auto.
Qed.

(** WorkPlan leaves the fixed sources out of the model image, so that it is not
    the likelihood of the scene whenever they contribute. *)
Theorem C51_fixed_sources_refuted : exists px st active fixed,
  fst (work_lnlike px (map (fun s => convert_to_gaussians s st) active) (map (fun s => convert_to_gaussians s st) fixed)) <>
  - chi2_of px (active ++ fixed) st / 2.
Proof.
  exists [mkPix 0 0 0 1], unit_stamp, [], [unit_star 0 0 (2 * PI)]. cbn [map app]. rewrite work_closed. cbn [fst]. unfold plan_value, chi2_of, chi_at, sumR.
  cbn [fold_right q_value q_ierr q_x q_y map].
  assert (E : fst (slow_render (unit_star 0 0 (2 * PI)) unit_stamp 0 0) = 11 / 12).
  { rewrite unit_star_image. match goal with |- context [exp ?a] => replace a with 0 by ring end. rewrite exp_0. pose proof PI_neq0. field. auto. }
  rewrite E. lra.
Qed.
Print Assumptions C51_fixed_sources_refuted.

Section Scenes.
Context (gal_radii : list R) (amps dan dar : R -> R -> list R) (simple_radii : list R) (qf paf : R -> R -> R).
Hypothesis HT : tables_fit gal_radii amps dan dar.
Let multi := lnlike_multi gal_radii amps dan dar simple_radii qf paf.
Let csrc := class_src gal_radii amps dan dar simple_radii.

(** A scene of galaxies, simple galaxies and stars, none of them fixed, whose
    sources are all seen by every plan *)
Definition seen_by_all (sc : list (source R)) (plans : list plan) : Prop :=
  List.Forall well_made sc /\ List.Forall (fun s => plain_kind (s_kind s) /\ fixed s = false) sc /\
  forall p, In p plans -> (forall s, (1 < coverage p s)%Z) /\ List.Forall (fun s => In (pl_filter p) (filternames s)) sc.
(** Every source of a scene is smooth at every pixel of every plan. *)
Definition smooth_scene (sc : list (source R)) (plans : list plan) : Prop :=
  forall s p q, In s sc -> In p plans -> In q (pl_pixels p) ->
    smooth_at (class_radii gal_radii simple_radii (s_kind s)) (class_amps gal_radii amps simple_radii (s_kind s))
      (class_dan gal_radii dan simple_radii (s_kind s)) (class_dar gal_radii dar simple_radii (s_kind s))
      (attributes s (pl_filter p)) (pl_stamp p) (q_x q) (q_y q).

Lemma seen_good sc plans p : seen_by_all sc plans -> In p plans -> List.Forall (good (pl_filter p)) sc.
Proof.
  intros (H1 & H2 & H3) Hp. rewrite List.Forall_forall in *. destruct (H3 p Hp) as [_ H4]. rewrite List.Forall_forall in H4.
  intros s Hs. destruct (H2 s Hs). repeat split; auto.
Qed.
Lemma good_same f sc sc' : List.Forall (good f) sc -> Forall2 (fun s s' => same_object s s' /\ well_made s') sc sc' -> List.Forall (good f) sc'.
Proof.
  intros HG H. induction H as [|s s' l l' ((O1 & O2 & O3 & O4) & Hw) _ IH]; auto. inversion HG as [|? ? (G1 & G2 & G3 & G4) G]; subst.
  constructor; auto. unfold good. rewrite O1, O2, O3. auto.
Qed.
Lemma active_T p Theta : forall sc start, Forall2 (fun s' b => attributes s' (pl_filter p) = rowT Theta b) sc (blocks start sc (pl_filter p)) ->
  active_of gal_radii amps dan dar simple_radii p sc = map (gigT gal_radii amps dan dar simple_radii p Theta) (blocks start sc (pl_filter p)).
Proof.
  induction sc as [|s sc IH]; intros start H; auto. cbn [blocks] in *. inversion H as [|? ? ? ? E H2]; subst. unfold active_of in *.
  cbn [map]. rewrite (IH _ H2). f_equal. unfold gig_of, gigT. cbn [b_kind]. now rewrite E.
Qed.
Lemma entry_T p Theta (W : blk -> gig -> R) : forall sc start, Forall2 (fun s' b => attributes s' (pl_filter p) = rowT Theta b) sc (blocks start sc (pl_filter p)) ->
  sumR (fun sb => W (snd sb) (gig_of gal_radii amps dan dar simple_radii p (fst sb))) (combine sc (blocks start sc (pl_filter p))) =
  sumR (fun b => W b (gigT gal_radii amps dan dar simple_radii p Theta b)) (blocks start sc (pl_filter p)).
Proof.
  induction sc as [|s sc IH]; intros start H; auto. cbn [blocks] in *. inversion H as [|? ? ? ? E H2]; subst.
  cbn [combine]. rewrite !sumR_cons, (IH _ H2). f_equal. cbn [fst snd]. f_equal. unfold gig_of, gigT. cbn [b_kind]. now rewrite E.
Qed.
Lemma nth_combine_In {A B} (l : list A) (m : list B) b : List.length l = List.length m -> In b m -> exists a, In (a, b) (combine l m).
Proof.
  revert m. induction l as [|x l IH]; intros [|y m] HL Hb; try easy. destruct Hb as [<-|Hb]; [exists x; simpl; auto|].
  destruct (IH m ltac:(simpl in HL; lia) Hb) as (a & Ha). exists a. simpl; auto.
Qed.

Lemma set_scene sc plans Theta : seen_by_all sc plans -> (SceneSpec.total sc <= List.length Theta)%nat ->
  exists sc', set_all_source_params sc Theta = Some sc' /\ Forall2 (fun s s' => same_object s s' /\ well_made s') sc sc' /\
    forall p, In p plans -> Forall2 (fun s' b => attributes s' (pl_filter p) = rowT Theta b) sc' (blocks 0 sc (pl_filter p)).
Proof.
  intros HS HL. destruct HS as (H1 & H2 & H3).
  assert (Hb : List.Forall (fun s => s_kind s <> BaseSource) sc).
  { apply List.Forall_forall. intros s Hs. rewrite List.Forall_forall in H2. apply plain_not_base, H2, Hs. }
  destruct (set_all_ok sc 0 Theta H1 Hb HL) as (sc' & E1 & E2 & _). exists sc'. split; [exact E1|]. split.
  { clear -E2. induction E2 as [|a b l l' (A & B & _)]; constructor; auto. }
  intros p Hp. destruct (set_blocks sc (pl_filter p) 0 Theta) as (sc2 & F1 & _ & F3).
  - apply (seen_good sc plans p); auto. repeat split; auto; apply H3; auto.
  - unfold SceneSpec.total in HL. rewrite offset_all_active, firstn_all in HL; [lia|].
    intros s Hs. rewrite List.Forall_forall in H2. apply H2, Hs.
  - unfold set_all_source_params in *. congruence.
Qed.

Lemma multi_ok kw sc plans Theta : seen_by_all sc plans -> kw <> Some false -> (SceneSpec.total sc <= List.length Theta)%nat ->
  exists sc' g kw', set_all_source_params sc Theta = Some sc' /\
    multi kw Theta sc plans = Some (sumR (fun p => plan_value (pl_pixels p) (map (gigT gal_radii amps dan dar simple_radii p Theta) (blocks 0 sc (pl_filter p)))) plans, g, kw') /\
    List.length g = List.length Theta /\
    (forall k, nth k g 0 = sumR (fun p => sumR (fun b => hit k (b_inds b) (plan_gradient (pl_pixels p)
        (map (gigT gal_radii amps dan dar simple_radii p Theta) (blocks 0 sc (pl_filter p))) (gigT gal_radii amps dan dar simple_radii p Theta b))) (blocks 0 sc (pl_filter p))) plans) /\
    forall p, In p plans -> active_of gal_radii amps dan dar simple_radii p sc' = map (gigT gal_radii amps dan dar simple_radii p Theta) (blocks 0 sc (pl_filter p)).
Proof.
  intros HS Hkw HL. destruct (set_scene sc plans Theta HS HL) as (sc' & E1 & E2 & E3).
  assert (HA : forall p, In p plans -> blocks 0 sc' (pl_filter p) = blocks 0 sc (pl_filter p)) by (intros; now apply blocks_same).
  destruct (plans_ok gal_radii amps dan dar simple_radii qf paf sc' plans kw 0 (repeat 0 (List.length Theta))) as (g & kw' & F1 & F2 & F3); auto.
  - apply List.Forall_forall. intros p Hp. split; [apply (good_same _ sc); [apply (seen_good sc plans p HS Hp)|exact E2]|]. apply HS, Hp.
  - rewrite repeat_length. unfold SceneSpec.total in HL. rewrite offset_all_active, firstn_all in HL.
    2:{ intros s Hs. destruct HS as (_ & H2 & _). rewrite List.Forall_forall in H2. apply H2, Hs. }
    assert (Hm : map size sc' = map size sc).
    { clear -E2. induction E2 as [|s s' l l' ((O1 & O2 & O3 & O4) & Hw) _ IH]; auto. cbn [map]. rewrite IH. f_equal.
      unfold size. rewrite O2, (described_kind s s' O1). reflexivity. }
    rewrite Hm. lia.
  - assert (HB : forall p, In p plans -> active_of gal_radii amps dan dar simple_radii p sc' = map (gigT gal_radii amps dan dar simple_radii p Theta) (blocks 0 sc (pl_filter p))).
    { intros p Hp. rewrite <- (HA p Hp). apply active_T. rewrite HA; auto. }
    exists sc', g, kw'. split; [exact E1|]. split; [|split; [now rewrite F2, repeat_length|split; [|exact HB]]].
    + unfold multi, lnlike_multi. rewrite E1, F1. f_equal. f_equal. f_equal. rewrite Rplus_0_l. apply sumR_ext. intros p Hp. now rewrite HB.
    + intros k. rewrite F3, nth_repeat, Rplus_0_l. apply sumR_ext. intros p Hp. unfold grad_entry. rewrite HB by auto.
      pose proof (entry_T p Theta (fun b gs => hit k (b_inds b) (plan_gradient (pl_pixels p)
        (map (gigT gal_radii amps dan dar simple_radii p Theta) (blocks 0 sc (pl_filter p))) gs)) sc' 0%nat) as HE.
      cbv beta in HE. rewrite HA in HE by auto. rewrite HA by auto. apply HE. apply E3. auto.
Qed.

(** ** C51 *)
(** lnlike_multi succeeds, its value is minus half the chi-square of the data
    minus the images of all sources, and ... *)
Theorem C51_value : forall kw sc plans Theta, seen_by_all sc plans -> kw <> Some false ->
  (SceneSpec.total sc <= List.length Theta)%nat ->
  exists sc' g kw', set_all_source_params sc Theta = Some sc' /\
    multi kw Theta sc plans =
      Some (sumR (fun p => - chi2_of (pl_pixels p) (map (fun s => csrc (s_kind s) (attributes s (pl_filter p))) sc') (pl_stamp p) / 2) plans, g, kw').
Proof.
  intros kw sc plans Theta HS Hkw HL. destruct (multi_ok kw sc plans Theta HS Hkw HL) as (sc' & g & kw' & E1 & E2 & _ & _ & E5).
  exists sc', g, kw'. split; [exact E1|]. rewrite E2. f_equal. f_equal. f_equal. apply sumR_ext. intros p Hp. rewrite <- (E5 p Hp).
  unfold plan_value, chi2_of, active_of. rewrite (sumR_ext (fun q => chi_at _ q * chi_at _ q)
    (fun q => ((q_value q - sumR (fun s => fst (slow_render s (pl_stamp p) (q_x q) (q_y q))) (map (fun s => csrc (s_kind s) (attributes s (pl_filter p))) sc')) * q_ierr q) ^ 2)); [field|].
  intros q _. unfold chi_at. rewrite !sumR_map. unfold at_pixel, gig_of, slow_render, csrc. ring.
Qed.

(** ... every entry of the gradient is the derivative of the value in that entry
    of the parameter vector. *)
Theorem C51_gradient : forall kw sc plans Theta, seen_by_all sc plans -> kw <> Some false ->
  (SceneSpec.total sc <= List.length Theta)%nat ->
  (forall sc', set_all_source_params sc Theta = Some sc' -> smooth_scene sc' plans) ->
  exists v g kw', multi kw Theta sc plans = Some (v, g, kw') /\ List.length g = List.length Theta /\
    forall k, (k < List.length Theta)%nat -> exists F,
      (forall t, exists g' kw'', multi kw (upd k t Theta) sc plans = Some (F t, g', kw'')) /\
      is_derive F (nth k Theta 0) (nth k g 0).
Proof.
  intros kw sc plans Theta HS Hkw HL HSm. destruct (multi_ok kw sc plans Theta HS Hkw HL) as (sc' & g & kw' & E1 & E2 & E3 & E4 & _).
  eexists. exists g, kw'. split; [exact E2|]. split; [exact E3|]. intros k Hk.
  exists (fun t => sumR (fun p => plan_value (pl_pixels p) (map (gigT gal_radii amps dan dar simple_radii p (upd k t Theta)) (blocks 0 sc (pl_filter p)))) plans).
  split.
  - intros t. destruct (multi_ok kw sc plans (upd k t Theta) HS Hkw) as (_ & g' & kw'' & _ & F2 & _); [now rewrite upd_length|]. eauto.
  - rewrite E4.
    apply (sumR_derive (fun p t => plan_value (pl_pixels p) (map (gigT gal_radii amps dan dar simple_radii p (upd k t Theta)) (blocks 0 sc (pl_filter p))))).
    intros p Hp. apply value_derive; auto. pose proof (seen_good sc plans p HS Hp) as HG.
    intros b Hb. split; [|split].
    + pose proof (blocks_nodup (pl_filter p) sc 0 HG) as HN. clear -HN Hb. induction (blocks 0 sc (pl_filter p)) as [|b' l IH]; [easy|].
      cbn [map concat] in HN. apply NoDup_app_iff in HN as (N1 & N2 & _). destruct Hb as [<-|Hb]; auto.
    + rewrite (rowT_len Theta []). eapply blocks_len; eauto.
    + destruct (set_scene sc plans Theta HS HL) as (sc2 & K1 & K2 & K3). assert (sc2 = sc') by congruence. subst sc2.
      specialize (K3 p Hp). specialize (HSm sc' E1). intros q Hq.
      assert (HK : exists s, In s sc' /\ attributes s (pl_filter p) = rowT Theta b /\ b_kind b = s_kind s).
      { rewrite <- (blocks_same (pl_filter p) sc sc' 0 K2) in K3, Hb. revert K3 Hb. generalize 0%nat. clear.
        induction sc' as [|s l IH]; intros n H Hb; [easy|]. cbn [blocks] in *. inversion H as [|? ? ? ? A B]; subst. destruct Hb as [<-|Hb].
        - exists s. repeat split; simpl; auto.
        - destruct (IH _ B Hb) as (s' & S1 & S2 & S3). exists s'. repeat split; simpl; auto. }
      destruct HK as (s & S1 & S2 & S3). rewrite <- S2, S3. apply HSm; auto.
Qed.

(** The negated version *)
Lemma negative_multi : forall kw sc plans Theta v g kw', multi kw Theta sc plans = Some (v, g, kw') ->
  negative_lnlike_multi gal_radii amps dan dar simple_radii qf paf kw Theta sc plans = Some (- v, map Ropp g).
Proof. intros kw sc plans Theta v g kw' H. unfold multi in H. unfold negative_lnlike_multi. now rewrite H. Qed.
End Scenes.
Print Assumptions C51_value.
Print Assumptions C51_gradient.

(** Point sources and simple galaxies put all of the flux of the stamp's band in the image:
    the amplitudes of the Gaussians sum to one. *)
Theorem C51_unit_amplitudes : forall gal_radii amps dan dar simple_radii qf paf s f ss, simple_radii <> [] -> s_kind s = Star \/ s_kind s = SimpleGalaxy ->
  slow_of gal_radii amps dan dar simple_radii qf paf s f = Some ss ->
  List.length (ss_amplitudes ss) = List.length (ss_radii ss) /\ fold_right Rplus 0 (ss_amplitudes ss) = 1 /\
  exists k, filter_index s f = Some k /\ (List.length (flux s) <> 1%nat -> nth_error (flux s) k = Some (ss_flux ss)) /\ (List.length (flux s) = 1%nat -> flux s = [ss_flux ss]).
Proof.
  intros gal_radii amps dan dar simple_radii qf paf s f ss Hr Hk H. unfold slow_of, stamp_flux in H. destruct (filter_index s f) as [k|]; [|discriminate].
  assert (G : forall radii : list R, radii <> [] -> fold_right Rplus 0 (equal_parts radii) = 1).
  { intros radii Hne. assert (X : forall (c : R) (l : list R), fold_right Rplus 0 (map (fun _ => c) l) = INR (List.length l) * c). { intros c l. induction l as [|x l IH]; [simpl; ring|]. cbn [map fold_right]. rewrite IH. change (List.length (x :: l)) with (S (List.length l)). rewrite S_INR. ring. }
    unfold equal_parts. rewrite X. assert (INR (List.length radii) <> 0) by (destruct radii; [congruence|]; apply not_0_INR; discriminate). field. assumption. }
  destruct (nth_error (flux s) (if Nat.eqb (List.length (flux s)) 1 then 0 else k)) as [v|] eqn:Ev; [|discriminate].
  assert (F : ss_flux ss = v /\ List.length (ss_amplitudes ss) = List.length (ss_radii ss) /\ fold_right Rplus 0 (ss_amplitudes ss) = 1).
  { destruct Hk as [E|E]; rewrite E in H; injection H as <-; cbn [ss_flux ss_amplitudes ss_radii]; (split; [reflexivity|]); (split; [unfold equal_parts; now rewrite map_length|]); apply G; [discriminate|exact Hr]. }
  destruct F as (F1 & F2 & F3). split; [exact F2|]. split; [exact F3|]. exists k. split; [reflexivity|]. rewrite F1. destruct (Nat.eqb_spec (List.length (flux s)) 1) as [L|L].
  - split; [congruence|]. intros _. destruct (flux s) as [|x [|]]; try discriminate. cbn in Ev. congruence.
  - split; [auto|congruence].
Qed.
Print Assumptions C51_unit_amplitudes.
