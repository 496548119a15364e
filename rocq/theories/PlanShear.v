(** C51 for scenes with galaxies in conformal shear: the value, and the gradient entries that are not
    derivatives in the entries of the parameter vector. *)
From Coquelicot Require Import Coquelicot.
From Verif Require Import Np NpFacts KernelModel KernelJac KernelSum SlowModel SlowProps SlowGrad SceneModel SceneSpec SceneFacts
  PlanModel PlanFacts PlanScene PlanGrad PlanProps ShearModel.
From Coq Require Import Reals Lra Permutation.
Import ListNotations.
Open Scope R_scope.

Section Any.
Context (gal_radii : list R) (amps dan dar : R -> R -> list R) (simple_radii : list R) (qf paf : R -> R -> R).
Let slow := slow_of gal_radii amps dan dar simple_radii qf paf.
Let multi := lnlike_multi gal_radii amps dan dar simple_radii qf paf.

(** The sources a plan sees, and the ones it holds fixed *)
Definition sees (p : plan) (s : source R) : bool := (0 <? coverage p s)%Z.
Definition rendered (p : plan) (sc : list (source R)) : option (list slow_source) := mapM (fun s => slow s (pl_filter p)) (filter (sees p) sc).

Lemma plan_loop_spec p scene : forall rest j i act fix_ ti gi,
  plan_loop gal_radii amps dan dar simple_radii qf paf p scene j i rest = Some (act, fix_, ti, gi) ->
  exists ss sa sf, rendered p rest = Some ss /\ Permutation ss (sa ++ sf) /\
    act = map (fun s => convert_to_gaussians s (pl_stamp p)) sa /\ fix_ = map (fun s => convert_to_gaussians s (pl_stamp p)) sf /\
    ((forall s, In s rest -> coverage p s <> 1%Z) -> sf = []).
Proof.
  induction rest as [|s rest IH]; intros j i act fix_ ti gi H.
  - cbn in H. injection H as <- <- <- <-. exists [], [], []. repeat split; auto.
  - cbn [plan_loop] in H. unfold rendered. cbn [filter].
    destruct (Z.leb_spec (coverage p s) 0) as [C0|C0].
    + apply IH in H as (ss & sa & sf & H1 & H2 & H3 & H4 & H5). exists ss, sa, sf.
      assert (E : sees p s = false) by (unfold sees; lia). rewrite E. repeat split; auto. intros HC. apply H5. intros x Hx. apply HC. now right.
    + assert (E : sees p s = true) by (unfold sees; lia). rewrite E. cbn [mapM]. fold slow in H. destruct (slow s (pl_filter p)) as [x|]; [|discriminate]. cbv zeta in H.
      destruct (Z.eqb_spec (coverage p s) 1) as [C1|C1].
      * destruct (plan_loop gal_radii amps dan dar simple_radii qf paf p scene (S j) i rest) as [[[[a f] t] g]|] eqn:Eq; [|discriminate].
        injection H as <- <- <- <-. apply IH in Eq as (ss & sa & sf & H1 & H2 & H3 & H4 & H5). exists (x :: ss), sa, (x :: sf).
        unfold rendered in H1. rewrite H1. repeat split; auto.
        -- rewrite <- Permutation_middle. now constructor.
        -- cbn [map]. now f_equal.
        -- intros HC. exfalso. apply (HC s); simpl; auto.
      * destruct (param_indices scene j (pl_filter p)) as [inds|]; [|discriminate].
        destruct (plan_loop gal_radii amps dan dar simple_radii qf paf p scene (S j) (S i) rest) as [[[[a f] t] g]|] eqn:Eq; [|discriminate].
        injection H as <- <- <- <-. apply IH in Eq as (ss & sa & sf & H1 & H2 & H3 & H4 & H5). exists (x :: ss), (x :: sa), sf.
        unfold rendered in H1. rewrite H1. repeat split; auto.
        -- cbn [app]. now constructor.
        -- cbn [map]. now f_equal.
        -- intros HC. apply H5. intros y Hy. apply HC. now right.
Qed.

Lemma sumR_perm {A} (f : A -> R) l m : Permutation l m -> sumR f l = sumR f m.
Proof. induction 1; auto; rewrite ?sumR_cons; try lra. Qed.
Lemma chi2_perm px l m st : Permutation l m -> chi2_of px l st = chi2_of px m st.
Proof. intros H. unfold chi2_of. apply sumR_ext. intros q _. now rewrite (sumR_perm _ l m H). Qed.
Lemma work_value px st active fixed :
  fst (work_lnlike px (map (fun s => convert_to_gaussians s st) active) fixed) = - chi2_of px active st / 2.
Proof.
  rewrite work_closed. cbn [fst]. unfold plan_value, chi2_of.
  rewrite (sumR_ext (fun q => chi_at _ q * chi_at _ q)
    (fun q => ((q_value q - sumR (fun s => fst (slow_render s st (q_x q) (q_y q))) active) * q_ierr q) ^ 2)); [field|].
  intros q _. unfold chi_at. rewrite sumR_map. unfold at_pixel, slow_render. ring.
Qed.

(** What a plan leaves out of its image: a WorkPlan leaves out the fixed sources, so there is none, or the plan is a FastWorkPlan *)
Definition complete (p : plan) (sc : list (source R)) : Prop := pl_fast p = true \/ forall s, In s sc -> coverage p s <> 1%Z.

Lemma plans_value scene : forall plans kw lnp grad v g kw', (forall p, In p plans -> complete p scene) ->
  lnlike_plans gal_radii amps dan dar simple_radii qf paf kw scene plans lnp grad = Some (v, g, kw') ->
  exists sss, Forall2 (fun p ss => rendered p scene = Some ss) plans sss /\
    v = lnp + sumR (fun x => - chi2_of (pl_pixels (fst x)) (snd x) (pl_stamp (fst x)) / 2) (combine plans sss).
Proof.
  induction plans as [|p plans IH]; intros kw lnp grad v g kw' HC H.
  - cbn in H. injection H as <- _ _. exists []. split; [constructor|]. unfold sumR. simpl. ring.
  - cbn [lnlike_plans] in H. unfold plan_sources in H.
    destruct (plan_loop gal_radii amps dan dar simple_radii qf paf p scene 0 0 scene) as [[[[a f] ti] gi]|] eqn:Eq; [|discriminate].
    destruct (nodupb ti); [|discriminate]. apply plan_loop_spec in Eq as (ss & sa & sf & H1 & H2 & -> & -> & H5).
    destruct (plan_lnlike kw (pl_fast p) (pl_pixels p) _ _) as [[[v1 g1] kw1]|] eqn:El; [|discriminate].
    destruct (mapM (nth_error (concat g1)) gi) as [vals|]; [|discriminate].
    destruct (add_at grad ti vals) as [grad'|]; [|discriminate].
    apply IH in H as (sss & F1 & F2); [|intros; apply HC; now right].
    exists (ss :: sss). split; [now constructor|]. cbn [combine]. rewrite sumR_cons. cbn [fst snd].
    assert (E : v1 = - chi2_of (pl_pixels p) ss (pl_stamp p) / 2); [|rewrite F2, E; ring].
    rewrite (chi2_perm _ _ _ _ H2). unfold plan_lnlike in El. destruct (HC p (or_introl eq_refl)) as [HF|HN].
    + rewrite HF in El. rewrite <- C51_fast_value. destruct (fast_lnlike (pl_pixels p) _ _). cbn [fst]. congruence.
    + rewrite (H5 HN) in *. rewrite app_nil_r. destruct (pl_fast p).
      * rewrite <- (app_nil_r sa). rewrite <- C51_fast_value. destruct (fast_lnlike (pl_pixels p) _ _). cbn [fst]. congruence.
      * rewrite <- (work_value (pl_pixels p) (pl_stamp p) sa (map (fun s => convert_to_gaussians s (pl_stamp p)) [])).
        destruct (work_lnlike (pl_pixels p) _ _) as [v2 g2]. cbn [fst].
        destruct kw as [[|]|]; try (destruct (no_gaussians _); [|discriminate]); congruence.
Qed.

(** Whatever the classes of the sources, fixed or active: when lnlike_multi returns, its value is minus half the chi-square,
    summed over the plans, of data minus the images of the sources the plan sees, at the parameters it was given. *)
Theorem C51_any_value : forall kw sc plans Theta v g kw', multi kw Theta sc plans = Some (v, g, kw') ->
  exists sc', set_all_source_params sc Theta = Some sc' /\
    ((forall p, In p plans -> complete p sc') ->
     exists sss, Forall2 (fun p ss => mapM (fun s => slow s (pl_filter p)) (filter (fun s => (0 <? coverage p s)%Z) sc') = Some ss) plans sss /\
       v = sumR (fun x => - chi2_of (pl_pixels (fst x)) (snd x) (pl_stamp (fst x)) / 2) (combine plans sss)).
Proof.
  intros kw sc plans Theta v g kw' H. unfold multi, lnlike_multi in H. destruct (set_all_source_params sc Theta) as [sc'|]; [|discriminate].
  exists sc'. split; [reflexivity|]. intros HC. apply plans_value in H as (sss & H1 & H2); auto. exists sss. split; [exact H1|]. rewrite H2. ring.
Qed.
End Any.
Print Assumptions C51_any_value.

(** ** A galaxy with one Gaussian of unit radius, in conformal shear *)
Definition one_tab (_ _ : R) : list R := [1].
Definition zero_tab (_ _ : R) : list R := [0].
Notation shear_multi := (lnlike_multi [1] one_tab zero_tab zero_tab [] shear_q shear_pa).
Definition fl0 : R := 2 * PI * 24 / 23.
Definition sheared (fl ep ec : R) : source R := mkSource Shear ["F"%string] [fl] 0 0 1 0 1 1 ep ec false.
Definition dark_plan (fast : bool) : plan := mkPlan fast [mkPix 0 0 0 1] "F" unit_stamp (fun _ => 2%Z).
Definition srow (q : R) : list R := [fl0; 0; 0; q; 0; 1; 1].
Definition ssrc (q : R) : slow_source := src_row [1] one_tab zero_tab zero_tab (srow q).

Lemma stretched_covar q : q <> 0 ->
  mplus (matmul_matmul (slow_T (ssrc q) unit_stamp) (covariance 1) (transpose (slow_T (ssrc q) unit_stamp))) (M22 1 0 0 1) = M22 (1 / q ^ 2 + 1) 0 0 (q ^ 2 + 1).
Proof.
  intros Hq. unfold slow_T, ssrc, src_row, srow, unit_stamp, rotation_matrix, scale_matrix, dot_dot. cbn [scale ss_pa ss_q nth v11 v12 v21 v22].
  rewrite cos_0, sin_0. unfold mplus, matmul_matmul, dot2, covariance, transpose. cbn [v11 v12 v21 v22]. f_equal; field; auto.
Qed.
Lemma stretched_inv q : q <> 0 -> fast_inv (M22 (1 / q ^ 2 + 1) 0 0 (q ^ 2 + 1)) = M22 (q ^ 2 / (1 + q ^ 2)) 0 0 (1 / (1 + q ^ 2)).
Proof. intros Hq. unfold fast_inv. cbn [v11 v12 v21 v22]. assert (0 < q ^ 2) by nra. f_equal; field; repeat split; nra. Qed.
Lemma stretched_gaussian q : 0 < q -> slow_gaussian (ssrc q) unit_stamp 1 1 (1, (0, 0), M22 1 0 0 1) =
  mkSG (24 / 23 * (q / (1 + q ^ 2))) 0 0 (q ^ 2 / (1 + q ^ 2)) 0 (1 / (1 + q ^ 2)) [].
Proof.
  intros Hq. unfold slow_gaussian. cbv zeta. rewrite stretched_covar, stretched_inv by lra.
  cbn [ssrc src_row srow nth unit_stamp ss_ra ss_dec ss_flux st_crval st_crpix dpix_dsky photocounts fst snd v11 v12 v21 v22].
  assert (E : fast_det (M22 (q ^ 2 / (1 + q ^ 2)) 0 0 (1 / (1 + q ^ 2))) = (q / (1 + q ^ 2)) ^ 2) by (unfold fast_det; cbn [v11 v12 v21 v22]; field; nra).
  assert (0 < q / (1 + q ^ 2)) by (apply Rdiv_lt_0_compat; nra).
  rewrite E, sqrt_pow2 by lra. unfold fl0. pose proof PI_neq0. f_equal; field; nra.
Qed.
Lemma stretched_image q : 0 < q -> fst (slow_render (ssrc q) unit_stamp 0 0) = q / (1 + q ^ 2).
Proof.
  intros Hq. unfold slow_render. rewrite gig_image. unfold convert_to_gaussians, slow_components.
  change (ss_radii (ssrc q)) with [1]. change (ss_amplitudes (ssrc q)) with [1]. change (ss_da_dsersic (ssrc q)) with [0]. change (ss_da_drh (ssrc q)) with [0].
  change (st_psf unit_stamp) with unit_psf. unfold unit_psf.
  cbn [combine flat_map map app]. cbv zeta. rewrite sumR_cons, (stretched_gaussian q Hq). cbn [g_amp g_xcen g_ycen g_fxx g_fxy g_fyy].
  unfold compute_gaussian. cbv zeta. cbn [fst g_amp g_xcen g_ycen g_fxx g_fxy g_fyy]. unfold sumR. cbn [fold_right]. rewrite Rplus_0_r.
  match goal with |- _ * exp ?a * _ * _ = _ => replace a with 0 by ring end. rewrite exp_0. field. nra.
Qed.
Lemma stretched_smooth q : 0 < q -> smooth_at [1] one_tab zero_tab zero_tab (srow q) unit_stamp 0 0.
Proof.
  intros Hq. pose proof PI_RGT_0 as HP. constructor; cbn [srow nth].
  - unfold fl0. lra.
  - lra.
  - cbn [unit_stamp photocounts]. lra.
  - constructor; [lra|constructor].
  - intros i Hi. unfold spline_ok, by_bin, one_tab, zero_tab. split; replace (nth i [0] 0) with 0 by (destruct i as [|[|]]; reflexivity); apply @is_derive_const.
  - intros g [<-|[]]. cbn [proper_psf snd v11 v12 v21 v22]. lra.
  - intros g Hg. fold (srow q) in Hg. fold (ssrc q) in Hg. unfold convert_to_gaussians, slow_components in Hg.
    change (ss_radii (ssrc q)) with [1] in Hg. change (ss_amplitudes (ssrc q)) with [1] in Hg. change (ss_da_dsersic (ssrc q)) with [0] in Hg. change (ss_da_drh (ssrc q)) with [0] in Hg.
    change (st_psf unit_stamp) with unit_psf in Hg. unfold unit_psf in Hg.
    cbn [combine flat_map map app] in Hg. cbv zeta in Hg. rewrite (stretched_gaussian q Hq) in Hg. destruct Hg as [<-|[]].
    unfold correction. cbn [g_amp g_xcen g_ycen g_fxx g_fxy g_fyy].
    assert (q ^ 2 / (1 + q ^ 2) + 1 / (1 + q ^ 2) = 1) by (field; nra). apply Rgt_not_eq.
    match goal with |- 1 + (?a ^ 2 + ?b ^ 2 - _ - _) / 24 > 0 => pose proof (pow2_ge_0 a); pose proof (pow2_ge_0 b) end. lra.
Qed.

Lemma on_axis t : 0 < t -> shear_q t 0 = exp (- t / 2) /\ shear_pa t 0 = 0.
Proof.
  intros Ht. unfold shear_q, shear_pa, hypot, atan2. split.
  - replace (t * t + 0 * 0) with (t ^ 2) by ring. rewrite sqrt_pow2 by lra. reflexivity.
  - destruct (Rlt_dec 0 t); [|lra]. replace (0 / t) with 0 by (field; lra). rewrite atan_0. lra.
Qed.

(** What lnlike_multi returns for the scene: value and the entry of eta_+ *)
Definition theta (t : R) : list R := [fl0; 0; 0; t; 0; 1; 1].
Definition lnp_of (t : R) : R := - (exp (- t / 2) / (1 + exp (- t / 2) ^ 2)) ^ 2 / 2.
Lemma shear_run fast t : 0 < t -> exists g kw',
  shear_multi None (theta t) [sheared 0 0 0] [dark_plan fast] = Some (lnp_of t, g, kw') /\
  List.length g = 7%nat /\
  nth 3 g 0 = nth 3 (snd (slow_render (ssrc (exp (- t / 2))) unit_stamp 0 0)) 0 * - fst (slow_render (ssrc (exp (- t / 2))) unit_stamp 0 0).
Proof.
  intros Ht. destruct (on_axis t Ht) as [Eq Ep]. pose proof (exp_pos (- t / 2)) as HE.
  unfold lnlike_multi.
  assert (E1 : set_all_source_params [sheared 0 0 0] (theta t) = Some [sheared fl0 t 0]) by reflexivity. rewrite E1.
  cbn [lnlike_plans].
  assert (E2 : plan_sources [1] one_tab zero_tab zero_tab [] shear_q shear_pa (dark_plan fast) [sheared fl0 t 0] =
    Some ([convert_to_gaussians (ssrc (exp (- t / 2))) unit_stamp], [], [0; 1; 2; 3; 4; 5; 6]%nat, [0; 1; 2; 3; 4; 5; 6]%nat)).
  { unfold plan_sources. cbn [plan_loop]. change (coverage (dark_plan fast) (sheared fl0 t 0)) with 2%Z. cbn [Z.leb Z.eqb Z.compare Pos.compare Pos.compare_cont].
    assert (E3 : slow_of [1] one_tab zero_tab zero_tab [] shear_q shear_pa (sheared fl0 t 0) (pl_filter (dark_plan fast)) = Some (ssrc (exp (- t / 2)))).
    { unfold slow_of. change (stamp_flux (sheared fl0 t 0) (pl_filter (dark_plan fast))) with (Some fl0).
      change (s_kind (sheared fl0 t 0)) with Shear. cbv iota zeta. change (s_ep (sheared fl0 t 0)) with t. change (s_ec (sheared fl0 t 0)) with 0.
      rewrite Eq, Ep. reflexivity. }
    rewrite E3. cbv zeta. reflexivity. }
  rewrite E2. set (q := exp (- t / 2)) in *. set (gs := convert_to_gaussians (ssrc q) unit_stamp).
  assert (E4 : exists kw', plan_lnlike None (pl_fast (dark_plan fast)) (pl_pixels (dark_plan fast)) [gs] [] =
     Some (plan_value [mkPix 0 0 0 1] [gs], [plan_gradient [mkPix 0 0 0 1] [gs] gs], kw')).
  { unfold plan_lnlike. change (pl_pixels (dark_plan fast)) with [mkPix 0 0 0 1]. change (pl_fast (dark_plan fast)) with fast. destruct fast.
    - rewrite fast_closed by (constructor; [apply convert_shaped|constructor]). eexists. reflexivity.
    - rewrite work_closed. eexists. reflexivity. }
  destruct E4 as (kw' & ->). cbv beta iota.
  assert (EV : plan_value [mkPix 0 0 0 1] [gs] = - (q / (1 + q ^ 2)) ^ 2 / 2).
  { unfold plan_value, chi_at, sumR. cbn [fold_right q_value q_ierr]. unfold at_pixel. cbn [q_x q_y]. unfold gs.
    change (compute_gig (convert_to_gaussians (ssrc q) unit_stamp) 0 0) with (slow_render (ssrc q) unit_stamp 0 0).
    rewrite (stretched_image q HE). field. nra. }
  set (c := chi_at [gs] (mkPix 0 0 0 1)).
  assert (Ec : c = - fst (slow_render (ssrc q) unit_stamp 0 0)).
  { unfold c, chi_at, sumR. cbn [fold_right q_value q_ierr]. unfold at_pixel, slow_render. cbn [q_x q_y]. unfold gs. ring. }
  clear E1 E2 Eq Ep. unfold plan_gradient. unfold sumR. cbn [seq map concat app fold_right q_ierr]. fold c.
  cbn [mapM nth_error]. unfold add_at. unfold theta. cbn [List.length Nat.eqb negb forallb repeat Nat.ltb Nat.leb andb combine fold_left fst snd upd nth].
  eexists. exists kw'. split; [|split].
  - rewrite EV, Rplus_0_l. unfold lnp_of. fold q. reflexivity.
  - reflexivity.
  - cbn [nth]. rewrite Ec. unfold at_pixel. cbn [q_x q_y]. unfold slow_render, gs. ring.
Qed.

Lemma render_entry q : 0 < q -> nth 3 (snd (slow_render (ssrc q) unit_stamp 0 0)) 0 = (1 - q ^ 2) / (1 + q ^ 2) ^ 2.
Proof.
  intros Hq. assert (Hpos : 0 < 1 + q ^ 2) by nra.
  assert (Dq : is_derive (fun x => x / (1 + x ^ 2)) q ((1 - q ^ 2) / (1 + q ^ 2) ^ 2)).
  { auto_derive; [nra|]. field. nra. }
  pose proof (C51_render_gradient [1] one_tab zero_tab zero_tab (srow q) unit_stamp 0 0 3 (fun n r => conj eq_refl (conj eq_refl eq_refl)) eq_refl ltac:(lia) (stretched_smooth q Hq)) as HD.
  assert (HD2 : is_derive (fun x => x / (1 + x ^ 2)) q (nth 3 (snd (slow_render (ssrc q) unit_stamp 0 0)) 0)).
  { eapply is_derive_ext_loc; [|exact HD]. exists (mkposreal q Hq). intros y Hy.
    apply stretched_image. change (Rabs (y - q) < q) in Hy. apply Rabs_def2 in Hy. lra. }
  rewrite <- (is_derive_unique _ _ _ HD2). exact (is_derive_unique _ _ _ Dq).
Qed.
Lemma lnp_derive t : is_derive lnp_of t
  (- (exp (- t / 2) / (1 + exp (- t / 2) ^ 2)) * ((1 - exp (- t / 2) ^ 2) / (1 + exp (- t / 2) ^ 2) ^ 2) * (- exp (- t / 2) / 2)).
Proof.
  unfold lnp_of. assert (Hq : 0 < exp (- t / 2)) by apply exp_pos. assert (0 < 1 + exp (- t / 2) ^ 2) by nra.
  auto_derive; [nra|]. repeat match goal with |- context [exp ?a] => lazymatch a with (- t / 2) => fail | _ => replace (exp a) with (exp (- t / 2)) by (f_equal; field) end end.
  field. nra.
Qed.
Lemma entry_differs q : 0 < q < 1 ->
  (1 - q ^ 2) / (1 + q ^ 2) ^ 2 * - (q / (1 + q ^ 2)) <> - (q / (1 + q ^ 2)) * ((1 - q ^ 2) / (1 + q ^ 2) ^ 2) * (- q / 2).
Proof.
  intros Hq H. set (I := q / (1 + q ^ 2)) in *. set (I' := (1 - q ^ 2) / (1 + q ^ 2) ^ 2) in *.
  assert (HI : 0 < I) by (unfold I; apply Rdiv_lt_0_compat; nra). assert (HI' : 0 < I') by (unfold I'; apply Rdiv_lt_0_compat; nra).
  assert (0 < I * I') by nra. nra.
Qed.

(** What follows from such answers, for any function that gives them *)
Lemma entry_not_derivative {S P K} (run : list R -> S -> P -> option (R * list R * K)) (sc : S) (pl : P) :
  (forall t, 0 < t -> exists g kw', run (theta t) sc pl = Some (lnp_of t, g, kw') /\ List.length g = 7%nat /\
     nth 3 g 0 = nth 3 (snd (slow_render (ssrc (exp (- t / 2))) unit_stamp 0 0)) 0 * - fst (slow_render (ssrc (exp (- t / 2))) unit_stamp 0 0)) ->
  exists v g kw' F d, run (theta 1) sc pl = Some (v, g, kw') /\
    (forall t, 0 < t -> exists g' kw'', run (upd 3 t (theta 1)) sc pl = Some (F t, g', kw'')) /\ 0 < nth 3 (theta 1) 0 /\
    is_derive F (nth 3 (theta 1) 0) d /\ nth 3 g 0 <> d.
Proof.
  intros Run. destruct (Run 1 ltac:(lra)) as (g & kw' & E1 & _ & E3). change (nth 3 (theta 1) 0) with 1.
  exists (lnp_of 1), g, kw', lnp_of. eexists. split; [exact E1|]. split; [|split; [|split; [apply lnp_derive|]]].
  - intros t Ht. destruct (Run t Ht) as (g' & kw'' & E & _). exists g', kw''. exact E.
  - exact Rlt_0_1.
  - rewrite E3, render_entry, stretched_image by apply exp_pos. apply entry_differs.
    split; [apply exp_pos|]. apply Rlt_le_trans with (exp 0); [apply exp_increasing; lra|rewrite exp_0; lra].
Qed.

(** The likelihood of such a galaxy: the entry of the gradient at eta_+ is not the derivative along eta_+,
    which exists (the code leaves it the derivative in the axis ratio). *)
Theorem C51_shear_refuted : exists gal_radii amps dan dar fast sc Theta plans k,
  tables_fit gal_radii amps dan dar /\ List.Forall well_made sc /\ List.Forall (fun s => s_kind s = Shear /\ fixed s = false) sc /\
  List.length Theta = SceneSpec.total sc /\ (k < List.length Theta)%nat /\ plans = [dark_plan fast] /\
  let run := lnlike_multi gal_radii amps dan dar [] shear_q shear_pa None in
  exists v g kw' F d, run Theta sc plans = Some (v, g, kw') /\
    (forall t, 0 < t -> exists g' kw'', run (upd k t Theta) sc plans = Some (F t, g', kw'')) /\ 0 < nth k Theta 0 /\
    is_derive F (nth k Theta 0) d /\ nth k g 0 <> d.
Proof.
  exists [1], one_tab, zero_tab, zero_tab, false, [sheared 0 0 0], (theta 1), [dark_plan false], 3%nat.
  split; [intros n r; auto|]. split; [repeat constructor|]. split; [repeat constructor|]. split; [reflexivity|]. split; [simpl; lia|]. split; [reflexivity|].
  exact (entry_not_derivative (shear_multi None) [sheared 0 0 0] [dark_plan false] (shear_run false)).
Qed.
Print Assumptions C51_shear_refuted.

(** C51_any_value: a galaxy in shear, seen by two plans, one of each class *)
Example C51_any_case : exists v g kw',
  shear_multi None (theta 2) [sheared 0 0 0] [dark_plan true] = Some (v, g, kw') /\ v <> 0 /\
  (forall p, In p [dark_plan true; dark_plan false] -> complete p [sheared fl0 2 0]).
Proof.
  destruct (shear_run true 2 ltac:(lra)) as (g & kw' & E & _). eexists. exists g, kw'. split; [exact E|]. split.
  - unfold lnp_of. assert (H : 0 < exp (Ropp 2 / 2) / (1 + exp (Ropp 2 / 2) ^ 2)). { pose proof (exp_pos (Ropp 2 / 2)). apply Rdiv_lt_0_compat; nra. } nra.
  - intros p [<-|[<-|[]]]; right; intros s _; discriminate.
Qed.
