(** C29, C39: a patch of one pixel. *)
From Verif Require Import Np NpFacts KernelModel KernelFacts KernelSum PackModel PackBuild PackProps DeviceModel DeviceFacts DeviceLoop DeviceProps DeviceZero.
From Coq Require Import Reals Lra.
Open Scope R_scope.

Definition case_exposure : exposure R := mkExposure "a"%string (5 :: nil) (1 :: nil) (0 :: nil) (0 :: nil).
Definition case_psf : PSFGaussian := mkPSF 1 0 0 1 1 0 0.
(** One pixel per degree, no rotation, (50, 0) at the pixel *)
Definition case_wcs : wcs := mkWcs (fun ra dec => (ra - 50, dec)) (fun _ _ => (M22 1 0 0 1, M22 1 0 0 1)).
Definition case_spline : spline := mkSpline (0 :: nil) (fun _ _ _ => 1) (fun _ _ _ => 0) (fun _ _ _ => 0).
Definition case_packed : packed R :=
  mkPacked ("a"%string :: nil) (1%nat :: nil) (5 :: nil) (1 :: nil) (0 :: nil) (0 :: nil) (0%nat :: nil) (1%nat :: nil) (0%nat :: nil) (1%nat :: nil) (1%nat :: nil).
Definition case_env : env :=
  mkEnv case_packed ("a"%string :: nil) (case_wcs :: nil) (fun _ => Some 1%nat) (fun _ => (case_psf :: nil) :: nil) (fun _ _ => 0%nat) case_spline.
Definition case_row : catrow := mkRow 50 0 1 0 1 1 (fun _ => Some (24 * PI)).
Definition case_state : state :=
  mkState ((5 :: nil) :: nil) 0 None None 0 (0, 0) None None None None false false.

Lemma case_built : patch_built Rminus ("a"%string :: nil) (case_exposure :: nil) None case_env.
Proof.
  split; [reflexivity|]. split; [repeat constructor|]. split; [reflexivity|]. split; [reflexivity|]. reflexivity.
Qed.
(** A source without extent, convolved with a unit circular PSF, at the centre of a pixel *)
Lemma point_counts f x y CW T Z1 Z2 : x = 0 -> y = 0 ->
  residual_term 0 0 (GetGaussianAndJacobian (mkPG 1 x y (0 * 0) f 1 0 0 CW T Z1 Z2) case_psf) = f / (2 * PI) * (11 / 12).
Proof.
  intros -> ->. set (g := GetGaussianAndJacobian _ _).
  assert (Hc : m_add (m_smul (0 * 0) (m_AAt T)) (M22 1 0 0 1) = M22 1 0 0 1) by (unfold m_add, m_smul; cbn [v11 v12 v21 v22]; f_equal; ring).
  assert (Hi : m_inv (M22 1 0 0 1) = M22 1 0 0 1) by (unfold m_inv, m_det; cbn [v11 v12 v21 v22]; f_equal; field; lra).
  assert (Hf : fxx g = 1 /\ fyy g = 1 /\ fxy g = 0 /\ xcen g = 0 /\ ycen g = 0 /\ amp g = f / (2 * PI)).
  { pose proof PI_RGT_0. unfold g, GetGaussianAndJacobian. cbv zeta.
    cbn [s_covar s_T s_G s_flux s_amp s_xcen s_ycen case_psf p_Cxx p_Cyy p_Cxy p_amp p_xcen p_ycen fxx fyy fxy xcen ycen amp]. rewrite Hc, Hi. cbn [v11 v12 v21 v22].
    repeat split; try ring. replace (m_det (M22 1 0 0 1)) with 1 by (unfold m_det; simpl; ring). rewrite sqrt_1. field. lra. }
  clearbody g. destruct Hf as (F1 & F2 & F3 & F4 & F5 & F6).
  assert (Hq : exparg 0 0 g = 0) by (unfold exparg, quad; rewrite F1, F2, F3, F4, F5; ring).
  rewrite residual_term_in by (rewrite Hq; unfold MAX_EXP_ARG; lra). unfold count. fold (exparg 0 0 g). rewrite Hq, F1, F2, F3, F4, F5, F6.
  replace (- (1 / 2) * 0) with 0 by ring. rewrite exp_0. field. pose proof PI_RGT_0. lra.
Qed.
Lemma case_counts : row_counts case_env case_spline case_exposure case_wcs case_row 0 0 = 11.
Proof.
  unfold row_counts. cbn [case_row c_flux c_ra c_dec c_q c_pa c_sersic c_rhalf]. unfold source_counts.
  cbn [case_wcs scale_at_sky world_to_pixel fst snd case_env psf_parameters nth]. rewrite sumR_cons. cbn [case_spline amplitudes radii sersic_radius_bin case_psf nth].
  change (mkPSF 1 0 0 1 1 0 0) with case_psf. rewrite point_counts.
  - unfold sumR. simpl. field. pose proof PI_RGT_0. lra.
  - unfold m_Av. simpl. ring.
  - unfold m_Av. simpl. ring.
Qed.

Lemma case_fluxes l : has_fluxes (case_exposure :: nil) (repeat case_row l).
Proof. intros row b H _. apply repeat_spec in H. subst row. discriminate. Qed.

Lemma case_nonempty l : repeat case_row (S l) <> [].
Proof. discriminate. Qed.
Lemma case_group l : group (case_exposure :: nil) (Some (repeat case_row (S l))).
Proof. split; [apply case_nonempty|apply case_fluxes]. Qed.

(** C29_subtracted_once_partial: three fixed sources in blocks of at most two and one big
    source leave 5 - 4 * 11 = -39 on both devices. *)
Example C29_case : forall gpu, exists st sc, prepare_model case_env gpu case_state (Some (repeat case_row 1)) (Some (repeat case_row 3)) (Some (repeat case_row 1)) 2 None = Some (st, sc) /\
  exists data, retrieve_data gpu st = Some data /\ nth 0 (nth 0 (split_pix case_packed data) []) 0 = -39.
Proof.
  intros gpu.
  destruct (C29_subtracted_once_partial Rminus ("a"%string :: nil) (case_exposure :: nil) None case_env gpu case_built case_state (5 :: nil) (repeat case_row 1) (Some (repeat case_row 3)) (Some (repeat case_row 1)) 2 None
    eq_refl eq_refl eq_refl (Nat.lt_0_succ 1) (case_nonempty 0) (case_fluxes 1) (case_group 2) (case_group 0)) as (st & sc & data & H1 & H2 & _ & H3 & _).
  exists st, sc. split; [exact H1|]. exists data. split; [exact H2|].
  destruct (H3 0%nat case_exposure case_wcs (5 :: nil) eq_refl eq_refl eq_refl) as (img & Hi & _ & Hv). change (pk case_env) with case_packed in Hi.
  rewrite (nth_error_nth _ _ _ Hi). rewrite (Hv 0%nat 0 0 eq_refl eq_refl). cbn [rows repeat]. rewrite !sumR_cons. change (splinedata case_env) with case_spline. rewrite !case_counts. unfold sumR. simpl. lra.
Qed.
(** C29_cpu_twice_refuted: 5 - 2 * 11 instead of 5 - 11. *)
Example C29_twice_case : exists st1 st2 sc1 sc2 data, prepare_model case_env false case_state (Some (repeat case_row 1)) (Some (repeat case_row 1)) None 2 None = Some (st1, sc1) /\
  prepare_model case_env false st1 (Some (repeat case_row 1)) (Some (repeat case_row 1)) None 2 None = Some (st2, sc2) /\ retrieve_data false st2 = Some data /\
  nth 0 (nth 0 (split_pix case_packed data) []) 0 = -17.
Proof.
  destruct (C29_cpu_twice_refuted Rminus ("a"%string :: nil) (case_exposure :: nil) None case_env case_state (5 :: nil) (repeat case_row 1) (Some (repeat case_row 1)) 2 case_built
    eq_refl eq_refl eq_refl (Nat.lt_0_succ 1) (case_nonempty 0) (case_fluxes 1) (case_group 0)) as (st1 & st2 & sc1 & sc2 & data & H1 & H2 & H3 & H4).
  exists st1, st2, sc1, sc2, data. split; [exact H1|]. split; [exact H2|]. split; [exact H3|].
  destruct (H4 0%nat case_exposure case_wcs (5 :: nil) eq_refl eq_refl eq_refl) as (img & Hi & Hv). change (pk case_env) with case_packed in Hi.
  rewrite (nth_error_nth _ _ _ Hi). rewrite (Hv 0%nat 0 0 eq_refl eq_refl). cbn [rows repeat]. rewrite !sumR_cons. change (splinedata case_env) with case_spline. rewrite !case_counts. unfold sumR. simpl. lra.
Qed.
(** C29_gpu_refuses_second: the state after a subtraction is dirty. *)
Example C29_gpu_case : exists st sc, prepare_model case_env true case_state (Some (repeat case_row 1)) (Some (repeat case_row 1)) None 2 None = Some (st, sc) /\ dirty st = true.
Proof.
  destruct (C29_subtracted_once_partial Rminus ("a"%string :: nil) (case_exposure :: nil) None case_env true case_built case_state (5 :: nil) (repeat case_row 1) (Some (repeat case_row 1)) None 2 None
    eq_refl eq_refl eq_refl (Nat.lt_0_succ 1) (case_nonempty 0) (case_fluxes 1) (case_group 0) I) as (st & sc & data & H1 & _ & _ & _ & _ & _ & _ & H3).
  exists st, sc. split; [exact H1|exact H3].
Qed.
(** C39_no_active_refuted: the run returns, the source was at right ascension 50. *)
Example C39_no_active_case : exists st sc, subtract_fixed case_env true case_state (Some (repeat case_row 1)) None None 2 true None None = Some (st, sc) /\
  map g_ra (sc_sources (unzerocoords (reference st) sc)) = 0 :: nil.
Proof.
  assert (Hg : group_scenes case_env 2 None (Some (repeat case_row 1)) = Some (mkScene case_spline (mkGal (24 * PI :: nil) 50 0 1 0 1 1 :: nil) :: nil)) by reflexivity.
  unfold subtract_fixed. rewrite Hg. cbn [group_scenes app List.length negb orb Nat.eqb seq Nat.sub]. set (s0 := mkScene _ _).
  cbn [set_return_residual dirty case_state].
  pose proof case_built as (B1 & B2 & B3 & B4 & B5).
  destruct (first_send Rminus ("a"%string :: nil) (case_exposure :: nil) None case_env true case_built (set_return_residual true case_state) (s0 :: nil) 0 s0 (5 :: nil) eq_refl eq_refl eq_refl eq_refl)
    as (st1 & heap1 & st2 & s0' & Ep & Es & Eh & Hon & _); [discriminate|].
  change (set_return_residual true case_state) with (mkState ((5 :: nil) :: nil) 0 None None 0 (0, 0) None None None None false true) in Ep.
  change (set_return_residual true _) with (mkState ((5 :: nil) :: nil) 0 None None 0 (0, 0) None None None None false true).
  rewrite Ep, Es. pose proof Hon as [s0'' m ref d a id old O1 O2 _ _ _ _ _ _ _ _ _ _ _].
  assert (Hs' : s0'' = mkScene case_spline (mkGal (24 * PI :: nil) (50 + - 50) (0 + - 0) 1 0 1 1 :: nil)).
  { destruct (pack_meta_zero _ _ _ _ _ O2) as [_ Hz]. unfold zerocoords in Hz. cbv zeta iota in Hz. cbn [s0 sc_sources sc_spline map g_ra g_dec fst snd shift_source] in Hz.
    assert (E0 : s0'' = snd (ref, s0'')) by reflexivity. rewrite Hz in E0. exact E0. }
  destruct (loop_step Rminus ("a"%string :: nil) (case_exposure :: nil) None case_env true B1 B2 B3 B4 B5 st2 heap1 0 s0 (5 :: nil) 0 s0'' nil Hon O1) as (st3 & heap3 & data & El & Hon3 & _); [rewrite Hs'; discriminate|].
  rewrite El. cbn [subtract_loop List.last]. destruct Hon3 as [s3 m3 ref3 d3 a3 id3 old3 Q1 Q2 Q3 _ _ _ _ _ _ _ _ _ _]. rewrite Q1. exists st3, s3. split; [reflexivity|].
  destruct (shift_median _ _ _ _ _ O2 _ _ _ Q2) as [R1 R2]. rewrite Q3, R1, R2, Hs'. cbn. f_equal. ring.
Qed.
Print Assumptions C29_subtracted_once_partial.
Print Assumptions C29_blocks.
Print Assumptions C29_empty_fixed_refuted.
Print Assumptions C29_gpu_refuses_second.
Print Assumptions C29_cpu_twice_refuted.
Print Assumptions C39_unzero_zero.
Print Assumptions C39_prepare.
Print Assumptions C39_repeat.
Print Assumptions C39_no_active_refuted.
