(** C78: the counts the kernel gives a pixel are the light of the Gaussians on
    that pixel (src/common_kernel.cc 57-83 and 175-240), up to a bound set by how narrow the Gaussians are. *)
From Coq Require Import Reals Lra Lia Psatz List ZArith.
From Coquelicot Require Import Coquelicot.
From Verif Require Import Np NpFacts KernelModel KernelFacts KernelProps GaussInt PixelFacts.
Import ListNotations.
Open Scope R_scope.

(** ** What is meant by light *)
(** Light per unit area at a point, and on a rectangle; a pixel is the unit square about its centre. *)
Definition brightness (g : ImageGaussian) (x y : R) : R := amp g * exp (- distance2 x y g / 2).
Definition light (g : ImageGaussian) (x0 x1 y0 y1 : R) : R := RInt (fun y => RInt (fun x => brightness g x y) x0 x1) y0 y1.
Definition pixel_light (g : ImageGaussian) (xp yp : R) : R := light g (xp - / 2) (xp + / 2) (yp - / 2) (yp + / 2).
(** The matrix of the Gaussian has no negative eigenvalue. *)
Definition shape (g : ImageGaussian) : Prop := 0 <= fxx g /\ 0 <= fyy g /\ fxy g ^ 2 <= fxx g * fyy g.
Definition curved (g : ImageGaussian) : R := Rabs (amp g) * ((fxx g ^ 2 + fyy g ^ 2) / 240 + fxx g * fyy g / 72).
Definition dropped (g : ImageGaussian) : R := Rabs (amp g) * (exp (-18) * (1 + 37 * (fxx g + fyy g) / 24)).

(** ** Between the two forms *)
Lemma brightness_ga g x y : brightness g x y = amp g * ga (fxx g) (fyy g) (fxy g) (xcen g) (ycen g) x y.
Proof. unfold brightness, ga, distance2. f_equal. f_equal. field. Qed.
Lemma scal_RInt (f : R -> R) a u v : ex_RInt f u v -> RInt (fun x => a * f x) u v = a * RInt f u v.
Proof. intros H. exact (RInt_scal (V := R_CompleteNormedModule) f u v a H). Qed.
Lemma ga_row_ex p q r xc yc y u v : ex_RInt (fun x => ga p q r xc yc x y) u v.
Proof. apply (ex_RInt_continuous (V := R_CompleteNormedModule)). intros x _. apply (ex_derive_continuous (fun x => ga p q r xc yc x y)). eexists. apply ga_dx. Qed.
Lemma row_brightness g y u v : RInt (fun x => brightness g x y) u v = amp g * RInt (fun x => ga (fxx g) (fyy g) (fxy g) (xcen g) (ycen g) x y) u v.
Proof.
  rewrite <- scal_RInt by apply ga_row_ex. apply RInt_ext. intros x _. apply brightness_ga.
Qed.
Lemma pixel_light_ga g xp yp : shape g -> pixel_light g xp yp = amp g * PixelFacts.pixel_light (fxx g) (fyy g) (fxy g) (xcen g) (ycen g) xp yp.
Proof.
  intros (H1 & H2 & H3). unfold pixel_light, light, PixelFacts.pixel_light. rewrite <- scal_RInt by (apply row_ex; auto). apply RInt_ext. intros y _. apply row_brightness.
Qed.
Lemma rendered_one xp yp g : rendered xp yp (g :: nil) = residual_term xp yp g.
Proof. unfold rendered, ComputeResidualImage. cbn [fold_left]. ring. Qed.
Lemma count_ga xp yp g : count xp yp (amp g) (xcen g) (ycen g) (fxx g) (fyy g) (fxy g) =
  amp g * (ga (fxx g) (fyy g) (fxy g) (xcen g) (ycen g) xp yp + (gx2 (fxx g) (fyy g) (fxy g) (xcen g) (ycen g) xp yp + gy2 (fxx g) (fyy g) (fxy g) (xcen g) (ycen g) xp yp) / 24).
Proof.
  unfold count, gx2, gy2, vx, vy, ga, quad.
  replace ((xp - xcen g) * (fxx g * (xp - xcen g) + fxy g * (yp - ycen g)) + (yp - ycen g) * (fyy g * (yp - ycen g) + fxy g * (xp - xcen g)))
    with (fxx g * (xp - xcen g) ^ 2 + fyy g * (yp - ycen g) ^ 2 + 2 * fxy g * (xp - xcen g) * (yp - ycen g)) by ring. field.
Qed.
Lemma curved_nonneg g : shape g -> 0 <= curved g.
Proof.
  intros (H1 & H2 & _). apply Rmult_le_pos; [apply Rabs_pos|]. pose proof (pow2_ge_0 (fxx g)). pose proof (pow2_ge_0 (fyy g)). pose proof (Rmult_le_pos _ _ H1 H2). lra.
Qed.
Lemma dropped_nonneg g : shape g -> 0 <= dropped g.
Proof.
  intros (H1 & H2 & _). apply Rmult_le_pos; [apply Rabs_pos|]. apply Rmult_le_pos; [left; apply exp_pos|lra].
Qed.
Lemma count_light xp yp g : shape g -> Rabs (count xp yp (amp g) (xcen g) (ycen g) (fxx g) (fyy g) (fxy g) - pixel_light g xp yp) <= curved g.
Proof.
  intros S0. rewrite pixel_light_ga by exact S0. destruct S0 as (H1 & H2 & H3). rewrite count_ga, <- Rmult_minus_distr_l, Rabs_mult, Rabs_minus_sym. apply Rmult_le_compat_l; [apply Rabs_pos|]. apply PixelFacts.pixel_light_near; auto.
Qed.
(** The exponential wins over the polynomial. *)
Lemma far_decay z m : 0 <= m -> 36 <= z -> (1 + m * (z + 1)) * exp (- (1 / 2) * z) <= exp (-18) * (1 + 37 * m).
Proof.
  intros Hm Hz. replace (- (1 / 2) * z) with (-18 + - ((z - 36) / 2)) by field. rewrite exp_plus, exp_Ropp.
  pose proof (exp_ineq1_le ((z - 36) / 2)) as E. set (e := exp ((z - 36) / 2)) in *. assert (P : 0 < e) by apply exp_pos. pose proof (exp_pos (-18)) as Q.
  replace ((1 + m * (z + 1)) * (exp (-18) * / e)) with (exp (-18) * ((1 + m * (z + 1)) / e)) by (field; lra). apply Rmult_le_compat_l; [lra|].
  apply (Rmult_le_reg_r e); auto. unfold Rdiv. rewrite Rmult_assoc, Rinv_l, Rmult_1_r by lra.
  assert (m * (z + 1) <= 37 * m * (1 + (z - 36) / 2)) by nra. assert (0 <= m * ((z - 36) / 2)) by (apply Rmult_le_pos; lra). nra.
Qed.
Lemma far_count xp yp g : shape g -> MAX_EXP_ARG < distance2 xp yp g -> Rabs (count xp yp (amp g) (xcen g) (ycen g) (fxx g) (fyy g) (fxy g)) <= dropped g.
Proof.
  intros (H1 & H2 & H3) F. unfold MAX_EXP_ARG in F. unfold dropped. rewrite count_ga, Rabs_mult. apply Rmult_le_compat_l; [apply Rabs_pos|].
  set (V := vx (fxx g) (fxy g) (xcen g) (ycen g) xp yp). set (W := vy (fyy g) (fxy g) (xcen g) (ycen g) xp yp). set (z := zz (fxx g) (fyy g) (fxy g) (xcen g) (ycen g) xp yp).
  assert (Ez : z = distance2 xp yp g) by reflexivity.
  pose proof (cauchy_x (fxx g) (fyy g) (fxy g) (xcen g) (ycen g) H3 xp yp) as CX. pose proof (cauchy_y (fxx g) (fyy g) (fxy g) (xcen g) (ycen g) H3 xp yp) as CY. fold V z in CX. fold W z in CY.
  unfold gx2, gy2. fold V W. replace (ga (fxx g) (fyy g) (fxy g) (xcen g) (ycen g) xp yp) with (exp (- (1 / 2) * z)) by reflexivity.
  replace (exp (- (1 / 2) * z) + ((V ^ 2 - fxx g) * exp (- (1 / 2) * z) + (W ^ 2 - fyy g) * exp (- (1 / 2) * z)) / 24) with ((1 + (V ^ 2 + W ^ 2 - fxx g - fyy g) / 24) * exp (- (1 / 2) * z)) by field.
  rewrite Rabs_mult, (Rabs_pos_eq (exp _)) by (left; apply exp_pos).
  eapply Rle_trans; [|replace (37 * (fxx g + fyy g) / 24) with (37 * ((fxx g + fyy g) / 24)) by field; apply (far_decay z); lra].
  apply Rmult_le_compat_r; [left; apply exp_pos|]. pose proof (pow2_ge_0 V). pose proof (pow2_ge_0 W). assert (0 <= fxx g * z) by lra. assert (0 <= fyy g * z) by lra. apply Rabs_le. lra.
Qed.

(** ** C78: one pixel *)
Theorem C78_pixel : forall g xp yp, shape g ->
  (distance2 xp yp g <= MAX_EXP_ARG -> Rabs (rendered xp yp (g :: nil) - pixel_light g xp yp) <= curved g) /\
  (MAX_EXP_ARG < distance2 xp yp g -> rendered xp yp (g :: nil) = 0 /\ Rabs (pixel_light g xp yp) <= curved g + dropped g).
Proof.
  intros g xp yp S0. rewrite rendered_one. split; intros D.
  - rewrite residual_term_in by (rewrite <- distance2_exparg; exact D). apply count_light, S0.
  - rewrite residual_term_out by (rewrite <- distance2_exparg; exact D). split; auto.
    pose proof (count_light xp yp g S0) as C. pose proof (far_count xp yp g S0 D) as K. set (c := count _ _ _ _ _ _ _ _) in *.
    replace (pixel_light g xp yp) with (- (c - pixel_light g xp yp) + c) by ring. eapply Rle_trans; [apply Rabs_triang|]. rewrite Rabs_Ropp. lra.
Qed.
Definition tolerance (g : ImageGaussian) : R := curved g + dropped g.
Lemma any_pixel g xp yp : shape g -> Rabs (rendered xp yp (g :: nil) - pixel_light g xp yp) <= tolerance g.
Proof.
  intros S0. destruct (C78_pixel g xp yp S0) as (I & O). pose proof (dropped_nonneg g S0). unfold tolerance. destruct (Rle_lt_dec (distance2 xp yp g) MAX_EXP_ARG) as [D|D].
  - specialize (I D). lra.
  - destruct (O D) as (E & L). rewrite E. replace (0 - pixel_light g xp yp) with (- pixel_light g xp yp) by ring. rewrite Rabs_Ropp. exact L.
Qed.

(** ** C78: a pixel of the residual image *)
Definition total (f : ImageGaussian -> R) (gs : list ImageGaussian) : R := fold_right Rplus 0 (map f gs).
Theorem C78_residual : forall xp yp data gs, Forall shape gs ->
  Rabs (ComputeResidualImage xp yp data gs - (data - total (fun g => pixel_light g xp yp) gs)) <= total tolerance gs.
Proof.
  intros xp yp data gs H. destruct (C20_sums xp yp 0 data gs) as (E & _). rewrite E. clear E. fold (total (fun g => rendered xp yp (g :: nil)) gs).
  replace (data - total (fun g => rendered xp yp (g :: nil)) gs - (data - total (fun g => pixel_light g xp yp) gs)) with (- (total (fun g => rendered xp yp (g :: nil)) gs - total (fun g => pixel_light g xp yp) gs)) by ring. rewrite Rabs_Ropp.
  induction H as [|g gs S0 _ IH].
  - unfold total; cbn [map fold_right]. rewrite Rminus_0_r, Rabs_R0. lra.
  - unfold total; cbn [map fold_right]; fold (total (fun g => rendered xp yp (g :: nil)) gs) (total (fun g => pixel_light g xp yp) gs) (total tolerance gs). pose proof (any_pixel g xp yp S0) as A. replace (rendered xp yp [g] + total (fun g => rendered xp yp [g]) gs - (pixel_light g xp yp + total (fun g => pixel_light g xp yp) gs)) with ((rendered xp yp [g] - pixel_light g xp yp) + (total (fun g => rendered xp yp [g]) gs - total (fun g => pixel_light g xp yp) gs)) by ring.
    eapply Rle_trans; [apply Rabs_triang|]. lra.
Qed.

(** ** The Gaussians the kernel makes *)
Lemma psd_sum a11 a22 a12 b11 b22 b12 : 0 <= a11 -> 0 <= a22 -> 0 <= b11 -> 0 <= b22 -> a12 ^ 2 <= a11 * a22 -> b12 ^ 2 <= b11 * b22 ->
  a11 * a22 - a12 ^ 2 + (b11 * b22 - b12 ^ 2) <= (a11 + b11) * (a22 + b22) - (a12 + b12) ^ 2.
Proof.
  intros A1 A2 B1 B2 A B. assert (C : Rabs (2 * (a12 * b12)) <= Rabs (a11 * b22 + a22 * b11)).
  { apply Rsqr_le_abs_0. unfold Rsqr. assert (K : a12 ^ 2 * b12 ^ 2 <= (a11 * a22) * (b11 * b22)) by (apply Rmult_le_compat; auto; apply pow2_ge_0). pose proof (pow2_ge_0 (a11 * b22 - a22 * b11)). nra. }
  rewrite (Rabs_pos_eq (a11 * b22 + a22 * b11)) in C by (apply Rplus_le_le_0_compat; apply Rmult_le_pos; auto). pose proof (Rle_abs (2 * (a12 * b12))). nra.
Qed.
(** The covariance of a source convolved with a component of the PSF. *)
Definition sxx (s : PixGaussian) (p : PSFGaussian) : R := s_covar s * (v11 (s_T s) ^ 2 + v12 (s_T s) ^ 2) + p_Cxx p.
Definition syy (s : PixGaussian) (p : PSFGaussian) : R := s_covar s * (v21 (s_T s) ^ 2 + v22 (s_T s) ^ 2) + p_Cyy p.
Definition sxy (s : PixGaussian) (p : PSFGaussian) : R := s_covar s * (v11 (s_T s) * v21 (s_T s) + v12 (s_T s) * v22 (s_T s)) + p_Cxy p.
Definition sdet s p := sxx s p * syy s p - sxy s p ^ 2.
(** A PSF component at least [w] wide (in pixels squared) in every direction. *)
Definition wide (p : PSFGaussian) (w : R) : Prop := w <= p_Cxx p /\ w <= p_Cyy p /\ p_Cxy p ^ 2 <= (p_Cxx p - w) * (p_Cyy p - w).
Lemma source_psd s : 0 <= s_covar s ->
  0 <= s_covar s * (v11 (s_T s) ^ 2 + v12 (s_T s) ^ 2) /\ 0 <= s_covar s * (v21 (s_T s) ^ 2 + v22 (s_T s) ^ 2) /\
  (s_covar s * (v11 (s_T s) * v21 (s_T s) + v12 (s_T s) * v22 (s_T s))) ^ 2 <= s_covar s * (v11 (s_T s) ^ 2 + v12 (s_T s) ^ 2) * (s_covar s * (v21 (s_T s) ^ 2 + v22 (s_T s) ^ 2)).
Proof.
  intros H. set (a := v11 (s_T s)). set (b := v12 (s_T s)). set (c := v21 (s_T s)). set (d := v22 (s_T s)). set (k := s_covar s) in *.
  pose proof (pow2_ge_0 a). pose proof (pow2_ge_0 b). pose proof (pow2_ge_0 c). pose proof (pow2_ge_0 d).
  split; [apply Rmult_le_pos; lra|]. split; [apply Rmult_le_pos; lra|].
  assert (0 <= k ^ 2 * (a * d - b * c) ^ 2) by (apply Rmult_le_pos; apply pow2_ge_0).
  replace (k * (a ^ 2 + b ^ 2) * (k * (c ^ 2 + d ^ 2))) with ((k * (a * c + b * d)) ^ 2 + k ^ 2 * (a * d - b * c) ^ 2) by ring. lra.
Qed.
Lemma covariance s p w : 0 <= s_covar s -> 0 < w -> wide p w -> w <= sxx s p /\ w <= syy s p /\ sxy s p ^ 2 <= (sxx s p - w) * (syy s p - w).
Proof.
  intros H W (P1 & P2 & P3). destruct (source_psd s H) as (S1 & S2 & S3). unfold sxx, syy, sxy. split; [lra|]. split; [lra|].
  pose proof (psd_sum _ _ _ (p_Cxx p - w) (p_Cyy p - w) (p_Cxy p) S1 S2 ltac:(lra) ltac:(lra) S3 P3) as K. lra.
Qed.
Lemma made s p : amp (GetGaussianAndJacobian s p) = s_G s * p_amp p * sqrt (m_det (m_inv (M22 (sxx s p) (sxy s p) (sxy s p) (syy s p)))) * (1 / (2 * PI)) * s_flux s * s_amp s /\
  fxx (GetGaussianAndJacobian s p) = syy s p / sdet s p /\ fyy (GetGaussianAndJacobian s p) = sxx s p / sdet s p /\ fxy (GetGaussianAndJacobian s p) = - sxy s p / sdet s p.
Proof.
  assert (E : m_add (m_smul (s_covar s) (m_AAt (s_T s))) (M22 (p_Cxx p) (p_Cxy p) (p_Cxy p) (p_Cyy p)) = M22 (sxx s p) (sxy s p) (sxy s p) (syy s p)).
  { unfold m_add, m_smul, m_AAt, sxx, syy, sxy. cbn [v11 v12 v21 v22]. f_equal; ring. }
  unfold GetGaussianAndJacobian. cbv zeta. rewrite E. cbn [amp fxx fyy fxy]. split; [reflexivity|].
  unfold m_inv, m_det, sdet. cbn [v11 v12 v21 v22]. unfold Rdiv. replace (sxx s p * syy s p - sxy s p * sxy s p) with (sxx s p * syy s p - sxy s p ^ 2) by ring. repeat split; ring.
Qed.
Lemma sdet_pos s p w : 0 <= s_covar s -> 0 < w -> wide p w -> 0 < sdet s p /\ w * syy s p <= sdet s p /\ w * sxx s p <= sdet s p.
Proof.
  intros H W P. destruct (covariance s p w H W P) as (C1 & C2 & C3). unfold sdet. assert (w * w <= w * syy s p) by (apply Rmult_le_compat_l; lra). assert (0 < w * w) by (apply Rmult_lt_0_compat; lra).
  assert (0 <= w * (syy s p - w)) by (apply Rmult_le_pos; lra). assert (0 <= w * (sxx s p - w)) by (apply Rmult_le_pos; lra). split; [|split]; nra.
Qed.
(** C78: a Gaussian no narrower than [w]: its matrix, and how far the counts are from its light. *)
Theorem C78_width : forall s p w, 0 <= s_covar s -> 0 < w -> wide p w ->
  let g := GetGaussianAndJacobian s p in
  shape g /\ 0 <= fxx g <= / w /\ 0 <= fyy g <= / w /\
  forall xp yp, Rabs (rendered xp yp (g :: nil) - pixel_light g xp yp) <= Rabs (amp g) * (/ (45 * w ^ 2) + exp (-18) * (1 + 37 / (12 * w))).
Proof.
  intros s p w H W P g. destruct (sdet_pos s p w H W P) as (D & D1 & D2). destruct (covariance s p w H W P) as (C1 & C2 & C3). destruct (made s p) as (_ & E1 & E2 & E3). fold g in E1, E2, E3.
  assert (F1 : 0 <= fxx g <= / w).
  { rewrite E1. split; [apply Rlt_le, Rdiv_lt_0_compat; lra|]. apply (Rmult_le_reg_r (sdet s p)); auto. unfold Rdiv. rewrite Rmult_assoc, Rinv_l, Rmult_1_r by lra.
    apply (Rmult_le_reg_l w); auto. rewrite <- Rmult_assoc, Rinv_r, Rmult_1_l by lra. exact D1. }
  assert (F2 : 0 <= fyy g <= / w).
  { rewrite E2. split; [apply Rlt_le, Rdiv_lt_0_compat; lra|]. apply (Rmult_le_reg_r (sdet s p)); auto. unfold Rdiv. rewrite Rmult_assoc, Rinv_l, Rmult_1_r by lra.
    apply (Rmult_le_reg_l w); auto. rewrite <- Rmult_assoc, Rinv_r, Rmult_1_l by lra. exact D2. }
  assert (S0 : shape g).
  { split; [apply F1|]. split; [apply F2|]. rewrite E1, E2, E3. assert (0 < / sdet s p) by (apply Rinv_0_lt_compat; exact D).
    replace ((- sxy s p / sdet s p) ^ 2) with (sxy s p ^ 2 * (/ sdet s p) ^ 2) by (field; lra). replace (syy s p / sdet s p * (sxx s p / sdet s p)) with (sxx s p * syy s p * (/ sdet s p) ^ 2) by (field; lra).
    apply Rmult_le_compat_r; [apply pow2_ge_0|]. unfold sdet in D. lra. }
  repeat split; try apply S0; try apply F1; try apply F2. intros xp yp. eapply Rle_trans; [apply any_pixel, S0|]. unfold tolerance, curved, dropped. rewrite <- Rmult_plus_distr_l. apply Rmult_le_compat_l; [apply Rabs_pos|].
  assert (Iw : 0 < / w) by (apply Rinv_0_lt_compat; exact W).
  assert (Q1 : fxx g ^ 2 <= (/ w) ^ 2) by (apply pow_incr; lra). assert (Q2 : fyy g ^ 2 <= (/ w) ^ 2) by (apply pow_incr; lra). assert (Q3 : fxx g * fyy g <= / w * / w) by (apply Rmult_le_compat; lra).
  replace (/ (45 * w ^ 2)) with (((/ w) ^ 2 + (/ w) ^ 2) / 240 + / w * / w / 72) by (field; lra). replace (37 / (12 * w)) with (37 * (/ w + / w) / 24) by (field; lra).
  apply Rplus_le_compat; [lra|]. apply Rmult_le_compat_l; [left; apply exp_pos|]. lra.
Qed.

(** C78: all of its light is the flux times the weights and the gain. *)
Theorem C78_flux : forall s p w, 0 <= s_covar s -> 0 < w -> wide p w ->
  let g := GetGaussianAndJacobian s p in
  exists row, (forall y, on_line (fun x => brightness g x y) (row y)) /\ on_line row (s_flux s * s_amp s * p_amp p * s_G s).
Proof.
  intros s p w H W P g. destruct (sdet_pos s p w H W P) as (D & D1 & D2). destruct (covariance s p w H W P) as (C1 & C2 & C3). destruct (made s p) as (E0 & E1 & E2 & E3). fold g in E0, E1, E2, E3.
  assert (Pp : 0 < fxx g) by (rewrite E1; apply Rdiv_lt_0_compat; lra).
  assert (Q : fxx g * fyy g - fxy g ^ 2 = / sdet s p) by (rewrite E1, E2, E3; unfold sdet in *; field; lra).
  assert (I : 0 < / sdet s p) by (apply Rinv_0_lt_compat; exact D).
  destruct (plane_integral (amp g) (fxx g) (fyy g) (fxy g) (xcen g) (ycen g) Pp ltac:(lra)) as (row & R1 & R2). exists row. split.
  - intros y. exact (R1 y).
  - replace (s_flux s * s_amp s * p_amp p * s_G s) with (amp g * (2 * PI / sqrt (fxx g * fyy g - fxy g ^ 2))); [exact R2|]. rewrite Q, E0.
    replace (m_det (m_inv (M22 (sxx s p) (sxy s p) (sxy s p) (syy s p)))) with (/ sdet s p).
    + assert (0 < sqrt (/ sdet s p)) by (apply sqrt_lt_R0; exact I). pose proof PI_RGT_0. field. lra.
    + unfold m_det, m_inv. cbn [v11 v12 v21 v22]. unfold m_det. cbn [v11 v12 v21 v22]. unfold sdet in *. field. replace (sxx s p * syy s p - sxy s p * sxy s p) with (sxx s p * syy s p - sxy s p ^ 2) by ring. lra.
Qed.

(** ** C78: the image of a patch *)
Theorem C78_image : forall P band exposure sources i w, (i < exposure_N P exposure)%nat -> 0 < w ->
  (forall k, (k < n_psf_per_source P band)%nat -> wide (psfgauss P (psfgauss_start P exposure + k)) w /\ 0 <= rad2 P (sersic_radius_bin (psfgauss P (psfgauss_start P exposure + k)))) ->
  let pix := (exposure_start P exposure + i)%nat in
  let gs := CreateImageGaussians P band exposure sources in
  Rabs (nth i (residual_image P band exposure sources) 0 - (P_data P pix - total (fun g => pixel_light g (P_xpix P pix) (P_ypix P pix)) gs)) <=
    total (fun g => Rabs (amp g)) gs * (/ (45 * w ^ 2) + exp (-18) * (1 + 37 / (12 * w))).
Proof.
  intros P band exposure sources i w Hi W HP pix gs.
  assert (G : forall g, In g gs -> exists s p, g = GetGaussianAndJacobian s p /\ 0 <= s_covar s /\ wide p w).
  { intros g Hg. unfold gs, CreateImageGaussians in Hg. apply in_flat_map in Hg. destruct Hg as (sid & _ & Hg). unfold ConvolveOneSource in Hg. apply in_map_iff in Hg. destruct Hg as (k & <- & Hk). apply in_seq in Hk. destruct (HP k ltac:(lia)) as (HW & HR). eexists. eexists. split; [reflexivity|]. split; [|exact HW].
    unfold pix_gaussian. destruct (source_setup P exposure sid (sources sid)) as [[[[[x y] CW] T] a] b]. cbn [s_covar]. exact HR. }
  assert (SH : Forall shape gs) by (apply Forall_forall; intros g Hg; destruct (G g Hg) as (s & p & -> & H1 & H2); apply (C78_width s p w H1 W H2)).
  unfold residual_image. rewrite (nth_indep _ 0 ((fun p => ComputeResidualImage (P_xpix P (exposure_start P exposure + p)) (P_ypix P (exposure_start P exposure + p)) (P_data P (exposure_start P exposure + p)) (CreateImageGaussians P band exposure sources)) 0%nat)) by (rewrite map_length, seq_length; exact Hi).
  rewrite (map_nth (fun p => ComputeResidualImage (P_xpix P (exposure_start P exposure + p)) (P_ypix P (exposure_start P exposure + p)) (P_data P (exposure_start P exposure + p)) (CreateImageGaussians P band exposure sources))), seq_nth by exact Hi. cbn [Nat.add]. fold pix. fold gs.
  destruct (C20_sums (P_xpix P pix) (P_ypix P pix) 0 (P_data P pix) gs) as (E & _). rewrite E. clear E. fold (total (fun g => rendered (P_xpix P pix) (P_ypix P pix) (g :: nil)) gs).
  set (xp := P_xpix P pix). set (yp := P_ypix P pix). set (K := / (45 * w ^ 2) + exp (-18) * (1 + 37 / (12 * w))).
  replace (P_data P pix - total (fun g => rendered xp yp (g :: nil)) gs - (P_data P pix - total (fun g => pixel_light g xp yp) gs)) with (- (total (fun g => rendered xp yp (g :: nil)) gs - total (fun g => pixel_light g xp yp) gs)) by ring. rewrite Rabs_Ropp.
  clear SH. induction gs as [|g l IH].
  - unfold total; cbn [map fold_right]. rewrite Rminus_0_r, Rabs_R0. lra.
  - unfold total; cbn [map fold_right]; fold (total (fun g => rendered xp yp (g :: nil)) l) (total (fun g => pixel_light g xp yp) l) (total (fun g => Rabs (amp g)) l). destruct (G g (or_introl eq_refl)) as (s & p & Eg & H1 & H2). destruct (C78_width s p w H1 W H2) as (_ & _ & _ & A). specialize (A xp yp). rewrite <- Eg in A. fold K in A. specialize (IH (fun g' Hg => G g' (or_intror Hg))).
    replace (rendered xp yp [g] + total (fun g => rendered xp yp [g]) l - (pixel_light g xp yp + total (fun g => pixel_light g xp yp) l)) with ((rendered xp yp [g] - pixel_light g xp yp) + (total (fun g => rendered xp yp [g]) l - total (fun g => pixel_light g xp yp) l)) by ring.
    eapply Rle_trans; [apply Rabs_triang|]. lra.
Qed.

(** ** C78: the counts of a block of pixels *)
Definition columns (n : nat) (f : nat -> R) : R := fold_right Rplus 0 (map f (seq 0 n)).
Lemma fold_plus_acc l c : fold_right Rplus c l = fold_right Rplus 0 l + c.
Proof. induction l as [|a l IH]; cbn [fold_right]; [ring|]. rewrite IH. ring. Qed.
Lemma columns_S n f : columns (S n) f = columns n f + f n.
Proof. unfold columns. rewrite seq_S, map_app, fold_right_app. cbn [map fold_right Nat.add]. rewrite fold_plus_acc. ring. Qed.
Lemma columns_near n f h e : (forall i, (i < n)%nat -> Rabs (f i - h i) <= e) -> Rabs (columns n f - columns n h) <= INR n * e.
Proof.
  induction n as [|n IH]; intros H.
  - unfold columns. cbn. rewrite Rminus_0_r, Rabs_R0. lra.
  - rewrite !columns_S, S_INR. specialize (IH (fun i Hi => H i ltac:(lia))). pose proof (H n ltac:(lia)) as Hn.
    replace (columns n f + f n - (columns n h + h n)) with ((columns n f - columns n h) + (f n - h n)) by ring. eapply Rle_trans; [apply Rabs_triang|]. lra.
Qed.
Lemma row_wide_ex g u v a b : shape g -> u <= v -> ex_RInt (fun y => RInt (fun x => brightness g x y) u v) a b.
Proof.
  intros (H1 & H2 & H3) Huv. apply ex_RInt_ext with (fun y => amp g * RInt (fun x => ga (fxx g) (fyy g) (fxy g) (xcen g) (ycen g) x y) u v); [intros y _; symmetry; apply row_brightness|].
  apply (ex_RInt_scal (V := R_NormedModule) (fun y => RInt (fun x => ga (fxx g) (fyy g) (fxy g) (xcen g) (ycen g) x y) u v) a b (amp g)). apply wide_ex; auto.
Qed.
Lemma brightness_ex g y u v : ex_RInt (fun x => brightness g x y) u v.
Proof.
  apply ex_RInt_ext with (fun x => amp g * ga (fxx g) (fyy g) (fxy g) (xcen g) (ycen g) x y); [intros x _; symmetry; apply brightness_ga|].
  apply (ex_RInt_scal (V := R_NormedModule) (fun x => ga (fxx g) (fyy g) (fxy g) (xcen g) (ycen g) x y) u v (amp g)). apply ga_row_ex.
Qed.
Lemma light_x g a b c y0 y1 : shape g -> a <= b -> b <= c -> light g a c y0 y1 = light g a b y0 y1 + light g b c y0 y1.
Proof.
  intros S0 H1 H2. unfold light. rewrite <- (RInt_plus (V := R_CompleteNormedModule) (fun y => RInt (fun x => brightness g x y) a b) (fun y => RInt (fun x => brightness g x y) b c)) by (apply row_wide_ex; auto).
  apply RInt_ext. intros y _. symmetry. apply (RInt_Chasles (V := R_CompleteNormedModule)); apply brightness_ex.
Qed.
Lemma light_y g x0 x1 a b c : shape g -> x0 <= x1 -> light g x0 x1 a c = light g x0 x1 a b + light g x0 x1 b c.
Proof. intros S0 H. unfold light. symmetry. apply (RInt_Chasles (V := R_CompleteNormedModule)); apply row_wide_ex; auto. Qed.
Lemma light_flat_x g a y0 y1 : light g a a y0 y1 = 0.
Proof.
  unfold light. rewrite (RInt_ext _ (fun _ => 0)) by (intros y _; apply (RInt_point (V := R_CompleteNormedModule))). rewrite RInt_const. cbv [scal ModuleSpace.scal]. cbn. unfold mult. cbn. ring.
Qed.
Lemma light_row g x0 n y0 y1 : shape g -> columns n (fun i => light g (x0 + INR i - / 2) (x0 + INR i + / 2) y0 y1) = light g (x0 - / 2) (x0 + INR n - / 2) y0 y1.
Proof.
  intros S0. induction n as [|n IH].
  - unfold columns. cbn [seq map fold_right INR]. rewrite Rplus_0_r, light_flat_x. reflexivity.
  - rewrite columns_S, IH, S_INR. pose proof (pos_INR n). rewrite (light_x g (x0 - / 2) (x0 + INR n - / 2) (x0 + (INR n + 1) - / 2)) by (auto; lra). f_equal. f_equal. field.
Qed.
Theorem C78_block : forall g x0 y0 n m, shape g ->
  Rabs (columns m (fun j => columns n (fun i => rendered (x0 + INR i) (y0 + INR j) (g :: nil))) - light g (x0 - / 2) (x0 + INR n - / 2) (y0 - / 2) (y0 + INR m - / 2)) <= INR m * (INR n * tolerance g).
Proof.
  intros g x0 y0 n m S0.
  assert (E : light g (x0 - / 2) (x0 + INR n - / 2) (y0 - / 2) (y0 + INR m - / 2) = columns m (fun j => columns n (fun i => pixel_light g (x0 + INR i) (y0 + INR j)))).
  { pose proof (pos_INR n) as Pn. induction m as [|m IH].
    - unfold columns. cbn [seq map fold_right INR]. unfold light. rewrite Rplus_0_r. apply (RInt_point (V := R_CompleteNormedModule)).
    - rewrite columns_S, <- IH. unfold pixel_light. rewrite (light_row g x0 n (y0 + INR m - / 2) (y0 + INR m + / 2) S0). rewrite S_INR, (light_y g _ _ (y0 - / 2) (y0 + INR m - / 2)) by (auto; lra). f_equal. f_equal. field. }
  rewrite E. apply columns_near. intros j _. apply columns_near. intros i _. apply any_pixel, S0.
Qed.

(** ** C78: no pixel loses light to a source that adds it, unless the Gaussian is narrow *)
Theorem C78_positive : forall g xp yp, shape g -> 0 <= amp g -> fxx g + fyy g <= 24 -> 0 <= rendered xp yp (g :: nil).
Proof.
  intros g xp yp S0 A F. rewrite rendered_one. destruct (Rle_lt_dec (exparg xp yp g) MAX_EXP_ARG) as [D|D].
  - rewrite residual_term_in by exact D. unfold count. apply Rmult_le_pos; [apply Rmult_le_pos; [exact A|left; apply exp_pos]|].
    pose proof (Rle_0_sqr (fxx g * (xp - xcen g) + fxy g * (yp - ycen g))) as Q1. pose proof (Rle_0_sqr (fyy g * (yp - ycen g) + fxy g * (xp - xcen g))) as Q2. unfold Rsqr in Q1, Q2. lra.
  - rewrite residual_term_out by exact D. lra.
Qed.
Theorem C78_negative_refuted : forall g, 0 < amp g -> 24 < fxx g + fyy g -> rendered (xcen g) (ycen g) (g :: nil) < 0.
Proof.
  intros g A F. rewrite rendered_one, residual_term_in.
  - unfold count, quad. rewrite !Rminus_eq_0. replace (- (1 / 2) * (0 * (fxx g * 0 + fxy g * 0) + 0 * (fyy g * 0 + fxy g * 0))) with 0 by ring. rewrite exp_0.
    replace (amp g * 1 * (1 + ((fxx g * 0 + fxy g * 0) * (fxx g * 0 + fxy g * 0) + (fyy g * 0 + fxy g * 0) * (fyy g * 0 + fxy g * 0) - fxx g - fyy g) / 24)) with (- (amp g * ((fxx g + fyy g - 24) / 24))) by field.
    assert (0 < amp g * ((fxx g + fyy g - 24) / 24)) by (apply Rmult_lt_0_compat; lra). lra.
  - unfold exparg, quad. rewrite !Rminus_eq_0. unfold MAX_EXP_ARG. lra.
Qed.
(** A point source, seen through a round PSF component of less than 1/36 of a pixel squared, on the centre of a pixel: it takes light away from that pixel and gives none to the others. *)
Theorem C78_narrow_refuted : forall s p (i j : Z), s_covar s = 0 -> 0 < p_Cxx p < / 36 -> p_Cyy p = p_Cxx p -> p_Cxy p = 0 ->
  0 < s_G s -> 0 < p_amp p -> 0 < s_flux s -> 0 < s_amp s -> s_xcen s + p_xcen p = IZR i -> s_ycen s + p_ycen p = IZR j ->
  let g := GetGaussianAndJacobian s p in
  rendered (IZR i) (IZR j) (g :: nil) < 0 /\ forall k l : Z, (k, l) <> (i, j) -> rendered (IZR k) (IZR l) (g :: nil) = 0.
Proof.
  intros s p i j Z0 (C0 & C1) Cy Cxy G0 A0 F0 M0 Xi Yj g. destruct (made s p) as (E0 & E1 & E2 & E3). fold g in E0, E1, E2, E3. set (c := p_Cxx p) in *.
  assert (X : sxx s p = c /\ syy s p = c /\ sxy s p = 0) by (unfold sxx, syy, sxy; rewrite Z0, Cy, Cxy; fold c; lra). destruct X as (X1 & X2 & X3).
  assert (Dt : sdet s p = c ^ 2) by (unfold sdet; rewrite X1, X2, X3; ring).
  assert (F1 : fxx g = / c) by (rewrite E1, X2, Dt; field; lra). assert (F2 : fyy g = / c) by (rewrite E2, X1, Dt; field; lra). assert (F3 : fxy g = 0) by (rewrite E3, X3, Dt; field; lra).
  assert (Ic : 36 < / c) by (rewrite <- (Rinv_involutive 36) by lra; apply Rinv_lt_contravar; [apply Rmult_lt_0_compat; lra|exact C1]).
  assert (Am : 0 < amp g).
  { rewrite E0, X1, X2, X3. assert (0 < m_det (m_inv (M22 c 0 0 c))) by (unfold m_det, m_inv; cbn [v11 v12 v21 v22]; unfold m_det; cbn [v11 v12 v21 v22]; replace (c * (1 / (c * c - 0 * 0)) * (c * (1 / (c * c - 0 * 0))) - - 0 * (1 / (c * c - 0 * 0)) * (- 0 * (1 / (c * c - 0 * 0)))) with (/ c * / c) by (field; lra); apply Rmult_lt_0_compat; lra).
    pose proof (sqrt_lt_R0 _ H). pose proof PI_RGT_0. assert (0 < 1 / (2 * PI)) by (apply Rdiv_lt_0_compat; lra). do 5 (apply Rmult_lt_0_compat; [|assumption]). assumption. }
  assert (Xg : xcen g = IZR i) by exact Xi. assert (Yg : ycen g = IZR j) by exact Yj.
  split.
  - rewrite <- Xg, <- Yg. apply C78_negative_refuted; [exact Am|rewrite F1, F2; lra].
  - intros k l N. rewrite rendered_one, residual_term_out; auto. unfold exparg, quad, MAX_EXP_ARG. rewrite F1, F2, F3, Xg, Yg, <- !minus_IZR.
    assert (Sq : forall z, z <> 0%Z -> 1 <= IZR z * IZR z) by (intros z Hz; rewrite <- mult_IZR; apply IZR_le; nia). assert (Nn : forall z, 0 <= IZR z * IZR z) by (intros z; rewrite <- mult_IZR; apply IZR_le; nia).
    replace (IZR (k - i) * (/ c * IZR (k - i) + 0 * IZR (l - j)) + IZR (l - j) * (/ c * IZR (l - j) + 0 * IZR (k - i))) with (/ c * (IZR (k - i) * IZR (k - i) + IZR (l - j) * IZR (l - j))) by ring.
    assert (1 <= IZR (k - i) * IZR (k - i) + IZR (l - j) * IZR (l - j)).
    { destruct (Z.eq_dec (k - i) 0) as [Ek|Nk]; [|pose proof (Sq _ Nk); pose proof (Nn (l - j)%Z); lra]. destruct (Z.eq_dec (l - j) 0) as [El|Nl]; [|pose proof (Sq _ Nl); pose proof (Nn (k - i)%Z); lra].
      exfalso. apply N. f_equal; lia. }
    nra.
Qed.

Print Assumptions C78_pixel.
Print Assumptions C78_residual.
Print Assumptions C78_width.
Print Assumptions C78_flux.
Print Assumptions C78_image.
Print Assumptions C78_block.
Print Assumptions C78_positive.
Print Assumptions C78_negative_refuted.
Print Assumptions C78_narrow_refuted.
