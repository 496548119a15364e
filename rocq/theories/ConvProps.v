(** C79: the Gaussians of the kernel are the source's profile on the sky, taken
    to the pixels and convolved with the PSF (src/common_kernel.cc 175-240,
    src/compute_gaussians_kernel.cc 45-114). *)
From Coq Require Import Reals Lra Lia Psatz List ZArith.
From Coquelicot Require Import Coquelicot.
From Verif Require Import Np NpFacts KernelModel KernelFacts KernelProps GaussInt PixelFacts PixelProps.
Import ListNotations.
Open Scope R_scope.

(** ** What is meant by convolution *)
(** One component of a source on the sky: light per unit area at the offset [e],
    [n], of unit flux, variance [r2] and the shape [q], [pa]: constant on ellipses of axes [1/q] and [q]. *)
Definition along (pa e n : R) : R := cos pa * e + sin pa * n.
Definition across (pa e n : R) : R := - sin pa * e + cos pa * n.
Definition profile (q pa r2 e n : R) : R := / (2 * PI * r2) * exp (- ((q * along pa e n) ^ 2 + (across pa e n / q) ^ 2) / (2 * r2)).
(** One component of the PSF: light per unit area at a displacement in pixels. *)
Definition pdet (p : PSFGaussian) : R := p_Cxx p * p_Cyy p - p_Cxy p ^ 2.
Definition psf_light (p : PSFGaussian) (dx dy : R) : R :=
  let x := dx - p_xcen p in let y := dy - p_ycen p in
  p_amp p / (2 * PI * sqrt (pdet p)) * exp (- (p_Cyy p * x ^ 2 - 2 * p_Cxy p * x * y + p_Cxx p * y ^ 2) / (2 * pdet p)).
(** The light that falls at [x], [y] when every place of the sky is spread by
    the PSF: the integral over [e] for every [n], then over [n]. *)
Definition convolved (q pa r2 : R) (D : matrix22) (xc yc : R) (p : PSFGaussian) (x y L : R) : Prop :=
  exists inner,
    (forall n, on_line (fun e => profile q pa r2 e n * psf_light p (x - (xc + (v11 D * e + v12 D * n))) (y - (yc + (v21 D * e + v22 D * n)))) (inner n)) /\
    on_line inner L.

(** ** Algebra *)
Section Algebra.
  Variables l11 l22 l12 b11 b22 b12 d11 d12 d21 d22 z1 z2 : R.
  Definition lam := l11 * l22 - l12 ^ 2.
  Definition bb := b11 * b22 - b12 ^ 2.
  Definition e11 := b22 * d11 ^ 2 - 2 * b12 * d11 * d21 + b11 * d21 ^ 2.
  Definition e22 := b22 * d12 ^ 2 - 2 * b12 * d12 * d22 + b11 * d22 ^ 2.
  Definition e12 := b22 * d11 * d12 - b12 * (d11 * d22 + d12 * d21) + b11 * d21 * d22.
  Definition m11 := bb * l22 + lam * e11.
  Definition m22 := bb * l11 + lam * e22.
  Definition m12 := - bb * l12 + lam * e12.
  Definition s11 := b11 + l11 * d11 ^ 2 + 2 * l12 * d11 * d12 + l22 * d12 ^ 2.
  Definition s22 := b22 + l11 * d21 ^ 2 + 2 * l12 * d21 * d22 + l22 * d22 ^ 2.
  Definition s12 := b12 + l11 * d11 * d21 + l12 * (d11 * d22 + d12 * d21) + l22 * d12 * d22.
  Definition sd := s11 * s22 - s12 ^ 2.
  Definition w1 := d11 * (b22 * z1 - b12 * z2) + d21 * (b11 * z2 - b12 * z1).
  Definition w2 := d12 * (b22 * z1 - b12 * z2) + d22 * (b11 * z2 - b12 * z1).
  Lemma det_m : m11 * m22 - m12 ^ 2 = lam * bb * sd.
  Proof. unfold m11, m22, m12, sd, s11, s22, s12, e11, e22, e12, lam, bb. ring. Qed.
  Lemma leftover : bb * (b22 * z1 ^ 2 - 2 * b12 * z1 * z2 + b11 * z2 ^ 2) * sd - (m22 * w1 ^ 2 - 2 * m12 * w1 * w2 + m11 * w2 ^ 2) = bb ^ 2 * (s22 * z1 ^ 2 - 2 * s12 * z1 * z2 + s11 * z2 ^ 2).
  Proof. unfold w1, w2, m11, m22, m12, sd, s11, s22, s12, e11, e22, e12, lam, bb. ring. Qed.
  (** The exponents of source and PSF, as one square and what is left. *)
  Definition t1 := (m22 * w1 - m12 * w2) / (sd * bb).
  Definition t2 := (m11 * w2 - m12 * w1) / (sd * bb).
  Lemma square e n : lam <> 0 -> bb <> 0 -> sd <> 0 ->
    (l22 * e ^ 2 - 2 * l12 * e * n + l11 * n ^ 2) / lam
    + (b22 * (z1 - (d11 * e + d12 * n)) ^ 2 - 2 * b12 * (z1 - (d11 * e + d12 * n)) * (z2 - (d21 * e + d22 * n)) + b11 * (z2 - (d21 * e + d22 * n)) ^ 2) / bb
    = m11 / (lam * bb) * (e - t1) ^ 2 + m22 / (lam * bb) * (n - t2) ^ 2 + 2 * (m12 / (lam * bb)) * (e - t1) * (n - t2)
      + (s22 * z1 ^ 2 - 2 * s12 * z1 * z2 + s11 * z2 ^ 2) / sd.
  Proof.
    intros HL HB HS.
    assert (V1 : m11 * t1 + m12 * t2 = lam * w1).
    { unfold t1, t2. replace (m11 * ((m22 * w1 - m12 * w2) / (sd * bb)) + m12 * ((m11 * w2 - m12 * w1) / (sd * bb))) with ((m11 * m22 - m12 ^ 2) * w1 / (sd * bb)) by (field; auto). rewrite det_m. field. auto. }
    assert (V2 : m12 * t1 + m22 * t2 = lam * w2).
    { unfold t1, t2. replace (m12 * ((m22 * w1 - m12 * w2) / (sd * bb)) + m22 * ((m11 * w2 - m12 * w1) / (sd * bb))) with ((m11 * m22 - m12 ^ 2) * w2 / (sd * bb)) by (field; auto). rewrite det_m. field. auto. }
    assert (K : (s22 * z1 ^ 2 - 2 * s12 * z1 * z2 + s11 * z2 ^ 2) / sd = (b22 * z1 ^ 2 - 2 * b12 * z1 * z2 + b11 * z2 ^ 2) / bb - (t1 * w1 + t2 * w2) / bb).
    { apply (Rmult_eq_reg_l (bb ^ 2 * sd)); [|apply Rmult_integral_contrapositive_currified; auto; apply pow_nonzero; auto].
      replace (bb ^ 2 * sd * ((s22 * z1 ^ 2 - 2 * s12 * z1 * z2 + s11 * z2 ^ 2) / sd)) with (bb ^ 2 * (s22 * z1 ^ 2 - 2 * s12 * z1 * z2 + s11 * z2 ^ 2)) by (field; auto). rewrite <- leftover. unfold t1, t2. field. auto. }
    rewrite K. clear K.
    replace (m11 / (lam * bb) * (e - t1) ^ 2 + m22 / (lam * bb) * (n - t2) ^ 2 + 2 * (m12 / (lam * bb)) * (e - t1) * (n - t2))
      with ((m11 * e ^ 2 + m22 * n ^ 2 + 2 * m12 * e * n - 2 * e * (m11 * t1 + m12 * t2) - 2 * n * (m12 * t1 + m22 * t2) + (t1 * (m11 * t1 + m12 * t2) + t2 * (m12 * t1 + m22 * t2))) / (lam * bb)) by (field; auto).
    rewrite V1, V2. generalize t1 t2. intros a b. unfold m11, m22, m12, w1, w2, e11, e22, e12. field. auto.
  Qed.
End Algebra.

(** ** C79: one Gaussian *)
Definition of_shape (D : matrix22) (q pa : R) (s : PixGaussian) : Prop := s_T s = m_mul (m_mul D (m_rot pa)) (m_scale q).
(** The same source with unit flux, weight and gain. *)
Definition unit_of (s : PixGaussian) : PixGaussian := mkPG 1 (s_xcen s) (s_ycen s) (s_covar s) 1 1 0 0 (s_CW s) (s_T s) (s_dT_dq s) (s_dT_dpa s).
Lemma brightness_made s p w x y : 0 <= s_covar s -> 0 < w -> wide p w ->
  let z1 := x - (s_xcen s + p_xcen p) in let z2 := y - (s_ycen s + p_ycen p) in
  brightness (GetGaussianAndJacobian s p) x y = s_G s * s_flux s * s_amp s * (p_amp p / (2 * PI * sqrt (sdet s p)) * exp (- ((syy s p * z1 ^ 2 - 2 * sxy s p * z1 * z2 + sxx s p * z2 ^ 2) / sdet s p) / 2)).
Proof.
  intros H W P z1 z2. destruct (sdet_pos s p w H W P) as (D & _). destruct (made s p) as (E0 & E1 & E2 & E3). unfold brightness. rewrite E0.
  replace (m_det (m_inv (M22 (sxx s p) (sxy s p) (sxy s p) (syy s p)))) with (/ sdet s p).
  2:{ unfold m_det, m_inv. cbn [v11 v12 v21 v22]. unfold m_det. cbn [v11 v12 v21 v22]. unfold sdet in *. field. replace (sxx s p * syy s p - sxy s p * sxy s p) with (sxx s p * syy s p - sxy s p ^ 2) by ring. lra. }
  assert (Q : distance2 x y (GetGaussianAndJacobian s p) = (syy s p * z1 ^ 2 - 2 * sxy s p * z1 * z2 + sxx s p * z2 ^ 2) / sdet s p).
  { unfold distance2. rewrite E1, E2, E3. change (xcen (GetGaussianAndJacobian s p)) with (s_xcen s + p_xcen p). change (ycen (GetGaussianAndJacobian s p)) with (s_ycen s + p_ycen p). fold z1 z2. field. lra. }
  rewrite Q. rewrite sqrt_inv. assert (0 < sqrt (sdet s p)) by (apply sqrt_lt_R0; exact D). pose proof PI_RGT_0. field. lra.
Qed.
Theorem C79_convolution : forall D q pa s p w x y, of_shape D q pa s -> q <> 0 -> 0 < s_covar s -> 0 < w -> wide p w ->
  exists L, convolved q pa (s_covar s) D (s_xcen s) (s_ycen s) p x y L /\
    brightness (GetGaussianAndJacobian s p) x y = s_G s * s_flux s * s_amp s * L.
Proof.
  intros D q pa s p w x y HT Hq Hr W P. set (r2 := s_covar s) in *. set (c := cos pa). set (n0 := sin pa).
  assert (Tr : c ^ 2 + n0 ^ 2 = 1) by (pose proof (sin2_cos2 pa) as K; unfold Rsqr in K; unfold c, n0; lra).
  set (l11 := r2 * (c ^ 2 / q ^ 2 + n0 ^ 2 * q ^ 2)). set (l22 := r2 * (n0 ^ 2 / q ^ 2 + c ^ 2 * q ^ 2)). set (l12 := r2 * (c * n0 * (/ q ^ 2 - q ^ 2))).
  assert (Hlam : lam l11 l22 l12 = r2 ^ 2).
  { unfold lam, l11, l22, l12. transitivity (r2 ^ 2 * (c ^ 2 + n0 ^ 2) ^ 2); [field; auto|rewrite Tr; ring]. }
  assert (P' := P). destruct P' as (P1 & P2 & P3).
  assert (Hb : bb (p_Cxx p) (p_Cyy p) (p_Cxy p) = pdet p) by reflexivity.
  assert (Bp : 0 < pdet p).
  { unfold pdet. assert (0 < w * w) by (apply Rmult_lt_0_compat; lra). assert (0 <= w * (p_Cxx p - w)) by (apply Rmult_le_pos; lra). assert (0 <= w * (p_Cyy p - w)) by (apply Rmult_le_pos; lra). nra. }
  set (d11 := v11 D). set (d12 := v12 D). set (d21 := v21 D). set (d22 := v22 D).
  assert (X : sxx s p = s11 l11 l22 l12 (p_Cxx p) d11 d12 /\ syy s p = s22 l11 l22 l12 (p_Cyy p) d21 d22 /\ sxy s p = s12 l11 l22 l12 (p_Cxy p) d11 d12 d21 d22).
  { unfold sxx, syy, sxy. fold r2. rewrite HT. unfold m_mul, m_rot, m_scale. cbn [v11 v12 v21 v22]. fold c n0 d11 d12 d21 d22. unfold s11, s22, s12, l11, l22, l12. repeat split; field; auto. }
  destruct X as (X1 & X2 & X3).
  assert (Sd : sdet s p = sd l11 l22 l12 (p_Cxx p) (p_Cyy p) (p_Cxy p) d11 d12 d21 d22) by (unfold sdet, sd; rewrite X1, X2, X3; reflexivity).
  destruct (sdet_pos s p w ltac:(unfold r2 in Hr; lra) W P) as (Dp & _). destruct (covariance s p w ltac:(unfold r2 in Hr; lra) W P) as (C1 & C2 & C3).
  set (M11 := m11 l11 l22 l12 (p_Cxx p) (p_Cyy p) (p_Cxy p) d11 d21 / (lam l11 l22 l12 * bb (p_Cxx p) (p_Cyy p) (p_Cxy p))).
  set (M22 := m22 l11 l22 l12 (p_Cxx p) (p_Cyy p) (p_Cxy p) d12 d22 / (lam l11 l22 l12 * bb (p_Cxx p) (p_Cyy p) (p_Cxy p))).
  set (M12 := m12 l11 l22 l12 (p_Cxx p) (p_Cyy p) (p_Cxy p) d11 d12 d21 d22 / (lam l11 l22 l12 * bb (p_Cxx p) (p_Cyy p) (p_Cxy p))).
  assert (Rp : 0 < r2 ^ 2) by (apply pow_lt; exact Hr).
  assert (Dm : M11 * M22 - M12 ^ 2 = sdet s p / (r2 ^ 2 * pdet p)).
  { unfold M11, M22, M12. pose proof (det_m l11 l22 l12 (p_Cxx p) (p_Cyy p) (p_Cxy p) d11 d12 d21 d22) as K. rewrite <- Sd in K. rewrite Hlam, Hb in *.
    set (a := m11 _ _ _ _ _ _ _ _) in *. set (b := m22 _ _ _ _ _ _ _ _) in *. set (d := m12 _ _ _ _ _ _ _ _ _ _) in *.
    replace (a / (r2 ^ 2 * pdet p) * (b / (r2 ^ 2 * pdet p)) - (d / (r2 ^ 2 * pdet p)) ^ 2) with ((a * b - d ^ 2) / (r2 ^ 2 * pdet p) ^ 2) by (field; lra). rewrite K. field. lra. }
  assert (Dmp : 0 < sdet s p / (r2 ^ 2 * pdet p)) by (apply Rdiv_lt_0_compat; [exact Dp|apply Rmult_lt_0_compat; auto]).
  assert (L22 : 0 < l22).
  { unfold l22. apply Rmult_lt_0_compat; auto. assert (0 < q ^ 2) by (assert (q ^ 2 <> 0) by (apply pow_nonzero; auto); pose proof (pow2_ge_0 q); lra). pose proof (pow2_ge_0 c). pose proof (pow2_ge_0 n0).
    assert (0 <= n0 ^ 2 / q ^ 2) by (apply Rmult_le_pos; [auto|apply Rlt_le, Rinv_0_lt_compat; auto]). assert (0 <= c ^ 2 * q ^ 2) by (apply Rmult_le_pos; lra).
    destruct (Req_dec c 0) as [Z|NZ].
    - assert (n0 ^ 2 = 1) by (rewrite Z in Tr; lra). assert (0 < n0 ^ 2 / q ^ 2) by (apply Rdiv_lt_0_compat; lra). lra.
    - assert (0 < c ^ 2) by (assert (c ^ 2 <> 0) by (apply pow_nonzero; auto); lra). assert (0 < c ^ 2 * q ^ 2) by (apply Rmult_lt_0_compat; lra). lra. }
  assert (M11p : 0 < M11).
  { unfold M11. rewrite Hlam, Hb. apply Rdiv_lt_0_compat; [|apply Rmult_lt_0_compat; auto]. unfold m11. rewrite Hlam, Hb.
    assert (0 < pdet p * l22) by (apply Rmult_lt_0_compat; auto).
    assert (0 <= e11 (p_Cxx p) (p_Cyy p) (p_Cxy p) d11 d21).
    { unfold e11. apply (Rmult_le_reg_l (p_Cxx p)); [lra|]. rewrite Rmult_0_r. replace (p_Cxx p * (p_Cyy p * d11 ^ 2 - 2 * p_Cxy p * d11 * d21 + p_Cxx p * d21 ^ 2)) with (pdet p * d11 ^ 2 + (p_Cxy p * d11 - p_Cxx p * d21) ^ 2) by (unfold pdet; ring).
      apply Rplus_le_le_0_compat; [apply Rmult_le_pos; [lra|apply pow2_ge_0]|apply pow2_ge_0]. }
    assert (0 <= r2 ^ 2 * e11 (p_Cxx p) (p_Cyy p) (p_Cxy p) d11 d21) by (apply Rmult_le_pos; lra). lra. }
  set (z1 := x - (s_xcen s + p_xcen p)). set (z2 := y - (s_ycen s + p_ycen p)).
  set (k := (syy s p * z1 ^ 2 - 2 * sxy s p * z1 * z2 + sxx s p * z2 ^ 2) / sdet s p).
  set (h := / (2 * PI * r2) * (p_amp p / (2 * PI * sqrt (pdet p))) * exp (- k / 2)).
  set (T1 := t1 l11 l22 l12 (p_Cxx p) (p_Cyy p) (p_Cxy p) d11 d12 d21 d22 z1 z2). set (T2 := t2 l11 l22 l12 (p_Cxx p) (p_Cyy p) (p_Cxy p) d11 d12 d21 d22 z1 z2).
  destruct (plane_integral h M11 M22 M12 T1 T2 M11p ltac:(lra)) as (row & R1 & R2). exists (h * (2 * PI / sqrt (M11 * M22 - M12 ^ 2))). split.
  - exists row. split; [|exact R2]. intros n. unfold on_line. eapply is_RInt_gen_ext; [|exact (R1 n)].
    apply Filter_prod with (Q := fun _ => True) (R := fun _ => True); [exists 0; auto|exists 0; auto|]. intros a b _ _ e _.
    pose proof (square l11 l22 l12 (p_Cxx p) (p_Cyy p) (p_Cxy p) d11 d12 d21 d22 z1 z2 e n ltac:(rewrite Hlam; lra) ltac:(rewrite Hb; lra) ltac:(rewrite <- Sd; lra)) as SQ.
    fold T1 T2 M11 M22 M12 in SQ. rewrite <- Sd, <- X1, <- X2, <- X3 in SQ. fold k in SQ.
    assert (EX : - (M11 * (e - T1) ^ 2 + M22 * (n - T2) ^ 2 + 2 * M12 * (e - T1) * (n - T2)) / 2 = - ((q * along pa e n) ^ 2 + (across pa e n / q) ^ 2) / (2 * r2) + - (p_Cyy p * (z1 - (d11 * e + d12 * n)) ^ 2 - 2 * p_Cxy p * (z1 - (d11 * e + d12 * n)) * (z2 - (d21 * e + d22 * n)) + p_Cxx p * (z2 - (d21 * e + d22 * n)) ^ 2) / (2 * pdet p) + k / 2).
    { assert (A : ((q * along pa e n) ^ 2 + (across pa e n / q) ^ 2) / r2 = (l22 * e ^ 2 - 2 * l12 * e * n + l11 * n ^ 2) / lam l11 l22 l12).
      { rewrite Hlam. unfold along, across. fold c n0. unfold l11, l22, l12. field. repeat split; auto; lra. }
      rewrite <- A, Hb in SQ. replace (- ((q * along pa e n) ^ 2 + (across pa e n / q) ^ 2) / (2 * r2)) with (- (((q * along pa e n) ^ 2 + (across pa e n / q) ^ 2) / r2) / 2) by (field; repeat split; auto; lra).
      set (B1 := p_Cyy p * (z1 - (d11 * e + d12 * n)) ^ 2 - 2 * p_Cxy p * (z1 - (d11 * e + d12 * n)) * (z2 - (d21 * e + d22 * n)) + p_Cxx p * (z2 - (d21 * e + d22 * n)) ^ 2) in *.
      replace (- B1 / (2 * pdet p)) with (- (B1 / pdet p) / 2) by (field; lra). lra. }
    rewrite EX, !exp_plus. unfold h, profile, psf_light. cbv zeta. fold d11 d12 d21 d22.
    replace (x - (s_xcen s + (d11 * e + d12 * n)) - p_xcen p) with (z1 - (d11 * e + d12 * n)) by (unfold z1; ring). replace (y - (s_ycen s + (d21 * e + d22 * n)) - p_ycen p) with (z2 - (d21 * e + d22 * n)) by (unfold z2; ring).
    set (E1 := exp (- ((q * along pa e n) ^ 2 + (across pa e n / q) ^ 2) / (2 * r2))). set (E2 := exp (- (p_Cyy p * _ ^ 2 - _ + _) / (2 * pdet p))).
    assert (K1 : exp (- k / 2) * exp (k / 2) = 1) by (rewrite <- exp_plus, <- exp_0; f_equal; field). set (ka := exp (- k / 2)) in *. set (kb := exp (k / 2)) in *. set (u := / (2 * PI * r2)). set (v := p_amp p / (2 * PI * sqrt (pdet p))).
    replace (u * v * ka * (E1 * E2 * kb)) with (u * v * (E1 * E2) * (ka * kb)) by ring. rewrite K1. match goal with |- @eq _ ?a ?b => change (@eq R a b) end. ring.
  - rewrite (brightness_made s p w x y ltac:(unfold r2 in Hr; lra) W P). fold z1 z2. fold k. f_equal. rewrite Dm. unfold h.
    rewrite sqrt_div by (try apply Rmult_lt_0_compat; lra). rewrite sqrt_mult by lra. replace (sqrt (r2 ^ 2)) with r2 by (symmetry; apply sqrt_pow2; lra).
    assert (0 < sqrt (sdet s p)) by (apply sqrt_lt_R0; exact Dp). assert (0 < sqrt (pdet p)) by (apply sqrt_lt_R0; exact Bp). pose proof PI_RGT_0.
    replace (- k / 2) with (- k / 2) by reflexivity. set (E := exp (- k / 2)). field. repeat split; lra.
Qed.

(** C79: a point source is the PSF itself. *)
Theorem C79_point : forall s p w x y, s_covar s = 0 -> 0 < w -> wide p w ->
  brightness (GetGaussianAndJacobian s p) x y = s_G s * s_flux s * s_amp s * psf_light p (x - s_xcen s) (y - s_ycen s).
Proof.
  intros s p w x y Z W P. rewrite (brightness_made s p w x y ltac:(lra) W P). f_equal.
  assert (X : sxx s p = p_Cxx p /\ syy s p = p_Cyy p /\ sxy s p = p_Cxy p) by (unfold sxx, syy, sxy; rewrite Z; repeat split; ring). destruct X as (X1 & X2 & X3).
  assert (Dt : sdet s p = pdet p) by (unfold sdet, pdet; rewrite X1, X2, X3; reflexivity). destruct (sdet_pos s p w ltac:(lra) W P) as (D & _). rewrite Dt in *.
  unfold psf_light. cbv zeta. rewrite X1, X2, X3. replace (x - s_xcen s - p_xcen p) with (x - (s_xcen s + p_xcen p)) by ring. replace (y - s_ycen s - p_ycen p) with (y - (s_ycen s + p_ycen p)) by ring.
  f_equal. f_equal. field. lra.
Qed.

(** C79: the profile has unit flux on the sky, and the PSF component its amplitude. *)
Theorem C79_unit : forall q pa r2 p w, q <> 0 -> 0 < r2 -> 0 < w -> wide p w ->
  (exists row, (forall n, on_line (fun e => profile q pa r2 e n) (row n)) /\ on_line row 1) /\
  (exists row, (forall y, on_line (fun x => psf_light p x y) (row y)) /\ on_line row (p_amp p)).
Proof.
  intros q pa r2 p w Hq Hr W (P1 & P2 & P3). pose proof PI_RGT_0 as Pi. split.
  - set (c := cos pa). set (n0 := sin pa). assert (Tr : c ^ 2 + n0 ^ 2 = 1) by (pose proof (sin2_cos2 pa) as K; unfold Rsqr in K; unfold c, n0; lra).
    assert (Q2 : 0 < q ^ 2) by (assert (q ^ 2 <> 0) by (apply pow_nonzero; auto); pose proof (pow2_ge_0 q); lra).
    set (a := (q ^ 2 * c ^ 2 + n0 ^ 2 / q ^ 2) / r2). set (b := (q ^ 2 * n0 ^ 2 + c ^ 2 / q ^ 2) / r2). set (d := c * n0 * (q ^ 2 - / q ^ 2) / r2).
    assert (Dt : a * b - d ^ 2 = (/ r2) ^ 2).
    { unfold a, b, d. transitivity ((/ r2) ^ 2 * (c ^ 2 + n0 ^ 2) ^ 2); [field; repeat split; auto; lra|rewrite Tr; ring]. }
    assert (Ir : 0 < / r2) by (apply Rinv_0_lt_compat; exact Hr). assert (Ir2 : 0 < (/ r2) ^ 2) by (apply pow_lt; exact Ir).
    assert (Ha : 0 < a).
    { unfold a. apply Rdiv_lt_0_compat; auto. pose proof (pow2_ge_0 c). pose proof (pow2_ge_0 n0). assert (0 <= q ^ 2 * c ^ 2) by (apply Rmult_le_pos; lra). assert (0 <= n0 ^ 2 / q ^ 2) by (apply Rmult_le_pos; [auto|apply Rlt_le, Rinv_0_lt_compat; auto]).
      destruct (Req_dec c 0) as [Z|NZ].
      - assert (n0 ^ 2 = 1) by (rewrite Z in Tr; lra). assert (0 < n0 ^ 2 / q ^ 2) by (apply Rdiv_lt_0_compat; lra). lra.
      - assert (0 < c ^ 2) by (assert (c ^ 2 <> 0) by (apply pow_nonzero; auto); lra). assert (0 < q ^ 2 * c ^ 2) by (apply Rmult_lt_0_compat; lra). lra. }
    destruct (plane_integral (/ (2 * PI * r2)) a b d 0 0 Ha ltac:(lra)) as (row & R1 & R2). exists row. split.
    + intros n. unfold on_line. eapply is_RInt_gen_ext; [|exact (R1 n)]. apply Filter_prod with (Q := fun _ => True) (R := fun _ => True); [exists 0; auto|exists 0; auto|]. intros u v _ _ e _.
      unfold profile, along, across. fold c n0. f_equal. f_equal. unfold a, b, d. field. repeat split; auto; lra.
    + rewrite Dt in R2. rewrite sqrt_pow2 in R2 by lra. replace 1 with (/ (2 * PI * r2) * (2 * PI / / r2)) by (field; lra). exact R2.
  - assert (Bp : 0 < pdet p).
    { unfold pdet. assert (0 < w * w) by (apply Rmult_lt_0_compat; lra). assert (0 <= w * (p_Cxx p - w)) by (apply Rmult_le_pos; lra). assert (0 <= w * (p_Cyy p - w)) by (apply Rmult_le_pos; lra). nra. }
    assert (Dt : p_Cyy p / pdet p * (p_Cxx p / pdet p) - (- p_Cxy p / pdet p) ^ 2 = / pdet p) by (unfold pdet in *; field; lra).
    assert (Ip : 0 < / pdet p) by (apply Rinv_0_lt_compat; exact Bp).
    destruct (plane_integral (p_amp p / (2 * PI * sqrt (pdet p))) (p_Cyy p / pdet p) (p_Cxx p / pdet p) (- p_Cxy p / pdet p) (p_xcen p) (p_ycen p) ltac:(apply Rdiv_lt_0_compat; lra) ltac:(lra)) as (row & R1 & R2). exists row. split.
    + intros y. unfold on_line. eapply is_RInt_gen_ext; [|exact (R1 y)]. apply Filter_prod with (Q := fun _ => True) (R := fun _ => True); [exists 0; auto|exists 0; auto|]. intros u v _ _ x _.
      unfold psf_light. cbv zeta. f_equal. f_equal. field. lra.
    + rewrite Dt in R2. assert (0 < sqrt (pdet p)) by (apply sqrt_lt_R0; exact Bp). rewrite sqrt_inv in R2. replace (p_amp p) with (p_amp p / (2 * PI * sqrt (pdet p)) * (2 * PI / / sqrt (pdet p))) by (field; lra). exact R2.
Qed.

(** ** C79: the image of a patch *)
(** The centre of a source in an exposure: its offset from the reference on the sky, through CW, from the reference pixel. *)
Definition source_x (P : Patch) (exposure sid : nat) (galaxy : KSource) : R :=
  let j := (n_sources P * exposure + sid)%nat in
  P_CW P (4 * j) * (k_ra galaxy - P_crval P (2 * j)) + P_CW P (4 * j + 1) * (k_dec galaxy - P_crval P (2 * j + 1)) + P_crpix P (2 * j).
Definition source_y (P : Patch) (exposure sid : nat) (galaxy : KSource) : R :=
  let j := (n_sources P * exposure + sid)%nat in
  P_CW P (4 * j + 2) * (k_ra galaxy - P_crval P (2 * j)) + P_CW P (4 * j + 3) * (k_dec galaxy - P_crval P (2 * j + 1)) + P_crpix P (2 * j + 1).
Definition pixels_of (P : Patch) (exposure sid : nat) : matrix22 :=
  let j := (n_sources P * exposure + sid)%nat in M22 (P_D P (4 * j)) (P_D P (4 * j + 1)) (P_D P (4 * j + 2)) (P_D P (4 * j + 3)).
Theorem C79_patch : forall P band exposure sources w x y, 0 < w ->
  (forall k, (k < n_psf_per_source P band)%nat -> wide (psfgauss P (psfgauss_start P exposure + k)) w /\ 0 < rad2 P (sersic_radius_bin (psfgauss P (psfgauss_start P exposure + k)))) ->
  (forall sid, (sid < n_sources P)%nat -> k_q (sources sid) <> 0) ->
  exists L : nat -> nat -> R,
    (forall sid k, (sid < n_sources P)%nat -> (k < n_psf_per_source P band)%nat ->
       let galaxy := sources sid in let p := psfgauss P (psfgauss_start P exposure + k) in
       convolved (k_q galaxy) (k_pa galaxy) (rad2 P (sersic_radius_bin p)) (pixels_of P exposure sid) (source_x P exposure sid galaxy) (source_y P exposure sid galaxy) p x y (L sid k)) /\
    total (fun g => brightness g x y) (CreateImageGaussians P band exposure sources) =
      columns (n_sources P) (fun sid => columns (n_psf_per_source P band) (fun k =>
        P_G P exposure * k_fluxes (sources sid) band * mixture_amplitudes (sources sid) (sersic_radius_bin (psfgauss P (psfgauss_start P exposure + k))) * L sid k)).
Proof.
  intros P band exposure sources w x y W HP HQ.
  set (sg := fun sid k => let psf := psfgauss P (psfgauss_start P exposure + k) in pix_gaussian P band exposure sid (sources sid) psf).
  set (pk := fun k => psfgauss P (psfgauss_start P exposure + k)).
  exists (fun sid k => brightness (GetGaussianAndJacobian (unit_of (sg sid k)) (pk k)) x y). split.
  - intros sid k Hs Hk galaxy p. destruct (HP k Hk) as (Wp & Rp). fold p in Wp, Rp.
    assert (F : s_covar (sg sid k) = rad2 P (sersic_radius_bin p) /\ s_xcen (sg sid k) = source_x P exposure sid galaxy /\ s_ycen (sg sid k) = source_y P exposure sid galaxy /\ s_T (sg sid k) = m_mul (m_mul (pixels_of P exposure sid) (m_rot (k_pa galaxy))) (m_scale (k_q galaxy))).
    { unfold sg, pix_gaussian. fold p. unfold source_setup. cbv zeta. cbn [s_covar s_xcen s_ycen s_T]. unfold source_x, source_y, pixels_of, m_Av, m_read. cbn [fst snd v11 v12 v21 v22]. repeat split; reflexivity. }
    destruct F as (F1 & F2 & F3 & F4).
    destruct (C79_convolution (pixels_of P exposure sid) (k_q galaxy) (k_pa galaxy) (unit_of (sg sid k)) p w x y) as (L & HL & EL); auto.
    + apply HQ; exact Hs.
    + change (s_covar (unit_of (sg sid k))) with (s_covar (sg sid k)) in HL. change (s_xcen (unit_of (sg sid k))) with (s_xcen (sg sid k)) in HL. change (s_ycen (unit_of (sg sid k))) with (s_ycen (sg sid k)) in HL.
      change (s_G (unit_of (sg sid k))) with 1 in EL. change (s_flux (unit_of (sg sid k))) with 1 in EL. change (s_amp (unit_of (sg sid k))) with 1 in EL. rewrite F1, F2, F3 in HL. unfold pk. fold p. rewrite EL. replace (1 * 1 * 1 * L) with L by ring. exact HL.
  - assert (FS : forall (f : ImageGaussian -> R) a b, total f (a ++ b) = total f a + total f b).
    { intros f a b. unfold total. rewrite map_app, fold_right_app, fold_plus_acc. reflexivity. }
    assert (B : forall sid k, (k < n_psf_per_source P band)%nat -> brightness (GetGaussianAndJacobian (sg sid k) (pk k)) x y = P_G P exposure * k_fluxes (sources sid) band * mixture_amplitudes (sources sid) (sersic_radius_bin (pk k)) * brightness (GetGaussianAndJacobian (unit_of (sg sid k)) (pk k)) x y).
    { intros sid k Hk. destruct (HP k Hk) as (Wp & Rp). fold (pk k) in Wp, Rp.
      assert (F : s_covar (sg sid k) = rad2 P (sersic_radius_bin (pk k)) /\ s_G (sg sid k) = P_G P exposure /\ s_flux (sg sid k) = k_fluxes (sources sid) band /\ s_amp (sg sid k) = mixture_amplitudes (sources sid) (sersic_radius_bin (pk k))).
      { unfold sg, pix_gaussian. fold (pk k). destruct (source_setup P exposure sid (sources sid)) as [[[[[a b] CW] T] d] e]. cbn. auto. }
      destruct F as (F1 & F2 & F3 & F4). rewrite (brightness_made (sg sid k) (pk k) w x y) by (auto; rewrite F1; lra). rewrite (brightness_made (unit_of (sg sid k)) (pk k) w x y) by (auto; change (0 <= s_covar (sg sid k)); rewrite F1; lra).
      rewrite F2, F3, F4. change (s_G (unit_of (sg sid k))) with 1. change (s_flux (unit_of (sg sid k))) with 1. change (s_amp (unit_of (sg sid k))) with 1. change (s_xcen (unit_of (sg sid k))) with (s_xcen (sg sid k)). change (s_ycen (unit_of (sg sid k))) with (s_ycen (sg sid k)).
      change (sdet (unit_of (sg sid k)) (pk k)) with (sdet (sg sid k) (pk k)). change (syy (unit_of (sg sid k)) (pk k)) with (syy (sg sid k) (pk k)). change (sxx (unit_of (sg sid k)) (pk k)) with (sxx (sg sid k) (pk k)). change (sxy (unit_of (sg sid k)) (pk k)) with (sxy (sg sid k) (pk k)). ring. }
    unfold CreateImageGaussians, columns. generalize (seq 0 (n_sources P)). intros l. induction l as [|sid l IH]; [reflexivity|]. cbn [flat_map map fold_right]. rewrite FS, IH. f_equal.
    unfold ConvolveOneSource, total. rewrite map_map. f_equal. apply map_ext_in. intros k Hk. apply in_seq in Hk. cbv zeta. apply (B sid k). lia.
Qed.

Print Assumptions C79_convolution.
Print Assumptions C79_point.
Print Assumptions C79_unit.
Print Assumptions C79_patch.
