(** The Jacobian stored in an ImageGaussian is the derivative of its six parameters
    in the seven sky parameters. *)
From Verif Require Import Np NpFacts KernelModel KernelFacts.
From Coq Require Import Reals Lra.
From Coquelicot Require Import Coquelicot.
Open Scope R_scope.

(** A source as the kernel sees it in one band, from the row
    [flux; ra; dec; q; pa; nsersic; rh]; the splined mixture amplitudes and their
    derivatives are functions of the last two. *)
Definition ksource_of (amps dan dar : R -> R -> nat -> R) (row : list R) : KSource :=
  let n := nth 5 row 0 in let r := nth 6 row 0 in
  mkKS (nth 1 row 0) (nth 2 row 0) (nth 3 row 0) (nth 4 row 0) (fun _ => nth 0 row 0) (amps n r) (dar n r) (dan n r).

(** [dan], [dar] are the partial derivatives of [amps] at (n, r), radius bin [s]. *)
Definition spline_ok (amps dan dar : R -> R -> nat -> R) (n r : R) (s : nat) : Prop :=
  is_derive (fun t => amps t r s) n (dan n r s) /\ is_derive (fun t => amps n t s) r (dar n r s).
(** The PSF Gaussian has a positive definite covariance. *)
Definition psf_pd (p : PSFGaussian) : Prop := 0 < p_Cxx p /\ 0 < p_Cyy p /\ p_Cxy p * p_Cxy p < p_Cxx p * p_Cyy p.

Definition total_covar (c : R) (T : matrix22) (p : PSFGaussian) : matrix22 :=
  m_add (m_smul c (m_AAt T)) (M22 (p_Cxx p) (p_Cxy p) (p_Cxy p) (p_Cyy p)).

Lemma total_covar_det c T p : 0 <= c -> psf_pd p -> 0 < m_det (total_covar c T p).
Proof.
  intros Hc (H1 & H2 & H3). unfold total_covar, m_add, m_smul, m_AAt, m_det. cbn [v11 v12 v21 v22].
  destruct T as [t1 t2 t3 t4]. cbn [v11 v12 v21 v22]. destruct p as [pa px py cxx cyy cxy bin]. simpl in *.
  assert (E : (c * (t1 * t1 + t2 * t2) + cxx) * (c * (t3 * t3 + t4 * t4) + cyy) -
    (c * (t1 * t3 + t2 * t4) + cxy) * (c * (t1 * t3 + t2 * t4) + cxy) =
    c * c * ((t1 * t4 - t2 * t3) * (t1 * t4 - t2 * t3)) + (cxx * cyy - cxy * cxy)
    + c * ((cyy * (t1 * t1) + cxx * (t3 * t3) - 2 * cxy * (t1 * t3)) + (cyy * (t2 * t2) + cxx * (t4 * t4) - 2 * cxy * (t2 * t4)))) by ring.
  rewrite E. clear E.
  assert (Q : forall u v, 0 <= cyy * (u * u) + cxx * (v * v) - 2 * cxy * (u * v)).
  { intros u v. assert (HH : 0 <= cyy * (cyy * (u * u) + cxx * (v * v) - 2 * cxy * (u * v))).
    { replace (cyy * (cyy * (u * u) + cxx * (v * v) - 2 * cxy * (u * v)))
        with ((cyy * u - cxy * v) * (cyy * u - cxy * v) + (cxx * cyy - cxy * cxy) * (v * v)) by ring.
      pose proof (Rle_0_sqr (cyy * u - cxy * v)) as Q1. pose proof (Rle_0_sqr v) as Q2. unfold Rsqr in Q1, Q2.
      assert (0 <= (cxx * cyy - cxy * cxy) * (v * v)) by (apply Rmult_le_pos; lra). lra. }
    apply Rmult_le_reg_l with cyy; auto. lra. }
  pose proof (Q t1 t3) as Qa. pose proof (Q t2 t4) as Qb.
  assert (0 <= c * ((cyy * (t1 * t1) + cxx * (t3 * t3) - 2 * cxy * (t1 * t3)) + (cyy * (t2 * t2) + cxx * (t4 * t4) - 2 * cxy * (t2 * t4))))
    by (apply Rmult_le_pos; lra).
  pose proof (Rle_0_sqr (t1 * t4 - t2 * t3)) as Qd. unfold Rsqr in Qd.
  assert (0 <= c * c * ((t1 * t4 - t2 * t3) * (t1 * t4 - t2 * t3))) by (apply Rmult_le_pos; [apply Rmult_le_pos|]; auto). lra.
Qed.

(** Along a curve of transformations T with derivative dT (symmetric product rule). *)
Definition m_derive (T : R -> matrix22) (t0 : R) (dT : matrix22) : Prop :=
  is_derive (fun t => v11 (T t)) t0 (v11 dT) /\ is_derive (fun t => v12 (T t)) t0 (v12 dT) /\
  is_derive (fun t => v21 (T t)) t0 (v21 dT) /\ is_derive (fun t => v22 (T t)) t0 (v22 dT).

Lemma covar_derive_raw (c k1 k2 k3 : R) (a b d e : R -> R) (t0 a' b' d' e' : R) :
  is_derive a t0 a' -> is_derive b t0 b' -> is_derive d t0 d' -> is_derive e t0 e' ->
  is_derive (fun t => c * (a t * a t + b t * b t) + k1) t0 (c * (2 * (a t0 * a' + b t0 * b'))) /\
  is_derive (fun t => c * (a t * d t + b t * e t) + k2) t0 (c * (a t0 * d' + b t0 * e' + d t0 * a' + e t0 * b')) /\
  is_derive (fun t => c * (d t * d t + e t * e t) + k3) t0 (c * (2 * (d t0 * d' + e t0 * e'))).
Proof.
  intros Ha Hb Hd He.
  refine (conj _ (conj _ _)); (auto_derive; [side|]);
    rewrite ?(Derive_eta _ _ _ Ha), ?(Derive_eta _ _ _ Hb), ?(Derive_eta _ _ _ Hd), ?(Derive_eta _ _ _ He); ring.
Qed.

Lemma image_derive (c : R) (p : PSFGaussian) (T : R -> matrix22) t0 dT :
  0 <= c -> psf_pd p -> m_derive T t0 dT ->
  let covar t := total_covar c (T t) p in
  let f := m_inv (covar t0) in
  let dF := m_smul (- 1) (m_ABA f (m_smul c (m_symABt (T t0) dT))) in
  is_derive (fun t => v11 (m_inv (covar t))) t0 (v11 dF) /\
  is_derive (fun t => v22 (m_inv (covar t))) t0 (v22 dF) /\
  is_derive (fun t => v21 (m_inv (covar t))) t0 (v21 dF) /\
  is_derive (fun t => sqrt (m_det (m_inv (covar t)))) t0 (1/2 * sqrt (m_det f) * m_trace (m_mul (covar t0) dF)).
Proof.
  intros Hc Hp (H1 & H2 & H3 & H4) covar f dF.
  destruct (covar_derive_raw c (p_Cxx p) (p_Cxy p) (p_Cyy p) _ _ _ _ t0 _ _ _ _ H1 H2 H3 H4) as (D1 & D2 & D3).
  pose proof (total_covar_det c (T t0) p Hc Hp) as HD.
  exact (covariance_derive _ _ _ t0 _ _ _ D1 D2 D3 HD).
Qed.

Lemma const_derive (f : R -> R) (t0 : R) : (forall t, f t = f t0) -> is_derive f t0 0.
Proof. intros H. apply is_derive_ext with (f := fun _ : R => f t0); [intros; symmetry; apply H|]. apply @is_derive_const. Qed.
Lemma affine_derive (f : R -> R) (t0 k m : R) : (forall t, f t = k * t + m) -> is_derive f t0 k.
Proof. intros H. apply is_derive_ext with (f := fun t : R => k * t + m); [intros; now rewrite H|]. auto_derive; auto; ring. Qed.
Lemma scaled_derive (f h : R -> R) (t0 k l : R) : is_derive h t0 l -> (forall t, f t = k * h t) -> is_derive f t0 (k * l).
Proof.
  intros Hh H. apply is_derive_ext with (f := fun t : R => k * h t); [intros; now rewrite H|].
  auto_derive; [side|]. rewrite (Derive_eta _ _ _ Hh). ring.
Qed.

Lemma T_dq (D Rm : matrix22) (q : R) : q <> 0 ->
  m_derive (fun t => m_mul (m_mul D Rm) (m_scale t)) q (m_mul (m_mul D Rm) (m_scale_deriv q)).
Proof.
  intros Hq. unfold m_derive, m_scale, m_scale_deriv. generalize (m_mul D Rm). intros [a1 a2 a3 a4]. unfold m_mul. cbn [v11 v12 v21 v22].
  refine (conj _ (conj _ (conj _ _))); (auto_derive; [auto|]); field; auto.
Qed.
Lemma T_dpa (D S : matrix22) (pa : R) :
  m_derive (fun t => m_mul (m_mul D (m_rot t)) S) pa (m_mul (m_mul D (m_rot_deriv pa)) S).
Proof.
  destruct D as [d1 d2 d3 d4], S as [s1 s2 s3 s4]. unfold m_derive, m_rot, m_rot_deriv, m_mul. cbn [v11 v12 v21 v22].
  refine (conj _ (conj _ (conj _ _))); (auto_derive; [auto|]); ring.
Qed.

Section Source.
Context (P : Patch) (b e g : nat) (psf : PSFGaussian) (amps dan dar : R -> R -> nat -> R).
Definition source_gaussian (row : list R) : ImageGaussian :=
  GetGaussianAndJacobian (pix_gaussian P b e g (ksource_of amps dan dar row) psf) psf.

Lemma gaussian_tangent row p : List.length row = 7%nat -> (p < 7)%nat ->
  nth 3 row 0 <> 0 -> 0 <= rad2 P (sersic_radius_bin psf) -> psf_pd psf ->
  spline_ok amps dan dar (nth 5 row 0) (nth 6 row 0) (sersic_radius_bin psf) ->
  tangent (fun t => source_gaussian (upd p t row)) (nth p row 0) (jac (source_gaussian row) p).
Proof.
  intros HL Hp Hq Hr Hpsf [Hn Hrh].
  destruct row as [|f [|ra [|dec [|q [|pa [|n [|rh [|? ?]]]]]]]]; try discriminate HL. simpl in Hq, Hn, Hrh.
  destruct p as [|[|[|[|[|[|[|p]]]]]]]; [| | | | | | |lia]; cbn [upd nth jac].
  - unfold tangent; cbv beta iota; split; [|split; [|split; [|split; [|split]]]]; try (apply const_derive; intros t; reflexivity).
    eapply (affine_derive _ _ _ 0). intros t. unfold source_gaussian. simpl. ring.
  - unfold tangent; cbv beta iota; split; [|split; [|split; [|split; [|split]]]]; try (apply const_derive; intros t; reflexivity).
    + set (k := v11 (m_read (P_CW P) (4 * (n_sources P * e + g)))).
      apply (affine_derive _ _ _ (xcen (source_gaussian [f; ra; dec; q; pa; n; rh]) - k * ra)). intros t. unfold k. simpl. ring.
    + set (k := v21 (m_read (P_CW P) (4 * (n_sources P * e + g)))).
      apply (affine_derive _ _ _ (ycen (source_gaussian [f; ra; dec; q; pa; n; rh]) - k * ra)). intros t. unfold k. simpl. ring.
  - unfold tangent; cbv beta iota; split; [|split; [|split; [|split; [|split]]]]; try (apply const_derive; intros t; reflexivity).
    + set (k := v12 (m_read (P_CW P) (4 * (n_sources P * e + g)))).
      apply (affine_derive _ _ _ (xcen (source_gaussian [f; ra; dec; q; pa; n; rh]) - k * dec)). intros t. unfold k. simpl. ring.
    + set (k := v22 (m_read (P_CW P) (4 * (n_sources P * e + g)))).
      apply (affine_derive _ _ _ (ycen (source_gaussian [f; ra; dec; q; pa; n; rh]) - k * dec)). intros t. unfold k. simpl. ring.
  - destruct (image_derive (rad2 P (sersic_radius_bin psf)) psf _ _ _ Hr Hpsf
      (T_dq (m_read (P_D P) (4 * (n_sources P * e + g))) (m_rot pa) q Hq)) as (D1 & D2 & D3 & D4).
    unfold tangent; cbv beta iota; split; [|split; [|split; [|exact (conj D1 (conj D2 D3))]]]; try (apply const_derive; intros t; reflexivity).
    set (k := P_G P e * p_amp psf * (1 / (2 * PI)) * f * amps n rh (sersic_radius_bin psf)).
    pose proof (scaled_derive (fun t => amp (source_gaussian [f; ra; dec; t; pa; n; rh])) _ q k _ D4) as K.
    lapply K.
    + clear K. intros K. refine (eq_ind _ (fun v => is_derive _ _ v) K _ _).
      unfold k, source_gaussian, GetGaussianAndJacobian, total_covar. cbn -[m_mul m_trace m_inv m_det m_add m_smul m_AAt m_ABA m_symABt m_read m_rot m_scale m_scale_deriv]. field. apply PI_neq0.
    + intros t. unfold k, source_gaussian, GetGaussianAndJacobian, total_covar. cbn -[m_mul m_trace m_inv m_det m_add m_smul m_AAt m_ABA m_symABt m_read m_rot m_scale m_scale_deriv]. field. apply PI_neq0.
  - destruct (image_derive (rad2 P (sersic_radius_bin psf)) psf _ _ _ Hr Hpsf
      (T_dpa (m_read (P_D P) (4 * (n_sources P * e + g))) (m_scale q) pa)) as (D1 & D2 & D3 & D4).
    unfold tangent; cbv beta iota; split; [|split; [|split; [|exact (conj D1 (conj D2 D3))]]]; try (apply const_derive; intros t; reflexivity).
    set (k := P_G P e * p_amp psf * (1 / (2 * PI)) * f * amps n rh (sersic_radius_bin psf)).
    pose proof (scaled_derive (fun t => amp (source_gaussian [f; ra; dec; q; t; n; rh])) _ pa k _ D4) as K.
    lapply K.
    + clear K. intros K. refine (eq_ind _ (fun v => is_derive _ _ v) K _ _).
      unfold k, source_gaussian, GetGaussianAndJacobian, total_covar. cbn -[m_mul m_trace m_inv m_det m_add m_smul m_AAt m_ABA m_symABt m_read m_rot m_scale m_rot_deriv]. field. apply PI_neq0.
    + intros t. unfold k, source_gaussian, GetGaussianAndJacobian, total_covar. cbn -[m_mul m_trace m_inv m_det m_add m_smul m_AAt m_ABA m_symABt m_read m_rot m_scale m_rot_deriv]. field. apply PI_neq0.
  - unfold tangent; cbv beta iota; split; [|split; [|split; [|split; [|split]]]]; try (apply const_derive; intros t; reflexivity).
    eapply (scaled_derive _ _ _ _ _ Hn). intros t. reflexivity.
  - unfold tangent; cbv beta iota; split; [|split; [|split; [|split; [|split]]]]; try (apply const_derive; intros t; reflexivity).
    eapply (scaled_derive _ _ _ _ _ Hrh). intros t. reflexivity.
Qed.
End Source.
