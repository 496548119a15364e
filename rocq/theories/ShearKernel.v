(** Position angles matter modulo pi only: the hypothesis of C24_gradient_conversion
    holds of the kernel. *)
From Verif Require Import Np NpFacts KernelModel.
From Coq Require Import Reals Lra.
Open Scope R_scope.

Definition turned (s : KSource) : KSource :=
  mkKS (k_ra s) (k_dec s) (k_q s) (k_pa s + PI) (k_fluxes s) (mixture_amplitudes s) (damplitude_drh s) (damplitude_dnsersic s).

Lemma m_mul_neg a b : m_mul a (m_smul (- 1) b) = m_smul (- 1) (m_mul a b).
Proof. unfold m_mul, m_smul. cbn [v11 v12 v21 v22]. f_equal; ring. Qed.
Lemma m_mul_neg_l a b : m_mul (m_smul (- 1) a) b = m_smul (- 1) (m_mul a b).
Proof. unfold m_mul, m_smul. cbn [v11 v12 v21 v22]. f_equal; ring. Qed.
Lemma AAt_neg a : m_AAt (m_smul (- 1) a) = m_AAt a.
Proof. unfold m_AAt, m_smul. cbn [v11 v12 v21 v22]. f_equal; ring. Qed.
Lemma symABt_neg a b : m_symABt (m_smul (- 1) a) (m_smul (- 1) b) = m_symABt a b.
Proof. unfold m_symABt, m_smul. cbn [v11 v12 v21 v22]. f_equal; ring. Qed.
Lemma rot_turn t : m_rot (t + PI) = m_smul (- 1) (m_rot t).
Proof. unfold m_rot, m_smul. cbn [v11 v12 v21 v22]. rewrite neg_cos, neg_sin. f_equal; ring. Qed.
Lemma rot_deriv_turn t : m_rot_deriv (t + PI) = m_smul (- 1) (m_rot_deriv t).
Proof. unfold m_rot_deriv, m_smul. cbn [v11 v12 v21 v22]. rewrite neg_cos, neg_sin. f_equal; ring. Qed.

Lemma gaussian_turned amp x y c f G dn dr CW T dq dp psf :
  GetGaussianAndJacobian (mkPG amp x y c f G dn dr CW (m_smul (- 1) T) (m_smul (- 1) dq) (m_smul (- 1) dp)) psf =
  GetGaussianAndJacobian (mkPG amp x y c f G dn dr CW T dq dp) psf.
Proof.
  unfold GetGaussianAndJacobian. cbn [s_amp s_xcen s_ycen s_covar s_flux s_G s_da_dn s_da_dr s_CW s_T s_dT_dq s_dT_dpa].
  rewrite AAt_neg, !symABt_neg. reflexivity.
Qed.

Theorem C24_angle_modulo_pi P b src (turn : nat -> bool) :
  EvaluateProposal P b (fun s => if turn s then turned (src s) else src s) = EvaluateProposal P b src.
Proof.
  assert (HC : forall e, CreateImageGaussians P b e (fun s => if turn s then turned (src s) else src s) = CreateImageGaussians P b e src).
  { intros e. unfold CreateImageGaussians.
    assert (HF : forall sid, ConvolveOneSource P b e sid (n_psf_per_source P b) (if turn sid : bool then turned (src sid) else src sid) =
                            ConvolveOneSource P b e sid (n_psf_per_source P b) (src sid)).
    { intros sid. destruct (turn sid); [|reflexivity]. unfold ConvolveOneSource. apply map_ext. intros p. cbv zeta.
      unfold pix_gaussian, source_setup, turned. cbn [k_ra k_dec k_q k_pa k_fluxes mixture_amplitudes damplitude_drh damplitude_dnsersic].
      cbv zeta. rewrite rot_turn, rot_deriv_turn, !m_mul_neg, !m_mul_neg_l. apply gaussian_turned. }
    induction (seq 0 (n_sources P)) as [|s l IH]; simpl; [reflexivity|]. now rewrite HF, IH. }
  unfold EvaluateProposal, exposure_pass. cbv zeta. generalize (0, repeat 0 (NPARAMS * MAXSOURCES)).
  induction (seq 0 (band_N P b)) as [|e l IH]; intros acc; [reflexivity|]. cbn [fold_left]. rewrite HC. apply IH.
Qed.
Print Assumptions C24_angle_modulo_pi.
