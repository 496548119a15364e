(** Cases for C80: an elongated source on the patch of two exposures of C22. *)
From Coq Require Import Reals Lra Lia Psatz List ZArith.
From Coquelicot Require Import Coquelicot.
From Verif Require Import Np NpFacts KernelModel KernelFacts KernelProps KernelSum KernelMask GaussInt PixelFacts PixelProps TwinProps.
Import ListNotations.
Open Scope R_scope.

Definition galaxy (q pa flux : R) (_ : nat) : KSource := mkKS 1 0 q pa (fun _ => flux) (fun _ => 1) (fun _ => 0) (fun _ => 0).
Definition mock : nat -> R := fun pix => match pix with 0%nat => image (toy 7 false) 0 0 (galaxy (/ 2) 0 5) 0 | _ => image (toy 7 false) 0 1 (galaxy (/ 2) 0 5) (pix - 1) end.
Lemma mock_data : forall e i, live (toy 7 false) 0 e i -> mock (exposure_start (toy 7 false) e + i)%nat = image (toy 7 false) 0 e (galaxy (/ 2) 0 5) i.
Proof.
  intros e i ((_ & He) & Hi & _). change (e < 2)%nat in He. change (i < match e with 0%nat => 1%nat | _ => 2%nat end)%nat in Hi. destruct e as [|[|e]]; [| |lia].
  - destruct i; [reflexivity|lia].
  - destruct i as [|[|i]]; [reflexivity|reflexivity|lia].
Qed.
(** Its pixel at the source has light, in proportion to the flux. *)
Definition star : PSFGaussian := mkPSF 1 0 0 1 1 0 0.
Definition blank : Patch := with_data (toy 7 false) (fun _ => 0).
Definition seen (f : R) : PixGaussian := pix_gaussian blank 0 0 0 (galaxy (/ 2) 0 f 0) star.
Lemma seen_shape f : sxx (seen f) star = 5 /\ syy (seen f) star = 5 / 4 /\ sxy (seen f) star = 0 /\ s_xcen (seen f) = 1 /\ s_ycen (seen f) = 0.
Proof.
  assert (T : s_T (seen f) = m_mul (m_mul (M22 1 0 0 1) (m_rot 0)) (m_scale (/ 2))) by reflexivity.
  assert (X : s_xcen (seen f) = 1 * (1 - 0) + 0 * (0 - 0) + 0) by reflexivity. assert (Y : s_ycen (seen f) = 0 * (1 - 0) + 1 * (0 - 0) + 0) by reflexivity.
  assert (C : s_covar (seen f) = 1) by reflexivity. unfold sxx, syy, sxy. rewrite T, X, Y, C. unfold m_mul, m_rot, m_scale. cbn [v11 v12 v21 v22 star p_Cxx p_Cyy p_Cxy]. rewrite cos_0, sin_0. repeat split; field.
Qed.
Lemma lit : exists c, 0 < c /\ forall f, image (toy 7 false) 0 0 (galaxy (/ 2) 0 f) 0 = c * f.
Proof.
  set (r := sqrt (m_det (m_inv (M22 5 0 0 (5 / 4))))). pose proof PI_RGT_0 as Pi. exists (r * (1 / (2 * PI)) * (1 - (/ 5 + 4 / 5) / 24)). split.
  - assert (0 < r). { apply sqrt_lt_R0. unfold m_inv, m_det. cbn [v11 v12 v21 v22]. unfold m_det. cbn [v11 v12 v21 v22]. replace (5 / 4 * (1 / (5 * (5 / 4) - 0 * 0)) * (5 * (1 / (5 * (5 / 4) - 0 * 0))) - - 0 * (1 / (5 * (5 / 4) - 0 * 0)) * (- 0 * (1 / (5 * (5 / 4) - 0 * 0)))) with (4 / 25) by field. lra. }
    apply Rmult_lt_0_compat; [|lra]. apply Rmult_lt_0_compat; [assumption|]. apply Rdiv_lt_0_compat; lra.
  - intros f. unfold image. fold blank. rewrite residual_nth by (change (0 < 1)%nat; lia). unfold residual_at, model_at.
    change (n_sources blank) with 1%nat. change (n_psf_per_source blank 0) with 1%nat.
    change (exposure_start blank 0 + 0)%nat with 0%nat. change (P_data blank 0) with 0. change (P_xpix blank 0) with 1. change (P_ypix blank 0) with 0.
    cbn [seq]. rewrite !sumR_cons. change (sumR _ []) with 0. change (sumR _ []) with 0.
    change (gauss blank 0 (galaxy (/ 2) 0 f) 0 0 0) with (GetGaussianAndJacobian (seen f) star).
    destruct (made (seen f) star) as (E0 & E1 & E2 & E3). destruct (seen_shape f) as (S1 & S2 & S3 & S4 & S5). unfold sdet in *. rewrite S1, S2, S3 in *. fold r in E0.
    change (s_G (seen f)) with 1 in E0. change (s_flux (seen f)) with f in E0. change (s_amp (seen f)) with 1 in E0. change (p_amp star) with 1 in E0.
    unfold residual_term. change (xcen (GetGaussianAndJacobian (seen f) star)) with (s_xcen (seen f) + 0). change (ycen (GetGaussianAndJacobian (seen f) star)) with (s_ycen (seen f) + 0). rewrite S4, S5, E0, E1, E2, E3. cbv zeta.
    replace (1 - (1 + 0)) with 0 by ring. replace (0 - (0 + 0)) with 0 by ring. unfold MAX_EXP_ARG. rewrite !Rmult_0_r, !Rmult_0_l, !Rplus_0_r.
    destruct (Rlt_dec 36 0); [lra|]. rewrite ?Rmult_0_r, exp_0. field. lra.
Qed.
Lemma mock_case : let P := with_data (toy 7 false) mock in
  snd (EvaluateProposal P 0 (galaxy (/ 2) 0 5)) = repeat 0 (NPARAMS * MAXSOURCES) /\ fst (EvaluateProposal P 0 (galaxy (/ 2) 0 5)) < fst (EvaluateProposal P 0 (galaxy (/ 2) 0 6)).
Proof.
  intros P. destruct (C80_mock (toy 7 false) 0 (galaxy (/ 2) 0 5) mock ltac:(change (1 <= 30)%nat; lia) mock_data) as (B & G). fold P in B, G. split; [exact G|].
  destruct (B (galaxy (/ 2) 0 6)) as (L & E). destruct (Rle_lt_or_eq_dec _ _ L) as [Lt|Eq]; [exact Lt|]. exfalso. pose proof (proj1 E (eq_sym Eq) 0%nat 0%nat) as Eq2. clear Eq. assert (HL : live (toy 7 false) 0 0 0) by (split; [change (0 <= 0 < 2)%nat; lia|split; [change (0 < 1)%nat; lia|change (1 / 2 <> 0); lra]]). specialize (Eq2 HL).
  destruct lit as (c & Hc & E1). rewrite !E1 in Eq2. lra.
Qed.
(** The same galaxy: long axis for short axis and a quarter turn; either sign and
    three half turns; a circle at any angle. And two that differ. *)
Lemma same_case : alike 0 (galaxy (/ 2) 0 5 0) (galaxy 2 (PI / 2) 5 0) /\ alike 0 (galaxy (/ 2) 1 5 0) (galaxy (- / 2) (1 + 3 * PI) 5 0) /\ alike 0 (galaxy 1 0 5 0) (galaxy (- 1) 1 5 0).
Proof.
  repeat split; try (cbn; lra); cbn [galaxy k_q k_pa].
  - right; left. split; [lra|]. exists 0%Z. lra.
  - left. split; [lra|]. exists 3%Z. lra.
  - right; right. split; lra.
Qed.
Lemma same_value_case : let P := toy 7 false in
  fst (EvaluateProposal P 0 (galaxy 2 (PI / 2) 5)) = fst (EvaluateProposal P 0 (galaxy (/ 2) 0 5)) /\
  2 * nth 3 (snd (EvaluateProposal P 0 (galaxy 2 (PI / 2) 5))) 0 = - (/ 2 * nth 3 (snd (EvaluateProposal P 0 (galaxy (/ 2) 0 5))) 0).
Proof.
  intros P. assert (HA : forall sid, (sid < n_sources P)%nat -> alike 0 (galaxy (/ 2) 0 5 sid) (galaxy 2 (PI / 2) 5 sid)) by (intros; apply same_case). split.
  - apply (C80_same P 0 (galaxy (/ 2) 0 5) (galaxy 2 (PI / 2) 5)); [change (1 <= 30)%nat; lia|exact HA].
  - apply (C80_same_gradient P 0 (galaxy (/ 2) 0 5) (galaxy 2 (PI / 2) 5) 0); [change (1 <= 30)%nat; lia|change (0 < 1)%nat; lia|exact HA|]. cbn [galaxy k_q k_pa]. split; [lra|]. exists 0%Z. lra.
Qed.
Lemma shapes_case : image_shape (M22 2 1 0 3) (/ 2) 0 <> image_shape (M22 2 1 0 3) (/ 2) (PI / 2).
Proof.
  intros E. symmetry in E. apply C80_shapes in E; [|unfold m_det; cbn; lra|lra|lra]. pose proof PI_RGT_0. destruct E as [(_ & k & K)|[(K & _)|(K & _)]]; [|lra|lra].
  assert (IZR k * PI = / 2 * PI) by lra. apply Rmult_eq_reg_r in H0; [|lra]. assert (2 * IZR k = 1) by lra. rewrite <- (mult_IZR 2 k) in H1. apply eq_IZR in H1. lia.
Qed.
Lemma units_case : let P := toy 7 false in fst (EvaluateProposal (in_units 10 (/ 10) P) 0 (fun sid => brighter 10 (galaxy (/ 2) 0 5 sid))) = fst (EvaluateProposal P 0 (galaxy (/ 2) 0 5)).
Proof. intros P. destruct (C80_units 10 (/ 10) P 0 (galaxy (/ 2) 0 5) ltac:(change (1 <= 30)%nat; lia)) as (E & _). rewrite E. replace (10 * / 10) with 1 by field. ring. Qed.
