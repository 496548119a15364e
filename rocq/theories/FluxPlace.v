(** C84: places are not like fluxes. The kernel drops the light of a Gaussian
    further out than six of its widths (src/common_kernel.cc 73 and 108, kernel_limits.h 17),
    so that a source out of reach of the pixels has no gradient at all. *)
From Coq Require Import Reals Lra Lia Psatz List ZArith.
From Verif Require Import Np NpFacts KernelModel KernelFacts KernelSum KernelMask GaussInt PixelFacts PixelProps TwinProps TwinCase FluxProps FluxCase.
Import ListNotations.
Open Scope R_scope.

(** More than six widths from every pixel of non-zero weight, for every Gaussian
    of the source. *)
Definition out_of_reach (P : Patch) (b : nat) (src : nat -> KSource) (s : nat) : Prop :=
  forall e k p, live P b e k -> (p < n_psf_per_source P b)%nat ->
  let psf := psfgauss P (psfgauss_start P e + p) in let g := pix_gaussian P b e s (src s) psf in
  let dx := P_xpix P (exposure_start P e + k) - (s_xcen g + p_xcen psf) in let dy := P_ypix P (exposure_start P e + k) - (s_ycen g + p_ycen psf) in
  36 < (syy g psf * dx ^ 2 - 2 * sxy g psf * dx * dy + sxx g psf * dy ^ 2) / sdet g psf.
Lemma dropped x y g psf : 36 < (syy g psf * (x - (s_xcen g + p_xcen psf)) ^ 2 - 2 * sxy g psf * (x - (s_xcen g + p_xcen psf)) * (y - (s_ycen g + p_ycen psf)) + sxx g psf * (y - (s_ycen g + p_ycen psf)) ^ 2) / sdet g psf ->
  unit_term x y (GetGaussianAndJacobian g psf) = 0 /\ forall r, pixel_derivs x y r (GetGaussianAndJacobian g psf) = (0, 0, 0, 0, 0, 0).
Proof.
  intros H. destruct (made g psf) as (_ & E1 & E2 & E3).
  unfold unit_term, pixel_derivs. change (xcen (GetGaussianAndJacobian g psf)) with (s_xcen g + p_xcen psf). change (ycen (GetGaussianAndJacobian g psf)) with (s_ycen g + p_ycen psf). rewrite E1, E2, E3. cbv zeta.
  set (dx := x - (s_xcen g + p_xcen psf)) in *. set (dy := y - (s_ycen g + p_ycen psf)) in *.
  assert (X : dx * (syy g psf / sdet g psf * dx + - sxy g psf / sdet g psf * dy) + dy * (sxx g psf / sdet g psf * dy + - sxy g psf / sdet g psf * dx) =
    (syy g psf * dx ^ 2 - 2 * sxy g psf * dx * dy + sxx g psf * dy ^ 2) / sdet g psf) by (unfold Rdiv; ring).
  rewrite X. unfold MAX_EXP_ARG. destruct (Rlt_dec 36 _) as [L|L]; [|contradiction]. split; reflexivity.
Qed.
(** C84: a source out of reach has a zero gradient in every parameter, whatever
    the data, and its flux changes nothing. *)
Theorem C84_out_of_reach : forall P b src s, (n_sources P <= MAXSOURCES)%nat -> (s < n_sources P)%nat -> out_of_reach P b src s ->
  (forall j, (j < 7)%nat -> nth (s * 7 + j) (snd (EvaluateProposal P b src)) 0 = 0) /\
  forall f, (forall s', (s' < n_sources P)%nat -> s' <> s -> f s' = k_fluxes (src s') b) ->
    chi2 P b (relit f src) = chi2 P b src /\
    forall e k, live P b e k -> nth k (residual_image P b e (relit f src)) 0 = nth k (residual_image P b e src) 0.
Proof.
  intros P b src s Hm Hs HO.
  assert (U : forall e k, live P b e k -> unit_light P b src e (exposure_start P e + k) s = 0).
  { intros e k Hl. unfold unit_light. apply sumR_zero. intros p Hp. apply in_seq in Hp. apply dropped. apply HO; [exact Hl|lia]. }
  split.
  - intros j Hj. destruct (evaluate_closed P b src Hm) as (_ & _ & G). rewrite G by auto. apply sumR_zero. intros e He. apply sumR_zero. intros i Hi.
    destruct (live_pix P b e i He Hi) as (k & -> & Hk & Hb). unfold grad_at. apply sumR_zero. intros p Hp. apply in_seq in Hp.
    destruct (Req_dec (P_ierr P (exposure_start P e + k)) 0) as [N|N].
    + rewrite N, Rmult_0_r. set (g := gauss P b src e s p). clearbody g. unfold derivative_row, pixel_derivs. cbv zeta. destruct (Rlt_dec _ _); do 7 (destruct j as [|j]; [cbn [nth]; ring|]); lia.
    + unfold derivative_row. destruct (dropped (P_xpix P (exposure_start P e + k)) (P_ypix P (exposure_start P e + k)) (pix_gaussian P b e s (src s) (psfgauss P (psfgauss_start P e + p))) (psfgauss P (psfgauss_start P e + p))) as (_ & D).
      { apply HO; [repeat split; auto; lia|lia]. }
      unfold gauss. cbv zeta. rewrite D. do 7 (destruct j as [|j]; [cbn [nth]; ring|]). lia.
  - intros f Hf. assert (Q : forall e k, live P b e k -> nth k (residual_image P b e (relit f src)) 0 = nth k (residual_image P b e src) 0).
    { intros e k Hl. rewrite !residual_nth by apply Hl. rewrite residual_moved. rewrite sumR_zero; [ring|]. intros s' Hs'. apply in_seq in Hs'.
      destruct (Nat.eq_dec s' s) as [->|Ne]; [rewrite U by exact Hl; ring|rewrite Hf by (auto; lia); ring]. }
    split; [|exact Q]. unfold chi2. destruct (evaluate_closed P b src Hm) as (_ & E & _). destruct (evaluate_closed P b (relit f src) Hm) as (_ & E' & _). rewrite E, E'.
    apply sumR_ext. intros e He. apply sumR_ext. intros i Hi. destruct (live_pix P b e i He Hi) as (k & -> & Hk & Hb). unfold chi2_at.
    destruct (Req_dec (P_ierr P (exposure_start P e + k)) 0) as [N|N]; [rewrite N; ring|].
    assert (Hl : live P b e k) by (repeat split; auto; lia). specialize (Q e k Hl). rewrite !residual_nth in Q by exact Hk. rewrite Q. reflexivity.
Qed.

(** ** A lost source *)
Definition placed (a : R) (_ : nat) : KSource := mkKS a 0 (/ 2) 0 (fun _ => 5) (fun _ => 1) (fun _ => 0) (fun _ => 0).
Definition noiseless : Patch := with_data (toy 7 false) mock.
Lemma lost a : 100 <= a -> out_of_reach noiseless 0 (placed a) 0.
Proof.
  intros Ha e k p ((_ & He) & Hk & Hi) Hp psf g dx dy. change (e < 2)%nat in He. change (k < match e with 0%nat => 1%nat | _ => 2%nat end)%nat in Hk.
  assert (T : s_T g = m_mul (m_mul (m_read toy_id (4 * (1 * e + 0))) (m_rot 0)) (m_scale (/ 2))) by reflexivity.
  assert (C : s_covar g = 1) by reflexivity. change psf with star in *.
  assert (M : m_read toy_id (4 * (1 * e + 0)) = M22 1 0 0 1) by (destruct e as [|[|e]]; [reflexivity|reflexivity|lia]).
  assert (X : s_xcen g = v11 (m_read toy_id (4 * (1 * e + 0))) * (a - 0) + v12 (m_read toy_id (4 * (1 * e + 0))) * (0 - 0) + 0) by reflexivity.
  assert (Y : s_ycen g = v21 (m_read toy_id (4 * (1 * e + 0))) * (a - 0) + v22 (m_read toy_id (4 * (1 * e + 0))) * (0 - 0) + 0) by reflexivity.
  rewrite M in T, X, Y. cbn [v11 v12 v21 v22] in X, Y.
  assert (S1 : sxx g star = 5) by (unfold sxx; rewrite T, C; unfold m_mul, m_rot, m_scale; cbn [v11 v12 v21 v22 star p_Cxx p_Cyy p_Cxy]; rewrite cos_0, sin_0; field).
  assert (S2 : syy g star = 5 / 4) by (unfold syy; rewrite T, C; unfold m_mul, m_rot, m_scale; cbn [v11 v12 v21 v22 star p_Cxx p_Cyy p_Cxy]; rewrite cos_0, sin_0; field).
  assert (S3 : sxy g star = 0) by (unfold sxy; rewrite T, C; unfold m_mul, m_rot, m_scale; cbn [v11 v12 v21 v22 star p_Cxx p_Cyy p_Cxy]; rewrite cos_0, sin_0; field).
  unfold sdet. rewrite S1, S2, S3. change (p_xcen star) with 0 in dx. change (p_ycen star) with 0 in dy.
  assert (DX : dx <= -99).
  { unfold dx. rewrite X. destruct e as [|[|e]]; [| |lia]; destruct k as [|[|k]]; try lia.
    - change (P_xpix noiseless (exposure_start noiseless 0 + 0)) with 1. lra.
    - change (P_xpix noiseless (exposure_start noiseless 1 + 0)) with 0. lra.
    - exfalso. apply Hi. reflexivity. }
  clearbody dx dy. replace ((5 / 4 * dx ^ 2 - 2 * 0 * dx * dy + 5 * dy ^ 2) / (5 * (5 / 4) - 0 ^ 2)) with (/ 5 * dx ^ 2 + 4 / 5 * dy ^ 2) by field.
  pose proof (pow2_ge_0 dy). assert (99 * 99 <= dx ^ 2) by nra. lra.
Qed.
(** C84: in the place of a source chi-square is not convex, and a gradient that is
    zero in every entry does not mean the best fit: the true scene of noiseless
    data against the same source out of reach. *)
Theorem C84_place_refuted : exists P b (src : R -> nat -> KSource),
  (forall a a' s, k_dec (src a s) = k_dec (src a' s) /\ k_q (src a s) = k_q (src a' s) /\ k_pa (src a s) = k_pa (src a' s) /\ k_fluxes (src a s) = k_fluxes (src a' s) /\
     mixture_amplitudes (src a s) = mixture_amplitudes (src a' s) /\ k_ra (src a s) = a) /\ (n_sources P <= MAXSOURCES)%nat /\
  (forall s j, (s < n_sources P)%nat -> (j < 7)%nat -> nth (s * 7 + j) (snd (EvaluateProposal P b (src 101))) 0 = 0) /\
  chi2 P b (src 1) < chi2 P b (src 101) /\ (chi2 P b (src 1) + chi2 P b (src 201)) / 2 < chi2 P b (src 101).
Proof.
  exists noiseless, 0%nat, placed. assert (Hm : (n_sources noiseless <= MAXSOURCES)%nat) by (change (1 <= 30)%nat; lia).
  assert (Z : forall a, 100 <= a -> chi2 noiseless 0 (placed a) = 0).
  { intros a Ha. destruct (C84_out_of_reach noiseless 0 (placed a) 0 Hm ltac:(change (0 < 1)%nat; lia) (lost a Ha)) as (_ & F).
    destruct (F (fun _ => 0)) as (F1 & _); [intros s' H1 H2; change (s' < 1)%nat in H1; lia|]. rewrite <- F1. apply C84_dark; [exact Hm|]. reflexivity. }
  assert (B : chi2 noiseless 0 (placed 1) < 0).
  { change (placed 1) with scene. destruct best_case as (S0 & Le). fold noiseless in S0, Le.
    assert (D : chi2 noiseless 0 (relit (fun _ => 0) scene) = 0) by (apply C84_dark; [exact Hm|reflexivity]).
    destruct (Rle_lt_or_eq_dec _ _ (Le (fun _ => 0))) as [Lt|Eq]; [rewrite D in Lt; exact Lt|]. exfalso.
    assert (HL : live noiseless 0 0 0) by (split; [change (0 <= 0 < 2)%nat; lia|split; [change (0 < 1)%nat; lia|change (1 / 2 <> 0); lra]]).
    pose proof (proj1 (C84_ties noiseless 0 scene Hm S0 (fun _ => 0)) (eq_sym Eq) 0%nat 0%nat HL) as E.
    rewrite !residual_nth in E by (change (0 < 1)%nat; lia).
    destruct lit as (c & Hc & L). pose proof (L 5) as L5. pose proof (L 0) as L0. unfold image in L5, L0. rewrite residual_nth in L5, L0 by (change (0 < 1)%nat; lia).
    change (relit (fun _ => 0) scene) with (galaxy (/ 2) 0 0) in E. unfold scene in E. fold blank in L5, L0. unfold residual_at in *.
    change (model_at blank 0 (galaxy (/ 2) 0 5) 0 (exposure_start blank 0 + 0)) with (model_at noiseless 0 (galaxy (/ 2) 0 5) 0 (exposure_start noiseless 0 + 0)) in L5.
    change (model_at blank 0 (galaxy (/ 2) 0 0) 0 (exposure_start blank 0 + 0)) with (model_at noiseless 0 (galaxy (/ 2) 0 0) 0 (exposure_start noiseless 0 + 0)) in L0.
    change (P_data blank (exposure_start blank 0 + 0)) with 0 in L5, L0. lra. }
  split; [intros; repeat split|]. split; [exact Hm|]. split.
  - intros s j Hs Hj. change (s < 1)%nat in Hs. replace s with 0%nat by lia. apply (C84_out_of_reach noiseless 0 (placed 101) 0 Hm); [change (0 < 1)%nat; lia|apply lost; lra|exact Hj].
  - rewrite (Z 101), (Z 201) by lra. lra.
Qed.

Print Assumptions C84_out_of_reach.
Print Assumptions C84_place_refuted.
