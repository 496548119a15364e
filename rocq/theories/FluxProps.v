(** C84: with places and shapes held, chi-square is a parabola in the fluxes, the
    one that its value, its flux gradient and the light give
    (src/compute_gaussians_kernel.cc 45-114, 175-208 and 227-315,
    src/common_kernel.cc 57-143 and 175-240). *)
From Coq Require Import Reals Lra Lia Psatz List ZArith.
From Verif Require Import Np NpFacts KernelModel KernelFacts KernelSum KernelMask TwinProps.
Import ListNotations.
Open Scope R_scope.

(** The sources with other fluxes, all else the same. *)
Definition relit (f : nat -> R) (src : nat -> KSource) (sid : nat) : KSource :=
  mkKS (k_ra (src sid)) (k_dec (src sid)) (k_q (src sid)) (k_pa (src sid)) (fun _ => f sid)
       (mixture_amplitudes (src sid)) (damplitude_drh (src sid)) (damplitude_dnsersic (src sid)).
(** How far two scenes differ in the residuals they leave, in units of the errors. *)
Definition apart (P : Patch) (b : nat) (src src' : nat -> KSource) : R :=
  sumR (fun e => sumR (fun k => (P_ierr P (exposure_start P e + k) * (nth k (residual_image P b e src') 0 - nth k (residual_image P b e src) 0)) ^ 2)
                      (seq 0 (exposure_N P e))) (seq (band_start P b) (band_N P b)).
(** Chi-square, and its derivative in the flux of source [s]. *)
Definition chi2 (P : Patch) (b : nat) (src : nat -> KSource) : R := fst (EvaluateProposal P b src).
Definition slope (P : Patch) (b : nat) (src : nat -> KSource) (s : nat) : R := nth (s * 7) (snd (EvaluateProposal P b src)) 0.

(** ** The light per unit of flux *)
Definition unit_term (x y : R) (g : ImageGaussian) : R :=
  let dx := x - xcen g in let dy := y - ycen g in let vx := fxx g * dx + fxy g * dy in let vy := fyy g * dy + fxy g * dx in let a := dx * vx + dy * vy in
  if Rlt_dec MAX_EXP_ARG a then 0 else dA_dFlux g * exp (- (1/2) * a) * (1 + (vx * vx + vy * vy - fxx g - fyy g) / 24).
Definition unit_light (P : Patch) (b : nat) (src : nat -> KSource) (e i sid : nat) : R :=
  sumR (fun p => unit_term (P_xpix P i) (P_ypix P i) (gauss P b src e sid p)) (seq 0 (n_psf_per_source P b)).
Lemma term_light P b src e sid p x y : residual_term x y (gauss P b src e sid p) = k_fluxes (src sid) b * unit_term x y (gauss P b src e sid p).
Proof.
  unfold gauss. cbv zeta. set (psf := psfgauss P (psfgauss_start P e + p)).
  assert (F : s_flux (pix_gaussian P b e sid (src sid) psf) = k_fluxes (src sid) b) by (unfold pix_gaussian; destruct (source_setup P e sid (src sid)) as [[[[[? ?] ?] ?] ?] ?]; reflexivity).
  set (pg := pix_gaussian P b e sid (src sid) psf) in *. clearbody pg. rewrite <- F.
  assert (A : amp (GetGaussianAndJacobian pg psf) = s_flux pg * dA_dFlux (GetGaussianAndJacobian pg psf)) by (unfold GetGaussianAndJacobian; cbv zeta; cbn [amp dA_dFlux]; ring).
  unfold residual_term, unit_term. cbv zeta. rewrite A. set (g := GetGaussianAndJacobian pg psf). clearbody g. destruct (Rlt_dec _ _); ring.
Qed.
Lemma unit_relit P b f src e sid p x y : unit_term x y (gauss P b (relit f src) e sid p) = unit_term x y (gauss P b src e sid p).
Proof.
  unfold gauss. cbv zeta. set (psf := psfgauss P (psfgauss_start P e + p)). unfold pix_gaussian. change (source_setup P e sid (relit f src sid)) with (source_setup P e sid (src sid)).
  destruct (source_setup P e sid (src sid)) as [[[[[x0 y0] CW] T] dq] dpa]. reflexivity.
Qed.
Lemma light_relit P b f src e i sid : unit_light P b (relit f src) e i sid = unit_light P b src e i sid.
Proof. unfold unit_light. apply sumR_ext. intros p _. apply unit_relit. Qed.
Lemma residual_light P b src e i : residual_at P b src e i = P_data P i - sumR (fun s => k_fluxes (src s) b * unit_light P b src e i s) (seq 0 (n_sources P)).
Proof.
  unfold residual_at, model_at. f_equal. apply sumR_ext. intros s _. unfold unit_light. rewrite <- sumR_scal. apply sumR_ext. intros p _. apply term_light.
Qed.
Lemma grad_light P b src e i s : grad_at P b src e i s 0 = - 2 * (residual_at P b src e i * P_ierr P i ^ 2) * unit_light P b src e i s.
Proof.
  unfold grad_at, unit_light. rewrite <- sumR_scal. apply sumR_ext. intros p _. set (g := gauss P b src e s p). clearbody g.
  unfold derivative_row, pixel_derivs, unit_term. cbv zeta. destruct (Rlt_dec _ _); cbn [nth]; field.
Qed.
Lemma residual_moved P b f src e i : residual_at P b (relit f src) e i = residual_at P b src e i - sumR (fun s => (f s - k_fluxes (src s) b) * unit_light P b src e i s) (seq 0 (n_sources P)).
Proof.
  rewrite !residual_light.
  rewrite (sumR_ext _ (fun s => f s * unit_light P b src e i s)) by (intros s _; rewrite light_relit; reflexivity).
  rewrite (sumR_ext (fun s => f s * unit_light P b src e i s) (fun s => k_fluxes (src s) b * unit_light P b src e i s + (f s - k_fluxes (src s) b) * unit_light P b src e i s)) by (intros; ring).
  rewrite sumR_plus. ring.
Qed.
Lemma sumR_swap {A B} (f : A -> B -> R) l m : sumR (fun a => sumR (f a) m) l = sumR (fun b => sumR (fun a => f a b) l) m.
Proof.
  induction l as [|a l IH]; [symmetry; apply sumR_zero; reflexivity|]. rewrite sumR_cons, IH. rewrite <- sumR_plus. apply sumR_ext. intros b _. rewrite sumR_cons. reflexivity.
Qed.
Lemma apart_at P b src src' : apart P b src src' = sumR (fun e => sumR (fun i => (P_ierr P i * (residual_at P b src' e i - residual_at P b src e i)) ^ 2) (pixels P e)) (exposures P b).
Proof.
  unfold apart. assert (X : exposures P b = seq (band_start P b) (band_N P b)) by apply exposures_seq. rewrite X. apply sumR_ext. intros e _.
  unfold pixels. rewrite sumR_map. apply sumR_ext. intros k Hk. apply in_seq in Hk. rewrite !residual_nth by lia. reflexivity.
Qed.

Section Fluxes.
Variables (P : Patch) (b : nat) (src : nat -> KSource).
Hypothesis Hm : (n_sources P <= MAXSOURCES)%nat.

Lemma slope_at s0 s : (s < n_sources P)%nat -> slope P b s0 s = sumR (fun e => sumR (fun i => grad_at P b s0 e i s 0) (pixels P e)) (exposures P b).
Proof. intros Hs. unfold slope. destruct (evaluate_closed P b s0 Hm) as (_ & _ & G). rewrite <- (G s 0%nat Hs ltac:(lia)). f_equal. lia. Qed.

(** C84: chi-square for other fluxes is exactly what its value, its flux gradient
    and the difference of the residuals say. *)
Theorem C84_parabola : forall f,
  chi2 P b (relit f src) = chi2 P b src + sumR (fun s => (f s - k_fluxes (src s) b) * slope P b src s) (seq 0 (n_sources P)) + apart P b src (relit f src).
Proof.
  intros f. unfold chi2. destruct (evaluate_closed P b src Hm) as (_ & E & _). destruct (evaluate_closed P b (relit f src) Hm) as (_ & E' & _). rewrite E, E', apart_at.
  rewrite (sumR_ext (fun s => (f s - k_fluxes (src s) b) * slope P b src s) (fun s => sumR (fun e => sumR (fun i => (f s - k_fluxes (src s) b) * grad_at P b src e i s 0) (pixels P e)) (exposures P b))).
  2:{ intros s Hs. apply in_seq in Hs. rewrite slope_at by lia. rewrite <- sumR_scal. apply sumR_ext. intros e _. rewrite <- sumR_scal. reflexivity. }
  rewrite sumR_swap. rewrite <- !sumR_plus. apply sumR_ext. intros e _. rewrite sumR_swap. rewrite <- !sumR_plus. apply sumR_ext. intros i _.
  rewrite (sumR_ext (fun s => (f s - k_fluxes (src s) b) * grad_at P b src e i s 0) (fun s => - 2 * (residual_at P b src e i * P_ierr P i ^ 2) * ((f s - k_fluxes (src s) b) * unit_light P b src e i s))) by (intros s _; rewrite grad_light; ring).
  rewrite sumR_scal. unfold chi2_at. rewrite residual_moved. set (S := sumR _ _). clearbody S. ring.
Qed.

Lemma sum_sq_nonneg {A} (f : A -> R) l : (forall x, In x l -> 0 <= f x) -> 0 <= sumR f l.
Proof. induction l as [|x l IH]; intros H; [unfold sumR; simpl; lra|]. rewrite sumR_cons. assert (0 <= f x) by (apply H; left; reflexivity). assert (0 <= sumR f l) by (apply IH; intros; apply H; right; auto). lra. Qed.
Lemma apart_nonneg s1 s2 : 0 <= apart P b s1 s2.
Proof. unfold apart. apply sum_sq_nonneg. intros. apply sum_sq_nonneg. intros. apply pow2_ge_0. Qed.
Lemma zero_each {A} (f : A -> R) l : (forall x, In x l -> 0 <= f x) -> sumR f l = 0 -> forall x, In x l -> f x = 0.
Proof. intros H E x Hx. symmetry. apply (sumR_eq_each (fun _ => 0) f l); auto. rewrite E. apply sumR_zero. reflexivity. Qed.
Lemma apart_zero s1 s2 : apart P b s1 s2 = 0 <-> forall e k, live P b e k -> nth k (residual_image P b e s2) 0 = nth k (residual_image P b e s1) 0.
Proof.
  unfold apart. split.
  - intros Z e k ((B1 & B2) & Hk & Hi).
    pose proof (zero_each _ _ (fun e _ => sum_sq_nonneg _ _ (fun k _ => pow2_ge_0 _)) Z e ltac:(apply in_seq; lia)) as Z1. cbv beta in Z1.
    pose proof (zero_each _ _ (fun k _ => pow2_ge_0 _) Z1 k ltac:(apply in_seq; lia)) as Z2. cbv beta in Z2.
    replace ((P_ierr P (exposure_start P e + k) * (nth k (residual_image P b e s2) 0 - nth k (residual_image P b e s1) 0)) ^ 2) with (Rsqr (P_ierr P (exposure_start P e + k) * (nth k (residual_image P b e s2) 0 - nth k (residual_image P b e s1) 0))) in Z2 by (unfold Rsqr; ring).
    apply Rsqr_0_uniq in Z2. apply Rmult_integral in Z2. destruct Z2 as [Z2|Z2]; [contradiction|lra].
  - intros H. apply sumR_zero. intros e He. apply in_seq in He. apply sumR_zero. intros k Hk. apply in_seq in Hk.
    destruct (Req_dec (P_ierr P (exposure_start P e + k)) 0) as [N|N]; [rewrite N; ring|]. rewrite H; [ring|]. repeat split; auto; lia.
Qed.
Lemma apart_scaled t f :
  apart P b src (relit (fun s => k_fluxes (src s) b + t * (f s - k_fluxes (src s) b)) src) = t ^ 2 * apart P b src (relit f src).
Proof.
  rewrite !apart_at. rewrite <- sumR_scal. apply sumR_ext. intros e _. rewrite <- sumR_scal. apply sumR_ext. intros i _. rewrite !residual_moved.
  rewrite (sumR_ext (fun s => (k_fluxes (src s) b + t * (f s - k_fluxes (src s) b) - k_fluxes (src s) b) * unit_light P b src e i s) (fun s => t * ((f s - k_fluxes (src s) b) * unit_light P b src e i s))) by (intros; ring).
  rewrite sumR_scal. set (S := sumR _ _). clearbody S. ring.
Qed.
(** Along the line from the given fluxes to others. *)
Lemma along t f : chi2 P b (relit (fun s => k_fluxes (src s) b + t * (f s - k_fluxes (src s) b)) src) =
  chi2 P b src + t * sumR (fun s => (f s - k_fluxes (src s) b) * slope P b src s) (seq 0 (n_sources P)) + t ^ 2 * apart P b src (relit f src).
Proof.
  rewrite C84_parabola. rewrite apart_scaled. rewrite <- sumR_scal. f_equal. f_equal. apply sumR_ext. intros. ring.
Qed.

(** C84: fluxes are the best exactly where the flux gradient vanishes, and others
    that fit as well make the same image. *)
Theorem C84_best : (forall f, chi2 P b src <= chi2 P b (relit f src)) <-> (forall s, (s < n_sources P)%nat -> slope P b src s = 0).
Proof.
  split.
  - intros H s Hs. set (f := fun s' => k_fluxes (src s') b + (if Nat.eqb s' s then 1 else 0)).
    assert (S : sumR (fun s' => (f s' - k_fluxes (src s') b) * slope P b src s') (seq 0 (n_sources P)) = slope P b src s).
    { rewrite (sumR_ext _ (fun s' => if Nat.eqb s' s then slope P b src s else 0)).
      2:{ intros s' _. unfold f. destruct (Nat.eqb_spec s' s) as [->|_]; ring. }
      clear - Hs. assert (G : forall n m, sumR (fun s' => if Nat.eqb s' s then slope P b src s else 0) (seq m n) = if andb (Nat.leb m s) (Nat.ltb s (m + n)) then slope P b src s else 0).
      { induction n as [|n IH]; intros m; [unfold sumR; simpl; destruct (Nat.leb_spec m s), (Nat.ltb_spec s (m + 0)); simpl; auto; lia|].
        cbn [seq]. rewrite sumR_cons, IH. destruct (Nat.eqb_spec m s), (Nat.leb_spec (S m) s), (Nat.ltb_spec s (S m + n)), (Nat.leb_spec m s), (Nat.ltb_spec s (m + S n)); cbn [andb]; try lia; ring. }
      rewrite G. destruct (Nat.leb_spec 0 s), (Nat.ltb_spec s (0 + n_sources P)); cbn [andb]; auto; lia. }
    assert (Q : forall t, 0 <= t * slope P b src s + t ^ 2 * apart P b src (relit f src)).
    { intros t. specialize (H (fun s' => k_fluxes (src s') b + t * (f s' - k_fluxes (src s') b))). rewrite along, S in H. lra. }
    pose proof (apart_nonneg src (relit f src)) as HA. set (A := apart P b src (relit f src)) in *. set (g := slope P b src s) in *. clearbody A g. clear - Q HA.
    specialize (Q (- (g / (1 + A)))). assert (0 < 1 + A) by lra.
    assert (E : - (g / (1 + A)) * g + (- (g / (1 + A))) ^ 2 * A = - (g * g) / ((1 + A) * (1 + A))) by (field; lra).
    rewrite E in Q. assert (0 < (1 + A) * (1 + A)) by nra. assert (0 <= - (g * g)). { apply (Rmult_le_reg_r (/ ((1 + A) * (1 + A)))); [apply Rinv_0_lt_compat; assumption|]. unfold Rdiv in Q. lra. }
    nra.
  - intros H f. rewrite C84_parabola. rewrite (sumR_zero (fun s => (f s - k_fluxes (src s) b) * slope P b src s)) by (intros s Hs; apply in_seq in Hs; rewrite H by lia; ring).
    pose proof (apart_nonneg src (relit f src)). lra.
Qed.
Theorem C84_ties : (forall s, (s < n_sources P)%nat -> slope P b src s = 0) -> forall f, chi2 P b (relit f src) = chi2 P b src <->
  forall e k, live P b e k -> nth k (residual_image P b e (relit f src)) 0 = nth k (residual_image P b e src) 0.
Proof.
  intros H f. rewrite <- apart_zero. rewrite C84_parabola. rewrite (sumR_zero (fun s => (f s - k_fluxes (src s) b) * slope P b src s)) by (intros s Hs; apply in_seq in Hs; rewrite H by lia; ring).
  split; lra.
Qed.
(** C84: between two sets of fluxes chi-square lies below the chord, by the
    difference of the images. *)
Theorem C84_chord : forall f t,
  chi2 P b (relit (fun s => k_fluxes (src s) b + t * (f s - k_fluxes (src s) b)) src) =
  (1 - t) * chi2 P b src + t * chi2 P b (relit f src) - t * (1 - t) * apart P b src (relit f src).
Proof. intros f t. rewrite along, (C84_parabola f). ring. Qed.
(** C84: the flux gradient changes along a straight line. *)
Theorem C84_gradient_line : forall f t s, (s < n_sources P)%nat ->
  slope P b (relit (fun s => k_fluxes (src s) b + t * (f s - k_fluxes (src s) b)) src) s = (1 - t) * slope P b src s + t * slope P b (relit f src) s.
Proof.
  intros f t s Hs. rewrite !slope_at by exact Hs. rewrite <- !sumR_scal, <- sumR_plus. apply sumR_ext. intros e _. rewrite <- !sumR_scal, <- sumR_plus. apply sumR_ext. intros i _.
  rewrite !grad_light, !light_relit, !residual_moved.
  rewrite (sumR_ext (fun s => (k_fluxes (src s) b + t * (f s - k_fluxes (src s) b) - k_fluxes (src s) b) * unit_light P b src e i s) (fun s => t * ((f s - k_fluxes (src s) b) * unit_light P b src e i s))) by (intros; ring).
  rewrite sumR_scal. set (S := sumR _ _). clearbody S. ring.
Qed.
(** C84: three numbers give the best flux in any direction: with value and slope
    here and the value one step on, the foot of the parabola is reached at once. *)
Theorem C84_one_step : forall f, let g := sumR (fun s => (f s - k_fluxes (src s) b) * slope P b src s) (seq 0 (n_sources P)) in
  let A := chi2 P b (relit f src) - chi2 P b src - g in 0 < A ->
  let best := relit (fun s => k_fluxes (src s) b + - g / (2 * A) * (f s - k_fluxes (src s) b)) src in
  chi2 P b best = chi2 P b src - g ^ 2 / (4 * A) /\
  forall t, chi2 P b best <= chi2 P b (relit (fun s => k_fluxes (src s) b + t * (f s - k_fluxes (src s) b)) src) /\
    (chi2 P b best = chi2 P b (relit (fun s => k_fluxes (src s) b + t * (f s - k_fluxes (src s) b)) src) -> t = - g / (2 * A)).
Proof.
  intros f g A HA best. assert (EA : apart P b src (relit f src) = A) by (unfold A; rewrite C84_parabola; fold g; ring).
  assert (L : forall t, chi2 P b (relit (fun s => k_fluxes (src s) b + t * (f s - k_fluxes (src s) b)) src) = chi2 P b src + t * g + t ^ 2 * A) by (intros t; rewrite along, EA; reflexivity).
  assert (B : chi2 P b best = chi2 P b src - g ^ 2 / (4 * A)) by (unfold best; rewrite L; field; lra).
  split; [exact B|]. intros t. rewrite B, L. clear - HA. clearbody A g.
  assert (E : chi2 P b src + t * g + t ^ 2 * A = chi2 P b src - g ^ 2 / (4 * A) + A * (t + g / (2 * A)) ^ 2) by (field; lra). rewrite E.
  set (d := t + g / (2 * A)). assert (0 <= d ^ 2) by apply pow2_ge_0. split; [nra|].
  intros K. assert (A * d ^ 2 = 0) by lra. apply Rmult_integral in H0. destruct H0 as [|D]; [lra|].
  assert (d = 0) by (apply Rsqr_0_uniq; unfold Rsqr; rewrite <- D; ring). unfold d in H0. unfold Rdiv in *. lra.
Qed.
(** C84: without light every source fits like the empty sky. *)
Theorem C84_dark : (forall s, (s < n_sources P)%nat -> k_fluxes (src s) b = 0) ->
  chi2 P b src = 0 /\ forall e k, (k < exposure_N P e)%nat -> nth k (residual_image P b e src) 0 = P_data P (exposure_start P e + k).
Proof.
  intros H. assert (Z : forall e i, residual_at P b src e i = P_data P i).
  { intros e i. rewrite residual_light. rewrite sumR_zero; [ring|]. intros s Hs. apply in_seq in Hs. rewrite H by lia. ring. }
  split.
  - unfold chi2. destruct (evaluate_closed P b src Hm) as (_ & E & _). rewrite E. apply sumR_zero. intros e _. apply sumR_zero. intros i _. unfold chi2_at. rewrite Z. ring.
  - intros e k Hk. rewrite residual_nth by exact Hk. apply Z.
Qed.
End Fluxes.

Print Assumptions C84_parabola.
Print Assumptions C84_best.
Print Assumptions C84_ties.
Print Assumptions C84_chord.
Print Assumptions C84_gradient_line.
Print Assumptions C84_one_step.
Print Assumptions C84_dark.
