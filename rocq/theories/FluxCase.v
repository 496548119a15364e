(** Cases for C84: the elongated source of C80. *)
From Coq Require Import Reals Lra Lia Psatz List ZArith.
From Verif Require Import Np NpFacts KernelModel KernelFacts KernelSum KernelMask TwinProps TwinCase FluxProps.
Import ListNotations.
Open Scope R_scope.

Definition scene : nat -> KSource := galaxy (/ 2) 0 5.
Lemma few : (n_sources (toy 7 false) <= MAXSOURCES)%nat.
Proof. change (1 <= 30)%nat. lia. Qed.
(** A unit of flux more shows. *)
Lemma shows : 0 < apart (toy 7 false) 0 scene (relit (fun _ => 6) scene).
Proof.
  pose proof (apart_nonneg (toy 7 false) 0 scene (relit (fun _ => 6) scene)) as N. destruct (Rle_lt_or_eq_dec _ _ N) as [Lt|Eq]; [exact Lt|]. exfalso.
  assert (HL : live (toy 7 false) 0 0 0) by (split; [change (0 <= 0 < 2)%nat; lia|split; [change (0 < 1)%nat; lia|change (1 / 2 <> 0); lra]]).
  pose proof (proj1 (apart_zero (toy 7 false) 0 few scene (relit (fun _ => 6) scene)) (eq_sym Eq) 0%nat 0%nat HL) as E.
  rewrite !residual_nth in E by (change (0 < 1)%nat; lia).
  destruct lit as (c & Hc & L). pose proof (L 5) as L5. pose proof (L 6) as L6. unfold image in L5, L6. rewrite residual_nth in L5, L6 by (change (0 < 1)%nat; lia).
  change (relit (fun _ => 6) scene) with (galaxy (/ 2) 0 6) in E. unfold scene in E. fold blank in L5, L6. unfold residual_at in *.
  change (model_at blank 0 (galaxy (/ 2) 0 5) 0 (exposure_start blank 0 + 0)) with (model_at (toy 7 false) 0 (galaxy (/ 2) 0 5) 0 (exposure_start (toy 7 false) 0 + 0)) in L5.
  change (model_at blank 0 (galaxy (/ 2) 0 6) 0 (exposure_start blank 0 + 0)) with (model_at (toy 7 false) 0 (galaxy (/ 2) 0 6) 0 (exposure_start (toy 7 false) 0 + 0)) in L6.
  change (P_data blank (exposure_start blank 0 + 0)) with 0 in L5, L6. lra.
Qed.
(** So the step to the best flux is taken, and it is the only best one. *)
Lemma one_step_case : exists t best, best = relit (fun _ => 5 + t * (6 - 5)) scene /\ forall t', t' <> t ->
  chi2 (toy 7 false) 0 best < chi2 (toy 7 false) 0 (relit (fun _ => 5 + t' * (6 - 5)) scene).
Proof.
  pose proof (C84_one_step (toy 7 false) 0 scene few (fun _ => 6)) as H. cbv zeta in H. rewrite (C84_parabola (toy 7 false) 0 scene few (fun _ => 6)) in H.
  set (g := sumR (fun s => (6 - k_fluxes (scene s) 0) * slope (toy 7 false) 0 scene s) (seq 0 (n_sources (toy 7 false)))) in *.
  set (a := apart (toy 7 false) 0 scene (relit (fun _ => 6) scene)) in *.
  assert (HA : 0 < chi2 (toy 7 false) 0 scene + g + a - chi2 (toy 7 false) 0 scene - g) by (pose proof shows; fold a in H0; lra).
  specialize (H HA). destruct H as (_ & H). eexists. eexists. split; [reflexivity|]. intros t' Ne. destruct (H t') as (Le & Un).
  destruct (Rle_lt_or_eq_dec _ _ Le) as [Lt|Eq]; [exact Lt|]. exfalso. apply Ne. apply Un. exact Eq.
Qed.
(** On its own image the gradient vanishes, so no flux does better. *)
Lemma best_case : let P := with_data (toy 7 false) mock in
  (forall s, (s < n_sources P)%nat -> slope P 0 scene s = 0) /\ forall f, chi2 P 0 scene <= chi2 P 0 (relit f scene).
Proof.
  intros P. assert (S : forall s, (s < n_sources P)%nat -> slope P 0 scene s = 0).
  { intros s Hs. change (s < 1)%nat in Hs. destruct mock_case as (G & _). unfold slope, scene. change (with_data (toy 7 false) mock) with P in G. rewrite G. replace s with 0%nat by lia. reflexivity. }
  split; [exact S|]. apply (C84_best P 0 scene); [change (1 <= 30)%nat; lia|exact S].
Qed.
(** Half way chi-square is less than the mean. *)
Lemma chord_case : 2 * chi2 (toy 7 false) 0 (relit (fun _ => 5 + / 2 * (6 - 5)) scene) < chi2 (toy 7 false) 0 scene + chi2 (toy 7 false) 0 (relit (fun _ => 6) scene).
Proof. pose proof (C84_chord (toy 7 false) 0 scene few (fun _ => 6) (/ 2)) as H. pose proof shows as Sh. change (chi2 (toy 7 false) 0 (relit (fun _ : nat => 5 + / 2 * (6 - 5)) scene) = (1 - / 2) * chi2 (toy 7 false) 0 scene + / 2 * chi2 (toy 7 false) 0 (relit (fun _ : nat => 6) scene) - / 2 * (1 - / 2) * apart (toy 7 false) 0 scene (relit (fun _ : nat => 6) scene)) in H. lra. Qed.
Lemma dark_case : chi2 (toy 7 false) 0 (relit (fun _ => 0) scene) = 0.
Proof. apply (C84_dark (toy 7 false) 0 (relit (fun _ => 0) scene) few). reflexivity. Qed.
