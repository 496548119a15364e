(** C69: when the radii of a chain are reported at all. *)
From Coq Require Import Reals List String Bool Arith Lra Lia Permutation.
From Verif Require Import Np KernelModel KernelSum SlowModel QuantModel QuantFacts QuantProps HalfModel HalfFacts HalfProps HalfCase.
Import ListNotations.
Open Scope R_scope.

(** In the band of the canvas, with a flux of every source in it, there is an answer for every step of at least one. *)
Theorem C69_radii_made : forall radii amps dan dar argsort samples n_sample cv band sources step, (n_sample <= List.length samples)%nat -> (0 < step)%nat ->
  cv_filter cv = band -> (forall cat row, In cat samples -> In row (sources cat) -> exists v, In (band, v) (f_flux row)) ->
  exists out cv', combined_rhalf radii amps dan dar argsort samples n_sample cv band sources step = (Some out, cv').
Proof.
  intros radii amps dan dar argsort samples n_sample cv band sources step Hn Hs Hb Hf. unfold combined_rhalf. destruct step as [|step']; [lia|]. set (step := S step') in *.
  assert (Hr : forall i, In i (range (List.length samples - n_sample) (List.length samples) step) -> (i < List.length samples)%nat).
  { intros i Hi. apply In_nth_error in Hi. destruct Hi as (k & Hk).
    destruct (range_spec (List.length samples - n_sample) (List.length samples) step ltac:(lia) ltac:(lia) k) as [[E B]|[E B]]; rewrite E in Hk; [injection Hk as <-; exact B|discriminate]. }
  revert Hr. generalize (range (List.length samples - n_sample) (List.length samples) step). intros inds. clear -Hb Hf. revert cv Hb. induction inds as [|i inds IH]; intros cv Hb Hr; cbn [rhalf_loop]; [eauto|].
  destruct (nth_error samples i) as [cat|] eqn:Ec; [|apply nth_error_None in Ec; specialize (Hr i (or_introl eq_refl)); lia].
  destruct (C69_image radii amps dan dar (sources cat) cv band None (or_introl Hb)) as (scene & E & _); [apply Forall_forall; intros row Hi; exact (Hf cat row (nth_error_In _ _ Ec) Hi)|].
  destruct (forcepho_slow_model radii amps dan dar (sources cat) cv band None) as [ans cv1] eqn:Em. cbn [fst] in E. subst ans.
  assert (E1 : cv1 = set_psf cv None) by (unfold forcepho_slow_model in Em; congruence).
  destruct (IH cv1) as (out & cv' & E'); [subst cv1; exact Hb|intros j Hj; apply Hr; now right|]. rewrite E'. cbn [option_map]. eauto.
Qed.
Print Assumptions C69_radii_made.

(** Three samples of one source, every second one from the last two on *)
Example C69_radii_made_case : let samples := [[row 1 1]; [row 1 2]; [row 2 3]] in
  exists out cv', combined_rhalf [1] amps0 amps0 amps0 argsort0 samples 3 cv0 "F1" (fun c => c) 2 = (Some out, cv') /\ List.length out = 2%nat.
Proof.
  intros samples. destruct (C69_radii_made [1] amps0 amps0 amps0 argsort0 samples 3 cv0 "F1" (fun c => c) 2) as (out & cv' & E); [cbn; lia|lia|reflexivity| |].
  - intros cat rw Hc Hr. destruct Hc as [<-|[<-|[<-|[]]]]; destruct Hr as [<-|[]]; cbn; eauto.
  - exists out, cv'. split; [exact E|].
    pose proof (C69_radii [1] amps0 amps0 amps0 argsort0 samples 3 cv0 "F1" (fun c => c) 2 out cv' ltac:(cbn; lia) E 1%nat) as K1.
    pose proof (C69_radii [1] amps0 amps0 amps0 argsort0 samples 3 cv0 "F1" (fun c => c) 2 out cv' ltac:(cbn; lia) E 2%nat) as K2. cbn in K1, K2. destruct K1 as [K1 _], K2 as [K2 _]. lia.
Qed.
