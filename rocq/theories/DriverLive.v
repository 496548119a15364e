(** C64: when the nested sampler gives an answer (run_dynesty). *)
From Verif Require Import Np NpFacts PosteriorModel DriverModel DriverProps DriverCase.
From Coq Require Import Reals Lra.
Open Scope R_scope.

(** C64: a sampler that answers wherever it can evaluate gives an answer for every box on
    which the posterior has a value; bounds that do not match are refused whatever the sampler. *)
Theorem C64_dynesty_runs : forall dyn o,
  (forall lo b up, (forall f pt n, (forall u, List.length u = n -> f (pt u) <> None) -> dyn f pt n <> None) -> box_args lo b up ->
     (forall row, List.length row = List.length lo -> lnprob o row <> None) -> exists r, run_dynesty dyn o (Arr lo) b = Some r) /\
  (forall lo up, List.length up <> List.length lo -> run_dynesty dyn o (Arr lo) (Arr up) = None).
Proof.
  intros dyn o. split.
  - intros lo b up Hd (Hb & L & _) Ho. unfold run_dynesty. assert (E : spread (List.length lo) b = Some up).
    { destruct b; cbn [spread]; [now rewrite Hb|]. subst up. rewrite L, Nat.eqb_refl. reflexivity. }
    rewrite E. destruct (dyn _ _ _) as [[samples logl]|] eqn:Ed; [eauto|]. exfalso. revert Ed. apply Hd. intros u Hu. apply Ho.
    destruct lo as [|a lo]; [reflexivity|]. apply (proj1 (prior_transform_nth (a :: lo) up u 0 L Hu ltac:(cbn; lia))).
  - intros lo up L. unfold run_dynesty. cbn [spread]. destruct (Nat.eqb_spec (List.length up) (List.length lo)); [contradiction|reflexivity].
Qed.
(** The sampler and the posterior of DriverCase over the box from 1 to 3. *)
Example C64_dynesty_runs_case : (exists r, run_dynesty corner_sampler box_posterior (Arr [1]) (Num 3) = Some r) /\ run_dynesty corner_sampler box_posterior (Arr [1]) (Arr [3; 3]) = None.
Proof.
  split; [|apply (proj2 (C64_dynesty_runs corner_sampler box_posterior)); discriminate].
  apply (proj1 (C64_dynesty_runs corner_sampler box_posterior) [1] (Num 3) [3]).
  - intros f pt n Hf. unfold corner_sampler. specialize (Hf (repeat 0 n) (repeat_length _ _)). destruct (f (pt (repeat 0 n))); [discriminate|contradiction].
  - split; [reflexivity|split; [reflexivity|]]. intros [|i] Hi; cbn in *; [lra|lia].
  - intros [|x [|]] H; try discriminate.
Qed.
Print Assumptions C64_dynesty_runs.
