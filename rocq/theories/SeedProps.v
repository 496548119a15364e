(** Property C07: seed weights of the scene server. *)
From Verif Require Import Np SuperSceneModel SeedModel SeedFacts SuperSceneExamples.
From Coq Require Import Reals Lra.
Open Scope R_scope.

(** The weights are a probability vector (every weight is even positive). *)
Theorem C07_seed_weights_probability : forall cat,
  cat <> [] -> (forall r, In r cat -> is_valid r = 0%Z \/ is_valid r = 1%Z) ->
  List.length (seed_weight cat) = List.length cat /\
  (forall w, In w (seed_weight cat) -> 0 < w <= 1) /\ fold_right Rplus 0 (seed_weight cat) = 1.
Proof. exact seed_probability. Qed.
Print Assumptions C07_seed_weights_probability.

(** Among sources with the same validity, fewer iterations means more weight. *)
Theorem C07_seed_weights_favour_undersampled : forall cat i j ri rj,
  (forall r, In r cat -> is_valid r = 0%Z \/ is_valid r = 1%Z) ->
  nth_error cat i = Some ri -> nth_error cat j = Some rj ->
  is_valid ri = is_valid rj ->
  (Z.abs (n_iter ri) < Z.abs (n_iter rj))%Z ->
  exists wi wj, nth_error (seed_weight cat) i = Some wi /\ nth_error (seed_weight cat) j = Some wj /\ wj < wi.
Proof. exact seed_compare. Qed.
Print Assumptions C07_seed_weights_favour_undersampled.

(** "A source that is not valid has weight zero" is false of the code, for every
    catalog that contains one: its weight is positive, exactly half that of an
    equally sampled valid source. *)
Theorem C07_invalid_weight_zero_refuted :
  (forall cat r j, (forall r, In r cat -> is_valid r = 0%Z \/ is_valid r = 1%Z) ->
     nth_error cat j = Some r -> is_valid r = 0%Z ->
     exists w, nth_error (seed_weight cat) j = Some w /\ 0 < w) /\
  (forall cat i j ri rj, (forall r, In r cat -> is_valid r = 0%Z \/ is_valid r = 1%Z) ->
     nth_error cat i = Some ri -> nth_error cat j = Some rj ->
     is_valid ri = 1%Z -> is_valid rj = 0%Z -> Z.abs (n_iter ri) = Z.abs (n_iter rj) ->
     exists wi wj, nth_error (seed_weight cat) i = Some wi /\ nth_error (seed_weight cat) j = Some wj /\
       0 < wj /\ wi = 2 * wj) /\
  (exists cat r j, nth_error cat j = Some r /\ is_valid r = 0%Z /\
     forall r, In r cat -> is_valid r = 0%Z \/ is_valid r = 1%Z).
Proof.
  split; [|split].
  - intros cat r j Hf Hj Hv. eexists. split; [apply exp_weight_nth; eauto|].
    apply (seed_probability cat); auto.
    + intros ->; destruct j; discriminate.
    + eapply nth_error_In. apply exp_weight_nth. eauto.
  - exact seed_ratio.
  - exists (sourcecat ex_s2). eexists. exists 0%nat. split; [reflexivity|]. split; [reflexivity|].
    intros r Hr. simpl in Hr. repeat (destruct Hr as [<-|Hr]; [simpl; auto|]). contradiction.
Qed.
Print Assumptions C07_invalid_weight_zero_refuted.

(** The alternative sigmoid weighting likewise does not exclude active sources:
    it doubles their weight. *)
Theorem C07_sigmoid_active_weight_zero_refuted : forall target cat i j ri rj,
  (forall r, In r cat -> is_active r = 0%Z \/ is_active r = 1%Z) ->
  nth_error cat i = Some ri -> nth_error cat j = Some rj ->
  is_active ri = 1%Z -> is_active rj = 0%Z -> n_iter ri = n_iter rj ->
  exists wi wj, nth_error (sigmoid_weight target cat) i = Some wi /\
    nth_error (sigmoid_weight target cat) j = Some wj /\ 0 < wj /\ wi = 2 * wj.
Proof. exact sigmoid_ratio. Qed.
Print Assumptions C07_sigmoid_active_weight_zero_refuted.

(** After the second checkout of the example history the catalog has sources 0,
    1, 2 not valid and source 3 valid, all with zero iterations; after the
    check-in source 0 has 128 iterations. *)
Example C07_hypotheses_met :
  sourcecat ex_s2 <> [] /\ (forall r, In r (sourcecat ex_s2) -> is_valid r = 0%Z \/ is_valid r = 1%Z) /\
  map is_valid (sourcecat ex_s2) = [0; 0; 0; 1]%Z /\ map is_active (sourcecat ex_s2) = [1; 1; 1; 0]%Z /\
  map n_iter (sourcecat ex_s3) = [128; 0; 0; 0]%Z.
Proof.
  split; [discriminate|]. split.
  - intros r Hr. simpl in Hr. repeat (destruct Hr as [<-|Hr]; [simpl; auto|]). contradiction.
  - vm_compute. auto.
Qed.
