(** C03: bounds and covariances handed in are those looked up for the next patch. *)
From Coq Require Import Lia.
From Verif Require Import Np NpFacts SuperSceneModel SuperSceneSpec SuperSceneFacts SuperSceneHist SuperSceneFrame SuperSceneExamples SuperSceneProps.

Lemma looked_up {A} (l : list A) : forall inds vals, List.length vals = List.length inds -> (forall k j x, nth_error inds k = Some j -> nth_error vals k = Some x -> nth_error l j = Some x) -> fancy_get l inds = Some vals.
Proof.
  unfold fancy_get. induction inds as [|i inds IH]; intros [|v vals] L H; try discriminate L; [reflexivity|]. cbn [mapM].
  rewrite (H 0 i v eq_refl eq_refl), (IH vals); [reflexivity|now injection L|]. intros k j x Hj Hx. exact (H (S k) j x Hj Hx).
Qed.
Lemma looked_up_same {A} (l l' : list A) inds : (forall j, In j inds -> nth_error l' j = nth_error l j) -> fancy_get l' inds = fancy_get l inds.
Proof. unfold fancy_get. induction inds as [|i inds IH]; intros H; [reflexivity|]. cbn [mapM]. rewrite (H i (or_introl eq_refl)), IH; [reflexivity|]. intros j Hj. apply H. now right. Qed.

(** A patch is checked in with new bounds and covariances: looked up for its sources, in the order of the patch, these are
    what was handed in, and any other selection of sources sees what it saw before *)
Theorem C03_looked_up : forall c s act fixed a s' ai nb bc, checkin_region c s act fixed a = Some s' ->
  ids act = map Z.of_nat ai -> NoDup ai -> (forall j, In j ai -> j < List.length (sourcecat s)) ->
  List.length (bounds_catalog s) = List.length (sourcecat s) -> List.length (covariance_matrices s) = List.length (sourcecat s) ->
  new_bounds a = Some nb -> block_covs a = Some bc -> List.length nb = List.length ai -> List.length bc = List.length ai ->
  bounds_and_covs s' ai = Some (nb, bc) /\ forall others, (forall j, In j others -> ~ In j ai) -> bounds_and_covs s' others = bounds_and_covs s others.
Proof.
  intros c s act fixed a s' ai nb bc H Hi Hn Hl Lb Lc Eb Ec Nb Nc. destruct (C03_checkin_frame c s act fixed a s' ai H Hi Hn Hl Lb Lc) as (_ & Ho & _ & _ & _ & Fb & Fc). split.
  - unfold bounds_and_covs. rewrite (looked_up _ ai nb Nb), (looked_up _ ai bc Nc); [reflexivity| |].
    + intros k j x Hj Hx. exact (Fc bc k j x Ec Nc Hj Hx).
    + intros k j x Hj Hx. exact (Fb nb k j x Eb Nb Hj Hx).
  - intros others Hd. unfold bounds_and_covs. rewrite (looked_up_same (bounds_catalog s)), (looked_up_same (covariance_matrices s)); [reflexivity| |]; intros j Hj; apply (Ho j (Hd j Hj)).
Qed.
Print Assumptions C03_looked_up.
(** The two sources of the second patch come back with bounds and blocks of their own; source 0 keeps its own. *)
Example C03_looked_up_case : exists s' b1 b2 m1 m2, b1 <> b2 /\ m1 <> m2 /\
  checkin_region ex_config ex_s3 (p_active ex_p2) (Some (p_fixed ex_p2)) (mkArgs 64 (Some [m1; m2]) (Some [b1; b2]) None) = Some s' /\
  bounds_and_covs s' [2; 1] = Some ([b1; b2], [m1; m2]) /\ bounds_and_covs s' [0] = bounds_and_covs ex_s3 [0].
Proof.
  set (b1 := [("F200W"%string, (0, 1)%Q)]). set (m1 := [[1%Q]]).
  destruct (checkin_region ex_config ex_s3 (p_active ex_p2) (Some (p_fixed ex_p2)) (mkArgs 64 (Some [m1; []]) (Some [b1; []]) None)) as [s'|] eqn:E; [|vm_compute in E; discriminate E].
  exists s', b1, [], m1, []. split; [discriminate|]. split; [discriminate|]. split; [exact E|].
  destruct (C03_looked_up _ _ _ _ _ _ [2; 1] [b1; []] [m1; []] E) as [K1 K2]; try reflexivity; [repeat constructor; cbn; intuition lia|intros j [<-|[<-|[]]]; vm_compute; lia|].
  split; [exact K1|]. apply K2. intros j [<-|[]]; cbn; intuition lia.
Qed.
