(** C02: when the scene is sparse. *)
From Coq Require Import QArith Lia.
From Verif Require Import Np NpFacts SuperSceneModel SuperSceneSpec SuperSceneFacts SuperSceneHist SuperSceneFrame SuperSceneExamples SuperSceneProps.

(** After every history of a server with a source, the active sources of the outstanding patches are different sources of
    the catalog, and the scene is sparse exactly when they are less than the given fraction of it: always when nothing is
    checked out and the fraction is positive, always for fractions above one, never for fractions that are not positive. *)
Theorem C02_sparse : forall e c cat b covs evs s out, env_ok (List.length cat) e -> history e c (ingest cat b covs) evs s out -> cat <> [] ->
  NoDup (all_active out) /\ (List.length (all_active out) <= List.length cat)%nat /\
  exists v, sparse c s = Some v /\
    (v = true <-> (inject_Z (Z.of_nat (List.length (all_active out))) < maxactive_fraction c * inject_Z (Z.of_nat (List.length cat)))%Q) /\
    (out = [] -> (0 < maxactive_fraction c)%Q -> v = true) /\ ((1 < maxactive_fraction c)%Q -> v = true) /\ ((maxactive_fraction c <= 0)%Q -> v = false).
Proof.
  intros e c cat b covs evs s out He H Hc. pose proof (history_inv _ _ _ _ _ _ _ _ He H) as I.
  pose proof (inv_nodup _ _ _ _ _ I) as Hnd. pose proof (inv_na _ _ _ _ _ I) as Hna. pose proof (inv_len _ _ _ _ _ I) as HL.
  assert (Hle : (List.length (all_active out) <= List.length cat)%nat).
  { rewrite <- (seq_length (List.length cat) 0), <- (map_length Z.of_nat (seq 0 _)). apply NoDup_incl_length; [exact Hnd|].
    intros x Hx. unfold all_active in Hx. apply in_concat in Hx. destruct Hx as (l & Hl & Hx). apply in_map_iff in Hl. destruct Hl as (p & <- & Hp).
    destruct (inv_ids _ _ _ _ _ I p Hp) as (ai & fi & E & _ & _ & K). rewrite E in Hx. apply in_map_iff in Hx. destruct Hx as (k & <- & Hk). apply in_map, in_seq. specialize (K k (in_or_app _ _ _ (or_introl Hk))). lia. }
  split; [exact Hnd|]. split; [exact Hle|].
  assert (Hp : (0 < inject_Z (Z.of_nat (List.length cat)))%Q). { change 0%Q with (inject_Z 0). rewrite <- Zlt_Qlt. destruct cat; [congruence|cbn [List.length]; lia]. }
  set (v := Qltb (inject_Z (n_active s) / inject_Z (Z.of_nat (List.length (sourcecat s))))%Q (maxactive_fraction c)). exists v.
  assert (Hs : sparse c s = Some v). { unfold sparse. subst v. destruct (sourcecat s) as [|r l] eqn:E; [|reflexivity]. destruct cat; [congruence|discriminate HL]. }
  assert (V : v = true <-> (inject_Z (Z.of_nat (List.length (all_active out))) < maxactive_fraction c * inject_Z (Z.of_nat (List.length cat)))%Q).
  { subst v. rewrite Qltb_lt, Hna, HL. split; intros K.
    - apply (Qmult_lt_r _ _ _ Hp) in K. rewrite Qmult_comm, Qmult_div_r in K; [exact K|]. intros Z0. rewrite Z0 in Hp. now apply Qlt_irrefl in Hp.
    - apply Qlt_shift_div_r; assumption. }
  split; [exact Hs|]. split; [exact V|]. split; [|split].
  - intros -> K. apply V. cbn [all_active map concat List.length]. apply Qmult_lt_0_compat; assumption.
  - intros K. apply V. apply Qle_lt_trans with (inject_Z (Z.of_nat (List.length cat))); [rewrite <- Zle_Qle; lia|].
    rewrite <- (Qmult_1_l (inject_Z (Z.of_nat (List.length cat)))) at 1. apply Qmult_lt_r; assumption.
  - intros K. destruct v; [|reflexivity]. exfalso. pose proof (proj1 V eq_refl) as W.
    assert (W2 : (maxactive_fraction c * inject_Z (Z.of_nat (List.length cat)) <= 0)%Q). { rewrite <- (Qmult_0_l (inject_Z (Z.of_nat (List.length cat)))). apply Qmult_le_compat_r; [exact K|now apply Qlt_le_weak]. }
    assert (W3 : (0 <= inject_Z (Z.of_nat (List.length (all_active out))))%Q) by (change 0%Q with (inject_Z 0); rewrite <- Zle_Qle; lia).
    apply (Qlt_irrefl 0). eapply Qle_lt_trans; [exact W3|]. eapply Qlt_le_trans; [exact W|exact W2].
Qed.
Print Assumptions C02_sparse.
(** Two of four sources out: half of them is not less than half. *)
Example C02_sparse_case : sparse ex_config ex_s3 = Some false /\ List.length (all_active [ex_p2]) = 2%nat.
Proof.
  destruct C01_C02_C04_hypotheses_met as (He & H & _). destruct (C02_sparse _ _ _ _ _ _ _ _ He H) as (_ & _ & v & E & V & _); [discriminate|].
  split; [|reflexivity]. rewrite E. f_equal. destruct v; [|reflexivity]. exfalso. pose proof (proj1 V eq_refl) as K. vm_compute in K. discriminate K.
Qed.
