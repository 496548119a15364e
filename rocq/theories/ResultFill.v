(** C55: what a filled result says of the fit, attribute by attribute. *)
From Verif Require Import Np NpFacts ResultModel ResultFacts ResultProps ResultLoad ResultTask ResultCase.
Open Scope nat_scope.

Section Fill.
  Context {N B : Type}.
  Local Notation value := (value N B).
  Local Notation attributes := (attributes N B).
  Context (chaincat_of : value -> list string -> value -> value -> list string -> option value).
  (** The names that filling uses *)
  Definition filled : list string :=
    ["patchID"; "reference_coordinates"; "bandlist"; "shapenames"; "n_call"; "npix"; "nexp"; "exposures"; "active"; "fixed"; "big"; "chain"; "chaincat"; "bounds"; "final"]%string.
  (** The counts of calls, pixels and exposures, the exposures and the reference are the patch's, the region's own attributes are
      the region's, the chain and all that filling has no name for are as the sampler left them. *)
  Theorem C55_filled : forall num sample_cat (o0 region : attributes) active fixed big bounds patchID p,
    NoDup (map fst region) -> (forall k, In k (map fst region) -> ~ In k filled) ->
    (forall o, fill chaincat_of num sample_cat o0 region active fixed big bounds patchID p = Some o ->
      getattr o "n_call" = Some (Number (ncall p)) /\ getattr o "npix" = Some (Number (npix p)) /\ getattr o "nexp" = Some (Number (num (List.length (epaths p)))) /\
      getattr o "exposures" = Some (Arr [List.length (epaths p)] (Bytes (epaths p))) /\ getattr o "reference_coordinates" = Some (arr (refcoord p)) /\
      getattr o "bandlist" = Some (Arr [List.length (bandlist p)] (Bytes (bandlist p))) /\ getattr o "shapenames" = Some (Arr [List.length (shape_cols p)] (Bytes (shape_cols p))) /\
      getattr o "active" = Some (arr active) /\ getattr o "chain" = getattr o0 "chain" /\
      (forall k v, getattr region k = Some v -> getattr o k = Some v) /\
      (forall k, ~ In k filled -> ~ In k (map fst region) -> getattr o k = getattr o0 k)) /\
    (forall chain cc fin, getattr o0 "chain" = Some chain -> chaincat_of chain (bandlist p) (arr active) (arr (refcoord p)) (shape_cols p) = Some cc -> sample_cat cc (arr active) = Some fin ->
      exists o, fill chaincat_of num sample_cat o0 region active fixed big bounds patchID p = Some o /\ getattr o "chaincat" = Some cc /\ getattr o "final" = Some fin).
  Proof.
    intros num sample_cat o0 region active fixed big bounds patchID p ND Dis. unfold fill.
    match goal with |- context [setall ?x region] => set (o1 := x) end.
    set (o2 := setattr (setattr (setattr (setall o1 region) "active" (arr active)) "fixed" (or_none fixed)) "big" (or_none big)). cbv zeta.
    change (setattr (setattr (setattr (setall o1 region) "active" (arr active)) "fixed" (or_none fixed)) "big" (or_none big)) with o2.
    assert (R0 : forall k, In k filled -> getattr region k = None) by (intros k Hk; apply getattr_none; intros K; exact (Dis k K Hk)).
    assert (G2 : forall k, In k filled -> k <> "active"%string -> k <> "fixed"%string -> k <> "big"%string -> getattr o2 k = getattr o1 k).
    { intros k Hk K1 K2 K3. unfold o2. rewrite !getattr_other by congruence. rewrite getattr_setall by exact ND. now rewrite (R0 k Hk). }
    assert (Ec : getattr o2 "chain" = getattr o0 "chain").
    { rewrite G2; [|cbn; tauto|discriminate|discriminate|discriminate]. unfold o1. rewrite !getattr_other by discriminate. reflexivity. }
    set (o4 := fun o3 : attributes => match bounds with Some b => setattr o3 "bounds" (arr b) | None => o3 end).
    assert (G4 : forall o3 k, k <> "bounds"%string -> getattr (o4 o3) k = getattr o3 k) by (intros o3 k K; unfold o4; destruct bounds; [apply getattr_other; congruence|reflexivity]).
    split.
    - intros o H.
      assert (X : exists o3, (o3 = o2 \/ exists cc, o3 = setattr o2 "chaincat" cc) /\ exists fin, o = setattr (o4 o3) "final" fin).
      { destruct (getattr o2 "chain") as [chain|].
        - destruct (chaincat_of _ _ _ _ _) as [cc|]; [|discriminate]. cbn [option_map] in H. fold (o4 (setattr o2 "chaincat" cc)) in H. destruct (getattr (o4 _) "chaincat") as [c|]; [|discriminate].
          destruct (sample_cat c (arr active)) as [fin|]; [|discriminate]. exists (setattr o2 "chaincat" cc). split; [right; eauto|]. exists fin. cbn [option_map] in H. congruence.
        - fold (o4 o2) in H. destruct (getattr (o4 o2) "chaincat") as [c|]; [|discriminate]. destruct (sample_cat c (arr active)) as [fin|]; [|discriminate]. exists o2. split; [auto|]. exists fin. cbn [option_map] in H. congruence. }
      clear H. destruct X as (o3 & X & fin & ->).
      assert (G : forall k, k <> "final"%string -> k <> "bounds"%string -> k <> "chaincat"%string -> getattr (setattr (o4 o3) "final" fin) k = getattr o2 k).
      { intros k K1 K2 K3. rewrite getattr_other by congruence. rewrite G4 by exact K2. destruct X as [->|(cc & ->)]; [reflexivity|apply getattr_other; congruence]. }
      assert (P : forall k v, In k filled -> k <> "final"%string -> k <> "bounds"%string -> k <> "chaincat"%string -> k <> "active"%string -> k <> "fixed"%string -> k <> "big"%string -> getattr o1 k = Some v -> getattr (setattr (o4 o3) "final" fin) k = Some v).
      { intros k v Hk K1 K2 K3 K4 K5 K6 E. rewrite G by assumption. rewrite G2 by assumption. exact E. }
      repeat match goal with |- _ /\ _ => split end.
      all: try (apply P; [cbn; tauto|discriminate|discriminate|discriminate|discriminate|discriminate|discriminate|unfold o1; repeat (rewrite getattr_setattr; cbn [String.eqb Ascii.eqb Bool.eqb]); reflexivity]).
      + rewrite G by discriminate. unfold o2. repeat (rewrite getattr_setattr; cbn [String.eqb Ascii.eqb Bool.eqb]). reflexivity.
      + rewrite G by discriminate. exact Ec.
      + intros k v Hk. assert (Ik : In k (map fst region)) by (apply getattr_in in Hk; apply in_map_iff; exists (k, v); auto). pose proof (Dis k Ik) as Nk.
        assert (forall j, In j filled -> j <> k) by (intros j Hj ->; contradiction). rewrite G by (apply not_eq_sym; apply H; cbn; tauto). unfold o2. rewrite !getattr_other by (apply H; cbn; tauto).
        rewrite getattr_setall by exact ND. now rewrite Hk.
      + intros k Nk Nr. assert (H : forall j, In j filled -> j <> k) by (intros j Hj ->; contradiction). rewrite G by (apply not_eq_sym; apply H; cbn; tauto). unfold o2. rewrite !getattr_other by (apply H; cbn; tauto).
        rewrite getattr_setall by exact ND. apply getattr_none in Nr. rewrite Nr. unfold o1. rewrite !getattr_other by (apply H; cbn; tauto). reflexivity.
    - intros chain cc fin Hc Hcc Hf. rewrite Ec, Hc, Hcc. cbn [option_map]. fold (o4 (setattr o2 "chaincat" cc)). rewrite G4 by discriminate. rewrite getattr_same, Hf. cbn [option_map].
      eexists. split; [reflexivity|]. split; [rewrite getattr_other by discriminate; rewrite G4 by discriminate; apply getattr_same|apply getattr_same].
  Qed.
End Fill.
Print Assumptions C55_filled.
(** A fit of three exposures in a circle *)
Example C55_filled_case : exists o, case_filled = Some o /\ getattr o "nexp" = Some (Number 3%Z) /\ getattr o "n_call" = Some (Number 7%Z) /\ getattr o "radius" = Some (Number 3%Z) /\ getattr o "message" = Some (Text "done"%string).
Proof.
  destruct (C55_filled case_cc Z.of_nat case_sample case_out (circle_dict 1%Z 2%Z 3%Z) ([1], [42]%Z) None (Some ([2], [1; 2]%Z)) None (Some 5%Z) case_patch) as [K1 K2].
  - vm_compute. repeat (constructor; [cbn; intuition congruence|]). constructor.
  - intros k Hk Hf. cbn in Hk, Hf. intuition congruence.
  - destruct (K2 _ _ _ eq_refl eq_refl eq_refl) as (o & E & _). exists o. destruct (K1 o E) as (E1 & _ & E2 & _ & _ & _ & _ & _ & _ & E3 & E4). split; [exact E|]. split; [exact E2|]. split; [exact E1|]. split; [exact (E3 "radius"%string (Number 3%Z) eq_refl)|].
    rewrite E4; [reflexivity| |]; cbn; intuition congruence.
Qed.
