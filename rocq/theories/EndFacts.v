(** Facts for C82: every pass of the parent loop whose seeds still want
    iterations uses up some of what the sources want. *)
From Verif Require Import Np NpFacts SuperSceneModel SuperSceneSpec SuperSceneFacts SuperSceneHist SuperSceneFrame
     SuperSceneExamples DispatchModel DispatchSpec DispatchFacts DispatchProps DispatchTotal.
From Coq Require Import Permutation.

(** * Counting *)
Definition total (f : nat -> nat) (N : nat) : nat := list_sum (map f (seq 0 N)).
Lemma list_sum_le {A} (f g : A -> nat) l : (forall j, In j l -> f j <= g j) ->
  list_sum (map f l) <= list_sum (map g l).
Proof.
  induction l as [|x l IH]; simpl; intros H; [lia|].
  pose proof (H x (or_introl eq_refl)). specialize (IH (fun j Hj => H j (or_intror Hj))). unfold list_sum in *. lia.
Qed.
Lemma list_sum_lt {A} (f g : A -> nat) l i : (forall j, In j l -> f j <= g j) -> In i l -> f i < g i ->
  list_sum (map f l) < list_sum (map g l).
Proof.
  induction l as [|x l IH]; simpl; intros H Hi Hlt; [contradiction|].
  assert (Hr : forall j, In j l -> f j <= g j) by auto.
  pose proof (list_sum_le f g l Hr) as Hle. pose proof (H x (or_introl eq_refl)).
  destruct Hi as [<-|Hi]; [|specialize (IH Hr Hi Hlt)]; unfold list_sum in *; lia.
Qed.
Lemma list_sum_ext {A} (f g : A -> nat) l : (forall j, In j l -> f j = g j) ->
  list_sum (map f l) = list_sum (map g l).
Proof. intros H. f_equal. apply map_ext_in. exact H. Qed.

(** The sources of a task. *)
Definition members (h : handle patch) : list Z := ids (p_active (h_task h)).
Definition holds (h : handle patch) (j : nat) : bool := memZ (Z.of_nat j) (members h).
(** A task is useful when one of its sources still wants something. *)
Definition useful (f : nat -> nat) (N : nat) (h : handle patch) : bool :=
  existsb (fun j => holds h j && (0 <? f j)) (seq 0 N).
Definition how_many (P : handle patch -> bool) (hs : list (handle patch)) : nat := List.length (filter P hs).
Definition times (j : nat) (hs : list (handle patch)) : nat := how_many (fun h => holds h j) hs.

Lemma how_many_app P a b : how_many P (a ++ b) = how_many P a + how_many P b.
Proof. unfold how_many. now rewrite filter_app, app_length. Qed.
Lemma how_many_perm P a b : Permutation a b -> how_many P a = how_many P b.
Proof.
  intros H. unfold how_many. induction H; simpl; auto; try lia.
  - destruct (P x); simpl; lia.
  - destruct (P x), (P y); simpl; lia.
Qed.
Lemma how_many_split P hs : how_many P hs + how_many (fun h => negb (P h)) hs = List.length hs.
Proof. unfold how_many. induction hs as [|h t IH]; simpl; auto. destruct (P h); simpl; lia. Qed.
Lemma how_many_ext P Q hs : (forall h, In h hs -> P h = Q h) -> how_many P hs = how_many Q hs.
Proof.
  intros H. unfold how_many. induction hs as [|h t IH]; simpl; auto.
  rewrite (H h (or_introl eq_refl)). assert (E : List.length (filter P t) = List.length (filter Q t)).
  { apply IH. intros; apply H; simpl; auto. }
  destruct (Q h); simpl; lia.
Qed.
Lemma count_for_times j hs : count_for j hs = Z.of_nat (times j hs).
Proof. reflexivity. Qed.

(** No source is in two of the tasks. *)
Definition apart (hs : list (handle patch)) : Prop := NoDup (concat (map members hs)).
Lemma apart_perm a b : Permutation a b -> apart a -> apart b.
Proof.
  intros H. unfold apart. apply Permutation_NoDup.
  induction H; simpl; auto.
  - now apply Permutation_app_head.
  - rewrite !app_assoc. apply Permutation_app_tail. apply Permutation_app_comm.
  - eauto using perm_trans.
Qed.
Lemma apart_app a b : apart (a ++ b) -> apart a /\ apart b /\
  (forall h g j, In h a -> In g b -> holds h j = true -> holds g j = false).
Proof.
  unfold apart. rewrite map_app, concat_app. intros H. apply NoDup_app_iff in H as (H1 & H2 & H3).
  split; [exact H1|]. split; [exact H2|]. intros h g j Hh Hg Hj.
  destruct (holds g j) eqn:E; [|reflexivity]. exfalso.
  apply (H3 (Z.of_nat j)); apply in_concat.
  - exists (members h). split; [now apply in_map|]. now apply memZ_In.
  - exists (members g). split; [now apply in_map|]. now apply memZ_In.
Qed.
Lemma times_none j hs : (forall h, In h hs -> holds h j = false) -> times j hs = 0.
Proof.
  intros H. unfold times. rewrite (how_many_ext _ (fun _ => false) hs H). unfold how_many.
  induction hs as [|h t IH]; simpl; auto. apply IH. intros; apply H; simpl; auto.
Qed.

(** Each useful task takes at least one off what is wanted. *)
Lemma useful_pays f N hs : apart hs ->
  total (fun j => f j - times j hs) N + how_many (useful f N) hs <= total f N.
Proof.
  induction hs as [|h t IH]; intros Ha.
  - unfold how_many. simpl. rewrite Nat.add_0_r. apply list_sum_le. intros; lia.
  - destruct (apart_app [h] t Ha) as (_ & Ht & Hd). specialize (IH Ht).
    assert (Et : forall j, times j (h :: t) = (if holds h j then 1 else 0) + times j t).
    { intros j. unfold times, how_many. simpl. destruct (holds h j); reflexivity. }
    assert (Hle : total (fun j => f j - times j (h :: t)) N <= total (fun j => f j - times j t) N).
    { apply list_sum_le. intros j _. rewrite Et. destruct (holds h j); lia. }
    unfold how_many in *. simpl. destruct (useful f N h) eqn:Eu; simpl; [|lia].
    assert (Hlt : total (fun j => f j - times j (h :: t)) N < total (fun j => f j - times j t) N); [|lia].
    unfold useful in Eu. apply existsb_exists in Eu as (j & Hj & Eu).
    apply andb_true_iff in Eu as [E1 E2]. apply Nat.ltb_lt in E2.
    apply (list_sum_lt _ _ _ j); auto.
    + intros i _. rewrite Et. destruct (holds h i); lia.
    + rewrite Et, E1, (times_none j t); [lia|]. intros g Hg. apply (Hd h g j); simpl; auto.
Qed.

(** * What one row wants: the number of rounds of [draws] iterations *)
Definition rounds (c : config) (draws : Z) (it : Z) : nat :=
  Z.to_nat ((target_niter c - it + (draws - 1)) / draws).
Lemma rounds_step c draws it m : (0 < draws)%Z ->
  rounds c draws (it + draws * Z.of_nat m) = rounds c draws it - m.
Proof.
  intros Hd. unfold rounds.
  replace (target_niter c - (it + draws * Z.of_nat m) + (draws - 1))%Z
    with ((target_niter c - it + (draws - 1)) + (- Z.of_nat m) * draws)%Z by ring.
  rewrite Z.div_add by lia. lia.
Qed.
Lemma rounds_pos c draws it : (0 < draws)%Z -> (it < target_niter c)%Z <-> 0 < rounds c draws it.
Proof.
  intros Hd. unfold rounds. split; intros H.
  - assert (1 <= (target_niter c - it + (draws - 1)) / draws)%Z; [|lia].
    apply Z.div_le_lower_bound; lia.
  - destruct (Z_lt_le_dec it (target_niter c)) as [|K]; auto. exfalso.
    assert ((target_niter c - it + (draws - 1)) / draws < 1)%Z; [|lia].
    apply Z.div_lt_upper_bound; lia.
Qed.

(** * The seed is in its own patch *)
Definition roomy (e : env) (c : config) (j : nat) (r : row) : Prop :=
  exists ra dec rhalf, getcol r "ra" = Some ra /\ getcol r "dec" = Some dec /\ getcol r "rhalf" = Some rhalf /\
  let ctr := sky_to_scene e ra dec in
  let reach := (distance_to e ctr j + nscale c * rhalf)%Q in
  (0 <= rhalf)%Q /\ (distance_to e ctr j <= boundary_radius c)%Q /\ (reach < maxradius c)%Q /\
  List.length (query_ball e ctr reach) <= maxactive c.

Lemma roomy_compact e c j r : roomy e c j r -> compact e c j r.
Proof. intros (ra & dec & rh & H1 & H2 & H3 & H4 & H5 & H6 & _). exists ra, dec, rh. auto 7. Qed.

Lemma seed_included e c s k s' p : env_ok (List.length (sourcecat s)) e -> (0 <= nscale c)%Q ->
  (forall j rw, src s j = Some rw -> roomy e c j rw) ->
  (forall j rw, src s j = Some rw -> source_index rw = Z.of_nat j) ->
  checkout_region e c s k = CoGranted s' p -> In (Z.of_nat k) (ids (p_active p)).
Proof.
  intros He Hns Hroom Hidx H.
  apply checkout_inv in H as (seed & cra & cdec & r & ai & fi & Hk & Hra & Hdec & Hsc & Hrow & _ & Hpa & _).
  assert (Hidx' : forall j rw, src s' j = Some rw -> source_index rw = Z.of_nat j).
  { intros j rw Hj. rewrite Hrow in Hj. destruct (src s j) as [rw0|] eqn:E; [|discriminate].
    injection Hj as <-. simpl. eapply Hidx; eauto. }
  rewrite (fetched_ids _ _ _ Hidx' Hpa). apply in_map.
  destruct (Hroom _ _ Hk) as (ra & dec & rh & K1 & K2 & K3 & K4 & K5 & K6 & K7).
  assert (ra = cra) by congruence. assert (dec = cdec) by congruence. subst ra dec.
  set (ctr := sky_to_scene e cra cdec) in *.
  assert (Ek : outer_of e c s ctr k = (distance_to e ctr k + nscale c * rh)%Q).
  { unfold outer_of, rhalf_of. rewrite Hk, K3. reflexivity. }
  pose proof (circular_scene_shape_aux e c s ctr He _ eq_refl r ai fi Hsc)
    as (_ & Hnd & Hincl & _ & _ & Hfirst & Hall & _).
  assert (Hlt : k < List.length (sourcecat s)).
  { apply nth_error_Some. unfold src in Hk. congruence. }
  assert (Hkin : In k (query_ball e ctr (boundary_radius c))).
  { apply (query_spec _ _ He). split; auto. }
  destruct Hall as [Hfull|Hall].
  2:{ apply Hall; [exact Hkin|]. rewrite Ek. exact K6. }
  destruct (in_dec Nat.eq_dec k ai) as [Hin|Hin]; [exact Hin|]. exfalso.
  apply NoDup_app_iff in Hnd as (Hnd & _).
  assert (Hlen : List.length (k :: ai) <= List.length (query_ball e ctr (distance_to e ctr k + nscale c * rh))).
  { apply NoDup_incl_length; [now constructor|]. intros i [<-|Hi].
    - apply (query_spec _ _ He). split; auto.
      setoid_replace (distance_to e ctr k) with (distance_to e ctr k + 0)%Q at 1 by ring.
      apply Qplus_le_r. apply Qmult_le_0_compat; auto.
    - assert (Hib : In i (query_ball e ctr (boundary_radius c))) by (apply Hincl, in_or_app; auto).
      apply (query_spec _ _ He) in Hib as [Hil _]. apply (query_spec _ _ He). split; auto.
      pose proof (Hfirst i k Hi Hkin Hin) as Ho. rewrite Ek in Ho. unfold outer_of in Ho.
      eapply Qle_trans; [|exact Ho].
      setoid_replace (distance_to e ctr i) with (distance_to e ctr i + 0)%Q at 1 by ring.
      apply Qplus_le_r. apply Qmult_le_0_compat; auto.
      destruct (src s i) as [ri|] eqn:Ei; [|apply nth_error_None in Ei; lia].
      unfold rhalf_of. rewrite Ei. destruct (Hroom _ _ Ei) as (a1 & a2 & a3 & _ & _ & E3 & E4 & _).
      rewrite E3. exact E4. }
  simpl in Hlen. lia.
Qed.

Lemma try_checkout_seed e c s seeds s1 p : try_checkout e c s seeds = Region s1 p ->
  exists k, In k seeds /\ checkout_region e c s k = CoGranted s1 p.
Proof.
  induction seeds as [|k t IH]; simpl; [discriminate|].
  destruct (checkout_region e c s k) eqn:E; intros H; try discriminate.
  - apply checkout_refused in E. subst. destruct (IH H) as (k' & K1 & K2). eauto.
  - injection H as <- <-. exists k. auto.
Qed.
