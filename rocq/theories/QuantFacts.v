(** Facts about sorted samples and interpolation for C53. *)
From Verif Require Import Np NpFacts QuantModel.
From Coq Require Import Reals Lra Permutation.
Open Scope R_scope.

(** ** Sorted lists *)
Definition sorted (s : list R) : Prop := forall i j, (i <= j)%nat -> (j < List.length s)%nat -> nth i s 0 <= nth j s 0.
Lemma insert_perm x l : Permutation (insert x l) (x :: l).
Proof. induction l as [|y l IH]; cbn; [reflexivity|]. destruct (Rle_dec x y); [reflexivity|]. rewrite IH. apply perm_swap. Qed.
Lemma sort_perm l : Permutation (sort l) l.
Proof. induction l as [|x l IH]; cbn; [reflexivity|]. rewrite insert_perm. now constructor. Qed.
Lemma sort_length l : List.length (sort l) = List.length l.
Proof. apply Permutation_length, sort_perm. Qed.
Lemma sorted_cons x l : sorted (x :: l) <-> (forall y, In y l -> x <= y) /\ sorted l.
Proof.
  split.
  - intros H. split.
    + intros y Hy. apply (In_nth _ _ 0) in Hy. destruct Hy as (k & Hk & <-). apply (H O (S k)); cbn; lia.
    + intros i j Hij Hj. apply (H (S i) (S j)); cbn; lia.
  - intros [H1 H2] [|i] [|j] Hij Hj; cbn in *; try lia; [lra|apply H1, nth_In; lia|apply H2; lia].
Qed.
Lemma insert_sorted x l : sorted l -> sorted (insert x l).
Proof.
  induction l as [|y l IH]; intros H; cbn; [apply sorted_cons; split; [intros ? []|exact H]|]. destruct (Rle_dec x y) as [Hxy|Hxy].
  - apply sorted_cons. split; [|exact H]. apply sorted_cons in H. intros z [<-|Hz]; [exact Hxy|]. destruct H as [H _]. specialize (H z Hz). lra.
  - apply sorted_cons in H. destruct H as [H1 H2]. apply sorted_cons. split; [|now apply IH]. intros z Hz. apply (Permutation_in _ (insert_perm x l)) in Hz. destruct Hz as [<-|Hz]; [lra|auto].
Qed.
Lemma sort_sorted l : sorted (sort l).
Proof. induction l as [|x l IH]; cbn; [intros i j _ H; cbn in H; lia|now apply insert_sorted]. Qed.
Lemma sorted_unique s t : sorted s -> sorted t -> Permutation s t -> s = t.
Proof.
  revert t. induction s as [|x s IH]; intros t Hs Ht P; [symmetry; now apply Permutation_nil|]. destruct t as [|y t]; [apply Permutation_sym, Permutation_nil in P; discriminate|].
  apply sorted_cons in Hs. apply sorted_cons in Ht. destruct Hs as [Hs1 Hs2], Ht as [Ht1 Ht2].
  assert (E : x = y). { assert (A : x <= y). { assert (I : In y (x :: s)) by (apply (Permutation_in _ (Permutation_sym P)); now left). destruct I as [<-|I]; [lra|auto]. }
    assert (B : y <= x). { assert (I : In x (y :: t)) by (apply (Permutation_in _ P); now left). destruct I as [<-|I]; [lra|auto]. } lra. }
  subst y. f_equal. apply IH; auto. now apply Permutation_cons_inv in P.
Qed.

(** ** floor *)
Lemma floorn_spec v : 0 <= v -> INR (floorn v) <= v < INR (floorn v) + 1.
Proof.
  intros H. unfold floorn. destruct (base_Int_part v) as [H1 H2]. assert (P : (0 <= Int_part v)%Z). { assert (-1 < Int_part v)%Z; [|lia]. apply lt_IZR. lra. }
  rewrite INR_IZR_INZ, Z2Nat.id by exact P. lra.
Qed.
Lemma floorn_le v n : 0 <= v <= INR n -> (floorn v <= n)%nat.
Proof. intros [H1 H2]. destruct (floorn_spec v H1) as [H3 _]. apply INR_le. lra. Qed.
Lemma floorn_unique v j : INR j <= v < INR j + 1 -> floorn v = j.
Proof.
  intros H. assert (0 <= v) by (pose proof (pos_INR j); lra). pose proof (floorn_spec v ltac:(assumption)) as K.
  assert (A : (floorn v < S j)%nat) by (apply INR_lt; rewrite S_INR; lra). assert (B : (j < S (floorn v))%nat) by (apply INR_lt; rewrite S_INR; lra). lia.
Qed.

(** ** A value between neighbours of a sorted list *)
Definition between (s : list R) (j : nat) (t v : R) : Prop :=
  (j < List.length s)%nat /\ 0 <= t < 1 /\ ((j + 1 < List.length s)%nat /\ v = nth j s 0 + (nth (j + 1) s 0 - nth j s 0) * t \/ (j + 1 = List.length s)%nat /\ v = nth j s 0).
Lemma between_bounds s j t v : sorted s -> between s j t v -> nth j s 0 <= v /\ ((j + 1 < List.length s)%nat -> v <= nth (j + 1) s 0) /\ (forall k, (j < k < List.length s)%nat -> v <= nth k s 0) /\ v <= nth (List.length s - 1) s 0 /\ nth 0 s 0 <= v.
Proof.
  intros Hs (Hj & Ht & H). assert (H0 : nth 0 s 0 <= nth j s 0) by (apply Hs; lia). assert (Hl : nth j s 0 <= nth (List.length s - 1) s 0) by (apply Hs; lia). destruct H as [[Hj1 ->]|[Hj1 ->]].
  - assert (D : nth j s 0 <= nth (j + 1) s 0) by (apply Hs; lia). assert (U : nth j s 0 + (nth (j + 1) s 0 - nth j s 0) * t <= nth (j + 1) s 0) by nra.
    split; [nra|]. split; [auto|]. split; [|split].
    + intros k Hk. assert (nth (j + 1) s 0 <= nth k s 0) by (apply Hs; lia). lra.
    + assert (nth (j + 1) s 0 <= nth (List.length s - 1) s 0) by (apply Hs; lia). lra.
    + nra.
  - repeat split; try lra; try lia; try (intros k Hk; lia).
Qed.
Lemma between_mono s j t v j' t' v' : sorted s -> between s j t v -> between s j' t' v' -> (j < j')%nat \/ (j = j' /\ t <= t') -> v <= v'.
Proof.
  intros Hs B B' [H|[<- Ht]].
  - destruct (between_bounds s j t v Hs B) as (_ & _ & H1 & _). destruct (between_bounds s j' t' v' Hs B') as (H2 & _). destruct B' as (Hj' & _). specialize (H1 j' ltac:(lia)). lra.
  - destruct B as (Hj & T & H1), B' as (_ & T' & H2). destruct H1 as [[L ->]|[L ->]], H2 as [[L' ->]|[L' ->]]; try lia; [|lra]. assert (D : nth j s 0 <= nth (j + 1) s 0) by (apply Hs; lia). nra.
Qed.
Lemma at_pos_between s v : s <> [] -> 0 <= v <= INR (List.length s - 1) -> between s (floorn v) (v - INR (floorn v)) (at_pos s v).
Proof.
  intros Hne Hv. assert (L : (0 < List.length s)%nat) by (destruct s; [congruence|cbn; lia]). pose proof (floorn_le v _ Hv) as Hj. destruct (floorn_spec v (proj1 Hv)) as [F1 F2].
  split; [lia|]. split; [lra|]. unfold at_pos. destruct (Nat.eq_dec (floorn v + 1) (List.length s)) as [E|E].
  - right. split; [exact E|]. rewrite E, Nat.min_r by lia. assert (E2 : (List.length s - 1)%nat = floorn v) by lia. rewrite E2. ring.
  - left. split; [lia|]. rewrite Nat.min_l by lia. reflexivity.
Qed.
Lemma at_pos_mono s v v' : s <> [] -> sorted s -> 0 <= v -> v <= v' -> v' <= INR (List.length s - 1) -> at_pos s v <= at_pos s v'.
Proof.
  intros Hne Hs H0 Hvv H1. apply (between_mono s (floorn v) (v - INR (floorn v)) _ (floorn v') (v' - INR (floorn v')) _ Hs); [apply at_pos_between; auto; lra|apply at_pos_between; auto; lra|].
  destruct (floorn_spec v H0) as [F1 F2]. destruct (floorn_spec v' ltac:(lra)) as [G1 G2]. assert ((floorn v < S (floorn v'))%nat) by (apply INR_lt; rewrite S_INR; lra).
  destruct (Nat.eq_dec (floorn v) (floorn v')) as [E|E]; [right; split; [exact E|rewrite E in *; lra]|left; lia].
Qed.

(** ** Counting *)
Definition count (p : R -> bool) (l : list R) : nat := List.length (filter p l).
Definition leb (a b : R) : bool := if Rle_dec a b then true else false.
Lemma leb_true a b : leb a b = true <-> a <= b.
Proof. unfold leb. destruct (Rle_dec a b); split; auto; try discriminate; intros; contradiction. Qed.
Lemma count_perm p l l' : Permutation l l' -> count p l = count p l'.
Proof.
  unfold count. induction 1; cbn; auto.
  - destruct (p x); cbn; auto.
  - destruct (p x), (p y); reflexivity.
  - congruence.
Qed.
Lemma count_firstn p l n : (forall i, (i < n)%nat -> (i < List.length l)%nat -> p (nth i l 0) = true) -> (Nat.min n (List.length l) <= count p l)%nat.
Proof.
  unfold count. revert l. induction n as [|n IH]; intros l H; [cbn; lia|]. destruct l as [|x l]; [cbn; lia|]. cbn [filter List.length]. assert (E : p x = true) by (apply (H O); cbn; lia). rewrite E. cbn [List.length].
  specialize (IH l). rewrite <- Nat.succ_min_distr. apply le_n_S, IH. intros i Hi Hl. apply (H (S i)); cbn; lia.
Qed.
Lemma count_skipn p l n : (forall i, (n <= i)%nat -> (i < List.length l)%nat -> p (nth i l 0) = true) -> (List.length l - n <= count p l)%nat.
Proof.
  unfold count. revert l. induction n as [|n IH]; intros l H.
  - assert (Nat.min (List.length l) (List.length l) <= count p l)%nat by (apply count_firstn; intros i Hi _; apply H; lia). unfold count in *. lia.
  - destruct l as [|x l]; [cbn; lia|]. cbn [List.length filter]. specialize (IH l). assert (List.length l - n <= List.length (filter p l))%nat by (apply IH; intros i Hi Hl; apply (H (S i)); cbn; lia). destruct (p x); cbn [List.length]; lia.
Qed.

(** ** interp *)
Lemma interp_from_spec x : forall l x0 f0, x0 <= x -> exists j, (j <= List.length l)%nat /\
  let X := x0 :: map fst l in let F := f0 :: map snd l in
  nth j X 0 <= x /\ (j = List.length l /\ interp_from x x0 f0 l = nth j F 0 \/
    (j < List.length l)%nat /\ x < nth (j + 1) X 0 /\ interp_from x x0 f0 l = nth j F 0 + (nth (j + 1) F 0 - nth j F 0) * ((x - nth j X 0) / (nth (j + 1) X 0 - nth j X 0))).
Proof.
  induction l as [|[x1 f1] l IH]; intros x0 f0 H0; cbn [interp_from].
  - exists O. cbn. split; [lia|]. split; [exact H0|]. left. auto.
  - destruct (Rlt_dec x x1) as [H1|H1].
    + exists O. cbn. split; [lia|]. split; [exact H0|]. right. split; [lia|]. split; [exact H1|]. unfold Rdiv. ring.
    + destruct (IH x1 f1 ltac:(lra)) as (j & Hj & K1 & K2). exists (S j). cbn [List.length map fst snd]. split; [lia|]. split; [exact K1|]. destruct K2 as [[E V]|(E & X & V)]; [left; split; [lia|exact V]|right; split; [lia|]; split; [exact X|exact V]].
Qed.

(** ** cdf *)
Fixpoint total (l : list R) : R := match l with [] => 0 | x :: t => x + total t end.
Lemma cumsum_length a l : List.length (cumsum_from a l) = List.length l.
Proof. revert a. induction l as [|x l IH]; intros a; cbn; auto. Qed.
Lemma cumsum_nth l : forall a k, (k < List.length l)%nat -> nth k (cumsum_from a l) 0 = a + total (firstn (k + 1) l).
Proof. induction l as [|x l IH]; intros a [|k] H; cbn in *; try lia; [ring|]. rewrite IH by lia. ring. Qed.
Lemma removelast_length {A} (l : list A) : List.length (removelast l) = (List.length l - 1)%nat.
Proof. induction l as [|x [|y l] IH]; auto. cbn [removelast List.length] in *. rewrite IH. lia. Qed.
Lemma removelast_nth {A} (l : list A) d k : (k < List.length l - 1)%nat -> nth k (removelast l) d = nth k l d.
Proof. revert k. induction l as [|x [|y l] IH]; intros k H; cbn [List.length] in H; try lia. destruct k; [reflexivity|]. cbn [removelast nth]. apply IH. cbn [List.length]. lia. Qed.
Lemma last_nth {A} (l : list A) d : l <> [] -> last l d = nth (List.length l - 1) l d.
Proof.
  induction l as [|x l IH]; intros H; [congruence|]. destruct l as [|y l]; [reflexivity|]. change (last (x :: y :: l) d) with (last (y :: l) d). rewrite IH by discriminate. cbn [List.length]. replace (S (S (List.length l)) - 1)%nat with (S (S (List.length l) - 1)) by lia. reflexivity.
Qed.
Definition prefix (sw : list R) (k : nat) : R := total (firstn k sw).
Lemma cdf_spec sw cdf : cdf_of sw = Some cdf -> (2 <= List.length sw)%nat /\ prefix sw (List.length sw - 1) <> 0 /\ List.length cdf = List.length sw /\
  forall k, (k < List.length sw)%nat -> nth k cdf 0 = prefix sw k / prefix sw (List.length sw - 1).
Proof.
  unfold cdf_of. set (c := removelast (cumsum_from 0 sw)). assert (Lc : List.length c = (List.length sw - 1)%nat) by (unfold c; now rewrite removelast_length, cumsum_length).
  destruct c as [|c0 c'] eqn:Ec; [discriminate|]. rewrite <- Ec in *. assert (L2 : (2 <= List.length sw)%nat) by (rewrite Ec in Lc; cbn in Lc; lia).
  assert (N : forall k, (k < List.length sw - 1)%nat -> nth k c 0 = prefix sw (k + 1)). { intros k Hk. unfold c. rewrite removelast_nth by (rewrite cumsum_length; exact Hk). rewrite cumsum_nth by lia. unfold prefix. ring. }
  assert (El : last c 0 = prefix sw (List.length sw - 1)). { rewrite last_nth by (rewrite Ec; discriminate). rewrite Lc, N by lia. f_equal. lia. }
  rewrite El. destruct (Req_EM_T _ 0) as [|Hn]; [discriminate|]. intros H. assert (E : cdf = 0 :: map (fun v => v / prefix sw (List.length sw - 1)) c) by congruence. subst cdf. split; [exact L2|]. split; [exact Hn|]. split; [cbn; rewrite map_length; lia|].
  intros [|k] Hk; [cbn; unfold prefix; cbn; unfold Rdiv; ring|]. cbn [nth]. rewrite (nth_indep _ 0 (0 / prefix sw (List.length sw - 1))) by (rewrite map_length; lia). rewrite (map_nth (fun v => v / prefix sw (List.length sw - 1))). rewrite N by lia. do 2 f_equal. lia.
Qed.
Lemma cdf_some sw : (2 <= List.length sw)%nat -> prefix sw (List.length sw - 1) <> 0 -> exists cdf, cdf_of sw = Some cdf.
Proof.
  intros L N. unfold cdf_of. set (c := removelast (cumsum_from 0 sw)). assert (Lc : List.length c = (List.length sw - 1)%nat) by (unfold c; now rewrite removelast_length, cumsum_length).
  destruct c as [|c0 c'] eqn:Ec; [cbn in Lc; lia|]. rewrite <- Ec in *.
  assert (El : last c 0 = prefix sw (List.length sw - 1)). { rewrite last_nth by (rewrite Ec; discriminate). rewrite Lc. unfold c. rewrite removelast_nth by (rewrite cumsum_length; lia). rewrite cumsum_nth by lia. unfold prefix. rewrite Rplus_0_l. do 2 f_equal. lia. }
  rewrite El. destruct (Req_EM_T _ 0); [contradiction|]. eauto.
Qed.
Lemma prefix_mono sw i j : (forall x, In x sw -> 0 <= x) -> (i <= j)%nat -> prefix sw i <= prefix sw j.
Proof.
  unfold prefix. revert i j. induction sw as [|x sw IH]; intros i j H Hij; [rewrite !firstn_nil; apply Rle_refl|]. destruct i as [|i]; [|destruct j as [|j]; [lia|]; cbn [firstn total]; specialize (IH i j (fun y Hy => H y (or_intror Hy)) ltac:(lia)); lra].
  cbn [firstn total]. assert (P : forall l : list R, (forall y, In y l -> 0 <= y) -> 0 <= total l). { induction l as [|y l IHl]; intros Hl; cbn; [lra|]. specialize (Hl y (or_introl eq_refl)) as Hy. specialize (IHl (fun z Hz => Hl z (or_intror Hz))). lra. }
  apply P. intros y Hy. apply H. assert (In y (firstn j (x :: sw) ++ skipn j (x :: sw))) by (apply in_or_app; auto). now rewrite firstn_skipn in *.
Qed.
Lemma prefix_const c n k : (k <= n)%nat -> prefix (repeat c n) k = INR k * c.
Proof. unfold prefix. revert k. induction n as [|n IH]; intros [|k] H; try (cbn; ring); [lia|]. cbn [repeat firstn total]. rewrite IH by lia. rewrite S_INR. ring. Qed.
