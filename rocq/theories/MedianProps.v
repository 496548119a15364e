(** C39: the reference position is the median of the active sources. *)
From Verif Require Import Np NpFacts KernelModel PackModel DeviceModel DeviceLoop DeviceZero.
From Coq Require Import Reals Lra Lia Permutation Sorting.Sorted Arith.

(** At most half of the values lie strictly on either side of [y]. *)
Definition count (f : R -> bool) (l : list R) : nat := List.length (filter f l).
Definition leb (x y : R) : bool := if Rle_dec x y then true else false.
Definition halves (l : list R) (y : R) : Prop :=
  List.length l <= 2 * count (fun x => leb x y) l /\ List.length l <= 2 * count (fun x => leb y x) l.
(** The median: the middle of the interval of such values. *)
Definition is_median (l : list R) (m : R) : Prop :=
  exists lo hi, (m = (lo + hi) / 2)%R /\ forall y, halves l y <-> (lo <= y <= hi)%R.

Lemma insert_perm x l : Permutation (insertR x l) (x :: l).
Proof.
  induction l as [|y l IH]; cbn [insertR]; [reflexivity|]. destruct (Rle_dec x y); [reflexivity|].
  rewrite IH. apply perm_swap.
Qed.
Lemma sort_perm l : Permutation (sortR l) l.
Proof. induction l as [|x l IH]; cbn; [reflexivity|]. fold (sortR l). rewrite insert_perm. now constructor. Qed.
Lemma insert_sorted x l : StronglySorted Rle l -> StronglySorted Rle (insertR x l).
Proof.
  induction 1 as [|y l H IH F]; cbn [insertR]; [repeat constructor|]. destruct (Rle_dec x y) as [L|L].
  - constructor; [constructor; auto|]. constructor; auto. rewrite Forall_forall in *. intros z Hz. specialize (F z Hz). lra.
  - constructor; auto. rewrite Forall_forall in *. intros z Hz.
    apply (Permutation_in _ (insert_perm x l)) in Hz. destruct Hz as [<-|Hz]; [lra|auto].
Qed.
Lemma sort_sorted l : StronglySorted Rle (sortR l).
Proof. induction l as [|x l IH]; cbn; [constructor|]. now apply insert_sorted. Qed.
Lemma count_perm f l l' : Permutation l l' -> count f l = count f l'.
Proof.
  unfold count. induction 1; cbn; auto.
  - destruct (f x); cbn; auto.
  - destruct (f x), (f y); cbn; auto.
  - congruence.
Qed.
Lemma count_le f l : count f l <= List.length l.
Proof. unfold count. induction l as [|x l IH]; cbn; auto. destruct (f x); cbn; lia. Qed.

Lemma count_below : forall s y k, StronglySorted Rle s -> k < List.length s ->
  (k < count (fun x => leb x y) s <-> (nth k s 0 <= y)%R).
Proof.
  intros s y k S. revert k. induction S as [|x s S IH F]; intros k Hk; [cbn in Hk; lia|].
  unfold count. cbn [filter]. unfold leb at 1. destruct (Rle_dec x y) as [L|L].
  - destruct k as [|k]; cbn [nth List.length]; [split; [auto|lia]|]. cbn in Hk. rewrite <- (IH k) by lia. unfold count. lia.
  - assert (Z : filter (fun x => leb x y) s = []).
    { clear -F L. induction F as [|z s Hz F IH]; cbn; auto. unfold leb at 1. destruct (Rle_dec z y); [lra|auto]. }
    fold (leb x y). rewrite Z. cbn [List.length]. split; [lia|]. intros N. exfalso.
    destruct k as [|k]; cbn [nth] in N; [lra|]. cbn in Hk.
    assert (In (nth k s 0%R) s) by (apply nth_In; lia). rewrite Forall_forall in F. specialize (F _ H). lra.
Qed.
Lemma count_above : forall s y k, StronglySorted Rle s -> k < List.length s ->
  (List.length s - k <= count (fun x => leb y x) s <-> (y <= nth k s 0)%R).
Proof.
  intros s y k S. revert k. induction S as [|x s S IH F]; intros k Hk; [cbn in Hk; lia|].
  unfold count. cbn [filter]. unfold leb at 1. destruct (Rle_dec y x) as [L|L].
  - assert (Z : filter (fun x => leb y x) s = s).
    { clear -F L. induction F as [|z s Hz F IH]; cbn; auto. unfold leb at 1. destruct (Rle_dec y z); [now rewrite IH|lra]. }
    rewrite Z. cbn [List.length]. split; [intros _|intros _; lia].
    destruct k as [|k]; cbn [nth]; [lra|]. cbn in Hk.
    assert (In (nth k s 0%R) s) by (apply nth_In; lia). rewrite Forall_forall in F. specialize (F _ H). lra.
  - destruct k as [|k]; cbn [nth List.length].
    + split; [|lra]. intros H. pose proof (count_le (fun x => leb y x) s) as C. unfold count in C. lia.
    + cbn in Hk. rewrite <- (IH k) by lia. unfold count. cbn. lia.
Qed.

Lemma median_spec l : l <> [] -> is_median l (np_median l).
Proof.
  intros Hl. set (s := sortR l). set (n := List.length l).
  assert (Ls : List.length s = n) by (apply Permutation_length, sort_perm).
  assert (Hn : 0 < n) by (unfold n; destruct l; [congruence|cbn; lia]).
  assert (Hh : forall y, halves l y <-> n <= 2 * count (fun x => leb x y) s /\ n <= 2 * count (fun x => leb y x) s).
  { intros y. unfold halves, s. now rewrite !(count_perm _ _ _ (sort_perm l)). }
  pose proof (sort_sorted l) as St. fold s in St.
  assert (G : forall a b, a <= b -> b < n -> n = a + b + 1 -> (b = a \/ b = S a) ->
    forall y, halves l y <-> (nth a s 0 <= y <= nth b s 0)%R).
  { intros a b Hab Hb E D y. rewrite Hh. rewrite <- (count_below s y a St) by lia. rewrite <- (count_above s y b St) by lia. rewrite Ls.
    pose proof (count_le (fun x => leb x y) s). pose proof (count_le (fun x => leb y x) s). lia. }
  unfold np_median. fold s. fold n. destruct (Nat.odd n) eqn:Eo.
  - apply Nat.odd_spec in Eo. destruct Eo as [h Eh]. assert (n / 2 = h) as -> by (rewrite Eh; symmetry; apply Nat.div_unique with 1; lia).
    exists (nth h s 0%R), (nth h s 0%R). split; [lra|]. apply (G h h); lia.
  - assert (Ev : Nat.even n = true) by (rewrite <- Nat.negb_odd, Eo; reflexivity). apply Nat.even_spec in Ev. destruct Ev as [h Eh].
    assert (n / 2 = h) as -> by (rewrite Eh; symmetry; apply Nat.div_unique with 0; lia).
    exists (nth (h - 1) s 0%R), (nth h s 0%R). split; [reflexivity|]. apply (G (h - 1) h); lia.
Qed.

Lemma median_unique l m m' : l <> [] -> is_median l m -> is_median l m' -> m = m'.
Proof.
  intros Hl (lo & hi & -> & H) (lo' & hi' & -> & H').
  destruct (median_spec l Hl) as (a & b & E & Hs).
  assert (N : (a <= b)%R).
  { pose proof (sort_perm l) as P. set (n := List.length l). 
    destruct (Rle_lt_dec a b) as [|L]; auto. exfalso.
    (* some value halves: the middle element *)
    assert (Hn : 0 < n) by (unfold n; destruct l; [congruence|cbn; lia]).
    assert (Ls : List.length (sortR l) = n) by (apply Permutation_length, P).
    assert (X : halves l (nth (n / 2) (sortR l) 0%R)).
    { unfold halves. rewrite <- !(count_perm _ _ _ P). fold n.
      assert (n / 2 < n) by (apply Nat.div_lt; lia).
      assert (B := proj2 (count_below (sortR l) (nth (n / 2) (sortR l) 0%R) (n / 2) (sort_sorted l) ltac:(lia)) ltac:(lra)).
      assert (A := proj2 (count_above (sortR l) (nth (n / 2) (sortR l) 0%R) (n / 2) (sort_sorted l) ltac:(lia)) ltac:(lra)).
      rewrite Ls in A. pose proof (Nat.div_mod n 2 ltac:(lia)). pose proof (Nat.mod_upper_bound n 2 ltac:(lia)). lia. }
    apply Hs in X. lra. }
  assert (Ha := proj2 (Hs a) ltac:(lra)). assert (Hb := proj2 (Hs b) ltac:(lra)).
  assert (K : forall c d, (forall y, halves l y <-> (c <= y <= d)%R) -> c = a /\ d = b).
  { intros c d K. assert (Ka := proj1 (K a) Ha). assert (Kb := proj1 (K b) Hb).
    assert (Kc := proj1 (Hs c) (proj2 (K c) ltac:(lra))). assert (Kd := proj1 (Hs d) (proj2 (K d) ltac:(lra))). lra. }
  destruct (K _ _ H) as [-> ->]. destruct (K _ _ H') as [-> ->]. reflexivity.
Qed.

(** The reference recorded by prepare_model is, in right ascension and in
    declination, the median of the active sources, and it is the only number
    that is. *)
Theorem C39_reference : forall E gpu st active fixed big maxactive big_spline st' sc sa,
  prepare_model E gpu st (Some active) fixed big maxactive big_spline = Some (st', sc) ->
  set_scene (bandlist (pk E)) (splinedata E) None active = Some sa ->
  is_median (map g_ra (sc_sources sa)) (fst (reference st')) /\
  is_median (map g_dec (sc_sources sa)) (snd (reference st')) /\
  (forall l m m', l <> [] -> is_median l m -> is_median l m' -> m = m').
Proof.
  intros E gpu st active fixed big maxactive big_spline st' sc sa H Hs.
  destruct (pack_meta_of_prepare _ _ _ _ _ _ _ _ _ _ H) as (sa' & m & E1 & Hp).
  rewrite E1 in Hs. injection Hs as ->.
  destruct (pack_meta_zero _ _ _ _ _ Hp) as [_ Z].
  assert (N : sc_sources sa <> []).
  { unfold pack_meta in Hp. destruct (zerocoords sa None) as [r s] eqn:Ez. cbv zeta in Hp. unfold zerocoords in Ez.
    injection Ez as <- <-. cbn [sc_sources] in Hp. destruct (sc_sources sa); [discriminate|discriminate]. }
  assert (Er : reference st' = fst (zerocoords sa None)) by now rewrite <- Z.
  rewrite Er. cbn [zerocoords fst snd].
  assert (Nm : forall f : galaxy -> R, map f (sc_sources sa) <> []) by (intros f; destruct (sc_sources sa); [congruence|discriminate]).
  split; [apply median_spec, Nm|]. split; [apply median_spec, Nm|]. apply median_unique.
Qed.
Print Assumptions C39_reference.
Example median_even : is_median [4; 1; 9; 3]%R (7 / 2)%R.
Proof.
  replace (7 / 2)%R with (np_median [4; 1; 9; 3]%R); [apply median_spec; discriminate|].
  unfold np_median. cbn. repeat (destruct Rle_dec; try lra; cbn); lra.
Qed.
