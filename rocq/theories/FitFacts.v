(** Lemmas for C52. *)
From Verif Require Import Np NpFacts SceneModel SceneSpec SceneFacts ChainFacts SceneProps PosteriorModel PosteriorSpec PosteriorFacts PosteriorProps KernelModel KernelSum LinOptModel LinOptProps FitModel.
From Verif Require BoundsModel BoundsProps.
From Coq Require Import Reals Lra.
Open Scope R_scope.

(** ** argmax *)
Lemma argmax_from_spec : forall l k best x,
  let i := argmax_from k best x l in
  (i = best /\ (forall j y, nth_error l j = Some y -> y <= x)) \/
  (exists j y, i = (k + j)%nat /\ nth_error l j = Some y /\ x < y /\ (forall m v, nth_error l m = Some v -> v <= y) /\ (forall m v, (m < j)%nat -> nth_error l m = Some v -> v < y)).
Proof.
  induction l as [|z l IH]; intros k best x; cbn [argmax_from].
  - left. split; auto. intros [|j] y H; discriminate.
  - destruct (Rlt_dec x z) as [L|N].
    + right. destruct (IH (S k) k z) as [[E H]|(j & y & E & H1 & H2 & H3 & H4)].
      * exists O, z. split; [rewrite Nat.add_0_r; exact E|]. split; [reflexivity|]. split; [exact L|]. split; [intros [|m] v Hv; [injection Hv as <-; lra|exact (H m v Hv)]|intros m v Hm; lia].
      * exists (S j), y. split; [rewrite Nat.add_succ_r; exact E|]. split; [exact H1|]. split; [lra|]. split; [intros [|m] v Hv; [injection Hv as <-; lra|exact (H3 m v Hv)]|].
        intros [|m] v Hm Hv; [injection Hv as <-; lra|]. apply (H4 m v); [lia|exact Hv].
    + destruct (IH (S k) best x) as [[E H]|(j & y & E & H1 & H2 & H3 & H4)].
      * left. split; [exact E|]. intros [|m] v Hv; [injection Hv as <-; lra|exact (H m v Hv)].
      * right. exists (S j), y. split; [rewrite Nat.add_succ_r; exact E|]. split; [exact H1|]. split; [exact H2|]. split; [intros [|m] v Hv; [injection Hv as <-; lra|exact (H3 m v Hv)]|].
        intros [|m] v Hm Hv; [injection Hv as <-; lra|]. apply (H4 m v); [lia|exact Hv].
Qed.
Lemma argmax_spec l i : argmax l = Some i ->
  exists y, nth_error l i = Some y /\ (forall j v, nth_error l j = Some v -> v <= y) /\ (forall j v, (j < i)%nat -> nth_error l j = Some v -> v < y).
Proof.
  destruct l as [|x t]; [discriminate|]. cbn [argmax]. intros H. injection H as <-. destruct (argmax_from_spec t 1 0 x) as [[E H]|(j & y & E & H1 & H2 & H3 & H4)]; rewrite E.
  - exists x. split; [reflexivity|]. split; [intros [|j] v Hv; [injection Hv as <-; lra|exact (H j v Hv)]|intros j v Hj; lia].
  - exists y. split; [exact H1|]. split; [intros [|m] v Hv; [injection Hv as <-; lra|exact (H3 m v Hv)]|]. intros [|m] v Hm Hv; [injection Hv as <-; lra|]. apply (H4 m v); [lia|exact Hv].
Qed.
Lemma argmax_some l : l <> [] -> exists i, argmax l = Some i.
Proof. destruct l; [congruence|]. intros _. eexists. reflexivity. Qed.

(** ** Matrices *)
Definition square (n : nat) (m : list (list R)) : Prop := List.length m = n /\ forall i, (i < n)%nat -> List.length (nth i m []) = n.
Definition entry (m : list (list R)) (i j : nat) : R := nth j (nth i m []) 0.
Definition quad (n : nat) (m : list (list R)) (x : nat -> R) : R := sumR (fun i => sumR (fun j => x i * entry m i j * x j) (seq 0 n)) (seq 0 n).
Definition norm2 (n : nat) (x : nat -> R) : R := sumR (fun i => x i * x i) (seq 0 n).
Definition posdef (n : nat) (m : list (list R)) : Prop := forall x, 0 < norm2 n x -> 0 < quad n m x.
Lemma enumerate_length {A} (l : list A) : List.length (enumerate l) = List.length l.
Proof. unfold enumerate. rewrite combine_length, seq_length. lia. Qed.
Lemma enumerate_nth {A} (l : list A) i (d : A) : (i < List.length l)%nat -> nth i (enumerate l) (O, d) = (i, nth i l d).
Proof. intros H. unfold enumerate. rewrite combine_nth by apply seq_length. rewrite seq_nth by exact H. reflexivity. Qed.
Lemma add_diag_square n x m : square n m -> square n (add_diag x m).
Proof.
  intros [L H]. unfold add_diag. split; [now rewrite map_length, enumerate_length|]. intros i Hi.
  rewrite (map_nthd _ _ _ (O, [])) by (rewrite enumerate_length; lia). rewrite enumerate_nth by lia. cbn [fst snd]. rewrite upd_len. now apply H.
Qed.
Lemma add_diag_entry n x m i j : square n m -> (i < n)%nat -> (j < n)%nat -> entry (add_diag x m) i j = entry m i j + (if Nat.eqb i j then x else 0).
Proof.
  intros [L H] Hi Hj. unfold entry, add_diag. rewrite (map_nthd _ _ _ (O, [])) by (rewrite enumerate_length; lia). rewrite enumerate_nth by lia. cbn [fst snd].
  rewrite nth_updd by (rewrite H; lia). destruct (Nat.eqb_spec i j) as [->|]; lra.
Qed.
Lemma sumR_delta (f : nat -> R) n i : (i < n)%nat -> sumR (fun j => if Nat.eqb i j then f j else 0) (seq 0 n) = f i.
Proof.
  intros Hi. assert (G : forall k, sumR (fun j => if Nat.eqb i j then f j else 0) (seq k n) = if ((k <=? i) && (i <? k + n))%nat then f i else 0).
  { clear Hi. induction n as [|n IH]; intros k; cbn [seq].
    - change (sumR (fun j => if Nat.eqb i j then f j else 0) []) with 0. destruct (Nat.leb_spec k i), (Nat.ltb_spec i (k + 0)); auto; lia.
    - rewrite sumR_cons, IH. destruct (Nat.eqb_spec i k) as [E|E], (Nat.leb_spec (S k) i), (Nat.leb_spec k i), (Nat.ltb_spec i (S k + n)), (Nat.ltb_spec i (k + S n)); cbn [andb]; try lia; try subst k; lra. }
  rewrite G. destruct (Nat.leb_spec 0 i), (Nat.ltb_spec i (0 + n)); cbn [andb]; auto; lia.
Qed.
Lemma quad_add_diag n c m x : square n m -> quad n (add_diag c m) x = quad n m x + c * norm2 n x.
Proof.
  intros S0. unfold quad, norm2. rewrite <- sumR_scal, <- sumR_plus. apply sumR_ext. intros i Hi. apply in_seq in Hi.
  rewrite (sumR_ext _ (fun j => x i * entry m i j * x j + (if Nat.eqb i j then c * (x i * x j) else 0))).
  2:{ intros j Hj. apply in_seq in Hj. rewrite (add_diag_entry n) by (auto; lia). destruct (Nat.eqb i j); ring. }
  rewrite sumR_plus. f_equal. now rewrite (sumR_delta (fun j => c * (x i * x j)) n i) by lia.
Qed.
Fixpoint shifted (k : nat) (c : R) (m : list (list R)) : list (list R) := match k with O => m | S k => shifted k c (add_diag c m) end.
Lemma shifted_square n c : forall k m, square n m -> square n (shifted k c m).
Proof. induction k as [|k IH]; intros m H; [exact H|]. apply IH. now apply add_diag_square. Qed.
Lemma shifted_quad n c x : forall k m, square n m -> quad n (shifted k c m) x = quad n m x + INR k * c * norm2 n x.
Proof.
  induction k as [|k IH]; intros m H; [simpl; ring|]. cbn [shifted]. rewrite IH by now apply add_diag_square. rewrite quad_add_diag by exact H. rewrite S_INR. ring.
Qed.
Lemma shifted_entry n c i j : (i < n)%nat -> (j < n)%nat -> forall k m, square n m -> entry (shifted k c m) i j = entry m i j + (if Nat.eqb i j then INR k * c else 0).
Proof.
  intros Hi Hj. induction k as [|k IH]; intros m H; [simpl; destruct (Nat.eqb i j); ring|]. cbn [shifted]. rewrite IH by now apply add_diag_square. rewrite (add_diag_entry n) by auto. rewrite S_INR. destruct (Nat.eqb i j); ring.
Qed.
Lemma regularise_spec chol c : forall fuel m, exists k, (k <= fuel)%nat /\ regularise chol c fuel m = shifted k c m /\
  ((k < fuel)%nat -> chol (shifted k c m) = true) /\ forall j, (j < k)%nat -> chol (shifted j c m) = false.
Proof.
  induction fuel as [|n IH]; intros m; cbn [regularise].
  - exists O. split; [lia|]. split; [reflexivity|]. split; intros; lia.
  - destruct (chol m) eqn:E.
    + exists O. split; [lia|]. split; [reflexivity|]. split; [intros _; exact E|intros; lia].
    + destruct (IH (add_diag c m)) as (k & K1 & K2 & K3 & K4). exists (S k). split; [lia|]. split; [exact K2|]. split; [intros; apply K3; lia|].
      intros [|j] Hj; [exact E|]. apply (K4 j). lia.
Qed.
Lemma eye_entry n i j : (i < n)%nat -> (j < n)%nat -> entry (eye n) i j = if Nat.eqb i j then 1 else 0.
Proof.
  intros Hi Hj. unfold entry, eye. rewrite (map_nthd _ _ _ O) by (rewrite seq_length; lia). rewrite (map_nthd _ _ _ O) by (rewrite seq_length; lia). now rewrite !seq_nth by lia.
Qed.
Lemma eye_square n : square n (eye n).
Proof. unfold eye. split; [now rewrite map_length, seq_length|]. intros i Hi. rewrite (map_nthd _ _ _ O) by (rewrite seq_length; lia). now rewrite map_length, seq_length. Qed.
Lemma eye_posdef n : posdef n (eye n).
Proof.
  intros x Hx. unfold quad. rewrite (sumR_ext _ (fun i => x i * x i)); [exact Hx|]. intros i Hi. apply in_seq in Hi.
  rewrite (sumR_ext _ (fun j => if Nat.eqb i j then x i * x j else 0)); [now apply (sumR_delta (fun j => x i * x j))|].
  intros j Hj. apply in_seq in Hj. rewrite eye_entry by lia. destruct (Nat.eqb i j); ring.
Qed.
(** A unit vector: the diagonal of a positive definite matrix is positive *)
Lemma posdef_diag n m i : posdef n m -> (i < n)%nat -> 0 < entry m i i.
Proof.
  intros H Hi. set (e := fun j => if Nat.eqb i j then 1 else 0). assert (N : norm2 n e = 1).
  { unfold norm2, e. rewrite (sumR_ext _ (fun j => if Nat.eqb i j then 1 else 0)) by (intros; destruct (Nat.eqb i a); ring). exact (sumR_delta (fun _ => 1) n i Hi). }
  assert (Q : quad n m e = entry m i i).
  { unfold quad. rewrite (sumR_ext _ (fun a => if Nat.eqb i a then entry m a i else 0)); [exact (sumR_delta (fun a => entry m a i) n i Hi)|].
    intros a Ha. unfold e at 1. rewrite (sumR_ext _ (fun j => if Nat.eqb i j then (if Nat.eqb i a then 1 else 0) * entry m a j else 0)) by (intros b Hb; unfold e; destruct (Nat.eqb i b), (Nat.eqb i a); ring).
    rewrite (sumR_delta (fun j => (if Nat.eqb i a then 1 else 0) * entry m a j) n i Hi). destruct (Nat.eqb i a); ring. }
  rewrite <- Q. apply H. lra.
Qed.
Lemma diag_nth n m i : square n m -> (i < n)%nat -> nth_error (diag m) i = Some (entry m i i).
Proof.
  intros [L H] Hi. unfold diag. rewrite nth_error_map. rewrite (nth_error_nth' (enumerate m) (O, [])) by (rewrite enumerate_length; lia). rewrite enumerate_nth by lia. reflexivity.
Qed.
