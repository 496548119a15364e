(** Lemmas about Np.v *)
From Verif Require Import Np.
From Coq Require Import Permutation Sorted.

Lemma upd_length {A} i (x : A) l : List.length (upd i x l) = List.length l.
Proof. revert i; induction l as [|h t IH]; intros [|i]; simpl; auto. Qed.

Lemma nth_error_upd {A} i (x : A) l j :
  nth_error (upd i x l) j =
  if Nat.eqb i j then (if Nat.ltb j (List.length l) then Some x else None)
  else nth_error l j.
Proof.
  revert i j; induction l as [|h t IH]; intros i j.
  - destruct i, j; simpl; try reflexivity; destruct (Nat.eqb i j); reflexivity.
  - destruct i, j; simpl; auto.
    rewrite IH. destruct (Nat.eqb i j); auto.
Qed.

Lemma mapM_Some {A B} (f : A -> option B) l r :
  mapM f l = Some r <-> Forall2 (fun x y => f x = Some y) l r.
Proof.
  revert r; induction l as [|x t IH]; intros r; simpl; split; intros H.
  - injection H as <-; constructor.
  - inversion H; subst; reflexivity.
  - destruct (f x) eqn:E; try discriminate. destruct (mapM f t) eqn:E2; try discriminate.
    injection H as <-. constructor; auto. apply IH; reflexivity.
  - inversion H as [|? y ? ys Hx Ht]; subst. rewrite Hx.
    apply IH in Ht. rewrite Ht. reflexivity.
Qed.

Lemma mapM_length {A B} (f : A -> option B) l r :
  mapM f l = Some r -> List.length r = List.length l.
Proof. intros H. apply mapM_Some in H. induction H; simpl; auto. Qed.

Lemma fancy_put_field_length {A B} (setf : A -> B -> A) inds : forall l vals,
  List.length (fancy_put_field setf l inds vals) = List.length l.
Proof.
  induction inds as [|i is_ IH]; intros l vals; simpl; auto.
  destruct vals; auto. rewrite IH. destruct (nth_error l i); auto using upd_length.
Qed.

(** Rows whose index is not written are untouched. *)
Lemma fancy_put_field_other {A B} (setf : A -> B -> A) inds : forall l vals j,
  ~ In j inds -> nth_error (fancy_put_field setf l inds vals) j = nth_error l j.
Proof.
  induction inds as [|i is_ IH]; intros l vals j Hj; simpl; auto.
  destruct vals; auto. simpl in Hj.
  rewrite IH by tauto. destruct (nth_error l i) eqn:E; auto.
  rewrite nth_error_upd. destruct (Nat.eqb_spec i j); auto; subst; tauto.
Qed.

(** With distinct indices, the k-th index receives the k-th value. *)
Lemma fancy_put_field_at {A B} (setf : A -> B -> A) inds : forall l vals k j v,
  NoDup inds -> nth_error inds k = Some j -> nth_error vals k = Some v ->
  nth_error (fancy_put_field setf l inds vals) j = option_map (fun r => setf r v) (nth_error l j).
Proof.
  induction inds as [|i is_ IH]; intros l vals k j v Hnd Hk Hv.
  - destruct k; discriminate.
  - inversion Hnd as [|? ? Hni Hnd']; subst.
    destruct vals as [|w vs]; [destruct k; discriminate|].
    simpl. destruct k as [|k]; simpl in Hk, Hv.
    + injection Hk as ->; injection Hv as ->.
      rewrite fancy_put_field_other by assumption.
      destruct (nth_error l j) eqn:E; simpl; auto.
      rewrite nth_error_upd, Nat.eqb_refl.
      assert (j < List.length l) by (apply nth_error_Some; congruence).
      destruct (Nat.ltb_spec j (List.length l)); [reflexivity|lia].
    + rewrite (IH _ _ k j v Hnd' Hk Hv).
      assert (i <> j) by (intros ->; apply Hni; eapply nth_error_In; eauto).
      destruct (nth_error l i) eqn:E; auto.
      rewrite nth_error_upd. destruct (Nat.eqb_spec i j); [congruence|reflexivity].
Qed.

(** Writing a scalar: every listed row gets it (duplicates harmless when the
    write is idempotent on rows). *)
Lemma fancy_put_scalar_other {A B} (setf : A -> B -> A) inds l v j :
  ~ In j inds -> nth_error (fancy_put_scalar setf l inds v) j = nth_error l j.
Proof. apply fancy_put_field_other. Qed.

Lemma fancy_put_scalar_at {A B} (setf : A -> B -> A)
      (Hidem : forall r v w, setf (setf r w) v = setf r v) inds : forall l v j,
  In j inds -> nth_error (fancy_put_scalar setf l inds v) j =
               option_map (fun r => setf r v) (nth_error l j).
Proof.
  unfold fancy_put_scalar.
  induction inds as [|i is_ IH]; intros l v j Hj; [contradiction|].
  simpl. destruct (in_dec Nat.eq_dec j is_) as [Hin|Hnin].
  - rewrite IH by assumption.
    destruct (nth_error l i) eqn:E; auto.
    rewrite nth_error_upd. destruct (Nat.eqb_spec i j) as [->|]; auto.
    rewrite E. assert (j < List.length l) by (apply nth_error_Some; congruence).
    destruct (Nat.ltb_spec j (List.length l)); [|lia]. simpl. now rewrite Hidem.
  - rewrite fancy_put_field_other by assumption.
    destruct Hj as [->|Hj]; [|tauto].
    destruct (nth_error l j) eqn:E; simpl; auto.
    rewrite nth_error_upd, Nat.eqb_refl.
    assert (j < List.length l) by (apply nth_error_Some; congruence).
    destruct (Nat.ltb_spec j (List.length l)); [reflexivity|lia].
Qed.

Lemma nth_error_ext {A} (l1 l2 : list A) :
  (forall i, nth_error l1 i = nth_error l2 i) -> l1 = l2.
Proof.
  revert l2; induction l1 as [|x t IH]; intros [|y u] H; auto.
  - specialize (H 0); discriminate.
  - specialize (H 0); discriminate.
  - f_equal.
    + specialize (H 0); simpl in H; congruence.
    + apply IH. intros i. exact (H (S i)).
Qed.

Lemma NoDup_app_iff {A} (l1 l2 : list A) :
  NoDup (l1 ++ l2) <-> NoDup l1 /\ NoDup l2 /\ (forall x, In x l1 -> ~ In x l2).
Proof.
  induction l1 as [|a l1 IH]; simpl.
  - split; [intros H; repeat split; auto; constructor | tauto].
  - rewrite !NoDup_cons_iff, in_app_iff, IH. firstorder; subst; eauto.
Qed.

Lemma NoDup_concat_app {A} (o1 o2 : list (list A)) l :
  NoDup (concat (o1 ++ l :: o2)) -> NoDup (concat (o1 ++ o2)).
Proof.
  rewrite !concat_app; simpl. rewrite !NoDup_app_iff.
  intros (H1 & (H2 & H3 & H4) & H5); repeat split; auto.
  intros x Hx Hy; apply (H5 x Hx); apply in_or_app; auto.
Qed.

Lemma np_index_Some n i k : np_index n i = Some k -> k < n.
Proof.
  unfold np_index.
  destruct ((0 <=? i) && (i <? Z.of_nat n))%Z eqn:E1.
  - intros [= <-]. apply andb_true_iff in E1. lia.
  - destruct ((- Z.of_nat n <=? i) && (i <? 0))%Z eqn:E2; [|discriminate].
    intros [= <-]. apply andb_true_iff in E2. lia.
Qed.

Lemma np_index_nat n i : i < n -> np_index n (Z.of_nat i) = Some i.
Proof.
  intros H. unfold np_index.
  destruct ((0 <=? Z.of_nat i) && (Z.of_nat i <? Z.of_nat n))%Z eqn:E.
  - f_equal; lia.
  - apply andb_false_iff in E. lia.
Qed.

Lemma Qltb_lt x y : Qltb x y = true <-> (x < y)%Q.
Proof.
  unfold Qltb. rewrite negb_true_iff. split; intros H.
  - apply Qnot_le_lt. intros Hle. apply Qle_bool_iff in Hle. congruence.
  - apply not_true_iff_false. rewrite Qle_bool_iff. now apply Qlt_not_le.
Qed.

Lemma Qltb_nlt x y : Qltb x y = false <-> (y <= x)%Q.
Proof.
  unfold Qltb. rewrite negb_false_iff. apply Qle_bool_iff.
Qed.

Lemma Qmaxb_l x y : (x <= Qmaxb x y)%Q.
Proof. unfold Qmaxb. destruct (Qltb x y) eqn:E; [apply Qltb_lt in E; now apply Qlt_le_weak | apply Qle_refl]. Qed.
Lemma Qmaxb_r x y : (y <= Qmaxb x y)%Q.
Proof. unfold Qmaxb. destruct (Qltb x y) eqn:E; [apply Qle_refl | now apply Qltb_nlt in E]. Qed.
Lemma Qmaxb_cases x y : Qmaxb x y = x \/ Qmaxb x y = y.
Proof. unfold Qmaxb. destruct (Qltb x y); auto. Qed.

Lemma fold_Qmaxb_ge t : forall x, (x <= fold_left Qmaxb t x)%Q.
Proof.
  induction t as [|y t IH]; intros x; simpl; [apply Qle_refl|].
  eapply Qle_trans; [apply (Qmaxb_l x y)|apply IH].
Qed.

Lemma fold_Qmaxb_in t : forall x y, In y t -> (y <= fold_left Qmaxb t x)%Q.
Proof.
  induction t as [|z t IH]; intros x y Hy; [contradiction|].
  destruct Hy as [->|Hy]; simpl.
  - eapply Qle_trans; [apply (Qmaxb_r x y)|apply fold_Qmaxb_ge].
  - now apply IH.
Qed.

Lemma fold_Qmaxb_attained t : forall x, In (fold_left Qmaxb t x) (x :: t).
Proof.
  induction t as [|z t IH]; intros x; simpl; auto.
  destruct (IH (Qmaxb x z)) as [H|H].
  - rewrite <- H. destruct (Qmaxb_cases x z) as [->| ->]; auto.
  - auto.
Qed.

Lemma Qmax_list_spec l m : Qmax_list l = Some m ->
  In m l /\ forall x, In x l -> (x <= m)%Q.
Proof.
  destruct l as [|x t]; [discriminate|]. intros [= <-]. split.
  - apply fold_Qmaxb_attained.
  - intros y [<-|Hy]; [apply fold_Qmaxb_ge | now apply fold_Qmaxb_in].
Qed.

Lemma mask_In {A} m (l : list A) x : In x (mask m l) -> In x l.
Proof.
  revert l; induction m as [|b m IH]; intros [|y l] H; simpl in *; try contradiction.
  destruct b; simpl in H; firstorder.
Qed.

Lemma mask_map {A} (f : A -> bool) l : mask (map f l) l = filter f l.
Proof. induction l as [|x l IH]; simpl; auto. destruct (f x); now rewrite IH. Qed.

(** The concrete argsort is a sorting permutation. *)
Definition argsort_ok (l : list Q) (o : list nat) : Prop :=
  Permutation o (seq 0 (List.length l)) /\
  StronglySorted (fun i j => nth i l 0 <= nth j l 0)%Q o.

Lemma insert_by_perm key i l : Permutation (insert_by key i l) (i :: l).
Proof.
  induction l as [|j t IH]; simpl; auto.
  destruct (Qltb (key j) (key i)); auto.
  rewrite IH. apply perm_swap.
Qed.

Lemma insert_by_sorted key i l :
  StronglySorted (fun a b => key a <= key b)%Q l ->
  StronglySorted (fun a b => key a <= key b)%Q (insert_by key i l).
Proof.
  induction l as [|j t IH]; intros H; simpl.
  - repeat constructor.
  - inversion H as [|? ? Hs Hf]; subst.
    destruct (Qltb (key j) (key i)) eqn:E.
    + constructor; auto. apply Forall_forall. intros x Hx.
      apply (Permutation_in _ (insert_by_perm key i t)) in Hx.
      destruct Hx as [<-|Hx].
      * apply Qltb_lt in E; now apply Qlt_le_weak.
      * rewrite Forall_forall in Hf; auto.
    + apply Qltb_nlt in E. constructor; auto. constructor; auto.
      rewrite Forall_forall in Hf |- *. intros x Hx.
      eapply Qle_trans; [exact E|auto].
Qed.

Lemma argsort_ins_ok l : argsort_ok l (argsort_ins l).
Proof.
  unfold argsort_ok, argsort_ins.
  set (key := fun i => nth i l 0%Q).
  assert (H : forall s, Permutation (fold_right (insert_by key) [] s) s /\
     StronglySorted (fun a b => key a <= key b)%Q (fold_right (insert_by key) [] s)).
  { induction s as [|i s [IHp IHs]]; simpl.
    - split; constructor.
    - split.
      + rewrite insert_by_perm. now constructor.
      + now apply insert_by_sorted. }
  apply H.
Qed.

Lemma firstn_In {A} n (l : list A) x : In x (firstn n l) -> In x l.
Proof. intros H. rewrite <- (firstn_skipn n l). apply in_or_app; auto. Qed.
Lemma skipn_In {A} n (l : list A) x : In x (skipn n l) -> In x l.
Proof. intros H. rewrite <- (firstn_skipn n l). apply in_or_app; auto. Qed.

Lemma count_true_length {A} (f : A -> bool) l :
  count_true (map f l) = List.length (filter f l).
Proof.
  unfold count_true. induction l as [|x l IH]; simpl; auto.
  destruct (f x); simpl; now rewrite IH.
Qed.

Lemma Permutation_filter {A} (f : A -> bool) l l' :
  Permutation l l' -> Permutation (filter f l) (filter f l').
Proof.
  induction 1; simpl; auto.
  - destruct (f x); auto.
  - destruct (f x), (f y); auto. apply perm_swap.
  - etransitivity; eauto.
Qed.

Lemma map_nth_seq {A} (d : A) l : map (fun i => nth i l d) (seq 0 (List.length l)) = l.
Proof.
  induction l as [|x l IH]; simpl; auto. f_equal.
  rewrite <- seq_shift, map_map. exact IH.
Qed.

Lemma fancy_get_map {A} (d : A) l inds :
  (forall i, In i inds -> i < List.length l) ->
  fancy_get l inds = Some (map (fun i => nth i l d) inds).
Proof.
  unfold fancy_get. induction inds as [|i inds IH]; intros H; simpl; auto.
  rewrite (nth_error_nth' l d) by (apply H; simpl; auto).
  rewrite IH by (intros; apply H; simpl; auto). reflexivity.
Qed.

Lemma fancy_get_Some {A} (d : A) l inds r :
  fancy_get l inds = Some r ->
  (forall i, In i inds -> i < List.length l) /\ r = map (fun i => nth i l d) inds.
Proof.
  intros H. assert (Hlt : forall i, In i inds -> i < List.length l).
  { apply mapM_Some in H. intros i Hi. induction H; [contradiction|].
    destruct Hi as [->|Hi]; auto. apply nth_error_Some. congruence. }
  split; auto. rewrite (fancy_get_map d) in H by assumption. congruence.
Qed.

Lemma NoDup_map_nth {A} (d : A) l inds :
  NoDup l -> NoDup inds -> (forall i, In i inds -> i < List.length l) ->
  NoDup (map (fun i => nth i l d) inds).
Proof.
  intros Hl. induction inds as [|i inds IH]; intros Hn Hlt; simpl; constructor.
  - inversion Hn; subst. intros Hin. apply in_map_iff in Hin as (j & Hj & Hjin).
    rewrite (NoDup_nth l d) in Hl.
    assert (j = i) by (apply Hl; auto; apply Hlt; simpl; auto). subst; auto.
  - inversion Hn; subst. apply IH; auto. intros; apply Hlt; simpl; auto.
Qed.

(** In a sorted list a downward-closed test holds on a prefix. *)
Lemma sorted_prefix {A} (R : A -> A -> Prop) (P : A -> bool) l :
  StronglySorted R l -> (forall x y, R x y -> P y = true -> P x = true) ->
  (forall x, In x (firstn (List.length (filter P l)) l) -> P x = true) /\
  (forall x, In x (skipn (List.length (filter P l)) l) -> P x = false).
Proof.
  intros Hs Hd. induction Hs as [|x l Hs IH Hf]; simpl.
  - split; contradiction.
  - destruct (P x) eqn:E; simpl.
    + destruct IH as [IH1 IH2]. split; auto. intros y [<-|Hy]; auto.
    + assert (Hall : forall y, In y l -> P y = false).
      { intros y Hy. rewrite Forall_forall in Hf. specialize (Hf y Hy).
        destruct (P y) eqn:Ey; auto. rewrite (Hd _ _ Hf Ey) in E. discriminate. }
      assert (Hnil : filter P l = []).
      { clear -Hall. induction l as [|z l IH]; simpl; auto.
        rewrite Hall by (simpl; auto). apply IH. intros; apply Hall; simpl; auto. }
      rewrite Hnil; simpl. split; [contradiction|]. intros y [<-|Hy]; auto.
Qed.

Lemma StronglySorted_firstn_skipn {A} (R : A -> A -> Prop) l n x y :
  StronglySorted R l -> In x (firstn n l) -> In y (skipn n l) -> R x y.
Proof.
  intros Hs. revert n. induction Hs as [|z l Hs IH Hf]; intros [|n] Hx Hy; simpl in *; try contradiction.
  destruct Hx as [<-|Hx]; eauto.
  rewrite Forall_forall in Hf. apply Hf. eapply skipn_In; eauto.
Qed.

Lemma NoDup_firstn_skipn {A} (l : list A) n :
  NoDup l -> NoDup (firstn n l) /\ NoDup (skipn n l) /\
             (forall x, In x (firstn n l) -> ~ In x (skipn n l)).
Proof. intros H. rewrite <- (firstn_skipn n l) in H. now apply NoDup_app_iff in H. Qed.

Lemma NoDup_firstn {A} (l : list A) n : NoDup l -> NoDup (firstn n l).
Proof. intros H. now apply (NoDup_firstn_skipn l n) in H. Qed.

Lemma np_any_map {A} (f : A -> bool) l :
  np_any (map f l) = true <-> exists x, In x l /\ f x = true.
Proof.
  unfold np_any. rewrite existsb_exists. split.
  - intros (b & Hb & Hf). apply in_map_iff in Hb as (x & <- & Hx). eauto.
  - intros (x & Hx & Hf). exists (f x). split; auto. now apply in_map.
Qed.

Lemma np_any_map_false {A} (f : A -> bool) l :
  np_any (map f l) = false <-> forall x, In x l -> f x = false.
Proof.
  split.
  - intros H x Hx. destruct (f x) eqn:E; auto.
    assert (np_any (map f l) = true) by (apply np_any_map; eauto). congruence.
  - intros H. destruct (np_any (map f l)) eqn:E; auto.
    apply np_any_map in E as (x & Hx & Hf). rewrite H in Hf by auto. discriminate.
Qed.

Lemma filter_length_le {A} (f : A -> bool) l : (List.length (filter f l) <= List.length l)%nat.
Proof. induction l as [|a l IH]; simpl; auto. destruct (f a); simpl; lia. Qed.

Lemma memn_In j l : memn j l = true <-> In j l.
Proof.
  unfold memn. rewrite existsb_exists. split.
  - intros (x & Hx & E). apply Nat.eqb_eq in E. now subst.
  - intros H. exists j. split; auto. apply Nat.eqb_refl.
Qed.
Lemma memn_nIn j l : memn j l = false <-> ~ In j l.
Proof. rewrite <- memn_In. destruct (memn j l); split; congruence. Qed.
Lemma memn_app j a b : memn j (a ++ b) = memn j a || memn j b.
Proof. apply existsb_app. Qed.


Lemma skipn_skipn {A} (a b : nat) (l : list A) : skipn a (skipn b l) = skipn (b + a) l.
Proof. revert l. induction b as [|b IH]; intros l; simpl; auto. destruct l; [now rewrite skipn_nil|apply IH]. Qed.
Lemma nth_error_firstn {A} (l : list A) n k : k < n -> nth_error (firstn n l) k = nth_error l k.
Proof.
  revert n k. induction l as [|x l IH]; intros [|n] [|k] H; simpl; auto; try lia. apply IH. lia.
Qed.
Lemma nth_error_skipn {A} (l : list A) n k : nth_error (skipn n l) k = nth_error l (n + k).
Proof. revert l. induction n as [|n IH]; intros [|x l]; simpl; auto. now destruct k. Qed.
