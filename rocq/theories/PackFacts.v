From Verif Require Import Np NpFacts SceneModel ChainFacts PackModel.
From Coq Require Import Sorting.Sorted.

(** ** cumsum and split *)
Lemma cumsum_from_length s l : List.length (cumsum_from s l) = List.length l.
Proof. revert s. induction l as [|x l IH]; intros s; simpl; auto. Qed.
Lemma cumsum_from_nth s l k : k < List.length l -> nth_error (cumsum_from s l) k = Some (s + list_sum (firstn (S k) l)).
Proof.
  revert s k. induction l as [|x l IH]; intros s k Hk; simpl in *; [lia|]. destruct k as [|k]; simpl.
  - f_equal. lia.
  - rewrite IH by lia. f_equal. simpl. lia.
Qed.
Lemma cumsum_from_removelast s l : removelast (cumsum_from s l) = cumsum_from s (removelast l).
Proof. revert s. induction l as [|x [|y l] IH]; intros s; auto. simpl in *. now rewrite IH. Qed.

Lemma split_pieces {A} (ps : list (list A)) last (before : list A) :
  split_from (List.length before) (cumsum_from (List.length before) (map (@List.length A) ps)) (before ++ concat ps ++ last) = ps ++ [last].
Proof.
  revert before. induction ps as [|p ps IH]; intros before; simpl.
  - now rewrite skipn_app, Nat.sub_diag, skipn_all.
  - replace (List.length before + List.length p - List.length before) with (List.length p) by lia. f_equal.
    + rewrite skipn_app, Nat.sub_diag, skipn_all. simpl. rewrite <- app_assoc, firstn_app, Nat.sub_diag, firstn_all. simpl. now rewrite app_nil_r.
    + specialize (IH (before ++ p)). rewrite app_length in IH. rewrite <- IH. f_equal. now rewrite <- !app_assoc.
Qed.
(** Splitting at the sizes of the pieces returns the pieces. *)
Lemma split_sizes {A} (ps : list (list A)) ns : ps <> [] -> ns = map (@List.length A) ps -> np_split (concat ps) (cumsum (removelast ns)) = ps.
Proof.
  intros Hne ->. destruct (exists_last Hne) as (qs & last & ->). rewrite map_app. simpl map. rewrite removelast_last.
  unfold np_split, cumsum. rewrite concat_app. simpl concat. rewrite app_nil_r. exact (split_pieces qs last []).
Qed.
(** Whatever the tables, the pieces of a split that never goes back make up the whole. *)
Fixpoint ascending (prev : nat) (l : list nat) : Prop := match l with [] => True | i :: t => prev <= i /\ ascending i t end.
Lemma split_concat {A} (arr : list A) idx : forall prev, ascending prev idx -> concat (split_from prev idx arr) = skipn prev arr.
Proof.
  induction idx as [|i t IH]; intros prev; simpl; intros Ha; [now rewrite app_nil_r|]. destruct Ha as [H1 H2]. rewrite IH by auto.
  replace i with (prev + (i - prev)) at 2 by lia. rewrite <- skipn_skipn. apply firstn_skipn.
Qed.
Lemma cumsum_ascending l : forall s, ascending s (cumsum_from s l).
Proof. induction l as [|x l IH]; intros s; simpl; auto. split; [lia|apply IH]. Qed.

(** Pieces of given sizes of any list *)
Fixpoint cut {A} (ns : list nat) (arr : list A) : list (list A) :=
  match ns with [] => [] | n :: t => firstn n arr :: cut t (skipn n arr) end.
Lemma cut_sizes {A} ns : forall arr : list A, list_sum ns = List.length arr -> map (@List.length A) (cut ns arr) = ns /\ concat (cut ns arr) = arr.
Proof.
  induction ns as [|n ns IH]; intros arr H; simpl in *.
  - destruct arr; [auto|discriminate].
  - destruct (IH (skipn n arr)) as [H1 H2]; [rewrite skipn_length; lia|]. rewrite H1, H2, firstn_length, firstn_skipn. split; auto. f_equal. lia.
Qed.

(** ** unique *)
Lemma existsb_in v l : existsb (Nat.eqb v) l = true <-> In v l.
Proof.
  rewrite existsb_exists. split.
  - intros (x & Hx & E). apply Nat.eqb_eq in E. now subst.
  - intros H. exists v. split; auto. apply Nat.eqb_refl.
Qed.
Lemma in_unique v l : In v (np_unique l) <-> In v l.
Proof.
  unfold np_unique. rewrite filter_In, existsb_in, in_seq. split; [easy|]. intros H. split; auto. split; [lia|].
  assert (v <= list_max l); [|lia]. assert (F := proj1 (list_max_le l (list_max l)) (Nat.le_refl _)). rewrite Forall_forall in F. auto.
Qed.
(** the number of occurring values below [v] *)
Definition rank (l : list nat) (v : nat) : nat := List.length (filter (fun u => existsb (Nat.eqb u) l) (seq 0 v)).
Lemma unique_rank l v : In v l -> nth_error (np_unique l) (rank l v) = Some v.
Proof.
  intros H. pose proof (proj2 (in_unique v l) H) as Hu. unfold np_unique in *. apply filter_In in Hu. destruct Hu as [Hs Hb]. apply in_seq in Hs.
  replace (S (list_max l)) with (v + (1 + (list_max l - v))) by lia. rewrite seq_app, filter_app. simpl. rewrite Hb.
  unfold rank. rewrite nth_error_app2 by lia. now rewrite Nat.sub_diag.
Qed.
Lemma rank_lt l v : In v l -> rank l v < List.length (np_unique l).
Proof. intros H. apply nth_error_Some. rewrite (unique_rank l v H). easy. Qed.
Lemma rank_next l v w : In v l -> v < w -> (forall u, In u l -> ~ (v < u < w)) -> rank l w = S (rank l v).
Proof.
  intros Hv Hw Hno. unfold rank. replace w with (v + (1 + (w - v - 1))) by lia. rewrite seq_app, filter_app, app_length. simpl.
  rewrite (proj2 (existsb_in v l) Hv). simpl.
  assert (E : filter (fun u => existsb (Nat.eqb u) l) (seq (S v) (w - v - 1)) = []).
  { assert (N : forall u, In u (seq (S v) (w - v - 1)) -> existsb (Nat.eqb u) l = false).
    { intros u Hu. apply in_seq in Hu. destruct (existsb (Nat.eqb u) l) eqn:E; auto. apply existsb_in in E. exfalso. apply (Hno u E). lia. }
    revert N. generalize (seq (S v) (w - v - 1)). induction l0 as [|a l0 IH]; simpl; intros N; auto. rewrite N by auto. apply IH. auto. }
  rewrite E. simpl. lia.
Qed.
Lemma unique_sorted l : StronglySorted lt (np_unique l).
Proof.
  unfold np_unique. generalize (S (list_max l)). intros n.
  assert (G : forall k m, StronglySorted lt (filter (fun v => existsb (Nat.eqb v) l) (seq k m))).
  { intros k m. revert k. induction m as [|m IH]; intros k; simpl; [constructor|]. destruct (existsb (Nat.eqb k) l); auto. constructor; auto.
    apply Forall_forall. intros x Hx. apply filter_In in Hx. destruct Hx as [Hx _]. apply in_seq in Hx. lia. }
  apply G.
Qed.
Lemma unique_rank_inv l k v : nth_error (np_unique l) k = Some v -> rank l v = k.
Proof.
  intros H. assert (Hv : In v l) by (apply in_unique; eapply nth_error_In; eauto). pose proof (unique_rank l v Hv) as H2.
  assert (ND : NoDup (np_unique l)) by (unfold np_unique; apply NoDup_filter, seq_NoDup).
  rewrite NoDup_nth_error in ND. symmetry. apply ND; [apply nth_error_Some; congruence|congruence].
Qed.

(** ** Sorted lists of band numbers *)
Lemma nondecreasing_sorted l : nondecreasing l = true <-> StronglySorted le l.
Proof.
  induction l as [|x [|y l] IH]; simpl.
  - split; auto. constructor.
  - split; auto. intros _. constructor; constructor.
  - rewrite Bool.andb_true_iff, IH, Nat.leb_le. split.
    + intros [H1 H2]. constructor; auto. inversion H2; subst. constructor; auto.
      eapply Forall_impl; [|exact H4]. simpl. intros; lia.
    + intros H. inversion H; subst. split; auto. inversion H3; subst. auto.
Qed.
Definition below (v : nat) (l : list nat) : nat := List.length (filter (fun x => x <? v) l).
Lemma sorted_block l : StronglySorted le l -> forall v e, e < List.length l ->
  (nth_error l e = Some v <-> below v l <= e < below v l + count_occ Nat.eq_dec l v).
Proof.
  induction 1 as [|x l Hs IH Hx]; intros v e He; simpl in *; [lia|].
  assert (B0 : x >= v -> below v l = 0).
  { intros Hv. unfold below. rewrite (proj2 (length_zero_iff_nil _)); auto. rewrite Forall_forall in Hx.
    assert (N : forall u, In u l -> (u <? v) = false) by (intros u Hu; apply Nat.ltb_ge; specialize (Hx u Hu); lia).
    clear -N. induction l as [|a l IH]; simpl; auto. rewrite N by (simpl; auto). apply IH. intros; apply N; simpl; auto. }
  assert (C0 : x > v -> count_occ Nat.eq_dec l v = 0).
  { intros Hv. apply count_occ_not_In. intros Hi. rewrite Forall_forall in Hx. specialize (Hx v Hi). lia. }
  unfold below. simpl. fold (below v l).
  destruct (Nat.ltb_spec x v).
  - simpl. fold (below v l). destruct (Nat.eq_dec x v); [lia|]. destruct e as [|e]; simpl.
    + split; [intros E; injection E as ->; lia|lia].
    + rewrite IH by lia. lia.
  - fold (below v l). rewrite B0 by lia. destruct (Nat.eq_dec x v) as [->|Hne].
    + destruct e as [|e]; simpl; [split; auto; lia|]. rewrite IH by lia. rewrite B0 by lia. lia.
    + rewrite C0 by lia. destruct e as [|e]; simpl.
      * split; [intros E; injection E as ->; lia|lia].
      * rewrite IH by lia. rewrite B0, C0 by lia. lia.
Qed.
(** counts of the first [k] occurring values = number of entries below value [k] *)
Lemma below_counts l k v : nth_error (np_unique l) k = Some v ->
  list_sum (firstn k (unique_counts l)) = below v l.
Proof.
  intros H. unfold unique_counts. rewrite firstn_map.
  assert (Hf : firstn k (np_unique l) = filter (fun u => existsb (Nat.eqb u) l) (seq 0 v)).
  { pose proof (unique_rank_inv _ _ _ H) as Hr. assert (Hv : In v l) by (apply in_unique; eapply nth_error_In; eauto).
    unfold np_unique. assert (Hm : v <= list_max l). { assert (F := proj1 (list_max_le l (list_max l)) (Nat.le_refl _)). rewrite Forall_forall in F. auto. }
    replace (S (list_max l)) with (v + (S (list_max l) - v)) by lia. rewrite seq_app, filter_app. unfold rank in Hr. rewrite <- Hr.
    rewrite firstn_app, Nat.sub_diag, firstn_all. simpl. apply app_nil_r. }
  rewrite Hf. clear. 
  assert (G : forall a m, (forall x, In x m -> In x l) -> list_sum (map (fun u => count_occ Nat.eq_dec m u) (filter (fun u => existsb (Nat.eqb u) l) (seq 0 a))) = below a m).
  { intros a m Hm. unfold below. induction m as [|x m IH]; simpl.
    - induction (filter _ _); simpl; auto.
    - assert (Hs : forall us, NoDup us -> list_sum (map (fun u => if Nat.eq_dec x u then S (count_occ Nat.eq_dec m u) else count_occ Nat.eq_dec m u) us)
                 = (if in_dec Nat.eq_dec x us then 1 else 0) + list_sum (map (fun u => count_occ Nat.eq_dec m u) us)).
      { induction us as [|u us IHu]; simpl; intros ND; auto. inversion ND; subst. rewrite IHu by auto.
        destruct (Nat.eq_dec x u) as [->|Hne].
        - destruct (Nat.eq_dec u u); [|congruence]. destruct (in_dec Nat.eq_dec u us); [contradiction|]. lia.
        - destruct (Nat.eq_dec u x); [congruence|]. destruct (in_dec Nat.eq_dec x us); lia. }
      rewrite Hs by (apply NoDup_filter, seq_NoDup). rewrite IH by (intros; apply Hm; simpl; auto).
      destruct (in_dec Nat.eq_dec x (filter (fun u => existsb (Nat.eqb u) l) (seq 0 a))) as [Hi|Hi].
      + apply filter_In in Hi. destruct Hi as [Hi _]. apply in_seq in Hi. destruct (Nat.ltb_spec x a); [simpl; lia|lia].
      + destruct (Nat.ltb_spec x a); [|lia]. exfalso. apply Hi. apply filter_In. split; [apply in_seq; lia|]. apply existsb_in. apply Hm. simpl. auto. }
  apply (G v l). auto.
Qed.
