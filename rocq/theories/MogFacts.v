(** Sorting, reshaping and sums for MogModel. *)
From Coq Require Import Reals Lra Lia List Sorting.Sorted.
From Verif Require Import Np MogModel.
Import ListNotations.
Open Scope R_scope.

(** ** Sums *)
Lemma rsum_app : forall a b, rsum (a ++ b) = rsum a + rsum b.
Proof. unfold rsum; induction a; intros; cbn [app fold_right]; [lra|rewrite IHa; lra]. Qed.
Lemma rsum_map_plus : forall {A} (f g : A -> R) l, rsum (map (fun x => f x + g x) l) = rsum (map f l) + rsum (map g l).
Proof. unfold rsum; induction l; cbn [map fold_right]; [lra|rewrite IHl; lra]. Qed.
Lemma rsum_map_mult : forall {A} c (f : A -> R) l, rsum (map (fun x => c * f x) l) = c * rsum (map f l).
Proof. unfold rsum; induction l; cbn [map fold_right]; [lra|rewrite IHl; lra]. Qed.
Lemma rsum_map_0 : forall {A} (l : list A), rsum (map (fun _ => 0) l) = 0.
Proof. unfold rsum; induction l; cbn [map fold_right]; [lra|rewrite IHl; lra]. Qed.
Lemma rsum_swap : forall {A B} (f : A -> B -> R) (l : list A) (m : list B),
  rsum (map (fun x => rsum (map (f x) m)) l) = rsum (map (fun y => rsum (map (fun x => f x y) l)) m).
Proof.
  induction l; intros; cbn [map].
  - cbn; symmetry; apply rsum_map_0.
  - cbn [rsum fold_right]; fold (rsum (map (fun x => rsum (map (f x) m)) l)); rewrite IHl, <- rsum_map_plus.
    f_equal.
Qed.
Lemma rsum_ext_in : forall {A} (f g : A -> R) l, (forall x, In x l -> f x = g x) -> rsum (map f l) = rsum (map g l).
Proof. intros; f_equal; apply map_ext_in; assumption. Qed.
Lemma rsum_le : forall {A} (f g : A -> R) l, (forall x, In x l -> f x <= g x) -> rsum (map f l) <= rsum (map g l).
Proof.
  unfold rsum; induction l; intros H; cbn [map fold_right]; [lra|].
  assert (f a <= g a) by (apply H; now left).
  assert (fold_right Rplus 0 (map f l) <= fold_right Rplus 0 (map g l)) by (apply IHl; intros; apply H; now right). lra.
Qed.
Lemma rsum_abs : forall {A} (f : A -> R) l, Rabs (rsum (map f l)) <= rsum (map (fun x => Rabs (f x)) l).
Proof.
  unfold rsum; induction l; cbn [map fold_right]; [rewrite Rabs_R0; lra|].
  eapply Rle_trans; [apply Rabs_triang|lra].
Qed.
Lemma rsum_pos : forall l, l <> [] -> (forall x, In x l -> 0 < x) -> 0 < rsum l.
Proof.
  destruct l as [|a l]; [congruence|intros _ H]. cbn [rsum fold_right].
  assert (0 < a) by (apply H; now left).
  assert (0 <= fold_right Rplus 0 l).
  { clear H0. assert (forall x, In x l -> 0 < x) by (intros; apply H; now right). clear H.
    induction l; cbn; [lra|]. assert (0 < a0) by (apply H0; now left).
    assert (0 <= fold_right Rplus 0 l) by (apply IHl; intros; apply H0; now right). lra. }
  unfold rsum; lra.
Qed.
Lemma rsum_nonneg : forall l, (forall x, In x l -> 0 <= x) -> 0 <= rsum l.
Proof.
  unfold rsum; induction l; intros H; cbn; [lra|]. assert (0 <= a) by (apply H; now left).
  assert (0 <= fold_right Rplus 0 l) by (apply IHl; intros; apply H; now right). lra.
Qed.
Lemma rsum_zero_all : forall l, (forall x, In x l -> 0 <= x) -> rsum l = 0 -> forall x, In x l -> x = 0.
Proof.
  unfold rsum; induction l; intros H Hz x []; cbn in *.
  - subst a. assert (0 <= x) by (apply H; now left).
    assert (0 <= fold_right Rplus 0 l) by (apply (rsum_nonneg l); intros; apply H; now right). lra.
  - assert (0 <= a) by (apply H; now left).
    assert (0 <= fold_right Rplus 0 l) by (apply (rsum_nonneg l); intros; apply H; now right).
    apply IHl; [intros; apply H; now right|lra|assumption].
Qed.
Lemma rsum_all_zero : forall l, (forall x, In x l -> x = 0) -> rsum l = 0.
Proof.
  unfold rsum; induction l; intros H; cbn; [lra|]. rewrite (H a) by now left. rewrite IHl by (intros; apply H; now right). lra.
Qed.
Lemma map_nth_all : forall {A} (d : A) l, map (fun i => nth i l d) (seq 0 (List.length l)) = l.
Proof.
  intros A d; induction l; [reflexivity|]. cbn [List.length seq map nth]. f_equal.
  rewrite <- seq_shift, map_map. exact IHl.
Qed.

(** ** np.unique *)
Lemma insert_In : forall x l y, In y (insert x l) <-> y = x \/ In y l.
Proof.
  induction l as [|a l IH]; intros y; cbn.
  - firstorder.
  - destruct (Rlt_dec x a); [cbn; firstorder|]. destruct (Rlt_dec a x); [cbn; rewrite IH; firstorder|].
    assert (x = a) by lra. subst; cbn; firstorder.
Qed.
Lemma insert_sorted : forall x l, StronglySorted Rlt l -> StronglySorted Rlt (insert x l).
Proof.
  induction l as [|a l IH]; intros H; cbn; [repeat constructor|].
  inversion H as [|? ? H1 H2]; subst. rewrite Forall_forall in H2.
  destruct (Rlt_dec x a).
  - constructor; [assumption|]. constructor; [assumption|]. rewrite Forall_forall; intros y Hy. specialize (H2 y Hy); lra.
  - destruct (Rlt_dec a x); [|assumption].
    constructor; [now apply IH|]. rewrite Forall_forall; intros y Hy. apply insert_In in Hy; destruct Hy; [subst; assumption|auto].
Qed.
Lemma unique_In : forall l y, In y (unique l) <-> In y l.
Proof. induction l; intros; cbn; [tauto|]. rewrite insert_In. rewrite IHl. firstorder. Qed.
Lemma unique_sorted : forall l, StronglySorted Rlt (unique l).
Proof. induction l; cbn; [constructor|now apply insert_sorted]. Qed.
Lemma sorted_NoDup : forall l, StronglySorted Rlt l -> NoDup l.
Proof.
  induction 1 as [|a l H1 IH H2]; constructor; [|assumption]. intro. rewrite Forall_forall in H2. specialize (H2 a H). lra.
Qed.
Lemma sorted_ext : forall l m, StronglySorted Rlt l -> StronglySorted Rlt m -> (forall x, In x l <-> In x m) -> l = m.
Proof.
  induction l as [|a l IH]; intros m Hl Hm E.
  - destruct m as [|b m]; [reflexivity|]. exfalso; apply (proj2 (E b)); now left.
  - destruct m as [|b m]; [exfalso; apply (proj1 (E a)); now left|].
    inversion Hl as [|? ? L1 L2]; inversion Hm as [|? ? M1 M2]; subst. rewrite Forall_forall in L2, M2.
    assert (a = b).
    { destruct (proj1 (E a) (or_introl eq_refl)) as [|I]; [congruence|].
      destruct (proj2 (E b) (or_introl eq_refl)) as [|J]; [congruence|]. specialize (L2 _ J); specialize (M2 _ I); lra. }
    subst b. f_equal. apply IH; [assumption..|]. intros x; split; intros I.
    + destruct (proj1 (E x) (or_intror I)); [subst; specialize (L2 _ I); lra|assumption].
    + destruct (proj2 (E x) (or_intror I)); [subst; specialize (M2 _ I); lra|assumption].
Qed.
Lemma unique_of : forall l m, StronglySorted Rlt m -> (forall x, In x l <-> In x m) -> unique l = m.
Proof. intros; apply sorted_ext; [apply unique_sorted|assumption|]. intros; rewrite unique_In; auto. Qed.
Lemma NoDup_inc : forall (l m : list R), NoDup l -> incl l m -> (List.length l <= List.length m)%nat.
Proof. intros; now apply NoDup_incl_length. Qed.
Lemma unique_incl : forall l m, incl l m -> incl (unique l) m.
Proof. intros l m H x Hx. apply H. now apply unique_In. Qed.
Lemma unique_length_le : forall l m, incl l m -> (List.length (unique l) <= List.length m)%nat.
Proof. intros. apply NoDup_inc; [apply sorted_NoDup, unique_sorted|now apply unique_incl]. Qed.
Lemma unique_length_lt : forall l m, incl l m -> ~ NoDup m -> (List.length (unique l) < List.length m)%nat.
Proof.
  intros l m I H. destruct (Nat.eq_dec (List.length (unique l)) (List.length m)) as [E|]; [|pose proof (unique_length_le l m I); lia].
  exfalso; apply H. apply (@NoDup_incl_NoDup R (unique l)).
  - apply sorted_NoDup, unique_sorted.
  - lia.
  - now apply unique_incl.
Qed.

(** ** The table *)
Lemma list_prod_length : forall {A B} (a : list A) (b : list B), List.length (list_prod a b) = (List.length a * List.length b)%nat.
Proof. intros; apply prod_length. Qed.
Lemma list_prod_fst : forall {A B} (a : list A) (b : list B), b <> [] -> forall x, In x (map fst (list_prod a b)) <-> In x a.
Proof.
  intros A B a b Hb x; rewrite in_map_iff; split.
  - intros [[y z] [E H]]. apply in_prod_iff in H. cbn in E; subst; tauto.
  - intros H. destruct b as [|z b]; [congruence|]. exists (x, z); split; [reflexivity|]. apply in_prod_iff; cbn; auto.
Qed.
Lemma list_prod_snd : forall {A B} (a : list A) (b : list B), a <> [] -> forall x, In x (map snd (list_prod a b)) <-> In x b.
Proof.
  intros A B a b Hb x; rewrite in_map_iff; split.
  - intros [[y z] [E H]]. apply in_prod_iff in H. cbn in E; subst; tauto.
  - intros H. destruct a as [|z a]; [congruence|]. exists (z, x); split; [reflexivity|]. apply in_prod_iff; cbn; auto.
Qed.
Lemma rows_of_prod : forall {A B C} (f : A * B -> C) (a : list A) (b : list B),
  rows_of (List.length b) (List.length a) (map f (list_prod a b)) = map (fun x => map (fun y => f (x, y)) b) a.
Proof.
  induction a as [|x a IH]; intros b; [reflexivity|]. cbn [list_prod List.length rows_of map].
  rewrite map_app, map_map. f_equal.
  - rewrite firstn_app, map_length, Nat.sub_diag. cbn. rewrite app_nil_r. apply firstn_all2. rewrite map_length; lia.
  - rewrite skipn_app, map_length, Nat.sub_diag, skipn_all2 by (rewrite map_length; lia). cbn. apply IH.
Qed.
Lemma norm_amps_length : forall p, List.length (norm_amps p) = List.length p.
Proof. intros; unfold norm_amps; rewrite !map_length; reflexivity. Qed.
Lemma sum_exp_pos : forall p, p <> [] -> 0 < rsum (map exp p).
Proof.
  intros p Hp; apply rsum_pos; [destruct p; [congruence|discriminate]|]. intros x H; apply in_map_iff in H; destruct H as [y [<- _]]; apply exp_pos.
Qed.
Lemma norm_amps_sum : forall p, p <> [] -> rsum (norm_amps p) = 1.
Proof.
  intros p Hp. pose proof (sum_exp_pos p Hp). unfold norm_amps.
  rewrite (rsum_ext_in _ (fun a => / rsum (map exp p) * a)) by (intros; unfold Rdiv; lra).
  rewrite (rsum_map_mult _ (fun a => a)), map_id. field; lra.
Qed.
Lemma rsum_in_le : forall l x, (forall y, In y l -> 0 <= y) -> In x l -> x <= rsum l.
Proof.
  unfold rsum; induction l as [|a l IH]; intros x H []; cbn.
  - subst. assert (0 <= fold_right Rplus 0 l) by (apply (rsum_nonneg l); intros; apply H; now right). lra.
  - assert (0 <= a) by (apply H; now left). assert (x <= fold_right Rplus 0 l) by (apply IH; [intros; apply H; now right|assumption]). lra.
Qed.
Lemma norm_amps_range : forall p a, (2 <= List.length p)%nat -> In a (norm_amps p) -> 0 < a < 1.
Proof.
  intros p a Hp H. assert (Hn : p <> []) by (destruct p; [cbn in Hp; lia|discriminate]).
  pose proof (sum_exp_pos p Hn) as S0. pose proof (norm_amps_sum p Hn) as S1.
  assert (P : forall y, In y (norm_amps p) -> 0 < y).
  { intros y Hy; unfold norm_amps in Hy; apply in_map_iff in Hy; destruct Hy as [z [<- Hz]].
    apply in_map_iff in Hz; destruct Hz as [w [<- _]]. apply Rdiv_lt_0_compat; [apply exp_pos|assumption]. }
  split; [auto|]. apply in_split in H; destruct H as [u [v E]].
  assert (L : (1 <= List.length (u ++ v))%nat).
  { pose proof (f_equal (@List.length R) E) as F. rewrite norm_amps_length, app_length in F. cbn in F. rewrite app_length; lia. }
  rewrite E in S1. rewrite rsum_app in S1. cbn [rsum fold_right] in S1. fold (rsum v) in S1.
  assert (0 < rsum (u ++ v)).
  { apply rsum_pos; [destruct (u ++ v); [cbn in L; lia|discriminate]|]. intros y Hy; apply P; rewrite E. apply in_app_iff in Hy; apply in_app_iff; cbn; tauto. }
  rewrite rsum_app in H. unfold rsum in *. lra.
Qed.
