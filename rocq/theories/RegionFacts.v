(** Facts about polygons. *)
From Verif Require Import Np NpFacts KernelSum StoreModel RegionModel.
From Coq Require Import Reals Lra ZArith.
Open Scope R_scope.
Open Scope nat_scope.

Lemma Rltb_true x y : Rltb x y = true <-> (x < y)%R.
Proof. unfold Rltb. destruct (Rlt_dec x y); split; auto; discriminate. Qed.
Lemma Rltb_false x y : Rltb x y = false <-> (y <= x)%R.
Proof. unfold Rltb. destruct (Rlt_dec x y); split; intros; auto; try discriminate; lra. Qed.

Lemma list_min_le d l x : In x l -> (list_min d l <= x)%R.
Proof. induction l as [|a l IH]; intros []; simpl; [subst; apply Rmin_l|]. eapply Rle_trans; [apply Rmin_r|auto]. Qed.
Lemma list_max_ge d l x : In x l -> (x <= list_max d l)%R.
Proof. induction l as [|a l IH]; intros []; simpl; [subst; apply Rmax_l|]. eapply Rle_trans; [|apply Rmax_r]. auto. Qed.
Lemma list_min_in d l : list_min d l = d \/ In (list_min d l) l.
Proof. induction l as [|a l IH]; simpl; auto. unfold Rmin. destruct (Rle_dec a _); auto. destruct IH as [IH|IH]; auto. Qed.
Lemma list_max_in d l : list_max d l = d \/ In (list_max d l) l.
Proof. induction l as [|a l IH]; simpl; auto. unfold Rmax. destruct (Rle_dec a _); auto. destruct IH as [IH|IH]; auto. Qed.

Definition separates (a b : list point) (n : point) : Prop :=
  (forall p q, In p a -> In q b -> project n p < project n q)%R \/ (forall p q, In p a -> In q b -> project n q < project n p)%R.
Lemma maxmin a0 a b0 b n : Rltb (list_max (project n a0) (map (project n) (a0 :: a))) (list_min (project n b0) (map (project n) (b0 :: b))) = true <->
  (forall p q, In p (a0 :: a) -> In q (b0 :: b) -> project n p < project n q)%R.
Proof.
  rewrite Rltb_true. split.
  - intros H p q Hp Hq. eapply Rle_lt_trans; [apply list_max_ge, in_map, Hp|]. eapply Rlt_le_trans; [exact H|]. apply list_min_le, in_map, Hq.
  - intros H. assert (Ha : exists p, In p (a0 :: a) /\ project n p = list_max (project n a0) (map (project n) (a0 :: a))).
    { destruct (list_max_in (project n a0) (map (project n) (a0 :: a))) as [E|E]; [exists a0; simpl; auto|]. apply in_map_iff in E. destruct E as (p & E & Hp). eauto. }
    assert (Hb : exists q, In q (b0 :: b) /\ project n q = list_min (project n b0) (map (project n) (b0 :: b))).
    { destruct (list_min_in (project n b0) (map (project n) (b0 :: b))) as [E|E]; [exists b0; simpl; auto|]. apply in_map_iff in E. destruct E as (q & E & Hq). eauto. }
    destruct Ha as (p & Hp & <-), Hb as (q & Hq & <-). auto.
Qed.
Lemma overlap_spec a b : a <> [] -> b <> [] ->
  (polygons_overlap a b = Some false <-> exists e, (In e (edges a) \/ In e (edges b)) /\ separates a b (normal e)) /\
  (polygons_overlap a b = Some true <-> forall e, In e (edges a) \/ In e (edges b) -> ~ separates a b (normal e)).
Proof.
  intros Ha Hb. destruct a as [|a0 a]; [easy|]. destruct b as [|b0 b]; [easy|]. unfold polygons_overlap. cbv zeta.
  set (f := fun n => Rltb _ _ || Rltb _ _).
  assert (Hf : forall n, f n = true <-> separates (a0 :: a) (b0 :: b) n).
  { intros n. unfold f, separates. rewrite orb_true_iff, !maxmin. split; (intros [H|H]; [left|right]; auto). }
  assert (Hx : forall l, existsb f (map normal l) = true <-> exists e, In e l /\ separates (a0 :: a) (b0 :: b) (normal e)).
  { intros l. rewrite existsb_exists. split.
    - intros (n & Hn & Hs). apply in_map_iff in Hn. destruct Hn as (e & <- & He). exists e. split; auto. now apply Hf.
    - intros (e & He & Hs). exists (normal e). split; [now apply in_map|now apply Hf]. }
  pose proof (Hx (edges (a0 :: a))) as X1. pose proof (Hx (edges (b0 :: b))) as X2.
  destruct (existsb f (map normal (edges (a0 :: a)))) eqn:E1; [|destruct (existsb f (map normal (edges (b0 :: b)))) eqn:E2].
  - destruct (proj1 X1 eq_refl) as (e & He & Hs). split; (split; intros H; try discriminate); eauto. exfalso. apply (H e); auto.
  - destruct (proj1 X2 eq_refl) as (e & He & Hs). split; (split; intros H; try discriminate); eauto. exfalso. apply (H e); auto.
  - split; split; intros H; try discriminate; auto.
    + destruct H as (e & [He|He] & Hs); exfalso; [assert (false = true) by (apply X1; eauto)|assert (false = true) by (apply X2; eauto)]; discriminate.
    + intros e [He|He] Hs; [assert (false = true) by (apply X1; eauto)|assert (false = true) by (apply X2; eauto)]; discriminate.
Qed.

(** ** The sides of a point *)
Lemma edges_length poly : List.length (edges poly) = List.length poly.
Proof. destruct poly as [|p l]; auto. unfold edges. rewrite combine_length, app_length. cbn [List.length]. lia. Qed.
(** Sums round the polygon *)
Lemma path_sum (f : point -> R) : forall l p z, sumR (fun e : point * point => f (snd e) - f (fst e))%R (combine (p :: l) (l ++ [z])) = (f z - f p)%R.
Proof.
  induction l as [|q l IH]; intros p z.
  - cbn [app combine]. rewrite sumR_cons. unfold sumR. simpl. ring.
  - change (combine (p :: q :: l) ((q :: l) ++ [z])) with ((p, q) :: combine (q :: l) (l ++ [z])). rewrite sumR_cons, IH. cbn [fst snd]. ring.
Qed.
Lemma cycle_sum (f : point -> R) poly : sumR (fun e : point * point => f (snd e) - f (fst e))%R (edges poly) = 0%R.
Proof. destruct poly as [|p l]; [reflexivity|]. unfold edges. rewrite path_sum. ring. Qed.
(** Twice the signed area (positive: counter-clockwise) *)
Definition area2 (poly : list point) : R := sumR (fun e : point * point => fst (fst e) * snd (snd e) - fst (snd e) * snd (fst e))%R (edges poly).
Lemma sum3 {A} (f g h k : A -> R) l : (forall a, k a = f a - g a + h a)%R -> sumR k l = (sumR f l - sumR g l + sumR h l)%R.
Proof. intros H. induction l as [|a l IH]; [unfold sumR; simpl; ring|]. rewrite !sumR_cons, IH, H. ring. Qed.
Lemma sides_sum poly q : sumR (side q) (edges poly) = area2 poly.
Proof.
  unfold area2. rewrite (sum3 (fun e : point * point => fst (snd e) * snd q - fst (fst e) * snd q)%R (fun e : point * point => snd (snd e) * fst q - snd (fst e) * fst q)%R
    (fun e : point * point => fst (fst e) * snd (snd e) - fst (snd e) * snd (fst e))%R) by (intros e; unfold side; ring).
  pose proof (cycle_sum (fun p => fst p * snd q)%R poly) as H1. cbv beta in H1. rewrite H1.
  pose proof (cycle_sum (fun p => snd p * fst q)%R poly) as H2. cbv beta in H2. rewrite H2. ring.
Qed.
Lemma sign_pos x : sign x = 1%Z <-> (0 < x)%R.
Proof. unfold sign. destruct (Rlt_dec 0 x); [tauto|]. destruct (Rlt_dec x 0); split; intros; try discriminate; lra. Qed.
Lemma sign_neg x : sign x = (-1)%Z <-> (x < 0)%R.
Proof. unfold sign. destruct (Rlt_dec 0 x); [split; intros; try discriminate; lra|]. destruct (Rlt_dec x 0); split; intros; auto; try discriminate; lra. Qed.
Lemma sign_zero x : sign x = 0%Z <-> x = 0%R.
Proof. unfold sign. destruct (Rlt_dec 0 x); [split; intros; try discriminate; lra|]. destruct (Rlt_dec x 0); split; intros; auto; try discriminate; lra. Qed.
Lemma contains_spec poly q : poly <> [] -> exists v, polygon_contains poly q = Some v /\
  (v = true <-> exists s, forall e, In e (edges poly) -> sign (side q e) = s).
Proof.
  intros Hp. unfold polygon_contains. pose proof (edges_length poly) as HL. destruct (edges poly) as [|e0 es] eqn:Ee; [destruct poly; [easy|discriminate]|].
  exists (forallb (fun s => (s - sign (side q e0) =? 0)%Z) (sign (side q e0) :: map (fun e => sign (side q e)) es)). split; [reflexivity|]. rewrite forallb_forall. split.
  - intros H. exists (sign (side q e0)). intros e He. assert (Hs : In (sign (side q e)) (sign (side q e0) :: map (fun e => sign (side q e)) es)).
    { destruct He as [->|He]; [simpl; auto|]. right. now apply (in_map (fun e => sign (side q e))). }
    apply H in Hs. apply Z.eqb_eq in Hs. lia.
  - intros (s & H) x Hx. apply Z.eqb_eq. assert (x = s); [|rewrite (H e0) by (simpl; auto); lia].
    destruct Hx as [<-|Hx]; [apply H; simpl; auto|]. apply in_map_iff in Hx. destruct Hx as (e & <- & He). apply H. simpl; auto.
Qed.
Lemma sum_pos_ex {A} (f : A -> R) l : (0 < sumR f l)%R -> exists a, In a l /\ (0 < f a)%R.
Proof.
  induction l as [|a l IH]; [unfold sumR; simpl; intros; lra|]. rewrite sumR_cons. intros H. destruct (Rlt_dec 0 (f a)); [exists a; simpl; auto|].
  destruct IH as (b & Hb & Hf); [lra|]. exists b; simpl; auto.
Qed.
Lemma sum_neg_ex {A} (f : A -> R) l : (sumR f l < 0)%R -> exists a, In a l /\ (f a < 0)%R.
Proof.
  induction l as [|a l IH]; [unfold sumR; simpl; intros; lra|]. rewrite sumR_cons. intros H. destruct (Rlt_dec (f a) 0); [exists a; simpl; auto|].
  destruct IH as (b & Hb & Hf); [lra|]. exists b; simpl; auto.
Qed.
