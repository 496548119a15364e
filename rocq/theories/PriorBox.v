(** C19: the whole prior, on a box of any dimension (priors.py 16-52, the exponential beta
    prior as in PosteriorModel). *)
From Verif Require Import Np NpFacts PosteriorModel PosteriorSpec PosteriorFacts PosteriorProps.
From Coq Require Import Reals Lra.
Open Scope R_scope.

Definition total (l : list R) : R := fold_right Rplus 0 l.
(** Strictly inside the box. *)
Definition within (mn mx q : list R) : Prop := forall i, (i < List.length q)%nat -> nth i mn 0 < nth i q 0 < nth i mx 0.

Lemma one_value alpha a b x : prior_value alpha [a] [b] [x] = expbeta alpha (scale a b x).
Proof. unfold prior_value, zip3, vsum. simpl. ring. Qed.
(** C19: each parameter has its own share, and the prior is their sum. *)
Theorem C19_sum : forall alpha mn mx q, List.length mn = List.length q -> List.length mx = List.length q ->
  prior_value alpha mn mx q = total (map (fun i => prior_value alpha [nth i mn 0] [nth i mx 0] [nth i q 0]) (seq 0 (List.length q))).
Proof.
  intros alpha mn. induction mn as [|a mn IH]; intros mx q H1 H2; destruct q as [|x q]; try discriminate; destruct mx as [|b mx]; try discriminate; [reflexivity|].
  unfold prior_value at 1. change (zip3 (fun a b x => expbeta alpha (scale a b x)) (a :: mn) (b :: mx) (x :: q)) with (expbeta alpha (scale a b x) :: zip3 (fun a b x => expbeta alpha (scale a b x)) mn mx q).
  rewrite vsum_cons. change (vsum (zip3 (fun a b x => expbeta alpha (scale a b x)) mn mx q)) with (prior_value alpha mn mx q).
  rewrite (IH mx q) by (simpl in *; lia). cbn [List.length seq map total fold_right]. cbn [nth]. rewrite one_value. f_equal. rewrite <- seq_shift, map_map. reflexivity.
Qed.
Lemma negative alpha a b x : prior_value alpha [a] [b] [x] < 0.
Proof.
  rewrite one_value. unfold expbeta. assert (0 < Rpower (scale a b x) alpha * Rpower (1 - scale a b x) alpha) by (apply Rmult_lt_0_compat; unfold Rpower; apply exp_pos). lra.
Qed.
Lemma total_le f g l : (forall i : nat, In i l -> f i <= g i) -> total (map f l) <= total (map g l).
Proof. induction l as [|i l IH]; intros H; cbn [map total fold_right]; [lra|]. assert (f i <= g i) by (apply H; left; reflexivity). assert (total (map f l) <= total (map g l)) by (apply IH; intros; apply H; right; auto). unfold total in *. lra. Qed.
Lemma total_below f l : (forall i : nat, In i l -> f i < 0) -> forall i, In i l -> total (map f l) <= f i.
Proof.
  induction l as [|j l IH]; intros H i Hi; [destruct Hi|]. cbn [map total fold_right]. fold (total (map f l)).
  assert (Z : total (map f l) <= 0). { clear IH Hi. induction l as [|k l IHl]; cbn [map total fold_right]; [lra|]. fold (total (map f l)). assert (f k < 0) by (apply H; right; left; reflexivity). assert (total (map f l) <= 0) by (apply IHl; intros m [Hm|Hm]; apply H; [left; exact Hm|right; right; exact Hm]). lra. }
  destruct Hi as [<-|Hi]; [lra|]. assert (f j < 0) by (apply H; left; reflexivity). assert (total (map f l) <= f i) by (apply IH; auto; intros; apply H; right; auto). lra.
Qed.

(** C19, for negative exponents, on a box of any dimension: the prior falls
    without bound towards the edge of the box, at the same pace wherever the other
    parameters are; nearer to the middle in every parameter is never worse, and the
    middle is the best. *)
Theorem C19_box_partial : forall alpha mn mx, alpha < 0 -> List.length mx = List.length mn -> (forall i, (i < List.length mn)%nat -> nth i mn 0 < nth i mx 0) ->
  (forall M, exists delta, 0 < delta /\ forall q, List.length q = List.length mn -> within mn mx q ->
     (exists i, (i < List.length mn)%nat /\ (nth i q 0 < nth i mn 0 + delta \/ nth i mx 0 - delta < nth i q 0)) -> prior_value alpha mn mx q < - M) /\
  (forall q q', List.length q = List.length mn -> List.length q' = List.length mn -> within mn mx q ->
     (forall i, (i < List.length mn)%nat -> nth i q 0 <= nth i q' 0 <= (nth i mn 0 + nth i mx 0) / 2 \/ (nth i mn 0 + nth i mx 0) / 2 <= nth i q' 0 <= nth i q 0) ->
     prior_value alpha mn mx q <= prior_value alpha mn mx q') /\
  (forall q q', List.length q = List.length mn -> List.length q' = List.length mn -> within mn mx q ->
     (forall i, (i < List.length mn)%nat -> nth i q' 0 = (nth i mn 0 + nth i mx 0) / 2) -> prior_value alpha mn mx q <= prior_value alpha mn mx q').
Proof.
  intros alpha mn mx Ha HL HB.
  assert (Mono : forall q q', List.length q = List.length mn -> List.length q' = List.length mn -> within mn mx q ->
     (forall i, (i < List.length mn)%nat -> nth i q 0 <= nth i q' 0 <= (nth i mn 0 + nth i mx 0) / 2 \/ (nth i mn 0 + nth i mx 0) / 2 <= nth i q' 0 <= nth i q 0) ->
     prior_value alpha mn mx q <= prior_value alpha mn mx q').
  { intros q q' L1 L2 Hw Hc. rewrite !C19_sum by congruence. rewrite L1, L2. apply total_le. intros i Hi. apply in_seq in Hi. specialize (Hc i ltac:(lia)). specialize (Hw i ltac:(lia)).
    destruct (C19_barrier_partial alpha (nth i mn 0) (nth i mx 0) (HB i ltac:(lia)) Ha) as (Lo & Hi' & _).
    destruct (Req_dec (nth i q 0) (nth i q' 0)) as [E|N]; [rewrite E; lra|]. apply Rlt_le. destruct Hc as [C|C]; [apply Lo; lra|apply Hi'; lra]. }
  split; [|split; [exact Mono|]].
  - intros M. assert (D : forall n, (n <= List.length mn)%nat -> exists delta, 0 < delta /\ forall i, (i < n)%nat -> forall x, (nth i mn 0 < x < nth i mn 0 + delta \/ nth i mx 0 - delta < x < nth i mx 0) -> prior_value alpha [nth i mn 0] [nth i mx 0] [x] < - M).
    { induction n as [|n IH]; intros Hn; [exists 1; split; [lra|intros; lia]|]. destruct (IH ltac:(lia)) as (d1 & P1 & Q1).
      destruct (C19_barrier_partial alpha (nth n mn 0) (nth n mx 0) (HB n ltac:(lia)) Ha) as (_ & _ & U). destruct (U M) as (d2 & P2 & Q2).
      exists (Rmin d1 d2). split; [apply Rmin_pos; assumption|]. pose proof (Rmin_l d1 d2). pose proof (Rmin_r d1 d2). intros i Hi x Hx.
      destruct (Nat.eq_dec i n) as [->|Ne]; [apply Q2; lra|apply (Q1 i); [lia|lra]]. }
    destruct (D (List.length mn) (Nat.le_refl _)) as (d & Pd & Qd). exists d. split; [exact Pd|]. intros q Lq Hw (i & Hi & Hx).
    rewrite C19_sum by congruence. rewrite Lq. eapply Rle_lt_trans; [|apply (Qd i Hi (nth i q 0)); specialize (Hw i ltac:(lia)); lra].
    apply (total_below (fun i => prior_value alpha [nth i mn 0] [nth i mx 0] [nth i q 0])); [intros; apply negative|apply in_seq; lia].
  - intros q q' L1 L2 Hw Hc. apply Mono; auto. intros i Hi. specialize (Hc i Hi). specialize (Hw i ltac:(lia)). destruct (Rle_dec (nth i q 0) ((nth i mn 0 + nth i mx 0) / 2)); [left|right]; lra.
Qed.
(** Two parameters, exponent -1. *)
Example C19_box_case : prior_value (-1) [0; 1] [2; 4] [1/2; 3] <= prior_value (-1) [0; 1] [2; 4] [1; 5/2] /\
  exists delta, 0 < delta /\ forall x y, 0 < x < 2 -> 1 < y < 4 -> 4 - delta < y -> prior_value (-1) [0; 1] [2; 4] [x; y] < - 100.
Proof.
  destruct (C19_box_partial (-1) [0; 1] [2; 4] ltac:(lra) eq_refl) as (U & _ & C); [intros [|[|i]] Hi; simpl in *; try lra; lia|]. split.
  - apply C; auto; [intros [|[|i]] Hi; simpl in *; try lra; lia|intros [|[|i]] Hi; simpl in *; try lra; lia].
  - destruct (U 100) as (d & P & Q). exists d. split; [exact P|]. intros x y Hx Hy Hd. apply Q; auto; [intros [|[|i]] Hi; simpl in *; try lra; lia|]. exists 1%nat. split; [simpl; lia|]. right. simpl. lra.
Qed.
Print Assumptions C19_sum.
Print Assumptions C19_box_partial.
