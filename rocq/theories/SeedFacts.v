From Verif Require Import Np NpFacts SuperSceneModel SeedModel.
From Coq Require Import Reals Lra.
Open Scope R_scope.

Definition flag01 (z : Z) : Prop := z = 0%Z \/ z = 1%Z.

Lemma Rsum_map_neg {A} (f : A -> R) l : l <> [] -> (forall x, In x l -> f x < 0) -> Rsum (map f l) < 0.
Proof.
  intros Hne H. destruct l as [|x l]; [congruence|]. clear Hne. simpl.
  assert (Hx : f x < 0) by (apply H; simpl; auto).
  assert (Hl : Rsum (map f l) <= 0).
  { assert (H' : forall y, In y l -> f y < 0) by (intros; apply H; simpl; auto).
    clear -H'. induction l as [|y l IH]; simpl; [lra|].
    assert (f y < 0) by (apply H'; simpl; auto).
    assert (Rsum (map f l) <= 0) by (apply IH; intros; apply H'; simpl; auto). unfold Rsum in *. lra. }
  unfold Rsum in *. lra.
Qed.

Lemma normalise_sum w : Rsum w <> 0 -> Rsum (normalise w) = 1.
Proof.
  intros H. unfold normalise.
  assert (E : forall l c, Rsum (map (fun x => x / c) l) = Rsum l / c).
  { induction l as [|x l IH]; intros c; unfold Rsum in *; simpl; [unfold Rdiv; ring|].
    rewrite IH. unfold Rdiv. ring. }
  rewrite E. field. exact H.
Qed.

Lemma lnot_flag z : flag01 z -> IZR (Z.lnot z) = -1 \/ IZR (Z.lnot z) = -2.
Proof. intros [->| ->]; simpl; [left|right]; reflexivity. Qed.

Lemma exp_raw_neg cat r : flag01 (is_valid r) -> exp_raw cat r < 0.
Proof.
  intros H. unfold exp_raw. pose proof (exp_pos ((mean_iter cat - abs_iter r) / 20)).
  destruct (lnot_flag _ H) as [-> | ->]; lra.
Qed.

Lemma nth_normalise w i x : nth_error w i = Some x -> nth_error (normalise w) i = Some (x / Rsum w).
Proof. intros H. unfold normalise. now rewrite nth_error_map, H. Qed.

Lemma exp_weight_nth cat i r : nth_error cat i = Some r ->
  nth_error (exp_weight cat) i = Some (exp_raw cat r / Rsum (map (exp_raw cat) cat)).
Proof. intros H. apply nth_normalise. now rewrite nth_error_map, H. Qed.

Lemma seed_probability cat :
  cat <> [] -> (forall r, In r cat -> flag01 (is_valid r)) ->
  List.length (seed_weight cat) = List.length cat /\
  (forall w, In w (seed_weight cat) -> 0 < w <= 1) /\ Rsum (seed_weight cat) = 1.
Proof.
  intros Hne Hf.
  assert (HS : Rsum (map (exp_raw cat) cat) < 0).
  { apply Rsum_map_neg; auto. intros; apply exp_raw_neg; auto. }
  split; [unfold seed_weight, exp_weight, normalise; now rewrite !map_length|].
  assert (Hsum : Rsum (seed_weight cat) = 1) by (apply normalise_sum; lra).
  assert (Hpos : forall w, In w (seed_weight cat) -> 0 < w).
  { intros w Hw. unfold seed_weight, exp_weight, normalise in Hw.
    apply in_map_iff in Hw as (x & <- & Hx). apply in_map_iff in Hx as (r & <- & Hr).
    pose proof (exp_raw_neg cat r (Hf r Hr)) as Hneg.
    replace (exp_raw cat r / Rsum (map (exp_raw cat) cat))
      with ((- exp_raw cat r) / (- Rsum (map (exp_raw cat) cat))) by (field; lra).
    apply Rdiv_lt_0_compat; lra. }
  split; [|exact Hsum].
  intros w Hw. split; auto.
  assert (Hle : forall l, (forall x, In x l -> 0 < x) -> forall x, In x l -> x <= Rsum l).
  { induction l as [|y l IH]; intros Hl x Hx; [contradiction|]. simpl.
    assert (0 <= Rsum l).
    { clear IH Hx. assert (H' : forall z, In z l -> 0 < z) by (intros; apply Hl; simpl; auto). clear Hl.
      induction l as [|z l IH]; unfold Rsum in *; simpl; [lra|].
      assert (0 < z) by (apply H'; simpl; auto). assert (0 <= fold_right Rplus 0 l) by (apply IH; intros; apply H'; simpl; auto). lra. }
    destruct Hx as [<-|Hx].
    - unfold Rsum in *. lra.
    - assert (0 < y) by (apply Hl; simpl; auto).
      assert (x <= Rsum l) by (apply IH; auto; intros; apply Hl; simpl; auto). unfold Rsum in *. lra. }
  rewrite <- Hsum. apply Hle; auto.
Qed.

Lemma seed_compare cat i j ri rj :
  (forall r, In r cat -> flag01 (is_valid r)) ->
  nth_error cat i = Some ri -> nth_error cat j = Some rj ->
  is_valid ri = is_valid rj ->
  (Z.abs (n_iter ri) < Z.abs (n_iter rj))%Z ->
  exists wi wj, nth_error (seed_weight cat) i = Some wi /\ nth_error (seed_weight cat) j = Some wj /\ wj < wi.
Proof.
  intros Hf Hi Hj Hv Hn. eexists _, _.
  split; [apply exp_weight_nth; eauto|]. split; [apply exp_weight_nth; eauto|].
  assert (Hne : cat <> []) by (intros ->; destruct i; discriminate).
  assert (HS : Rsum (map (exp_raw cat) cat) < 0).
  { apply Rsum_map_neg; auto. intros; apply exp_raw_neg; auto. }
  assert (Hlt : exp_raw cat ri < exp_raw cat rj).
  { unfold exp_raw. rewrite Hv.
    assert (He : exp ((mean_iter cat - abs_iter rj) / 20) < exp ((mean_iter cat - abs_iter ri) / 20)).
    { apply exp_increasing. apply IZR_lt in Hn. unfold abs_iter. lra. }
    destruct (lnot_flag (is_valid rj)) as [-> | ->]; try lra.
    apply Hf. eapply nth_error_In; eauto. }
  unfold Rdiv. apply Rmult_lt_gt_compat_neg_l with (r := / Rsum (map (exp_raw cat) cat)) in Hlt; [lra|].
  now apply Rinv_lt_0_compat.
Qed.

(** A valid source has exactly twice the weight of an equally sampled source
    that is not valid. *)
Lemma seed_ratio cat i j ri rj :
  (forall r, In r cat -> flag01 (is_valid r)) ->
  nth_error cat i = Some ri -> nth_error cat j = Some rj ->
  is_valid ri = 1%Z -> is_valid rj = 0%Z -> Z.abs (n_iter ri) = Z.abs (n_iter rj) ->
  exists wi wj, nth_error (seed_weight cat) i = Some wi /\ nth_error (seed_weight cat) j = Some wj /\
    0 < wj /\ wi = 2 * wj.
Proof.
  intros Hf Hi Hj Hvi Hvj Hn. eexists _, _.
  split; [apply exp_weight_nth; eauto|]. split; [apply exp_weight_nth; eauto|].
  assert (Hne : cat <> []) by (intros ->; destruct i; discriminate).
  assert (HS : Rsum (map (exp_raw cat) cat) < 0).
  { apply Rsum_map_neg; auto. intros; apply exp_raw_neg; auto. }
  split.
  - destruct (seed_probability cat Hne Hf) as (_ & Hp & _). apply Hp.
    eapply nth_error_In. apply exp_weight_nth. eauto.
  - set (S := Rsum _) in *. unfold exp_raw. unfold abs_iter. rewrite Hvi, Hvj, Hn. change (Z.lnot 1) with (-2)%Z; change (Z.lnot 0) with (-1)%Z. field. lra.
Qed.

(** The sigmoid variant: an active source gets twice the weight of an equally
    sampled inactive one. *)
Lemma sigmoid_ratio target cat i j ri rj :
  (forall r, In r cat -> flag01 (is_active r)) ->
  nth_error cat i = Some ri -> nth_error cat j = Some rj ->
  is_active ri = 1%Z -> is_active rj = 0%Z -> n_iter ri = n_iter rj ->
  exists wi wj, nth_error (sigmoid_weight target cat) i = Some wi /\
    nth_error (sigmoid_weight target cat) j = Some wj /\ 0 < wj /\ wi = 2 * wj.
Proof.
  intros Hf Hi Hj Hvi Hvj Hn. eexists _, _.
  split; [apply nth_normalise; rewrite nth_error_map, Hi; reflexivity|].
  split; [apply nth_normalise; rewrite nth_error_map, Hj; reflexivity|].
  assert (Hne : cat <> []) by (intros ->; destruct i; discriminate).
  assert (Hneg : forall r, flag01 (is_active r) -> sigmoid_raw target r < 0).
  { intros r Hr. unfold sigmoid_raw.
    set (x := 20 * _ + _). pose proof (exp_pos (- x)).
    assert (0 < 1 / (1 + exp (- x))) by (apply Rdiv_lt_0_compat; lra).
    destruct (lnot_flag _ Hr) as [-> | ->]; lra. }
  assert (HS : Rsum (map (sigmoid_raw target) cat) < 0) by (apply Rsum_map_neg; auto).
  split.
  - assert (Hj' : sigmoid_raw target rj < 0) by (apply Hneg, Hf; eapply nth_error_In; eauto).
    replace (sigmoid_raw target rj / Rsum (map (sigmoid_raw target) cat))
      with ((- sigmoid_raw target rj) / (- Rsum (map (sigmoid_raw target) cat))) by (field; lra).
    apply Rdiv_lt_0_compat; lra.
  - set (S := Rsum _) in *. unfold sigmoid_raw. rewrite Hvi, Hvj, Hn. change (Z.lnot 1) with (-2)%Z; change (Z.lnot 0) with (-1)%Z.
    set (x := 20 * _ + _). pose proof (exp_pos (- x)). field. lra.
Qed.
