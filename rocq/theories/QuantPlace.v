(** C53: where a weighted quantile lies among the samples (utils/corner.py _quantile 596-640). *)
From Verif Require Import Np NpFacts QuantModel QuantFacts QuantProps QuantCase.
From Coq Require Import Reals Lra Permutation.
Open Scope R_scope.

Lemma prefix_step sw k : (k < List.length sw)%nat -> prefix sw (k + 1) = prefix sw k + nth k sw 0.
Proof.
  unfold prefix. revert k. induction sw as [|a sw IH]; intros [|k] H; cbn in *; try lia; [ring|]. rewrite IH by lia. ring.
Qed.
(** C53: with samples in increasing order the quantile runs in a straight line from one
    sample to the next while the probability takes up the weight of the first of the two;
    the weights of all samples but the largest add up to probability one. *)
Theorem C53_weighted_place : forall argsort x w k t, argsorts argsort x -> (2 <= List.length x)%nat -> List.length w = List.length x -> (forall a, In a w -> 0 < a) ->
  (S k < List.length x)%nat -> 0 <= t <= 1 ->
  let s := map (fun i => nth i x 0) (argsort x) in let sw := map (fun i => nth i w 0) (argsort x) in
  let sum l := fold_right Rplus 0 l in
  quantile1 argsort x [(sum (firstn k sw) + t * nth k sw 0) / sum (firstn (List.length x - 1) sw)] (Some w) = Some [nth k s 0 + t * (nth (S k) s 0 - nth k s 0)].
Proof.
  intros argsort x w k t HA L2 Lw Hw Hk Ht s sw sum.
  assert (Es : forall l, sum l = QuantFacts.total l) by (intros l; unfold sum; induction l as [|a l IH]; cbn; [reflexivity|now rewrite IH]). rewrite !Es.
  change (QuantFacts.total (firstn k sw)) with (prefix sw k). change (QuantFacts.total (firstn (List.length x - 1) sw)) with (prefix sw (List.length x - 1)).
  assert (Li : List.length (argsort x) = List.length x) by (rewrite (Permutation_length (proj1 HA)); apply seq_length).
  assert (Lsw : List.length sw = List.length x) by (unfold sw; now rewrite map_length).
  assert (Wp : forall j, (j < List.length x)%nat -> 0 < nth j sw 0).
  { intros j Hj. apply Hw. apply (take_In w (argsort x)); [|apply nth_In; fold (take w (argsort x)); rewrite take_length; lia]. intros i Hi. apply (Permutation_in _ (proj1 HA)) in Hi. apply in_seq in Hi. lia. }
  assert (Up : forall d a, (a + d <= List.length x)%nat -> (0 < d)%nat -> prefix sw a < prefix sw (a + d)).
  { induction d as [|d IH]; intros a Ha Hd; [lia|]. replace (a + S d)%nat with (a + d + 1)%nat by lia. rewrite prefix_step by lia. pose proof (Wp (a + d)%nat ltac:(lia)). destruct d; [rewrite Nat.add_0_r in *; lra|]. pose proof (IH a ltac:(lia) ltac:(lia)). lra. }
  set (T := prefix sw (List.length x - 1)). assert (HT : 0 < T). { pose proof (Up (List.length x - 1)%nat 0%nat ltac:(lia) ltac:(lia)) as U. change (prefix sw 0) with 0 in U. exact U. }
  assert (P0 : 0 <= prefix sw k). { destruct k; [unfold prefix; cbn; lra|]. pose proof (Up (S k) 0%nat ltac:(lia) ltac:(lia)) as U. change (prefix sw 0) with 0 in U. cbn [Nat.add] in U. lra. }
  assert (Pk : prefix sw (k + 1) <= T). { unfold T. destruct (Nat.eq_dec (k + 1) (List.length x - 1)) as [->|N]; [lra|]. pose proof (Up (List.length x - 1 - (k + 1))%nat (k + 1)%nat ltac:(lia) ltac:(lia)) as U. replace (k + 1 + (List.length x - 1 - (k + 1)))%nat with (List.length x - 1)%nat in U by lia. lra. }
  pose proof (Wp k ltac:(lia)) as Wk. pose proof (prefix_step sw k ltac:(lia)) as Sk.
  set (p := (prefix sw k + t * nth k sw 0) / T). assert (Ep : p * T = prefix sw k + t * nth k sw 0) by (unfold p; field; lra).
  assert (Hp : 0 <= p <= 1). { split; [apply (Rmult_le_reg_r T); [exact HT|]|apply (Rmult_le_reg_r T); [exact HT|]]; rewrite Ep; nra. }
  destruct (C53_weighted_found argsort x [p] w HA L2 Lw Hw) as (vs & E); [intros y [<-|[]]; exact Hp|]. change (quantile1 argsort x [p] (Some w) = Some [nth k s 0 + t * (nth (S k) s 0 - nth k s 0)]). rewrite E.
  destruct (weighted_spec argsort x [p] w vs HA (fun a Ha => Rlt_le _ _ (Hw a Ha)) E) as (Ls & _ & _ & _ & Lv & K).
  destruct vs as [|v [|]]; cbn in Lv; try lia. do 2 f_equal. destruct (K 0%nat p v eq_refl eq_refl) as (_ & j & u & B & C1 & C2 & C3).
  change (take w (argsort x)) with sw in *. change (take x (argsort x)) with s in *. fold T in C1, C2.
  assert (C1' : prefix sw j <= p * T). { apply (Rmult_le_compat_r T) in C1; [|lra]. replace (prefix sw j / T * T) with (prefix sw j) in C1 by (field; lra). exact C1. }
  destruct B as (Bj & Bu & B). rewrite Ls in *.
  assert (Hle : (j <= k + 1)%nat). { apply Nat.nlt_ge. intros N. pose proof (Up (j - (k + 1))%nat (k + 1)%nat ltac:(lia) ltac:(lia)) as U. replace (k + 1 + (j - (k + 1)))%nat with j in U by lia. nra. }
  destruct (Nat.eq_dec (j + 1) (List.length x)) as [Ej|Ej].
  - (* the last sample *) assert (j = S k) by lia. subst j. rewrite (C3 Ej) in *. assert (t = 1). { replace (S k) with (k + 1)%nat in C1' by lia. nra. } subst t. destruct B as [[B _]|[_ B]]; [lia|]. lra.
  - destruct (C2 ltac:(lia)) as [X U]. assert (X' : p * T < prefix sw (j + 1)). { apply (Rmult_lt_compat_r T) in X; [|lra]. replace (prefix sw (j + 1) / T * T) with (prefix sw (j + 1)) in X by (field; lra). exact X. }
    destruct B as [[_ B]|[B _]]; [|lia]. pose proof (prefix_step sw j ltac:(lia)) as Sj. pose proof (Wp j ltac:(lia)) as Wj.
    assert (U' : u * nth j sw 0 = p * T - prefix sw j). { rewrite U, Sj. field. split; [lra|]. intros Z. assert (nth j sw 0 = 0) by lra. lra. } clear U C2 C3.
    destruct (Nat.eq_dec j (k + 1)) as [->|N1].
    + assert (t = 1) by nra. subst t. assert (u * nth (k + 1) sw 0 = 0) by (rewrite U', Ep, Sk; ring). assert (u = 0) by (apply Rmult_integral in H; destruct H; lra). subst u. rewrite B. replace (S k) with (k + 1)%nat by lia. ring.
    + assert (j = k). { apply Nat.le_antisymm; [lia|]. apply Nat.nlt_ge. intros N. assert (prefix sw (j + 1) <= prefix sw k). { destruct (Nat.eq_dec (j + 1) k) as [->|]; [lra|]. pose proof (Up (k - (j + 1))%nat (j + 1)%nat ltac:(lia) ltac:(lia)) as Q. replace (j + 1 + (k - (j + 1)))%nat with k in Q by lia. lra. } nra. }
      subst j. assert (u = t). { apply (Rmult_eq_reg_r (nth k sw 0)); [|lra]. rewrite U', Ep. ring. } subst u. rewrite B. replace (S k) with (k + 1)%nat by lia. ring.
Qed.
(** Three samples of weights 1, 3, 2: the median is a third of the way from the second to the third. *)
Example C53_weighted_place_case : quantile1 ids [0; 1; 2] [1 / 2] (Some [1; 3; 2]) = Some [4 / 3].
Proof.
  assert (H3 : forall a, In a [1; 3; 2] -> 0 < a) by (intros a [<-|[<-|[<-|[]]]]; lra). assert (Ht : 0 <= 1 / 3 <= 1) by lra.
  pose proof (C53_weighted_place ids [0; 1; 2] [1; 3; 2] 1 (1 / 3) ids_012 (le_S _ _ (le_n 2)) eq_refl H3 (le_n 3) Ht) as H. cbn [ids map seq nth List.length firstn Nat.sub fold_right] in H.
  replace ((1 + 0 + 1 / 3 * 3) / (1 + (3 + 0))) with (1 / 2) in H by field. replace (1 + 1 / 3 * (2 - 1)) with (4 / 3) in H by field. exact H.
Qed.
Print Assumptions C53_weighted_place.
