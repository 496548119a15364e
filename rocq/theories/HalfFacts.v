(** Lemmas about the half-light radius of an image *)
From Coq Require Import Reals List String Bool Arith Lra Lia Psatz Permutation Sorted.
From Verif Require Import Np KernelModel KernelSum SlowModel QuantModel QuantFacts QuantProps HalfModel.
Import ListNotations.
Open Scope R_scope.

Definition nearer (a b : R * R) : Prop := fst a <= fst b.
Lemma sum_list_sumR l : sum_list l = sumR (fun v => v) l.
Proof. reflexivity. Qed.

Lemma sumR_nil {A} (f : A -> R) : sumR f [] = 0.
Proof. reflexivity. Qed.

(** ** Interpolation in the cumulative flux *)
Lemma interp_split tot x : 0 < tot -> x < 1 -> forall L acc r0, Forall (fun p => 0 <= snd p) L -> StronglySorted nearer L ->
  Forall (fun p => r0 <= fst p) L -> acc / tot <= x -> acc + sumR snd L = tot ->
  exists A b B, L = A ++ b :: B /\ acc + sumR snd A <= x * tot < acc + sumR snd A + snd b /\
    let rho := interp_from x (acc / tot) r0 (combine (map (fun v => v / tot) (cumsum_from acc (map snd L))) (map fst L)) in
    r0 <= rho <= fst b /\ Forall (fun a => fst a <= rho) A.
Proof.
  intros Ht Hx. induction L as [|[r1 f1] L IH]; intros acc r0 Hf Hs Hr Ha Hsum; cbn [map combine cumsum_from interp_from].
  - exfalso. unfold sumR in Hsum. cbn [fold_right] in Hsum. assert (E : acc = tot) by lra. rewrite E in Ha. replace (tot / tot) with 1 in Ha by (field; lra). lra.
  - inversion Hf as [|? ? F1 F2]; subst. inversion Hs as [|? ? S1 S2]; subst. inversion Hr as [|? ? R1 R2]; subst. cbn [fst snd] in *.
    set (t := acc + sumR snd ((r1, f1) :: L)) in *.
    destruct (Rlt_dec x ((acc + f1) / t)) as [H|H].
    + exists [], (r1, f1), L. split; [reflexivity|]. rewrite sumR_nil. cbn [fst snd].
      assert (K1 : acc <= x * t). { apply (Rmult_le_reg_r (/ t)); [now apply Rinv_0_lt_compat|]. replace (x * t * / t) with x by (field; lra). exact Ha. }
      assert (K2 : x * t < acc + f1). { apply (Rmult_lt_reg_r (/ t)); [now apply Rinv_0_lt_compat|]. replace (x * t * / t) with x by (field; lra). exact H. }
      split; [lra|]. cbv zeta. split; [|constructor].
      set (x0 := acc / t) in *. set (x1 := (acc + f1) / t) in *. assert (D : 0 < x1 - x0) by lra.
      assert (Q : 0 <= (x - x0) / (x1 - x0) <= 1). { split; [apply Rmult_le_pos; [lra|apply Rlt_le, Rinv_0_lt_compat; lra]|]. apply (Rmult_le_reg_r (x1 - x0)); [lra|]. replace ((x - x0) / (x1 - x0) * (x1 - x0)) with (x - x0) by (field; lra). lra. }
      replace (r0 + (r1 - r0) / (x1 - x0) * (x - x0)) with (r0 + (r1 - r0) * ((x - x0) / (x1 - x0))) by (field; lra). nra.
    + assert (Hsum' : (acc + f1) + sumR snd L = t) by (unfold t; rewrite sumR_cons; cbn [snd]; lra).
      assert (Hr1 : Forall (fun p => r1 <= fst p) L) by exact S2.
      destruct (IH (acc + f1) r1 F2 S1 Hr1 ltac:(lra) Hsum') as (A & b & B & -> & K & K2 & K3).
      exists ((r1, f1) :: A), b, B. split; [reflexivity|]. split; [rewrite sumR_cons; cbn [snd]; lra|].
      cbv zeta in *. split; [lra|]. constructor; [cbn; lra|exact K3].
Qed.
Lemma interp_half L tot x rho : 0 < tot -> 0 <= x < 1 -> Forall (fun p => 0 <= snd p) L -> StronglySorted nearer L -> sumR snd L = tot ->
  interp x (combine (map (fun v => v / tot) (cumsum_from 0 (map snd L))) (map fst L)) = Some rho ->
  exists A b B, L = A ++ b :: B /\ sumR snd A <= x * tot < sumR snd A + snd b /\ rho <= fst b /\ Forall (fun a => fst a <= rho) A /\ (A = [] -> rho = fst b).
Proof.
  intros Ht Hx Hf Hs Hsum H. destruct L as [|[r1 f1] L]; [cbn in H; discriminate|]. cbn [map combine cumsum_from interp fst snd] in H.
  inversion Hf as [|? ? F1 F2]; subst. inversion Hs as [|? ? S1 S2]; subst. cbn [fst snd] in *. rewrite Rplus_0_l in H.
  set (t := sumR snd ((r1, f1) :: L)) in *. destruct (Rlt_dec x (f1 / t)) as [C|C]; injection H as <-.
  - exists [], (r1, f1), L. split; [reflexivity|]. rewrite sumR_nil. cbn [fst snd]. split; [|split; [lra|split; [constructor|auto]]].
    split; [nra|]. apply (Rmult_lt_reg_r (/ t)); [now apply Rinv_0_lt_compat|]. replace (x * t * / t) with x by (field; lra). rewrite Rplus_0_l. exact C.
  - destruct (interp_split t x Ht (proj2 Hx) L f1 r1 F2 S1 S2 ltac:(lra) ltac:(unfold t; rewrite sumR_cons; cbn [snd]; lra)) as (A & b & B & -> & K & K2 & K3). cbv zeta in *.
    exists ((r1, f1) :: A), b, B. split; [reflexivity|]. split; [rewrite sumR_cons; cbn [snd]; lra|]. split; [lra|]. split; [constructor; [cbn; lra|exact K3]|discriminate].
Qed.
Lemma interp_some x a l : exists rho, interp x (a :: l) = Some rho.
Proof. destruct a as [x0 f0]. cbn. destruct (Rlt_dec x x0); eauto. Qed.

(** ** Ordered pixels *)
Definition pairs (r im : list R) (oo : list nat) : list (R * R) := map (fun i => (nth i r 0, nth i im 0)) oo.
Lemma pairs_fst r im oo : map fst (pairs r im oo) = take r oo.
Proof. unfold pairs, take. rewrite map_map. reflexivity. Qed.
Lemma pairs_snd r im oo : map snd (pairs r im oo) = take im oo.
Proof. unfold pairs, take. rewrite map_map. reflexivity. Qed.
Lemma pairs_seq r im : List.length im = List.length r -> pairs r im (seq 0 (List.length r)) = combine r im.
Proof.
  intros L. unfold pairs. apply (nth_ext _ _ (0, 0) (0, 0)); [rewrite map_length, seq_length, combine_length; lia|].
  intros k Hk. rewrite map_length, seq_length in Hk.
  rewrite (nth_indep _ (0, 0) (nth O r 0, nth O im 0)) by (rewrite map_length, seq_length; lia).
  rewrite (map_nth (fun i => (nth i r 0, nth i im 0)) (seq 0 (List.length r)) O k), seq_nth by lia. cbn. symmetry. apply combine_nth. auto.
Qed.
Lemma pairs_perm r im oo : List.length im = List.length r -> Permutation oo (seq 0 (List.length r)) -> Permutation (pairs r im oo) (combine r im).
Proof. intros L P. rewrite <- (pairs_seq r im L). unfold pairs. now apply Permutation_map. Qed.
Lemma pairs_sorted r im oo : sorted (take r oo) -> StronglySorted nearer (pairs r im oo).
Proof.
  intros H. induction oo as [|i oo IH]; [constructor|]. change (pairs r im (i :: oo)) with ((nth i r 0, nth i im 0) :: pairs r im oo). constructor.
  - apply IH. intros a b Hab Hb. apply (H (S a) (S b)); [lia|]. rewrite take_length in *. cbn [List.length]. lia.
  - apply Forall_forall. intros p Hp. apply In_nth with (d := (0, 0)) in Hp as (k & Hk & <-). unfold nearer. cbn [fst].
    rewrite <- (map_nth fst). cbn [fst]. rewrite pairs_fst. apply (H O (S k)); [lia|]. unfold pairs in Hk. rewrite map_length in Hk. rewrite take_length. cbn [List.length]. lia.
Qed.
Lemma sum_nonneg {A} (f : A -> R) l : Forall (fun a => 0 <= f a) l -> 0 <= sumR f l.
Proof. induction 1; rewrite ?sumR_cons, ?sumR_nil; lra. Qed.
Lemma sum_mono {A} (f g : A -> R) l : Forall (fun a => f a <= g a) l -> sumR f l <= sumR g l.
Proof. induction 1; rewrite ?sumR_cons, ?sumR_nil; lra. Qed.
Lemma sum_all_zero {A} (f : A -> R) l : Forall (fun a => 0 <= f a) l -> sumR f l = 0 -> Forall (fun a => f a = 0) l.
Proof. induction 1 as [|a l H HF IH]; intros E; constructor; rewrite sumR_cons in E; pose proof (sum_nonneg f l HF) as N; [lra|]. apply IH. lra. Qed.
