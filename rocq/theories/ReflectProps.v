(** C36: momentum reflection. *)
From Verif Require Import Np NpFacts ReflectModel.
From Coq Require Import Reals Lra Psatz.
Open Scope R_scope.

Definition under (x : R) (b : option R) : Prop := match b with Some u => x <= u | None => True end.
Definition over (x : R) (b : option R) : Prop := match b with Some l => l <= x | None => True end.
Definition inside (bd : option R * option R) (x : R) : Prop := over x (fst bd) /\ under x (snd bd).
(** The path of a ball between walls: [n] bounces take it from [x] to [y], inside. *)
Inductive bounces (bd : option R * option R) : R -> nat -> R -> Prop :=
| bounces_none x : inside bd x -> bounces bd x 0 x
| bounces_upper x u n y : snd bd = Some u -> u < x -> bounces bd (2 * u - x) n y -> bounces bd x (S n) y
| bounces_lower x l n y : fst bd = Some l -> x < l -> bounces bd (2 * l - x) n y -> bounces bd x (S n) y.
(** lower < upper where both are finite *)
Definition box (bd : option R * option R) : Prop := match bd with (Some l, Some u) => l < u | _ => True end.
Definition bd_of (c : coord) := (lower c, upper c).

Definition step (c : coord) : coord := reflect_below (reflect_above c).
Definition moved (c : coord) : bool := above c || below (reflect_above c).
Lemma pass_map cs : pass cs = (map step cs, existsb moved cs).
Proof.
  unfold pass, step, moved. f_equal; [apply map_map|]. induction cs as [|c cs IH]; cbn [map combine existsb]; auto. rewrite IH. cbn [fst snd]. now rewrite orb_comm with (b1 := above c).
Qed.
Lemma step_bounds c : bd_of (step c) = bd_of c.
Proof. unfold step, reflect_below, reflect_above, bd_of. destruct (upper c) eqn:Eu; [destruct (above c)|]; cbn [lower upper reflect]; destruct (lower c) eqn:El; cbn; try destruct (below _); cbn; now rewrite ?Eu, ?El. Qed.
(** One pass makes some bounces, and flips the sign once for each. *)
Lemma above_true c : above c = true <-> exists u, upper c = Some u /\ u < theta c.
Proof. unfold above. destruct (upper c) as [u|]; [|split; [discriminate|intros (u & E & _); discriminate]]. destruct (Rlt_dec u (theta c)); split; try discriminate; eauto. intros (u' & E & H). injection E as <-. contradiction. Qed.
Lemma below_true c : below c = true <-> exists l, lower c = Some l /\ theta c < l.
Proof. unfold below. destruct (lower c) as [l|]; [|split; [discriminate|intros (u & E & _); discriminate]]. destruct (Rlt_dec (theta c) l); split; try discriminate; eauto. intros (u' & E & H). injection E as <-. contradiction. Qed.
Lemma reflect_above_spec c : (above c = false /\ reflect_above c = c) \/ (above c = true /\ exists u, upper c = Some u /\ u < theta c /\ reflect_above c = reflect u c).
Proof.
  unfold reflect_above. destruct (above c) eqn:E; [right; split; auto; apply above_true in E; destruct E as (u & E & H); rewrite E; eauto|left; split; auto]. destruct (upper c); auto.
Qed.
Lemma reflect_below_spec c : (below c = false /\ reflect_below c = c) \/ (below c = true /\ exists l, lower c = Some l /\ theta c < l /\ reflect_below c = reflect l c).
Proof.
  unfold reflect_below. destruct (below c) eqn:E; [right; split; auto; apply below_true in E; destruct E as (u & E & H); rewrite E; eauto|left; split; auto]. destruct (lower c); auto.
Qed.
Lemma step_spec c : exists k, sgn (step c) = sgn c * (-1) ^ k /\ forall n y, bounces (bd_of c) (theta (step c)) n y -> bounces (bd_of c) (theta c) (k + n) y.
Proof.
  unfold step. destruct (reflect_above_spec c) as [[_ ->]|(_ & u & Eu & Hu & ->)].
  - destruct (reflect_below_spec c) as [[_ ->]|(_ & l & El & Hl & ->)]; [exists 0%nat; simpl; split; [lra|auto]|]. exists 1%nat. cbn [theta sgn reflect]. split; [simpl; lra|]. intros n y H. apply (bounces_lower _ _ l); auto.
  - destruct (reflect_below_spec (reflect u c)) as [[_ ->]|(_ & l & El & Hl & ->)]; cbn [theta sgn reflect] in *.
    + exists 1%nat. split; [simpl; lra|]. intros n y H. apply (bounces_upper _ _ u); auto.
    + exists 2%nat. split; [simpl; lra|]. intros n y H. apply (bounces_upper _ _ u); auto. apply (bounces_lower _ _ l); auto.
Qed.
Lemma not_moved c : moved c = false <-> inside (bd_of c) (theta c).
Proof.
  unfold moved, inside, bd_of, over, under. cbn [fst snd]. rewrite orb_false_iff. split.
  - intros [Ha Hb]. destruct (reflect_above_spec c) as [[_ E]|[E _]]; [|congruence]. rewrite E in Hb. unfold above in Ha. unfold below in Hb. split; [destruct (lower c); auto; destruct (Rlt_dec _ _); [discriminate|lra]|destruct (upper c); auto; destruct (Rlt_dec _ _); [discriminate|lra]].
  - intros [Hl Hu]. assert (Ha : above c = false). { unfold above. destruct (upper c); auto. destruct (Rlt_dec _ _); auto; lra. } split; auto. destruct (reflect_above_spec c) as [[_ ->]|[E _]]; [|congruence].
    unfold below. destruct (lower c); auto. destruct (Rlt_dec _ _); auto; lra.
Qed.
Lemma inside_step c : inside (bd_of c) (theta c) -> step c = c.
Proof.
  intros H. apply not_moved in H. unfold moved in H. apply orb_false_iff in H. destruct H as [Ha Hb]. unfold step. destruct (reflect_above_spec c) as [[_ E]|[E _]]; [|congruence]. rewrite E in *. destruct (reflect_below_spec c) as [[_ E']|[E' _]]; [auto|congruence].
Qed.

(** ** Termination *)
Lemma iter_S {A} (f : A -> A) n x : Nat.iter (S n) f x = Nat.iter n f (f x).
Proof. induction n as [|n IH]; simpl in *; [reflexivity|]. now rewrite IH. Qed.
Lemma iter_inside n c : inside (bd_of c) (theta c) -> Nat.iter n step c = c.
Proof. intros H. induction n as [|n IH]; [reflexivity|]. rewrite iter_S, inside_step; auto. Qed.
Definition settles (c : coord) (n : nat) : Prop := inside (bd_of c) (theta (Nat.iter n step c)).
Lemma iter_bounds n c : bd_of (Nat.iter n step c) = bd_of c.
Proof. induction n as [|n IH]; [reflexivity|]. simpl. rewrite step_bounds. exact IH. Qed.
Lemma settles_more c n m : (n <= m)%nat -> settles c n -> settles c m.
Proof.
  intros H Hs. unfold settles in *. replace m with (m - n + n)%nat by lia. assert (E : Nat.iter (m - n + n) step c = Nat.iter (m - n) step (Nat.iter n step c)) by (clear; induction (m - n)%nat as [|k IH]; simpl; [|rewrite IH]; auto).
  rewrite E, iter_inside; auto. rewrite iter_bounds. exact Hs.
Qed.
Lemma from_above l u : l < u -> forall m c, lower c = Some l -> upper c = Some u -> l <= theta c <= u + INR m * (2 * (u - l)) -> settles c m.
Proof.
  intros Hlu. induction m as [|m IH]; intros c El Eu Ht.
  - unfold settles. simpl. unfold inside, bd_of. rewrite El, Eu. simpl in *. lra.
  - rewrite S_INR in Ht. destruct (Rle_dec (theta c) u) as [Hle|Hgt].
    + apply (settles_more c 0); [lia|]. unfold settles. simpl. unfold inside, bd_of. rewrite El, Eu. simpl. lra.
    + assert (G : settles (step c) m).
      { apply IH; [pose proof (step_bounds c) as E; unfold bd_of in E; congruence|pose proof (step_bounds c) as E; unfold bd_of in E; congruence|].
        unfold step. destruct (reflect_above_spec c) as [[E _]|(_ & u' & Eu' & Hu & ->)]. { exfalso. rewrite <- not_true_iff_false in E. apply E. apply above_true. exists u. split; auto. lra. }
        assert (u' = u) by congruence. subst u'. pose proof (pos_INR m). destruct (reflect_below_spec (reflect u c)) as [[E ->]|(_ & l' & El' & Hl & ->)]; cbn [theta lower upper reflect] in *.
        - split; [|nra]. apply Rnot_lt_le. intros X. rewrite <- not_true_iff_false in E. apply E. apply below_true. exists l. auto.
        - assert (l' = l) by congruence. subst l'. lra. }
      unfold settles in *. rewrite iter_S. rewrite step_bounds in G. exact G.
Qed.
Lemma settles_ex c : box (bd_of c) -> exists n, settles c n.
Proof.
  intros B. unfold box, bd_of in B.
  (* after one pass the coordinate is above its lower bound *)
  assert (L : forall l, lower c = Some l -> (forall u, upper c = Some u -> l < u) -> l <= theta (step c)).
  { intros l El Hb. unfold step. destruct (reflect_below_spec (reflect_above c)) as [[E ->]|(_ & l' & El' & Hl & ->)].
    - apply Rnot_lt_le. intros X. rewrite <- not_true_iff_false in E. apply E. apply below_true. exists l. split; auto. destruct (reflect_above_spec c) as [[_ ->]|(_ & u & _ & _ & ->)]; auto.
    - cbn [theta reflect]. assert (l' = l). { destruct (reflect_above_spec c) as [[_ E]|(_ & u & _ & _ & E)]; rewrite E in El'; cbn in El'; congruence. } subst. lra. }
  destruct (lower c) as [l|] eqn:El; [destruct (upper c) as [u|] eqn:Eu|].
  - specialize (L l eq_refl). assert (Hl : l <= theta (step c)) by (apply L; intros u' E; injection E as <-; auto).
    destruct (archimed ((theta (step c) - u) / (2 * (u - l)))) as [Ha _]. set (z := up ((theta (step c) - u) / (2 * (u - l)))) in *.
    exists (S (Z.to_nat z)). assert (G : settles (step c) (Z.to_nat z)).
    { apply (from_above l u); auto; [pose proof (step_bounds c) as E; unfold bd_of in E; congruence|pose proof (step_bounds c) as E; unfold bd_of in E; congruence|]. split; auto.
      assert (Hz : IZR z <= INR (Z.to_nat z)). { rewrite INR_IZR_INZ. apply IZR_le. lia. }
      assert (Hd : theta (step c) - u <= IZR z * (2 * (u - l))). { apply Rmult_lt_compat_r with (r := 2 * (u - l)) in Ha; [|lra]. unfold Rdiv in Ha. rewrite Rmult_assoc, Rinv_l in Ha by lra. lra. }
      nra. }
    unfold settles in *. rewrite iter_S. rewrite step_bounds in G. exact G.
  - exists 1%nat. specialize (L l eq_refl ltac:(discriminate)). unfold settles. simpl. unfold inside, bd_of. rewrite El, Eu. simpl. auto.
  - exists 1%nat. unfold settles. simpl. unfold inside, bd_of. rewrite El. cbn [fst snd over under]. split; auto.
    unfold step. assert (Hs : reflect_below (reflect_above c) = reflect_above c). { destruct (reflect_below_spec (reflect_above c)) as [[_ E]|(_ & l & E & _)]; auto. exfalso. destruct (reflect_above_spec c) as [[_ E']|(_ & u & _ & _ & E')]; rewrite E' in E; cbn in E; congruence. }
    rewrite Hs. destruct (reflect_above_spec c) as [[E ->]|(_ & u & Eu & Hu & ->)].
    + destruct (upper c) as [u|] eqn:Eu; simpl; auto. apply Rnot_lt_le. intros X. rewrite <- not_true_iff_false in E. apply E, above_true. eauto.
    + rewrite Eu. cbn. lra.
Qed.
Lemma loop_S n cs : loop (S n) cs = if existsb moved cs then loop n (map step cs) else Some (map step cs).
Proof. cbn [loop]. now rewrite pass_map. Qed.
Lemma loop_settled n : forall cs, (forall c, In c cs -> settles c n) -> exists k, (k <= n)%nat /\ loop (S n) cs = Some (map (Nat.iter k step) cs) /\ forall c, In c cs -> settles c k.
Proof.
  induction n as [|n IH]; intros cs H.
  - exists 0%nat. split; auto. split; [|exact H]. cbn [loop]. rewrite pass_map. assert (E : existsb moved cs = false).
    { apply not_true_iff_false. intros X. apply existsb_exists in X. destruct X as (c & Hc & X). specialize (H c Hc). unfold settles in H. simpl in H. apply not_moved in H. congruence. }
    rewrite E. f_equal. apply map_ext_in. intros c Hc. specialize (H c Hc). unfold settles in H. simpl in *. now apply inside_step.
  - rewrite loop_S. destruct (existsb moved cs) eqn:E.
    + destruct (IH (map step cs)) as (k & Hk & El & Hs). { intros c Hc. apply in_map_iff in Hc. destruct Hc as (c0 & <- & Hc). specialize (H c0 Hc). unfold settles in *. rewrite iter_S in H. now rewrite step_bounds. }
      exists (S k). split; [lia|]. split; [rewrite El, map_map; f_equal; apply map_ext; intros c; symmetry; apply iter_S|]. intros c Hc. specialize (Hs (step c) (in_map step cs c Hc)). unfold settles in *. rewrite step_bounds in Hs. now rewrite iter_S.
    + exists 0%nat. assert (G : forall c, In c cs -> inside (bd_of c) (theta c)). { intros c Hc. apply not_moved. apply not_true_iff_false. intros X. rewrite <- not_true_iff_false in E. apply E. apply existsb_exists. eauto. }
      split; [lia|]. split; [|exact G]. f_equal. apply map_ext_in. intros c Hc. simpl. now apply inside_step, G.
Qed.
Lemma loop_more n m cs r : (n <= m)%nat -> loop n cs = Some r -> loop m cs = Some r.
Proof.
  revert m cs. induction n as [|n IH]; intros m cs Hm H; [discriminate|]. destruct m as [|m]; [lia|]. cbn [loop] in *. destruct (pass cs) as [cs' oob]. destruct oob; auto. apply IH; auto. lia.
Qed.
Lemma iter_bounces n : forall c, exists k, sgn (Nat.iter n step c) = sgn c * (-1) ^ k /\ (settles c n -> bounces (bd_of c) (theta c) k (theta (Nat.iter n step c))).
Proof.
  induction n as [|n IH]; intros c.
  - exists 0%nat. simpl. split; [lra|]. intros H. constructor. exact H.
  - rewrite iter_S. destruct (IH (step c)) as (k & Hs & Hb). destruct (step_spec c) as (j & Hj & Hc). exists (j + k)%nat. split; [rewrite Hs, Hj, pow_add; ring|].
    intros H. apply Hc. rewrite <- (step_bounds c) at 1. apply Hb. unfold settles in *. rewrite iter_S in H. now rewrite step_bounds.
Qed.

Lemma max_settles cs : (forall c, In c cs -> box (bd_of c)) -> exists n, forall c, In c cs -> settles c n.
Proof.
  induction cs as [|c cs IH]; intros H; [exists 0%nat; intros c []|]. destruct IH as (n & Hn); [intros; apply H; simpl; auto|]. destruct (settles_ex c (H c (or_introl eq_refl))) as (m & Hm).
  exists (Nat.max n m). intros c' [<-|Hc]; [apply (settles_more c m); auto; lia|]. apply (settles_more c' n); auto. lia.
Qed.
(** For any start, and any box with lower < upper (each bound may be infinite): the loop
    terminates, whatever more passes are allowed it answers the same, and each
    coordinate follows the path of a ball between its two walls, ends inside, and its
    momentum sign is flipped once per bounce. *)
Theorem C36_reflects : forall thetas bounds, List.length thetas = List.length bounds -> (forall bd, In bd bounds -> box bd) ->
  exists fuel thetas' signs, (forall more, (fuel <= more)%nat -> check_constrained more thetas bounds = Some (thetas', signs, false)) /\
    List.length thetas' = List.length thetas /\ List.length signs = List.length thetas /\
    forall i t bd, nth_error thetas i = Some t -> nth_error bounds i = Some bd ->
      exists t' n, nth_error thetas' i = Some t' /\ nth_error signs i = Some ((-1) ^ n) /\ bounces bd t n t' /\ inside bd t'.
Proof.
  intros thetas bounds L B. set (cs := map (fun tb : R * (option R * option R) => mkCoord (fst tb) 1 (fst (snd tb)) (snd (snd tb))) (combine thetas bounds)).
  destruct (max_settles cs) as (n & Hn). { intros c Hc. apply in_map_iff in Hc. destruct Hc as ([t [l u]] & <- & Hc). apply in_combine_r in Hc. exact (B _ Hc). }
  destruct (loop_settled n cs Hn) as (k & _ & El & Hk). exists (S n). do 2 eexists. split; [|split; [|split]].
  - intros more Hm. unfold check_constrained. fold cs. rewrite (loop_more _ _ _ _ Hm El). reflexivity.
  - rewrite !map_length. unfold cs. rewrite map_length, combine_length. lia.
  - rewrite !map_length. unfold cs. rewrite map_length, combine_length. lia.
  - intros i t bd Ht Hb. assert (Ec : nth_error cs i = Some (mkCoord t 1 (fst bd) (snd bd))).
    { assert (G : forall {A B} (a : list A) (b : list B) i x y, nth_error a i = Some x -> nth_error b i = Some y -> nth_error (combine a b) i = Some (x, y)). { clear. induction a as [|u a IH]; intros [|v b] [|i] x y H1 H2; simpl in *; try discriminate; [congruence|auto]. }
      unfold cs. rewrite nth_error_map, (G _ _ _ _ _ _ _ Ht Hb). reflexivity. }
    set (c := mkCoord t 1 (fst bd) (snd bd)) in *. assert (Ebd : bd_of c = bd) by (destruct bd; reflexivity). destruct (iter_bounces k c) as (j & Hs & Hbn). pose proof (Hk c (nth_error_In _ _ Ec)) as Hset.
    exists (theta (Nat.iter k step c)), j. rewrite !nth_error_map, Ec. cbn [option_map]. split; auto. split; [rewrite Hs; cbn; do 2 f_equal; lra|]. specialize (Hbn Hset). unfold settles in Hset. rewrite Ebd in *. auto.
Qed.
(** The path is determined by the start, so a coordinate that is inside is returned as it
    is with sign 1; and the parity ties position and sign together: an even number of
    bounces is a shift by a multiple of twice the width, an odd number a mirror image. *)
Theorem C36_inside_untouched : forall bd t n t', inside bd t -> bounces bd t n t' -> n = 0%nat /\ t' = t.
Proof.
  intros bd t n t' [Hl Hu] H. inversion H as [x H0|x u m y E Hx H0|x l m y E Hx H0]; subst; auto; exfalso; [rewrite E in Hu|rewrite E in Hl]; cbn in *; lra.
Qed.
Theorem C36_parity : forall l u t n t', bounces (Some l, Some u) t n t' -> exists k : Z,
  t = (if Nat.even n then t' else 2 * u - t') + IZR k * (2 * (u - l)).
Proof.
  intros l u t n t' H. induction H as [x H0|x b m y E Hx H0 IH|x b m y E Hx H0 IH].
  - exists 0%Z. simpl. lra.
  - destruct IH as (k & IH). cbn in E. injection E as <-. rewrite Nat.even_succ, <- Nat.negb_even. exists (- k)%Z. rewrite opp_IZR. destruct (Nat.even m); cbn [negb]; lra.
  - destruct IH as (k & IH). cbn in E. injection E as <-. rewrite Nat.even_succ, <- Nat.negb_even. destruct (Nat.even m); cbn [negb]; [exists (- k - 1)%Z|exists (- k - 1)%Z]; rewrite minus_IZR, opp_IZR; lra.
Qed.
(** With lower = upper, which the claim excludes, the loop never ends. *)
Theorem C36_degenerate_box : forall b t fuel, b < t -> check_constrained fuel [t] [(Some b, Some b)] = None.
Proof.
  intros b t fuel H. unfold check_constrained. cbn [map combine fst snd]. assert (G : forall s, loop fuel [mkCoord t s (Some b) (Some b)] = None); [|now rewrite G].
  induction fuel as [|n IH]; intros s; [reflexivity|]. cbn [loop]. rewrite pass_map. cbn [map existsb]. unfold moved at 1. unfold above at 1. cbn [upper theta]. destruct (Rlt_dec b t); [|contradiction]. cbn [orb].
  assert (E : step (mkCoord t s (Some b) (Some b)) = mkCoord t (s * -1 * -1) (Some b) (Some b)).
  { unfold step, reflect_above, above. cbn [upper theta]. destruct (Rlt_dec b t); [|contradiction]. unfold reflect_below, below, reflect. cbn [lower upper theta sgn]. destruct (Rlt_dec (2 * b - t) b); [|lra]. f_equal. lra. }
  rewrite E. apply IH.
Qed.
Example C36_case : box (Some 0, Some 1) /\ box (None, Some 3) /\ bounces (Some 0, Some 1) (33 / 10) 3 (7 / 10) /\ bounces (None, Some 3) 5 1 1.
Proof.
  split; [cbn; lra|]. split; [cbn; auto|]. split.
  - apply (bounces_upper _ _ 1); [reflexivity|lra|]. apply (bounces_lower _ _ 0); [reflexivity|lra|]. apply (bounces_upper _ _ 1); [reflexivity|lra|]. replace (2 * 1 - (2 * 0 - (2 * 1 - 33 / 10))) with (7 / 10) by lra. constructor. split; cbn; lra.
  - apply (bounces_upper _ _ 3); [reflexivity|lra|]. replace (2 * 3 - 5) with 1 by lra. constructor. split; cbn; auto. lra.
Qed.
Print Assumptions C36_reflects.
Print Assumptions C36_inside_untouched.
Print Assumptions C36_parity.
Print Assumptions C36_degenerate_box.
