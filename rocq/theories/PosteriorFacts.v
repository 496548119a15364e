From Verif Require Import Np NpFacts PosteriorModel PosteriorSpec.
From Coq Require Import Reals Lra.
From Coquelicot Require Import Coquelicot.
Open Scope R_scope.

(** ** vectors *)
Section Zip.
Context {A B C : Type} (f : A -> B -> C).
Lemma zip_length a b : List.length (zip f a b) = Nat.min (List.length a) (List.length b).
Proof. unfold zip. now rewrite map_length, combine_length. Qed.
Lemma zip_nth_error a b k : nth_error (zip f a b) k =
  match nth_error a k, nth_error b k with Some x, Some y => Some (f x y) | _, _ => None end.
Proof.
  revert b k. induction a as [|x a IH]; intros [|y b] [|k]; simpl; auto.
  - destruct (nth_error a k); reflexivity.
  - apply IH.
Qed.
Lemma zip_nth a b k da db dc : (k < List.length a)%nat -> (k < List.length b)%nat ->
  nth k (zip f a b) dc = f (nth k a da) (nth k b db).
Proof.
  revert b k. induction a as [|x a IH]; intros [|y b] [|k] Ha Hb; simpl in *; try lia; auto.
  apply IH; lia.
Qed.
Lemma zip_upd_l a b k x db : List.length a = List.length b ->
  zip f (upd k x a) b = upd k (f x (nth k b db)) (zip f a b).
Proof.
  revert b k. induction a as [|y a IH]; intros [|z b] [|k] H; simpl in *; try discriminate; auto.
  unfold zip in *. simpl. f_equal. apply IH. congruence.
Qed.
Lemma zip_upd_r a b k x da : List.length a = List.length b ->
  zip f a (upd k x b) = upd k (f (nth k a da) x) (zip f a b).
Proof.
  revert b k. induction a as [|y a IH]; intros [|z b] [|k] H; simpl in *; try discriminate; auto.
  unfold zip in *. simpl. f_equal. apply IH. congruence.
Qed.
End Zip.
Lemma map_upd {A B} (f : A -> B) k x l : map f (upd k x l) = upd k (f x) (map f l).
Proof. revert k. induction l as [|y l IH]; intros [|k]; simpl; auto. now rewrite IH. Qed.
Lemma nth_updd {A} (d : A) l k x j : (k < List.length l)%nat -> nth j (upd k x l) d = if Nat.eqb k j then x else nth j l d.
Proof.
  revert k j. induction l as [|y l IH]; intros [|k] [|j] H; simpl in *; try lia; auto. apply IH. lia.
Qed.
Lemma upd_len {A} k (x : A) l : List.length (upd k x l) = List.length l.
Proof. revert k. induction l as [|y l IH]; intros [|k]; simpl; auto. Qed.
Lemma upd_upd {A} k (x y : A) l : upd k x (upd k y l) = upd k x l.
Proof. revert k. induction l as [|z l IH]; intros [|k]; simpl; auto. now rewrite IH. Qed.
Lemma upd_same {A} (d : A) k l : upd k (nth k l d) l = l.
Proof. revert k. induction l as [|z l IH]; intros [|k]; simpl; auto. now rewrite IH. Qed.
Lemma map_nthd {A B} (f : A -> B) l k da db : (k < List.length l)%nat -> nth k (map f l) db = f (nth k l da).
Proof. revert k. induction l as [|y l IH]; intros [|k] H; simpl in *; try lia; auto. apply IH. lia. Qed.

(** ** the sigmoid *)
Lemma sigmoid_01 x : 0 < sigmoid x < 1.
Proof.
  unfold sigmoid. pose proof (exp_pos (- x)). split; [apply Rinv_0_lt_compat; lra|].
  rewrite <- Rinv_1 at 2. apply Rinv_lt_contravar; lra.
Qed.
Lemma logit_sigmoid x : logit (sigmoid x) = x.
Proof.
  unfold logit, sigmoid. pose proof (exp_pos (- x)).
  replace (1 / / (1 + exp (- x)) - 1) with (exp (- x)) by (field; lra). rewrite ln_exp. ring.
Qed.
Lemma sigmoid_logit y : 0 < y < 1 -> sigmoid (logit y) = y.
Proof.
  intros H. unfold logit, sigmoid. rewrite Ropp_involutive, exp_ln.
  - field. lra.
  - assert (1 < / y) by (rewrite <- Rinv_1 at 1; apply Rinv_lt_contravar; lra). unfold Rdiv. lra.
Qed.
Lemma sigmoid_incr x y : x < y -> sigmoid x < sigmoid y.
Proof.
  intros H. unfold sigmoid. pose proof (exp_pos (- x)). pose proof (exp_pos (- y)).
  assert (exp (- y) < exp (- x)) by (apply exp_increasing; lra).
  apply Rinv_lt_contravar; [|lra]. apply Rmult_lt_0_compat; lra.
Qed.
Lemma sigmoid_grad_alt x : sigmoid_grad x = sigmoid x * (1 - sigmoid x).
Proof.
  unfold sigmoid_grad, sigmoid, cosh.
  replace (- x) with (- (1/2 * x) + - (1/2 * x)) by field. rewrite exp_plus.
  pose proof (exp_pos (1/2 * x)) as Hp. pose proof (exp_pos (- (1/2 * x))) as Hm.
  assert (E : exp (1/2 * x) = / exp (- (1/2 * x))).
  { rewrite exp_Ropp. field. lra. }
  rewrite E. set (u := exp (- (1/2 * x))) in *. field. repeat split; try lra; nra.
Qed.
Lemma sigmoid_grad_pos x : 0 < sigmoid_grad x.
Proof. rewrite sigmoid_grad_alt. pose proof (sigmoid_01 x). nra. Qed.
Lemma sigmoid_deriv x : derivable_pt_lim sigmoid x (sigmoid_grad x).
Proof.
  rewrite sigmoid_grad_alt. apply is_derive_Reals. unfold sigmoid. pose proof (exp_pos (- x)).
  auto_derive; [lra|]. field. lra.
Qed.
Lemma lnjac_deriv c x : 0 < c -> derivable_pt_lim (fun t => ln (c * sigmoid_grad t)) x (1 - 2 * sigmoid x).
Proof.
  intros Hc. apply is_derive_Reals.
  apply (is_derive_ext (fun t => ln (c * (sigmoid t * (1 - sigmoid t))))).
  { intros t. now rewrite sigmoid_grad_alt. }
  unfold sigmoid. pose proof (exp_pos (- x)) as He. pose proof (sigmoid_01 x) as Hs. unfold sigmoid in Hs.
  assert (Hpos : 0 < c * (/ (1 + exp (- x)) * (1 - / (1 + exp (- x))))).
  { apply Rmult_lt_0_compat; [lra|]. apply Rmult_lt_0_compat; lra. }
  auto_derive.
  - replace (1 + - / (1 + exp (- x))) with (1 - / (1 + exp (- x))) by ring. repeat split; lra.
  - field. replace (1 + exp (- x) - 1) with (exp (- x)) by ring. repeat split; lra.
Qed.

(** ** The bounded transform *)
Section B.
Context (lower upper : list R).
Definition gof (i : nat) (t : R) : R := nth i lower 0 + sigmoid t * (nth i upper 0 - nth i lower 0).

Lemma range_length z : box lower upper z -> List.length (range lower upper) = List.length z.
Proof. intros (H1 & H2 & _). unfold range. rewrite zip_length. lia. Qed.
Lemma range_nth z i : box lower upper z -> (i < List.length z)%nat -> nth i (range lower upper) 0 = nth i upper 0 - nth i lower 0.
Proof. intros (H1 & H2 & _) Hi. unfold range. apply zip_nth; lia. Qed.

Lemma transform_length k z : box lower upper z -> k = Bounded lower upper -> List.length (transform k z) = List.length z.
Proof.
  intros Hb ->. simpl. rewrite !zip_length, map_length, (range_length z) by auto. destruct Hb as (H1 & _). lia.
Qed.
Lemma transform_nth z i : box lower upper z -> (i < List.length z)%nat -> nth i (transform (Bounded lower upper) z) 0 = gof i (nth i z 0).
Proof.
  intros Hb Hi. simpl. pose proof (range_length z Hb) as Hr. destruct Hb as (H1 & H2 & H3).
  rewrite (zip_nth Rplus lower _ i 0 0 0) by (rewrite ?zip_length, ?map_length, ?Hr; lia).
  rewrite (zip_nth Rmult _ _ i 0 0 0) by (rewrite ?map_length, ?Hr; lia).
  rewrite (map_nthd sigmoid z i 0 0), (range_nth z) by (auto; repeat split; auto). reflexivity.
Qed.
Lemma transform_upd z i t : box lower upper z -> (i < List.length z)%nat ->
  transform (Bounded lower upper) (upd i t z) = upd i (gof i t) (transform (Bounded lower upper) z).
Proof.
  intros Hb Hi. pose proof (range_length z Hb) as Hr. simpl. rewrite map_upd.
  rewrite (zip_upd_l Rmult _ _ i _ 0) by (rewrite map_length; lia).
  destruct Hb as (H1 & H2 & H3).
  rewrite (zip_upd_r Rplus _ _ i _ 0) by (rewrite zip_length, map_length, Hr; lia).
  rewrite (range_nth z) by (auto; repeat split; auto). reflexivity.
Qed.
Lemma gof_inside i t : nth i lower 0 < nth i upper 0 -> nth i lower 0 < gof i t < nth i upper 0.
Proof. intros H. unfold gof. pose proof (sigmoid_01 t). split; nra. Qed.
Lemma gof_deriv i t : derivable_pt_lim (gof i) t ((nth i upper 0 - nth i lower 0) * sigmoid_grad t).
Proof.
  unfold gof. assert (H : derivable_pt_lim (fun t => nth i lower 0 + sigmoid t * (nth i upper 0 - nth i lower 0)) t
     (0 + (sigmoid_grad t * (nth i upper 0 - nth i lower 0) + sigmoid t * 0))).
  { apply (derivable_pt_lim_plus (fun _ => nth i lower 0) (fun t => sigmoid t * (nth i upper 0 - nth i lower 0))).
    - apply derivable_pt_lim_const.
    - apply (derivable_pt_lim_mult sigmoid (fun _ => nth i upper 0 - nth i lower 0)).
      + apply sigmoid_deriv. + apply derivable_pt_lim_const. }
  now replace ((nth i upper 0 - nth i lower 0) * sigmoid_grad t) with
    (0 + (sigmoid_grad t * (nth i upper 0 - nth i lower 0) + sigmoid t * 0)) by ring.
Qed.
Lemma jac_length z : box lower upper z -> List.length (jacobian (Bounded lower upper) z) = List.length z.
Proof. intros Hb. simpl. rewrite zip_length, map_length, (range_length z) by auto. lia. Qed.
Lemma jac_nth z i : box lower upper z -> (i < List.length z)%nat ->
  nth i (jacobian (Bounded lower upper) z) 0 = (nth i upper 0 - nth i lower 0) * sigmoid_grad (nth i z 0).
Proof.
  intros Hb Hi. simpl. pose proof (range_length z Hb) as Hr.
  rewrite (zip_nth Rmult _ _ i 0 0 0) by (rewrite ?map_length, ?Hr; lia).
  now rewrite (map_nthd sigmoid_grad z i 0 0), (range_nth z) by auto.
Qed.
Lemma jac_upd z i t : box lower upper z -> (i < List.length z)%nat ->
  jacobian (Bounded lower upper) (upd i t z) =
  upd i ((nth i upper 0 - nth i lower 0) * sigmoid_grad t) (jacobian (Bounded lower upper) z).
Proof.
  intros Hb Hi. pose proof (range_length z Hb) as Hr. simpl. rewrite map_upd.
  rewrite (zip_upd_r Rmult _ _ i _ 0) by (rewrite map_length; lia). now rewrite (range_nth z).
Qed.
End B.

(** ** products *)
Lemma fold_Rmult l : forall a, fold_left Rmult l a = a * Rprod l.
Proof.
  unfold Rprod. induction l as [|x l IH]; intros a; simpl; [ring|]. rewrite IH, (IH (1 * x)). ring.
Qed.
Lemma Rprod_cons x l : Rprod (x :: l) = x * Rprod l.
Proof. unfold Rprod. simpl. rewrite fold_Rmult. unfold Rprod. ring. Qed.
Lemma Rprod_upd l : forall i x, (i < List.length l)%nat -> Rprod (upd i x l) = x * Rprod (upd i 1 l).
Proof.
  induction l as [|y l IH]; intros [|i] x H; simpl in H; try lia; simpl upd; rewrite !Rprod_cons.
  - ring.
  - rewrite (IH i x) by lia. ring.
Qed.
Lemma Rprod_pos l : (forall i, (i < List.length l)%nat -> 0 < nth i l 0) -> 0 < Rprod l.
Proof.
  induction l as [|x l IH]; intros H; [unfold Rprod; simpl; lra|]. rewrite Rprod_cons.
  apply Rmult_lt_0_compat; [apply (H 0%nat); simpl; lia|]. apply IH. intros i Hi. apply (H (S i)). simpl. lia.
Qed.

Lemma lndetjac_deriv lower upper z i : box lower upper z -> (i < List.length z)%nat ->
  derivable_pt_lim (fun t => lndetjac (Bounded lower upper) (upd i t z)) (nth i z 0) (1 - 2 * sigmoid (nth i z 0)).
Proof.
  intros Hb Hi. set (k := Bounded lower upper). set (J := jacobian k z).
  set (c := (nth i upper 0 - nth i lower 0) * Rprod (upd i 1 J)).
  assert (HJ : List.length J = List.length z) by (apply jac_length; auto).
  assert (Hc : 0 < c).
  { unfold c. apply Rmult_lt_0_compat; [destruct Hb as (_ & _ & H); specialize (H i Hi); lra|].
    apply Rprod_pos. intros j Hj. rewrite upd_len, HJ in Hj. rewrite nth_updd by (rewrite HJ; auto).
    destruct (Nat.eqb i j); [lra|]. unfold J, k. rewrite jac_nth by auto.
    apply Rmult_lt_0_compat; [destruct Hb as (_ & _ & H); specialize (H j Hj); lra|apply sigmoid_grad_pos]. }
  apply derivable_pt_lim_ext with (fun t => ln (c * sigmoid_grad t)); [|now apply lnjac_deriv].
  intros t. unfold k. simpl lndetjac. fold (jacobian (Bounded lower upper) (upd i t z)).
  change (zip Rmult (range lower upper) (map sigmoid_grad (upd i t z))) with (jacobian (Bounded lower upper) (upd i t z)).
  rewrite jac_upd by auto. fold k J. rewrite Rprod_upd by (rewrite HJ; auto).
  replace ((nth i upper 0 - nth i lower 0) * sigmoid_grad t * Rprod (upd i 1 J)) with (c * sigmoid_grad t) by (unfold c; ring).
  rewrite Rabs_right; auto. pose proof (sigmoid_grad_pos t). nra.
Qed.

(** ** inverse *)
Lemma inverse_transform_id lower upper z : box lower upper z ->
  inverse_transform (Bounded lower upper) (transform (Bounded lower upper) z) = z.
Proof.
  intros Hb. pose proof (range_length _ _ z Hb) as Hr. pose proof (transform_length lower upper _ z Hb eq_refl) as Ht.
  set (q := transform (Bounded lower upper) z) in *. simpl.
  assert (HL : List.length (map logit (zip Rdiv (zip Rminus q lower) (range lower upper))) = List.length z).
  { rewrite map_length, !zip_length, Ht, Hr. destruct Hb as (H1 & _). lia. }
  apply (nth_ext _ _ 0 0); auto. intros i Hi. rewrite HL in Hi. destruct Hb as (H1 & H2 & H3).
  rewrite (map_nthd logit _ i 0 0) by (rewrite map_length in HL; lia).
  rewrite (zip_nth Rdiv _ _ i 0 0 0) by (rewrite ?zip_length; lia).
  rewrite (zip_nth Rminus _ _ i 0 0 0) by lia.
  rewrite (range_nth _ _ z) by (auto; repeat split; auto).
  unfold q. rewrite transform_nth by (auto; repeat split; auto).
  unfold gof. specialize (H3 i Hi).
  replace ((nth i lower 0 + sigmoid (nth i z 0) * (nth i upper 0 - nth i lower 0) - nth i lower 0) / (nth i upper 0 - nth i lower 0))
    with (sigmoid (nth i z 0)) by (field; lra). apply logit_sigmoid.
Qed.
Lemma transform_inverse lower upper q : box lower upper q ->
  (forall i, (i < List.length q)%nat -> nth i lower 0 < nth i q 0 < nth i upper 0) ->
  List.length (inverse_transform (Bounded lower upper) q) = List.length q /\
  transform (Bounded lower upper) (inverse_transform (Bounded lower upper) q) = q.
Proof.
  intros Hb Hin. pose proof (range_length _ _ q Hb) as Hr.
  set (z := inverse_transform (Bounded lower upper) q).
  assert (HL : List.length z = List.length q).
  { unfold z. simpl. rewrite map_length, !zip_length, Hr. destruct Hb as (H1 & _). lia. }
  assert (Hb' : box lower upper z).
  { destruct Hb as (H1 & H2 & H3). repeat split; rewrite ?HL; auto. }
  split; auto. apply (nth_ext _ _ 0 0); [rewrite (transform_length lower upper); auto; lia|].
  intros i Hi. rewrite (transform_length lower upper) in Hi by auto. rewrite transform_nth by auto.
  assert (Hz : nth i z 0 = logit ((nth i q 0 - nth i lower 0) / (nth i upper 0 - nth i lower 0))).
  { unfold z. simpl. destruct Hb as (H1 & H2 & H3).
    rewrite (map_nthd logit _ i 0 0) by (rewrite !zip_length; lia).
    rewrite (zip_nth Rdiv _ _ i 0 0 0) by (rewrite ?zip_length; lia).
    rewrite (zip_nth Rminus _ _ i 0 0 0) by lia.
    rewrite (range_nth _ _ q) by (auto; try lia; repeat split; auto). reflexivity. }
  rewrite Hz. unfold gof. rewrite HL in Hi. specialize (Hin i Hi).
  rewrite sigmoid_logit; [field; lra|].
  split; [apply Rdiv_lt_0_compat; lra|]. apply Rmult_lt_reg_r with (nth i upper 0 - nth i lower 0); [lra|].
  unfold Rdiv. rewrite Rmult_assoc, Rinv_l by lra. lra.
Qed.

(** ** gradient of the posterior *)
Lemma lnp_gradient k sampling ll llg lpr lprg z : suits k z ->
  is_gradient_at ll (llg (transform k z)) (transform k z) ->
  is_gradient_at lpr (lprg (transform k z)) (transform k z) ->
  is_gradient_at (lnp_of k sampling ll lpr) (lnp_grad_of k sampling llg lprg z) z.
Proof.
  intros Hs [HL1 H1] [HL2 H2].
  assert (HT : List.length (transform k z) = List.length z).
  { destruct k; auto. eapply transform_length; eauto. }
  assert (HJ : List.length (jacobian k z) = List.length z).
  { destruct k; simpl; rewrite ?map_length; auto. now apply jac_length. }
  assert (HD : List.length (lndetjac_grad k z) = List.length z) by (destruct k; simpl; now rewrite map_length).
  set (q := transform k z) in *.
  assert (HG : List.length (zip Rmult (zip Rplus (llg q) (lprg q)) (jacobian k z)) = List.length z).
  { rewrite !zip_length. lia. }
  split.
  { unfold lnp_grad_of. fold q. destruct sampling; rewrite ?zip_length; lia. }
  intros i Hi.
  (* the map of one coordinate *)
  assert (Hg : exists g, (forall t, transform k (upd i t z) = upd i (g t) q) /\ g (nth i z 0) = nth i q 0 /\
     derivable_pt_lim g (nth i z 0) (nth i (jacobian k z) 0)).
  { destruct k as [| |lower upper].
    - exists (fun t => t). simpl in *. repeat split; auto. rewrite (map_nthd _ z i 0 0) by auto. apply derivable_pt_lim_id.
    - exists (fun t => t). simpl in *. repeat split; auto. rewrite (map_nthd _ z i 0 0) by auto. apply derivable_pt_lim_id.
    - exists (gof lower upper i). split; [intros t; now apply transform_upd|]. split; [symmetry; now apply transform_nth|].
      rewrite jac_nth by auto. apply gof_deriv. }
  destruct Hg as (g & G1 & G2 & G3).
  assert (Hcomp : forall f gr, List.length gr = List.length q ->
     (forall i, (i < List.length q)%nat -> derivable_pt_lim (fun t => f (upd i t q)) (nth i q 0) (nth i gr 0)) ->
     derivable_pt_lim (fun t => f (transform k (upd i t z))) (nth i z 0) (nth i gr 0 * nth i (jacobian k z) 0)).
  { intros f gr HLg Hf. apply derivable_pt_lim_ext with (comp (fun u => f (upd i u q)) g).
    - intros t. unfold comp. now rewrite G1.
    - apply derivable_pt_lim_comp; auto. rewrite G2. apply Hf. lia. }
  pose proof (Hcomp _ _ HL1 H1) as D1. pose proof (Hcomp _ _ HL2 H2) as D2.
  pose proof (derivable_pt_lim_plus _ _ _ _ _ D1 D2) as D. clear D1 D2.
  assert (Dg : nth i (zip Rmult (zip Rplus (llg q) (lprg q)) (jacobian k z)) 0 =
     nth i (llg q) 0 * nth i (jacobian k z) 0 + nth i (lprg q) 0 * nth i (jacobian k z) 0).
  { rewrite (zip_nth Rmult _ _ i 0 0 0) by (rewrite ?zip_length; lia).
    rewrite (zip_nth Rplus _ _ i 0 0 0) by lia. ring. }
  unfold lnp_grad_of. fold q. destruct sampling.
  - rewrite (zip_nth Rplus _ _ i 0 0 0) by lia. rewrite Dg.
    assert (Dl : derivable_pt_lim (fun t => lndetjac k (upd i t z)) (nth i z 0) (nth i (lndetjac_grad k z) 0)).
    { destruct k as [| |lower upper]; simpl lndetjac_grad; rewrite (map_nthd _ z i 0 0) by auto.
      - simpl. apply derivable_pt_lim_const.
      - apply derivable_pt_lim_ext with (fun _ => 0); [|apply derivable_pt_lim_const].
        intros t. simpl. rewrite map_upd. rewrite Rabs_right.
        + assert (E : forall l : list R, Rprod (map (fun _ => 1) l) = 1).
          { induction l as [|x l IHl]; [reflexivity|]. simpl map. rewrite Rprod_cons, IHl. ring. }
          rewrite <- map_upd with (f := fun _ : R => 1) (x := 0), E. now rewrite ln_1.
        + assert (E : forall l : list R, Rprod (map (fun _ => 1) l) = 1).
          { induction l as [|x l IHl]; [reflexivity|]. simpl map. rewrite Rprod_cons, IHl. ring. }
          rewrite <- map_upd with (f := fun _ : R => 1) (x := 0), E. lra.
      - now apply lndetjac_deriv. }
    pose proof (derivable_pt_lim_plus _ _ _ _ _ D Dl) as D3.
    apply derivable_pt_lim_ext with (2 := D3). intros t. unfold lnp_of, plus_fct. reflexivity.
  - rewrite Dg. apply derivable_pt_lim_ext with (2 := D). intros t. reflexivity.
Qed.

Lemma nll_gradient ndof f g z : ndof <> 0 -> is_gradient_at f g z ->
  is_gradient_at (fun z => nll_of ndof (f z)) (nll_grad_of ndof g) z.
Proof.
  intros Hn [H1 H2]. unfold nll_grad_of. split; [now rewrite map_length|]. intros i Hi.
  rewrite (map_nthd _ g i 0 0) by lia. unfold nll_of.
  apply derivable_pt_lim_ext with (fun t => (- / ndof) * f (upd i t z)); [intros; field; auto|].
  replace (- nth i g 0 / ndof) with ((- / ndof) * nth i g 0) by (field; auto).
  apply (derivable_pt_lim_scal (fun t => f (upd i t z))). auto.
Qed.

(** ** priors *)
Lemma expbeta_deriv alpha x : 0 < x < 1 -> derivable_pt_lim (expbeta alpha) x (expbeta_grad alpha x).
Proof.
  intros Hx. apply is_derive_Reals. unfold expbeta, expbeta_grad, Rpower.
  auto_derive; [repeat split; lra|].
  replace (- (x - 1) * x) with ((1 - x) * x) by ring. rewrite ln_mult by lra.
  replace ((alpha - 1) * (ln (1 - x) + ln x)) with (alpha * ln (1 - x) + (alpha * ln x + (- ln (1 - x) + - ln x))) by ring.
  rewrite !exp_plus, !exp_Ropp, !exp_ln by lra.
  replace (1 + - x) with (1 - x) by ring. field. lra.
Qed.
Lemma expbeta_sym alpha x : expbeta alpha (1 - x) = expbeta alpha x.
Proof. unfold expbeta. replace (1 - (1 - x)) with x by ring. ring. Qed.
Lemma Rpower_pos x a : 0 < Rpower x a.
Proof. unfold Rpower. apply exp_pos. Qed.
Lemma expbeta_alt alpha x : 0 < x < 1 -> expbeta alpha x = - exp (alpha * ln (x * (1 - x))).
Proof. intros H. unfold expbeta, Rpower. rewrite <- exp_plus, ln_mult by lra. do 2 f_equal. ring. Qed.
Lemma expbeta_monotone alpha x y : alpha < 0 -> 0 < x -> x < y -> y <= 1/2 -> expbeta alpha x < expbeta alpha y.
Proof.
  intros Ha Hx Hxy Hy. rewrite !expbeta_alt by lra. apply Ropp_lt_contravar, exp_increasing.
  assert (ln (x * (1 - x)) < ln (y * (1 - y))) by (apply ln_increasing; nra). nra.
Qed.
Lemma expbeta_unbounded alpha M : alpha < 0 ->
  exists delta, 0 < delta <= 1/2 /\ forall x, 0 < x < delta -> expbeta alpha x < - M.
Proof.
  intros Ha. set (M' := Rabs M + 1). assert (HM : 0 < M' /\ M < M') by (unfold M'; pose proof (Rabs_pos M); pose proof (Rle_abs M); lra).
  exists (Rmin (1/2) (exp (ln M' / alpha))). split.
  { split; [apply Rmin_pos; [lra|apply exp_pos]|apply Rmin_l]. }
  intros x [Hx1 Hx2]. assert (Hh : x < 1/2) by (eapply Rlt_le_trans; [exact Hx2|apply Rmin_l]).
  assert (He : x < exp (ln M' / alpha)) by (eapply Rlt_le_trans; [exact Hx2|apply Rmin_r]).
  rewrite expbeta_alt by lra. apply Ropp_lt_contravar. apply Rlt_trans with M'; [tauto|].
  rewrite <- (exp_ln M') at 1 by tauto. apply exp_increasing.
  assert (Hl : ln (x * (1 - x)) < ln M' / alpha).
  { rewrite <- (ln_exp (ln M' / alpha)). apply ln_increasing; nra. }
  replace (ln M') with (alpha * (ln M' / alpha)) by (field; lra). nra.
Qed.

Lemma fold_Rplus l : forall a, fold_left Rplus l a = a + vsum l.
Proof. unfold vsum. induction l as [|x l IH]; intros a; simpl; [ring|]. rewrite IH, (IH (0 + x)). ring. Qed.
Lemma vsum_cons x l : vsum (x :: l) = x + vsum l.
Proof. unfold vsum. simpl. rewrite fold_Rplus. unfold vsum. ring. Qed.
Lemma vsum_upd l : forall i x, (i < List.length l)%nat -> vsum (upd i x l) = x + vsum (upd i 0 l).
Proof.
  induction l as [|y l IH]; intros [|i] x H; simpl in H; try lia; simpl upd; rewrite !vsum_cons; [ring|].
  rewrite (IH i x) by lia. ring.
Qed.
Lemma zip3_zip {A B C D} (f : A -> B -> C -> D) a b c : zip3 f a b c = zip (fun p x => f (fst p) (snd p) x) (combine a b) c.
Proof. reflexivity. Qed.

Lemma prior_gradient alpha mn mx q : box mn mx q ->
  (forall i, (i < List.length q)%nat -> nth i mn 0 < nth i q 0 < nth i mx 0) ->
  is_gradient_at (prior_value alpha mn mx) (prior_grad alpha mn mx q) q.
Proof.
  intros (H1 & H2 & H3) Hin.
  assert (Hc : List.length (combine mn mx) = List.length q) by (rewrite combine_length; lia).
  assert (Hcn : forall i, (i < List.length q)%nat -> nth i (combine mn mx) (0, 0) = (nth i mn 0, nth i mx 0)).
  { intros i Hi. rewrite combine_nth by lia. reflexivity. }
  split; [unfold prior_grad; rewrite zip3_zip, zip_length; lia|].
  intros i Hi. unfold prior_value, prior_grad. rewrite !zip3_zip.
  rewrite (zip_nth _ _ _ i (0,0) 0 0) by lia. rewrite Hcn by auto. cbn [fst snd].
  set (L := zip (fun (p : R * R) x => expbeta alpha (scale (fst p) (snd p) x)) (combine mn mx) q).
  assert (HL : List.length L = List.length q) by (unfold L; rewrite zip_length; lia).
  apply derivable_pt_lim_ext with (fun t => expbeta alpha (scale (nth i mn 0) (nth i mx 0) t) + vsum (upd i 0 L)).
  { intros t. rewrite zip3_zip, (zip_upd_r _ _ _ i _ (0, 0)) by lia. fold L. rewrite Hcn by auto. cbn [fst snd].
    symmetry. apply vsum_upd. lia. }
  specialize (H3 i Hi). specialize (Hin i Hi).
  set (a := nth i mn 0) in *. set (b := nth i mx 0) in *. set (x := nth i q 0) in *.
  assert (Hs : 0 < scale a b x < 1).
  { unfold scale. split; [apply Rdiv_lt_0_compat; lra|]. apply Rmult_lt_reg_r with (b - a); [lra|].
    unfold Rdiv. rewrite Rmult_assoc, Rinv_l by lra. lra. }
  assert (D : derivable_pt_lim (scale a b) x (/ (b - a))).
  { apply is_derive_Reals. unfold scale. auto_derive; [auto|]. field. lra. }
  pose proof (derivable_pt_lim_comp _ _ _ _ _ D (expbeta_deriv alpha _ Hs)) as D2.
  pose proof (derivable_pt_lim_plus _ _ _ _ _ D2 (derivable_pt_lim_const (vsum (upd i 0 L)) x)) as D3.
  replace (expbeta_grad alpha (scale a b x) / (b - a)) with (expbeta_grad alpha (scale a b x) * / (b - a) + 0)
    by (unfold Rdiv; ring).
  exact D3.
Qed.
Lemma prior_symmetric alpha mn mx q i : box mn mx q -> (i < List.length q)%nat ->
  prior_value alpha mn mx (upd i (nth i mn 0 + nth i mx 0 - nth i q 0) q) = prior_value alpha mn mx q.
Proof.
  intros (H1 & H2 & H3) Hi.
  assert (Hc : List.length (combine mn mx) = List.length q) by (rewrite combine_length; lia).
  unfold prior_value. rewrite !zip3_zip. rewrite (zip_upd_r _ _ _ i _ (0, 0)) by lia.
  rewrite combine_nth by lia. cbn [fst snd]. specialize (H3 i Hi).
  set (a := nth i mn 0) in *. set (b := nth i mx 0) in *. set (x := nth i q 0) in *.
  replace (scale a b (a + b - x)) with (1 - scale a b x) by (unfold scale; field; lra). rewrite expbeta_sym.
  f_equal. rewrite <- (upd_same 0 i (zip _ (combine mn mx) q)) at 2. f_equal.
  rewrite (zip_nth _ _ _ i (0,0) 0 0) by lia. rewrite combine_nth by lia. reflexivity.
Qed.

(** ** the cache *)
Section CacheFacts.
Context {V P : Type} (veq : V -> V -> bool) (minus99 : V) (neg : V -> V).
Context (evalf : bool -> P -> list V -> option (V * list V)).
Hypothesis veq_sound : forall x y, veq x y = true -> x = y.

Lemma differs_false a : forall b, List.length a = List.length b -> differs veq a b = false -> a = b.
Proof.
  induction a as [|x a IH]; intros [|y b] HL H; simpl in *; try discriminate; auto.
  apply orb_false_iff in H as [H1 H2]. apply negb_false_iff in H1. f_equal; auto.
Qed.
Lemma differs_true a : forall b k x y, nth_error a k = Some x -> nth_error b k = Some y -> veq x y = false -> differs veq a b = true.
Proof.
  induction a as [|u a IH]; intros [|v b] [|k] x y Ha Hb Hxy; simpl in *; try discriminate.
  - injection Ha as ->. injection Hb as ->. now rewrite Hxy.
  - rewrite (IH b k x y); auto. apply orb_true_r.
Qed.

Lemma owed_reply r p : owed neg r p = reply neg r p.
Proof. destruct r, p as [[v g]|]; reflexivity. Qed.

Lemma exec_disciplined l : forall s passed last dirty ps,
  disciplined veq minus99 neg evalf ps passed last dirty l ->
  (forall i, p_heap ps i = heap s i) -> p_samp ps = sampling_sw s -> p_prior ps = prior_fn s ->
  match last with
  | None => c_z s = Init
  | Some w => exists id, c_z s = Ref id /\ In id passed /\ heap s id = w /\
                (dirty = false -> c_lnp s = evalf (sampling_sw s) (prior_fn s) w /\ c_lnp s <> None)
  end ->
  snd (exec veq minus99 neg evalf s l) = plain_exec neg evalf ps l.
Proof.
  induction l as [|o l IH]; intros s passed last dirty ps HD Hh Hs Hp Hinv; [reflexivity|].
  destruct o as [r z|z v|g|b|p]; simpl in HD.
  - destruct HD as [Hvec HD]. simpl. rewrite owed_reply. unfold ask. rewrite Hs, Hp in *. rewrite Hh in *.
    assert (Hcase : changed veq minus99 s z = true \/
       (changed veq minus99 s z = false /\ c_lnp s = evalf (sampling_sw s) (prior_fn s) (heap s z) /\ c_lnp s <> None)).
    { destruct (changed veq minus99 s z) eqn:E; auto. right. split; auto. unfold changed in E.
      destruct last as [w|].
      - destruct Hinv as (id & Hz & _ & Hw & Hval). rewrite Hz, Hw in E. destruct Hvec as [HLv Hd].
        destruct dirty.
        + destruct (Hd eq_refl) as (k & x & y & Hx & Hy & Hxy). rewrite (differs_true _ _ k x y Hx Hy Hxy) in E. discriminate.
        + rewrite (differs_false _ _ HLv E). now apply Hval.
      - rewrite Hinv in E. destruct Hvec as (x & Hx & Hxy).
        assert (existsb (fun x => negb (veq x minus99)) (heap s z) = true).
        { apply existsb_exists. exists x. now rewrite Hxy. } congruence. }
    destruct Hcase as [Hc|(Hc & Hl & Hn)]; rewrite Hc.
    + destruct (evalf (sampling_sw s) (prior_fn s) (heap s z)) as [vg|] eqn:Ev.
      * destruct (exec veq minus99 neg evalf _ l) as [s2 rr] eqn:Ex. simpl. f_equal.
        change rr with (snd (s2, rr)). rewrite <- Ex. eapply IH; eauto; simpl.
        exists z. split; auto. split; auto. split; auto. intros _. rewrite Ev. split; [auto|discriminate].
      * destruct (exec veq minus99 neg evalf s l) as [s2 rr] eqn:Ex. simpl. f_equal.
        change rr with (snd (s2, rr)). rewrite <- Ex. eapply IH; eauto.
        destruct last as [w|]; auto. destruct Hinv as (id & I1 & I2 & I3). exists id. simpl. tauto.
    + destruct (exec veq minus99 neg evalf s l) as [s2 rr] eqn:Ex. simpl.
      rewrite Hl in Hn |- *. destruct (evalf (sampling_sw s) (prior_fn s) (heap s z)) as [vg|] eqn:Ev; [|congruence].
      f_equal. change rr with (snd (s2, rr)). rewrite <- Ex. eapply IH; eauto.
      destruct last as [w|].
      * destruct Hinv as (id & Hz & Hin & Hw & Hval). exists id. split; auto. split; [simpl; auto|].
        unfold changed in Hc. rewrite Hz, Hw in Hc. destruct Hvec as [HLv Hd].
        assert (E : heap s z = w) by (now apply differs_false). split; [congruence|]. intros _. rewrite Hl.
        split; [rewrite <- Ev; now rewrite E|discriminate].
      * unfold changed in Hc. rewrite Hinv in Hc. destruct Hvec as (x & Hx & Hxy).
        assert (existsb (fun x => negb (veq x minus99)) (heap s z) = true).
        { apply existsb_exists. exists x. now rewrite Hxy. } congruence.
  - destruct HD as [Hnp HD]. simpl. destruct (exec veq minus99 neg evalf _ l) as [s2 rr] eqn:Ex. simpl. f_equal.
    change rr with (snd (s2, rr)). rewrite <- Ex. eapply IH; eauto; simpl.
    + intros i. destruct (Nat.eqb i z); auto.
    + destruct last as [w|]; auto. destruct Hinv as (id & Hz & Hin & Hw & Hval). exists id. split; auto. split; auto.
      split; auto. destruct (Nat.eqb_spec id z) as [->|]; [contradiction|auto].
  - contradiction.
  - simpl. destruct (exec veq minus99 neg evalf _ l) as [s2 rr] eqn:Ex. simpl. f_equal.
    change rr with (snd (s2, rr)). rewrite <- Ex. eapply IH; eauto; simpl.
    destruct last as [w|]; auto. destruct Hinv as (id & Hz & Hin & Hw & Hval). exists id. repeat split; auto; discriminate.
  - simpl. destruct (exec veq minus99 neg evalf _ l) as [s2 rr] eqn:Ex. simpl. f_equal.
    change rr with (snd (s2, rr)). rewrite <- Ex. eapply IH; eauto; simpl.
    destruct last as [w|]; auto. destruct Hinv as (id & Hz & Hin & Hw & Hval). exists id. repeat split; auto; discriminate.
Qed.
End CacheFacts.
