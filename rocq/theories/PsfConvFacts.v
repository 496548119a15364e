(** Lemmas for PsfConvProps.v *)
From Coq Require Import Reals Lra Lia.
From Coq Require Import ZArith List String Ascii Permutation.
From Verif Require Import Np NpFacts EmModel PsfConvModel.
Import ListNotations.
Open Scope R_scope.

(** The two-dimensional normal density of total weight [a] *)
Definition gauss (a mx my cxx cyy cxy x y : R) : R :=
  let det := cxx * cyy - cxy ^ 2 in
  a / (2 * PI * sqrt det) *
  exp (- (1 / 2) * ((cyy * (x - mx) ^ 2 - 2 * cxy * (x - mx) * (y - my) + cxx * (y - my) ^ 2) / det)).
Definition rsum (l : list R) : R := fold_right Rplus 0 l.

Lemma gauss_fit a x y s1 s2 r k cx cy X Y :
  0 < s1 -> 0 < s2 -> r ^ 2 < 1 -> 0 < k ->
  gauss a ((x - cx) / k) ((y - cy) / k) ((s1 / k) ^ 2) ((s2 / k) ^ 2) (r * (s1 / k) * (s2 / k)) X Y =
  k ^ 2 * (a / (2 * PI * s1 * s2 * sqrt (1 - r ^ 2)) *
    exp (- (1 / 2) / (1 - r ^ 2) *
      (((cx + k * X - x) / s1) ^ 2 + ((cy + k * Y - y) / s2) ^ 2
       - 2 * r * ((cx + k * X - x) / s1) * ((cy + k * Y - y) / s2)))).
Proof.
  intros H1 H2 Hr Hk. unfold gauss.
  replace ((s1 / k) ^ 2 * (s2 / k) ^ 2 - (r * (s1 / k) * (s2 / k)) ^ 2)
    with ((s1 * s2 / k ^ 2) ^ 2 * (1 - r ^ 2)) by (field; lra).
  assert (P : 0 < s1 * s2 / k ^ 2).
  { apply Rdiv_lt_0_compat; [apply Rmult_lt_0_compat; lra | apply pow_lt; lra]. }
  assert (Q : 0 < sqrt (1 - r ^ 2)) by (apply sqrt_lt_R0; lra).
  rewrite sqrt_mult by (try apply pow2_ge_0; lra).
  rewrite sqrt_pow2 by lra.
  assert (PIp := PI_RGT_0).
  match goal with |- ?A * exp ?u = ?K * (?B * exp ?v) => replace v with u end.
  - match goal with |- ?A * exp ?u = ?K * (?B * exp ?u) => generalize (exp u) end. intros e.
    field. repeat split; lra.
  - field. repeat split; nra.
Qed.

Lemma rsum_app l m : rsum (l ++ m) = rsum l + rsum m.
Proof. unfold rsum. induction l; cbn; [lra | rewrite IHl; lra]. Qed.
Lemma rsum_perm l m : Permutation l m -> rsum l = rsum m.
Proof. unfold rsum. induction 1; cbn; lra. Qed.
Lemma rsum_scale {A} (f : A -> R) k l : rsum (map (fun x => k * f x) l) = k * rsum (map f l).
Proof. unfold rsum. induction l; cbn; [lra | rewrite IHl; lra]. Qed.
Lemma sum_rsum {A} (f : A -> R) l : sum f l = rsum (map f l).
Proof. unfold rsum, sum. induction l; cbn; [reflexivity | rewrite IHl; reflexivity]. Qed.

(** ** reshape *)
Definition six (c : comp) : list R := [amp c; mx c; my c; sx c; sy c; rho c].
Lemma six_length cs : List.length (flat_map six cs) = (6 * List.length cs)%nat.
Proof. induction cs; cbn; [reflexivity | rewrite IHcs; lia]. Qed.
Lemma rows6_six cs : rows6 (List.length cs) (flat_map six cs) = Some cs.
Proof. induction cs as [|[]]; cbn; [reflexivity | rewrite IHcs; reflexivity]. Qed.
Lemma reshape6_six cs : reshape6 (flat_map six cs) = Some cs.
Proof.
  unfold reshape6. rewrite six_length, Nat.mul_comm, Nat.div_mul by lia. apply rows6_six.
Qed.
Lemma rows6_inv n : forall l cs, rows6 n l = Some cs -> l = flat_map six cs.
Proof.
  induction n; intros l cs; cbn.
  - destruct l; [injection 1 as <-; reflexivity | discriminate].
  - do 6 (destruct l as [|? l]; [discriminate|]).
    destruct (rows6 n l) eqn:E; [|discriminate]. cbn. injection 1 as <-.
    cbn. rewrite (IHn _ _ E). reflexivity.
Qed.

(** ** mapM *)
Lemma mapM_map {A B C} (f : B -> option C) (g : A -> B) l : mapM f (map g l) = mapM (fun x => f (g x)) l.
Proof. induction l; cbn; [reflexivity | rewrite IHl; reflexivity]. Qed.
Lemma mapM_ext {A B} (f g : A -> option B) l : (forall x, In x l -> f x = g x) -> mapM f l = mapM g l.
Proof.
  induction l; cbn; intros H; [reflexivity|].
  rewrite H by (left; reflexivity). rewrite IHl by (intros; apply H; right; assumption). reflexivity.
Qed.
Lemma mapM_pure {A B} (f : A -> B) l : mapM (fun x => Some (f x)) l = Some (map f l).
Proof. induction l; cbn; [reflexivity | rewrite IHl; reflexivity]. Qed.
Lemma mapM_in {A B} (f : A -> option B) g l : (forall x, In x l -> f x = Some (g x)) -> mapM f l = Some (map g l).
Proof. intros H. rewrite (mapM_ext f (fun x => Some (g x))) by assumption. apply mapM_pure. Qed.

Lemma nth_error_map' {A B} (f : A -> B) l i : nth_error (map f l) i = option_map f (nth_error l i).
Proof. apply nth_error_map. Qed.
Lemma nth_error_in_range {A} (d : A) l i : (i < List.length l)%nat -> nth_error l i = Some (nth i l d).
Proof. apply nth_error_nth'. Qed.
Lemma seq_nth_map {A B} (d : A) (f : A -> B) l : map (fun i => f (nth i l d)) (seq 0 (List.length l)) = map f l.
Proof. rewrite <- (map_map (fun i => nth i l d) f), map_nth_seq. reflexivity. Qed.

(** ** as_tuplelist of make_psf *)
Definition tuple_of (g : gpar) : tuple6 := (gamp g, mux g, muy g, vx g, vy g, vxy g).
Definition dens (t : tuple6) (X Y : R) : R := let '(a, x, y, cxx, cyy, cxy) := t in gauss a x y cxx cyy cxy X Y.
Lemma tuples_of_psf gs :
  as_tuplelist (mkPsf (List.length gs) (map (fun g => (mux g, muy g)) gs) (map gamp gs) (map (fun g => (vx g, vxy g, vy g)) gs))
  = Some (map tuple_of gs).
Proof.
  unfold as_tuplelist; cbn [p_n p_covs p_amps p_means].
  destruct gs as [|g0 gs]; [reflexivity|]. set (l := g0 :: gs).
  rewrite <- (seq_nth_map g0 tuple_of l).
  apply mapM_in. intros i Hi. apply in_seq in Hi.
  rewrite !nth_error_map', (nth_error_in_range g0) by lia. reflexivity.
Qed.

(** ** by_name, get, set *)
Lemma get_set_same d k v : get (set d k v) k = Some v.
Proof.
  unfold get. induction d as [|[n w] t IH]; cbn; [rewrite String.eqb_refl; reflexivity|].
  destruct (String.eqb n k) eqn:E; cbn; rewrite E; auto.
Qed.
Lemma get_set_other d k k' v : k <> k' -> get (set d k v) k' = get d k'.
Proof.
  intros H. unfold get. induction d as [|[n w] t IH]; cbn.
  - destruct (String.eqb_spec k k'); [contradiction | reflexivity].
  - destruct (String.eqb_spec n k) as [->|E]; cbn.
    + destruct (String.eqb_spec k k'); [contradiction | reflexivity].
    + rewrite IH. reflexivity.
Qed.
Lemma by_name_In {V} k (d : list (string * V)) v : by_name k d = Some v -> In (k, v) d.
Proof.
  induction d as [|[n w] t IH]; cbn; [discriminate|].
  destruct (String.eqb_spec n k) as [->|E]; [injection 1 as <-; auto | auto].
Qed.
Lemma by_name_None {V} k (d : list (string * V)) : by_name k d = None <-> ~ In k (map fst d).
Proof.
  induction d as [|[n w] t IH]; cbn; [tauto|].
  destruct (String.eqb_spec n k) as [->|E].
  - split; [discriminate | intros H; exfalso; apply H; auto].
  - rewrite IH. split; [intros H [->|H']; auto | tauto].
Qed.
Lemma by_name_iff {V} k (d : list (string * V)) v : NoDup (map fst d) -> (by_name k d = Some v <-> In (k, v) d).
Proof.
  intros N. split; [apply by_name_In|].
  induction d as [|[n w] t IH]; cbn; [contradiction|]. inversion N as [|? ? N1 N2]; subst.
  intros [E|E].
  - injection E as -> ->. rewrite String.eqb_refl. reflexivity.
  - destruct (String.eqb_spec n k) as [->|]; [|auto].
    exfalso. apply N1. apply (in_map fst) in E. exact E.
Qed.

(** ** the names ending in _m *)
Lemma ends_m_iff s p : ends_m s = Some p <-> s = (p ++ "_m")%string.
Proof.
  revert p; induction s as [|c t IH]; intros p.
  - cbn. split; [discriminate|]. destruct p; discriminate.
  - cbn [ends_m]. destruct (String.eqb_spec (String c t) "_m") as [E|E].
    + split.
      * injection 1 as <-. exact E.
      * rewrite E. intros H. destruct p as [|c1 p]; [reflexivity|].
        exfalso. injection H as _ H. destruct p as [|c2 p]; [discriminate|]. injection H as _ H.
        destruct p; discriminate.
    + destruct (ends_m t) as [q|] eqn:Et; cbn.
      * split.
        -- injection 1 as <-. cbn. f_equal. apply IH. reflexivity.
        -- destruct p as [|c1 p]; intros H; [contradiction|].
           injection H as <- H. apply IH in H. injection H as <-. reflexivity.
      * split; [discriminate|]. destruct p as [|c1 p]; intros H; [contradiction|].
        injection H as <- H. apply IH in H. discriminate.
Qed.
Lemma get_pop d k :
  get (fst (pop_negative d)) k = match ends_m k with Some _ => None | None => get d k end /\
  get (snd (pop_negative d)) k = get d (k ++ "_m").
Proof.
  unfold get. induction d as [|[n v] t [IH1 IH2]]; cbn [pop_negative].
  - cbn. destruct (ends_m k); auto.
  - destruct (pop_negative t) as [p m]. cbn [fst snd] in *.
    destruct (ends_m n) as [s|] eqn:En; cbn [fst snd by_name].
    + apply ends_m_iff in En. subst n. split.
      * rewrite IH1. destruct (ends_m k) eqn:Ek; [reflexivity|].
        destruct (String.eqb_spec (s ++ "_m") k) as [<-|]; [|reflexivity].
        assert (H : ends_m (s ++ "_m") = Some s) by (apply ends_m_iff; reflexivity). congruence.
      * destruct (String.eqb_spec s k) as [->|E].
        -- rewrite String.eqb_refl. reflexivity.
        -- destruct (String.eqb_spec (s ++ "_m") (k ++ "_m")) as [E2|]; [|exact IH2].
           exfalso. apply E.
           assert (A1 : ends_m (s ++ "_m") = Some s) by (apply ends_m_iff; reflexivity).
           rewrite E2 in A1. assert (A2 : ends_m (k ++ "_m") = Some k) by (apply ends_m_iff; reflexivity).
           congruence.
    + split.
      * destruct (String.eqb_spec n k) as [->|E]; [rewrite En; reflexivity | exact IH1].
      * destruct (String.eqb_spec n (k ++ "_m")) as [->|E]; [|exact IH2].
        assert (A : ends_m (k ++ "_m") = Some k) by (apply ends_m_iff; reflexivity). congruence.
Qed.
