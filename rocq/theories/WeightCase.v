(** An inversion of matrices that meets what C70 relies on, and cases for C70. *)
From Coq Require Import Reals.
From Coquelicot Require Import Coquelicot.
From Coq Require Import List String Bool Arith Lra Lia Psatz.
From Verif Require Import WeightModel WeightFacts WeightProps.
Import ListNotations.
Open Scope R_scope.

(** ** Elimination *)
Definition find_pivot (m : nat) (c : nat -> R) : {i | (i < m)%nat /\ c i <> 0} + {forall i, (i < m)%nat -> c i = 0}.
Proof.
  induction m as [|m [(i & Hi & N)|Z]].
  - right. intros; lia.
  - left. exists i. split; [lia|exact N].
  - destruct (Req_EM_T (c m) 0) as [E|N]; [right|left; exists m; split; [lia|exact N]].
    intros i Hi. destruct (Nat.eq_dec i m) as [->|]; [exact E|]. apply Z. lia.
Defined.
Definition skip (p k : nat) : nat := if Nat.ltb k p then k else S k.
Lemma skip_lt p k n : (k < n)%nat -> (skip p k < S n)%nat.
Proof. unfold skip. destruct (Nat.ltb k p); lia. Qed.
Lemma skip_cover p n i : (p < S n)%nat -> (i < S n)%nat -> i = p \/ exists k, (k < n)%nat /\ i = skip p k.
Proof.
  intros Hp Hi. destruct (Nat.lt_trichotomy i p) as [H|[->|H]]; [right|now left|right].
  - exists i. split; [lia|]. unfold skip. assert (E : Nat.ltb i p = true) by (apply Nat.ltb_lt; lia). now rewrite E.
  - exists (i - 1)%nat. split; [lia|]. unfold skip. assert (E : Nat.ltb (i - 1) p = false) by (apply Nat.ltb_ge; lia). rewrite E. lia.
Qed.
Definition reduced (n p : nat) (A : mat) : mat := fun k j => A (skip p k) j - A (skip p k) n / A p n * A p j.
Lemma reduced_spec n p A x k : A p n <> 0 -> applied n (reduced n p A) x k = applied (S n) A x (skip p k) - A (skip p k) n / A p n * applied (S n) A x p.
Proof.
  intros N. unfold applied. cbn [sumn]. transitivity (sumn n (fun j => A (skip p k) j * x j) + (- (A (skip p k) n / A p n)) * sumn n (fun j => A p j * x j)).
  - rewrite <- sumn_scal, <- sumn_plus. apply sumn_ext. intros j _. unfold reduced. ring.
  - field. exact N.
Qed.
Definition extend (n : nat) (x : nat -> R) (last : R) : nat -> R := fun i => if Nat.eqb i n then last else x i.
Lemma extend_below n x l i : (i < n)%nat -> extend n x l i = x i.
Proof. intros H. unfold extend. assert (E : Nat.eqb i n = false) by (apply Nat.eqb_neq; lia). now rewrite E. Qed.
Lemma extend_at n x l : extend n x l n = l.
Proof. unfold extend. now rewrite Nat.eqb_refl. Qed.
Lemma applied_extend n A x l i : applied (S n) A (extend n x l) i = applied n A x i + A i n * l.
Proof. unfold applied. cbn [sumn]. rewrite extend_at. f_equal. apply sumn_ext. intros j Hj. now rewrite extend_below. Qed.

Definition singular (n : nat) (A : mat) : Type := {v : nat -> R | (exists i, (i < n)%nat /\ v i <> 0) /\ forall i, (i < n)%nat -> applied n A v i = 0}.
Definition regular (n : nat) (A : mat) : Type :=
  ((forall b : nat -> R, {x : nat -> R | forall i, (i < n)%nat -> applied n A x i = b i}) * (forall v, (forall i, (i < n)%nat -> applied n A v i = 0) -> forall i, (i < n)%nat -> v i = 0))%type.
Definition solve : forall n A, singular n A + regular n A.
Proof.
  induction n as [|n IH]; intros A.
  - right. split; [intros b; exists b; lia|intros; lia].
  - destruct (find_pivot (S n) (fun i => A i n)) as [(p & Hp & N)|Z].
    + destruct (IH (reduced n p A)) as [(v & Hv & Hz)|(Sol & Inj)].
      * left. exists (extend n v (- (applied n A v p / A p n))). split.
        { destruct Hv as (i & Hi & Hv). exists i. split; [lia|]. now rewrite extend_below. }
        assert (Row : applied (S n) A (extend n v (- (applied n A v p / A p n))) p = 0) by (rewrite applied_extend; field; exact N).
        intros i Hi. destruct (skip_cover p n i Hp Hi) as [->|(k & Hk & ->)]; [exact Row|].
        specialize (Hz k Hk). rewrite <- (applied_ext n _ (extend n v (- (applied n A v p / A p n)))) in Hz by (intros j Hj; now apply extend_below).
        rewrite reduced_spec, Row in Hz by exact N. lra.
      * right. split.
        { intros b. destruct (Sol (fun k => b (skip p k) - A (skip p k) n / A p n * b p)) as (x & Hx). exists (extend n x ((b p - applied n A x p) / A p n)).
          assert (Row : applied (S n) A (extend n x ((b p - applied n A x p) / A p n)) p = b p) by (rewrite applied_extend; field; exact N).
          intros i Hi. destruct (skip_cover p n i Hp Hi) as [->|(k & Hk & ->)]; [exact Row|].
          specialize (Hx k Hk). rewrite <- (applied_ext n _ (extend n x ((b p - applied n A x p) / A p n))) in Hx by (intros j Hj; now apply extend_below).
          rewrite reduced_spec, Row in Hx by exact N. lra. }
        { intros v Hv. assert (V0 : forall i, (i < n)%nat -> v i = 0).
          { apply Inj. intros k Hk. rewrite reduced_spec by exact N. rewrite !Hv by (try apply skip_lt; assumption). ring. }
          intros i Hi. destruct (Nat.eq_dec i n) as [->|]; [|apply V0; lia]. specialize (Hv p Hp). unfold applied in Hv. cbn [sumn] in Hv.
          rewrite sumn_zero in Hv by (intros j Hj; rewrite V0 by exact Hj; ring). rewrite Rplus_0_l in Hv. apply Rmult_integral in Hv as [|]; [contradiction|assumption]. }
    + left. exists (extend n (fun _ => 0) 1). split; [exists n; split; [lia|rewrite extend_at; lra]|].
      intros i Hi. rewrite applied_extend, (Z i Hi). unfold applied. rewrite sumn_zero by (intros; ring). ring.
Defined.
Definition inv0 (n : nat) (A : mat) : option mat :=
  match solve n A with
  | inl _ => None
  | inr (Sol, _) => Some (fun i j => proj1_sig (Sol (delta j)) i)
  end.
Lemma inv0_inverts : inverts inv0.
Proof.
  intros n A. unfold inv0. destruct (solve n A) as [(v & Hv & Hz)|(Sol & Inj)].
  - split; [discriminate|]. intros _. exists v. auto.
  - split; [|discriminate]. intros B E. injection E as <-. set (B := fun i j => proj1_sig (Sol (delta j)) i).
    assert (AB : forall i j, (i < n)%nat -> matmul n A B i j = delta i j). { intros i j Hi. rewrite delta_sym. apply (proj2_sig (Sol (delta j))). exact Hi. }
    intros i j Hi Hj. split; [now apply AB|].
    assert (D : matmul n B A i j - delta i j = 0); [|lra]. apply (Inj (fun k => matmul n B A k j - delta k j)); [|exact Hi].
    intros k Hk. transitivity (matmul n A (matmul n B A) k j - A k j).
    + unfold applied. transitivity (sumn n (fun l => A k l * matmul n B A l j) + (-1) * sumn n (fun l => delta j l * A k l)).
      * rewrite <- sumn_scal, <- sumn_plus. apply sumn_ext. intros l _. rewrite (delta_sym j l). ring.
      * rewrite delta_sum by exact Hj. unfold matmul at 2. ring.
    + rewrite matmul_assoc. unfold matmul at 1. rewrite (sumn_ext n _ (fun l => delta k l * A l j)) by (intros l Hl; now rewrite AB). rewrite delta_sum by exact Hk. ring.
Qed.

(** ** Cases *)
Example kernels : exists K1 K2 K3, get_kernel inv0 5 "exp-squared" 3 = Some K1 /\ positive_definite 5 K1 /\
  get_kernel inv0 5 "finite-difference" 1 = Some K2 /\ positive_definite 5 K2 /\ get_kernel inv0 5 "triangular" 1 = Some K3 /\ positive_definite 5 K3.
Proof.
  destruct (C70_exp_squared inv0 5 3 inv0_inverts ltac:(lra)) as (K1 & E1 & P1 & _).
  destruct (C70_finite_difference inv0 5 1 inv0_inverts) as (P2 & D2). destruct (D2 ltac:(lia) ltac:(lra)) as (K2 & E2).
  destruct (C70_triangular inv0 5 1 inv0_inverts ltac:(lia) ltac:(lra)) as (K3 & E3 & P3). exists K1, K2, K3. auto 10.
Qed.
Example default_scale : exists K v, get_kernel inv0 6 "triangular" 3 = Some K /\ quad 6 K v < 0.
Proof. apply C70_default_scale_refuted; [exact inv0_inverts|lia]. Qed.
(** Two Gaussians, free centre and amplitude, weights under the smooth prior *)
Definition two : settings := mkSettings 0 5 5 1 [1; 2] 0 (1 / 10) None 2 "exp-squared" 3 1.
Definition found : values := mkValues (1 / 20) 5 5 1 [] [0; -1].
Example two_predicts : exists sites mu, sersic_model inv0 two [(5, 5); (5, 6)] found = Some (sites, mu) /\ map fst sites = ["bg"; "x"; "y"; "a"; "lnW"]%string /\ predict_sampled sites found [1; 2] [(5, 5); (5, 6)] = Some mu.
Proof.
  destruct (C70_exp_squared inv0 2 3 inv0_inverts ltac:(lra)) as (K & EK & _).
  assert (E : exists sites mu, sersic_model inv0 two [(5, 5); (5, 6)] found = Some (sites, mu) /\ map fst sites = ["bg"; "x"; "y"; "a"; "lnW"]%string).
  { unfold sersic_model, two. cbn [s_radii s_maxbg s_dcen s_gmax s_afix s_prior s_scale s_lambda s_ngauss_neg s_xcen s_ycen List.length]. unfold positive.
    destruct (Rlt_dec 0 (1 / 10)); [|lra]. destruct (Rlt_dec 0 1); [|lra]. destruct (Rlt_dec 0 0); [lra|]. cbn [fixed_amplitude String.eqb Ascii.eqb Bool.eqb]. rewrite EK.
    eexists. eexists. split; reflexivity. }
  destruct E as (sites & mu & E & Es). exists sites, mu. split; [exact E|]. split; [exact Es|]. apply (C70_predicts inv0 two _ _ _ _ E); cbn; [left; lra|auto].
Qed.
Example light_applies : Forall (fun r => r <> 0) [1; 2] /\ spread (WEach [1; 3]) 2 = Some [1; 3].
Proof. split; [repeat constructor; lra|reflexivity]. Qed.
