(** Sums, quadratic forms and inverses for the kernels of C70. *)
From Coq Require Import Reals List String Bool Arith Lra Lia Psatz.
From Verif Require Import WeightModel.
Import ListNotations.
Open Scope R_scope.

Lemma sumn_ext n f g : (forall i, (i < n)%nat -> f i = g i) -> sumn n f = sumn n g.
Proof. induction n as [|n IH]; intros H; cbn; [reflexivity|]. rewrite IH by (intros; apply H; lia). now rewrite H by lia. Qed.
Lemma sumn_plus n f g : sumn n (fun i => f i + g i) = sumn n f + sumn n g.
Proof. induction n as [|n IH]; cbn; [ring|]. rewrite IH. ring. Qed.
Lemma sumn_scal n c f : sumn n (fun i => c * f i) = c * sumn n f.
Proof. induction n as [|n IH]; cbn; [ring|]. rewrite IH. ring. Qed.
Lemma sumn_scal_r n c f : sumn n (fun i => f i * c) = sumn n f * c.
Proof. induction n as [|n IH]; cbn; [ring|]. rewrite IH. ring. Qed.
Lemma sumn_zero n f : (forall i, (i < n)%nat -> f i = 0) -> sumn n f = 0.
Proof. induction n as [|n IH]; intros H; cbn; [reflexivity|]. rewrite IH, H by (intros; auto with arith). ring. Qed.
Lemma sumn_swap n m f : sumn n (fun i => sumn m (fun j => f i j)) = sumn m (fun j => sumn n (fun i => f i j)).
Proof. induction n as [|n IH]; cbn; [symmetry; now apply sumn_zero|]. rewrite IH, <- sumn_plus. reflexivity. Qed.
Lemma sumn_nonneg n f : (forall i, (i < n)%nat -> 0 <= f i) -> 0 <= sumn n f.
Proof. induction n as [|n IH]; intros H; cbn; [lra|]. assert (0 <= sumn n f) by (apply IH; auto with arith). specialize (H n ltac:(lia)). lra. Qed.
Lemma sumn_null n f : (forall i, (i < n)%nat -> 0 <= f i) -> sumn n f = 0 -> forall i, (i < n)%nat -> f i = 0.
Proof.
  induction n as [|n IH]; intros H E i Hi; cbn in E; [lia|]. assert (P : 0 <= sumn n f) by (apply sumn_nonneg; auto with arith). pose proof (H n ltac:(lia)) as Pn.
  destruct (Nat.eq_dec i n) as [->|]; [lra|]. apply IH; [auto with arith|lra|lia].
Qed.
Lemma sumn_one n f k : (k < n)%nat -> (forall i, (i < n)%nat -> i <> k -> f i = 0) -> sumn n f = f k.
Proof.
  induction n as [|n IH]; intros Hk H; [lia|]. cbn. destruct (Nat.eq_dec k n) as [->|].
  - rewrite sumn_zero; [ring|]. intros i Hi. apply H; lia.
  - rewrite IH by (auto with arith; lia). rewrite (H n) by lia. ring.
Qed.

(** ** Quadratic forms *)
Definition quad (n : nat) (A : mat) (v : nat -> R) : R := sumn n (fun i => sumn n (fun j => v i * A i j * v j)).
Definition positive_definite (n : nat) (A : mat) : Prop := forall v, (exists i, (i < n)%nat /\ v i <> 0) -> 0 < quad n A v.
Lemma quad_ext n A B v : (forall i j, (i < n)%nat -> (j < n)%nat -> A i j = B i j) -> quad n A v = quad n B v.
Proof. intros H. apply sumn_ext. intros i Hi. apply sumn_ext. intros j Hj. now rewrite H. Qed.
Lemma pd_ext n A B : (forall i j, (i < n)%nat -> (j < n)%nat -> A i j = B i j) -> positive_definite n B -> positive_definite n A.
Proof. intros H P v Hv. rewrite (quad_ext n A B v H). now apply P. Qed.
Lemma quad_scaled n A d v : quad n (fun i j => d i * A i j * d j) v = quad n A (fun i => d i * v i).
Proof. apply sumn_ext. intros i _. apply sumn_ext. intros j _. ring. Qed.
Lemma pd_scaled n A d : (forall i, (i < n)%nat -> d i <> 0) -> positive_definite n A -> positive_definite n (fun i j => d i * A i j * d j).
Proof. intros Hd P v (i & Hi & Hv). rewrite quad_scaled. apply P. exists i. split; [exact Hi|]. apply Rmult_integral_contrapositive. auto. Qed.
Lemma pd_times n A c : 0 < c -> positive_definite n A -> positive_definite n (fun i j => c * A i j).
Proof.
  intros Hc P v Hv. assert (E : quad n (fun i j => c * A i j) v = c * quad n A v).
  { unfold quad. rewrite <- sumn_scal. apply sumn_ext. intros i _. rewrite <- sumn_scal. apply sumn_ext. intros j _. ring. }
  rewrite E. apply Rmult_lt_0_compat; auto.
Qed.
Lemma pd_diag n A i : (i < n)%nat -> positive_definite n A -> 0 < A i i.
Proof.
  intros Hi P. assert (Q : quad n A (fun k => if Nat.eqb k i then 1 else 0) = A i i).
  { unfold quad. rewrite (sumn_one n _ i Hi).
    - rewrite (sumn_one n _ i Hi); [rewrite Nat.eqb_refl; ring|]. intros j _ N. apply Nat.eqb_neq in N. rewrite N. ring.
    - intros k _ N. apply sumn_zero. intros j _. apply Nat.eqb_neq in N. rewrite N. ring. }
  rewrite <- Q. apply P. exists i. split; [exact Hi|]. rewrite Nat.eqb_refl. lra.
Qed.
Lemma quad_step n A v : quad (S n) A v = quad n A v + v n * sumn n (fun i => v i * (A i n + A n i)) + v n * A n n * v n.
Proof.
  unfold quad. cbn [sumn]. rewrite (sumn_plus n). rewrite <- sumn_scal.
  assert (E : sumn n (fun i => v n * (v i * (A i n + A n i))) = sumn n (fun i => v i * A i n * v n) + sumn n (fun j => v n * A n j * v j)).
  { rewrite <- sumn_plus. apply sumn_ext. intros i _. ring. }
  rewrite E. ring.
Qed.

(** Matrices with three diagonals *)
Lemma bands_sym d c i j : bands d c i j = bands d c j i.
Proof.
  unfold bands. rewrite (Nat.eqb_sym j i). rewrite orb_comm. destruct (Nat.eqb i j) eqn:E; reflexivity.
Qed.
Lemma bands_step d c v n : quad (S (S n)) (bands d c) v = quad (S n) (bands d c) v + 2 * c * v n * v (S n) + d * v (S n) ^ 2.
Proof.
  rewrite (quad_step (S n)). cbn [sumn]. rewrite sumn_zero.
  - unfold bands. rewrite !Nat.eqb_refl. assert (E1 : Nat.eqb n (S n) = false) by (apply Nat.eqb_neq; lia). assert (E2 : Nat.eqb (S n) n = false) by (apply Nat.eqb_neq; lia).
    rewrite E1, E2, orb_true_r. cbn [orb]. ring.
  - intros i Hi. unfold bands. assert (E : forall a b, a <> b -> Nat.eqb a b = false) by (intros; now apply Nat.eqb_neq). rewrite !E by lia. cbn [orb]. ring.
Qed.
Lemma bands_one d c v : quad 1 (bands d c) v = d * v 0%nat ^ 2.
Proof. unfold quad. cbn. unfold bands. cbn. ring. Qed.
Lemma bands_bound c v : -1 <= c <= 1 -> forall n, v n ^ 2 <= quad (S n) (bands 2 c) v.
Proof.
  intros Hc. induction n as [|n IH].
  - rewrite bands_one. pose proof (pow2_ge_0 (v 0%nat)). lra.
  - rewrite bands_step. set (a := v n) in *. set (b := v (S n)).
    assert (H : 0 <= a ^ 2 + 2 * c * a * b + b ^ 2).
    { replace (a ^ 2 + 2 * c * a * b + b ^ 2) with ((a + c * b) ^ 2 + (1 - c * c) * b ^ 2) by ring. pose proof (pow2_ge_0 (a + c * b)). pose proof (pow2_ge_0 b).
      assert (0 <= 1 - c * c) by nra. assert (0 <= (1 - c * c) * b ^ 2) by now apply Rmult_le_pos. lra. }
    lra.
Qed.
Lemma bands_pd c n : -1 <= c <= 1 -> positive_definite n (bands 2 c).
Proof.
  intros Hc v Hv. destruct n as [|n]; [destruct Hv as (i & Hi & _); lia|].
  destruct (Rlt_dec 0 (quad (S n) (bands 2 c) v)) as [|N]; [assumption|]. exfalso.
  assert (Z : quad (S n) (bands 2 c) v = 0). { pose proof (bands_bound c v Hc n). pose proof (pow2_ge_0 (v n)). lra. } clear N.
  assert (All : forall i, (i < S n)%nat -> v i = 0).
  { clear Hv. induction n as [|n IH]; intros i Hi.
    - rewrite bands_one in Z. assert (i = 0)%nat as -> by lia. assert (v 0%nat * v 0%nat = 0) by lra. now apply Rsqr_0_uniq.
    - assert (Vn : v (S n) = 0). { pose proof (bands_bound c v Hc (S n)) as B. rewrite Z in B. apply Rsqr_0_uniq. unfold Rsqr. pose proof (Rle_0_sqr (v (S n))) as Q. unfold Rsqr in Q. lra. }
      destruct (Nat.eq_dec i (S n)) as [->|]; [exact Vn|]. apply IH; [|lia]. rewrite bands_step, Vn in Z. lra. }
  destruct Hv as (i & Hi & Hv). apply Hv. now apply All.
Qed.
Lemma bands_sign c n : quad (S n) (bands 2 c) (fun i => (-1) ^ i) = 2 * INR (S n) - 2 * c * INR n.
Proof.
  induction n as [|n IH]; [rewrite bands_one; cbn; ring|]. rewrite bands_step, IH.
  assert (Q : (-1) ^ n * (-1) ^ S n = -1). { rewrite <- tech_pow_Rmult. replace ((-1) ^ n * (-1 * (-1) ^ n)) with (- ((-1) ^ n * (-1) ^ n)) by ring. rewrite <- Rpow_mult_distr. replace (-1 * -1) with 1 by ring. rewrite pow1. ring. }
  assert (Q2 : ((-1) ^ S n) ^ 2 = 1). { rewrite <- pow_mult. replace (S n * 2)%nat with (2 * S n)%nat by lia. rewrite pow_mult. replace ((-1) ^ 2) with 1 by ring. apply pow1. }
  rewrite Q2. replace (2 * c * (-1) ^ n * (-1) ^ S n) with (2 * c * ((-1) ^ n * (-1) ^ S n)) by ring. rewrite Q, !S_INR. ring.
Qed.

(** ** Inverses *)
Definition delta (i j : nat) : R := if Nat.eqb i j then 1 else 0.
Definition inverse (n : nat) (A B : mat) : Prop := forall i j, (i < n)%nat -> (j < n)%nat -> matmul n A B i j = delta i j /\ matmul n B A i j = delta i j.
Definition applied (n : nat) (A : mat) (v : nat -> R) (i : nat) : R := sumn n (fun j => A i j * v j).
(** What np.linalg.inv is relied on for *)
Definition inverts (inv : nat -> mat -> option mat) : Prop := forall n A,
  (forall B, inv n A = Some B -> inverse n A B) /\
  (inv n A = None -> exists v, (exists i, (i < n)%nat /\ v i <> 0) /\ forall i, (i < n)%nat -> applied n A v i = 0).

Lemma delta_sum n i f : (i < n)%nat -> sumn n (fun j => delta i j * f j) = f i.
Proof. intros Hi. rewrite (sumn_one n _ i Hi); [unfold delta; rewrite Nat.eqb_refl; ring|]. intros j _ N. unfold delta. assert (E : Nat.eqb i j = false) by (apply Nat.eqb_neq; auto). rewrite E. ring. Qed.
Lemma delta_sym i j : delta i j = delta j i.
Proof. unfold delta. now rewrite Nat.eqb_sym. Qed.
Lemma applied_matmul n A B v i : applied n A (applied n B v) i = applied n (matmul n A B) v i.
Proof.
  unfold applied, matmul. transitivity (sumn n (fun k => sumn n (fun j => A i k * B k j * v j))).
  - apply sumn_ext. intros k _. rewrite <- sumn_scal. apply sumn_ext. intros j _. ring.
  - rewrite sumn_swap. apply sumn_ext. intros j _. rewrite <- sumn_scal_r. reflexivity.
Qed.
Lemma matmul_assoc n A B C i j : matmul n A (matmul n B C) i j = matmul n (matmul n A B) C i j.
Proof.
  unfold matmul. transitivity (sumn n (fun k => sumn n (fun l => A i k * B k l * C l j))).
  - apply sumn_ext. intros k _. rewrite <- sumn_scal. apply sumn_ext. intros l _. ring.
  - rewrite sumn_swap. apply sumn_ext. intros l _. rewrite <- sumn_scal_r. reflexivity.
Qed.
Lemma applied_delta n A v i : (i < n)%nat -> (forall j, (j < n)%nat -> A i j = delta i j) -> applied n A v i = v i.
Proof. intros Hi H. unfold applied. rewrite <- (delta_sum n i v Hi). apply sumn_ext. intros j Hj. now rewrite H. Qed.
Lemma applied_ext n A v w i : (forall j, (j < n)%nat -> v j = w j) -> applied n A v i = applied n A w i.
Proof. intros H. apply sumn_ext. intros j Hj. now rewrite H. Qed.
Lemma inverse_sym n A B : inverse n A B -> (forall i j, (i < n)%nat -> (j < n)%nat -> A i j = A j i) -> forall i j, (i < n)%nat -> (j < n)%nat -> B i j = B j i.
Proof.
  intros H SA i j Hi Hj. (* B = B (A B^T) = B^T *)
  assert (E1 : matmul n B (matmul n A (transpose B)) i j = B i j).
  { unfold matmul at 1. rewrite <- (delta_sum n j (fun k => B i k) Hj). apply sumn_ext. intros k Hk.
    assert (E : matmul n A (transpose B) k j = delta j k).
    { destruct (H j k Hj Hk) as (_ & E). rewrite <- E. unfold matmul, transpose. apply sumn_ext. intros l Hl. rewrite (SA k l) by assumption. ring. }
    rewrite E. ring. }
  rewrite matmul_assoc in E1. rewrite <- E1. unfold matmul at 1. rewrite <- (delta_sum n i (fun k => B j k) Hi). apply sumn_ext. intros k Hk.
  destruct (H i k Hi Hk) as (_ & E). unfold matmul in E at 1. unfold matmul. rewrite E. reflexivity.
Qed.
Lemma gram_inverse_pd n D B : inverse n (matmul n (transpose D) D) B -> positive_definite n B.
Proof.
  intros H v Hv. set (w := applied n B v).
  assert (Vw : forall i, (i < n)%nat -> v i = applied n (transpose D) (applied n D w) i).
  { intros i Hi. rewrite applied_matmul. unfold w. rewrite applied_matmul. symmetry. apply applied_delta; [exact Hi|]. intros j Hj. now apply H. }
  assert (Q : quad n B v = sumn n (fun k => applied n D w k ^ 2)).
  { transitivity (sumn n (fun i => v i * w i)).
    - apply sumn_ext. intros i Hi. unfold w, applied. rewrite <- sumn_scal. apply sumn_ext. intros j _. ring.
    - transitivity (sumn n (fun i => sumn n (fun k => D k i * applied n D w k * w i))).
      + apply sumn_ext. intros i Hi. rewrite (Vw i Hi) at 1. unfold applied at 1. rewrite <- sumn_scal_r. apply sumn_ext. intros k _. reflexivity.
      + rewrite sumn_swap. apply sumn_ext. intros k Hk. replace (applied n D w k ^ 2) with (applied n D w k * applied n D w k) by ring. unfold applied at 3. rewrite <- sumn_scal. apply sumn_ext. intros i _. ring. }
  rewrite Q. assert (P : forall k, (k < n)%nat -> 0 <= applied n D w k ^ 2) by (intros; apply pow2_ge_0).
  destruct (Rlt_dec 0 (sumn n (fun k => applied n D w k ^ 2))) as [|N]; [assumption|]. exfalso.
  assert (Z : sumn n (fun k => applied n D w k ^ 2) = 0). { pose proof (sumn_nonneg n _ P). lra. }
  destruct Hv as (i & Hi & Hv). apply Hv. rewrite (Vw i Hi). unfold applied at 1. apply sumn_zero. intros k Hk.
  pose proof (sumn_null n _ P Z k Hk) as E. cbn beta in E. assert (E' : applied n D w k = 0) by (apply Rsqr_0_uniq; unfold Rsqr; lra). rewrite E'. ring.
Qed.
Lemma pd_regular n A v : positive_definite n A -> (forall i, (i < n)%nat -> applied n A v i = 0) -> forall i, (i < n)%nat -> v i = 0.
Proof.
  intros P H i Hi. destruct (Req_dec (v i) 0) as [|N]; [assumption|]. exfalso.
  assert (Q : quad n A v = 0). { unfold quad. apply sumn_zero. intros k Hk. rewrite <- (Rmult_0_r (v k)), <- (H k Hk). unfold applied. rewrite <- sumn_scal. apply sumn_ext. intros j _. ring. }
  specialize (P v (ex_intro _ i (conj Hi N))). lra.
Qed.
Lemma diagonal_inverse n d B : inverse n (diagonal d) B -> forall i j, (i < n)%nat -> (j < n)%nat -> d i <> 0 /\ B i j = delta i j / d i.
Proof.
  intros H i j Hi Hj.
  assert (E : forall k, (k < n)%nat -> d i * B i k = delta i k).
  { intros k Hk. destruct (H i k Hi Hk) as (E & _). rewrite <- E. unfold matmul. rewrite (sumn_one n _ i Hi); [unfold diagonal; now rewrite Nat.eqb_refl|].
    intros l _ N. unfold diagonal. assert (En : Nat.eqb i l = false) by (apply Nat.eqb_neq; auto). rewrite En. ring. }
  assert (N : d i <> 0). { intros Z. specialize (E i Hi). rewrite Z in E. unfold delta in E. rewrite Nat.eqb_refl in E. lra. }
  split; [exact N|]. rewrite <- (E j Hj). field. exact N.
Qed.
Lemma diagonal_regular n d v : (forall i, (i < n)%nat -> d i <> 0) -> (forall i, (i < n)%nat -> applied n (diagonal d) v i = 0) -> forall i, (i < n)%nat -> v i = 0.
Proof.
  intros Hd H i Hi. specialize (H i Hi). unfold applied in H. rewrite (sumn_one n _ i Hi) in H.
  - unfold diagonal in H. rewrite Nat.eqb_refl in H. apply Rmult_integral in H as [|]; [|assumption]. exfalso. now apply (Hd i Hi).
  - intros l _ N. unfold diagonal. assert (En : Nat.eqb i l = false) by (apply Nat.eqb_neq; auto). rewrite En. ring.
Qed.

(** ** The exponential of products of indices is positive definite *)
Lemma sumn_cv n (f : nat -> nat -> R) (l : nat -> R) : (forall i, (i < n)%nat -> Un_cv (fun N => f N i) (l i)) -> Un_cv (fun N => sumn n (f N)) (sumn n l).
Proof.
  induction n as [|n IH]; intros H; cbn.
  - intros e He. exists O. intros. unfold R_dist. rewrite Rminus_diag_eq by reflexivity. rewrite Rabs_R0. lra.
  - apply CV_plus; [apply IH; auto with arith|apply H; lia].
Qed.
Lemma cv_const c : Un_cv (fun _ => c) c.
Proof. intros e He. exists O. intros. unfold R_dist. rewrite Rminus_diag_eq by reflexivity. rewrite Rabs_R0. lra. Qed.
Lemma sum_f_swap (N n : nat) (g : nat -> nat -> R) : sumn n (fun i => sum_f_R0 (fun k => g k i) N) = sum_f_R0 (fun k => sumn n (g k)) N.
Proof. induction N as [|N IH]; cbn; [reflexivity|]. rewrite sumn_plus, IH. reflexivity. Qed.
Lemma sum_f_scal c g N : c * sum_f_R0 g N = sum_f_R0 (fun k => c * g k) N.
Proof. induction N as [|N IH]; cbn; [ring|]. rewrite <- IH. ring. Qed.
Definition moment (n : nat) (u : nat -> R) (k : nat) : R := sumn n (fun i => u i * INR i ^ k).
Lemma exp_product_partial n u t N :
  sumn n (fun i => sumn n (fun j => u i * u j * E1 (INR i * INR j * t) N)) = sum_f_R0 (fun k => / INR (fact k) * t ^ k * moment n u k ^ 2) N.
Proof.
  transitivity (sumn n (fun i => sum_f_R0 (fun k => sumn n (fun j => u i * u j * (/ INR (fact k) * (INR i * INR j * t) ^ k))) N)).
  - apply sumn_ext. intros i _. rewrite <- sum_f_swap. apply sumn_ext. intros j _. unfold E1. apply sum_f_scal.
  - rewrite sum_f_swap. apply sum_eq. intros k _.
    replace (/ INR (fact k) * t ^ k * moment n u k ^ 2) with (/ INR (fact k) * t ^ k * (moment n u k * moment n u k)) by ring. unfold moment at 1. rewrite <- sumn_scal_r, <- sumn_scal.
    apply sumn_ext. intros i _. unfold moment. rewrite <- sumn_scal, <- sumn_scal. apply sumn_ext. intros j _. rewrite !Rpow_mult_distr. ring.
Qed.
Lemma exp_product_bound n u t k : 0 <= t -> / INR (fact k) * t ^ k * moment n u k ^ 2 <= sumn n (fun i => sumn n (fun j => u i * u j * exp (INR i * INR j * t))).
Proof.
  intros Ht. set (a := fun k => / INR (fact k) * t ^ k * moment n u k ^ 2).
  assert (Pa : forall k, 0 <= a k). { intros m. unfold a. apply Rmult_le_pos; [|apply pow2_ge_0]. apply Rmult_le_pos; [|now apply pow_le]. apply Rlt_le, Rinv_0_lt_compat, INR_fact_lt_0. }
  assert (Cv : Un_cv (sum_f_R0 a) (sumn n (fun i => sumn n (fun j => u i * u j * exp (INR i * INR j * t))))).
  { intros e He. assert (C0 : Un_cv (fun N => sumn n (fun i => sumn n (fun j => u i * u j * E1 (INR i * INR j * t) N))) (sumn n (fun i => sumn n (fun j => u i * u j * exp (INR i * INR j * t))))).
    { apply sumn_cv with (f := fun N i => sumn n (fun j => u i * u j * E1 (INR i * INR j * t) N)). intros i _. apply sumn_cv with (f := fun N j => u i * u j * E1 (INR i * INR j * t) N). intros j _.
      apply CV_mult; [apply cv_const|apply E1_cvg]. }
    destruct (C0 e He) as (M & HM). exists M. intros N HN. specialize (HM N HN). rewrite exp_product_partial in HM. exact HM. }
  assert (Gr : Un_growing (sum_f_R0 a)) by (intros N; cbn; specialize (Pa (S N)); lra).
  apply Rle_trans with (sum_f_R0 a k); [|now apply growing_ineq].
  fold (a k). destruct k as [|k]; [cbn; lra|]. cbn [sum_f_R0]. assert (0 <= sum_f_R0 a k) by (apply cond_pos_sum; exact Pa). lra.
Qed.
(** Only zero has no moments *)
Fixpoint roots (l : list nat) (x : R) : R := match l with [] => 1 | j :: l => (x - INR j) * roots l x end.
Lemma moments_roots n u l : (forall k, moment n u k = 0) -> forall k, sumn n (fun i => u i * (INR i ^ k * roots l (INR i))) = 0.
Proof.
  intros H. induction l as [|j l IH]; intros k; cbn [roots].
  - rewrite <- (H k). apply sumn_ext. intros; ring.
  - transitivity (sumn n (fun i => u i * (INR i ^ S k * roots l (INR i))) + (- INR j) * sumn n (fun i => u i * (INR i ^ k * roots l (INR i)))); [|rewrite !IH; ring].
    rewrite <- sumn_scal, <- sumn_plus. apply sumn_ext. intros i _. cbn [pow]. ring.
Qed.
Lemma roots_zero l j : In j l -> roots l (INR j) = 0.
Proof. induction l as [|a l IH]; intros H; cbn; [destruct H|]. destruct H as [->|H]; [ring|]. rewrite IH by assumption. ring. Qed.
Lemma roots_nonzero l j : ~ In j l -> roots l (INR j) <> 0.
Proof.
  induction l as [|a l IH]; intros H; cbn; [lra|]. apply Rmult_integral_contrapositive. split.
  - intros E. apply H. left. apply INR_eq. lra.
  - apply IH. intros C. apply H. now right.
Qed.
Lemma moments_null n u : (forall k, moment n u k = 0) -> forall i, (i < n)%nat -> u i = 0.
Proof.
  intros H m Hm. set (l := filter (fun i => negb (Nat.eqb i m)) (seq 0 n)).
  pose proof (moments_roots n u l H 0) as E. rewrite (sumn_one n _ m Hm) in E.
  - rewrite pow_O, Rmult_1_l in E. apply Rmult_integral in E as [|E]; [assumption|]. exfalso. revert E. apply roots_nonzero. unfold l. intros C. apply filter_In in C as (_ & C). now rewrite Nat.eqb_refl in C.
  - intros i Hi N. rewrite roots_zero; [ring|]. unfold l. apply filter_In. split; [apply in_seq; lia|]. apply Nat.eqb_neq in N. now rewrite N.
Qed.
Lemma exp_squared_pd n s : s <> 0 -> positive_definite n (exp_squared s).
Proof.
  intros Hs v Hv. set (t := / s ^ 2). assert (Ht : 0 < t). { apply Rinv_0_lt_compat. rewrite <- Rsqr_pow2. now apply Rsqr_pos_lt. }
  set (u := fun i => v i * exp (- (INR i ^ 2) * t / 2)).
  assert (Q : quad n (exp_squared s) v = sumn n (fun i => sumn n (fun j => u i * u j * exp (INR i * INR j * t)))).
  { apply sumn_ext. intros i _. apply sumn_ext. intros j _. unfold u, exp_squared, distance. rewrite pow2_abs.
    replace (- (INR i - INR j) ^ 2 / (2 * s ^ 2)) with (- (INR i ^ 2) * t / 2 + (- (INR j ^ 2) * t / 2 + INR i * INR j * t)) by (unfold t; field; exact Hs). rewrite !exp_plus. ring. }
  rewrite Q. set (q := sumn n _). assert (B : forall k, / INR (fact k) * t ^ k * moment n u k ^ 2 <= q) by (intros k; apply exp_product_bound; lra).
  destruct (Rlt_dec 0 q) as [|N]; [assumption|]. exfalso.
  assert (Z : forall k, moment n u k = 0).
  { intros k. specialize (B k). assert (C : 0 < / INR (fact k) * t ^ k). { apply Rmult_lt_0_compat; [apply Rinv_0_lt_compat, INR_fact_lt_0|now apply pow_lt]. }
    pose proof (pow2_ge_0 (moment n u k)) as P2. assert (E : moment n u k ^ 2 = 0) by nra. apply Rsqr_0_uniq. unfold Rsqr. lra. }
  destruct Hv as (i & Hi & Hv). apply Hv. pose proof (moments_null n u Z i Hi) as E. unfold u in E. apply Rmult_integral in E as [|E]; [assumption|].
  pose proof (exp_pos (- (INR i ^ 2) * t / 2)). lra.
Qed.
