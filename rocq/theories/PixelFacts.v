(** Integrals over a pixel, for C78. *)
From Coq Require Import Reals Lra Lia Psatz.
From Coquelicot Require Import Coquelicot.
Open Scope R_scope.

(** ** Taylor bounds from derivatives *)
Lemma up_nonneg (f f' : R -> R) : (forall t, 0 <= t -> is_derive f t (f' t)) -> f 0 = 0 -> (forall t, 0 <= t -> 0 <= f' t) -> forall t, 0 <= t -> 0 <= f t.
Proof.
  intros D Z P t Ht. destruct (Req_dec t 0) as [->|N]; [lra|].
  destruct (MVT_gen f 0 t f') as (c & Hc & E).
  - intros x Hx. rewrite Rmin_left in Hx by lra. apply D. lra.
  - intros x Hx. rewrite Rmin_left in Hx by lra. apply derivable_continuous_pt. exists (f' x). apply is_derive_Reals. apply D. lra.
  - rewrite Rmin_left, Rmax_right in Hc by lra. assert (0 <= f' c * (t - 0)) by (apply Rmult_le_pos; [apply P|]; lra). lra.
Qed.
Lemma up (f f' : R -> R) c k : (forall t, 0 <= t -> is_derive f t (f' t)) -> f 0 = 0 -> (forall t, 0 <= t -> Rabs (f' t) <= c * t ^ k) ->
  forall t, 0 <= t -> Rabs (f t) <= c / INR (S k) * t ^ S k.
Proof.
  intros D Z B t Ht. assert (K : INR (S k) <> 0) by (apply not_0_INR; lia).
  assert (DP : forall s x, 0 <= x -> is_derive (fun t => c / INR (S k) * t ^ S k + s * f t) x (c * x ^ k + s * f' x)).
  { intros s x Hx. pose proof (D x Hx) as Dx. evar_last.
    - apply (is_derive_plus (fun t => c / INR (S k) * t ^ S k) (fun t => s * f t)).
      + apply (is_derive_scal (fun t => t ^ S k) x (c / INR (S k))). apply (is_derive_pow (fun t => t) (S k) x 1). apply (is_derive_id x).
      + apply (is_derive_scal f x s). exact Dx.
    - unfold plus. cbn [AbelianGroup.plus R_AbelianGroup]. cbn [pred]. cbv [scal ModuleSpace.scal]. cbn. field. exact K. }
  assert (Z0 : forall s, c / INR (S k) * 0 ^ S k + s * f 0 = 0) by (intros s; rewrite Z, pow_ne_zero by lia; ring).
  pose proof (up_nonneg (fun t => c / INR (S k) * t ^ S k + 1 * f t) (fun x => c * x ^ k + 1 * f' x) (DP 1) (Z0 1)) as U1.
  pose proof (up_nonneg (fun t => c / INR (S k) * t ^ S k + -1 * f t) (fun x => c * x ^ k + -1 * f' x) (DP (-1)) (Z0 (-1))) as U2.
  assert (A : forall x, 0 <= x -> - (c * x ^ k) <= f' x <= c * x ^ k) by (intros x Hx; pose proof (Rle_abs (f' x)); pose proof (Rle_abs (- f' x)) as W; rewrite Rabs_Ropp in W; pose proof (B x Hx); lra).
  assert (H1 := U1 (fun x Hx => ltac:(pose proof (A x Hx); lra)) t Ht). assert (H2 := U2 (fun x Hx => ltac:(pose proof (A x Hx); lra)) t Ht). cbv beta in H1, H2.
  apply Rabs_le. lra.
Qed.

Section Taylor.
  Variables (h h1 h2 h3 h4 : R -> R) (M c : R).
  Hypothesis D1 : forall x, is_derive h x (h1 x).
  Hypothesis D2 : forall x, is_derive h1 x (h2 x).
  Hypothesis D3 : forall x, is_derive h2 x (h3 x).
  Hypothesis D4 : forall x, is_derive h3 x (h4 x).
  Hypothesis B : forall x, Rabs (h4 x) <= M.
  Lemma shifted (k k1 : R -> R) : (forall x, is_derive k x (k1 x)) -> forall t, is_derive (fun t => k (c + t)) t (k1 (c + t)).
  Proof.
    intros D t. evar_last.
    - apply (is_derive_comp k (fun t => c + t) t (k1 (c + t)) 1); [apply D|]. auto_derive; auto; ring.
    - cbv [scal ModuleSpace.scal]. cbn. ring.
  Qed.
  Lemma taylor_right t : 0 <= t -> Rabs (h (c + t) - (h c + h1 c * t + h2 c / 2 * t ^ 2 + h3 c / 6 * t ^ 3)) <= M / 24 * t ^ 4.
  Proof.
    intros Ht.
    assert (R3 : forall t, 0 <= t -> Rabs (h3 (c + t) - h3 c) <= M * t ^ 1).
    { intros x Hx. replace (M * x ^ 1) with (M / INR 1 * x ^ 1) by (cbn; field). apply (up (fun t => h3 (c + t) - h3 c) (fun t => h4 (c + t)) M 0); auto.
      - intros y _. evar_last; [apply (is_derive_minus (fun t => h3 (c + t)) (fun _ => h3 c)); [apply shifted, D4|apply is_derive_const]|]. cbv [minus plus opp zero]; cbn; ring.
      - rewrite Rplus_0_r. ring.
      - intros y _. cbn. rewrite Rmult_1_r. apply B. }
    assert (R2 : forall t, 0 <= t -> Rabs (h2 (c + t) - (h2 c + h3 c * t)) <= M / 2 * t ^ 2).
    { intros x Hx. replace (M / 2 * x ^ 2) with (M / INR 2 * x ^ 2) by (cbn; field). apply (up (fun t => h2 (c + t) - (h2 c + h3 c * t)) (fun t => h3 (c + t) - h3 c) M 1); auto.
      - intros y _. evar_last; [apply (is_derive_minus (fun t => h2 (c + t)) (fun t => h2 c + h3 c * t)); [apply shifted, D3|auto_derive; auto]|]. cbv [minus plus opp zero]; cbn; ring.
      - rewrite Rplus_0_r. ring. }
    assert (R1 : forall t, 0 <= t -> Rabs (h1 (c + t) - (h1 c + h2 c * t + h3 c / 2 * t ^ 2)) <= M / 6 * t ^ 3).
    { intros x Hx. replace (M / 6 * x ^ 3) with (M / 2 / INR 3 * x ^ 3) by (cbn; field). apply (up (fun t => h1 (c + t) - (h1 c + h2 c * t + h3 c / 2 * t ^ 2)) (fun t => h2 (c + t) - (h2 c + h3 c * t)) (M / 2) 2); auto.
      - intros y _. evar_last; [apply (is_derive_minus (fun t => h1 (c + t)) (fun t => h1 c + h2 c * t + h3 c / 2 * t ^ 2)); [apply shifted, D2|auto_derive; auto]|]. cbv [minus plus opp zero]; cbn; field.
      - rewrite Rplus_0_r. ring. }
    replace (M / 24 * t ^ 4) with (M / 6 / INR 4 * t ^ 4) by (cbn; field).
    apply (up (fun t => h (c + t) - (h c + h1 c * t + h2 c / 2 * t ^ 2 + h3 c / 6 * t ^ 3)) (fun t => h1 (c + t) - (h1 c + h2 c * t + h3 c / 2 * t ^ 2)) (M / 6) 3); auto.
    - intros y _. evar_last; [apply (is_derive_minus (fun t => h (c + t)) (fun t => h c + h1 c * t + h2 c / 2 * t ^ 2 + h3 c / 6 * t ^ 3)); [apply shifted, D1|auto_derive; auto]|]. cbv [minus plus opp zero]; cbn; field.
    - rewrite Rplus_0_r. ring.
  Qed.
End Taylor.
Lemma reflected (k k1 : R -> R) c s : (forall x, is_derive k x (k1 x)) -> forall x, is_derive (fun x => s * k (2 * c - x)) x (- s * k1 (2 * c - x)).
Proof.
  intros D x. evar_last.
  - apply (is_derive_scal (fun x => k (2 * c - x)) x s). apply (is_derive_comp k (fun x => 2 * c - x) x (k1 (2 * c - x)) (-1)); [apply D|]. auto_derive; auto; ring.
  - cbv [scal ModuleSpace.scal]. cbn. ring.
Qed.
Lemma taylor4 (h h1 h2 h3 h4 : R -> R) M c : (forall x, is_derive h x (h1 x)) -> (forall x, is_derive h1 x (h2 x)) -> (forall x, is_derive h2 x (h3 x)) -> (forall x, is_derive h3 x (h4 x)) ->
  (forall x, Rabs (h4 x) <= M) -> forall x, Rabs (h x - (h c + h1 c * (x - c) + h2 c / 2 * (x - c) ^ 2 + h3 c / 6 * (x - c) ^ 3)) <= M / 24 * (x - c) ^ 4.
Proof.
  intros D1 D2 D3 D4 B x. destruct (Rle_lt_dec 0 (x - c)) as [P|N].
  - pose proof (taylor_right h h1 h2 h3 h4 M c D1 D2 D3 D4 B (x - c) P) as T. replace (c + (x - c)) with x in T by ring. exact T.
  - assert (B' : forall y, Rabs (- - - - 1 * h4 (2 * c - y)) <= M) by (intros y; replace (- - - - 1 * h4 (2 * c - y)) with (h4 (2 * c - y)) by ring; apply B).
    pose proof (taylor_right (fun y => 1 * h (2 * c - y)) (fun y => - 1 * h1 (2 * c - y)) (fun y => - - 1 * h2 (2 * c - y)) (fun y => - - - 1 * h3 (2 * c - y)) (fun y => - - - - 1 * h4 (2 * c - y)) M c
      (reflected h h1 c 1 D1) (reflected h1 h2 c (- 1) D2) (reflected h2 h3 c (- - 1) D3) (reflected h3 h4 c (- - - 1) D4) B' (c - x) ltac:(lra)) as T.
    cbv beta in T. replace (2 * c - (c + (c - x))) with x in T by ring. replace (2 * c - c) with c in T by ring.
    replace ((x - c) ^ 4) with ((c - x) ^ 4) by ring. eapply Rle_trans; [|exact T]. apply Req_le. f_equal. field.
Qed.
Lemma taylor2 (h h1 h2 : R -> R) M c : (forall x, is_derive h x (h1 x)) -> (forall x, is_derive h1 x (h2 x)) ->
  (forall x, Rabs (h2 x) <= M) -> forall x, Rabs (h x - (h c + h1 c * (x - c))) <= M / 2 * (x - c) ^ 2.
Proof.
  intros D1 D2 B. assert (Pos : forall k k1 k2, (forall x, is_derive k x (k1 x)) -> (forall x, is_derive k1 x (k2 x)) -> (forall x, Rabs (k2 x) <= M) ->
    forall t, 0 <= t -> Rabs (k (c + t) - (k c + k1 c * t)) <= M / 2 * t ^ 2).
  { intros k k1 k2 E1 E2 Bk t Ht.
    assert (R1 : forall t, 0 <= t -> Rabs (k1 (c + t) - k1 c) <= M * t ^ 1).
    { intros x Hx. replace (M * x ^ 1) with (M / INR 1 * x ^ 1) by (cbn; field). apply (up (fun t => k1 (c + t) - k1 c) (fun t => k2 (c + t)) M 0); auto.
      - intros y _. evar_last; [apply (is_derive_minus (fun t => k1 (c + t)) (fun _ => k1 c)); [apply shifted, E2|apply is_derive_const]|]. cbv [minus plus opp zero]; cbn; ring.
      - rewrite Rplus_0_r. ring.
      - intros y _. cbn. rewrite Rmult_1_r. apply Bk. }
    replace (M / 2 * t ^ 2) with (M / INR 2 * t ^ 2) by (cbn; field). apply (up (fun t => k (c + t) - (k c + k1 c * t)) (fun t => k1 (c + t) - k1 c) M 1); auto.
    - intros y _. evar_last; [apply (is_derive_minus (fun t => k (c + t)) (fun t => k c + k1 c * t)); [apply shifted, E1|auto_derive; auto]|]. cbv [minus plus opp zero]; cbn; ring.
    - rewrite Rplus_0_r. ring. }
  intros x. destruct (Rle_lt_dec 0 (x - c)) as [P|N].
  - pose proof (Pos h h1 h2 D1 D2 B (x - c) P) as T. replace (c + (x - c)) with x in T by ring. exact T.
  - assert (B' : forall y, Rabs (- - 1 * h2 (2 * c - y)) <= M) by (intros y; replace (- - 1 * h2 (2 * c - y)) with (h2 (2 * c - y)) by ring; apply B).
    pose proof (Pos (fun y => 1 * h (2 * c - y)) (fun y => - 1 * h1 (2 * c - y)) (fun y => - - 1 * h2 (2 * c - y)) (reflected h h1 c 1 D1) (reflected h1 h2 c (- 1) D2) B' (c - x) ltac:(lra)) as T.
    cbv beta in T. replace (2 * c - (c + (c - x))) with x in T by ring. replace (2 * c - c) with c in T by ring.
    replace ((x - c) ^ 2) with ((c - x) ^ 2) by ring. eapply Rle_trans; [|exact T]. apply Req_le. f_equal. field.
Qed.

(** ** Integrals of one unit about a point *)
Lemma poly_RInt a0 a1 a2 a3 a4 c : is_RInt (fun x => a0 + a1 * (x - c) + a2 * (x - c) ^ 2 + a3 * (x - c) ^ 3 + a4 * (x - c) ^ 4) (c - / 2) (c + / 2) (a0 + a2 / 12 + a4 / 80).
Proof.
  evar_last.
  - apply (is_RInt_derive (fun x => a0 * (x - c) + a1 / 2 * (x - c) ^ 2 + a2 / 3 * (x - c) ^ 3 + a3 / 4 * (x - c) ^ 4 + a4 / 5 * (x - c) ^ 5)).
    + intros x _. auto_derive; auto. field.
    + intros x _. apply (ex_derive_continuous (fun x => a0 + a1 * (x - c) + a2 * (x - c) ^ 2 + a3 * (x - c) ^ 3 + a4 * (x - c) ^ 4)). auto_derive. auto.
  - cbv [minus plus opp]. cbn. field.
Qed.
Lemma RInt_near (h p : R -> R) (b : R -> R) u v P Bd : u <= v -> ex_RInt h u v -> is_RInt p u v P -> is_RInt b u v Bd -> (forall x, Rabs (h x - p x) <= b x) -> Rabs (RInt h u v - P) <= Bd.
Proof.
  intros Huv Eh Ep Eb H. pose proof (RInt_correct h u v Eh) as Ch.
  pose proof (is_RInt_minus h p u v (RInt h u v) P Ch Ep) as Cm.
  pose proof (norm_RInt_le (fun x => minus (h x) (p x)) b u v (minus (RInt h u v) P) Bd Huv) as N. apply N; auto.
Qed.
Lemma unit4 (h h1 h2 h3 h4 : R -> R) M c : (forall x, is_derive h x (h1 x)) -> (forall x, is_derive h1 x (h2 x)) -> (forall x, is_derive h2 x (h3 x)) -> (forall x, is_derive h3 x (h4 x)) ->
  (forall x, Rabs (h4 x) <= M) -> Rabs (RInt h (c - / 2) (c + / 2) - (h c + h2 c / 24)) <= M / 1920.
Proof.
  intros D1 D2 D3 D4 B. apply RInt_near with (p := fun x => h c + h1 c * (x - c) + h2 c / 2 * (x - c) ^ 2 + h3 c / 6 * (x - c) ^ 3 + 0 * (x - c) ^ 4) (b := fun x => 0 + 0 * (x - c) + 0 * (x - c) ^ 2 + 0 * (x - c) ^ 3 + M / 24 * (x - c) ^ 4).
  - lra.
  - apply (ex_RInt_continuous (V := R_CompleteNormedModule)). intros x _. apply (ex_derive_continuous h). eexists. apply D1.
  - replace (h c + h2 c / 24) with (h c + h2 c / 2 / 12 + 0 / 80) by field. apply poly_RInt.
  - replace (M / 1920) with (0 + 0 / 12 + M / 24 / 80) by field. apply poly_RInt.
  - intros x. pose proof (taylor4 h h1 h2 h3 h4 M c D1 D2 D3 D4 B x) as T.
    replace (h x - (h c + h1 c * (x - c) + h2 c / 2 * (x - c) ^ 2 + h3 c / 6 * (x - c) ^ 3 + 0 * (x - c) ^ 4)) with (h x - (h c + h1 c * (x - c) + h2 c / 2 * (x - c) ^ 2 + h3 c / 6 * (x - c) ^ 3)) by ring. lra.
Qed.
Lemma unit2 (h h1 h2 : R -> R) M c : (forall x, is_derive h x (h1 x)) -> (forall x, is_derive h1 x (h2 x)) ->
  (forall x, Rabs (h2 x) <= M) -> Rabs (RInt h (c - / 2) (c + / 2) - h c) <= M / 24.
Proof.
  intros D1 D2 B. apply RInt_near with (p := fun x => h c + h1 c * (x - c) + 0 * (x - c) ^ 2 + 0 * (x - c) ^ 3 + 0 * (x - c) ^ 4) (b := fun x => 0 + 0 * (x - c) + M / 2 * (x - c) ^ 2 + 0 * (x - c) ^ 3 + 0 * (x - c) ^ 4).
  - lra.
  - apply (ex_RInt_continuous (V := R_CompleteNormedModule)). intros x _. apply (ex_derive_continuous h). eexists. apply D1.
  - evar_last; [apply poly_RInt|]. cbn. field.
  - replace (M / 24) with (0 + M / 2 / 12 + 0 / 80) by field. apply poly_RInt.
  - intros x. pose proof (taylor2 h h1 h2 M c D1 D2 B x) as T.
    replace (h x - (h c + h1 c * (x - c) + 0 * (x - c) ^ 2 + 0 * (x - c) ^ 3 + 0 * (x - c) ^ 4)) with (h x - (h c + h1 c * (x - c))) by ring. lra.
Qed.

(** ** The Gaussian and its derivatives *)
Lemma exp_cubic t : 0 <= t -> 1 + t + t ^ 2 / 2 + t ^ 3 / 6 <= exp t.
Proof.
  intros Ht.
  assert (E1 : forall t, 0 <= t -> 0 <= exp t - 1).
  { intros x Hx. pose proof (exp_ineq1_le x). lra. }
  assert (E2 : forall t, 0 <= t -> 0 <= exp t - (1 + t)) by (intros x Hx; pose proof (exp_ineq1_le x); lra).
  assert (E3 : forall t, 0 <= t -> 0 <= exp t - (1 + t + t ^ 2 / 2)).
  { apply (up_nonneg (fun t => exp t - (1 + t + t ^ 2 / 2)) (fun t => exp t - (1 + t))); auto.
    - intros x _. auto_derive; auto. field.
    - rewrite exp_0. field. }
  assert (E4 : 0 <= exp t - (1 + t + t ^ 2 / 2 + t ^ 3 / 6)).
  { revert t Ht. apply (up_nonneg (fun t => exp t - (1 + t + t ^ 2 / 2 + t ^ 3 / 6)) (fun t => exp t - (1 + t + t ^ 2 / 2))); auto.
    - intros x _. auto_derive; auto. field.
    - rewrite exp_0. field. }
  lra.
Qed.
Lemma decay z : 0 <= z -> (z ^ 2 + 6 * z + 3) * exp (- (1 / 2) * z) <= 8.
Proof.
  intros Hz. pose proof (exp_cubic (z / 2) ltac:(lra)) as E. replace (- (1 / 2) * z) with (- (z / 2)) by field. rewrite exp_Ropp. pose proof (exp_pos (z / 2)) as P.
  apply (Rmult_le_reg_r (exp (z / 2))); auto. rewrite Rmult_assoc, Rinv_l by lra. rewrite Rmult_1_r.
  apply Rle_trans with (8 * (1 + z / 2 + (z / 2) ^ 2 / 2 + (z / 2) ^ 3 / 6)); [|lra].
  assert (Q : 0 <= 5 - 2 * z + z ^ 3 / 6).
  { replace (5 - 2 * z + z ^ 3 / 6) with ((z - 2) ^ 2 * (z + 4) / 6 + 7 / 3) by field. assert (0 <= (z - 2) ^ 2 * (z + 4)) by (apply Rmult_le_pos; [apply pow2_ge_0|lra]). lra. }
  replace (8 * (1 + z / 2 + (z / 2) ^ 2 / 2 + (z / 2) ^ 3 / 6)) with (z ^ 2 + 6 * z + 3 + (5 - 2 * z + z ^ 3 / 6)) by field. lra.
Qed.

Section Gauss.
  Variables p q r xc yc : R.
  (** The light per unit area of a Gaussian of unit height at [xc], [yc]. *)
  Definition ga (x y : R) : R := exp (- (1 / 2) * (p * (x - xc) ^ 2 + q * (y - yc) ^ 2 + 2 * r * (x - xc) * (y - yc))).
  Definition vx (x y : R) : R := p * (x - xc) + r * (y - yc).
  Definition vy (x y : R) : R := q * (y - yc) + r * (x - xc).
  Definition zz (x y : R) : R := p * (x - xc) ^ 2 + q * (y - yc) ^ 2 + 2 * r * (x - xc) * (y - yc).

  Lemma ga_dx x y : is_derive (fun x => ga x y) x (- vx x y * ga x y).
  Proof.
    unfold ga. evar_last.
    - apply (is_derive_comp exp (fun x => - (1 / 2) * (p * (x - xc) ^ 2 + q * (y - yc) ^ 2 + 2 * r * (x - xc) * (y - yc))) x); [apply is_derive_exp|]. auto_derive; [auto|reflexivity].
    - cbv [scal ModuleSpace.scal]. cbn. unfold vx. field.
  Qed.
  Lemma ga_dy x y : is_derive (fun y => ga x y) y (- vy x y * ga x y).
  Proof.
    unfold ga. evar_last.
    - apply (is_derive_comp exp (fun y => - (1 / 2) * (p * (x - xc) ^ 2 + q * (y - yc) ^ 2 + 2 * r * (x - xc) * (y - yc))) y); [apply is_derive_exp|]. auto_derive; [auto|reflexivity].
    - cbv [scal ModuleSpace.scal]. cbn. unfold vy. field.
  Qed.
  (** A polynomial times the Gaussian. *)
  Lemma poly_dx (P P' : R -> R) x y d : is_derive P x (P' x) -> d = (P' x - P x * vx x y) * ga x y -> is_derive (fun x => P x * ga x y) x d.
  Proof.
    intros D ->. evar_last.
    - apply (is_derive_mult P (fun x => ga x y) x (P' x) (- vx x y * ga x y)); [exact D|apply ga_dx|]. intros n m. apply Rmult_comm.
    - cbv [plus mult]. cbn. ring.
  Qed.
  Lemma poly_dy (P P' : R -> R) x y d : is_derive P y (P' y) -> d = (P' y - P y * vy x y) * ga x y -> is_derive (fun y => P y * ga x y) y d.
  Proof.
    intros D ->. evar_last.
    - apply (is_derive_mult P (fun y => ga x y) y (P' y) (- vy x y * ga x y)); [exact D|apply ga_dy|]. intros n m. apply Rmult_comm.
    - cbv [plus mult]. cbn. ring.
  Qed.
  Definition gx2 x y := (vx x y ^ 2 - p) * ga x y.
  Definition gx3 x y := (3 * p * vx x y - vx x y ^ 3) * ga x y.
  Definition gx4 x y := (vx x y ^ 4 - 6 * p * vx x y ^ 2 + 3 * p ^ 2) * ga x y.
  Definition gy2 x y := (vy x y ^ 2 - q) * ga x y.
  Definition gy3 x y := (3 * q * vy x y - vy x y ^ 3) * ga x y.
  Definition gy4 x y := (vy x y ^ 4 - 6 * q * vy x y ^ 2 + 3 * q ^ 2) * ga x y.
  Definition gx2y x y := (2 * r * vx x y - vy x y * (vx x y ^ 2 - p)) * ga x y.
  Definition gx2y2 x y := ((vx x y ^ 2 - p) * (vy x y ^ 2 - q) - 4 * r * vx x y * vy x y + 2 * r ^ 2) * ga x y.
  Lemma dx2 x y : is_derive (fun x => - vx x y * ga x y) x (gx2 x y).
  Proof. apply (poly_dx (fun x => - vx x y) (fun _ => - p)); [unfold vx; auto_derive; auto; ring|unfold gx2; ring]. Qed.
  Lemma dx3 x y : is_derive (fun x => gx2 x y) x (gx3 x y).
  Proof. unfold gx2. apply (poly_dx (fun x => vx x y ^ 2 - p) (fun x => 2 * p * vx x y)); [unfold vx; auto_derive; auto; ring|unfold gx3; ring]. Qed.
  Lemma dx4 x y : is_derive (fun x => gx3 x y) x (gx4 x y).
  Proof. unfold gx3. apply (poly_dx (fun x => 3 * p * vx x y - vx x y ^ 3) (fun x => 3 * p ^ 2 - 3 * p * vx x y ^ 2)); [unfold vx; auto_derive; auto; ring|unfold gx4; ring]. Qed.
  Lemma dy2 x y : is_derive (fun y => - vy x y * ga x y) y (gy2 x y).
  Proof. apply (poly_dy (fun y => - vy x y) (fun _ => - q)); [unfold vy; auto_derive; auto; ring|unfold gy2; ring]. Qed.
  Lemma dy3 x y : is_derive (fun y => gy2 x y) y (gy3 x y).
  Proof. unfold gy2. apply (poly_dy (fun y => vy x y ^ 2 - q) (fun y => 2 * q * vy x y)); [unfold vy; auto_derive; auto; ring|unfold gy3; ring]. Qed.
  Lemma dy4 x y : is_derive (fun y => gy3 x y) y (gy4 x y).
  Proof. unfold gy3. apply (poly_dy (fun y => 3 * q * vy x y - vy x y ^ 3) (fun y => 3 * q ^ 2 - 3 * q * vy x y ^ 2)); [unfold vy; auto_derive; auto; ring|unfold gy4; ring]. Qed.
  Lemma dx2y x y : is_derive (fun y => gx2 x y) y (gx2y x y).
  Proof. unfold gx2. apply (poly_dy (fun y => vx x y ^ 2 - p) (fun y => 2 * r * vx x y)); [unfold vx; auto_derive; auto; ring|unfold gx2y; ring]. Qed.
  Lemma dx2y2 x y : is_derive (fun y => gx2y x y) y (gx2y2 x y).
  Proof.
    unfold gx2y. apply (poly_dy (fun y => 2 * r * vx x y - vy x y * (vx x y ^ 2 - p)) (fun y => 2 * r ^ 2 - q * (vx x y ^ 2 - p) - 2 * r * vx x y * vy x y)).
    - unfold vx, vy. auto_derive; auto; ring.
    - unfold gx2y2. ring.
  Qed.

  Hypotheses (Hp : 0 <= p) (Hq : 0 <= q) (Hr : r ^ 2 <= p * q).
  Lemma cauchy_x x y : vx x y ^ 2 <= p * zz x y.
  Proof. assert (0 <= (p * q - r ^ 2) * (y - yc) ^ 2) by (apply Rmult_le_pos; [lra|apply pow2_ge_0]). replace (p * zz x y) with (vx x y ^ 2 + (p * q - r ^ 2) * (y - yc) ^ 2) by (unfold vx, zz; ring). lra. Qed.
  Lemma cauchy_y x y : vy x y ^ 2 <= q * zz x y.
  Proof. assert (0 <= (p * q - r ^ 2) * (x - xc) ^ 2) by (apply Rmult_le_pos; [lra|apply pow2_ge_0]). replace (q * zz x y) with (vy x y ^ 2 + (p * q - r ^ 2) * (x - xc) ^ 2) by (unfold vy, zz; ring). lra. Qed.
  Lemma zz_nonneg x y : 0 <= zz x y.
  Proof.
    destruct (Req_dec p 0) as [Z|N].
    - assert (R0 : r = 0) by (assert (r ^ 2 <= 0) by (rewrite Z in Hr; lra); pose proof (pow2_ge_0 r); assert (E : r ^ 2 = 0) by lra; destruct (Req_dec r 0) as [|N]; auto; exfalso; apply (pow_nonzero r 2 N E)).
      unfold zz. rewrite Z, R0. pose proof (Rmult_le_pos _ _ Hq (pow2_ge_0 (y - yc))). lra.
    - pose proof (cauchy_x x y). pose proof (pow2_ge_0 (vx x y)). apply Rmult_le_reg_l with p; lra.
  Qed.
  Lemma ga_zz x y : ga x y = exp (- (1 / 2) * zz x y).
  Proof. reflexivity. Qed.
  Lemma weighted x y A m : 0 <= m -> Rabs A <= m * (zz x y ^ 2 + 6 * zz x y + 3) -> Rabs (A * ga x y) <= 8 * m.
  Proof.
    intros Hm H. rewrite Rabs_mult, (Rabs_pos_eq (ga x y)) by (unfold ga; left; apply exp_pos).
    apply Rle_trans with (m * (zz x y ^ 2 + 6 * zz x y + 3) * ga x y); [apply Rmult_le_compat_r; [unfold ga; left; apply exp_pos|exact H]|].
    rewrite Rmult_assoc. pose proof (decay (zz x y) (zz_nonneg x y)) as D. rewrite <- ga_zz in D. replace (8 * m) with (m * 8) by ring. apply Rmult_le_compat_l; auto.
  Qed.
  Lemma quartic v a z : 0 <= a -> 0 <= z -> v ^ 2 <= a * z -> Rabs (v ^ 4 - 6 * a * v ^ 2 + 3 * a ^ 2) <= a ^ 2 * (z ^ 2 + 6 * z + 3).
  Proof.
    intros Ha Hz H. pose proof (pow2_ge_0 v) as V. replace (v ^ 4) with (v ^ 2 * v ^ 2) by ring. set (w := v ^ 2) in *.
    assert (W1 : w * w <= (a * z) * (a * z)) by (apply Rmult_le_compat; auto). assert (W2 : a * w <= a * (a * z)) by (apply Rmult_le_compat_l; auto).
    assert (W3 : 0 <= a * w) by (apply Rmult_le_pos; auto). assert (W4 : 0 <= w * w) by (apply Rmult_le_pos; auto). assert (W5 : 0 <= a ^ 2) by apply pow2_ge_0.
    assert (W6 : 0 <= a ^ 2 * z) by (apply Rmult_le_pos; auto). assert (W7 : 0 <= a ^ 2 * z ^ 2) by (apply Rmult_le_pos; auto; apply pow2_ge_0).
    apply Rabs_le. split; [|nra]. nra.
  Qed.
  Lemma gx4_bound x y : Rabs (gx4 x y) <= 8 * p ^ 2.
  Proof. apply weighted; [apply pow2_ge_0|]. apply quartic; auto using zz_nonneg, cauchy_x. Qed.
  Lemma gy4_bound x y : Rabs (gy4 x y) <= 8 * q ^ 2.
  Proof. apply weighted; [apply pow2_ge_0|]. apply quartic; auto using zz_nonneg, cauchy_y. Qed.
  Lemma shifted_bound v a z : 0 <= a -> 0 <= z -> v ^ 2 <= a * z -> Rabs (v ^ 2 - a) <= a * (z + 1).
  Proof. intros Ha Hz H. pose proof (pow2_ge_0 v). pose proof (Rmult_le_pos _ _ Ha Hz). apply Rabs_le. lra. Qed.
  Lemma gx2y2_bound x y : Rabs (gx2y2 x y) <= 8 * (p * q).
  Proof.
    apply weighted; [apply Rmult_le_pos; auto|]. pose proof (zz_nonneg x y) as Z. pose proof (cauchy_x x y) as CX. pose proof (cauchy_y x y) as CY.
    pose proof (shifted_bound (vx x y) p _ Hp Z CX) as SX. pose proof (shifted_bound (vy x y) q _ Hq Z CY) as SY.
    pose proof (Rmult_le_pos _ _ Hp Hq) as PQ.
    assert (A1 : Rabs ((vx x y ^ 2 - p) * (vy x y ^ 2 - q)) <= p * (zz x y + 1) * (q * (zz x y + 1))) by (rewrite Rabs_mult; apply Rmult_le_compat; auto using Rabs_pos).
    assert (A2 : Rabs (r * vx x y * vy x y) <= p * q * zz x y).
    { rewrite <- (Rabs_pos_eq (p * q * zz x y)) by (apply Rmult_le_pos; auto). apply Rsqr_le_abs_0. unfold Rsqr.
      replace (r * vx x y * vy x y * (r * vx x y * vy x y)) with (r ^ 2 * (vx x y ^ 2 * vy x y ^ 2)) by ring.
      replace (p * q * zz x y * (p * q * zz x y)) with (p * q * (p * zz x y * (q * zz x y))) by ring.
      apply Rmult_le_compat; auto using pow2_ge_0; [apply Rmult_le_pos; apply pow2_ge_0|]. apply Rmult_le_compat; auto using pow2_ge_0. }
    replace ((vx x y ^ 2 - p) * (vy x y ^ 2 - q) - 4 * r * vx x y * vy x y + 2 * r ^ 2) with ((vx x y ^ 2 - p) * (vy x y ^ 2 - q) + (- (4 * (r * vx x y * vy x y)) + 2 * r ^ 2)) by ring.
    eapply Rle_trans; [apply Rabs_triang|]. assert (A3 : Rabs (- (4 * (r * vx x y * vy x y)) + 2 * r ^ 2) <= 4 * (p * q * zz x y) + 2 * (p * q)).
    { eapply Rle_trans; [apply Rabs_triang|]. rewrite Rabs_Ropp, !Rabs_mult, !(Rabs_pos_eq 4), !(Rabs_pos_eq 2) by lra. rewrite !Rabs_mult in A2. rewrite (Rabs_pos_eq (r ^ 2)) by apply pow2_ge_0. lra. }
    replace (p * q * (zz x y ^ 2 + 6 * zz x y + 3)) with (p * (zz x y + 1) * (q * (zz x y + 1)) + (4 * (p * q * zz x y) + 2 * (p * q))) by ring. lra.
  Qed.

  (** ** The light on a row of a pixel varies smoothly *)
  Lemma ga_lipschitz x y y' : Rabs (ga x y' - ga x y) <= (q + 2) * Rabs (y' - y).
  Proof.
    destruct (MVT_gen (fun y => ga x y) y y' (fun y => - vy x y * ga x y)) as (c & _ & E).
    - intros t _. apply ga_dy.
    - intros t _. apply derivable_continuous_pt. exists (- vy x t * ga x t). apply is_derive_Reals, ga_dy.
    - rewrite E, Rabs_mult. apply Rmult_le_compat_r; [apply Rabs_pos|]. pose proof (cauchy_y x c) as C. pose proof (zz_nonneg x c) as Z.
      assert (W : Rabs (- vy x c) <= (q + 2) / 8 * (zz x c ^ 2 + 6 * zz x c + 3)).
      { rewrite Rabs_Ropp. assert (V : Rabs (vy x c) <= (vy x c ^ 2 + 1) / 2) by (pose proof (pow2_ge_0 (vy x c - 1)); pose proof (pow2_ge_0 (vy x c + 1)); apply Rabs_le; split; nra).
        pose proof (Rmult_le_pos _ _ Hq Z). assert (0 <= q * zz x c ^ 2) by (apply Rmult_le_pos; auto; apply pow2_ge_0). pose proof (pow2_ge_0 (zz x c)).
        assert (K : (q + 2) / 8 * (zz x c ^ 2 + 6 * zz x c + 3) = (q * zz x c ^ 2 + 6 * (q * zz x c) + 3 * q + 2 * zz x c ^ 2 + 12 * zz x c + 6) / 8) by field. rewrite K. lra. }
      replace (q + 2) with (8 * ((q + 2) / 8)) by field. apply weighted; [lra|exact W].
  Qed.
  Lemma ga_row_int x0 x1 y : ex_RInt (fun x => ga x y) x0 x1.
  Proof. apply (ex_RInt_continuous (V := R_CompleteNormedModule)). intros x _. apply (ex_derive_continuous (fun x => ga x y)). eexists. apply ga_dx. Qed.
  Lemma row_lipschitz X y y' : Rabs (RInt (fun x => ga x y') (X - / 2) (X + / 2) - RInt (fun x => ga x y) (X - / 2) (X + / 2)) <= (q + 2) * Rabs (y' - y).
  Proof.
    apply (RInt_near (fun x => ga x y') (fun x => ga x y) (fun _ => (q + 2) * Rabs (y' - y))).
    - lra.
    - apply ga_row_int.
    - apply (RInt_correct (fun x => ga x y)), ga_row_int.
    - evar_last; [apply (is_RInt_const (X - / 2) (X + / 2) ((q + 2) * Rabs (y' - y)))|]. cbv [scal ModuleSpace.scal]. cbn. cbv [mult]. cbn. field.
    - intros x. apply ga_lipschitz.
  Qed.
  Lemma row_ex X Y : ex_RInt (fun y => RInt (fun x => ga x y) (X - / 2) (X + / 2)) (Y - / 2) (Y + / 2).
  Proof.
    apply (ex_RInt_continuous (V := R_CompleteNormedModule)). intros y _. apply continuity_pt_filterlim. intros eps Heps. exists (eps / (q + 2)). split; [apply Rdiv_lt_0_compat; lra|].
    intros y' [_ H]. cbn in *. unfold R_dist in *. eapply Rle_lt_trans; [apply row_lipschitz|]. apply (Rmult_lt_compat_l (q + 2)) in H; [|lra]. replace ((q + 2) * (eps / (q + 2))) with eps in H by (field; lra). exact H.
  Qed.
  Lemma wide_lipschitz u v y y' : u <= v -> Rabs (RInt (fun x => ga x y') u v - RInt (fun x => ga x y) u v) <= (q + 2) * (v - u) * Rabs (y' - y).
  Proof.
    intros Huv. apply (RInt_near (fun x => ga x y') (fun x => ga x y) (fun _ => (q + 2) * Rabs (y' - y))).
    - exact Huv.
    - apply ga_row_int.
    - apply (RInt_correct (fun x => ga x y)), ga_row_int.
    - evar_last; [apply (is_RInt_const u v ((q + 2) * Rabs (y' - y)))|]. cbv [scal ModuleSpace.scal]. cbn. cbv [mult]. cbn. ring.
    - intros x. apply ga_lipschitz.
  Qed.
  Lemma wide_ex u v a b : u <= v -> ex_RInt (fun y => RInt (fun x => ga x y) u v) a b.
  Proof.
    intros Huv. apply (ex_RInt_continuous (V := R_CompleteNormedModule)). intros y _. apply continuity_pt_filterlim. intros eps Heps.
    assert (K : 0 < (q + 2) * (v - u) + 1) by (assert (0 <= (q + 2) * (v - u)) by (apply Rmult_le_pos; lra); lra).
    exists (eps / ((q + 2) * (v - u) + 1)). split; [apply Rdiv_lt_0_compat; lra|].
    intros y' [_ H]. cbn in *. unfold R_dist in *. eapply Rle_lt_trans; [apply wide_lipschitz, Huv|]. apply (Rmult_lt_compat_l ((q + 2) * (v - u) + 1)) in H; [|lra].
    replace (((q + 2) * (v - u) + 1) * (eps / ((q + 2) * (v - u) + 1))) with eps in H by (field; lra). pose proof (Rabs_pos (y' - y)). lra.
  Qed.
  Definition pixel_light X Y := RInt (fun y => RInt (fun x => ga x y) (X - / 2) (X + / 2)) (Y - / 2) (Y + / 2).
  Lemma pixel_light_near X Y : Rabs (pixel_light X Y - (ga X Y + (gx2 X Y + gy2 X Y) / 24)) <= (p ^ 2 + q ^ 2) / 240 + p * q / 72.
  Proof.
    assert (E0 : ex_RInt (fun y => ga X y) (Y - / 2) (Y + / 2)) by (apply (ex_RInt_continuous (V := R_CompleteNormedModule)); intros y _; apply (ex_derive_continuous (fun y => ga X y)); eexists; apply ga_dy).
    assert (E2 : ex_RInt (fun y => gx2 X y) (Y - / 2) (Y + / 2)) by (apply (ex_RInt_continuous (V := R_CompleteNormedModule)); intros y _; apply (ex_derive_continuous (fun y => gx2 X y)); eexists; apply dx2y).
    assert (S1 : Rabs (pixel_light X Y - (RInt (fun y => ga X y) (Y - / 2) (Y + / 2) + / 24 * RInt (fun y => gx2 X y) (Y - / 2) (Y + / 2))) <= 8 * p ^ 2 / 1920).
    { unfold pixel_light. apply (RInt_near _ (fun y => ga X y + / 24 * gx2 X y) (fun _ => 8 * p ^ 2 / 1920)).
      - lra.
      - apply row_ex.
      - apply (is_RInt_plus (V := R_NormedModule) (fun y => ga X y) (fun y => / 24 * gx2 X y)); [apply (RInt_correct (V := R_CompleteNormedModule)), E0|]. apply (is_RInt_scal (V := R_NormedModule) (fun y => gx2 X y) _ _ (/ 24)). apply (RInt_correct (V := R_CompleteNormedModule)), E2.
      - evar_last; [apply (is_RInt_const (Y - / 2) (Y + / 2) (8 * p ^ 2 / 1920))|]. cbv [scal ModuleSpace.scal]. cbn. cbv [mult]. cbn. field.
      - intros y. pose proof (unit4 (fun x => ga x y) (fun x => - vx x y * ga x y) (fun x => gx2 x y) (fun x => gx3 x y) (fun x => gx4 x y) (8 * p ^ 2) X (fun x => ga_dx x y) (fun x => dx2 x y) (fun x => dx3 x y) (fun x => dx4 x y) (fun x => gx4_bound x y)) as U.
        cbv beta in U. replace (ga X y + / 24 * gx2 X y) with (ga X y + gx2 X y / 24) by field. exact U. }
    pose proof (unit4 (fun y => ga X y) (fun y => - vy X y * ga X y) (fun y => gy2 X y) (fun y => gy3 X y) (fun y => gy4 X y) (8 * q ^ 2) Y (ga_dy X) (dy2 X) (dy3 X) (dy4 X) (gy4_bound X)) as S2. cbv beta in S2.
    pose proof (unit2 (fun y => gx2 X y) (fun y => gx2y X y) (fun y => gx2y2 X y) (8 * (p * q)) Y (dx2y X) (dx2y2 X) (gx2y2_bound X)) as S3. cbv beta in S3.
    set (J0 := RInt (fun y => ga X y) (Y - / 2) (Y + / 2)) in *. set (J2 := RInt (fun y => gx2 X y) (Y - / 2) (Y + / 2)) in *.
    apply Rabs_le_between in S1. apply Rabs_le_between in S2. apply Rabs_le_between in S3. apply Rabs_le. lra.
  Qed.
End Gauss.
