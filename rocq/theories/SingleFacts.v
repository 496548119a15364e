(** Facts about rounding used for C77. *)
From Coq Require Import Reals List ZArith Lra Lia.
From Flocq Require Import Core Plus_error Relative.
From Verif Require Import DeviceFloat SingleModel.
Import ListNotations.
Open Scope R_scope.

Local Instance prec24 : Prec_gt_0 24 := eq_refl.
Local Instance prec53' : Prec_gt_0 53 := eq_refl.

Definition float32 (x : R) : Prop := generic_format radix2 fexp32 x.

Lemma rnd32_float x : float32 (rnd32 x).
Proof. apply generic_format_round; typeclasses eauto. Qed.
Lemma rnd64_float x : float64 (rnd64 x).
Proof. apply generic_format_round; typeclasses eauto. Qed.
Lemma rnd32_id x : float32 x -> rnd32 x = x.
Proof. intros F. apply round_generic; auto; typeclasses eauto. Qed.
Lemma rnd64_id x : float64 x -> rnd64 x = x.
Proof. intros F. apply round_generic; auto; typeclasses eauto. Qed.
Lemma rnd32_0 : rnd32 0 = 0.
Proof. apply round_0. typeclasses eauto. Qed.
Lemma rnd64_0 : rnd64 0 = 0.
Proof. apply round_0. typeclasses eauto. Qed.
Lemma rnd32_le x y : x <= y -> rnd32 x <= rnd32 y.
Proof. intros H. apply round_le; auto; typeclasses eauto. Qed.
Lemma rnd32_opp x : rnd32 (- x) = - rnd32 x.
Proof. apply round_NE_opp. Qed.
Lemma float32_opp x : float32 x -> float32 (- x).
Proof. apply generic_format_opp. Qed.
Lemma float32_0 : float32 0.
Proof. apply generic_format_0. Qed.
Lemma float64_0 : float64 0.
Proof. apply generic_format_0. Qed.
Lemma float32_bpow k : (-149 <= k)%Z -> float32 (bpow radix2 k).
Proof. intros H. apply generic_format_bpow. unfold fexp32, FLT_exp. lia. Qed.
Lemma float32_scaled m e : (Z.abs m < 2 ^ 24)%Z -> (-149 <= e)%Z -> float32 (IZR m * bpow radix2 e).
Proof. intros Hm He. apply generic_format_FLT. exists (Float radix2 m e); auto. Qed.
Lemma float64_scaled m e : (Z.abs m < 2 ^ 53)%Z -> (-1074 <= e)%Z -> float64 (IZR m * bpow radix2 e).
Proof. intros Hm He. apply generic_format_FLT. exists (Float radix2 m e); auto. Qed.

(** Half a unit in the last place *)
Lemma rnd32_half k x : (-125 <= k)%Z -> Rabs x <= bpow radix2 k -> Rabs (rnd32 x - x) <= bpow radix2 (k - 25).
Proof.
  intros Hk [H|H].
  - destruct (Req_dec x 0) as [->|N].
    { rewrite rnd32_0, Rminus_0_r, Rabs_R0. apply bpow_ge_0. }
    apply Rle_trans with (1 := error_le_half_ulp radix2 fexp32 _ x). rewrite ulp_neq_0 by auto.
    replace (k - 25)%Z with (-1 + (k - 24))%Z by lia. rewrite bpow_plus. change (bpow radix2 (-1)) with (/ 2).
    apply Rmult_le_compat_l; [lra|]. apply bpow_le. unfold cexp. pose proof (mag_le_bpow radix2 x k N H). unfold fexp32, FLT_exp. lia.
  - assert (F : float32 x).
    { destruct (Rcase_abs x); [rewrite Rabs_left in H by auto|rewrite Rabs_right in H by auto].
      - replace x with (- bpow radix2 k) by lra. apply float32_opp, float32_bpow. lia.
      - rewrite H. apply float32_bpow. lia. }
    rewrite rnd32_id by auto. replace (x - x) with 0 by ring. rewrite Rabs_R0. apply bpow_ge_0.
Qed.

(** Relative errors *)
Definition u32 : R := / 16777216.
Definition u64 : R := / 9007199254740992.
Lemma u32_eq : / 2 * bpow radix2 (- (24) + 1) = u32.
Proof. change (bpow radix2 (- (24) + 1)) with (/ 8388608). unfold u32. lra. Qed.
Lemma u64_eq : / 2 * bpow radix2 (- (53) + 1) = u64.
Proof. change (bpow radix2 (- (53) + 1)) with (/ 4503599627370496). unfold u64. lra. Qed.

Lemma rel_bound x r eps u eta : Rabs eps <= u -> r = x * (1 + eps) + eta -> Rabs (r - x) <= u * Rabs x + Rabs eta.
Proof.
  intros H ->. replace (x * (1 + eps) + eta - x) with (eps * x + eta) by ring.
  apply Rle_trans with (1 := Rabs_triang _ _). apply Rplus_le_compat_r. rewrite Rabs_mult. apply Rmult_le_compat_r; auto. apply Rabs_pos.
Qed.
Lemma rnd32_rel x : Rabs (rnd32 x - x) <= u32 * Rabs x + bpow radix2 (-150).
Proof.
  destruct (error_N_FLT radix2 (-149) 24 eq_refl (fun t => negb (Z.even t)) x) as (eps & eta & H1 & H2 & _ & H3).
  rewrite u32_eq in H1. fold fexp32 in H3. fold (rnd32 x) in H3.
  apply Rle_trans with (1 := rel_bound _ _ _ _ _ H1 H3). apply Rplus_le_compat_l. apply Rle_trans with (1 := H2).
  change (-150)%Z with (-1 + -149)%Z. rewrite (bpow_plus radix2 (-1)). change (bpow radix2 (-1)) with (/ 2). lra.
Qed.
Lemma rnd64_rel x : Rabs (rnd64 x - x) <= u64 * Rabs x + bpow radix2 (-1075).
Proof.
  destruct (error_N_FLT radix2 (-1074) 53 eq_refl (fun t => negb (Z.even t)) x) as (eps & eta & H1 & H2 & _ & H3).
  rewrite u64_eq in H1. fold fexp64 in H3. fold (rnd64 x) in H3.
  apply Rle_trans with (1 := rel_bound _ _ _ _ _ H1 H3). apply Rplus_le_compat_l. apply Rle_trans with (1 := H2).
  change (-1075)%Z with (-1 + -1074)%Z. rewrite (bpow_plus radix2 (-1)). change (bpow radix2 (-1)) with (/ 2). lra.
Qed.
Lemma div_u u : 0 < u -> u / (1 + u) <= u.
Proof. intros H. apply Rmult_le_reg_r with (1 + u); [lra|]. unfold Rdiv. rewrite Rmult_assoc, Rinv_l by lra. nra. Qed.
Lemma plus32 x y : float32 x -> float32 y -> Rabs (rnd32 (x + y) - (x + y)) <= u32 * Rabs (x + y).
Proof.
  intros Fx Fy. destruct (FLT_plus_error_N_ex radix2 (-149) 24 (fun t => negb (Z.even t)) x y Fx Fy) as (eps & H1 & H3).
  unfold u_ro in H1. rewrite u32_eq in H1. fold fexp32 in H3. fold (rnd32 (x + y)) in H3.
  assert (H2 : Rabs eps <= u32) by (apply Rle_trans with (1 := H1); apply div_u; unfold u32; lra).
  assert (H4 : rnd32 (x + y) = (x + y) * (1 + eps) + 0) by lra.
  pose proof (rel_bound _ _ _ _ _ H2 H4) as B. rewrite Rabs_R0 in B. lra.
Qed.
Lemma plus64 x y : float64 x -> float64 y -> Rabs (rnd64 (x + y) - (x + y)) <= u64 * Rabs (x + y).
Proof.
  intros Fx Fy. destruct (FLT_plus_error_N_ex radix2 (-1074) 53 (fun t => negb (Z.even t)) x y Fx Fy) as (eps & H1 & H3).
  unfold u_ro in H1. rewrite u64_eq in H1. fold fexp64 in H3. fold (rnd64 (x + y)) in H3.
  assert (H2 : Rabs eps <= u64) by (apply Rle_trans with (1 := H1); apply div_u; unfold u64; lra).
  assert (H4 : rnd64 (x + y) = (x + y) * (1 + eps) + 0) by lra.
  pose proof (rel_bound _ _ _ _ _ H2 H4) as B. rewrite Rabs_R0 in B. lra.
Qed.
Lemma minus32 x y : float32 x -> float32 y -> Rabs (rnd32 (x - y) - (x - y)) <= u32 * Rabs (x - y).
Proof. intros Fx Fy. exact (plus32 x (- y) Fx (float32_opp y Fy)). Qed.

(** A single precision number is a double precision number. *)
Lemma float32_64 x : float32 x -> float64 x.
Proof.
  intros F. apply generic_inclusion_mag with (2 := F). intros _. unfold fexp32, fexp64, FLT_exp. lia.
Qed.

(** Near a number in single precision, everything rounds to it. *)
Lemma sticky_pos k c m : float32 c -> (-124 <= k)%Z -> bpow radix2 k <= c -> Rabs m < bpow radix2 (k - 25) -> rnd32 (m + c) = c.
Proof.
  intros F Hk Hc Hm. pose proof (bpow_gt_0 radix2 k) as Bk. apply Rabs_lt_inv in Hm.
  assert (B24 : bpow radix2 (k - 24) = 2 * bpow radix2 (k - 25)).
  { replace (k - 24)%Z with (1 + (k - 25))%Z by lia. rewrite bpow_plus. reflexivity. }
  pose proof (bpow_gt_0 radix2 (k - 25)) as B25.
  apply Rle_antisym.
  - apply round_N_le_midp; [typeclasses eauto|exact F|]. rewrite succ_eq_pos by lra.
    assert (U : bpow radix2 (k - 24) <= ulp radix2 fexp32 c).
    { apply Rle_trans with (ulp radix2 fexp32 (bpow radix2 k)).
      - rewrite ulp_bpow. apply bpow_le. unfold fexp32, FLT_exp. lia.
      - apply ulp_le; try typeclasses eauto. rewrite !Rabs_pos_eq; lra. }
    lra.
  - apply round_N_ge_midp; [typeclasses eauto|exact F|].
    assert (P : bpow radix2 (k - 24) <= c - pred radix2 fexp32 c).
    { pose proof (pred_plus_ulp radix2 fexp32 c ltac:(lra) F) as E.
      assert (Pk : pred radix2 fexp32 (bpow radix2 k) <= pred radix2 fexp32 c).
      { apply pred_le; auto; try typeclasses eauto. apply float32_bpow. lia. }
      rewrite pred_bpow in Pk.
      assert (H1 : bpow radix2 (k - 1) <= bpow radix2 k - bpow radix2 (fexp32 k)).
      { assert (bpow radix2 (fexp32 k) <= bpow radix2 (k - 1)) by (apply bpow_le; unfold fexp32, FLT_exp; lia).
        assert (bpow radix2 k = 2 * bpow radix2 (k - 1)) by (replace k with (1 + (k - 1))%Z at 1 by lia; rewrite bpow_plus; reflexivity). lra. }
      assert (U : bpow radix2 (k - 24) <= ulp radix2 fexp32 (pred radix2 fexp32 c)).
      { apply Rle_trans with (ulp radix2 fexp32 (bpow radix2 (k - 1))).
        - rewrite ulp_bpow. apply bpow_le. unfold fexp32, FLT_exp. lia.
        - apply ulp_le; try typeclasses eauto. pose proof (bpow_gt_0 radix2 (k - 1)). rewrite !Rabs_pos_eq; lra. }
      lra. }
    lra.
Qed.
Lemma sticky k c m : float32 c -> (-124 <= k)%Z -> bpow radix2 k <= Rabs c -> Rabs m < bpow radix2 (k - 25) -> rnd32 (m + c) = c.
Proof.
  intros F Hk Hc Hm. destruct (Rcase_abs c) as [N|P].
  - rewrite Rabs_left in Hc by auto. replace (m + c) with (- (- m + - c)) by ring. rewrite rnd32_opp.
    rewrite (sticky_pos k); auto; [ring|now apply float32_opp|now rewrite Rabs_Ropp].
  - rewrite Rabs_right in Hc by auto. now apply sticky_pos with k.
Qed.

(** ** Running sums *)
Definition sumR (xs : list R) : R := fold_right Rplus 0 xs.
Definition sumA (xs : list R) : R := fold_right (fun x a => Rabs x + a) 0 xs.
Lemma sumA_pos xs : 0 <= sumA xs.
Proof. induction xs as [|x xs IH]; cbn; [lra|]. pose proof (Rabs_pos x). fold (sumA xs). lra. Qed.
Lemma sumR_abs xs : Rabs (sumR xs) <= sumA xs.
Proof. induction xs as [|x xs IH]; cbn; [rewrite Rabs_R0; lra|]. fold (sumA xs) (sumR xs). pose proof (Rabs_triang x (sumR xs)). lra. Qed.

Lemma growth u n : 0 < u -> 0 <= (1 + u) ^ n - 1.
Proof. intros H. pose proof (pow_R1_Rle (1 + u) n ltac:(lra)). lra. Qed.
Lemma growth_le u n : 0 < u -> INR n * u <= / 2 -> (1 + u) ^ n - 1 <= 2 * (INR n * u).
Proof.
  intros H Hn. assert (A : (1 + u) ^ n * (1 - INR n * u) <= 1).
  { clear Hn. induction n as [|n IH]; [cbn; lra|]. rewrite S_INR. cbn [pow]. pose proof (pow_lt (1 + u) n ltac:(lra)) as P. pose proof (pos_INR n) as Q.
    apply Rle_trans with (2 := IH). replace ((1 + u) * (1 + u) ^ n * (1 - (INR n + 1) * u)) with ((1 + u) ^ n * ((1 + u) * (1 - (INR n + 1) * u))) by ring.
    apply Rmult_le_compat_l; [lra|]. assert (0 <= INR n * (u * u)) by (apply Rmult_le_pos; auto; nra). nra. }
  pose proof (pow_R1_Rle (1 + u) n ltac:(lra)) as P. set (g := (1 + u) ^ n) in *. pose proof (pos_INR n) as Q.
  assert (0 <= INR n * u) by (apply Rmult_le_pos; lra). set (t := INR n * u) in *. nra.
Qed.

Section Sum.
  Variables (rnd : R -> R) (F : R -> Prop) (u : R).
  Hypothesis u_pos : 0 < u.
  Hypothesis rnd_F : forall x, F (rnd x).
  Hypothesis plus_ok : forall x y, F x -> F y -> Rabs (rnd (x + y) - (x + y)) <= u * Rabs (x + y).
  Lemma fold_err xs : forall d, F d -> Forall F xs ->
    Rabs (fold_left (fun t x => rnd (t + x)) xs d - (d + sumR xs)) <= ((1 + u) ^ length xs - 1) * (Rabs d + sumA xs).
  Proof.
    induction xs as [|x xs IH]; intros d Fd Fx.
    { cbn. replace (d - (d + 0)) with 0 by ring. rewrite Rabs_R0. lra. }
    inversion Fx as [|? ? F1 F2]; subst. cbn [fold_left length pow sumR sumA fold_right]. fold (sumR xs) (sumA xs).
    specialize (IH (rnd (d + x)) (rnd_F _) F2). pose proof (plus_ok d x Fd F1) as E. set (r := rnd (d + x)) in *.
    set (f := fold_left (fun t y => rnd (t + y)) xs r) in *. pose proof (growth u (length xs) u_pos) as G. set (g := (1 + u) ^ length xs) in *.
    pose proof (sumA_pos xs) as S0. set (a := sumA xs) in *. set (s := sumR xs) in *. pose proof (Rabs_triang d x) as T. pose proof (Rabs_pos (d + x)) as T0.
    assert (R1 : Rabs r <= (1 + u) * (Rabs d + Rabs x)).
    { replace r with ((r - (d + x)) + (d + x)) by ring. apply Rle_trans with (1 := Rabs_triang _ _).
      assert (u * Rabs (d + x) <= u * (Rabs d + Rabs x)) by (apply Rmult_le_compat_l; lra). lra. }
    replace (f - (d + (x + s))) with ((f - (r + s)) + (r - (d + x))) by ring. apply Rle_trans with (1 := Rabs_triang _ _).
    assert (E' : u * Rabs (d + x) <= u * (Rabs d + Rabs x)) by (apply Rmult_le_compat_l; lra).
    set (m := Rabs d + Rabs x) in *. assert (0 <= m) by lra.
    assert (I1 : (g - 1) * (Rabs r + a) <= (g - 1) * ((1 + u) * m + a)) by (apply Rmult_le_compat_l; lra).
    assert (I2 : 0 <= u * g * a) by (apply Rmult_le_pos; auto; apply Rmult_le_pos; lra).
    replace ((1 + u) * g - 1) with ((g - 1) * (1 + u) + u) by ring. replace (Rabs d + (Rabs x + a)) with (m + a) by (unfold m; ring).
    assert (I3 : ((g - 1) * (1 + u) + u) * (m + a) = (g - 1) * ((1 + u) * m + a) + u * m + u * g * a) by ring. lra.
  Qed.
End Sum.

Lemma residual_fold data cs : residual data cs = fold_left (fun t x => rnd32 (t + x)) (map Ropp cs) data.
Proof. unfold residual. revert data. induction cs as [|c cs IH]; intros d; cbn; auto. Qed.
Lemma sumR_opp cs : sumR (map Ropp cs) = - sumR cs.
Proof. induction cs as [|c cs IH]; cbn; [lra|]. fold (sumR cs) (sumR (map Ropp cs)). lra. Qed.
Lemma sumA_opp cs : sumA (map Ropp cs) = sumA cs.
Proof. induction cs as [|c cs IH]; cbn; auto. fold (sumA cs) (sumA (map Ropp cs)). rewrite Rabs_Ropp. lra. Qed.
Lemma residual_float cs : forall data, float32 data -> float32 (residual data cs).
Proof. unfold residual. induction cs as [|c cs IH]; intros d F; cbn; auto. apply IH, rnd32_float. Qed.
Lemma total64_float xs : float64 (total64 xs).
Proof.
  unfold total64. assert (G : forall t, float64 t -> float64 (fold_left (fun t x => rnd64 (t + x)) xs t)).
  { induction xs as [|x xs IH]; intros t F; cbn; auto. apply IH, rnd64_float. }
  apply G, float64_0.
Qed.
