(** C28 in single precision: patches/pixel_patch.py 203-207 works on arrays of float32. *)
From Verif Require Import Np NpFacts StoreModel.
From Coq Require Import ZArith Reals Lra Lia.
From Flocq Require Import Core Relative.
From Verif Require Import DeviceFloat SingleModel SingleFacts.
Import ListNotations.
Open Scope R_scope.
Local Instance prec24k : Prec_gt_0 24 := eq_refl.

(** The operations of float32 arrays; a Python number beside them is converted. *)
Definition gt32 (a b : R) : bool := if Rlt_dec b a then true else false.
Definition truthy32 (m : R) : bool := if Req_EM_T m 0 then false else true.
Definition cap32 (m d i : R) : R := cap_pixel 0 gt32 (fun a b => rnd32 (a * b)) (fun a b => rnd32 (a / b)) truthy32 (Some m) d i.

(** With a positive cap and inverse errors that are not negative: an error is never made
    smaller, a pixel that is not above the cap keeps its error, a masked pixel stays masked; a
    pixel above the cap gets the cap as its signal to noise, to one part in 2^24, and is
    not masked, unless the cap is less than 2^-126 of the data. *)
Theorem C28_single_partial : forall S d i, float32 S -> float32 d -> float32 i -> 0 < S -> 0 <= i ->
  0 <= cap32 S d i <= i /\ (rnd32 (d * i) <= S -> cap32 S d i = i) /\ (i = 0 -> cap32 S d i = 0) /\
  (S < rnd32 (d * i) -> bpow radix2 (-126) * d <= S -> 0 < d /\ 0 < cap32 S d i /\ Rabs (d * cap32 S d i - S) <= S / 16777216).
Proof.
  intros S d i FS Fd Fi HS Hi. assert (Gt : S < rnd32 (d * i) -> S < d * i).
  { intros H. destruct (Rlt_le_dec S (d * i)) as [|L]; auto. apply rnd32_le in L. rewrite (rnd32_id S) in L by auto. lra. }
  assert (Pd : S < d * i -> 0 < d /\ S / d < i).
  { intros H. assert (D : 0 < d). { destruct (Rlt_le_dec 0 d); auto. exfalso. assert (0 <= (- d) * i) by (apply Rmult_le_pos; lra). lra. }
    split; auto. apply Rmult_lt_reg_l with d; auto. replace (d * (S / d)) with S by (field; lra). exact H. }
  unfold cap32, cap_pixel, truthy32, gt32. destruct (Req_EM_T S 0) as [E|_]; [lra|].
  destruct (Rlt_dec 0 i) as [I|I]; cbn [andb].
  - destruct (Rlt_dec S (rnd32 (d * i))) as [C|C].
    + destruct (Pd (Gt C)) as (D & Q). assert (Q0 : 0 < S / d) by now apply Rdiv_lt_0_compat.
      split; [split|split; [intros; lra|split; [intros; lra|]]].
      * rewrite <- rnd32_0. apply rnd32_le. lra.
      * rewrite <- (rnd32_id i Fi). apply rnd32_le. lra.
      * intros _ HN. split; auto. assert (QN : bpow radix2 (-126) <= S / d).
        { apply Rmult_le_reg_r with d; auto. replace (S / d * d) with S by (field; lra). exact HN. }
        assert (L : bpow radix2 (-126) <= rnd32 (S / d)).
        { rewrite <- (rnd32_id (bpow radix2 (-126))) by (apply float32_bpow; lia). now apply rnd32_le. }
        split; [pose proof (bpow_gt_0 radix2 (-126)); lra|].
        assert (E : Rabs (rnd32 (S / d) - S / d) <= u32 * Rabs (S / d)).
        { rewrite <- u32_eq. apply (relative_error_N_FLT radix2 (-149) 24 eq_refl). rewrite Rabs_pos_eq by lra. exact QN. }
        rewrite (Rabs_pos_eq (S / d)) in E by lra. replace (d * rnd32 (S / d) - S) with (d * (rnd32 (S / d) - S / d)) by (field; lra).
        rewrite Rabs_mult, (Rabs_pos_eq d) by lra. pose proof (Rmult_le_compat_l d _ _ (Rlt_le _ _ D) E) as B.
        replace (d * (u32 * (S / d))) with (u32 * S) in B by (field; lra). unfold u32 in B. lra.
    + split; [lra|]. split; [auto|]. split; [intros; lra|]. intros; lra.
  - assert (i = 0) by lra. subst i. split; [lra|]. split; [auto|]. split; [auto|]. rewrite Rmult_0_r, rnd32_0. intros; lra.
Qed.

Lemma rnd32_near m e x : (-149 <= e)%Z -> bpow radix2 (23 + e) <= x < bpow radix2 (24 + e) -> Rabs (x * bpow radix2 (- e) - IZR m) < / 2 -> rnd32 x = IZR m * bpow radix2 e.
Proof.
  intros He Hx Hm. unfold rnd32, round, scaled_mantissa. assert (C : cexp radix2 fexp32 x = e).
  { unfold cexp. rewrite (mag_unique_pos radix2 x (24 + e)); [unfold fexp32, FLT_exp; lia|]. replace (24 + e - 1)%Z with (23 + e)%Z by lia. exact Hx. }
  rewrite C. rewrite (Znearest_imp _ _ m Hm). reflexivity.
Qed.
(** In single precision the cap may be passed by a rounding: with data 13 and cap 7 the
    signal to noise is the next number above 7. *)
Theorem C28_single_refuted : exists S d i, float32 S /\ float32 d /\ float32 i /\ 0 < S /\ 0 < d /\ 0 < i /\ S < rnd32 (d * cap32 S d i).
Proof.
  assert (F : forall n, (Z.abs n < 2 ^ 24)%Z -> float32 (IZR n)) by (intros n H; replace (IZR n) with (IZR n * bpow radix2 0) by (cbn; lra); apply float32_scaled; lia).
  assert (Q : rnd32 (7 / 13) = IZR 9033886 * bpow radix2 (-24)).
  { apply rnd32_near; [lia| |].
    - change (bpow radix2 (23 + -24)) with (/ 2). change (bpow radix2 (24 + -24)) with 1. lra.
    - change (bpow radix2 (- -24)) with 16777216. apply Rabs_def1; lra. }
  exists 7, 13, 1. repeat split; try (apply F; lia); try lra.
  unfold cap32, cap_pixel, truthy32, gt32. destruct (Req_EM_T 7 0) as [E|_]; [lra|]. destruct (Rlt_dec 0 1) as [_|N]; [|lra]. rewrite (rnd32_id (13 * 1)) by (rewrite Rmult_1_r; apply F; lia).
  destruct (Rlt_dec 7 (13 * 1)) as [_|N]; [|lra]. cbn [andb]. rewrite Q. change (bpow radix2 (-24)) with (/ 16777216).
  rewrite (rnd32_near 14680065 (-21)); [change (bpow radix2 (-21)) with (/ 2097152); lra|lia| |].
  - change (bpow radix2 (23 + -21)) with 4. change (bpow radix2 (24 + -21)) with 8. lra.
  - change (bpow radix2 (- -21)) with 2097152. apply Rabs_def1; lra.
Qed.
(** Data 100 with error 1, cap 10 *)
Example C28_single_case : 10 < rnd32 (100 * 1) /\ bpow radix2 (-126) * 100 <= 10 /\ 0 < cap32 10 100 1 < 1.
Proof.
  assert (F : forall n, (Z.abs n < 2 ^ 24)%Z -> float32 (IZR n)) by (intros n H; replace (IZR n) with (IZR n * bpow radix2 0) by (cbn; lra); apply float32_scaled; lia).
  assert (C : 10 < rnd32 (100 * 1)) by (rewrite Rmult_1_r, rnd32_id by (apply F; lia); lra).
  assert (B : bpow radix2 (-126) * 100 <= 10).
  { assert (bpow radix2 (-126) <= bpow radix2 (-10)) by (apply bpow_le; lia). change (bpow radix2 (-10)) with (/ 1024) in H. lra. }
  split; auto. split; auto. destruct (C28_single_partial 10 100 1) as (_ & _ & _ & K); try (apply F; lia); try lra.
  destruct (K C B) as (_ & P & Q). split; auto. apply Rabs_le_inv in Q. lra.
Qed.
Print Assumptions C28_single_partial.
Print Assumptions C28_single_refuted.
