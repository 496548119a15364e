(** C39 in binary64: source.ra -= zero; source.ra += zero (patch.py 455-456, 463-464). *)
From Coq Require Import Reals Lra Lia ZArith.
From Flocq Require Import Core Sterbenz.
Open Scope R_scope.

(** The binary64 format and rounding to nearest, ties to even *)
Definition fexp64 := FLT_exp (-1074) 53.
Definition float64 (x : R) : Prop := generic_format radix2 fexp64 x.
Definition rnd64 (x : R) : R := round radix2 fexp64 ZnearestE x.
Local Instance prec53 : Prec_gt_0 53 := eq_refl.

(** A coordinate within a factor two of the zero point comes back exactly. *)
Theorem C39_float_exact : forall x z, float64 x -> float64 z -> (z / 2 <= x <= 2 * z \/ 2 * z <= x <= z / 2) ->
  rnd64 (rnd64 (x - z) + z) = x.
Proof.
  intros x z Fx Fz H. assert (F : float64 (x - z)).
  { destruct H as [H|H].
    - apply sterbenz; auto; try apply FLT_exp_valid; try typeclasses eauto.
    - replace (x - z) with (- ((- x) - (- z))) by ring. apply generic_format_opp. apply sterbenz; try apply generic_format_opp; auto; try typeclasses eauto. lra. }
  unfold rnd64. rewrite (round_generic radix2 fexp64 ZnearestE (x - z)) by exact F. replace (x - z + z) with x by ring. apply round_generic; auto. typeclasses eauto.
Qed.
(** Far from the zero point it does not. *)
Theorem C39_float_refuted : exists x z, float64 x /\ float64 z /\ rnd64 (rnd64 (x - z) + z) <> x.
Proof.
  exists (bpow radix2 (-60)), 1. assert (F1 : float64 1) by (change 1 with (bpow radix2 0); apply generic_format_bpow; unfold fexp64, FLT_exp; lia).
  split; [apply generic_format_bpow; unfold fexp64, FLT_exp; lia|]. split; auto.
  assert (B60 : 0 < bpow radix2 (-60) < bpow radix2 (-8)) by (split; [apply bpow_gt_0|apply bpow_lt; lia]).
  assert (B8 : bpow radix2 (-8) = / 256) by reflexivity.
  assert (Em : rnd64 (bpow radix2 (-60) - 1) = -1).
  { unfold rnd64. replace (bpow radix2 (-60) - 1) with (- (1 - bpow radix2 (-60))) by ring. rewrite round_NE_opp. f_equal.
    unfold round, scaled_mantissa, cexp. replace (mag radix2 (1 - bpow radix2 (-60)) : Z) with 0%Z.
    2:{ symmetry. apply mag_unique. rewrite Rabs_pos_eq by lra. change (bpow radix2 (0 - 1)) with (/ 2). change (bpow radix2 0) with 1. lra. }
    change (fexp64 0) with (-53)%Z.
    replace (ZnearestE ((1 - bpow radix2 (-60)) * bpow radix2 (- -53))) with (2 ^ 53)%Z.
    - unfold F2R. cbn [Fnum Fexp]. change (2 ^ 53)%Z with (radix2 ^ 53)%Z. rewrite (IZR_Zpower radix2) by lia. rewrite <- bpow_plus. reflexivity.
    - symmetry. apply Znearest_imp. change (2 ^ 53)%Z with (radix2 ^ 53)%Z. rewrite (IZR_Zpower radix2) by lia. change (- -53)%Z with 53%Z. replace ((1 - bpow radix2 (-60)) * bpow radix2 53 - bpow radix2 53) with (- (bpow radix2 (-60) * bpow radix2 53)) by ring.
      rewrite <- bpow_plus. change (-60 + 53)%Z with (-7)%Z. rewrite Rabs_Ropp, Rabs_pos_eq by apply bpow_ge_0. change (bpow radix2 (-7)) with (/ 128). lra. }
  rewrite Em. replace (-1 + 1) with 0 by ring. unfold rnd64. rewrite round_0 by typeclasses eauto. lra.
Qed.
(** A right ascension of 53.25 degrees with a zero point of 53.125 *)
Example C39_float_case : float64 53.25 /\ float64 53.125 /\ 53.125 / 2 <= 53.25 <= 2 * 53.125.
Proof.
  assert (G : forall m, (Z.abs m < 2 ^ 53)%Z -> float64 (IZR m * / 8)).
  { intros m Hm. replace (IZR m * / 8) with (F2R (Float radix2 m (-3))) by (unfold F2R; cbn; lra). apply generic_format_FLT. exists (Float radix2 m (-3)); auto; cbn; lia. }
  split; [replace 53.25 with (IZR 426 * / 8) by lra; apply G; lia|]. split; [replace 53.125 with (IZR 425 * / 8) by lra; apply G; lia|]. lra.
Qed.
Print Assumptions C39_float_exact.
Print Assumptions C39_float_refuted.
