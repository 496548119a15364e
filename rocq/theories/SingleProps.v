(** C77: single precision costs no more than the reference coordinates and the
    form of chi-square are meant to allow. *)
From Coq Require Import Reals List ZArith Lra Lia.
From Flocq Require Import Core.
From Verif Require Import DeviceFloat SingleModel SingleFacts.
Import ListNotations.
Open Scope R_scope.
Local Instance prec24 : Prec_gt_0 24 := eq_refl.
Local Instance prec53p : Prec_gt_0 53 := eq_refl.

(** ** Packing *)
(** A pixel position below 2^k loses at most 2^(k-25) of a pixel, an offset from
    the reference of less than an eighth of a degree at most 2^-28 of a degree,
    which is 0.0000135 arcsec; a whole number up to 2^24 is kept. *)
Theorem C77_packed :
  (forall k x, (-125 <= k)%Z -> Rabs x <= bpow radix2 k -> Rabs (rnd32 x - x) <= bpow radix2 (k - 25)) /\
  (forall x, Rabs x <= / 8 -> Rabs (rnd32 x - x) * 3600 <= 0.0000135) /\
  (forall x, Rabs x <= 4096 -> Rabs (rnd32 x - x) <= / 8192) /\
  (forall n, (Z.abs n <= 2 ^ 24)%Z -> rnd32 (IZR n) = IZR n).
Proof.
  split; [intros; now apply rnd32_half|]. split; [|split].
  - intros x H. pose proof (rnd32_half (-3) x ltac:(lia) H) as B. change (bpow radix2 (-3 - 25)) with (/ 268435456) in B. lra.
  - intros x H. pose proof (rnd32_half 12 x ltac:(lia) H) as B. change (bpow radix2 (12 - 25)) with (/ 8192) in B. lra.
  - intros n H. apply rnd32_id. destruct (Z.eq_dec (Z.abs n) (2 ^ 24)) as [E|E].
    + assert (Hm : (n = 2 ^ 24 \/ n = - 2 ^ 24)%Z) by lia. change (2 ^ 24)%Z with (radix2 ^ 24)%Z in Hm.
      destruct Hm as [->| ->]; [|rewrite opp_IZR; apply float32_opp]; rewrite (IZR_Zpower radix2) by lia; apply float32_bpow; lia.
    + replace (IZR n) with (IZR n * bpow radix2 0) by (cbn; lra). apply float32_scaled; lia.
Qed.

(** Without reference coordinates (the reference of a patch is zero until a scene
    is packed) a right ascension from 128 to 256 degrees is moved to a multiple of
    2^-16 degrees: positions 0.0549 arcsec apart are one position. *)
Theorem C77_unreferenced :
  forall x, 128 <= x <= 256 -> exists n : Z, packed_crval x 0 = IZR n / 65536.
Proof.
  intros x H. unfold packed_crval, sky_of. rewrite Rplus_0_r, Rminus_0_r. rewrite (rnd64_id (rnd64 x)) by apply rnd64_float.
  assert (F64 : forall n : Z, (Z.abs n < 2 ^ 53)%Z -> float64 (IZR n)).
  { intros n Hn. replace (IZR n) with (IZR n * bpow radix2 0) by (cbn; lra). apply float64_scaled; lia. }
  assert (L : 128 <= rnd64 x <= 256).
  { rewrite <- (rnd64_id 128) by (apply F64; lia). rewrite <- (rnd64_id 256) by (apply F64; lia). split; apply round_le; try typeclasses eauto; lra. }
  revert L. generalize (rnd64 x). clear x H. intros x [H1 [H2| ->]].
  - unfold rnd32, round, scaled_mantissa, F2R. cbn [Fnum Fexp]. assert (C : cexp radix2 fexp32 x = (-16)%Z).
    { unfold cexp. rewrite (mag_unique_pos radix2 x 8). - reflexivity. - change (bpow radix2 (8 - 1)) with 128. change (bpow radix2 8) with 256. lra. }
    rewrite C. eexists. change (bpow radix2 (-16)) with (/ 65536). reflexivity.
  - exists (256 * 65536)%Z. rewrite rnd32_id; [rewrite mult_IZR; lra|]. change 256 with (bpow radix2 8). apply float32_bpow. lia.
Qed.
Lemma rnd32_tie m : Z.even m = true -> (2 ^ 23 <= m < 2 ^ 24)%Z -> forall e, (-149 <= e)%Z -> rnd32 ((IZR m + / 2) * bpow radix2 e) = IZR m * bpow radix2 e.
Proof.
  intros Ev Hm e He. unfold rnd32, round, scaled_mantissa. pose proof (bpow_gt_0 radix2 e) as Be.
  assert (M1 : IZR (2 ^ 23) <= IZR m) by (apply IZR_le; lia). assert (M2 : IZR m + 1 <= IZR (2 ^ 24)) by (rewrite <- plus_IZR; apply IZR_le; lia).
  change (2 ^ 23)%Z with (radix2 ^ 23)%Z in M1. change (2 ^ 24)%Z with (radix2 ^ 24)%Z in M2. rewrite IZR_Zpower in M1, M2 by lia.
  assert (C : cexp radix2 fexp32 ((IZR m + / 2) * bpow radix2 e) = e).
  { unfold cexp. rewrite (mag_unique_pos radix2 _ (24 + e)).
    - unfold fexp32, FLT_exp. lia.
    - replace (24 + e - 1)%Z with (23 + e)%Z by lia. rewrite !bpow_plus. split; [apply Rmult_le_compat_r; lra|apply Rmult_lt_compat_r; lra]. }
  rewrite C. replace ((IZR m + / 2) * bpow radix2 e * bpow radix2 (- e)) with (IZR m + / 2).
  2:{ rewrite Rmult_assoc, <- bpow_plus, Z.add_opp_diag_r. cbn. lra. }
  unfold F2R. cbn [Fnum Fexp]. f_equal. f_equal.
  assert (Fl : Zfloor (IZR m + / 2) = m) by (apply Zfloor_imp; rewrite plus_IZR; lra).
  unfold Znearest. rewrite Fl. rewrite Rcompare_Eq by lra. rewrite Ev. reflexivity.
Qed.
(** Two sources 0.0274 arcsec apart, about a pixel, at right ascension 180 degrees: packed
    and proposed without reference coordinates they are at one place; with the first of them
    as reference their offsets are kept. *)
Theorem C77_unreferenced_refuted : exists x y, float64 x /\ float64 y /\ 0.027 < (y - x) * 3600 /\
  packed_crval x 0 = packed_crval y 0 /\ proposed x = proposed y /\
  packed_crval (zeroed x x) x = 0 /\ packed_crval (zeroed y x) x = y - x.
Proof.
  set (e := bpow radix2 (-17)). assert (E : e = / 131072) by reflexivity.
  assert (Fx : float64 180) by (replace 180 with (IZR 180 * bpow radix2 0) by (cbn; lra); apply float64_scaled; lia).
  assert (Fy : float64 (180 + e)).
  { replace (180 + e) with (IZR (180 * 131072 + 1) * bpow radix2 (-17)) by (rewrite plus_IZR, mult_IZR; fold e; rewrite E; lra). apply float64_scaled; lia. }
  assert (Fe : float32 e) by (apply float32_bpow; lia).
  assert (F180 : float32 180) by (replace 180 with (IZR 180 * bpow radix2 0) by (cbn; lra); apply float32_scaled; lia).
  assert (T : rnd32 (180 + e) = 180).
  { replace (180 + e) with ((IZR (180 * 65536) + / 2) * bpow radix2 (-16)) by (rewrite mult_IZR, E; change (bpow radix2 (-16)) with (/ 65536); lra).
    rewrite rnd32_tie by (reflexivity || lia). rewrite mult_IZR. change (bpow radix2 (-16)) with (/ 65536). lra. }
  exists 180, (180 + e). repeat split; auto.
  - rewrite E. lra.
  - unfold packed_crval, sky_of. rewrite !Rplus_0_r, !Rminus_0_r. rewrite !(rnd64_id (rnd64 _)) by apply rnd64_float. rewrite !rnd64_id by auto. rewrite T. now apply rnd32_id.
  - unfold proposed. rewrite T. now apply rnd32_id.
  - unfold packed_crval, sky_of, zeroed. rewrite Rminus_eq_0, rnd64_0, Rplus_0_l, (rnd64_id 180) by auto. rewrite Rminus_eq_0, rnd64_0. apply rnd32_0.
  - unfold packed_crval, sky_of, zeroed. replace (180 + e - 180) with e by ring. rewrite (rnd64_id e) by now apply float32_64.
    rewrite (Rplus_comm e 180). rewrite (rnd64_id (180 + e)) by auto. replace (180 + e - 180) with e by ring. rewrite (rnd64_id e) by now apply float32_64. now apply rnd32_id.
Qed.

(** ** Where a source is *)
(** A source that has not moved since it was packed is exactly where it was packed,
    whatever the matrix: the scene is zeroed, packed and proposed again. *)
Theorem C77_unmoved : forall w2p x y zx zy a b, float64 x -> float64 y -> float64 zx -> float64 zy ->
  (zx / 2 <= x <= 2 * zx \/ 2 * zx <= x <= zx / 2) -> (zy / 2 <= y <= 2 * zy \/ 2 * zy <= y <= zy / 2) ->
  let sx := zeroed x zx in let sy := zeroed y zy in
  sky_of sx zx = x /\ sky_of sy zy = y /\
  centre a b (packed_crval sx zx, packed_crval sy zy) (packed_crpix w2p sx zx) (proposed sx) (proposed sy) = rnd32 (w2p x).
Proof.
  intros w2p x y zx zy a b Fx Fy Fzx Fzy Hx Hy sx sy.
  assert (Sx : sky_of sx zx = x) by exact (C39_float_exact x zx Fx Fzx Hx).
  assert (Sy : sky_of sy zy = y) by exact (C39_float_exact y zy Fy Fzy Hy).
  split; auto. split; auto. unfold centre, packed_crval, packed_crpix, proposed. rewrite Sx, Sy. fold (zeroed x zx) (zeroed y zy). fold sx sy. cbn [fst snd].
  rewrite !Rminus_eq_0, rnd32_0, !Rmult_0_r, rnd32_0, Rplus_0_l, rnd32_0, Rplus_0_l. apply rnd32_id, rnd32_float.
Qed.

Lemma centre_sum a b cv ra dec : float32 ra -> float32 dec -> float32 (fst cv) -> float32 (snd cv) ->
  let d1 := ra - fst cv in let d2 := dec - snd cv in
  let s := rnd32 (rnd32 (a * rnd32 d1) + rnd32 (b * rnd32 d2)) in
  Rabs (s - (a * d1 + b * d2)) <= 3.5 * u32 * (Rabs (a * d1) + Rabs (b * d2)) + bpow radix2 (-148).
Proof.
  intros Fr Fd Fc1 Fc2 d1 d2 s. pose proof (minus32 ra (fst cv) Fr Fc1) as E1. pose proof (minus32 dec (snd cv) Fd Fc2) as E2. fold d1 in E1. fold d2 in E2.
  set (v1 := rnd32 d1) in *. set (v2 := rnd32 d2) in *.
  assert (P : forall c d v, Rabs (v - d) <= u32 * Rabs d -> Rabs (rnd32 (c * v) - c * d) <= 2.1 * u32 * Rabs (c * d) + bpow radix2 (-150) /\ Rabs (c * v) <= (1 + u32) * Rabs (c * d)).
  { intros c d v E. assert (B : Rabs (c * v - c * d) <= u32 * Rabs (c * d)).
    { rewrite <- Rmult_minus_distr_l, !Rabs_mult. pose proof (Rmult_le_compat_l (Rabs c) _ _ (Rabs_pos c) E). lra. }
    assert (V : Rabs (c * v) <= (1 + u32) * Rabs (c * d)).
    { replace (c * v) with ((c * v - c * d) + c * d) by ring. pose proof (Rabs_triang (c * v - c * d) (c * d)). lra. }
    split; auto. pose proof (rnd32_rel (c * v)) as Q. replace (rnd32 (c * v) - c * d) with ((rnd32 (c * v) - c * v) + (c * v - c * d)) by ring.
    pose proof (Rabs_triang (rnd32 (c * v) - c * v) (c * v - c * d)). pose proof (Rabs_pos (c * d)). unfold u32 in *. lra. }
  destruct (P a d1 v1 E1) as (A1 & _). destruct (P b d2 v2 E2) as (A2 & _). clear P E1 E2.
  pose proof (plus32 (rnd32 (a * v1)) (rnd32 (b * v2)) (rnd32_float _) (rnd32_float _)) as A3. fold s in A3.
  set (p1 := rnd32 (a * v1)) in *. set (p2 := rnd32 (b * v2)) in *. set (m1 := a * d1) in *. set (m2 := b * d2) in *.
  pose proof (Rabs_triang (p1 - m1) (p2 - m2)) as T1. pose proof (Rabs_triang ((p1 - m1) + (p2 - m2)) (m1 + m2)) as T2. pose proof (Rabs_triang m1 m2) as T3.
  replace (p1 - m1 + (p2 - m2) + (m1 + m2)) with (p1 + p2) in T2 by ring. pose proof (Rabs_triang (s - (p1 + p2)) ((p1 - m1) + (p2 - m2))) as T4.
  replace (s - (p1 + p2) + (p1 - m1 + (p2 - m2))) with (s - (m1 + m2)) in T4 by ring.
  assert (B : bpow radix2 (-148) = 4 * bpow radix2 (-150)) by (change (-148)%Z with (2 + -150)%Z; rewrite bpow_plus; reflexivity).
  pose proof (bpow_gt_0 radix2 (-150)). pose proof (Rabs_pos m1). pose proof (Rabs_pos m2). unfold u32 in *. lra.
Qed.
(** A source that has moved is where the matrix puts it, to 2^-24 of its pixel coordinate
    and 5 2^-24 of the pixels it has moved. *)
Theorem C77_centre : forall a b cv crpix ra dec, float32 a -> float32 b -> float32 (fst cv) -> float32 (snd cv) -> float32 crpix -> float32 ra -> float32 dec ->
  let d1 := ra - fst cv in let d2 := dec - snd cv in
  Rabs (centre a b cv crpix ra dec - (a * d1 + b * d2 + crpix)) <=
    (Rabs crpix + 5 * (Rabs (a * d1) + Rabs (b * d2))) / 16777216 + bpow radix2 (-147).
Proof.
  intros a b cv crpix ra dec _ _ F1 F2 F3 F4 F5 d1 d2. pose proof (centre_sum a b cv ra dec F4 F5 F1 F2) as E. cbv zeta in E. fold d1 d2 in E. unfold centre. cbv zeta. fold d1 d2.
  set (s := rnd32 (rnd32 (a * rnd32 d1) + rnd32 (b * rnd32 d2))) in *. set (m1 := a * d1) in *. set (m2 := b * d2) in *.
  pose proof (plus32 s crpix (rnd32_float _) F3) as P. pose proof (Rabs_triang (rnd32 (s + crpix) - (s + crpix)) (s - (m1 + m2))) as T1.
  replace (rnd32 (s + crpix) - (s + crpix) + (s - (m1 + m2))) with (rnd32 (s + crpix) - (m1 + m2 + crpix)) in T1 by ring.
  pose proof (Rabs_triang (s - (m1 + m2)) (m1 + m2)) as T2. replace (s - (m1 + m2) + (m1 + m2)) with s in T2 by ring. pose proof (Rabs_triang m1 m2). pose proof (Rabs_triang s crpix).
  pose proof (Rabs_pos m1). pose proof (Rabs_pos m2).
  assert (B : bpow radix2 (-147) = 2 * bpow radix2 (-148)) by (change (-147)%Z with (1 + -148)%Z; rewrite bpow_plus; reflexivity).
  pose proof (bpow_gt_0 radix2 (-148)). unfold u32 in *. lra.
Qed.
(** In numbers: on an image of 4096 pixels, a source that moves by up to 16 pixels is
    placed within 0.00025 pixels. *)
Theorem C77_placed : forall a b cv crpix ra dec, float32 a -> float32 b -> float32 (fst cv) -> float32 (snd cv) -> float32 crpix -> float32 ra -> float32 dec ->
  Rabs crpix <= 4096 -> Rabs (a * (ra - fst cv)) <= 16 -> Rabs (b * (dec - snd cv)) <= 16 ->
  Rabs (centre a b cv crpix ra dec - (a * (ra - fst cv) + b * (dec - snd cv) + crpix)) <= 0.00026.
Proof.
  intros a b cv crpix ra dec F1 F2 F3 F4 F5 F6 F7 H1 H2 H3. pose proof (C77_centre a b cv crpix ra dec F1 F2 F3 F4 F5 F6 F7) as E. cbv zeta in E.
  assert (B : bpow radix2 (-147) <= bpow radix2 (-30)) by (apply bpow_le; lia). change (bpow radix2 (-30)) with (/ 1073741824) in B. lra.
Qed.

(** Moving a source along right ascension never moves it back in the image. *)
Theorem C77_monotone : forall a b cv crpix ra ra' dec, ra <= ra' ->
  (0 <= a -> centre a b cv crpix ra dec <= centre a b cv crpix ra' dec) /\
  (a <= 0 -> centre a b cv crpix ra' dec <= centre a b cv crpix ra dec).
Proof.
  intros a b cv crpix ra ra' dec H. unfold centre. assert (V : rnd32 (ra - fst cv) <= rnd32 (ra' - fst cv)) by (apply rnd32_le; lra).
  split; intros Ha; apply rnd32_le, Rplus_le_compat_r, rnd32_le, Rplus_le_compat_r, rnd32_le.
  - apply Rmult_le_compat_l; auto.
  - nra.
Qed.

(** Below 2^-26 of its pixel coordinate a move is not seen at all. *)
Theorem C77_dead_zone : forall k a b cv crpix ra dec, (-100 <= k)%Z -> float32 (fst cv) -> float32 (snd cv) -> float32 crpix -> float32 ra -> float32 dec ->
  bpow radix2 k <= Rabs crpix -> Rabs (a * (ra - fst cv)) + Rabs (b * (dec - snd cv)) <= bpow radix2 (k - 26) ->
  centre a b cv crpix ra dec = crpix.
Proof.
  intros k a b cv crpix ra dec Hk F1 F2 F3 F4 F5 Hc Hm. pose proof (centre_sum a b cv ra dec F4 F5 F1 F2) as E. cbv zeta in E. unfold centre. cbv zeta.
  apply sticky with k; auto; [lia|]. set (s := rnd32 (rnd32 (a * rnd32 (ra - fst cv)) + rnd32 (b * rnd32 (dec - snd cv)))) in *.
  set (m1 := a * (ra - fst cv)) in *. set (m2 := b * (dec - snd cv)) in *.
  pose proof (Rabs_triang (s - (m1 + m2)) (m1 + m2)) as T2. replace (s - (m1 + m2) + (m1 + m2)) with s in T2 by ring. pose proof (Rabs_triang m1 m2).
  assert (B : bpow radix2 (k - 25) = 2 * bpow radix2 (k - 26)) by (replace (k - 25)%Z with (1 + (k - 26))%Z by lia; rewrite bpow_plus; reflexivity).
  assert (B' : bpow radix2 (-148) <= bpow radix2 (-20) * bpow radix2 (k - 26)) by (rewrite <- bpow_plus; apply bpow_le; lia).
  change (bpow radix2 (-20)) with (/ 1048576) in B'. pose proof (bpow_gt_0 radix2 (k - 26)). pose proof (Rabs_pos m1). pose proof (Rabs_pos m2). unfold u32 in *. lra.
Qed.

(** ** One pixel *)
(** What is left of the data is the data less the model, to 2^-23 per Gaussian of all that was handled. *)
Theorem C77_residual : forall data cs, float32 data -> Forall float32 cs -> INR (length cs) <= 8388608 ->
  Rabs (residual data cs - (data - sumR cs)) <= 2 * (INR (length cs) / 16777216) * (Rabs data + sumA cs).
Proof.
  intros data cs Fd Fc Hn. rewrite residual_fold. assert (U : 0 < u32) by (unfold u32; lra).
  pose proof (fold_err rnd32 float32 u32 U rnd32_float plus32 (map Ropp cs) data Fd) as E.
  rewrite sumR_opp, sumA_opp, map_length in E. apply Rle_trans with (1 := E ltac:(apply Forall_map; apply Forall_impl with (2 := Fc); intros; now apply float32_opp)).
  apply Rmult_le_compat_r; [pose proof (Rabs_pos data); pose proof (sumA_pos cs); lra|]. apply growth_le; auto. unfold u32. lra.
Qed.
(** However much is subtracted, if it comes in small enough pieces nothing is. *)
Theorem C77_absorbed_refuted : forall n, float32 33554432 /\ float32 (/ 2) /\ residual 33554432 (repeat (/ 2) n) = 33554432 /\ sumR (repeat (/ 2) n) = INR n / 2.
Proof.
  intros n. change 33554432 with (bpow radix2 25). change (/ 2) with (bpow radix2 (-1)). split; [apply float32_bpow; lia|]. split; [apply float32_bpow; lia|]. split.
  - unfold residual. induction n as [|n IH]; [reflexivity|]. cbn [repeat fold_left]. replace (bpow radix2 25 - bpow radix2 (-1)) with (- bpow radix2 (-1) + bpow radix2 25) by ring.
    rewrite (sticky 25); auto; [apply float32_bpow; lia|lia|rewrite Rabs_pos_eq by apply bpow_ge_0; lra|].
    rewrite Rabs_Ropp, Rabs_pos_eq by apply bpow_ge_0. apply bpow_lt. lia.
  - change (bpow radix2 (-1)) with (/ 2). induction n as [|n IH]; [cbn; lra|]. rewrite S_INR. cbn [repeat sumR fold_right]. fold (sumR (repeat (/ 2) n)). lra.
Qed.

(** The difference of squares is formed to four parts in 2^53 of itself. *)
Theorem C77_chi2_form : forall r d, float32 r -> float32 d ->
  Rabs (chi2_of r d - (r * r - d * d)) <= 4 * (Rabs (r * r - d * d) / 9007199254740992) + bpow radix2 (-1075).
Proof.
  intros r d Fr Fd. unfold chi2_of. apply float32_64 in Fr, Fd. pose proof (plus64 r (- d) Fr (generic_format_opp _ _ _ Fd)) as E1. pose proof (plus64 r d Fr Fd) as E2.
  change (r + - d) with (r - d) in E1. set (x := rnd64 (r - d)) in *. set (y := rnd64 (r + d)) in *. replace (r * r - d * d) with ((r - d) * (r + d)) by ring.
  set (p := r - d) in *. set (q := r + d) in *. pose proof (rnd64_rel (x * y)) as E3.
  assert (E4 : Rabs (x * y - p * q) <= 2.5 * u64 * Rabs (p * q)).
  { replace (x * y - p * q) with ((x - p) * (y - q) + p * (y - q) + (x - p) * q) by ring. rewrite (Rabs_mult p q).
    pose proof (Rabs_triang ((x - p) * (y - q) + p * (y - q)) ((x - p) * q)) as T1. pose proof (Rabs_triang ((x - p) * (y - q)) (p * (y - q))) as T2.
    rewrite (Rabs_mult (x - p) q) in T1. rewrite (Rabs_mult (x - p) (y - q)), (Rabs_mult p (y - q)) in T2. pose proof (Rabs_pos p) as P1. pose proof (Rabs_pos q) as P2. pose proof (Rabs_pos (x - p)) as P3. pose proof (Rabs_pos (y - q)) as P4.
    assert (U : u64 = / 9007199254740992) by reflexivity. assert (U0 : 0 < u64) by lra.
    assert (I1 : Rabs (x - p) * Rabs (y - q) <= (u64 * Rabs p) * (u64 * Rabs q)) by (apply Rmult_le_compat; auto).
    assert (I2 : Rabs p * Rabs (y - q) <= Rabs p * (u64 * Rabs q)) by (apply Rmult_le_compat_l; auto).
    assert (I3 : Rabs (x - p) * Rabs q <= (u64 * Rabs p) * Rabs q) by (apply Rmult_le_compat_r; auto).
    assert (P : 0 <= Rabs p * Rabs q) by now apply Rmult_le_pos. set (m := Rabs p * Rabs q) in *.
    replace ((u64 * Rabs p) * (u64 * Rabs q)) with (u64 * (u64 * m)) in I1 by (unfold m; ring). replace (Rabs p * (u64 * Rabs q)) with (u64 * m) in I2 by (unfold m; ring).
    replace ((u64 * Rabs p) * Rabs q) with (u64 * m) in I3 by (unfold m; ring). clear U U0. unfold u64 in *. lra. }
  pose proof (Rabs_triang (rnd64 (x * y) - x * y) (x * y - p * q)) as T1. replace (rnd64 (x * y) - x * y + (x * y - p * q)) with (rnd64 (x * y) - p * q) in T1 by ring.
  pose proof (Rabs_triang (x * y - p * q) (p * q)) as T2. replace (x * y - p * q + p * q) with (x * y) in T2 by ring. pose proof (Rabs_pos (p * q)). unfold u64 in *. lra.
Qed.

Lemma product_err P Q p q N E : Rabs P <= N -> Rabs Q <= 2 * N -> Rabs (p - P) <= E -> Rabs (q - Q) <= E -> 7 * E <= N ->
  Rabs (p * q - P * Q) <= 3.2 * (N * E) /\ Rabs (p * q) <= 2.5 * (N * N).
Proof.
  intros HP HQ H1 H2 HE. pose proof (Rabs_pos P) as P1. pose proof (Rabs_pos Q) as P2. pose proof (Rabs_pos (p - P)) as P3. pose proof (Rabs_pos (q - Q)) as P4.
  replace (p * q - P * Q) with ((p - P) * (q - Q) + P * (q - Q) + (p - P) * Q) by ring.
  pose proof (Rabs_triang ((p - P) * (q - Q) + P * (q - Q)) ((p - P) * Q)) as T1. pose proof (Rabs_triang ((p - P) * (q - Q)) (P * (q - Q))) as T2.
  rewrite (Rabs_mult (p - P) Q) in T1. rewrite (Rabs_mult (p - P) (q - Q)), (Rabs_mult P (q - Q)) in T2.
  assert (I1 : Rabs (p - P) * Rabs (q - Q) <= E * E) by (apply Rmult_le_compat; auto).
  assert (I2 : Rabs P * Rabs (q - Q) <= N * E) by (apply Rmult_le_compat; auto).
  assert (I3 : Rabs (p - P) * Rabs Q <= E * (2 * N)) by (apply Rmult_le_compat; auto).
  assert (I4 : 7 * E * E <= N * E) by (apply Rmult_le_compat_r; lra). assert (0 <= N * E) by (apply Rmult_le_pos; lra). split; [lra|].
  rewrite Rabs_mult. assert (A1 : Rabs p <= 8 / 7 * N).
  { replace p with ((p - P) + P) by ring. pose proof (Rabs_triang (p - P) P). lra. }
  assert (A2 : Rabs q <= 15 / 7 * N).
  { replace q with ((q - Q) + Q) by ring. pose proof (Rabs_triang (q - Q) Q). lra. }
  pose proof (Rmult_le_compat _ _ _ _ (Rabs_pos p) (Rabs_pos q) A1 A2) as A. replace (8 / 7 * N * (15 / 7 * N)) with (120 / 49 * (N * N)) in A by field.
  assert (0 <= N * N) by (apply Rmult_le_pos; lra). lra.
Qed.
(** How large the numbers of a pixel are *)
Definition pixel_size (p : pixel) : R := Rabs (p_ierr p) * (Rabs (p_data p) + sumA (p_counts p)).
Definition packed_pixel (p : pixel) : Prop := float32 (p_data p) /\ float32 (p_ierr p) /\ Forall float32 (p_counts p) /\ INR (length (p_counts p)) <= 1048576.
(** The chi-square of the pixel, less that of the data alone, in real numbers *)
Definition true_chi2 (p : pixel) : R :=
  ((p_data p - sumR (p_counts p)) * p_ierr p) ^ 2 - (p_data p * p_ierr p) ^ 2.
Lemma pixel_bounds p : packed_pixel p ->
  let N := pixel_size p + bpow radix2 (-100) in
  Rabs (pixel_chi2 (p_data p) (p_ierr p) (p_counts p) - true_chi2 p) <= 8 * (INR (length (p_counts p)) + 1) / 16777216 * (N * N) /\
  Rabs (pixel_chi2 (p_data p) (p_ierr p) (p_counts p)) <= 2.6 * (N * N).
Proof.
  destruct p as [data ierr cs]. unfold packed_pixel, pixel_size, true_chi2, pixel_chi2. cbn [p_data p_ierr p_counts]. intros (Fd & Fi & Fc & Hn). cbv zeta.
  pose proof (C77_residual data cs Fd Fc ltac:(lra)) as E. pose proof (residual_float cs data Fd) as Fr. set (r := residual data cs) in *. set (n := INR (length cs)) in *.
  assert (n0 : 0 <= n) by apply pos_INR. set (W := Rabs data + sumA cs) in *.
  assert (W0 : 0 <= W) by (unfold W; pose proof (Rabs_pos data); pose proof (sumA_pos cs); lra).
  set (M := Rabs ierr * W) in *. assert (M0 : 0 <= M) by (apply Rmult_le_pos; auto; apply Rabs_pos).
  pose proof (bpow_gt_0 radix2 (-100)) as B0. set (N := M + bpow radix2 (-100)) in *.
  assert (Eta : bpow radix2 (-150) <= / 1125899906842624 * N).
  { change (-150)%Z with (-50 + -100)%Z. rewrite bpow_plus. change (bpow radix2 (-50)) with (/ 1125899906842624). unfold N. lra. }
  assert (RW : Rabs (data - sumR cs) <= W).
  { unfold W. unfold Rminus. pose proof (Rabs_triang data (- sumR cs)) as T. rewrite Rabs_Ropp in T. pose proof (sumR_abs cs). lra. }
  assert (SW : Rabs (sumR cs) <= W) by (unfold W; pose proof (sumR_abs cs); pose proof (Rabs_pos data); lra).
  assert (DW : Rabs data <= W) by (unfold W; pose proof (sumA_pos cs); lra).
  assert (Mul : forall x b, Rabs x <= b * W -> Rabs (x * ierr) <= b * M).
  { intros x b H. rewrite Rabs_mult. unfold M. pose proof (Rmult_le_compat_r (Rabs ierr) _ _ (Rabs_pos ierr) H). lra. }
  set (R0 := data - sumR cs) in *.
  assert (MR : Rabs (R0 * ierr) <= 1 * M) by (apply Mul; lra). assert (MD : Rabs (data * ierr) <= 1 * M) by (apply Mul; lra). assert (MS : Rabs (sumR cs * ierr) <= 1 * M) by (apply Mul; lra).
  assert (ER : Rabs ((r - R0) * ierr) <= 2 * (n / 16777216) * M) by (apply Mul; exact E).
  assert (NM : n * M <= 1048576 * M) by (apply Rmult_le_compat_r; auto). assert (nM : 0 <= n * M) by now apply Rmult_le_pos.
  assert (NN : n * M <= n * N) by (apply Rmult_le_compat_l; auto; unfold N; lra).
  assert (NB : n * N <= 1048576 * N) by (apply Rmult_le_compat_r; auto; unfold N; lra). assert (MN : M <= N) by (unfold N; lra). assert (N0 : 0 < N) by (unfold N; lra).
  assert (A : Rabs (r * ierr) <= 1.2 * M).
  { replace (r * ierr) with ((r - R0) * ierr + R0 * ierr) by ring. pose proof (Rabs_triang ((r - R0) * ierr) (R0 * ierr)). lra. }
  unfold scaled. pose proof (rnd32_rel (r * ierr)) as Q1. pose proof (rnd32_rel (data * ierr)) as Q2. pose proof (rnd32_float (r * ierr)) as G1. pose proof (rnd32_float (data * ierr)) as G2.
  set (a := rnd32 (r * ierr)) in *. set (d := rnd32 (data * ierr)) in *.
  assert (D1 : Rabs (a - R0 * ierr) <= (2 * n * N + 1.3 * N) / 16777216).
  { replace (a - R0 * ierr) with ((a - r * ierr) + (r - R0) * ierr) by ring. pose proof (Rabs_triang (a - r * ierr) ((r - R0) * ierr)). unfold u32 in *. lra. }
  assert (D2 : Rabs (d - data * ierr) <= 1.1 * N / 16777216) by (unfold u32 in *; lra).
  set (Er := (2 * (n * N) + 2.4 * N) / 16777216).
  destruct (product_err (R0 * ierr - data * ierr) (R0 * ierr + data * ierr) (a - d) (a + d) N Er) as (P1 & P2).
  - replace (R0 * ierr - data * ierr) with (- (sumR cs * ierr)) by (unfold R0; ring). rewrite Rabs_Ropp. lra.
  - pose proof (Rabs_triang (R0 * ierr) (data * ierr)). lra.
  - replace (a - d - (R0 * ierr - data * ierr)) with ((a - R0 * ierr) + - (d - data * ierr)) by ring. pose proof (Rabs_triang (a - R0 * ierr) (- (d - data * ierr))) as T. rewrite Rabs_Ropp in T. unfold Er. lra.
  - replace (a + d - (R0 * ierr + data * ierr)) with ((a - R0 * ierr) + (d - data * ierr)) by ring. pose proof (Rabs_triang (a - R0 * ierr) (d - data * ierr)) as T. unfold Er. lra.
  - unfold Er. lra.
  - pose proof (C77_chi2_form a d G1 G2) as C. replace ((a - d) * (a + d)) with (a * a - d * d) in P1, P2 by ring. set (s := a * a - d * d) in *.
    replace ((R0 * ierr) ^ 2 - (data * ierr) ^ 2) with ((R0 * ierr - data * ierr) * (R0 * ierr + data * ierr)) by ring. set (t := (R0 * ierr - data * ierr) * (R0 * ierr + data * ierr)) in *.
    assert (NE : N * Er = (2 * (n * (N * N)) + 2.4 * (N * N)) / 16777216) by (unfold Er; field). rewrite NE in P1.
    assert (nn : 0 <= n * (N * N)) by (apply Rmult_le_pos; auto; apply Rmult_le_pos; lra).
    assert (B : bpow radix2 (-1075) <= / 1099511627776 * (N * N)).
    { apply Rle_trans with (bpow radix2 (-40) * (bpow radix2 (-100) * bpow radix2 (-100))); [rewrite <- !bpow_plus; apply bpow_le; lia|].
      change (bpow radix2 (-40)) with (/ 1099511627776). apply Rmult_le_compat_l; [lra|]. apply Rmult_le_compat; try lra; unfold N; lra. }
    set (c := chi2_of a d) in *. assert (0 <= N * N) by (apply Rmult_le_pos; lra).
    replace (8 * (n + 1) / 16777216 * (N * N)) with ((8 * (n * (N * N)) + 8 * (N * N)) / 16777216) by field. set (NN2 := N * N) in *. set (nNN := n * NN2) in *. split.
    + replace (c - t) with ((c - s) + (s - t)) by ring. pose proof (Rabs_triang (c - s) (s - t)). lra.
    + replace c with ((c - s) + s) by ring. pose proof (Rabs_triang (c - s) s). lra.
Qed.
(** What the kernel adds for a pixel is what it should add, to 8 parts in 2^24 for every Gaussian
    of the square of the largest signal to noise met on the way. *)
Theorem C77_pixel : forall p, packed_pixel p ->
  Rabs (pixel_chi2 (p_data p) (p_ierr p) (p_counts p) - true_chi2 p) <=
    8 * (INR (length (p_counts p)) + 1) / 16777216 * (pixel_size p + bpow radix2 (-100)) ^ 2.
Proof. intros p H. destruct (pixel_bounds p H) as (B & _). cbv zeta in B. cbn [pow]. rewrite Rmult_1_r. exact B. Qed.

(** ** The patch *)
(** Sums: in double precision and in single *)
Theorem C77_sums : forall xs,
  (Forall float64 xs -> INR (length xs) <= 4503599627370496 -> Rabs (total64 xs - sumR xs) <= 2 * (INR (length xs) / 9007199254740992) * sumA xs) /\
  (Forall float32 xs -> INR (length xs) <= 8388608 -> Rabs (total32 xs - sumR xs) <= 2 * (INR (length xs) / 16777216) * sumA xs).
Proof.
  intros xs. split; intros F Hn.
  - assert (U : 0 < u64) by (unfold u64; lra). pose proof (fold_err rnd64 float64 u64 U rnd64_float plus64 xs 0 float64_0 F) as E. rewrite Rplus_0_l, Rabs_R0, Rplus_0_l in E.
    apply Rle_trans with (1 := E). apply Rmult_le_compat_r; [apply sumA_pos|]. apply growth_le; auto. unfold u64. lra.
  - assert (U : 0 < u32) by (unfold u32; lra). pose proof (fold_err rnd32 float32 u32 U rnd32_float plus32 xs 0 float32_0 F) as E. rewrite Rplus_0_l, Rabs_R0, Rplus_0_l in E.
    apply Rle_trans with (1 := E). apply Rmult_le_compat_r; [apply sumA_pos|]. apply growth_le; auto. unfold u32. lra.
Qed.
(** The chi-square of a patch of up to 2^26 pixels *)
Theorem C77_patch : forall ps, Forall packed_pixel ps -> INR (length ps) <= 67108864 ->
  Rabs (device_chi2 ps - sumR (map true_chi2 ps)) <=
    sumR (map (fun p => 9 * (INR (length (p_counts p)) + 1) / 16777216 * (pixel_size p + bpow radix2 (-100)) ^ 2) ps).
Proof.
  intros ps F Hn. unfold device_chi2. set (f := fun p => pixel_chi2 (p_data p) (p_ierr p) (p_counts p)).
  destruct (C77_sums (map f ps)) as (T & _). rewrite map_length in T.
  assert (T' : Rabs (total64 (map f ps) - sumR (map f ps)) <= 2 * (INR (length ps) / 9007199254740992) * sumA (map f ps)).
  { apply T; [|lra]. apply Forall_forall. intros x Hx. apply in_map_iff in Hx. destruct Hx as (p & <- & _). apply rnd64_float. }
  assert (G : Rabs (sumR (map f ps) - sumR (map true_chi2 ps)) + / 67108864 * sumA (map f ps) <=
    sumR (map (fun p => 9 * (INR (length (p_counts p)) + 1) / 16777216 * (pixel_size p + bpow radix2 (-100)) ^ 2) ps)).
  { clear T T' Hn. induction ps as [|p ps IH]; [cbn; rewrite Rminus_0_r, Rabs_R0; lra|]. inversion F as [|? ? F1 F2]; subst. specialize (IH F2).
    cbn [map sumR sumA fold_right]. fold (sumR (map f ps)) (sumR (map true_chi2 ps)) (sumA (map f ps)).
    fold (sumR (map (fun p => 9 * (INR (length (p_counts p)) + 1) / 16777216 * (pixel_size p + bpow radix2 (-100)) ^ 2) ps)).
    set (X := sumR (map (fun p => 9 * (INR (length (p_counts p)) + 1) / 16777216 * (pixel_size p + bpow radix2 (-100)) ^ 2) ps)) in *.
    destruct (pixel_bounds p F1) as (B1 & B2). cbv zeta in B1, B2. fold (f p) in B1, B2. set (N := pixel_size p + bpow radix2 (-100)) in *. set (n := INR (length (p_counts p))) in *.
    assert (0 <= n) by apply pos_INR. assert (0 <= N * N) by nra. assert (0 <= n * (N * N)) by now apply Rmult_le_pos.
    replace (9 * (n + 1) / 16777216 * N ^ 2) with (9 / 16777216 * (n * (N * N)) + 9 / 16777216 * (N * N)) by (cbn; field).
    replace (8 * (n + 1) / 16777216 * (N * N)) with (8 / 16777216 * (n * (N * N)) + 8 / 16777216 * (N * N)) in B1 by field.
    set (S1 := sumR (map f ps)) in *. set (S2 := sumR (map true_chi2 ps)) in *. pose proof (Rabs_triang (f p - true_chi2 p) (S1 - S2)) as Tr.
    replace (f p - true_chi2 p + (S1 - S2)) with (f p + S1 - (true_chi2 p + S2)) in Tr by ring. lra. }
  pose proof (Rabs_triang (total64 (map f ps) - sumR (map f ps)) (sumR (map f ps) - sumR (map true_chi2 ps))) as Tr.
  replace (total64 (map f ps) - sumR (map f ps) + (sumR (map f ps) - sumR (map true_chi2 ps))) with (total64 (map f ps) - sumR (map true_chi2 ps)) in Tr by ring.
  assert (2 * (INR (length ps) / 9007199254740992) * sumA (map f ps) <= / 67108864 * sumA (map f ps)) by (apply Rmult_le_compat_r; [apply sumA_pos|lra]). lra.
Qed.
(** Pixels that are masked, or that no source reaches, add nothing, exactly. *)
Theorem C77_blank : forall ps qs p, float32 (p_data p) -> (p_ierr p = 0 \/ Forall (fun c => c = 0) (p_counts p)) ->
  device_chi2 (ps ++ p :: qs) = device_chi2 (ps ++ qs).
Proof.
  intros ps qs [data ierr cs] Fd H. cbn [p_data p_ierr p_counts] in *. assert (E : pixel_chi2 data ierr cs = 0).
  { unfold pixel_chi2. assert (S : scaled (residual data cs) ierr = scaled data ierr).
    { destruct H as [-> |H]; [unfold scaled; now rewrite !Rmult_0_r|]. f_equal. unfold residual. induction H as [|c cs -> H IH]; [reflexivity|]. cbn [fold_left]. now rewrite Rminus_0_r, rnd32_id. }
    rewrite S. unfold chi2_of. rewrite Rminus_eq_0, rnd64_0, Rmult_0_l. apply rnd64_0. }
  unfold device_chi2, total64. rewrite !map_app, !fold_left_app. cbn [map fold_left p_data p_ierr p_counts]. rewrite E. f_equal. rewrite Rplus_0_r. apply rnd64_id.
  change (float64 (total64 (map (fun p => pixel_chi2 (p_data p) (p_ierr p) (p_counts p)) ps))). apply total64_float.
Qed.
(** A derivative to which every pixel adds one stops growing at 2^24 pixels. *)
Theorem C77_stall : forall n, total32 (repeat 1 n) = IZR (Z.min (Z.of_nat n) (2 ^ 24)).
Proof.
  unfold total32. induction n as [|n IH]; [reflexivity|]. replace (repeat 1 (S n)) with (repeat 1 n ++ [1]) by (symmetry; apply repeat_cons).
  rewrite fold_left_app, IH. cbn [fold_left]. destruct C77_packed as (_ & _ & _ & I). destruct (Z_lt_le_dec (Z.of_nat n) (2 ^ 24)) as [L|L].
  - rewrite !Z.min_l by lia. rewrite <- plus_IZR, I by lia. f_equal. lia.
  - rewrite !Z.min_r by lia. change (2 ^ 24)%Z with (radix2 ^ 24)%Z. rewrite (IZR_Zpower radix2) by lia.
    replace (bpow radix2 24 + 1) with ((IZR (2 ^ 23) + / 2) * bpow radix2 1) by (cbn; lra). rewrite rnd32_tie by (reflexivity || lia). cbn. lra.
Qed.
(** Derivatives depend on the order of the pixels. *)
Theorem C77_order_refuted : exists xs, Forall float32 xs /\ total32 (rev xs) <> total32 xs.
Proof.
  assert (F1 : float32 1) by (change 1 with (bpow radix2 0); apply float32_bpow; lia). assert (F2 : float32 16777216) by (change 16777216 with (bpow radix2 24); apply float32_bpow; lia).
  assert (I : forall n, (Z.abs n <= 2 ^ 24)%Z -> rnd32 (IZR n) = IZR n) by apply C77_packed.
  exists [16777216; 1; 1]. split; [repeat constructor; auto|]. unfold total32. cbn [rev app fold_left].
  assert (A : rnd32 (16777216 + 1) = 16777216).
  { replace (16777216 + 1) with ((IZR (2 ^ 23) + / 2) * bpow radix2 1) by (cbn; lra). rewrite rnd32_tie by (reflexivity || lia). cbn. lra. }
  rewrite !Rplus_0_l, (rnd32_id 1), (rnd32_id 16777216), A, A by auto. replace (1 + 1) with 2 by lra. rewrite (I 2%Z) by lia. rewrite rnd32_id; [lra|].
  replace (2 + 16777216) with (IZR 8388609 * bpow radix2 1) by (cbn; lra). apply float32_scaled; lia.
Qed.
Print Assumptions C77_packed.
Print Assumptions C77_unreferenced.
Print Assumptions C77_unreferenced_refuted.
Print Assumptions C77_unmoved.
Print Assumptions C77_centre.
Print Assumptions C77_placed.
Print Assumptions C77_monotone.
Print Assumptions C77_dead_zone.
Print Assumptions C77_residual.
Print Assumptions C77_absorbed_refuted.
Print Assumptions C77_chi2_form.
Print Assumptions C77_pixel.
Print Assumptions C77_sums.
Print Assumptions C77_patch.
Print Assumptions C77_blank.
Print Assumptions C77_stall.
Print Assumptions C77_order_refuted.
