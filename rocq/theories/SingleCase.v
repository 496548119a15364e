(** Concrete cases for C77. *)
From Coq Require Import Reals List ZArith Lra Lia.
From Flocq Require Import Core.
From Verif Require Import DeviceFloat SingleModel SingleFacts SingleProps.
Import ListNotations.
Open Scope R_scope.
Local Instance prec24c : Prec_gt_0 24 := eq_refl.

Lemma small32 m e x : x = IZR m * bpow radix2 e -> (Z.abs m < 2 ^ 24)%Z -> (-149 <= e)%Z -> float32 x.
Proof. intros -> H1 H2. now apply float32_scaled. Qed.
Lemma small64 m e x : x = IZR m * bpow radix2 e -> (Z.abs m < 2 ^ 53)%Z -> (-1074 <= e)%Z -> float64 x.
Proof. intros -> H1 H2. now apply float64_scaled. Qed.

(** A source at right ascension 53.25 and declination -27.875, in a patch with reference 53.125, -27.75:
    it is packed an eighth of a degree away in both, and placed at the rounded pixel. *)
Example unmoved_case : forall w2p a b,
  centre a b (packed_crval (zeroed 53.25 53.125) 53.125, packed_crval (zeroed (-27.875) (-27.75)) (-27.75))
    (packed_crpix w2p (zeroed 53.25 53.125) 53.125) (proposed (zeroed 53.25 53.125)) (proposed (zeroed (-27.875) (-27.75))) = rnd32 (w2p 53.25) /\
  packed_crval (zeroed 53.25 53.125) 53.125 = / 8.
Proof.
  intros w2p a b.
  assert (F1 : float64 53.25) by (apply small64 with 213%Z (-2)%Z; [cbn; lra|lia|lia]). assert (F2 : float64 (-27.875)) by (apply small64 with (-223)%Z (-3)%Z; [cbn; lra|lia|lia]).
  assert (F3 : float64 53.125) by (apply small64 with 425%Z (-3)%Z; [cbn; lra|lia|lia]). assert (F4 : float64 (-27.75)) by (apply small64 with (-111)%Z (-2)%Z; [cbn; lra|lia|lia]).
  split; [apply (C77_unmoved w2p 53.25 (-27.875) 53.125 (-27.75) a b); auto; lra|].
  unfold packed_crval. replace (sky_of (zeroed 53.25 53.125) 53.125) with 53.25 by (symmetry; apply (C39_float_exact 53.25 53.125); auto; lra).
  replace (53.25 - 53.125) with (/ 8) by lra. assert (F8 : float32 (/ 8)) by (apply small32 with 1%Z (-3)%Z; [cbn; lra|lia|lia]).
  rewrite rnd64_id by now apply float32_64. now apply rnd32_id.
Qed.

(** 131072 pixels to the degree, a source at pixel 1024.5 that moves by 2^-14 of a degree, 8 pixels *)
Example placed_case : let cv := (/ 16, - / 32) in
  float32 131072 /\ float32 (- 65536) /\ float32 (fst cv) /\ float32 (snd cv) /\ float32 1024.5 /\ float32 (/ 16 + / 16384) /\
  Rabs 1024.5 <= 4096 /\ Rabs (131072 * (/ 16 + / 16384 - fst cv)) <= 16 /\ Rabs (- 65536 * (- / 32 - snd cv)) <= 16 /\
  centre 131072 (- 65536) cv 1024.5 (/ 16 + / 16384) (- / 32) = 1032.5.
Proof.
  assert (F1 : float32 1032.5) by (apply small32 with 2065%Z (-1)%Z; [cbn; lra|lia|lia]). assert (F2 : float32 8) by (apply small32 with 1%Z 3%Z; [cbn; lra|lia|lia]).
  assert (F3 : float32 (/ 16384)) by (apply small32 with 1%Z (-14)%Z; [cbn; lra|lia|lia]).
  cbv zeta. cbn [fst snd]. repeat split.
  - apply small32 with 1%Z 17%Z; [cbn; lra|lia|lia].
  - apply small32 with (-1)%Z 16%Z; [cbn; lra|lia|lia].
  - apply small32 with 1%Z (-4)%Z; [cbn; lra|lia|lia].
  - apply small32 with (-1)%Z (-5)%Z; [cbn; lra|lia|lia].
  - apply small32 with 2049%Z (-1)%Z; [cbn; lra|lia|lia].
  - apply small32 with 1025%Z (-14)%Z; [cbn; lra|lia|lia].
  - rewrite Rabs_pos_eq; lra.
  - rewrite Rabs_pos_eq; lra.
  - replace (- 65536 * (- / 32 - - / 32)) with 0 by ring. rewrite Rabs_R0. lra.
  - unfold centre. cbn [fst snd]. replace (/ 16 + / 16384 - / 16) with (/ 16384) by ring. replace (- / 32 - - / 32) with 0 by ring. rewrite rnd32_0, Rmult_0_r, rnd32_0, Rplus_0_r.
    rewrite (rnd32_id (/ 16384)) by auto. replace (131072 * / 16384) with 8 by lra. rewrite !(rnd32_id 8) by auto. replace (8 + 1024.5) with 1032.5 by lra. now apply rnd32_id.
Qed.
(** The same source moved by 2^-33 of a degree, 2^-16 pixels, has not moved for the kernel. *)
Example dead_case :
  float32 (/ 8192 / 1048576) /\ centre 131072 0 (0, 0) 1024.5 (/ 8192 / 1048576) 0 = 1024.5 /\ 131072 * (/ 8192 / 1048576) <> 0.
Proof.
  assert (F : float32 (/ 8192 / 1048576)) by (apply small32 with 1%Z (-33)%Z; [cbn; lra|lia|lia]). split; auto. split; [|lra].
  apply C77_dead_zone with 10%Z; cbn [fst snd]; try apply float32_0; auto; try lia.
  - apply small32 with 2049%Z (-1)%Z; [cbn; lra|lia|lia].
  - rewrite Rabs_pos_eq by lra. change (bpow radix2 10) with 1024. lra.
  - change (bpow radix2 (10 - 26)) with (/ 65536). rewrite Rmult_0_l, Rabs_R0, Rabs_pos_eq by lra. lra.
Qed.

(** Two pixels: one with two Gaussians and one masked *)
Definition lit : pixel := Pixel 2.5 0.25 [1; 0.5].
Definition masked : pixel := Pixel 100 0 [3].
Example patch_case : Forall packed_pixel [lit; masked] /\ device_chi2 [lit; masked] = -0.328125 /\ true_chi2 lit = -0.328125 /\ true_chi2 masked = 0.
Proof.
  assert (F1 : float32 2.5) by (apply small32 with 5%Z (-1)%Z; [cbn; lra|lia|lia]). assert (F2 : float32 0.25) by (apply small32 with 1%Z (-2)%Z; [cbn; lra|lia|lia]).
  assert (F3 : float32 1) by (apply small32 with 1%Z 0%Z; [cbn; lra|lia|lia]). assert (F4 : float32 0.5) by (apply small32 with 1%Z (-1)%Z; [cbn; lra|lia|lia]).
  assert (F5 : float32 100) by (apply small32 with 100%Z 0%Z; [cbn; lra|lia|lia]). assert (F6 : float32 3) by (apply small32 with 3%Z 0%Z; [cbn; lra|lia|lia]).
  assert (F7 : float32 1.5) by (apply small32 with 3%Z (-1)%Z; [cbn; lra|lia|lia]). assert (F8 : float32 0.625) by (apply small32 with 5%Z (-3)%Z; [cbn; lra|lia|lia]).
  split; [repeat constructor; cbn; auto using float32_0; lra|]. split; [|split; unfold true_chi2; cbn; lra].
  change [lit; masked] with ([lit] ++ masked :: []). rewrite (C77_blank [lit] [] masked) by (cbn; auto). cbn [app]. unfold device_chi2, total64. cbn [map fold_left p_data p_ierr p_counts lit]. rewrite Rplus_0_l.
  unfold pixel_chi2, residual, scaled. cbn [fold_left]. replace (2.5 - 1) with 1.5 by lra. rewrite (rnd32_id 1.5) by auto. replace (1.5 - 0.5) with 1 by lra. rewrite (rnd32_id 1) by auto. rewrite Rmult_1_l, (rnd32_id 0.25) by auto.
  replace (2.5 * 0.25) with 0.625 by lra. rewrite (rnd32_id 0.625) by auto. unfold chi2_of.
  replace (0.25 - 0.625) with (-0.375) by lra. replace (0.25 + 0.625) with 0.875 by lra.
  rewrite (rnd64_id (-0.375)) by (apply small64 with (-3)%Z (-3)%Z; [cbn; lra|lia|lia]). rewrite (rnd64_id 0.875) by (apply small64 with 7%Z (-3)%Z; [cbn; lra|lia|lia]).
  rewrite (rnd64_id (rnd64 _)) by apply rnd64_float. replace (-0.375 * 0.875) with (-0.328125) by lra. apply rnd64_id. apply small64 with (-21)%Z (-6)%Z; [cbn; lra|lia|lia].
Qed.
