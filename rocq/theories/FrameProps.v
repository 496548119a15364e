(** C76: scene coordinates measure separations on the sky. *)
From Verif Require Import Np.
From Coq Require Import Reals Permutation Lra Lia Psatz.
From Verif Require Import QuantModel QuantFacts ChainFacts ShearModel ShearProps FrameModel.
Import ListNotations.
Open Scope R_scope.

(** Separation of two places (degrees) on the sky, in radians *)
Definition dot (p q : R * R) : R := sin (rad (snd p)) * sin (rad (snd q)) + cos (rad (snd p)) * cos (rad (snd q)) * cos (rad (fst p) - rad (fst q)).
Definition angle (p q : R * R) : R := acos (dot p q).
(** Distance of two points in the plane *)
Definition flat (a b : R * R) : R := sqrt ((fst a - fst b) ^ 2 + (snd a - snd b) ^ 2).

(** ** The rotation *)
Lemma atan2_half z h : 0 <= h -> - (PI / 2) <= atan2 z h <= PI / 2.
Proof.
  intros H. pose proof PI_RGT_0. unfold atan2. destruct (Rlt_dec 0 h) as [Hp|Hn]; [pose proof (atan_bound (z / h)); lra|]. destruct (Rlt_dec h 0); [lra|]. destruct (Rlt_dec 0 z); [lra|]. destruct (Rlt_dec z 0); lra.
Qed.
Lemma offset_spec c p : let o := offset c p in
  - PI < fst o <= PI /\ - (PI / 2) <= snd o <= PI / 2 /\ 0 <= cos (snd o) /\
  cos (snd o) * cos (fst o) = cos (rad (snd c)) * (cos (rad (snd p)) * cos (rad (fst p) - rad (fst c))) + sin (rad (snd c)) * sin (rad (snd p)) /\
  cos (snd o) * sin (fst o) = cos (rad (snd p)) * sin (rad (fst p) - rad (fst c)) /\
  sin (snd o) = - sin (rad (snd c)) * (cos (rad (snd p)) * cos (rad (fst p) - rad (fst c))) + cos (rad (snd c)) * sin (rad (snd p)).
Proof.
  unfold offset. cbn [fst snd]. set (l := rad (fst p) - rad (fst c)). set (b := rad (snd p)). set (b0 := rad (snd c)). set (x' := cos b0 * (cos b * cos l) + sin b0 * sin b). set (y := cos b * sin l). set (z' := - sin b0 * (cos b * cos l) + cos b0 * sin b).
  assert (H0 : 0 <= hypot x' y) by apply sqrt_pos.
  assert (U : x' * x' + y * y + z' * z' = 1).
  { unfold x', y, z'. pose proof (sin2_cos2 b0) as E1. pose proof (sin2_cos2 b) as E2. pose proof (sin2_cos2 l) as E3. unfold Rsqr in *.
    transitivity ((sin b0 * sin b0 + cos b0 * cos b0) * ((cos b * cos l) * (cos b * cos l) + sin b * sin b) + cos b * cos b * (sin l * sin l)); [ring|]. rewrite E1. transitivity (cos b * cos b * (sin l * sin l + cos l * cos l) + sin b * sin b); [ring|]. rewrite E3. lra. }
  assert (E : hypot (hypot x' y) z' = 1) by (unfold hypot at 1; rewrite hypot_sq, U; apply sqrt_1).
  destruct (atan2_polar y x') as [P1 P2]. destruct (atan2_polar z' (hypot x' y)) as [P3 P4]. rewrite E in P3, P4. rewrite !Rmult_1_l in P3, P4.
  split; [apply atan2_range|]. split; [apply atan2_half; exact H0|]. rewrite P3, P4. split; [exact H0|]. auto.
Qed.
Lemma dot_offset c p q : let o := offset c p in let u := offset c q in dot p q = sin (snd o) * sin (snd u) + cos (snd o) * cos (snd u) * cos (fst o - fst u).
Proof.
  cbv zeta. destruct (offset_spec c p) as (_ & _ & _ & X1 & Y1 & Z1). destruct (offset_spec c q) as (_ & _ & _ & X2 & Y2 & Z2). set (o := offset c p) in *. set (u := offset c q) in *.
  rewrite cos_minus. replace (cos (snd o) * cos (snd u) * (cos (fst o) * cos (fst u) + sin (fst o) * sin (fst u))) with ((cos (snd o) * cos (fst o)) * (cos (snd u) * cos (fst u)) + (cos (snd o) * sin (fst o)) * (cos (snd u) * sin (fst u))) by ring.
  rewrite X1, X2, Y1, Y2, Z1, Z2. unfold dot. replace (rad (fst p) - rad (fst q)) with ((rad (fst p) - rad (fst c)) - (rad (fst q) - rad (fst c))) by ring. rewrite (cos_minus (rad (fst p) - rad (fst c))).
  pose proof (sin2_cos2 (rad (snd c))) as E. unfold Rsqr in E. set (s0 := sin (rad (snd c))) in *. set (c0 := cos (rad (snd c))) in *.
  set (C1 := cos (rad (fst p) - rad (fst c))). set (C2 := cos (rad (fst q) - rad (fst c))). set (S1 := sin (rad (fst p) - rad (fst c))). set (S2 := sin (rad (fst q) - rad (fst c))). set (a1 := cos (rad (snd p))). set (a2 := cos (rad (snd q))). set (d1 := sin (rad (snd p))). set (d2 := sin (rad (snd q))).
  transitivity ((s0 * s0 + c0 * c0) * (d1 * d2 + a1 * a2 * (C1 * C2)) + a1 * a2 * (S1 * S2)); [rewrite E; ring|ring].
Qed.
Lemma cos_half t : 1 - cos t = 2 * (sin (t / 2) * sin (t / 2)).
Proof. replace t with (2 * (t / 2)) at 1 by field. rewrite cos_2a_sin. ring. Qed.
Lemma dot_half c p q : let o := offset c p in let u := offset c q in
  1 - dot p q = 2 * (sin ((snd o - snd u) / 2) * sin ((snd o - snd u) / 2)) + 2 * (cos (snd o) * cos (snd u)) * (sin ((fst o - fst u) / 2) * sin ((fst o - fst u) / 2)).
Proof.
  cbv zeta. rewrite (dot_offset c). set (o := offset c p). set (u := offset c q). pose proof (cos_half (snd o - snd u)) as A. pose proof (cos_half (fst o - fst u)) as B. rewrite cos_minus in A.
  replace (2 * (cos (snd o) * cos (snd u)) * (sin ((fst o - fst u) / 2) * sin ((fst o - fst u) / 2))) with (cos (snd o) * cos (snd u) * (1 - cos (fst o - fst u))) by (rewrite B; ring). rewrite <- A. ring.
Qed.
Lemma dot_range (c p q : R * R) : -1 <= dot p q <= 1.
Proof.
  destruct (offset_spec c p) as (_ & _ & C1 & _). destruct (offset_spec c q) as (_ & _ & C2 & _). rewrite (dot_offset c). set (o := offset c p) in *. set (u := offset c q) in *. pose proof (COS_bound (fst o - fst u)) as B. pose proof (COS_bound (snd o - snd u)) as B1. pose proof (COS_bound (snd o + snd u)) as B2. rewrite cos_minus in B1. rewrite cos_plus in B2.
  assert (0 <= cos (snd o) * cos (snd u)) by (apply Rmult_le_pos; assumption). split; nra.
Qed.
Lemma angle_half (c p q : R * R) : 0 <= angle p q <= PI /\ 1 - dot p q = 2 * (sin (angle p q / 2) * sin (angle p q / 2)).
Proof. unfold angle. split; [apply acos_bound|]. rewrite <- cos_half. rewrite cos_acos; [reflexivity|apply (dot_range c)]. Qed.

(** ** Bounds on sine and cosine *)
Lemma sin_sq_le t : sin t * sin t <= t * t.
Proof.
  assert (G : forall t, 0 <= t -> - t <= sin t <= t).
  { clear. intros t H. destruct (Rle_lt_or_eq_dec 0 t H) as [Hp|<-]; [|rewrite sin_0; lra]. pose proof (sin_lt_x t Hp). split; [|lra]. destruct (Rle_dec t PI) as [L|L]; [pose proof (sin_ge_0 t H L); lra|]. pose proof (SIN_bound t). pose proof PI2_3_2. lra. }
  destruct (Rle_dec 0 t) as [H|H]; [specialize (G t H); nra|]. specialize (G (- t) ltac:(lra)). rewrite sin_neg in G. nra.
Qed.
Lemma sin_low t : 0 <= t <= 1 -> t * (1 - t * t / 6) <= sin t.
Proof.
  intros [H1 H2]. pose proof PI2_3_2. destruct (sin_bound t 0 H1 ltac:(lra)) as [L _]. unfold sin_approx, sin_term in L. cbn [sum_f_R0 Nat.mul Nat.add pow fact INR] in L. replace (t * (1 - t * t / 6)) with (1 * (t * 1 / 1) + -1 * 1 * (t * (t * (t * 1)) / (1 + 1 + 1 + 1 + 1 + 1))) by field. exact L.
Qed.
Lemma cos_low t : -1 <= t <= 1 -> 1 - t * t / 2 <= cos t.
Proof.
  intros [H1 H2]. pose proof PI2_3_2. destruct (cos_bound t 0 ltac:(lra) ltac:(lra)) as [L _]. unfold cos_approx, cos_term in L. cbn [sum_f_R0 Nat.mul Nat.add pow fact INR] in L. replace (1 - t * t / 2) with (1 * (1 / 1) + -1 * 1 * (t * (t * 1) / (1 + 1))) by field. exact L.
Qed.
Lemma cos_small t rho : Rabs t <= PI -> 0 <= rho <= PI -> cos rho <= cos t -> Rabs t <= rho.
Proof.
  intros Ht Hr Hc. destruct (Rle_lt_dec (Rabs t) rho) as [L|L]; [exact L|]. exfalso. assert (E : cos (Rabs t) = cos t) by (unfold Rabs; destruct (Rcase_abs t); [apply cos_neg|reflexivity]). rewrite <- E in Hc. pose proof (cos_decreasing_1 rho (Rabs t) ltac:(lra) ltac:(lra) ltac:(lra) ltac:(lra) L). lra.
Qed.
Lemma in_field c p rho : 0 <= rho <= 1 / 2 -> angle c p <= rho -> Rabs (fst (offset c p)) <= rho /\ Rabs (snd (offset c p)) <= rho.
Proof.
  intros Hr Ha. pose proof PI2_3_2 as HP. destruct (offset_spec c p) as ([L1 L2] & [B1 B2] & C0 & X & _ & _). set (o := offset c p) in *.
  assert (D : cos (snd o) * cos (fst o) = dot c p). { rewrite X. unfold dot. replace (rad (fst p) - rad (fst c)) with (- (rad (fst c) - rad (fst p))) by ring. rewrite cos_neg. ring. }
  assert (Dr : cos rho <= dot c p). { unfold angle in Ha. rewrite <- (cos_acos (dot c p)) by (apply (dot_range c)). pose proof (acos_bound (dot c p)). destruct (Req_dec (acos (dot c p)) rho) as [E|N]; [rewrite E; lra|]. left. apply cos_decreasing_1; lra. }
  assert (Cr : 0 < cos rho) by (apply cos_gt_0; lra). pose proof (COS_bound (fst o)) as F. pose proof (COS_bound (snd o)) as G. rewrite <- D in Dr.
  set (cl := cos (fst o)) in *. set (cb := cos (snd o)) in *. assert (Pl : 0 < cl) by (destruct (Rlt_le_dec 0 cl) as [Z|Z]; [exact Z|exfalso; nra]).
  assert (cb * cl <= cl) by nra. assert (cb * cl <= cb) by nra. split; apply cos_small; try (fold cl); try (fold cb); try lra; apply Rabs_le; lra.
Qed.

(** ** Separations *)
Section Sep.
Context (c p q : R * R).
Let o := offset c p.
Let u := offset c q.
Lemma chord_flat : 2 * sin (angle p q / 2) <= flat o u.
Proof.
  destruct (angle_half c p q) as [A H]. pose proof (dot_half c p q) as D. cbv zeta in D. fold o u in D. pose proof (sin_sq_le ((snd o - snd u) / 2)) as S1. pose proof (sin_sq_le ((fst o - fst u) / 2)) as S2.
  destruct (offset_spec c p) as (_ & _ & C1 & _). destruct (offset_spec c q) as (_ & _ & C2 & _). fold o in C1. fold u in C2. pose proof (COS_bound (snd o)). pose proof (COS_bound (snd u)).
  assert (K : 0 <= cos (snd o) * cos (snd u) <= 1) by (split; nra). assert (P : 0 <= sin (angle p q / 2)) by (apply sin_ge_0; lra).
  assert (Q : 4 * (sin (angle p q / 2) * sin (angle p q / 2)) <= (fst o - fst u) ^ 2 + (snd o - snd u) ^ 2).
  { assert (0 <= sin ((fst o - fst u) / 2) * sin ((fst o - fst u) / 2)) by nra. nra. }
  unfold flat. rewrite <- (sqrt_square (2 * sin (angle p q / 2))) by lra. apply sqrt_le_1_alt. lra.
Qed.
Context (rho : R) (Hr : 0 <= rho <= 1 / 2) (Hp : angle c p <= rho) (Hq : angle c q <= rho).
Lemma flat_low : (1 - rho * rho) * flat o u <= angle p q.
Proof.
  destruct (angle_half c p q) as [A H]. pose proof (dot_half c p q) as D. cbv zeta in D. fold o u in D. destruct (in_field c p rho Hr Hp) as [F1 F2]. destruct (in_field c q rho Hr Hq) as [F3 F4]. fold o in F1, F2. fold u in F3, F4.
  assert (B : forall a b, Rabs a <= rho -> Rabs b <= rho -> let t := (a - b) / 2 in (1 - rho * rho / 6) * (1 - rho * rho / 6) * (t * t) <= sin t * sin t).
  { clear - Hr. intros a b Ha Hb t. assert (Ht : Rabs t <= rho) by (unfold t; apply Rabs_le; unfold Rabs in *; destruct (Rcase_abs a), (Rcase_abs b); lra).
    assert (W : forall t, 0 <= t <= rho -> (1 - rho * rho / 6) * (1 - rho * rho / 6) * (t * t) <= sin t * sin t).
    { clear t Ht. intros t Ht. pose proof (sin_low t ltac:(lra)) as L. assert (t * t <= rho * rho) by nra. assert (0 <= t * (1 - rho * rho / 6)) by (apply Rmult_le_pos; nra). assert (t * (1 - rho * rho / 6) <= sin t) by (eapply Rle_trans; [|exact L]; apply Rmult_le_compat_l; lra). nra. }
    unfold Rabs in Ht. destruct (Rcase_abs t); [specialize (W (- t) ltac:(lra)); rewrite sin_neg in W; lra|apply W; lra]. }
  pose proof (B _ _ F2 F4) as S1. pose proof (B _ _ F1 F3) as S2. cbv zeta in S1, S2.
  assert (Cb : forall b, Rabs b <= rho -> 1 - rho * rho / 2 <= cos b <= 1). { clear - Hr. intros b Hb. split; [|apply COS_bound]. assert (-1 <= b <= 1) by (unfold Rabs in Hb; destruct (Rcase_abs b); lra). pose proof (cos_low b ltac:(lra)). assert (b * b <= rho * rho) by (unfold Rabs in Hb; destruct (Rcase_abs b); nra). lra. }
  pose proof (Cb _ F2) as C1. pose proof (Cb _ F4) as C2. set (X := sin ((fst o - fst u) / 2) * sin ((fst o - fst u) / 2)) in *. set (Y := sin ((snd o - snd u) / 2) * sin ((snd o - snd u) / 2)) in *.
  set (a := (fst o - fst u)) in *. set (b := snd o - snd u) in *. set (r := rho * rho) in *. assert (Hrr : 0 <= r <= 1 / 4) by (unfold r; nra).
  assert (K : (1 - r) * (1 - r) <= (1 - r / 2) * (1 - r / 2) * ((1 - r / 6) * (1 - r / 6))). { assert (0 <= (1 - r / 2) * (1 - r / 6) - (1 - r)) by nra. nra. }
  assert (K2 : (1 - r / 2) * (1 - r / 2) <= cos (snd o) * cos (snd u)) by nra.
  assert (K1 : (1 - r / 2) * (1 - r / 2) <= 1) by nra.
  assert (Q : (1 - r) * (1 - r) * (a ^ 2 + b ^ 2) <= 4 * (sin (angle p q / 2) * sin (angle p q / 2))).
  { assert (Pa : 0 <= a / 2 * (a / 2)) by nra. assert (Pb : 0 <= b / 2 * (b / 2)) by nra. set (e := (1 - r / 6) * (1 - r / 6)) in *. assert (0 <= e) by (unfold e; nra). set (k := (1 - r / 2) * (1 - r / 2)) in *. assert (0 <= k) by (unfold k; nra). set (m := cos (snd o) * cos (snd u)) in *.
    assert (T1 : k * (e * (a / 2 * (a / 2))) <= m * X) by (apply Rmult_le_compat; try lra; apply Rmult_le_pos; lra).
    assert (T2 : k * (e * (b / 2 * (b / 2))) <= Y) by (assert (0 <= e * (b / 2 * (b / 2))) by (apply Rmult_le_pos; lra); nra).
    assert (T3 : (1 - r) * (1 - r) * (a ^ 2 + b ^ 2) <= k * e * (a ^ 2 + b ^ 2)) by (apply Rmult_le_compat_r; [nra|exact K]). assert (2 * (m * X) + 2 * Y = 2 * (sin (angle p q / 2) * sin (angle p q / 2))) by lra. nra. }
  pose proof (sin_sq_le (angle p q / 2)) as S3. assert (Q' : (1 - r) * (1 - r) * (a ^ 2 + b ^ 2) <= angle p q * angle p q) by nra.
  unfold flat. fold a b. rewrite <- (sqrt_square (1 - r)) by lra. rewrite <- sqrt_mult by nra. rewrite <- (sqrt_square (angle p q)) by lra. apply sqrt_le_1_alt. exact Q'.
Qed.
Lemma angle_low : (1 - rho * rho) * angle p q <= flat o u.
Proof.
  destruct (angle_half c p q) as [A H]. pose proof chord_flat as Cf. destruct (in_field c p rho Hr Hp) as [F1 F2]. destruct (in_field c q rho Hr Hq) as [F3 F4]. fold o in F1, F2. fold u in F3, F4. pose proof PI2_3_2 as HP. set (t := angle p q / 2) in *.
  assert (F : flat o u * flat o u <= 8 * (rho * rho)).
  { unfold flat. rewrite sqrt_sqrt by (apply Rplus_le_le_0_compat; apply pow2_ge_0). assert (Z : forall a b, Rabs a <= rho -> Rabs b <= rho -> (a - b) ^ 2 <= 4 * (rho * rho)). { intros a b Ha Hb. assert (- (2 * rho) <= a - b <= 2 * rho) by (unfold Rabs in *; destruct (Rcase_abs a), (Rcase_abs b); lra). nra. } pose proof (Z _ _ F1 F3). pose proof (Z _ _ F2 F4). lra. }
  assert (T0 : 0 <= t <= PI / 2) by (unfold t; lra). assert (S0 : 0 <= sin t) by (apply sin_ge_0; lra). assert (Fp : 0 <= flat o u) by apply sqrt_pos.
  assert (S2 : sin t * sin t <= 2 * (rho * rho)) by nra.
  assert (T1 : t <= PI / 4). { destruct (Rle_lt_dec t (PI / 4)) as [L|L]; [exact L|]. exfalso. assert (sin (PI / 4) < sin t) by (apply sin_increasing_1; lra). rewrite sin_PI4 in H0. assert (E : 1 / sqrt 2 * (1 / sqrt 2) = 1 / 2) by (assert (Z : sqrt 2 * sqrt 2 = 2) by (apply sqrt_sqrt; lra); assert (0 < sqrt 2) by (apply sqrt_lt_R0; lra); transitivity (1 / (sqrt 2 * sqrt 2)); [field; lra|rewrite Z; reflexivity]). assert (0 < 1 / sqrt 2) by (apply Rdiv_lt_0_compat; [lra|apply sqrt_lt_R0; lra]). nra. }
  pose proof PI_4. pose proof (sin_low t ltac:(lra)) as L. assert (L2 : t * (5 / 6) <= sin t) by nra. assert (T2 : t * t <= 6 * (rho * rho)) by nra.
  assert (t * (1 - rho * rho) <= sin t) by (eapply Rle_trans; [|exact L]; apply Rmult_le_compat_l; lra). replace (angle p q) with (2 * t) by (unfold t; field). lra.
Qed.
End Sep.

(** ** What the server does *)
Definition K := 180 / PI * 3600.
Lemma K_pos : 0 < K.
Proof. unfold K. pose proof PI_RGT_0. assert (0 < 180 / PI) by (apply Rdiv_lt_0_compat; lra). lra. Qed.
Lemma arcsec_K a : arcsec a = K * a.
Proof. unfold arcsec, K. pose proof PI_RGT_0. field. lra. Qed.
Definition secs (o : R * R) : R * R := (arcsec (fst o), arcsec (snd o)).
Lemma flat_secs o u : flat (secs o) (secs u) = K * flat o u.
Proof.
  unfold flat, secs. cbn [fst snd]. rewrite !arcsec_K. pose proof K_pos. replace ((K * fst o - K * fst u) ^ 2 + (K * snd o - K * snd u) ^ 2) with (K * K * ((fst o - fst u) ^ 2 + (snd o - snd u) ^ 2)) by ring.
  rewrite sqrt_mult; [|nra|apply Rplus_le_le_0_compat; apply pow2_ge_0]. rewrite sqrt_square by lra. reflexivity.
Qed.
Definition valid (p : R * R) : Prop := -90 <= snd p <= 90.
Lemma sky_coord_valid p : valid p -> sky_coord p = Some p.
Proof. intros [A B]. unfold sky_coord. destruct (Rle_dec (-90) (snd p)); [|contradiction]. destruct (Rle_dec (snd p) 90); [reflexivity|contradiction]. Qed.
Lemma sky_coord_some p c : sky_coord p = Some c -> c = p /\ valid p.
Proof. unfold sky_coord, valid. destruct (Rle_dec (-90) (snd p)); [|discriminate]. destruct (Rle_dec (snd p) 90); [|discriminate]. intros E. injection E as ->. auto. Qed.
Lemma sky_coords_valid ps : (forall p, In p ps -> valid p) -> mapM sky_coord ps = Some ps.
Proof. induction ps as [|p ps IH]; intros H; [reflexivity|]. cbn [mapM]. rewrite sky_coord_valid by (apply H; now left). rewrite IH by (intros; apply H; now right). reflexivity. Qed.
Lemma sky_coords_some ps cs : mapM sky_coord ps = Some cs -> cs = ps /\ forall p, In p ps -> valid p.
Proof. revert cs. induction ps as [|p ps IH]; intros cs H; cbn [mapM] in H; [injection H as <-; split; [reflexivity|intros p []]|]. destruct (sky_coord p) as [c|] eqn:E; [|discriminate]. destruct (mapM sky_coord ps) as [cs'|]; [|discriminate]. injection H as <-. destruct (sky_coord_some _ _ E) as [-> V]. destruct (IH _ eq_refl) as [-> V']. split; [reflexivity|]. intros q [<-|Hq]; auto. Qed.
Lemma scene_frame_some s c s' : scene_frame s = Some (c, s') -> f_frame s' = Some c /\ f_cat s' = f_cat s /\ f_coords s' = f_coords s /\ f_tree s' = f_tree s /\ (forall d, f_frame s = Some d -> c = d).
Proof.
  unfold scene_frame. destruct (f_frame s) as [d|] eqn:E; [intros H; injection H as <- <-; repeat split; auto; intros; congruence|]. destruct (median _) as [a|]; [|discriminate]. destruct (median _) as [b|]; [|discriminate]. destruct (sky_coord _) as [c'|]; [|discriminate]. intros H. injection H as <- <-. cbn. repeat split; auto. discriminate.
Qed.
Lemma sky_to_scene_some s ps xy s' : sky_to_scene s ps = Some (xy, s') ->
  exists c, f_frame s' = Some c /\ f_cat s' = f_cat s /\ f_coords s' = f_coords s /\ f_tree s' = f_tree s /\ (forall d, f_frame s = Some d -> c = d) /\ xy = map (fun p => secs (offset c p)) ps /\ forall p, In p ps -> valid p.
Proof.
  unfold sky_to_scene. destruct (mapM sky_coord ps) as [cs|] eqn:Ec; [|discriminate]. destruct (scene_frame s) as [[c s1]|] eqn:Ef; [|discriminate]. intros H. injection H as <- <-. destruct (sky_coords_some _ _ Ec) as [-> V]. destruct (scene_frame_some _ _ _ Ef) as (A & B & C & D & E). exists c. split; [exact A|]. split; [exact B|]. split; [exact C|]. split; [exact D|]. split; [exact E|]. split; [reflexivity|exact V].
Qed.

(** Half of the sources, or more, are on either side of the median *)
Definition upto (m x : R) : bool := if Rle_dec x m then true else false.
Definition from (m x : R) : bool := if Rle_dec m x then true else false.
Lemma perm_filter {A} (f : A -> bool) l l' : Permutation l l' -> List.length (filter f l) = List.length (filter f l').
Proof. induction 1 as [|x l l' H IH|x y l|l l' l'' H1 IH1 H2 IH2]; cbn [filter]; [reflexivity|destruct (f x); cbn; congruence|destruct (f x), (f y); reflexivity|congruence]. Qed.
Lemma filter_firstn (f : R -> bool) s k : (k <= List.length s)%nat -> (forall i, (i < k)%nat -> f (nth i s 0) = true) -> (k <= List.length (filter f s))%nat.
Proof. revert k. induction s as [|x s IH]; intros k L H; [cbn in L; lia|]. destruct k as [|k]; [lia|]. cbn [filter]. pose proof (H 0%nat ltac:(lia)) as E. cbn [nth] in E. rewrite E. cbn [List.length] in *. apply le_n_S, IH; [lia|]. intros i Hi. apply (H (S i)). lia. Qed.
Lemma filter_skipn (f : R -> bool) s k : (k <= List.length s)%nat -> (forall i, (k <= i < List.length s)%nat -> f (nth i s 0) = true) -> (List.length s - k <= List.length (filter f s))%nat.
Proof. revert k. induction s as [|x s IH]; intros k L H; [cbn in *; lia|]. destruct k as [|k]. { cbn [filter]. pose proof (H 0%nat ltac:(cbn; lia)) as E. cbn [nth] in E. rewrite E. cbn [List.length]. specialize (IH 0%nat ltac:(lia)). rewrite Nat.sub_0_r in *. apply le_n_S, IH. intros i Hi. apply (H (S i)). cbn. lia. }
  cbn [filter List.length Nat.sub]. cbn in L. specialize (IH k ltac:(lia)). assert (G : (List.length s - k <= List.length (filter f s))%nat) by (apply IH; intros i Hi; apply (H (S i)); cbn; lia). destruct (f x); cbn [List.length]; lia. Qed.
Theorem C76_median : forall l m, median l = Some m -> (List.length l <= 2 * List.length (filter (upto m) l))%nat /\ (List.length l <= 2 * List.length (filter (from m) l))%nat.
Proof.
  intros l m. unfold median. destruct l as [|x0 l0] eqn:El; [discriminate|]. rewrite <- El. assert (Ln : (0 < List.length l)%nat) by (rewrite El; cbn; lia). clear El. intros H. apply (f_equal (fun o => match o with Some v => v | None => 0 end)) in H. cbv beta iota zeta in H. subst m. set (n := List.length l) in *. set (s := sort l). assert (Ls : List.length s = n) by (unfold s; apply sort_length).
  assert (So : forall i j, (i <= j < n)%nat -> nth i s 0 <= nth j s 0). { intros i j Hij. destruct (Nat.eq_dec i j) as [->|N]; [lra|]. pose proof (sort_sorted l) as St. fold s in St. apply St; [lia|rewrite Ls; lia]. }
  assert (D1 : (2 * ((n - 1) / 2) + 1 <= n)%nat) by (pose proof (Nat.div_mod (n - 1) 2 ltac:(lia)); pose proof (Nat.mod_upper_bound (n - 1) 2 ltac:(lia)); lia).
  assert (D2 : (n <= 2 * (n / 2) + 1 /\ 2 * (n / 2) <= n)%nat) by (pose proof (Nat.div_mod n 2 ltac:(lia)); pose proof (Nat.mod_upper_bound n 2 ltac:(lia)); lia).
  assert (D3 : (n <= 2 * ((n - 1) / 2) + 2)%nat) by (pose proof (Nat.div_mod (n - 1) 2 ltac:(lia)); pose proof (Nat.mod_upper_bound (n - 1) 2 ltac:(lia)); lia).
  set (i := ((n - 1) / 2)%nat) in *. set (j := (n / 2)%nat) in *. assert (Hij : nth i s 0 <= nth j s 0) by (apply So; lia). set (m := (nth i s 0 + nth j s 0) / 2).
  split.
  - rewrite (perm_filter (upto m) l s) by (apply Permutation_sym; apply sort_perm). assert (S i <= List.length (filter (upto m) s))%nat; [|lia]. apply filter_firstn; [lia|]. intros k Hk. unfold upto. destruct (Rle_dec (nth k s 0) m) as [|N]; [reflexivity|]. exfalso. apply N. pose proof (So k i ltac:(lia)). unfold m. lra.
  - rewrite (perm_filter (from m) l s) by (apply Permutation_sym; apply sort_perm). assert (n - j <= List.length (filter (from m) s))%nat; [|lia]. rewrite <- Ls. apply filter_skipn; [lia|]. intros k Hk. unfold from. destruct (Rle_dec m (nth k s 0)) as [|N]; [reflexivity|]. exfalso. apply N. pose proof (So j k ltac:(lia)). unfold m. lra.
Qed.
Print Assumptions C76_median.
(** The medians are the origin *)
Theorem C76_center : forall s c xy s', f_frame s = None -> median (map fst (f_cat s)) = Some (fst c) -> median (map snd (f_cat s)) = Some (snd c) -> sky_to_scene s [c] = Some (xy, s') -> xy = [(0, 0)].
Proof.
  intros s c xy s' Hf H1 H2 E. assert (Hc : scene_frame s = Some (c, mkF (f_cat s) (Some c) (f_coords s) (f_tree s))).
  { unfold scene_frame. rewrite Hf, H1, H2. destruct (sky_to_scene_some _ _ _ _ E) as (_ & _ & _ & _ & _ & _ & _ & V). rewrite <- (surjective_pairing c). rewrite sky_coord_valid by (apply V; now left). reflexivity. }
  assert (E' : sky_to_scene s [c] = Some ([secs (offset c c)], mkF (f_cat s) (Some c) (f_coords s) (f_tree s))). { destruct (sky_to_scene_some _ _ _ _ E) as (_ & _ & _ & _ & _ & _ & _ & V). unfold sky_to_scene. rewrite sky_coords_valid by exact V. rewrite Hc. reflexivity. }
  assert (Ex : xy = [secs (offset c c)]) by congruence. rewrite Ex. clear E E' Ex. f_equal. unfold secs.
  assert (Eo : offset c c = (0, 0)).
  { unfold offset. rewrite Rminus_diag_eq by reflexivity. rewrite cos_0, sin_0. pose proof (sin2_cos2 (rad (snd c))) as T. unfold Rsqr in T. rewrite !Rmult_1_r, !Rmult_0_r. set (S0 := sin (rad (snd c))) in *. set (C0 := cos (rad (snd c))) in *. replace (C0 * C0 + S0 * S0) with 1 by lra. replace (- S0 * C0 + C0 * S0) with 0 by ring.
    unfold hypot. replace (1 * 1 + 0 * 0) with 1 by ring. rewrite sqrt_1. unfold atan2. destruct (Rlt_dec 0 1); [|lra]. replace (0 / 1) with 0 by field. rewrite atan_0. reflexivity. }
  rewrite Eo. cbn [fst snd]. rewrite arcsec_K, Rmult_0_r. reflexivity.
Qed.
Print Assumptions C76_center.
(** Coordinates grow to the east and to the north: along the meridian of the centre the second is the difference of
    declinations, and along the equator the first is the difference of right ascensions *)
Theorem C76_directions : forall s c p xy s', f_frame s = Some c -> sky_to_scene s [p] = Some (xy, s') ->
  (fst p = fst c -> Rabs (snd p - snd c) <= 90 -> xy = [(0, 3600 * (snd p - snd c))]) /\
  (snd p = 0 -> snd c = 0 -> -180 < fst p - fst c <= 180 -> xy = [(3600 * (fst p - fst c), 0)]).
Proof.
  intros s c p xy s' Hf E. destruct (sky_to_scene_some _ _ _ _ E) as (c' & _ & _ & _ & _ & Hc & Exy & _). specialize (Hc c Hf). subst c'. cbn [map] in Exy. pose proof PI_RGT_0 as HP.
  destruct (offset_spec c p) as (L & B & C0 & X & Y & Z). set (o := offset c p) in *. assert (Ar : forall x, arcsec (rad x) = 3600 * x) by (intros x; unfold arcsec, rad; field; lra). split.
  - intros Ef Hd. assert (Hb : - 90 <= snd p - snd c <= 90) by (unfold Rabs in Hd; destruct (Rcase_abs _); lra). rewrite Ef, Rminus_diag_eq in X, Y, Z by reflexivity. rewrite cos_0 in X, Z. rewrite sin_0 in Y. set (t := rad (snd p) - rad (snd c)).
    assert (Ht : - (PI / 2) <= t <= PI / 2) by (unfold t, rad; split; nra).
    assert (Zt : sin (snd o) = sin t) by (rewrite Z; unfold t; rewrite sin_minus; ring).
    assert (Lat : snd o = t). { apply (f_equal asin) in Zt. rewrite !asin_sin in Zt by lra. exact Zt. }
    assert (Xt : cos (snd o) * cos (fst o) = cos t) by (rewrite X; unfold t; rewrite cos_minus; ring). assert (Yt : cos t * sin (fst o) = 0) by (rewrite <- Lat; lra). rewrite Lat in Xt.
    assert (Lon : fst o = 0).
    { unfold o, offset. cbn [fst]. rewrite Ef, Rminus_diag_eq by reflexivity. rewrite cos_0, sin_0, !Rmult_1_r, Rmult_0_r. replace (cos (rad (snd c)) * cos (rad (snd p)) + sin (rad (snd c)) * sin (rad (snd p))) with (cos t) by (unfold t; rewrite cos_minus; ring). rewrite Lat in C0. unfold atan2. destruct (Rlt_dec 0 (cos t)); [replace (0 / cos t) with 0 by (field; lra); apply atan_0|]. destruct (Rlt_dec (cos t) 0); [lra|]. destruct (Rlt_dec 0 0); lra. }
    rewrite Exy. unfold secs. rewrite Lon, Lat. f_equal. f_equal; [unfold arcsec; field; lra|]. rewrite <- Ar. f_equal. unfold t, rad. field.
  - intros Ep Ec Hd. set (t := rad (fst p) - rad (fst c)) in *. assert (Ht : - PI < t <= PI) by (unfold t, rad; split; nra). rewrite Ep in X, Y, Z. rewrite Ec in X, Z. replace (rad 0) with 0 in X, Y, Z by (unfold rad; field). rewrite sin_0, cos_0 in X, Z. rewrite cos_0 in Y.
    assert (Lat : snd o = 0). { assert (Zt : sin (snd o) = sin 0) by (rewrite Z, sin_0; ring). apply (f_equal asin) in Zt. rewrite !asin_sin in Zt by lra. exact Zt. } rewrite Lat, cos_0 in X, Y.
    assert (Lon : fst o = t) by (apply angle_unique; [exact L|exact Ht|lra|lra]).
    rewrite Exy. unfold secs. rewrite Lon, Lat. f_equal. f_equal; [|unfold arcsec; field; lra]. rewrite <- Ar. f_equal. unfold t, rad. field.
Qed.
Print Assumptions C76_directions.
(** Distances of scene coordinates are separations on the sky: never less than the chord, and equal to the angle within a
    part rho squared in a field of angular radius rho about the centre of the frame *)
Theorem C76_distance : forall s p q a b s', sky_to_scene s [p; q] = Some ([a; b], s') ->
  arcsec (2 * sin (angle p q / 2)) <= flat a b /\
  forall c rho, f_frame s' = Some c -> 0 <= rho <= 1 / 2 -> angle c p <= rho -> angle c q <= rho ->
    (1 - rho ^ 2) * flat a b <= arcsec (angle p q) /\ (1 - rho ^ 2) * arcsec (angle p q) <= flat a b.
Proof.
  intros s p q a b s' E. destruct (sky_to_scene_some _ _ _ _ E) as (c & Hc & _ & _ & _ & _ & Exy & _). cbn [map] in Exy. injection Exy as -> ->. rewrite !flat_secs, !arcsec_K. pose proof K_pos. split.
  - apply Rmult_le_compat_l; [lra|]. apply chord_flat.
  - intros c' rho Hc' Hr Hp Hq. rewrite Hc in Hc'. injection Hc' as <-. pose proof (flat_low c p q rho Hr Hp Hq). pose proof (angle_low c p q rho Hr Hp Hq). replace (rho ^ 2) with (rho * rho) by ring.
    split; [replace ((1 - rho * rho) * (K * flat (offset c p) (offset c q))) with (K * ((1 - rho * rho) * flat (offset c p) (offset c q))) by ring|replace ((1 - rho * rho) * (K * angle p q)) with (K * ((1 - rho * rho) * angle p q)) by ring]; apply Rmult_le_compat_l; lra.
Qed.
Print Assumptions C76_distance.

(** ** Histories *)
Inductive op := OpMove (moved : list (nat * (R * R))) | OpAsk (ps : list (R * R)) | OpCoords.
Definition apply_op (o : op) (s : fstate) : option fstate :=
  match o with
  | OpMove m => Some (write_back m s)
  | OpAsk ps => option_map snd (sky_to_scene s ps)
  | OpCoords => option_map snd (scene_coordinates s)
  end.
Fixpoint run (ops : list op) (s : fstate) : option fstate :=
  match ops with [] => Some s | o :: t => match apply_op o s with Some s' => run t s' | None => None end end.
(** A frame and coordinates are made once: whatever is asked and wherever sources are written back, all later coordinates and
    searches are those of the catalog as it was given *)
Theorem C76_cached : forall cat s0 ops s, ingest cat f_init = Some s0 -> run ops s0 = Some s ->
  exists c, f_frame s = Some c /\ median (map fst cat) = Some (fst c) /\ median (map snd cat) = Some (snd c) /\
    scene_coordinates s = Some (map (fun p => secs (offset c p)) cat, s) /\ f_tree s = map (fun p => secs (offset c p)) cat /\
    forall ps xy s', sky_to_scene s ps = Some (xy, s') -> xy = map (fun p => secs (offset c p)) ps /\ s' = s.
Proof.
  intros cat s0 ops s Hi Hr.
  assert (I0 : exists c, f_frame s0 = Some c /\ median (map fst cat) = Some (fst c) /\ median (map snd cat) = Some (snd c) /\ f_coords s0 = Some (map (fun p => secs (offset c p)) cat) /\ f_tree s0 = map (fun p => secs (offset c p)) cat).
  { unfold ingest, f_init, scene_coordinates in Hi. cbn [f_coords f_frame f_tree f_cat] in Hi. set (s1 := mkF cat None None []) in *. destruct (sky_to_scene s1 cat) as [[xy s']|] eqn:E; [|discriminate]. injection Hi as <-. cbn [f_frame f_coords f_tree]. destruct (sky_to_scene_some _ _ _ _ E) as (c & Hc & _ & _ & _ & _ & -> & _).
    exists c. split; [exact Hc|]. assert (M : median (map fst cat) = Some (fst c) /\ median (map snd cat) = Some (snd c)); [|tauto]. unfold sky_to_scene in E. destruct (mapM sky_coord cat); [|discriminate]. unfold scene_frame, s1 in E. cbn [f_frame f_cat f_coords f_tree] in E. destruct (median (map fst cat)) as [a|]; [|discriminate]. destruct (median (map snd cat)) as [b|]; [|discriminate]. destruct (sky_coord (a, b)) as [c'|] eqn:Es; [|discriminate]. injection E as _ <-. cbn [f_frame] in Hc. injection Hc as ->. destruct (sky_coord_some _ _ Es) as [-> _]. auto. }
  destruct I0 as (c & Hc & M1 & M2 & Hco & Ht). exists c.
  assert (Ask : forall s, f_frame s = Some c -> forall ps xy s', sky_to_scene s ps = Some (xy, s') -> xy = map (fun p => secs (offset c p)) ps /\ s' = s).
  { clear. intros s Hf ps xy s' E. unfold sky_to_scene in E. destruct (mapM sky_coord ps) as [cs|] eqn:Ec; [|discriminate]. destruct (sky_coords_some _ _ Ec) as [-> _]. unfold scene_frame in E. rewrite Hf in E. injection E as <- <-. auto. }
  assert (Inv : f_frame s = Some c /\ f_coords s = Some (map (fun p => secs (offset c p)) cat) /\ f_tree s = map (fun p => secs (offset c p)) cat).
  { clear Hi. revert s0 Hc Hco Ht Hr. induction ops as [|o ops IH]; intros s0 Hc Hco Ht Hr; cbn [run] in Hr; [injection Hr as <-; auto|]. destruct (apply_op o s0) as [s1|] eqn:Eo; [|discriminate]. apply (IH s1); [| | |exact Hr]; destruct o as [m|ps|]; cbn [apply_op] in Eo.
    - injection Eo as <-. exact Hc. 
    - destruct (sky_to_scene s0 ps) as [[xy s']|] eqn:E; [|discriminate]. injection Eo as <-. destruct (Ask _ Hc _ _ _ E) as [_ ->]. exact Hc.
    - unfold scene_coordinates in Eo. rewrite Hco in Eo. injection Eo as <-. exact Hc.
    - injection Eo as <-. exact Hco.
    - destruct (sky_to_scene s0 ps) as [[xy s']|] eqn:E; [|discriminate]. injection Eo as <-. destruct (Ask _ Hc _ _ _ E) as [_ ->]. exact Hco.
    - unfold scene_coordinates in Eo. rewrite Hco in Eo. injection Eo as <-. exact Hco.
    - injection Eo as <-. exact Ht.
    - destruct (sky_to_scene s0 ps) as [[xy s']|] eqn:E; [|discriminate]. injection Eo as <-. destruct (Ask _ Hc _ _ _ E) as [_ ->]. exact Ht.
    - unfold scene_coordinates in Eo. rewrite Hco in Eo. injection Eo as <-. exact Ht. }
  destruct Inv as (I1 & I2 & I3). split; [exact I1|]. split; [exact M1|]. split; [exact M2|]. split; [unfold scene_coordinates; rewrite I2; reflexivity|]. split; [exact I3|]. exact (Ask s I1).
Qed.
Print Assumptions C76_cached.
(** What the tree must do *)
Definition ball_spec (query_ball : list (R * R) -> R * R -> R -> list nat) : Prop :=
  forall pts c r k, In k (query_ball pts c r) <-> exists p, nth_error pts k = Some p /\ flat c p <= r.
(** A search around a place finds every source of the ingested catalog within the radius and no other, up to a part rho squared *)
Theorem C76_search : forall query_ball cat s0 ops s place radius rho, ball_spec query_ball -> ingest cat f_init = Some s0 -> run ops s0 = Some s -> valid place -> 0 <= rho <= 1 / 2 ->
  (forall c p, f_frame s = Some c -> p = place \/ In p cat -> angle c p <= rho) ->
  exists inds, search query_ball s place radius = Some (inds, s) /\
    forall k p, nth_error cat k = Some p ->
      (arcsec (angle place p) <= (1 - rho ^ 2) * radius -> In k inds) /\ (In k inds -> (1 - rho ^ 2) * arcsec (angle place p) <= radius).
Proof.
  intros query_ball cat s0 ops s place radius rho Hq Hi Hr Hv Hrho Hf. destruct (C76_cached cat s0 ops s Hi Hr) as (c & Hc & _ & _ & _ & Ht & Ask).
  assert (E : sky_to_scene s [place] = Some ([secs (offset c place)], s)). { unfold sky_to_scene. rewrite sky_coords_valid by (intros p [<-|[]]; exact Hv). unfold scene_frame. rewrite Hc. reflexivity. }
  exists (query_ball (f_tree s) (secs (offset c place)) radius). unfold search. rewrite E. split; [reflexivity|]. intros k p Hk. assert (Hin : In p cat) by (apply nth_error_In in Hk; exact Hk).
  pose proof (Hf c place Hc (or_introl eq_refl)) as H1. pose proof (Hf c p Hc (or_intror Hin)) as H2. pose proof (flat_low c place p rho Hrho H1 H2) as L1. pose proof (angle_low c place p rho Hrho H1 H2) as L2. pose proof K_pos as HK.
  assert (Hn : nth_error (f_tree s) k = Some (secs (offset c p))) by (rewrite Ht, nth_error_map, Hk; reflexivity). rewrite (Hq _ _ _ _). rewrite arcsec_K. replace (rho ^ 2) with (rho * rho) by ring. assert (0 < 1 - rho * rho) by nra. split.
  - intros Hle. exists (secs (offset c p)). split; [exact Hn|]. rewrite flat_secs. set (F := flat (offset c place) (offset c p)) in *. assert ((1 - rho * rho) * (K * F) <= (1 - rho * rho) * radius) by nra. nra.
  - intros (p' & Hp' & Hle). rewrite Hn in Hp'. injection Hp' as <-. rewrite flat_secs in Hle. nra.
Qed.
Print Assumptions C76_search.
(** Refuted: a source that a fit has moved is not found where it is now *)
Theorem C76_moved_refuted : forall query_ball cat s0 k p p' radius rho inds s1, ball_spec query_ball -> ingest cat f_init = Some s0 -> nth_error cat k = Some p -> valid p' -> 0 <= rho <= 1 / 2 ->
  (forall c q, f_frame s0 = Some c -> q = p' \/ In q cat -> angle c q <= rho) -> radius < (1 - rho ^ 2) * arcsec (angle p' p) ->
  nth_error (f_cat (write_back [(k, p')] s0)) k = Some p' /\ (search query_ball (write_back [(k, p')] s0) p' radius = Some (inds, s1) -> ~ In k inds).
Proof.
  intros query_ball cat s0 k p p' radius rho inds s1 Hq Hi Hk Hv Hr Hf Hfar. split.
  - cbn [write_back f_cat fold_left fst snd]. assert (Ec : f_cat s0 = cat). { unfold ingest, scene_coordinates, f_init in Hi. cbn [f_coords f_frame f_tree f_cat] in Hi. destruct (sky_to_scene _ cat) as [[xy s']|] eqn:E; [|discriminate]. injection Hi as <-. cbn [f_cat]. destruct (sky_to_scene_some _ _ _ _ E) as (c & _ & E' & _). exact E'. }
    rewrite Ec. clear - Hk. revert k Hk. induction cat as [|q cat IH]; intros k Hk; [destruct k; discriminate|]. destruct k as [|k]; [reflexivity|]. cbn [nth_error] in Hk. cbn [upd nth_error]. now apply IH.
  - intros E Hin. destruct (C76_search query_ball cat s0 [OpMove [(k, p')]] (write_back [(k, p')] s0) p' radius rho Hq Hi eq_refl Hv Hr Hf) as (inds' & E' & A). rewrite E in E'. injection E' as <- _. destruct (A k p Hk) as [_ B]. specialize (B Hin). lra.
Qed.
Print Assumptions C76_moved_refuted.
(** Refuted: a second catalog given to the same server is searched with the coordinates of the first *)
Theorem C76_reingest_refuted : forall cat cat' s, ingest cat f_init = Some s -> exists s', ingest cat' s = Some s' /\ f_cat s' = cat' /\ f_tree s' = f_tree s /\ f_frame s' = f_frame s.
Proof.
  intros cat cat' s H. assert (Hc : exists xy, f_coords s = Some xy /\ f_tree s = xy). { unfold ingest, scene_coordinates, f_init in H. cbn [f_coords f_frame f_tree f_cat] in H. destruct (sky_to_scene _ cat) as [[xy s']|]; [|discriminate]. injection H as <-. eexists. split; reflexivity. }
  destruct Hc as (xy & Hc & Ht). unfold ingest, scene_coordinates. cbn [f_coords]. rewrite Hc. eexists. split; [reflexivity|]. cbn [f_cat f_tree f_frame]. auto.
Qed.
Print Assumptions C76_reingest_refuted.
(** Refuted: two sources on either side of right ascension zero are recorded on opposite sides of the sky *)
Theorem C76_wrap_refuted : forall e d, 0 < e <= 1 -> -30 <= d <= 30 -> exists s a b, ingest [(e, d); (360 - e, d)] f_init = Some s /\ f_tree s = [a; b] /\
  arcsec (angle (e, d) (360 - e, d)) <= 2 * e * 3600 /\ 180 * 3600 < flat a b.
Proof.
  intros e d He Hd. pose proof PI_RGT_0 as HP. pose proof PI_4 as HP4.
  assert (Ev : valid (e, d) /\ valid (360 - e, d)) by (unfold valid; cbn; lra). destruct Ev as [V1 V2].
  assert (Mr : median [e; 360 - e] = Some 180). { unfold median. cbn [sort insert List.length]. destruct (Rle_dec e (360 - e)) as [_|N]; [|lra]. change ((2 - 1) / 2)%nat with 0%nat. change (2 / 2)%nat with 1%nat. cbn [nth]. f_equal. field. }
  assert (Md : median [d; d] = Some d). { unfold median. cbn [sort insert List.length]. destruct (Rle_dec d d) as [_|N]; [|lra]. change ((2 - 1) / 2)%nat with 0%nat. change (2 / 2)%nat with 1%nat. cbn [nth]. f_equal. field. }
  set (c := (180, d)). exists (mkF [(e, d); (360 - e, d)] (Some c) (Some [secs (offset c (e, d)); secs (offset c (360 - e, d))]) [secs (offset c (e, d)); secs (offset c (360 - e, d))]), (secs (offset c (e, d))), (secs (offset c (360 - e, d))).
  split. { unfold ingest, scene_coordinates, f_init, sky_to_scene. cbn [f_coords f_frame f_tree f_cat]. rewrite sky_coords_valid by (intros p [<-|[<-|[]]]; assumption). unfold scene_frame. cbn [f_coords f_frame f_tree f_cat map fst snd]. rewrite Mr, Md. rewrite sky_coord_valid by (unfold valid; cbn; lra). reflexivity. }
  split; [reflexivity|]. set (al := rad e). assert (Hal : 0 < al <= 1 / 45) by (unfold al, rad; split; [apply Rmult_lt_0_compat; [nra|lra]|nra]).
  assert (L2 : rad (360 - e) = 2 * PI - al) by (unfold al, rad; field). set (de := rad d). assert (Hde : - (PI / 6) <= de <= PI / 6) by (unfold de, rad; split; nra). split.
  - rewrite arcsec_K. replace (2 * e * 3600) with (K * (2 * al)) by (unfold K, al, rad; field; lra). pose proof K_pos. apply Rmult_le_compat_l; [lra|]. unfold angle. set (D := dot (e, d) (360 - e, d)).
    assert (HD : cos (2 * al) <= D). { unfold D, dot. cbn [fst snd]. rewrite L2. fold al de. replace (al - (2 * PI - al)) with (2 * al - 2 * PI) by ring. rewrite cos_minus, cos_2PI, sin_2PI. pose proof (sin2_cos2 de) as T. unfold Rsqr in T. pose proof (COS_bound (2 * al)). nra. }
    destruct (Rle_lt_dec (acos D) (2 * al)) as [L|L]; [exact L|]. exfalso. pose proof (acos_bound D). pose proof PI2_3_2. assert (cos (acos D) < cos (2 * al)) by (apply cos_decreasing_1; lra). rewrite cos_acos in H2 by (apply (dot_range c)). lra.
  - rewrite flat_secs. pose proof K_pos. replace (180 * 3600) with (K * PI) by (unfold K; field; lra). apply Rmult_lt_compat_l; [lra|].
    assert (C6 : 3 / 4 <= cos de * cos de). { assert (cos (PI / 6) <= cos de). { destruct (Rle_dec 0 de) as [P|P]; [destruct (Req_dec de (PI / 6)) as [->|N]; [lra|left; apply cos_decreasing_1; lra]|]. rewrite <- (cos_neg de). destruct (Req_dec (- de) (PI / 6)) as [->|N]; [lra|left; apply cos_decreasing_1; lra]. }
      rewrite cos_PI6 in H0. assert (sqrt 3 * sqrt 3 = 3) by (apply sqrt_sqrt; lra). pose proof (sqrt_pos 3). nra. }
    pose proof (sin2_cos2 de) as T. unfold Rsqr in T. pose proof (cos_low al ltac:(lra)) as Cl. assert (Cl' : 9 / 10 <= cos al) by (clear - Cl Hal; assert (al * al <= 1 / 45 * (1 / 45)) by (apply Rmult_le_compat; lra); clearbody al; eapply Rle_trans; [|exact Cl]; lra). assert (Sl : 0 < sin al) by (apply sin_gt_0; pose proof PI2_3_2; lra). assert (Cd : 0 < cos de) by (apply cos_gt_0; lra).
    assert (X : cos de * (cos de * - cos al) + sin de * sin de < 0) by nra.
    assert (O1 : fst (offset c (e, d)) < - (PI / 2)).
    { unfold offset, c. cbn [fst snd]. fold al de. replace (rad 180) with PI by (unfold rad; field). rewrite cos_minus, sin_minus, cos_PI, sin_PI. replace (cos al * -1 + sin al * 0) with (- cos al) by ring. replace (sin al * -1 - cos al * 0) with (- sin al) by ring.
      unfold atan2. destruct (Rlt_dec 0 _) as [P|_]; [lra|]. destruct (Rlt_dec _ 0) as [_|N]; [|lra]. destruct (Rlt_dec (cos de * - sin al) 0) as [_|N]; [|exfalso; apply N; assert (0 < cos de * sin al) by (apply Rmult_lt_0_compat; assumption); lra]. match goal with |- atan ?t - PI < _ => pose proof (atan_bound t) end. lra. }
    assert (O2 : PI / 2 < fst (offset c (360 - e, d))).
    { unfold offset, c. cbn [fst snd]. rewrite L2. fold al de. replace (rad 180) with PI by (unfold rad; field). replace (2 * PI - al - PI) with (PI - al) by ring. rewrite cos_minus, sin_minus, cos_PI, sin_PI. replace (-1 * cos al + 0 * sin al) with (- cos al) by ring. replace (0 * cos al - -1 * sin al) with (sin al) by ring.
      unfold atan2. destruct (Rlt_dec 0 _) as [P|_]; [lra|]. destruct (Rlt_dec _ 0) as [_|N]; [|lra]. destruct (Rlt_dec (cos de * sin al) 0) as [N|_]; [exfalso; assert (0 < cos de * sin al) by (apply Rmult_lt_0_compat; assumption); lra|]. match goal with |- _ < atan ?t + PI => pose proof (atan_bound t) end. lra. }
    set (o := offset c (e, d)) in *. set (u := offset c (360 - e, d)) in *. apply Rlt_le_trans with (fst u - fst o); [lra|]. unfold flat. rewrite <- (sqrt_square (fst u - fst o)) by lra. apply sqrt_le_1_alt. pose proof (pow2_ge_0 (snd o - snd u)). nra.
Qed.
Print Assumptions C76_wrap_refuted.
