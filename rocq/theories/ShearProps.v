(** Property C24. *)
From Verif Require Import Np NpFacts SceneModel SceneSpec LnlikeModel LnlikeFacts StackFacts ShearModel.
From Coq Require Import Reals Lra Psatz.
From Coquelicot Require Import Coquelicot.
Open Scope R_scope.

Lemma hypot_pos x y : x <> 0 \/ y <> 0 -> 0 < hypot x y.
Proof. intros H. unfold hypot. apply sqrt_lt_R0. destruct H; nra. Qed.
Lemma hypot_sq x y : hypot x y * hypot x y = x * x + y * y.
Proof. unfold hypot. apply sqrt_sqrt. nra. Qed.
Lemma cos_atan_scaled y x : 0 < x -> hypot x y * cos (atan (y / x)) = x /\ hypot x y * sin (atan (y / x)) = y.
Proof.
  intros Hx. rewrite cos_atan, sin_atan. 
  assert (E : hypot x y = x * sqrt (1 + (y / x)²)).
  { unfold hypot. rewrite <- (sqrt_square x) at 3 by lra. rewrite <- sqrt_mult by (unfold Rsqr; nra). f_equal. unfold Rsqr. field. lra. }
  assert (0 < sqrt (1 + (y / x)²)) by (apply sqrt_lt_R0; unfold Rsqr; nra). rewrite E. split; field; lra.
Qed.
(** atan2 is the polar angle. *)
Lemma atan2_polar y x : hypot x y * cos (atan2 y x) = x /\ hypot x y * sin (atan2 y x) = y.
Proof.
  assert (N : forall a, hypot (- a) (- y) = hypot a y) by (intros a; unfold hypot; f_equal; ring).
  unfold atan2. destruct (Rlt_dec 0 x) as [H|H]; [now apply cos_atan_scaled|].
  destruct (Rlt_dec x 0) as [H1|H1].
  - destruct (cos_atan_scaled (- y) (- x) ltac:(lra)) as [C S]. rewrite N in C, S. replace (- y / - x) with (y / x) in C, S by (field; lra).
    destruct (Rlt_dec y 0).
    + rewrite cos_minus, sin_minus, cos_PI, sin_PI. split; lra.
    + rewrite cos_plus, sin_plus, cos_PI, sin_PI. split; lra.
  - assert (x = 0) by lra. subst x. destruct (Rlt_dec 0 y) as [H2|H2]; [|destruct (Rlt_dec y 0) as [H3|H3]].
    + rewrite cos_PI2, sin_PI2. unfold hypot. replace (0 * 0 + y * y) with (y * y) by ring. rewrite sqrt_square; lra.
    + rewrite cos_neg, sin_neg, cos_PI2, sin_PI2. unfold hypot. replace (0 * 0 + y * y) with ((- y) * (- y)) by ring. rewrite sqrt_square; lra.
    + assert (y = 0) by lra. subst y. unfold hypot. replace (0 * 0 + 0 * 0) with 0 by ring. rewrite sqrt_0. lra.
Qed.
Lemma atan2_range y x : - PI < atan2 y x <= PI.
Proof.
  pose proof PI_RGT_0. unfold atan2. pose proof (atan_bound (y / x)) as B.
  destruct (Rlt_dec 0 x); [lra|]. destruct (Rlt_dec x 0) as [H1|H1].
  - destruct (Rlt_dec y 0) as [H2|H2].
    + assert (0 < atan (y / x)); [|lra]. rewrite <- atan_0. apply atan_increasing. 
      replace (y / x) with (- y * / (- x)) by (field; lra). apply Rmult_lt_0_compat; [lra|]. apply Rinv_0_lt_compat. lra.
    + assert (atan (y / x) <= 0); [|lra]. rewrite <- atan_0. 
      assert (Hle : y / x <= 0). { replace (y / x) with (- (y * / (- x))) by (field; lra). assert (0 < / - x) by (apply Rinv_0_lt_compat; lra). nra. }
      destruct Hle as [Hl|Hl]; [left; now apply atan_increasing|right; now rewrite Hl].
  - destruct (Rlt_dec 0 y); [lra|]. destruct (Rlt_dec y 0); lra.
Qed.
(** Angles with the same cosine and sine in (-pi, pi] are equal. *)
Lemma angle_unique a b : - PI < a <= PI -> - PI < b <= PI -> cos a = cos b -> sin a = sin b -> a = b.
Proof.
  intros Ha Hb Hc Hs. pose proof PI_RGT_0.
  assert (E : cos (a - b) = 1). { rewrite cos_minus, Hc, Hs. pose proof (sin2_cos2 b) as S. unfold Rsqr in S. lra. }
  assert (E2 : sin ((a - b) / 2) = 0).
  { replace (a - b) with (2 * ((a - b) / 2)) in E by field. rewrite cos_2a_sin in E. nra. }
  destruct (sin_eq_0_0 _ E2) as (k & Ek).
  assert (K : k = 0%Z).
  { assert (-1 < IZR k < 1) by nra. destruct H0 as [K1 K2]. apply lt_IZR in K1. apply lt_IZR in K2. lia. }
  subst k. lra.
Qed.

Theorem C24_qphi_roundtrip q phi : 0 < q < 1 -> - (PI / 2) < phi <= PI / 2 ->
  let '(ep, ec) := etas_from_qphi q phi in shear_q ep ec = q /\ shear_pa ep ec = phi.
Proof.
  intros Hq Hphi. unfold etas_from_qphi. set (eta := - ln (q ^ 2)).
  assert (L : ln (q ^ 2) = 2 * ln q). { replace (q ^ 2) with (q * q) by ring. rewrite ln_mult by lra. ring. }
  assert (Hl : ln q < 0) by (rewrite <- ln_1; apply ln_increasing; lra).
  assert (He : 0 < eta) by (unfold eta; lra).
  assert (EH : hypot (eta * cos (phi * 2)) (eta * sin (phi * 2)) = eta).
  { unfold hypot. pose proof (sin2_cos2 (phi * 2)) as S. unfold Rsqr in S.
    replace (_ + _) with (eta * eta) by nra. apply sqrt_square. lra. }
  split.
  - unfold shear_q. rewrite EH. unfold eta. rewrite L. replace (- - (2 * ln q) / 2) with (ln q) by field. apply exp_ln. lra.
  - unfold shear_pa. destruct (atan2_polar (eta * sin (phi * 2)) (eta * cos (phi * 2))) as [C S]. rewrite EH in C, S.
    apply Rmult_eq_reg_l in C; [|lra]. apply Rmult_eq_reg_l in S; [|lra].
    assert (HR : - PI < phi * 2 <= PI) by lra.
    rewrite (angle_unique _ _ (atan2_range _ _) HR C S). field.
Qed.
Print Assumptions C24_qphi_roundtrip.

(** The other way, without exception. *)
Theorem C24_eta_roundtrip ep ec : etas_from_qphi (shear_q ep ec) (shear_pa ep ec) = (ep, ec).
Proof.
  unfold etas_from_qphi, shear_q, shear_pa.
  replace (- ln (exp (- hypot ep ec / 2) ^ 2)) with (hypot ep ec).
  - replace (atan2 ec ep / 2 * 2) with (atan2 ec ep) by field. destruct (atan2_polar ec ep) as [C S]. now rewrite C, S.
  - replace (exp (- hypot ep ec / 2) ^ 2) with (exp (- hypot ep ec / 2) * exp (- hypot ep ec / 2)) by ring.
    rewrite <- exp_plus, ln_exp. field.
Qed.
Print Assumptions C24_eta_roundtrip.

(** The shape itself: the range of the axis ratio, and 1 exactly for a round source. *)
Theorem C24_q_range ep ec : 0 < shear_q ep ec <= 1 /\ (shear_q ep ec = 1 <-> ep = 0 /\ ec = 0) /\ - (PI / 2) < shear_pa ep ec <= PI / 2.
Proof.
  unfold shear_q, shear_pa. assert (0 <= hypot ep ec) by apply sqrt_pos. split; [|split].
  - split; [apply exp_pos|]. rewrite <- exp_0. destruct (Req_dec (hypot ep ec) 0) as [E|E].
    + right. f_equal. rewrite E. field.
    + left. apply exp_increasing. lra.
  - split.
    + intros E. rewrite <- exp_0 in E. apply exp_inv in E. pose proof (hypot_sq ep ec) as Q. assert (hypot ep ec = 0) by lra. rewrite H0 in Q. nra.
    + intros [-> ->]. unfold hypot. replace (0 * 0 + 0 * 0) with 0 by ring. rewrite sqrt_0. replace (- 0 / 2) with 0 by field. apply exp_0.
  - pose proof (atan2_range ec ep). lra.
Qed.
Print Assumptions C24_q_range.

(** ** Derivatives *)
(** The angle around a reference direction [a0], smooth off the half-line opposite to it *)
Definition angle_near (a0 x y : R) : R := a0 + atan ((cos a0 * y - sin a0 * x) / (cos a0 * x + sin a0 * y)).
Lemma angle_near_polar a0 x y : 0 < cos a0 * x + sin a0 * y ->
  hypot x y * cos (angle_near a0 x y) = x /\ hypot x y * sin (angle_near a0 x y) = y.
Proof.
  intros HX. set (X := cos a0 * x + sin a0 * y) in *. set (Y := cos a0 * y - sin a0 * x).
  pose proof (sin2_cos2 a0) as SC. unfold Rsqr in SC.
  assert (EH : hypot X Y = hypot x y). { unfold hypot. f_equal. unfold X, Y.
    transitivity ((sin a0 * sin a0 + cos a0 * cos a0) * (x * x + y * y)); [ring|rewrite SC; ring]. }
  destruct (cos_atan_scaled Y X HX) as [C S]. rewrite EH in C, S.
  unfold angle_near. fold X Y. rewrite cos_plus, sin_plus. split.
  - transitivity (cos a0 * (hypot x y * cos (atan (Y / X))) - sin a0 * (hypot x y * sin (atan (Y / X)))); [ring|]. rewrite C, S. unfold X, Y.
    transitivity (x * (sin a0 * sin a0 + cos a0 * cos a0)); [ring|rewrite SC; ring].
  - transitivity (sin a0 * (hypot x y * cos (atan (Y / X))) + cos a0 * (hypot x y * sin (atan (Y / X)))); [ring|]. rewrite C, S. unfold X, Y.
    transitivity (y * (sin a0 * sin a0 + cos a0 * cos a0)); [ring|rewrite SC; ring].
Qed.
Lemma angle_near_atan2 y0 x0 x y : 0 < cos (atan2 y0 x0) * x + sin (atan2 y0 x0) * y ->
  let A := angle_near (atan2 y0 x0) x y in
  (- PI < A <= PI -> atan2 y x = A) /\ (atan2 y x = A \/ atan2 y x = A - 2 * PI \/ atan2 y x = A + 2 * PI).
Proof.
  intros HX A. destruct (angle_near_polar _ _ _ HX) as [C S]. fold A in C, S. destruct (atan2_polar y x) as [C' S'].
  assert (Hh : 0 < hypot x y). { apply hypot_pos. destruct (Req_dec x 0) as [->|]; auto. destruct (Req_dec y 0) as [->|]; auto. lra. }
  assert (EC : cos (atan2 y x) = cos A) by (apply (Rmult_eq_reg_l (hypot x y)); lra).
  assert (ES : sin (atan2 y x) = sin A) by (apply (Rmult_eq_reg_l (hypot x y)); lra).
  pose proof (atan2_range y x) as R1. pose proof (atan2_range y0 x0) as R0.
  assert (RA : - PI / 2 < A - atan2 y0 x0 < PI / 2). { unfold A, angle_near. pose proof (atan_bound ((cos (atan2 y0 x0) * y - sin (atan2 y0 x0) * x) / (cos (atan2 y0 x0) * x + sin (atan2 y0 x0) * y))). lra. }
  pose proof PI_RGT_0. assert (H1 : - PI < A <= PI -> atan2 y x = A) by (intros; now apply angle_unique).
  split; auto. destruct (Rle_dec A PI) as [Hle|Hgt].
  - destruct (Rlt_dec (- PI) A) as [Hlt|Hn]; [left; auto|]. right; right. apply angle_unique; auto; try lra.
    + rewrite EC. replace (A + 2 * PI) with (A + 2 * INR 1 * PI) by (simpl; ring). now rewrite cos_period.
    + rewrite ES. replace (A + 2 * PI) with (A + 2 * INR 1 * PI) by (simpl; ring). now rewrite sin_period.
  - right; left. apply angle_unique; auto; try lra.
    + rewrite EC. rewrite <- (cos_period (A - 2 * PI) 1). f_equal. simpl. ring.
    + rewrite ES. rewrite <- (sin_period (A - 2 * PI) 1). f_equal. simpl. ring.
Qed.

Section AtPoint.
Context (ep ec : R) (not_round : ep <> 0 \/ ec <> 0).
Let h := hypot ep ec.
Let a0 := atan2 ec ep.
Lemma h_pos : 0 < h. Proof. now apply hypot_pos. Qed.
Lemma cos_a0 : cos a0 = ep / h.
Proof. destruct (atan2_polar ec ep) as [C _]. fold h in C. fold a0 in C. pose proof h_pos. apply (Rmult_eq_reg_l h); [|lra]. rewrite C. field. lra. Qed.
Lemma sin_a0 : sin a0 = ec / h.
Proof. destruct (atan2_polar ec ep) as [_ C]. fold h in C. fold a0 in C. pose proof h_pos. apply (Rmult_eq_reg_l h); [|lra]. rewrite C. field. lra. Qed.
Lemma X_at : cos a0 * ep + sin a0 * ec = h.
Proof. rewrite cos_a0, sin_a0. pose proof (hypot_sq ep ec) as Q. fold h in Q. pose proof h_pos. apply (Rmult_eq_reg_l h); [|lra].
  rewrite Q. field. lra. Qed.
Lemma Y_at : cos a0 * ec - sin a0 * ep = 0.
Proof. rewrite cos_a0, sin_a0. pose proof h_pos. field. lra. Qed.
Lemma angle_at : angle_near a0 ep ec = a0.
Proof. unfold angle_near. rewrite Y_at. unfold Rdiv. rewrite Rmult_0_l, atan_0. ring. Qed.

Lemma angle_d1 : is_derive (fun t => angle_near a0 t ec) ep (- sin a0 / h).
Proof.
  unfold angle_near. pose proof h_pos. pose proof X_at as EX. pose proof Y_at as EY.
  auto_derive; [rewrite X_at; lra|]. rewrite EX. replace (cos a0 * ec + - (sin a0 * ep)) with 0 by lra. field. lra.
Qed.
Lemma angle_d2 : is_derive (fun t => angle_near a0 ep t) ec (cos a0 / h).
Proof.
  unfold angle_near. pose proof h_pos. pose proof X_at as EX. pose proof Y_at as EY.
  auto_derive; [rewrite X_at; lra|]. rewrite EX. replace (cos a0 * ec + - (sin a0 * ep)) with 0 by lra. field. lra.
Qed.
Lemma hypot_d1 : is_derive (fun t => hypot t ec) ep (cos a0).
Proof.
  unfold hypot. pose proof h_pos. pose proof (hypot_sq ep ec) as Q. fold h in Q. rewrite cos_a0.
  auto_derive; [nra|]. change (sqrt (ep * ep + ec * ec)) with h. field. lra.
Qed.
Lemma hypot_d2 : is_derive (fun t => hypot ep t) ec (sin a0).
Proof.
  unfold hypot. pose proof h_pos. pose proof (hypot_sq ep ec) as Q. fold h in Q. rewrite sin_a0.
  auto_derive; [nra|]. change (sqrt (ep * ep + ec * ec)) with h. field. lra.
Qed.
Lemma q_d (f : R -> R) (t l : R) : is_derive f t l -> is_derive (fun t => exp (- f t / 2)) t (- (1 / 2) * exp (- f t / 2) * l).
Proof. intros H. auto_derive; [eexists; exact H|]. replace (Derive (fun x => f x) t) with l by (symmetry; now apply is_derive_unique). unfold Rdiv. field. Qed.
Lemma jac_values : ds_deta ep ec =
  ((- (1 / 2) * shear_q ep ec * cos a0, - sin a0 / h / 2), (- (1 / 2) * shear_q ep ec * sin a0, cos a0 / h / 2)).
Proof.
  pose proof h_pos. assert (HQ : 0 < shear_q ep ec) by apply exp_pos.
  assert (EL : ln (shear_q ep ec ^ 2) = - h).
  { unfold shear_q. replace (exp (- hypot ep ec / 2) ^ 2) with (exp (- hypot ep ec / 2) * exp (- hypot ep ec / 2)) by ring.
    rewrite <- exp_plus, ln_exp. unfold h. field. }
  unfold ds_deta. cbv zeta. rewrite EL. unfold shear_pa. fold a0. replace (2 * (a0 / 2)) with a0 by field.
  f_equal; f_equal; field; lra.
Qed.
End AtPoint.

(** The axis ratio's derivatives, everywhere but for a round source. *)
Theorem C24_q_derivatives ep ec : ep <> 0 \/ ec <> 0 ->
  derivable_pt_lim (fun t => shear_q t ec) ep (fst (fst (ds_deta ep ec))) /\
  derivable_pt_lim (fun t => shear_q ep t) ec (fst (snd (ds_deta ep ec))).
Proof.
  intros H. rewrite (jac_values ep ec H). cbn [fst snd]. split; apply is_derive_Reals.
  - exact (q_d (fun t => hypot t ec) ep _ (hypot_d1 ep ec H)).
  - exact (q_d (fun t => hypot ep t) ec _ (hypot_d2 ep ec H)).
Qed.
Print Assumptions C24_q_derivatives.

Lemma X_loc1 ep ec : ep <> 0 \/ ec <> 0 -> locally ep (fun t => 0 < cos (atan2 ec ep) * t + sin (atan2 ec ep) * ec).
Proof.
  intros H. pose proof (X_at ep ec H). pose proof (h_pos ep ec H).
  assert (C : continuous (fun t => cos (atan2 ec ep) * t + sin (atan2 ec ep) * ec) ep).
  { apply (ex_derive_continuous (fun t => cos (atan2 ec ep) * t + sin (atan2 ec ep) * ec)). auto_derive; auto. }
  apply (C (fun x => 0 < x)). apply (open_gt 0). lra.
Qed.
Lemma X_loc2 ep ec : ep <> 0 \/ ec <> 0 -> locally ec (fun t => 0 < cos (atan2 ec ep) * ep + sin (atan2 ec ep) * t).
Proof.
  intros H. pose proof (X_at ep ec H). pose proof (h_pos ep ec H).
  assert (C : continuous (fun t => cos (atan2 ec ep) * ep + sin (atan2 ec ep) * t) ec).
  { apply (ex_derive_continuous (fun t => cos (atan2 ec ep) * ep + sin (atan2 ec ep) * t)). auto_derive; auto. }
  apply (C (fun x => 0 < x)). apply (open_gt 0). lra.
Qed.

(** The position angle's derivatives, everywhere but on the half-line where the
    angle jumps from pi/2 to -pi/2. *)
Theorem C24_pa_derivatives ep ec : ~ (ec = 0 /\ ep <= 0) ->
  derivable_pt_lim (fun t => shear_pa t ec) ep (snd (fst (ds_deta ep ec))) /\
  derivable_pt_lim (fun t => shear_pa ep t) ec (snd (snd (ds_deta ep ec))).
Proof.
  intros Hcut. assert (H : ep <> 0 \/ ec <> 0) by (destruct (Req_dec ec 0); auto; left; intros ->; apply Hcut; lra).
  rewrite (jac_values ep ec H). cbn [fst snd]. pose proof (h_pos ep ec H) as Hh. pose proof PI_RGT_0.
  assert (Ha : - PI < atan2 ec ep < PI).
  { pose proof (atan2_range ec ep) as [R1 [R2|R2]]; [lra|]. exfalso. destruct (atan2_polar ec ep) as [C S]. rewrite R2 in C, S.
    rewrite cos_PI in C. rewrite sin_PI in S. apply Hcut. lra. }
  assert (Op : open (fun a => - PI < a < PI)) by (apply open_and; [apply open_gt|apply open_lt]).
  split; apply is_derive_Reals.
  - apply is_derive_ext_loc with (f := fun t => angle_near (atan2 ec ep) t ec / 2).
    + pose proof (ex_derive_continuous _ _ (ex_intro _ _ (angle_d1 ep ec H))) as Ct.
      assert (L : locally ep (fun t => - PI < angle_near (atan2 ec ep) t ec < PI)).
      { apply (Ct (fun a => - PI < a < PI)). apply Op. rewrite angle_at by auto. exact Ha. }
      apply (filter_imp (fun t => (- PI < angle_near (atan2 ec ep) t ec < PI) /\ 0 < cos (atan2 ec ep) * t + sin (atan2 ec ep) * ec)).
      * intros t [L1 L2]. unfold shear_pa. f_equal. symmetry. apply (angle_near_atan2 ec ep t ec L2). lra.
      * apply filter_and; auto. now apply X_loc1.
    + pose proof (is_derive_scal _ _ (/ 2) _ (angle_d1 ep ec H)) as D. eapply is_derive_ext; [|eapply filterdiff_ext_lin; [exact D|]].
      * intros t. simpl. unfold Rdiv. ring.
      * intros t. simpl. unfold scal; simpl; unfold mult; simpl. unfold Rdiv. ring.
  - apply is_derive_ext_loc with (f := fun t => angle_near (atan2 ec ep) ep t / 2).
    + pose proof (ex_derive_continuous _ _ (ex_intro _ _ (angle_d2 ep ec H))) as Ct.
      assert (L : locally ec (fun t => - PI < angle_near (atan2 ec ep) ep t < PI)).
      { apply (Ct (fun a => - PI < a < PI)). apply Op. rewrite angle_at by auto. exact Ha. }
      apply (filter_imp (fun t => (- PI < angle_near (atan2 ec ep) ep t < PI) /\ 0 < cos (atan2 ec ep) * ep + sin (atan2 ec ep) * t)).
      * intros t [L1 L2]. unfold shear_pa. f_equal. symmetry. apply (angle_near_atan2 ec ep ep t L2). lra.
      * apply filter_and; auto. now apply X_loc2.
    + pose proof (is_derive_scal _ _ (/ 2) _ (angle_d2 ep ec H)) as D. eapply is_derive_ext; [|eapply filterdiff_ext_lin; [exact D|]].
      * intros t. simpl. unfold Rdiv. ring.
      * intros t. simpl. unfold scal; simpl; unfold mult; simpl. unfold Rdiv. ring.
Qed.
Print Assumptions C24_pa_derivatives.

(** The conversion done while rendering: any image value that depends on the axis
    ratio and on the angle modulo pi gets its true gradient, on the half-line too. *)
Theorem C24_gradient_conversion (F : R -> R -> R) (Fq Fpa : R) ep ec : ep <> 0 \/ ec <> 0 ->
  (forall q pa, F q (pa + PI) = F q pa) ->
  differentiable_pt_lim F (shear_q ep ec) (shear_pa ep ec) Fq Fpa ->
  derivable_pt_lim (fun t => F (shear_q t ec) (shear_pa t ec)) ep (fst (shear_rows ep ec Fq Fpa)) /\
  derivable_pt_lim (fun t => F (shear_q ep t) (shear_pa ep t)) ec (snd (shear_rows ep ec Fq Fpa)).
Proof.
  intros H Hper HF. pose proof (h_pos ep ec H) as Hh.
  assert (Per : forall q a b, a = b \/ a = b - 2 * PI \/ a = b + 2 * PI -> F q (b / 2) = F q (a / 2)).
  { intros q a b [->|[->| ->]]; auto.
    - rewrite <- (Hper q ((b - 2 * PI) / 2)). f_equal. field.
    - rewrite <- (Hper q (b / 2)). f_equal. field. }
  assert (E0 : shear_pa ep ec = angle_near (atan2 ec ep) ep ec / 2) by (unfold shear_pa; now rewrite angle_at).
  unfold shear_rows. rewrite (jac_values ep ec H). cbn [fst snd].
  rewrite E0 in HF. split; apply is_derive_Reals.
  - apply is_derive_ext_loc with (f := fun t => F (shear_q t ec) (angle_near (atan2 ec ep) t ec / 2)).
    + apply (filter_imp (fun t => 0 < cos (atan2 ec ep) * t + sin (atan2 ec ep) * ec)); [|now apply X_loc1].
      intros t L2. unfold shear_pa. apply Per. apply (angle_near_atan2 ec ep t ec L2).
    + apply is_derive_Reals.
      pose proof (derivable_pt_lim_comp_2d F (fun t => shear_q t ec) (fun t => angle_near (atan2 ec ep) t ec / 2) ep _ _ (- (1 / 2) * shear_q ep ec * cos (atan2 ec ep)) (- sin (atan2 ec ep) / hypot ep ec / 2) HF) as D.
      assert (D1 : derivable_pt_lim (fun t => shear_q t ec) ep (- (1 / 2) * shear_q ep ec * cos (atan2 ec ep))).
      { apply is_derive_Reals. exact (q_d (fun t => hypot t ec) ep _ (hypot_d1 ep ec H)). }
      assert (D2 : derivable_pt_lim (fun t => angle_near (atan2 ec ep) t ec / 2) ep (- sin (atan2 ec ep) / hypot ep ec / 2)).
      { apply is_derive_Reals. pose proof (is_derive_scal _ _ (/ 2) _ (angle_d1 ep ec H)) as DD. eapply is_derive_ext; [|eapply filterdiff_ext_lin; [exact DD|]].
        - intros t. simpl. unfold Rdiv. ring.
        - intros t. simpl. unfold scal; simpl; unfold mult; simpl. unfold Rdiv. ring. }
      specialize (D D1 D2). rewrite (Rmult_comm _ Fq), (Rmult_comm _ Fpa). exact D.
  - apply is_derive_ext_loc with (f := fun t => F (shear_q ep t) (angle_near (atan2 ec ep) ep t / 2)).
    + apply (filter_imp (fun t => 0 < cos (atan2 ec ep) * ep + sin (atan2 ec ep) * t)); [|now apply X_loc2].
      intros t L2. unfold shear_pa. apply Per. apply (angle_near_atan2 ec ep ep t L2).
    + apply is_derive_Reals.
      pose proof (derivable_pt_lim_comp_2d F (fun t => shear_q ep t) (fun t => angle_near (atan2 ec ep) ep t / 2) ec _ _ (- (1 / 2) * shear_q ep ec * sin (atan2 ec ep)) (cos (atan2 ec ep) / hypot ep ec / 2) HF) as D.
      assert (D1 : derivable_pt_lim (fun t => shear_q ep t) ec (- (1 / 2) * shear_q ep ec * sin (atan2 ec ep))).
      { apply is_derive_Reals. exact (q_d (fun t => hypot ep t) ec _ (hypot_d2 ep ec H)). }
      assert (D2 : derivable_pt_lim (fun t => angle_near (atan2 ec ep) ep t / 2) ec (cos (atan2 ec ep) / hypot ep ec / 2)).
      { apply is_derive_Reals. pose proof (is_derive_scal _ _ (/ 2) _ (angle_d2 ep ec H)) as DD. eapply is_derive_ext; [|eapply filterdiff_ext_lin; [exact DD|]].
        - intros t. simpl. unfold Rdiv. ring.
        - intros t. simpl. unfold scal; simpl; unfold mult; simpl. unfold Rdiv. ring. }
      specialize (D D1 D2). rewrite (Rmult_comm _ Fq), (Rmult_comm _ Fpa). exact D.
Qed.
Print Assumptions C24_gradient_conversion.

Example C24_case : let '(ep, ec) := etas_from_qphi (1 / 2) (- (PI / 4)) in shear_q ep ec = 1 / 2 /\ shear_pa ep ec = - (PI / 4) /\ ec < 0.
Proof.
  pose proof PI_RGT_0. pose proof (C24_qphi_roundtrip (1 / 2) (- (PI / 4)) ltac:(lra) ltac:(lra)) as H1.
  unfold etas_from_qphi in *. destruct H1 as [H1 H2]. split; [exact H1|split; [exact H2|]].
  replace (- (PI / 4) * 2) with (- (PI / 2)) by field. rewrite sin_neg, sin_PI2.
  assert (ln ((1 / 2) ^ 2) < 0). { rewrite <- ln_1. apply ln_increasing; lra. } lra.
Qed.
Lemma proj2_0 (f : R -> R) x y l : derivable_pt_lim f y l -> differentiable_pt_lim (fun _ v => f v) x y 0 l.
Proof.
  intros H eps. destruct (differentiable_pt_lim_proj1_0 f y x l H eps) as (d & Hd). exists d. intros u v Hu Hv.
  rewrite Rmax_comm. specialize (Hd v u Hv Hu). simpl in Hd.
  replace (f v - f y - (0 * (u - x) + l * (v - y))) with (f v - f y - (l * (v - y) + 0 * (u - x))) by ring. exact Hd.
Qed.
(** An image value that depends on the angle, on the half-line: derivative 1. *)
Example C24_conversion_case :
  derivable_pt_lim (fun t => sin (2 * shear_pa (- 1) t)) 0 (snd (shear_rows (- 1) 0 0 (- 2))) /\ snd (shear_rows (- 1) 0 0 (- 2)) = 1.
Proof.
  assert (Epa : shear_pa (- 1) 0 = PI / 2).
  { unfold shear_pa, atan2. destruct (Rlt_dec 0 (-1)); [lra|]. destruct (Rlt_dec (-1) 0); [|lra]. destruct (Rlt_dec 0 0); [lra|].
    unfold Rdiv. rewrite Rmult_0_l, atan_0. field. }
  split.
  - apply (C24_gradient_conversion (fun _ pa => sin (2 * pa))).
    + left; lra.
    + intros q pa. replace (2 * (pa + PI)) with (2 * pa + 2 * INR 1 * PI) by (simpl; ring). apply sin_period.
    + apply (proj2_0 (fun pa => sin (2 * pa))). rewrite Epa. apply is_derive_Reals.
      auto_derive; auto. replace (2 * (PI / 2)) with PI by field. rewrite cos_PI. ring.
  - unfold shear_rows. rewrite (jac_values (-1) 0) by (left; lra). cbn [snd].
    rewrite (cos_a0 (-1) 0) by (left; lra). unfold hypot. replace (-1 * -1 + 0 * 0) with 1 by ring. rewrite sqrt_1. field.
Qed.

(** The angle itself has no derivative on the half-line. *)
Theorem C24_pa_on_cut_refuted : ~ exists l, derivable_pt_lim (fun t => shear_pa (- 1) t) 0 l.
Proof.
  intros (l & D). apply is_derive_Reals in D. pose proof PI_RGT_0.
  assert (C : continuity_pt (fun t => shear_pa (- 1) t) 0). { apply continuity_pt_filterlim. apply (ex_derive_continuous (fun t => shear_pa (- 1) t)). now exists l. }
  destruct (C (PI / 2) ltac:(lra)) as (d & Hd & HC). 
  specialize (HC (- (d / 2))). assert (Habs : Rabs (- (d / 2)) < d) by (rewrite Rabs_Ropp, Rabs_right; lra).
  simpl in HC. unfold R_dist in HC. rewrite Rminus_0_r in HC. specialize (HC ltac:(split; [split; [exact I|lra]|exact Habs])).
  unfold shear_pa, atan2 in HC. destruct (Rlt_dec 0 (-1)); [lra|]. destruct (Rlt_dec (-1) 0); [|lra].
  destruct (Rlt_dec (- (d / 2)) 0); [|lra]. destruct (Rlt_dec 0 0); [lra|].
  replace (0 / -1) with 0 in HC by field. rewrite atan_0 in HC.
  pose proof (atan_bound (- (d / 2) / -1)). rewrite Rabs_left in HC by lra. lra.
Qed.
Print Assumptions C24_pa_on_cut_refuted.

(** ** The fast likelihood and shear sources *)
Definition shear_source : source R := mkSource Shear (cons "b"%string nil) (1 :: nil) 0 0 0 0 1 1 1 0 false.
(** The kernel differentiates for axis ratio and angle; the assembled gradient is
    used for the shear components without conversion. *)
Theorem C24_fast_gradient_refuted : exists amps sc theta chi2 ps K,
  List.Forall (fun s : source R => s_kind s = Shear) sc /\
  proposal_of amps shear_q shear_pa sc theta = Some ps /\
  response_shape 1 (List.length sc) K /\
  (forall b s p, (b < 1)%nat -> (s < List.length sc)%nat -> (p < 7)%nat ->
     derivable_pt_lim (fun t => chi2 b (upd s (upd p t (nth s (map (kernel_row b) ps) [])) (map (kernel_row b) ps)))
       (nth p (nth s (map (kernel_row b) ps) []) 0%R) (nth p (nth s (nth b K []) []) 0%R)) /\
  exists k f, (k < List.length theta)%nat /\
    (forall t, lnlike amps shear_q shear_pa chi2 1 sc (upd k t theta) = Some (f t)) /\
    ~ derivable_pt_lim f (nth k theta 0%R) (nth k (lnlike_grad (List.length sc) 1 K) 0%R).
Proof.
  exists (fun _ _ => nil), (shear_source :: nil), [1; 0; 0; 1; 0; 1; 1], (fun _ rows => nth 3 (nth 0 rows []) 0).
  eexists. exists (([0; 0; 0; 1; 0; 0; 0] :: nil) :: nil).
  split; [constructor; [reflexivity|constructor]|].
  split; [reflexivity|]. split; [|split].
  - split; [reflexivity|]. repeat constructor.
  - intros b s p Hb Hs Hp. assert (b = 0%nat) by lia. assert (s = 0%nat) by (simpl in Hs; lia). subst.
    apply is_derive_Reals. do 7 (destruct p as [|p]; [simpl; auto_derive; auto|]). lia.
  - exists 3%nat, (fun t => - 1 / 2 * (0 + shear_q t 0)). split; [simpl; lia|]. split; [reflexivity|].
    intros D. destruct (C24_q_derivatives 1 0 ltac:(left; lra)) as [Dq _]. apply is_derive_Reals in Dq. apply is_derive_Reals in D.
    change (nth 3 [1; 0; 0; 1; 0; 1; 1] 0) with 1 in D.
    assert (D2 : is_derive (fun t => - 1 / 2 * (0 + shear_q t 0)) 1 (- 1 / 2 * fst (fst (ds_deta 1 0)))).
    { pose proof (is_derive_scal _ _ (- 1 / 2) _ Dq) as DD. eapply is_derive_ext; [|exact DD]. intros t. simpl. ring. }
    apply is_derive_unique in D. apply is_derive_unique in D2. assert (E := eq_trans (eq_sym D) D2). clear D D2. rename E into D2.
    rewrite (jac_values 1 0) in D2 by (left; lra). cbn [fst] in D2. simpl in D2.
    assert (C : cos (atan2 0 1) = 1). { rewrite (cos_a0 1 0) by (left; lra). unfold hypot. replace (1 * 1 + 0 * 0) with 1 by ring. rewrite sqrt_1. field. }
    rewrite C in D2. assert (0 < shear_q 1 0) by apply exp_pos. lra.
Qed.
Print Assumptions C24_fast_gradient_refuted.
