(** Calculus of one image Gaussian, for KernelModel. *)
From Verif Require Import Np NpFacts KernelModel.
From Coq Require Import Reals Lra.
From Coquelicot Require Import Coquelicot.
Open Scope R_scope.

Ltac side := repeat match goal with
  | |- _ /\ _ => split
  | |- True => exact I
  | |- ex_derive _ _ => eexists; eassumption
  | _ => assumption
  end.

Lemma Derive_eta (f : R -> R) (x l : R) : is_derive f x l -> Derive (fun u => f u) x = l.
Proof. exact (is_derive_unique f x l). Qed.

(** ** The counts of one Gaussian at one pixel, no cutoff *)
Definition quad (xp yp x y p q r : R) : R :=
  (xp - x) * (p * (xp - x) + r * (yp - y)) + (yp - y) * (q * (yp - y) + r * (xp - x)).
Definition count (xp yp a x y p q r : R) : R :=
  a * exp (- (1/2) * quad xp yp x y p q r)
    * (1 + ((p * (xp - x) + r * (yp - y)) * (p * (xp - x) + r * (yp - y))
            + (q * (yp - y) + r * (xp - x)) * (q * (yp - y) + r * (xp - x)) - p - q) / 24).
Definition exparg (xp yp : R) (g : ImageGaussian) : R := quad xp yp (xcen g) (ycen g) (fxx g) (fyy g) (fxy g).

Lemma residual_term_in xp yp g : exparg xp yp g <= MAX_EXP_ARG ->
  residual_term xp yp g = count xp yp (amp g) (xcen g) (ycen g) (fxx g) (fyy g) (fxy g).
Proof.
  intros H. unfold residual_term. cbv zeta. fold (quad xp yp (xcen g) (ycen g) (fxx g) (fyy g) (fxy g)). fold (exparg xp yp g).
  destruct (Rlt_dec MAX_EXP_ARG (exparg xp yp g)); [lra|]. reflexivity.
Qed.
Lemma residual_term_out xp yp g : MAX_EXP_ARG < exparg xp yp g -> residual_term xp yp g = 0.
Proof.
  intros H. unfold residual_term. cbv zeta. fold (quad xp yp (xcen g) (ycen g) (fxx g) (fyy g) (fxy g)). fold (exparg xp yp g).
  destruct (Rlt_dec MAX_EXP_ARG (exparg xp yp g)); [reflexivity|contradiction].
Qed.

(** The six derivative factors for residual_ierr2 = -1/2 (then -2*residual_ierr2 = 1). *)
Definition six := (R * R * R * R * R * R)%type.
Definition dot6 (d e : six) : R :=
  match d, e with (d1, d2, d3, d4, d5, d6), (e1, e2, e3, e4, e5, e6) =>
    d1 * e1 + d2 * e2 + d3 * e3 + d4 * e4 + d5 * e5 + d6 * e6 end.

Lemma pixel_derivs_in xp yp r g : exparg xp yp g <= MAX_EXP_ARG ->
  pixel_derivs xp yp r g =
  (let dx := xp - xcen g in let dy := yp - ycen g in
   let vx := fxx g * dx + fxy g * dy in let vy := fyy g * dy + fxy g * dx in
   let Gp := exp (- (1/2) * exparg xp yp g) in
   let H := 1 + (vx * vx + vy * vy - fxx g - fyy g) * (1 / 24) in
   let k := - 2 * r * Gp in
   (k * H,
    k * amp g * H * vx - k * amp g * (fxx g * vx + fxy g * vy) * (1 / 12),
    k * amp g * H * vy - k * amp g * (fyy g * vy + fxy g * vx) * (1 / 12),
    - (1/2) * (k * amp g * H) * dx * dx - k * amp g * (1 - 2 * dx * vx) * (1 / 24),
    - (1/2) * (k * amp g * H) * dy * dy - k * amp g * (1 - 2 * dy * vy) * (1 / 24),
    - 1 * (k * amp g * H) * dx * dy + k * amp g * (dy * vx + dx * vy) * (1 / 12))).
Proof.
  intros H. unfold pixel_derivs. cbv zeta. fold (quad xp yp (xcen g) (ycen g) (fxx g) (fyy g) (fxy g)). fold (exparg xp yp g).
  destruct (Rlt_dec MAX_EXP_ARG (exparg xp yp g)); [lra|]. reflexivity.
Qed.
Lemma pixel_derivs_out xp yp r g : MAX_EXP_ARG < exparg xp yp g -> pixel_derivs xp yp r g = (0, 0, 0, 0, 0, 0).
Proof.
  intros H. unfold pixel_derivs. cbv zeta. fold (quad xp yp (xcen g) (ycen g) (fxx g) (fyy g) (fxy g)). fold (exparg xp yp g).
  destruct (Rlt_dec MAX_EXP_ARG (exparg xp yp g)); [reflexivity|contradiction].
Qed.

(** A curve of Gaussians and its tangent. *)
Definition tangent (G : R -> ImageGaussian) (t0 : R) (e : six) : Prop :=
  match e with (e1, e2, e3, e4, e5, e6) =>
    is_derive (fun t => amp (G t)) t0 e1 /\ is_derive (fun t => xcen (G t)) t0 e2 /\ is_derive (fun t => ycen (G t)) t0 e3 /\
    is_derive (fun t => fxx (G t)) t0 e4 /\ is_derive (fun t => fyy (G t)) t0 e5 /\ is_derive (fun t => fxy (G t)) t0 e6 end.

Lemma count_derive_raw xp yp (a x y p q r : R -> R) (t0 e1 e2 e3 e4 e5 e6 : R) :
  is_derive a t0 e1 -> is_derive x t0 e2 -> is_derive y t0 e3 -> is_derive p t0 e4 -> is_derive q t0 e5 -> is_derive r t0 e6 ->
  let dx := xp - x t0 in let dy := yp - y t0 in
  let vx := p t0 * dx + r t0 * dy in let vy := q t0 * dy + r t0 * dx in
  let Gp := exp (- (1/2) * quad xp yp (x t0) (y t0) (p t0) (q t0) (r t0)) in
  let H := 1 + (vx * vx + vy * vy - p t0 - q t0) * (1 / 24) in
  is_derive (fun t => count xp yp (a t) (x t) (y t) (p t) (q t) (r t)) t0
   (Gp * H * e1 +
    (Gp * a t0 * H * vx - Gp * a t0 * (p t0 * vx + r t0 * vy) * (1 / 12)) * e2 +
    (Gp * a t0 * H * vy - Gp * a t0 * (q t0 * vy + r t0 * vx) * (1 / 12)) * e3 +
    (- (1/2) * (Gp * a t0 * H) * dx * dx - Gp * a t0 * (1 - 2 * dx * vx) * (1 / 24)) * e4 +
    (- (1/2) * (Gp * a t0 * H) * dy * dy - Gp * a t0 * (1 - 2 * dy * vy) * (1 / 24)) * e5 +
    (- 1 * (Gp * a t0 * H) * dx * dy + Gp * a t0 * (dy * vx + dx * vy) * (1 / 12)) * e6).
Proof.
  intros H1 H2 H3 H4 H5 H6. cbv zeta. unfold count, quad. auto_derive; [side|].
  rewrite (Derive_eta _ _ _ H1), (Derive_eta _ _ _ H2), (Derive_eta _ _ _ H3), (Derive_eta _ _ _ H4), (Derive_eta _ _ _ H5), (Derive_eta _ _ _ H6).
  unfold Rminus. field.
Qed.

Lemma count_derive xp yp (G : R -> ImageGaussian) t0 e : tangent G t0 e ->
  exparg xp yp (G t0) <= MAX_EXP_ARG ->
  is_derive (fun t => count xp yp (amp (G t)) (xcen (G t)) (ycen (G t)) (fxx (G t)) (fyy (G t)) (fxy (G t))) t0
            (dot6 (pixel_derivs xp yp (- (1/2)) (G t0)) e).
Proof.
  destruct e as [[[[[e1 e2] e3] e4] e5] e6]. intros (H1 & H2 & H3 & H4 & H5 & H6) Hin.
  rewrite (pixel_derivs_in _ _ _ _ Hin). cbv zeta. unfold dot6, exparg.
  pose proof (count_derive_raw xp yp _ _ _ _ _ _ t0 _ _ _ _ _ _ H1 H2 H3 H4 H5 H6) as K. cbv zeta in K.
  replace (-2 * - (1/2)) with 1 by lra. rewrite !Rmult_1_l. exact K.
Qed.

Lemma quad_derive_raw xp yp (x y p q r : R -> R) (t0 : R) :
  ex_derive x t0 -> ex_derive y t0 -> ex_derive p t0 -> ex_derive q t0 -> ex_derive r t0 ->
  ex_derive (fun t => quad xp yp (x t) (y t) (p t) (q t) (r t)) t0.
Proof. intros. unfold quad. auto_derive. repeat split; auto. Qed.
Lemma exparg_continuous xp yp (G : R -> ImageGaussian) t0 e : tangent G t0 e -> continuous (fun t => exparg xp yp (G t)) t0.
Proof.
  destruct e as [[[[[e1 e2] e3] e4] e5] e6]. intros (H1 & H2 & H3 & H4 & H5 & H6).
  apply (ex_derive_continuous (fun t => exparg xp yp (G t))).
  apply (quad_derive_raw xp yp (fun t => xcen (G t)) (fun t => ycen (G t)) (fun t => fxx (G t)) (fun t => fyy (G t)) (fun t => fxy (G t)));
    eexists; eassumption.
Qed.

Lemma locally_gt (f : R -> R) (t0 c : R) : continuous f t0 -> c < f t0 -> locally t0 (fun t => c < f t).
Proof.
  intros Hc H. apply (Hc (fun v => c < v)). exists (mkposreal (f t0 - c) ltac:(lra)). intros v Hv.
  unfold ball in Hv; simpl in Hv. unfold AbsRing_ball, abs, minus, plus, opp in Hv; simpl in Hv.
  apply Rabs_def2 in Hv. lra.
Qed.
Lemma locally_lt (f : R -> R) (t0 c : R) : continuous f t0 -> f t0 < c -> locally t0 (fun t => f t < c).
Proof.
  intros Hc H. apply (Hc (fun v => v < c)). exists (mkposreal (c - f t0) ltac:(lra)). intros v Hv.
  unfold ball in Hv; simpl in Hv. unfold AbsRing_ball, abs, minus, plus, opp in Hv; simpl in Hv.
  apply Rabs_def2 in Hv. lra.
Qed.

(** The rendered counts, cutoff included, along a curve of Gaussians. *)
Lemma residual_term_derive xp yp (G : R -> ImageGaussian) t0 e : tangent G t0 e ->
  exparg xp yp (G t0) <> MAX_EXP_ARG ->
  is_derive (fun t => residual_term xp yp (G t)) t0 (dot6 (pixel_derivs xp yp (- (1/2)) (G t0)) e).
Proof.
  intros HT Hne. pose proof (exparg_continuous xp yp G t0 e HT) as Hc.
  destruct (Rlt_le_dec MAX_EXP_ARG (exparg xp yp (G t0))) as [Hout|Hin].
  - rewrite pixel_derivs_out by auto.
    replace (dot6 (0, 0, 0, 0, 0, 0) e) with 0 by (destruct e as [[[[[? ?] ?] ?] ?] ?]; simpl; ring).
    apply is_derive_ext_loc with (f := fun _ => 0).
    + apply filter_imp with (2 := locally_gt _ _ _ Hc Hout). intros t Ht. now rewrite residual_term_out.
    + apply @is_derive_const.
  - assert (Hlt : exparg xp yp (G t0) < MAX_EXP_ARG) by lra.
    eapply is_derive_ext_loc; [|apply (count_derive xp yp G t0 e HT Hin)].
    apply filter_imp with (2 := locally_lt _ _ _ Hc Hlt). intros t Ht. simpl in Ht. rewrite residual_term_in by lra. reflexivity.
Qed.

(** pixel_derivs is linear in residual_ierr2. *)
Definition scale6 (k : R) (d : six) : six :=
  match d with (d1, d2, d3, d4, d5, d6) => (k * d1, k * d2, k * d3, k * d4, k * d5, k * d6) end.
Lemma six_eq (a1 a2 a3 a4 a5 a6 b1 b2 b3 b4 b5 b6 : R) :
  a1 = b1 -> a2 = b2 -> a3 = b3 -> a4 = b4 -> a5 = b5 -> a6 = b6 -> (a1, a2, a3, a4, a5, a6) = (b1, b2, b3, b4, b5, b6).
Proof. now intros -> -> -> -> -> ->. Qed.
Lemma pixel_derivs_scale xp yp r g : pixel_derivs xp yp r g = scale6 (- 2 * r) (pixel_derivs xp yp (- (1/2)) g).
Proof.
  destruct (Rlt_le_dec MAX_EXP_ARG (exparg xp yp g)) as [Hout|Hin].
  - rewrite !pixel_derivs_out by auto. simpl. now rewrite !Rmult_0_r.
  - rewrite !pixel_derivs_in by auto. cbv zeta. unfold scale6. apply six_eq; field.
Qed.

(** ** The Jacobian rows *)
Definition jac (g : ImageGaussian) (p : nat) : six :=
  match p with
  | 0%nat => (dA_dFlux g, 0, 0, 0, 0, 0)
  | 1%nat => (0, dx_dAlpha g, dy_dAlpha g, 0, 0, 0)
  | 2%nat => (0, dx_dDelta g, dy_dDelta g, 0, 0, 0)
  | 3%nat => (dA_dQ g, 0, 0, dFxx_dQ g, dFyy_dQ g, dFxy_dQ g)
  | 4%nat => (dA_dPA g, 0, 0, dFxx_dPA g, dFyy_dPA g, dFxy_dPA g)
  | 5%nat => (dA_dSersic g, 0, 0, 0, 0, 0)
  | _ => (dA_drh g, 0, 0, 0, 0, 0)
  end.
Lemma derivative_row_length xp yp r g : List.length (derivative_row xp yp r g) = 7%nat.
Proof. unfold derivative_row. destruct (pixel_derivs xp yp r g) as [[[[[? ?] ?] ?] ?] ?]. reflexivity. Qed.
Lemma derivative_row_nth xp yp r g p : (p < 7)%nat ->
  nth p (derivative_row xp yp r g) 0 = -2 * r * dot6 (pixel_derivs xp yp (- (1/2)) g) (jac g p).
Proof.
  intros Hp. unfold derivative_row. rewrite (pixel_derivs_scale xp yp r g).
  destruct (pixel_derivs xp yp (- (1/2)) g) as [[[[[d1 d2] d3] d4] d5] d6]. unfold scale6.
  do 7 (destruct p as [|p]; [cbn [nth jac dot6]; ring|]). lia.
Qed.

(** ** Inverse covariance and its root determinant along a curve of covariances *)
Lemma covariance_derive (a b d : R -> R) (t0 a' b' d' : R) :
  is_derive a t0 a' -> is_derive b t0 b' -> is_derive d t0 d' ->
  let S t := M22 (a t) (b t) (b t) (d t) in
  0 < m_det (S t0) ->
  let dS := M22 a' b' b' d' in
  let f := m_inv (S t0) in
  let dF := m_smul (- 1) (m_ABA f dS) in
  is_derive (fun t => v11 (m_inv (S t))) t0 (v11 dF) /\
  is_derive (fun t => v22 (m_inv (S t))) t0 (v22 dF) /\
  is_derive (fun t => v21 (m_inv (S t))) t0 (v21 dF) /\
  is_derive (fun t => sqrt (m_det (m_inv (S t)))) t0 (1/2 * sqrt (m_det f) * m_trace (m_mul (S t0) dF)).
Proof.
  intros Ha Hb Hd S HD dS f dF.
  assert (HD' : a t0 * d t0 - b t0 * b t0 <> 0) by (unfold m_det, S in HD; simpl in HD; lra).
  assert (HdF : 0 < m_det f).
  { unfold f, m_inv, S in *; unfold m_det in *; simpl in *.
    replace (_ - _) with (/ (a t0 * d t0 - b t0 * b t0)) by (field; lra). now apply Rinv_0_lt_compat. }
  subst S dS f dF. unfold m_inv, m_smul, m_ABA, m_trace, m_mul in *. unfold m_det in *. cbn [v11 v12 v21 v22] in *.
  assert (E : forall (f : R -> R) (l : R), is_derive f t0 l -> Derive (fun u => f u) t0 = l) by (intros; now apply Derive_eta).
  refine (conj _ (conj _ (conj _ _))).
  - auto_derive; [side|]. rewrite (E _ _ Ha), (E _ _ Hb), (E _ _ Hd). field. auto.
  - auto_derive; [side|]. rewrite (E _ _ Ha), (E _ _ Hb), (E _ _ Hd). field. auto.
  - auto_derive; [side|]. rewrite (E _ _ Ha), (E _ _ Hb), (E _ _ Hd). field. auto.
  - set (W := fun t => d t * (1 / (a t * d t - b t * b t)) * (a t * (1 / (a t * d t - b t * b t))) -
         - b t * (1 / (a t * d t - b t * b t)) * (- b t * (1 / (a t * d t - b t * b t)))).
    match goal with |- is_derive _ _ (1/2 * sqrt ?u * ?tr) => set (w := u) in *; set (tau := tr) end.
    assert (HW : is_derive W t0 (w * tau)).
    { unfold W, w, tau. auto_derive; [side|].
      rewrite (E _ _ Ha), (E _ _ Hb), (E _ _ Hd). field. auto. }
    change (is_derive (fun t => sqrt (W t)) t0 (1 / 2 * sqrt w * tau)).
    assert (Hw : W t0 = w) by reflexivity. clearbody W w tau. auto_derive.
    + rewrite ?Hw; side.
    + rewrite (E _ _ HW), Hw. rewrite <- (sqrt_sqrt w) at 1 by lra. field. intros Hs. apply sqrt_eq_0 in Hs; lra.
Qed.
