(** The integral of a Gaussian over the line, for C78. *)
From Coq Require Import Reals Lra Lia Psatz.
From Coquelicot Require Import Coquelicot.
Open Scope R_scope.

Definition bell (s : R) : R := exp (- s ^ 2 / 2).
Definition area (t : R) : R := RInt bell 0 t.
Lemma bell_derive (s : R) : is_derive bell s (- s * bell s).
Proof.
  unfold bell. evar_last.
  - apply (is_derive_comp exp (fun s => - s ^ 2 / 2) s); [apply is_derive_exp|]. auto_derive; [auto|reflexivity].
  - cbv [scal ModuleSpace.scal]. cbn. field.
Qed.
Lemma bell_continuous s : continuous bell s.
Proof. apply (ex_derive_continuous bell). eexists. apply bell_derive. Qed.
Lemma bell_ex a b : ex_RInt bell a b.
Proof. apply (ex_RInt_continuous (V := R_CompleteNormedModule)). intros s _. apply bell_continuous. Qed.
Lemma area_derive (t : R) : is_derive area t (bell t).
Proof.
  apply (is_derive_RInt bell area 0 t); [|apply bell_continuous]. exists (mkposreal 1 Rlt_0_1). intros y _. apply (RInt_correct (V := R_CompleteNormedModule)), bell_ex.
Qed.
Lemma area_0 : area 0 = 0.
Proof. apply (RInt_point (V := R_CompleteNormedModule)). Qed.
Lemma bell_pos s : 0 < bell s.
Proof. apply exp_pos. Qed.
Lemma area_nonneg t : 0 <= t -> 0 <= area t.
Proof. intros Ht. apply RInt_ge_0; auto using bell_ex. intros x _. left. apply bell_pos. Qed.

(** ** The companion integral *)
Definition slice (t u : R) : R := exp (- t ^ 2 * (1 + u ^ 2) / 2) / (1 + u ^ 2).
Definition rest (t : R) : R := RInt (slice t) 0 1.
Lemma one_sq u : 0 < 1 + u ^ 2.
Proof. pose proof (pow2_ge_0 u). lra. Qed.
Lemma slice_dt (t u : R) : is_derive (fun t => slice t u) t (- t * exp (- t ^ 2 * (1 + u ^ 2) / 2)).
Proof.
  pose proof (one_sq u) as P. unfold slice. evar_last.
  - apply (is_derive_ext (fun t => / (1 + u ^ 2) * exp (- t ^ 2 * (1 + u ^ 2) / 2))); [intros y; apply Rmult_comm|]. apply (is_derive_scal (fun t => exp (- t ^ 2 * (1 + u ^ 2) / 2)) t (/ (1 + u ^ 2))). apply (is_derive_comp exp (fun t => - t ^ 2 * (1 + u ^ 2) / 2) t); [apply is_derive_exp|]. auto_derive; [auto|reflexivity].
  - cbv [scal ModuleSpace.scal]. cbn. cbv [mult]. cbn. cbn in P. field. lra.
Qed.
Lemma slice_ex t : ex_RInt (slice t) 0 1.
Proof.
  apply (ex_RInt_continuous (V := R_CompleteNormedModule)). intros u _. apply (ex_derive_continuous (slice t)). unfold slice. auto_derive. pose proof (one_sq u) as P. cbn in P. lra.
Qed.
Lemma slope_2d t u : continuity_2d_pt (fun t u => - t * exp (- t ^ 2 * (1 + u ^ 2) / 2)) t u.
Proof.
  apply (continuity_2d_pt_mult (fun t _ => - t) (fun t u => exp (- t ^ 2 * (1 + u ^ 2) / 2))).
  - apply (continuity_2d_pt_opp (fun t _ => t)). apply continuity_2d_pt_id1.
  - apply (continuity_1d_2d_pt_comp exp (fun t u => - t ^ 2 * (1 + u ^ 2) / 2)).
    + apply derivable_continuous_pt, derivable_pt_exp.
    + apply (continuity_2d_pt_ext (fun t u => - (1 / 2) * ((t * t) * (1 + u * u)))); [intros; field|].
      apply (continuity_2d_pt_mult (fun _ _ => - (1 / 2)) (fun t u => (t * t) * (1 + u * u))); [apply continuity_2d_pt_const|].
      apply (continuity_2d_pt_mult (fun t _ => t * t) (fun _ u => 1 + u * u)).
      * apply (continuity_2d_pt_mult (fun t _ => t) (fun t _ => t)); apply continuity_2d_pt_id1.
      * apply (continuity_2d_pt_plus (fun _ _ => 1) (fun _ u => u * u)); [apply continuity_2d_pt_const|]. apply (continuity_2d_pt_mult (fun _ u => u) (fun _ u => u)); apply continuity_2d_pt_id2.
Qed.
Lemma rest_derive (t : R) : is_derive rest t (- (bell t * area t)).
Proof.
  unfold rest. evar_last.
  - apply (is_derive_RInt_param slice 0 1 t).
    + exists (mkposreal 1 Rlt_0_1). intros y _ u _. eexists. apply slice_dt.
    + intros u _. apply continuity_2d_pt_ext with (fun t u => - t * exp (- t ^ 2 * (1 + u ^ 2) / 2)); [|apply slope_2d].
      intros x y. symmetry. apply is_derive_unique, slice_dt.
    + exists (mkposreal 1 Rlt_0_1). intros y _. apply slice_ex.
  - assert (E : RInt (fun u => Derive (fun t => slice t u) t) 0 1 = RInt (fun u => - bell t * (t * bell (t * u + 0))) 0 1).
    { apply RInt_ext. intros u _. etransitivity; [apply (is_derive_unique _ _ _ (slice_dt t u))|]. unfold bell.
      replace (- t ^ 2 * (1 + u ^ 2) / 2) with (- t ^ 2 / 2 + - (t * u + 0) ^ 2 / 2) by field. rewrite exp_plus. match goal with |- @eq _ ?a ?b => change (@eq R a b) end. ring. }
    rewrite E. clear E.
    assert (C : RInt (fun u => t * bell (t * u + 0)) 0 1 = area t).
    { pose proof (RInt_comp_lin bell t 0 0 1 (bell_ex _ _)) as K. unfold area. replace (t * 0 + 0) with 0 in K by ring. replace (t * 1 + 0) with t in K by ring. etransitivity; [|exact K]. reflexivity. }
    pose proof (RInt_scal (V := R_CompleteNormedModule) (fun u => t * bell (t * u + 0)) 0 1 (- bell t)) as S1.
    cbv [scal ModuleSpace.scal] in S1. cbn in S1. unfold mult in S1. cbn in S1.
    etransitivity; [apply S1|].
    + apply (ex_RInt_continuous (V := R_CompleteNormedModule)). intros u _. apply (ex_derive_continuous (fun u => t * bell (t * u + 0))). unfold bell. auto_derive. auto.
    + change (- bell t * RInt (fun u => t * bell (t * u + 0)) 0 1 = - (bell t * area t)). rewrite C. ring.
Qed.
Lemma rest_0 : rest 0 = PI / 4.
Proof.
  unfold rest. apply is_RInt_unique. replace (PI / 4) with (minus (atan 1) (atan 0)) by (rewrite atan_1, atan_0; cbv [minus plus opp]; cbn; ring).
  apply (is_RInt_derive (V := R_CompleteNormedModule) atan).
  - intros x _. evar_last; [apply is_derive_Reals, derivable_pt_lim_atan|]. unfold slice, Rsqr. replace (- 0 ^ 2 * (1 + x ^ 2) / 2) with 0 by field. rewrite exp_0. pose proof (one_sq x) as P. cbn in P. cbn. field. lra.
  - intros x _. apply (ex_derive_continuous (slice 0)). unfold slice. auto_derive. pose proof (one_sq x) as P. cbn in P. lra.
Qed.
Lemma constant_of_derive (f : R -> R) : (forall t, is_derive f t 0) -> forall t, f t = f 0.
Proof.
  intros D t. destruct (MVT_gen f 0 t (fun _ => 0)) as (c & _ & E).
  - intros x _. apply D.
  - intros x _. apply derivable_continuous_pt. exists 0. apply is_derive_Reals, D.
  - lra.
Qed.
Lemma area_rest t : area t ^ 2 / 2 + rest t = PI / 4.
Proof.
  rewrite (constant_of_derive (fun t => area t ^ 2 / 2 + rest t)).
  - rewrite area_0, rest_0. field.
  - intros x. evar_last.
    + apply (is_derive_plus (fun t => area t ^ 2 / 2) rest); [|apply rest_derive].
      apply (is_derive_comp (fun a => a ^ 2 / 2) area x); [|apply area_derive]. auto_derive; [auto|reflexivity].
    + cbv [plus scal ModuleSpace.scal]. cbn. field.
Qed.
Lemma area_odd t : area (- t) = - area t.
Proof.
  assert (E : (fun t => area t + area (- t)) t = (fun t => area t + area (- t)) 0).
  { apply (constant_of_derive (fun t => area t + area (- t))). intros x. evar_last.
    - apply (is_derive_plus area (fun t => area (- t))); [apply area_derive|]. apply (is_derive_comp area (fun t => - t) x); [apply area_derive|]. auto_derive; [auto|reflexivity].
    - cbv [plus scal ModuleSpace.scal mult zero]. cbn. unfold mult, bell. cbn. replace (- x * (- x * 1)) with (x * (x * 1)) by ring. ring. }
  cbv beta in E. rewrite Ropp_0, area_0 in E. lra.
Qed.
Lemma rest_bounds t : 0 <= rest t <= bell t.
Proof.
  assert (B : forall u, 0 <= slice t u <= bell t).
  { intros u. pose proof (one_sq u) as P. unfold slice. split; [left; apply Rdiv_lt_0_compat; [apply exp_pos|exact P]|].
    apply Rle_trans with (exp (- t ^ 2 * (1 + u ^ 2) / 2)).
    - apply (Rmult_le_reg_r (1 + u ^ 2)); auto. unfold Rdiv at 1. rewrite Rmult_assoc, Rinv_l, Rmult_1_r by lra. pose proof (exp_pos (- t ^ 2 * (1 + u ^ 2) / 2)). pose proof (pow2_ge_0 u). nra.
    - unfold bell. assert (0 <= t ^ 2 * u ^ 2) by (apply Rmult_le_pos; apply pow2_ge_0). destruct (Req_dec (- t ^ 2 * (1 + u ^ 2) / 2) (- t ^ 2 / 2)) as [E|N]; [rewrite E; lra|]. left. apply exp_increasing. lra. }
  split.
  - apply RInt_ge_0; [lra|apply slice_ex|]. intros u _. apply B.
  - replace (bell t) with (RInt (fun _ => bell t) 0 1) by (rewrite RInt_const; cbv [scal ModuleSpace.scal]; cbn; unfold mult; cbn; ring).
    apply RInt_le; [lra|apply slice_ex|apply (ex_RInt_const (V := R_NormedModule))|]. intros u _. apply B.
Qed.
Definition half_line : R := sqrt (PI / 2).
Lemma half_line_pos : 1 <= half_line.
Proof. unfold half_line. rewrite <- sqrt_1. apply sqrt_le_1_alt. pose proof PI2_3_2. unfold PI2 in *. lra. Qed.
Lemma half_line_sqr : half_line ^ 2 = PI / 2.
Proof. unfold half_line. apply pow2_sqrt. pose proof PI_RGT_0. lra. Qed.
Lemma area_near t : 1 <= t -> Rabs (area t - half_line) <= 4 / t.
Proof.
  intros Ht. pose proof (area_rest t) as E. pose proof (rest_bounds t) as (R0 & R1). pose proof (area_nonneg t ltac:(lra)) as A0. pose proof half_line_pos as H1. pose proof half_line_sqr as H2.
  assert (Bt : bell t <= 2 / t).
  { unfold bell. replace (- t ^ 2 / 2) with (- (t ^ 2 / 2)) by field. rewrite exp_Ropp. pose proof (exp_ineq1_le (t ^ 2 / 2)) as X. pose proof (exp_pos (t ^ 2 / 2)) as Y.
    assert (t / 2 <= exp (t ^ 2 / 2)) by (apply Rle_trans with (1 + t ^ 2 / 2); [nra|exact X]).
    replace (2 / t) with (/ (t / 2)) by (field; lra). apply Rinv_le_contravar; lra. }
  assert (P : (half_line - area t) * (half_line + area t) = 2 * rest t) by (replace ((half_line - area t) * (half_line + area t)) with (half_line ^ 2 - area t ^ 2) by ring; lra).
  assert (D : 0 <= half_line - area t) by (apply Rmult_le_reg_r with (half_line + area t); lra).
  rewrite Rabs_minus_sym, Rabs_pos_eq by exact D. apply Rle_trans with (2 * rest t); [nra|]. unfold Rdiv in *. lra.
Qed.
Lemma area_right : filterlim area (Rbar_locally p_infty) (locally half_line).
Proof.
  intros P (eps & HP). exists (Rmax 1 (4 / eps)). intros t Ht. assert (T1 : 1 < t) by (eapply Rle_lt_trans; [apply Rmax_l|exact Ht]). assert (T2 : 4 / eps < t) by (eapply Rle_lt_trans; [apply Rmax_r|exact Ht]).
  apply HP. change (Rabs (area t - half_line) < eps). eapply Rle_lt_trans; [apply area_near; lra|]. pose proof (cond_pos eps) as Ep.
  apply (Rmult_lt_reg_r t); [lra|]. unfold Rdiv. rewrite Rmult_assoc, Rinv_l, Rmult_1_r by lra. apply (Rmult_lt_compat_r eps) in T2; auto. unfold Rdiv in T2. rewrite Rmult_assoc, Rinv_l in T2 by lra. lra.
Qed.
Lemma area_left : filterlim area (Rbar_locally m_infty) (locally (- half_line)).
Proof.
  intros P (eps & HP). exists (- Rmax 1 (4 / eps)). intros t Ht. pose proof (Rmax_l 1 (4 / eps)) as T1. pose proof (Rmax_r 1 (4 / eps)) as T2.
  apply HP. change (Rabs (area t - - half_line) < eps). replace t with (- - t) by ring. rewrite area_odd. replace (- area (- t) - - half_line) with (- (area (- t) - half_line)) by ring. rewrite Rabs_Ropp.
  assert (T : 4 / eps < - t) by lra. eapply Rle_lt_trans; [apply area_near; lra|]. pose proof (cond_pos eps) as Ep.
  apply (Rmult_lt_reg_r (- t)); [lra|]. unfold Rdiv. rewrite Rmult_assoc, Rinv_l, Rmult_1_r by lra. apply (Rmult_lt_compat_r eps) in T; auto. unfold Rdiv in T. rewrite Rmult_assoc, Rinv_l in T by lra. lra.
Qed.

(** ** A Gaussian of any height, width and place *)
Definition on_line (f : R -> R) (l : R) : Prop := is_RInt_gen f (Rbar_locally m_infty) (Rbar_locally p_infty) l.
Lemma line_integral h k m : 0 < k -> on_line (fun x => h * exp (- (k * (x - m) ^ 2) / 2)) (h * sqrt (2 * PI / k)).
Proof.
  intros Hk. assert (Sk : 0 < sqrt k) by (apply sqrt_lt_R0; exact Hk). assert (Qk : sqrt k ^ 2 = k) by (apply pow2_sqrt; lra).
  set (F := fun x => h / sqrt k * area (sqrt k * (x - m))).
  assert (D : forall x, is_derive F x (h * exp (- (k * (x - m) ^ 2) / 2))).
  { intros x. unfold F. evar_last.
    - apply (is_derive_scal (fun x => area (sqrt k * (x - m))) x (h / sqrt k)). apply (is_derive_comp area (fun x => sqrt k * (x - m)) x); [apply area_derive|]. auto_derive; [auto|reflexivity].
    - cbv [scal ModuleSpace.scal mult]. cbn -[pow]. unfold mult, bell. cbn -[pow]. replace (- (sqrt k * (x - m)) ^ 2 / 2) with (- (k * (x - m) ^ 2) / 2) by (rewrite Rpow_mult_distr, Qk; reflexivity). field. lra. }
  assert (DF : forall x, Derive F x = h * exp (- (k * (x - m) ^ 2) / 2)) by (intros x; apply is_derive_unique, D).
  unfold on_line. apply is_RInt_gen_ext with (Derive F).
  { apply Filter_prod with (Q := fun _ => True) (R := fun _ => True); [exists 0; auto|exists 0; auto|]. intros a b _ _ x _. apply DF. }
  replace (h * sqrt (2 * PI / k)) with (h / sqrt k * half_line - h / sqrt k * - half_line).
  2:{ replace (2 * PI / k) with (4 * (PI / 2) / k) by (field; lra). pose proof PI_RGT_0. rewrite sqrt_div, sqrt_mult by lra. replace 4 with (2 * 2) at 1 by ring. rewrite sqrt_square by lra. unfold half_line. field. lra. }
  apply is_RInt_gen_Derive.
  - apply Filter_prod with (Q := fun _ => True) (R := fun _ => True); [exists 0; auto|exists 0; auto|]. intros a b _ _ x _. eexists. apply D.
  - apply Filter_prod with (Q := fun _ => True) (R := fun _ => True); [exists 0; auto|exists 0; auto|]. intros a b _ _ x _.
    apply continuous_ext with (fun x => h * exp (- (k * (x - m) ^ 2) / 2)); [intros y; symmetry; apply DF|]. apply (ex_derive_continuous (fun x => h * exp (- (k * (x - m) ^ 2) / 2))). auto_derive. auto.
  - unfold F. apply filterlim_comp with (f := fun x => area (sqrt k * (x - m))) (g := fun a => h / sqrt k * a) (G := locally (- half_line)).
    + apply filterlim_comp with (f := fun x => sqrt k * (x - m)) (g := area) (G := Rbar_locally m_infty); [|apply area_left].
      intros P (M & HM). exists (M / sqrt k + m). intros x Hx. apply HM. apply (Rmult_lt_compat_l (sqrt k)) in Hx; auto. replace (sqrt k * (M / sqrt k + m)) with (M + sqrt k * m) in Hx by (field; lra). lra.
    + apply (ex_derive_continuous (fun a => h / sqrt k * a)). auto_derive. auto.
  - unfold F. apply filterlim_comp with (f := fun x => area (sqrt k * (x - m))) (g := fun a => h / sqrt k * a) (G := locally half_line).
    + apply filterlim_comp with (f := fun x => sqrt k * (x - m)) (g := area) (G := Rbar_locally p_infty); [|apply area_right].
      intros P (M & HM). exists (M / sqrt k + m). intros x Hx. apply HM. apply (Rmult_lt_compat_l (sqrt k)) in Hx; auto. replace (sqrt k * (M / sqrt k + m)) with (M + sqrt k * m) in Hx by (field; lra). lra.
    + apply (ex_derive_continuous (fun a => h / sqrt k * a)). auto_derive. auto.
Qed.
(** Over the plane: first along every row, then over the rows. *)
Lemma plane_integral h p q r xc yc : 0 < p -> r ^ 2 < p * q ->
  exists row, (forall y, on_line (fun x => h * exp (- (p * (x - xc) ^ 2 + q * (y - yc) ^ 2 + 2 * r * (x - xc) * (y - yc)) / 2)) (row y)) /\
    on_line row (h * (2 * PI / sqrt (p * q - r ^ 2))).
Proof.
  intros Hp Hr. set (k := (p * q - r ^ 2) / p). assert (Hk : 0 < k) by (apply Rdiv_lt_0_compat; lra).
  exists (fun y => (h * sqrt (2 * PI / p)) * exp (- (k * (y - yc) ^ 2) / 2)). split.
  - intros y. pose proof (line_integral (h * exp (- (k * (y - yc) ^ 2) / 2)) p (xc - r / p * (y - yc)) Hp) as L.
    replace (h * sqrt (2 * PI / p) * exp (- (k * (y - yc) ^ 2) / 2)) with (h * exp (- (k * (y - yc) ^ 2) / 2) * sqrt (2 * PI / p)) by ring.
    unfold on_line in *. eapply is_RInt_gen_ext; [|exact L].
    apply Filter_prod with (Q := fun _ => True) (R := fun _ => True); [exists 0; auto|exists 0; auto|]. intros a b _ _ x _. rewrite Rmult_assoc, <- exp_plus. do 2 f_equal. unfold k. field. lra.
  - pose proof (line_integral (h * sqrt (2 * PI / p)) k yc Hk) as L. replace (h * (2 * PI / sqrt (p * q - r ^ 2))) with (h * sqrt (2 * PI / p) * sqrt (2 * PI / k)); [exact L|].
    pose proof PI_RGT_0. rewrite Rmult_assoc. f_equal. rewrite <- sqrt_mult by (apply Rlt_le, Rdiv_lt_0_compat; lra).
    replace (2 * PI / p * (2 * PI / k)) with ((2 * PI) * (2 * PI) / (p * q - r ^ 2)) by (unfold k; field; lra). rewrite sqrt_div by (try apply Rmult_le_pos; lra). rewrite sqrt_square by lra. reflexivity.
Qed.
