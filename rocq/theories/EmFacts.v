(** Facts about the PSF mixture fit. *)
From Coq Require Import Reals List Lra Lia Psatz.
From Verif Require Import EmModel.
Import ListNotations.
Open Scope R_scope.

(** ** Sums *)
Lemma sum_cons {A} (f : A -> R) a l : sum f (a :: l) = f a + sum f l.
Proof. reflexivity. Qed.
Lemma sum_nil {A} (f : A -> R) : sum f [] = 0.
Proof. reflexivity. Qed.
Global Opaque sum.

Lemma sum_ext {A} (f g : A -> R) l : (forall a, In a l -> f a = g a) -> sum f l = sum g l.
Proof. induction l as [|a l IH]; intro H; [reflexivity|]. rewrite !sum_cons, IH, H; auto; [now left|intros; apply H; now right]. Qed.

Lemma sum_plus {A} (f g : A -> R) l : sum (fun a => f a + g a) l = sum f l + sum g l.
Proof. induction l as [|a l IH]; [rewrite !sum_nil; lra|]. rewrite !sum_cons, IH; lra. Qed.

Lemma sum_scal {A} k (f : A -> R) l : sum (fun a => k * f a) l = k * sum f l.
Proof. induction l as [|a l IH]; [rewrite !sum_nil; lra|]. rewrite !sum_cons, IH; lra. Qed.

Lemma sum_le {A} (f g : A -> R) l : (forall a, In a l -> f a <= g a) -> sum f l <= sum g l.
Proof.
  induction l as [|a l IH]; intro H; [rewrite !sum_nil; lra|]. rewrite !sum_cons.
  apply Rplus_le_compat; [apply H; now left|apply IH; intros; apply H; now right].
Qed.

Lemma sum_zero {A} (l : list A) : sum (fun _ => 0) l = 0.
Proof. induction l as [|a l IH]; [apply sum_nil|]. rewrite sum_cons, IH; lra. Qed.

Lemma sum_nonneg {A} (f : A -> R) l : (forall a, In a l -> 0 <= f a) -> 0 <= sum f l.
Proof. intro H. rewrite <- (sum_zero l). now apply sum_le. Qed.

Lemma sum_pos {A} (f : A -> R) l : l <> [] -> (forall a, In a l -> 0 < f a) -> 0 < sum f l.
Proof.
  destruct l as [|a l]; intros N H; [congruence|]. rewrite sum_cons.
  apply Rplus_lt_le_0_compat; [apply H; now left|].
  apply sum_nonneg. intros; apply Rlt_le, H; now right.
Qed.

Lemma sum_swap {A B} (f : A -> B -> R) la lb :
  sum (fun a => sum (f a) lb) la = sum (fun b => sum (fun a => f a b) la) lb.
Proof.
  induction la as [|a la IH].
  - rewrite sum_nil. symmetry. erewrite sum_ext; [apply sum_zero|]. intros; apply sum_nil.
  - rewrite sum_cons, IH, <- sum_plus. apply sum_ext. intros; now rewrite sum_cons.
Qed.

Lemma sum_member {A} (f : A -> R) l a : (forall b, In b l -> 0 <= f b) -> In a l -> f a <= sum f l.
Proof.
  induction l as [|b l IH]; intros H I; [easy|]. rewrite sum_cons.
  destruct I as [->|I].
  - assert (0 <= sum f l) by (apply sum_nonneg; intros; apply H; now right).
    lra.
  - assert (0 <= f b) by (apply H; now left).
    assert (f a <= sum f l) by (apply IH; auto; intros; apply H; now right).
    lra.
Qed.

Lemma sum_nonneg_zero {A} (f : A -> R) l : (forall a, In a l -> 0 <= f a) -> sum f l = 0 -> forall a, In a l -> f a = 0.
Proof.
  intros H Z a I. pose proof (sum_member f l a H I). pose proof (H a I). lra.
Qed.

(** ** Logarithm inequalities *)
Lemma ln_le_sub1 x : 0 < x -> ln x <= x - 1.
Proof.
  intro H. pose proof (exp_ineq1_le (ln x)) as E. rewrite exp_ln in E by exact H. lra.
Qed.

Lemma ln_div x y : 0 < x -> 0 < y -> ln (x / y) = ln x - ln y.
Proof. intros. unfold Rdiv. rewrite ln_mult, ln_Rinv; auto using Rinv_0_lt_compat; lra. Qed.

(** Jensen's inequality for the logarithm: a weighted mean of logarithms is at
    most the logarithm of the weighted mean. *)
Lemma jensen_ln {A} (w r : A -> R) l :
  (forall a, In a l -> 0 <= w a) -> (forall a, In a l -> 0 < r a) -> sum w l = 1 ->
  0 < sum (fun a => w a * r a) l ->
  sum (fun a => w a * ln (r a)) l <= ln (sum (fun a => w a * r a) l).
Proof.
  intros W P S M. set (m := sum (fun a => w a * r a) l) in *.
  assert (E : sum (fun a => w a * ln (r a)) l <= sum (fun a => w a * (r a / m - 1 + ln m)) l).
  { apply sum_le. intros a I. apply Rmult_le_compat_l; [auto|].
    pose proof (P a I) as Pa.
    pose proof (ln_le_sub1 (r a / m) ltac:(apply Rdiv_lt_0_compat; auto)) as L.
    rewrite ln_div in L by auto. lra. }
  eapply Rle_trans; [exact E|]. right.
  transitivity (sum (fun a => / m * (w a * r a) + (ln m - 1) * w a) l).
  { apply sum_ext. intros. field. lra. }
  rewrite sum_plus, !sum_scal, S. fold m. field. lra.
Qed.

(** ** One gaussian *)
Definition good (c : comp) : Prop := 0 < amp c /\ 0 < sx c /\ 0 < sy c /\ rho c ^ 2 < 1.

Lemma mvn_pos x y c : good c -> 0 < mvn_pdf x y c.
Proof.
  intros (A & B & C & D). unfold mvn_pdf. apply Rmult_lt_0_compat; [|apply exp_pos].
  apply Rdiv_lt_0_compat; [auto|].
  pose proof PI_RGT_0. assert (0 < sqrt (1 - rho c ^ 2)) by (apply sqrt_lt_R0; lra).
  assert (0 < 2 * PI) by lra. assert (0 < 2 * PI * sx c) by (apply Rmult_lt_0_compat; auto).
  apply Rmult_lt_0_compat; [apply Rmult_lt_0_compat|]; auto.
Qed.

(** The exponent of a component. *)
Definition quad (c : comp) (x y : R) : R :=
  / (1 - rho c ^ 2) * (((x - mx c) / sx c) ^ 2 + ((y - my c) / sy c) ^ 2
     - 2 * rho c * ((x - mx c) / sx c) * ((y - my c) / sy c)).

Lemma ln_mvn x y c : good c ->
  ln (mvn_pdf x y c) = ln (amp c) - ln (2 * PI) - ln (sx c) - ln (sy c) - / 2 * ln (1 - rho c ^ 2) - / 2 * quad c x y.
Proof.
  intros (A & B & C & D). pose proof PI_RGT_0 as P. unfold mvn_pdf.
  assert (E : 0 < 1 - rho c ^ 2) by lra.
  pose proof (sqrt_lt_R0 _ E) as F.
  assert (G : 0 < 2 * PI * sx c) by (apply Rmult_lt_0_compat; auto; lra).
  assert (H : 0 < 2 * PI * sx c * sy c) by (apply Rmult_lt_0_compat; auto).
  rewrite ln_mult; [|apply Rdiv_lt_0_compat; auto; apply Rmult_lt_0_compat; auto|apply exp_pos].
  rewrite ln_exp, ln_div; [|auto|apply Rmult_lt_0_compat; auto].
  rewrite ln_mult, ln_mult, ln_mult; auto; [|lra].
  assert (S : ln (sqrt (1 - rho c ^ 2)) = / 2 * ln (1 - rho c ^ 2)).
  { assert (Q : ln (1 - rho c ^ 2) = ln (sqrt (1 - rho c ^ 2) * sqrt (1 - rho c ^ 2))) by (rewrite sqrt_sqrt; lra).
    rewrite ln_mult in Q by auto. lra. }
  rewrite S. unfold quad. field. lra.
Qed.

(** ** Weighted moments *)
Section Moments.
  Context {A : Type} (l : list A) (w x y : A -> R).
  Let n := sum w l.
  Let ux := sum (fun p => w p * x p) l / n.
  Let uy := sum (fun p => w p * y p) l / n.
  Let Sxx := sum (fun p => w p * (x p - ux) ^ 2) l.
  Let Syy := sum (fun p => w p * (y p - uy) ^ 2) l.
  Let Sxy := sum (fun p => w p * (x p - ux) * (y p - uy)) l.
  Hypothesis n0 : n <> 0.

  Lemma centred_x : sum (fun p => w p * (x p - ux)) l = 0.
  Proof.
    transitivity (sum (fun p => w p * x p + - ux * w p) l); [apply sum_ext; intros; ring|].
    rewrite sum_plus, sum_scal. fold n. unfold ux. field. exact n0.
  Qed.
  Lemma centred_y : sum (fun p => w p * (y p - uy)) l = 0.
  Proof.
    transitivity (sum (fun p => w p * y p + - uy * w p) l); [apply sum_ext; intros; ring|].
    rewrite sum_plus, sum_scal. fold n. unfold uy. field. exact n0.
  Qed.
  Lemma shift_xx a : sum (fun p => w p * (x p - a) ^ 2) l = Sxx + n * (ux - a) ^ 2.
  Proof.
    transitivity (sum (fun p => w p * (x p - ux) ^ 2 + (2 * (ux - a) * (w p * (x p - ux)) + (ux - a) ^ 2 * w p)) l);
      [apply sum_ext; intros; ring|].
    rewrite sum_plus, sum_plus, sum_scal, sum_scal, centred_x. fold Sxx n. ring.
  Qed.
  Lemma shift_yy b : sum (fun p => w p * (y p - b) ^ 2) l = Syy + n * (uy - b) ^ 2.
  Proof.
    transitivity (sum (fun p => w p * (y p - uy) ^ 2 + (2 * (uy - b) * (w p * (y p - uy)) + (uy - b) ^ 2 * w p)) l);
      [apply sum_ext; intros; ring|].
    rewrite sum_plus, sum_plus, sum_scal, sum_scal, centred_y. fold Syy n. ring.
  Qed.
  Lemma shift_xy a b : sum (fun p => w p * (x p - a) * (y p - b)) l = Sxy + n * (ux - a) * (uy - b).
  Proof.
    transitivity (sum (fun p => w p * (x p - ux) * (y p - uy) + ((uy - b) * (w p * (x p - ux)) +
       ((ux - a) * (w p * (y p - uy)) + (ux - a) * (uy - b) * w p))) l);
      [apply sum_ext; intros; ring|].
    rewrite !sum_plus, !sum_scal, centred_x, centred_y. fold Sxy n. ring.
  Qed.

  Lemma sum_quad c : sx c <> 0 -> sy c <> 0 -> rho c ^ 2 < 1 ->
    sum (fun p => w p * quad c (x p) (y p)) l =
    / (1 - rho c ^ 2) *
    (sum (fun p => w p * (x p - mx c) ^ 2) l / sx c ^ 2 + sum (fun p => w p * (y p - my c) ^ 2) l / sy c ^ 2
     - 2 * rho c * sum (fun p => w p * (x p - mx c) * (y p - my c)) l / (sx c * sy c)).
  Proof.
    intros B C D.
    transitivity (sum (fun p => / (1 - rho c ^ 2) / sx c ^ 2 * (w p * (x p - mx c) ^ 2) +
       (/ (1 - rho c ^ 2) / sy c ^ 2 * (w p * (y p - my c) ^ 2) +
        (- 2 * rho c / (1 - rho c ^ 2) / (sx c * sy c)) * (w p * (x p - mx c) * (y p - my c)))) l).
    { apply sum_ext. intros. unfold quad. field. lra. }
    rewrite !sum_plus, !sum_scal. field. lra.
  Qed.

  Lemma cauchy_xy : (forall p, In p l -> 0 <= w p) -> 0 < Sxx -> Sxy ^ 2 <= Sxx * Syy.
  Proof.
    intros W P.
    assert (Q : 0 <= sum (fun p => w p * (Sxx * (y p - uy) - Sxy * (x p - ux)) ^ 2) l).
    { apply sum_nonneg. intros. apply Rmult_le_pos; [auto|apply pow2_ge_0]. }
    assert (E : sum (fun p => w p * (Sxx * (y p - uy) - Sxy * (x p - ux)) ^ 2) l = Sxx * (Sxx * Syy - Sxy ^ 2)).
    { transitivity (sum (fun p => Sxx ^ 2 * (w p * (y p - uy) ^ 2) + (- 2 * Sxx * Sxy * (w p * (x p - ux) * (y p - uy))
         + Sxy ^ 2 * (w p * (x p - ux) ^ 2))) l); [apply sum_ext; intros; ring|].
      rewrite !sum_plus, !sum_scal. fold Sxx Syy Sxy. ring. }
    rewrite E in Q. assert (0 <= Sxx * Syy - Sxy ^ 2); [|lra].
    destruct (Rle_lt_dec 0 (Sxx * Syy - Sxy ^ 2)); [auto|]. exfalso.
    assert (Sxx * (Sxx * Syy - Sxy ^ 2) < 0); [|lra].
    rewrite <- (Rmult_0_r Sxx). now apply Rmult_lt_compat_l.
  Qed.
End Moments.

(** The trace inequality of the update of a covariance: among all
    two-dimensional gaussians the one with the weighted moments is most
    likely. *)
Lemma trace_bound a b r r' : 0 < a -> 0 < b -> r ^ 2 < 1 -> r' ^ 2 < 1 ->
  2 + 2 * ln a + 2 * ln b + ln (1 - r' ^ 2) - ln (1 - r ^ 2) <= / (1 - r ^ 2) * (a ^ 2 + b ^ 2 - 2 * r * r' * a * b).
Proof.
  intros A B R1 R2.
  assert (P : 0 < 1 - r ^ 2) by lra. assert (P' : 0 < 1 - r' ^ 2) by lra.
  set (s := sqrt (1 - r ^ 2)). set (s' := sqrt (1 - r' ^ 2)).
  assert (S : 0 < s) by (apply sqrt_lt_R0; auto). assert (S' : 0 < s') by (apply sqrt_lt_R0; auto).
  assert (E : s * s = 1 - r ^ 2) by (apply sqrt_sqrt; lra).
  assert (E' : s' * s' = 1 - r' ^ 2) by (apply sqrt_sqrt; lra).
  assert (K : s * s' <= 1 - r * r').
  { apply Rsqr_incr_0_var.
    - unfold Rsqr. replace (s * s' * (s * s')) with ((s * s) * (s' * s')) by ring. rewrite E, E'.
      pose proof (pow2_ge_0 (r - r')). nra.
    - nra. }
  assert (T : a * b * (s' / s) * 2 <= / (1 - r ^ 2) * (a ^ 2 + b ^ 2 - 2 * r * r' * a * b)).
  { rewrite <- E.
    apply Rmult_le_reg_l with (s * s); [apply Rmult_lt_0_compat; auto|].
    replace (s * s * (a * b * (s' / s) * 2)) with (2 * (a * b) * (s * s')) by (field; lra).
    replace (s * s * (/ (s * s) * (a ^ 2 + b ^ 2 - 2 * r * r' * a * b))) with (a ^ 2 + b ^ 2 - 2 * r * r' * a * b) by (field; lra).
    assert (0 < a * b) by (apply Rmult_lt_0_compat; auto).
    assert (2 * (a * b) * (s * s') <= 2 * (a * b) * (1 - r * r')) by (apply Rmult_le_compat_l; lra).
    pose proof (pow2_ge_0 (a - b)). nra. }
  assert (D : 0 < a * b * (s' / s)) by (repeat apply Rmult_lt_0_compat; auto; apply Rinv_0_lt_compat; auto).
  pose proof (ln_le_sub1 _ D) as L.
  rewrite ln_mult, ln_mult, ln_div in L; auto; [|apply Rmult_lt_0_compat; auto|apply Rdiv_lt_0_compat; auto].
  assert (G : ln (1 - r ^ 2) = ln s + ln s) by (rewrite <- E; now apply ln_mult).
  assert (G' : ln (1 - r' ^ 2) = ln s' + ln s') by (rewrite <- E'; now apply ln_mult).
  rewrite G, G'. lra.
Qed.

(** ** One step of the fit *)
Lemma finite_comp_iff c : finite_comp c = true <-> sx c <> 0 /\ sy c <> 0 /\ rho c ^ 2 < 1.
Proof.
  unfold finite_comp. destruct (Req_EM_T (sx c) 0), (Req_EM_T (sy c) 0), (Rlt_dec (rho c ^ 2) 1);
    split; intros; try discriminate; tauto.
Qed.

Lemma all_some_F2 {A B} (f : A -> option B) l l' : all_some (map f l) = Some l' -> Forall2 (fun a b => f a = Some b) l l'.
Proof.
  revert l'; induction l as [|a l IH]; cbn; intros l' H.
  - inversion H; constructor.
  - destruct (f a) eqn:E; [|discriminate]. destruct (all_some (map f l)) eqn:F; [|discriminate].
    inversion H; subst. constructor; auto.
Qed.

Definition start_ok (c : comp) : Prop := 0 <= amp c /\ 0 <= sx c /\ 0 <= sy c.

Section Step.
  Variable im : list pixel.
  Hypothesis data_ok : forall p, In p im -> 0 <= pd p.

  Lemma amp0_Nk ps c : amp c = 0 -> Nk im ps c = 0.
  Proof.
    intro Z. unfold Nk. erewrite sum_ext; [apply sum_zero|]. intros p _. cbn.
    unfold weight. assert (M : mvn_pdf (px p) (py p) c = 0) by (unfold mvn_pdf; rewrite Z; unfold Rdiv; ring).
    rewrite M. unfold Rdiv. ring.
  Qed.

  Lemma new_comp_inv ps c c' : new_comp im ps c = Some c' ->
    let n := Nk im ps c in
    let w := fun p => pd p * weight ps c p in
    n <> 0 /\ sum (Nk im ps) ps <> 0 /\ amp c' = n / sum (Nk im ps) ps /\
    mx c' = sum (fun p => w p * px p) im / n /\ my c' = sum (fun p => w p * py p) im / n /\
    0 < sx c' /\ 0 < sy c' /\
    sx c' ^ 2 * n = sum (fun p => w p * (px p - mx c') ^ 2) im /\
    sy c' ^ 2 * n = sum (fun p => w p * (py p - my c') ^ 2) im /\
    rho c' * (n * sx c' * sy c') = sum (fun p => w p * (px p - mx c') * (py p - my c')) im.
  Proof.
    unfold new_comp. cbv zeta.
    destruct (Req_EM_T (Nk im ps c) 0) as [|N]; [discriminate|].
    destruct (Req_EM_T (sum (Nk im ps) ps) 0) as [|T]; [discriminate|].
    set (ux := sum (fun p => pd p * weight ps c p * px p) im / Nk im ps c).
    set (uy := sum (fun p => pd p * weight ps c p * py p) im / Nk im ps c).
    destruct (Rlt_dec (sum (fun p => pd p * weight ps c p * (px p - ux) ^ 2) im / Nk im ps c) 0) as [|VX]; [discriminate|].
    destruct (Rlt_dec (sum (fun p => pd p * weight ps c p * (py p - uy) ^ 2) im / Nk im ps c) 0) as [|VY]; [discriminate|].
    destruct (Req_EM_T _ 0) as [|SX]; [discriminate|].
    destruct (Req_EM_T _ 0) as [|SY]; [discriminate|].
    intro E; match type of E with Some ?z = _ => assert (X : c' = z) by congruence end; clear E; rewrite X; clear X.
    cbn [amp mx my sx sy rho].
    assert (PX : 0 < sqrt (sum (fun p => pd p * weight ps c p * (px p - ux) ^ 2) im / Nk im ps c))
      by (edestruct sqrt_pos as [L|L]; [exact L|now elim SX]).
    assert (PY : 0 < sqrt (sum (fun p => pd p * weight ps c p * (py p - uy) ^ 2) im / Nk im ps c))
      by (edestruct sqrt_pos as [L|L]; [exact L|now elim SY]).
    repeat split; auto.
    - rewrite pow2_sqrt by (now apply Rnot_lt_le). field. auto.
    - rewrite pow2_sqrt by (now apply Rnot_lt_le). field. auto.
    - field. auto.
  Qed.

  Lemma step_F2 ps ps' : em_step im ps = Some ps' ->
    (forall c, In c ps -> sx c <> 0 /\ sy c <> 0 /\ rho c ^ 2 < 1) /\ Forall2 (fun c c' => new_comp im ps c = Some c') ps ps'.
  Proof.
    unfold em_step. destruct (forallb finite_comp ps) eqn:F; [|discriminate]. intro E. split.
    - rewrite forallb_forall in F. intros c I. now apply finite_comp_iff, F.
    - now apply all_some_F2.
  Qed.

  Lemma F2_in_l {A B} (P : A -> B -> Prop) l l' a : Forall2 P l l' -> In a l -> exists b, In b l' /\ P a b.
  Proof. induction 1; intros I; [easy|]; destruct I as [->|I]; [eauto using in_eq|]. destruct (IHForall2 I) as (z & ? & ?). exists z; split; auto. now right. Qed.
  Lemma F2_in_r {A B} (P : A -> B -> Prop) l l' b : Forall2 P l l' -> In b l' -> exists a, In a l /\ P a b.
  Proof. induction 1; intros I; [easy|]; destruct I as [->|I]; [eauto using in_eq|]. destruct (IHForall2 I) as (z & ? & ?). exists z; split; auto. now right. Qed.

  Lemma step_good ps ps' : (forall c, In c ps -> start_ok c) -> em_step im ps = Some ps' -> forall c, In c ps -> good c.
  Proof.
    intros S E c I. destruct (step_F2 _ _ E) as (F & G). destruct (F c I) as (A & B & C).
    destruct (S c I) as (D1 & D2 & D3).
    destruct (F2_in_l _ _ _ c G I) as (c' & _ & H). apply new_comp_inv in H. cbv zeta in H.
    destruct H as (N & _).
    unfold good. repeat split; auto; try lra.
    destruct D1 as [|Z]; [auto|]. exfalso. apply N. now apply amp0_Nk.
  Qed.

  Section Good.
    Variable ps : list comp.
    Hypothesis ps_good : forall c, In c ps -> good c.

    Lemma mix_pos x y : ps <> [] -> 0 < mix x y ps.
    Proof. intro N. apply sum_pos; auto. intros. apply mvn_pos; auto. Qed.

    Lemma weight_eq c p : ps <> [] -> weight ps c p = mvn_pdf (px p) (py p) c / mix (px p) (py p) ps.
    Proof.
      intro N. unfold weight.
      assert (E : sum (fun c' => Rabs (mvn_pdf (px p) (py p) c')) ps = mix (px p) (py p) ps).
      { apply sum_ext. intros a I. apply Rabs_right. left. apply mvn_pos; auto. }
      rewrite E. pose proof (mix_pos (px p) (py p) N). destruct (Req_EM_T _ 0); [lra|reflexivity].
    Qed.

    Lemma weight_pos c p : In c ps -> 0 < weight ps c p.
    Proof.
      intro I. assert (N : ps <> []) by (intros ->; easy).
      rewrite weight_eq by auto. apply Rdiv_lt_0_compat; [apply mvn_pos; auto|now apply mix_pos].
    Qed.

    Lemma weights_sum p : ps <> [] -> sum (fun c => weight ps c p) ps = 1.
    Proof.
      intro N. pose proof (mix_pos (px p) (py p) N) as M.
      transitivity (sum (fun c => / mix (px p) (py p) ps * mvn_pdf (px p) (py p) c) ps).
      { apply sum_ext. intros. rewrite weight_eq by auto. unfold Rdiv. ring. }
      rewrite sum_scal. change (sum (mvn_pdf (px p) (py p)) ps) with (mix (px p) (py p) ps). field. lra.
    Qed.

    Lemma Nk_nonneg c : In c ps -> 0 <= Nk im ps c.
    Proof. intro I. apply sum_nonneg. intros. apply Rmult_le_pos; [auto|]. left. now apply weight_pos. Qed.

    Lemma Nk_total : ps <> [] -> sum (Nk im ps) ps = sum pd im.
    Proof.
      intro N. unfold Nk. rewrite sum_swap. apply sum_ext. intros p I. rewrite sum_scal, weights_sum by auto. ring.
    Qed.

    (** What a component gains. *)
    Lemma component_gain c c' : In c ps -> new_comp im ps c = Some c' -> rho c' ^ 2 < 1 ->
      Nk im ps c * (ln (amp c') - ln (amp c)) <=
      sum (fun p => pd p * weight ps c p * (ln (mvn_pdf (px p) (py p) c') - ln (mvn_pdf (px p) (py p) c))) im.
    Proof.
      intros I H R'. assert (G := ps_good c I). destruct G as (A & B & C & D).
      pose proof (Nk_nonneg c I) as Np.
      apply new_comp_inv in H. cbv zeta in H.
      destruct H as (N & T & HA & HX & HY & SX & SY & QX & QY & QR).
      set (n := Nk im ps c) in *. set (w := fun p => pd p * weight ps c p) in *.
      assert (n_pos : 0 < n) by lra.
      assert (T' : 0 < sum (Nk im ps) ps).
      { assert (0 <= sum (Nk im ps) ps) by (apply sum_nonneg; apply Nk_nonneg). lra. }
      assert (A' : 0 < amp c') by (rewrite HA; now apply Rdiv_lt_0_compat).
      assert (n0 : sum w im <> 0) by exact N.
      assert (E : sum (fun p => pd p * weight ps c p * (ln (mvn_pdf (px p) (py p) c') - ln (mvn_pdf (px p) (py p) c))) im =
        (ln (amp c') - ln (sx c') - ln (sy c') - / 2 * ln (1 - rho c' ^ 2) -
         (ln (amp c) - ln (sx c) - ln (sy c) - / 2 * ln (1 - rho c ^ 2))) * n
        + (- / 2) * sum (fun p => w p * quad c' (px p) (py p)) im + / 2 * sum (fun p => w p * quad c (px p) (py p)) im).
      { unfold n, Nk. rewrite <- !sum_scal, <- !sum_plus. apply sum_ext. intros p _.
        rewrite !ln_mvn by (unfold good; auto). unfold w. ring. }
      rewrite E. clear E.
      rewrite (sum_quad im w px py c'), (sum_quad im w px py c) by (auto; lra).
      rewrite (shift_xx im w px n0 (mx c)), (shift_yy im w py n0 (my c)), (shift_xy im w px py n0 (mx c) (my c)).
      change (sum w im) with n.
      assert (HX' : mx c' = sum (fun p => w p * px p) im / n) by exact HX.
      assert (HY' : my c' = sum (fun p => w p * py p) im / n) by exact HY.
      assert (QX' : sx c' ^ 2 * n = sum (fun p => w p * (px p - mx c') ^ 2) im) by exact QX.
      assert (QY' : sy c' ^ 2 * n = sum (fun p => w p * (py p - my c') ^ 2) im) by exact QY.
      assert (QR' : rho c' * (n * sx c' * sy c') = sum (fun p => w p * (px p - mx c') * (py p - my c')) im) by exact QR.
      rewrite <- HX', <- HY', <- QX', <- QY', <- QR'.
      set (a := sx c' / sx c). set (b := sy c' / sy c).
      assert (a_pos : 0 < a) by (now apply Rdiv_lt_0_compat). assert (b_pos : 0 < b) by (now apply Rdiv_lt_0_compat).
      pose proof (trace_bound a b (rho c) (rho c') a_pos b_pos D R') as TB.
      set (u := (mx c' - mx c) / sx c). set (v := (my c' - my c) / sy c).
      assert (PD : 0 <= / (1 - rho c ^ 2) * (u ^ 2 + v ^ 2 - 2 * rho c * u * v)).
      { apply Rmult_le_pos; [left; apply Rinv_0_lt_compat; lra|].
        pose proof (pow2_ge_0 (u - rho c * v)). pose proof (pow2_ge_0 v). nra. }
      replace (/ (1 - rho c' ^ 2) * (sx c' ^ 2 * n / sx c' ^ 2 + sy c' ^ 2 * n / sy c' ^ 2 -
         2 * rho c' * (rho c' * (n * sx c' * sy c')) / (sx c' * sy c'))) with (2 * n) by (field; lra).
      replace (/ (1 - rho c ^ 2) * ((sx c' ^ 2 * n + n * (mx c' - mx c) ^ 2) / sx c ^ 2 +
         (sy c' ^ 2 * n + n * (my c' - my c) ^ 2) / sy c ^ 2 -
         2 * rho c * (rho c' * (n * sx c' * sy c') + n * (mx c' - mx c) * (my c' - my c)) / (sx c * sy c)))
        with (n * (/ (1 - rho c ^ 2) * (a ^ 2 + b ^ 2 - 2 * rho c * rho c' * a * b)) +
              n * (/ (1 - rho c ^ 2) * (u ^ 2 + v ^ 2 - 2 * rho c * u * v))) by (unfold a, b, u, v; field; lra).
      unfold a, b in TB. rewrite !ln_div in TB by auto. fold a b in TB.
      set (tr := / (1 - rho c ^ 2) * (a ^ 2 + b ^ 2 - 2 * rho c * rho c' * a * b)) in *.
      set (q := / (1 - rho c ^ 2) * (u ^ 2 + v ^ 2 - 2 * rho c * u * v)) in *.
      assert (K : 0 <= n * (tr + q - 2 - 2 * (ln (sx c') - ln (sx c)) - 2 * (ln (sy c') - ln (sy c))
                           - ln (1 - rho c' ^ 2) + ln (1 - rho c ^ 2))) by (apply Rmult_le_pos; lra).
      lra.
    Qed.
  End Good.
End Step.

Lemma log_likelihood_inv im ps l : log_likelihood im ps = Some l ->
  (forall c, In c ps -> sx c <> 0 /\ sy c <> 0 /\ rho c ^ 2 < 1) /\
  (forall p, In p im -> 0 < mix (px p) (py p) ps) /\
  l = sum (fun p => pd p * ln (mix (px p) (py p) ps)) im.
Proof.
  unfold log_likelihood. destruct (forallb finite_comp ps) eqn:F; [|discriminate].
  destruct (forallb _ im) eqn:G; [|discriminate]. intro E. rewrite forallb_forall in F, G.
  split; [intros; now apply finite_comp_iff, F|]. split; [|congruence].
  intros p I. specialize (G p I). destruct (Rlt_dec _ _); [auto|discriminate].
Qed.

Lemma log_likelihood_some im ps : ps <> [] -> (forall c, In c ps -> good c) ->
  log_likelihood im ps = Some (sum (fun p => pd p * ln (mix (px p) (py p) ps)) im).
Proof.
  intros N G. unfold log_likelihood.
  rewrite (proj2 (forallb_forall _ _)).
  - rewrite (proj2 (forallb_forall _ _)); [reflexivity|]. intros p _.
    destruct (Rlt_dec _ _); [reflexivity|]. exfalso. apply n. now apply mix_pos.
  - intros c I. apply finite_comp_iff. destruct (G c I) as (? & ? & ? & ?). lra.
Qed.

Lemma F2_sum_l {A B} (P : A -> B -> Prop) (f : A -> R) l l' : Forall2 P l l' -> sum (fun ab => f (fst ab)) (combine l l') = sum f l.
Proof. induction 1; cbn [combine]; [reflexivity|]. rewrite !sum_cons, IHForall2. reflexivity. Qed.
Lemma F2_sum_r {A B} (P : A -> B -> Prop) (f : B -> R) l l' : Forall2 P l l' -> sum (fun ab => f (snd ab)) (combine l l') = sum f l'.
Proof. induction 1; cbn [combine]; [reflexivity|]. rewrite !sum_cons, IHForall2. reflexivity. Qed.
Lemma F2_combine {A B} (P : A -> B -> Prop) l l' a b : Forall2 P l l' -> In (a, b) (combine l l') -> In a l /\ In b l' /\ P a b.
Proof.
  induction 1; cbn [combine]; intro I; [easy|]. destruct I as [I|I].
  - inversion I; subst. auto using in_eq.
  - destruct (IHForall2 I) as (? & ? & ?). auto using in_cons.
Qed.

Section Monotone.
  Variable im : list pixel.
  Hypothesis data_ok : forall p, In p im -> 0 <= pd p.

  Lemma step_new_good ps ps' l' : (forall c, In c ps -> start_ok c) -> step_likelihood im ps = Some (ps', l') ->
    (forall c, In c ps' -> good c) /\ (ps = [] <-> ps' = []) /\ (ps <> [] -> sum amp ps' = 1).
  Proof.
    unfold step_likelihood. intros S E. destruct (em_step im ps) as [q|] eqn:E1; [|discriminate].
    destruct (log_likelihood im q) as [l|] eqn:E2; [|discriminate]. inversion E; subst. clear E.
    pose proof (step_good im ps ps' S E1) as G. destruct (step_F2 _ _ _ E1) as (F & H).
    destruct (log_likelihood_inv _ _ _ E2) as (V & _).
    assert (TT : forall c, In c ps -> 0 < Nk im ps c).
    { intros c I. destruct (F2_in_l _ _ _ _ H I) as (c' & _ & K). apply new_comp_inv in K. cbv zeta in K.
      destruct K as (K & _). pose proof (Nk_nonneg im data_ok ps G c I). lra. }
    split; [|split].
    - intros c' I. destruct (F2_in_r _ _ _ _ H I) as (c & J & K). apply new_comp_inv in K. cbv zeta in K.
      destruct K as (K1 & K2 & K3 & _ & _ & K4 & K5 & _). destruct (V c' I) as (_ & _ & K6).
      unfold good. repeat split; auto. rewrite K3. apply Rdiv_lt_0_compat; [auto|].
      apply sum_pos; [intros ->; easy|auto].
    - split; intros ->; inversion H; reflexivity.
    - intro N. rewrite <- (F2_sum_r _ amp _ _ H).
      transitivity (sum (fun cc : comp * comp => / sum (Nk im ps) ps * Nk im ps (fst cc)) (combine ps ps')).
      { apply sum_ext. intros (c, c') I. apply (F2_combine _ _ _ _ _ H) in I. destruct I as (_ & _ & K).
        apply new_comp_inv in K. cbv zeta in K. destruct K as (_ & _ & K & _). cbn [fst snd]. rewrite K. unfold Rdiv. ring. }
      rewrite sum_scal, (F2_sum_l _ (Nk im ps) _ _ H). field.
      assert (0 < sum (Nk im ps) ps) by (apply sum_pos; auto). lra.
  Qed.

  Lemma step_monotone ps ps' l l' : (forall c, In c ps -> start_ok c) -> sum amp ps <= 1 ->
    log_likelihood im ps = Some l -> step_likelihood im ps = Some (ps', l') -> l <= l'.
  Proof.
    intros S A1 L0 E. pose proof (step_new_good _ _ _ S E) as (G' & NN & A1').
    unfold step_likelihood in E. destruct (em_step im ps) as [q|] eqn:E1; [|discriminate].
    destruct (log_likelihood im q) as [l1|] eqn:E2; [|discriminate]. inversion E; subst. clear E.
    pose proof (step_good im ps ps' S E1) as G. destruct (step_F2 _ _ _ E1) as (F & H).
    destruct (log_likelihood_inv _ _ _ L0) as (_ & M0 & ->). destruct (log_likelihood_inv _ _ _ E2) as (V & M1 & ->).
    destruct (list_eq_dec (fun a b : comp => ltac:(decide equality; apply Req_EM_T)) ps []) as [N|N].
    { subst ps. rewrite (proj1 NN eq_refl). lra. }
    set (L := combine ps ps').
    set (lr := fun (cc : comp * comp) p => ln (mvn_pdf (px p) (py p) (snd cc)) - ln (mvn_pdf (px p) (py p) (fst cc))).
    (* the expected gain is at most the gain *)
    assert (J : sum (fun p => sum (fun cc => pd p * weight ps (fst cc) p * lr cc p) L) im <=
                sum (fun p => pd p * ln (mix (px p) (py p) ps') + - 1 * (pd p * ln (mix (px p) (py p) ps))) im).
    { apply sum_le. intros p I.
      assert (Mp := M0 p I). assert (Mp' := M1 p I).
      assert (X : sum (fun cc => weight ps (fst cc) p * (mvn_pdf (px p) (py p) (snd cc) / mvn_pdf (px p) (py p) (fst cc))) L
              = mix (px p) (py p) ps' / mix (px p) (py p) ps).
      { unfold mix at 1. rewrite <- (F2_sum_r _ (mvn_pdf (px p) (py p)) _ _ H). fold L.
        unfold Rdiv at 2. rewrite Rmult_comm, <- sum_scal. apply sum_ext. intros (c, c') K.
        apply (F2_combine _ _ _ _ _ H) in K. destruct K as (K & _). cbn [fst snd].
        rewrite weight_eq by auto. pose proof (mvn_pos (px p) (py p) c (G c K)). field. lra. }
      pose proof (jensen_ln (fun cc : comp * comp => weight ps (fst cc) p)
        (fun cc => mvn_pdf (px p) (py p) (snd cc) / mvn_pdf (px p) (py p) (fst cc)) L) as Jn.
      cbv beta in Jn. rewrite X in Jn.
      assert (Y : sum (fun cc : comp * comp => weight ps (fst cc) p * lr cc p) L <= ln (mix (px p) (py p) ps') - ln (mix (px p) (py p) ps)).
      { rewrite <- ln_div by auto. eapply Rle_trans; [|apply Jn].
        - right. apply sum_ext. intros (c, c') K. apply (F2_combine _ _ _ _ _ H) in K. destruct K as (K & K' & _).
          unfold lr. cbn [fst snd]. rewrite ln_div by (apply mvn_pos; auto). reflexivity.
        - intros (c, c') K. apply (F2_combine _ _ _ _ _ H) in K. left. now apply weight_pos.
        - intros (c, c') K. apply (F2_combine _ _ _ _ _ H) in K. destruct K as (K & K' & _). cbn [fst snd].
          apply Rdiv_lt_0_compat; apply mvn_pos; auto.
        - unfold L. rewrite (F2_sum_l _ (fun c => weight ps c p) _ _ H). now apply weights_sum.
        - now apply Rdiv_lt_0_compat. }
      pose proof (data_ok p I) as D.
      replace (sum (fun cc : comp * comp => pd p * weight ps (fst cc) p * lr cc p) L)
        with (pd p * sum (fun cc : comp * comp => weight ps (fst cc) p * lr cc p) L)
        by (rewrite <- sum_scal; apply sum_ext; intros; ring).
      pose proof (Rmult_le_compat_l _ _ _ D Y). lra. }
    rewrite sum_plus, sum_scal in J.
    rewrite sum_swap in J.
    (* every component gains at least its change of amplitude *)
    assert (C : sum (fun cc => Nk im ps (fst cc) * (ln (amp (snd cc)) - ln (amp (fst cc)))) L <=
                sum (fun cc => sum (fun p => pd p * weight ps (fst cc) p * lr cc p) im) L).
    { apply sum_le. intros (c, c') K. apply (F2_combine _ _ _ _ _ H) in K. destruct K as (K & K' & K'').
      apply component_gain; auto. now apply V. }
    (* and the amplitudes gain *)
    assert (T : 0 < sum (Nk im ps) ps).
    { assert (0 <= sum (Nk im ps) ps) by (apply sum_nonneg; now apply Nk_nonneg).
      destruct ps as [|c0 r]; [congruence|]. inversion H; subst.
      match goal with K : new_comp im _ c0 = Some _ |- _ => apply new_comp_inv in K; cbv zeta in K; destruct K as (_ & K & _) end. lra. }
    assert (B : sum (fun cc => Nk im ps (fst cc) * (ln (amp (fst cc)) - ln (amp (snd cc)))) L <= 0).
    { apply Rle_trans with (sum (fun cc : comp * comp => sum (Nk im ps) ps * amp (fst cc) + - 1 * Nk im ps (fst cc)) L).
      - apply sum_le. intros (c, c') K. apply (F2_combine _ _ _ _ _ H) in K. destruct K as (K & K' & K''). cbn [fst snd].
        destruct (G c K) as (P & _). destruct (G' c' K') as (P' & _).
        apply new_comp_inv in K''. cbv zeta in K''. destruct K'' as (K1 & _ & K2 & _).
        pose proof (Nk_nonneg im data_ok ps G c K) as Np.
        rewrite <- ln_div by auto.
        pose proof (ln_le_sub1 (amp c / amp c') ltac:(now apply Rdiv_lt_0_compat)) as LL.
        apply Rle_trans with (Nk im ps c * (amp c / amp c' - 1)); [now apply Rmult_le_compat_l|].
        right. rewrite K2. field. lra.
      - rewrite sum_plus, !sum_scal. unfold L. rewrite (F2_sum_l _ amp _ _ H), (F2_sum_l _ (Nk im ps) _ _ H).
        assert (sum (Nk im ps) ps * sum amp ps <= sum (Nk im ps) ps * 1) by (apply Rmult_le_compat_l; lra). lra. }
    assert (B' : sum (fun cc => Nk im ps (fst cc) * (ln (amp (snd cc)) - ln (amp (fst cc)))) L =
                 - 1 * sum (fun cc => Nk im ps (fst cc) * (ln (amp (fst cc)) - ln (amp (snd cc)))) L).
    { rewrite <- sum_scal. apply sum_ext. intros; ring. }
    lra.
  Qed.
End Monotone.
