(** C50: the Sersic profile helpers agree with the Sersic law. *)
From Coq Require Import Reals Lra.
From Coquelicot Require Import Coquelicot.
From Verif Require Import ProfileModel.
Open Scope R_scope.

(** What scipy's functions are, at one first argument: gammainc is the integral
    of t^(a-1) e^-t from zero, divided by gamma so that it tends to one, and
    gammaincinv undoes it (all that is asked of it is the value at one half). *)
Record incomplete (sp : special) (a : R) : Prop := {
  inc_gamma : 0 < gamma sp a;
  inc_zero : gammainc sp a 0 = 0;
  inc_start : forall eps, 0 < eps -> exists d, 0 < d /\ forall x, 0 < x < d -> Rabs (gammainc sp a x) < eps;
  inc_der : forall x, 0 < x ->
    derivable_pt_lim (gammainc sp a) x (Rpower x (a - 1) * exp (- x) / gamma sp a);
  inc_end : forall eps, 0 < eps -> exists X, forall x, X < x -> Rabs (gammainc sp a x - 1) < eps;
  inc_inv : 0 < gammaincinv sp a (1 / 2) /\ gammainc sp a (gammaincinv sp a (1 / 2)) = 1 / 2 }.

(** The Sersic law: brightness at radius r of a profile with half light radius
    rh, index n, constant k and brightness Ie at rh. *)
Definition brightness (Ie k n rh r : R) : R := Ie * exp (- k * (Rpower (r / rh) (1 / n) - 1)).

(** The integral of [f] over all radii is [L]: between two radii it tends to [L]
    as the radii go to zero and to infinity. *)
Definition total (f : R -> R) (L : R) : Prop :=
  forall eps, 0 < eps -> exists d X, 0 < d /\
    forall r1 r2, 0 < r1 < d -> X < r2 -> r1 < r2 -> exists v, is_RInt f r1 r2 v /\ Rabs (v - L) < eps.

(** The integral of [f] up to radius [r] is [L]. *)
Definition within (f : R -> R) (r L : R) : Prop :=
  forall eps, 0 < eps -> exists d, 0 < d /\
    forall r1, 0 < r1 < d -> r1 < r -> exists v, is_RInt f r1 r v /\ Rabs (v - L) < eps.

Lemma npow_pos : forall x y, 0 < x -> npow x y = Some (Rpower x y).
Proof. intros x y H. unfold npow. destruct (Rlt_dec 0 x); [reflexivity | lra]. Qed.
Lemma npow_0 : forall y, 0 < y -> npow 0 y = Some 0.
Proof.
  intros y H. unfold npow. destruct (Rlt_dec 0 0); [lra|]. destruct (Req_EM_T 0 0); [|lra].
  destruct (Rlt_dec 0 y); [reflexivity | lra].
Qed.
Lemma ndiv_ok : forall x y, y <> 0 -> ndiv x y = Some (x / y).
Proof. intros. unfold ndiv. destruct (Req_EM_T y 0); [contradiction | reflexivity]. Qed.
Lemma ginc_ok : forall sp a x, 0 <= x -> ginc sp a x = Some (gammainc sp a x).
Proof. intros. unfold ginc. destruct (Rle_dec 0 x); [reflexivity | lra]. Qed.
Lemma Rpower_pos : forall x y, 0 < Rpower x y.
Proof. intros. apply exp_pos. Qed.

Section Law.
  Variables (sp : special) (n rh : R).
  Hypothesis Hn : 0 < n.
  Hypothesis Hrh : 0 < rh.
  Hypothesis H2 : incomplete sp (2 * n).
  Let k := gammaincinv sp (2 * n) (1 / 2).
  Let y (r : R) := k * Rpower (r / rh) (1 / n).

  Lemma k_pos : 0 < k.
  Proof. apply (inc_inv sp (2 * n) H2). Qed.

  Lemma y_pos : forall r, 0 < y r.
  Proof. intros. apply Rmult_lt_0_compat; [apply k_pos | apply Rpower_pos]. Qed.

  Lemma frac_eq : forall r, 0 < r -> frac_sersic sp r rh n = Some (gammainc sp (2 * n) (y r)).
  Proof.
    intros r Hr. unfold frac_sersic. rewrite ndiv_ok by lra. cbn [bind].
    rewrite ndiv_ok by lra. cbn [bind]. rewrite npow_pos by (apply Rdiv_lt_0_compat; lra). cbn [bind].
    rewrite ginc_ok; [reflexivity|]. left. apply y_pos.
  Qed.

  Lemma frac_0 : frac_sersic sp 0 rh n = Some 0.
  Proof.
    unfold frac_sersic. rewrite ndiv_ok by lra. cbn [bind]. rewrite ndiv_ok by lra. cbn [bind].
    unfold Rdiv at 1. rewrite Rmult_0_l. rewrite npow_0 by (apply Rdiv_lt_0_compat; lra). cbn [bind].
    rewrite Rmult_0_r, ginc_ok by lra. f_equal. apply H2.
  Qed.

  Lemma is_derive_y : forall r, 0 < r -> is_derive y r (y r / (n * r)).
  Proof.
    intros r Hr. unfold y, Rpower. auto_derive.
    - apply Rdiv_lt_0_compat; lra.
    - set (E := exp _). field. repeat split; lra.
  Qed.

  (** the derivative of gammainc a (y r), a = m n *)
  Lemma is_derive_g : forall a, incomplete sp a -> forall r, 0 < r ->
    is_derive (fun r => gammainc sp a (y r)) r (Rpower (y r) a * exp (- y r) / (gamma sp a * n * r)).
  Proof.
    intros a Ha r Hr.
    pose proof (inc_der sp a Ha (y r) (y_pos r)) as D. apply is_derive_Reals in D.
    pose proof (is_derive_comp (gammainc sp a) y r _ _ D (is_derive_y r Hr)) as C.
    replace (Rpower (y r) a * exp (- y r) / (gamma sp a * n * r))
      with (scal (y r / (n * r)) (Rpower (y r) (a - 1) * exp (- y r) / gamma sp a)); [exact C|].
    unfold scal; cbn; unfold mult; cbn.
    replace (Rpower (y r) a) with (Rpower (y r) (a - 1) * y r).
    - pose proof (inc_gamma sp a Ha). field. repeat split; lra.
    - rewrite <- (Rpower_1 (y r)) at 2 by apply y_pos. rewrite <- Rpower_plus. f_equal. ring.
  Qed.

  Lemma y_power : forall m r, 0 < r -> Rpower (y r) (INR m * n) = Rpower k (INR m * n) * (r / rh) ^ m.
  Proof.
    intros m r Hr. unfold y. rewrite <- Rpower_mult_distr by (apply k_pos || apply Rpower_pos).
    f_equal. rewrite Rpower_mult.
    replace (1 / n * (INR m * n)) with (INR m) by (field; lra).
    apply Rpower_pow. apply Rdiv_lt_0_compat; lra.
  Qed.

  Lemma y_incr : forall r1 r2, 0 < r1 < r2 -> y r1 < y r2.
  Proof.
    intros r1 r2 H. apply Rmult_lt_compat_l; [apply k_pos|]. unfold Rpower. apply exp_increasing.
    apply Rmult_lt_compat_l; [apply Rdiv_lt_0_compat; lra|].
    apply ln_increasing; [apply Rdiv_lt_0_compat; lra|].
    apply Rmult_lt_compat_r; [apply Rinv_0_lt_compat|]; lra.
  Qed.

  Lemma y_small : forall e, 0 < e -> exists d, 0 < d /\ forall r, 0 < r < d -> 0 < y r < e.
  Proof.
    intros e He. exists (rh * Rpower (e / k) n). pose proof k_pos.
    split; [apply Rmult_lt_0_compat; [lra | apply Rpower_pos]|].
    intros r Hr. split; [apply y_pos|].
    assert (E : y (rh * Rpower (e / k) n) = e).
    { unfold y. replace (rh * Rpower (e / k) n / rh) with (Rpower (e / k) n) by (field; lra).
      rewrite Rpower_mult. replace (n * (1 / n)) with 1 by (field; lra).
      rewrite Rpower_1 by (apply Rdiv_lt_0_compat; lra). field. lra. }
    rewrite <- E. apply y_incr. exact Hr.
  Qed.

  Lemma y_large : forall Y, exists X, 0 < X /\ forall r, X < r -> Y < y r.
  Proof.
    intros Y. set (e := Rmax Y 1). exists (rh * Rpower (e / k) n). pose proof k_pos.
    assert (0 < e) by (unfold e; pose proof (Rmax_r Y 1); lra).
    assert (0 < rh * Rpower (e / k) n) by (apply Rmult_lt_0_compat; [lra | apply Rpower_pos]).
    split; [assumption|]. intros r Hr.
    assert (E : y (rh * Rpower (e / k) n) = e).
    { unfold y. replace (rh * Rpower (e / k) n / rh) with (Rpower (e / k) n) by (field; lra).
      rewrite Rpower_mult. replace (n * (1 / n)) with 1 by (field; lra).
      rewrite Rpower_1 by (apply Rdiv_lt_0_compat; lra). field. lra. }
    apply Rle_lt_trans with e; [apply Rmax_l|]. rewrite <- E. apply y_incr. lra.
  Qed.

  Lemma g_incr : forall a, incomplete sp a -> forall x1 x2, 0 < x1 < x2 -> gammainc sp a x1 < gammainc sp a x2.
  Proof.
    intros a Ha x1 x2 H. apply Rminus_gt_0_lt.
    set (f' := fun x => Rpower x (a - 1) * exp (- x) / gamma sp a).
    destruct (MVT_cor2 (gammainc sp a) f' x1 x2) as (c & E & Hc); [lra| |].
    - intros c Hc. apply (inc_der sp a Ha). lra.
    - rewrite E. apply Rmult_lt_0_compat; [|lra]. unfold f'. pose proof (inc_gamma sp a Ha).
      apply Rdiv_lt_0_compat; [|assumption]. apply Rmult_lt_0_compat; [apply Rpower_pos | apply exp_pos].
  Qed.

  Lemma g_range : forall a, incomplete sp a -> forall x, 0 < x -> 0 < gammainc sp a x < 1.
  Proof.
    intros a Ha x Hx. split.
    - destruct (Rlt_le_dec 0 (gammainc sp a (x / 2))) as [P|N].
      + eapply Rlt_trans; [exact P|]. apply (g_incr a Ha). lra.
      + exfalso. pose proof (g_incr a Ha (x / 4) (x / 2) ltac:(lra)) as I.
        destruct (inc_start sp a Ha (- gammainc sp a (x / 4))) as (d & Hd & S); [lra|].
        set (z := Rmin (x / 8) (d / 2)).
        assert (0 < z) by (unfold z; apply Rmin_glb_lt; lra).
        assert (z <= x / 8) by apply Rmin_l. assert (z <= d / 2) by apply Rmin_r.
        specialize (S z ltac:(lra)). pose proof (g_incr a Ha z (x / 4) ltac:(lra)).
        rewrite Rabs_left in S; lra.
    - destruct (Rlt_le_dec (gammainc sp a x) 1) as [P|N]; [exact P|].
      exfalso. pose proof (g_incr a Ha x (x + 1) ltac:(lra)) as I.
      destruct (inc_end sp a Ha (gammainc sp a (x + 1) - 1)) as (X & S); [lra|].
      set (z := Rmax (x + 2) (X + 1)).
      assert (x + 2 <= z) by apply Rmax_l. assert (X + 1 <= z) by apply Rmax_r.
      specialize (S z ltac:(lra)). pose proof (g_incr a Ha (x + 1) z ltac:(lra)).
      rewrite Rabs_right in S; lra.
  Qed.

  Lemma g_total : forall a, incomplete sp a -> forall eps, 0 < eps -> exists d X, 0 < d /\
    forall r1 r2, 0 < r1 < d -> X < r2 -> r1 < r2 ->
      Rabs (gammainc sp a (y r2) - gammainc sp a (y r1) - 1) < eps.
  Proof.
    intros a Ha eps He.
    destruct (inc_start sp a Ha (eps / 2)) as (d & Hd & S); [lra|].
    destruct (inc_end sp a Ha (eps / 2)) as (X & T); [lra|].
    destruct (y_small d Hd) as (d' & Hd' & S'). destruct (y_large X) as (X' & HX' & T').
    exists d', X'. split; [assumption|]. intros r1 r2 Hr1 Hr2 _.
    specialize (S (y r1) (S' r1 Hr1)). specialize (T (y r2) (T' r2 Hr2)).
    replace (gammainc sp a (y r2) - gammainc sp a (y r1) - 1)
      with ((gammainc sp a (y r2) - 1) + - gammainc sp a (y r1)) by ring.
    eapply Rle_lt_trans; [apply Rabs_triang|]. rewrite Rabs_Ropp. lra.
  Qed.

  Definition Ie0 (lum : R) : R :=
    lum * (Rpower k (2 * n) / (n * exp k) / gamma sp (2 * n)) / (2 * PI * rh ^ 2).

  Lemma I_eff_None : forall lum, I_eff sp lum rh None n = Some (Ie0 lum).
  Proof.
    intros. pose proof k_pos. pose proof (inc_gamma _ _ H2). pose proof (exp_pos k). pose proof PI_RGT_0.
    unfold I_eff. cbn [bind]. fold k. rewrite npow_pos by assumption. cbn [bind].
    rewrite ndiv_ok by (apply Rgt_not_eq; apply Rmult_lt_0_compat; lra). cbn [bind].
    rewrite ndiv_ok by lra. cbn [bind].
    rewrite ndiv_ok; [reflexivity|]. apply Rgt_not_eq. apply Rmult_lt_0_compat; [lra|]. apply pow_lt; lra.
  Qed.

  Lemma I_eff_Some : forall lum fr, 0 < fr ->
    I_eff sp lum rh (Some fr) n = Some (Ie0 lum / gammainc sp (2 * n) (y fr)).
  Proof.
    intros lum fr Hf. pose proof k_pos. pose proof (inc_gamma _ _ H2). pose proof (exp_pos k). pose proof PI_RGT_0.
    pose proof (g_range _ H2 _ (y_pos fr)).
    unfold I_eff. fold k. rewrite (ndiv_ok fr) by lra. cbn [bind]. rewrite ndiv_ok by lra. cbn [bind].
    rewrite npow_pos by (apply Rdiv_lt_0_compat; lra). cbn [bind].
    rewrite ginc_ok by (left; apply y_pos). cbn [bind]. rewrite npow_pos by assumption. cbn [bind].
    rewrite ndiv_ok by (apply Rgt_not_eq; apply Rmult_lt_0_compat; lra). cbn [bind].
    rewrite ndiv_ok by (apply Rgt_not_eq; apply Rmult_lt_0_compat; [lra | fold (y fr); lra]). cbn [bind].
    rewrite ndiv_ok by (apply Rgt_not_eq; apply Rmult_lt_0_compat; [lra | apply pow_lt; lra]).
    f_equal. unfold Ie0. fold (y fr). field. repeat split; lra.
  Qed.

  (** the flux in a ring, and its first moment *)
  Lemma ring_integral : forall m a c (f : R -> R), incomplete sp a -> a = INR m * n ->
    (forall r, 0 < r -> f r = c * (Rpower k a * (r / rh) ^ m * exp (- y r) / (gamma sp a * n * r))) ->
    forall r1 r2, 0 < r1 < r2 ->
    is_RInt f r1 r2 (c * (gammainc sp a (y r2) - gammainc sp a (y r1))).
  Proof.
    intros m a c f Ha Em Hf r1 r2 Hr.
    assert (P : forall r, r1 <= r <= r2 -> 0 < r) by (intros; lra).
    pose proof (inc_gamma sp a Ha) as Hg.
    set (g := fun r => c * (Rpower (y r) a * exp (- y r) / (gamma sp a * n * r))).
    apply is_RInt_ext with g.
    { intros r Hx. rewrite Rmin_left, Rmax_right in Hx by lra. unfold g. rewrite Hf by lra.
      subst a. rewrite y_power by lra. reflexivity. }
    replace (c * (gammainc sp a (y r2) - gammainc sp a (y r1)))
      with (minus (c * gammainc sp a (y r2)) (c * gammainc sp a (y r1)))
      by (unfold minus, plus, opp; cbn; ring).
    apply (is_RInt_derive (fun r => c * gammainc sp a (y r)) g).
    - intros r Hx. rewrite Rmin_left, Rmax_right in Hx by lra.
      apply is_derive_scal. apply is_derive_g; [assumption | lra].
    - intros r Hx. rewrite Rmin_left, Rmax_right in Hx by lra. unfold g.
      apply (ex_derive_continuous (V := R_NormedModule)).
      assert (D : ex_derive y r) by (eexists; apply is_derive_y; lra).
      pose proof (y_pos r). assert (n * r <> 0) by (apply Rgt_not_eq; apply Rmult_lt_0_compat; lra).
      unfold Rpower. auto_derive. repeat split; try assumption. 
      apply Rgt_not_eq. apply Rmult_lt_0_compat; [apply Rmult_lt_0_compat|]; lra.
  Qed.

  Lemma flux_ring : forall lum r1 r2, 0 < r1 < r2 ->
    is_RInt (fun r => 2 * PI * r * brightness (Ie0 lum) k n rh r) r1 r2
            (lum * (gammainc sp (2 * n) (y r2) - gammainc sp (2 * n) (y r1))).
  Proof.
    intros lum r1 r2 Hr. pose proof (inc_gamma _ _ H2) as Hg.
    apply (ring_integral 2 (2 * n)); [assumption | cbn; ring | | assumption].
    intros r Hpos. unfold brightness, Ie0. fold (y r).
    replace (- k * (Rpower (r / rh) (1 / n) - 1)) with (k + - y r) by (unfold y; ring).
    rewrite exp_plus. pose proof (exp_pos k). pose proof PI_RGT_0. field. repeat split; lra.
  Qed.

  Hypothesis H3 : incomplete sp (3 * n).

  Lemma moment_ring : forall lum r1 r2, 0 < r1 < r2 ->
    is_RInt (fun r => r * (2 * PI * r * brightness (Ie0 lum) k n rh r)) r1 r2
            (lum * (rh / Rpower k n * (gamma sp (3 * n) / gamma sp (2 * n))) *
             (gammainc sp (3 * n) (y r2) - gammainc sp (3 * n) (y r1))).
  Proof.
    intros lum r1 r2 Hr. pose proof (inc_gamma _ _ H2) as Hg. pose proof (inc_gamma _ _ H3) as Hg3.
    apply (ring_integral 3 (3 * n)); [assumption | cbn; ring | | assumption].
    intros r Hpos. unfold brightness, Ie0. fold (y r).
    replace (- k * (Rpower (r / rh) (1 / n) - 1)) with (k + - y r) by (unfold y; ring).
    replace (3 * n) with (n + 2 * n) by ring. rewrite (Rpower_plus n (2 * n) k).
    replace (n + 2 * n) with (3 * n) by ring.
    rewrite exp_plus. pose proof (exp_pos k). pose proof PI_RGT_0. pose proof (Rpower_pos k n).
    field. repeat split; lra.
  Qed.

  Lemma kron_None : kron_radius sp rh n None = Some (rh / Rpower k n * (gamma sp (3 * n) / gamma sp (2 * n))).
  Proof.
    unfold kron_radius. fold k. pose proof k_pos. pose proof (inc_gamma _ _ H2). pose proof (Rpower_pos k n).
    rewrite ndiv_ok by lra. cbn [bind]. rewrite npow_pos by assumption. cbn [bind].
    rewrite ndiv_ok by lra. reflexivity.
  Qed.

  Lemma kron_Some : forall rm, 0 < rm -> kron_radius sp rh n (Some rm) =
    Some (rh / Rpower k n * (gammainc sp (3 * n) (y rm) / gammainc sp (2 * n) (y rm))).
  Proof.
    intros rm Hm. unfold kron_radius. fold k. pose proof k_pos. pose proof (Rpower_pos k n).
    pose proof (g_range _ H2 _ (y_pos rm)).
    destruct (Req_EM_T rm 0); [lra|].
    rewrite ndiv_ok by lra. cbn [bind]. rewrite ndiv_ok by lra. cbn [bind].
    rewrite npow_pos by (apply Rdiv_lt_0_compat; lra). cbn [bind]. fold (y rm).
    rewrite ginc_ok by (left; apply y_pos). cbn [bind]. rewrite ginc_ok by (left; apply y_pos). cbn [bind].
    rewrite ndiv_ok by lra. cbn [bind]. rewrite npow_pos by assumption. cbn [bind].
    rewrite ndiv_ok by lra. reflexivity.
  Qed.
End Law.

Lemma y_rh : forall sp n rh, 0 < rh -> gammaincinv sp (2 * n) (1 / 2) * Rpower (rh / rh) (1 / n)
  = gammaincinv sp (2 * n) (1 / 2).
Proof.
  intros. replace (rh / rh) with 1 by (field; lra).
  unfold Rpower. rewrite ln_1, Rmult_0_r, exp_0. ring.
Qed.

(** The fraction of flux inside a radius is 0 at 0, 1/2 at the half light
    radius, strictly increasing, below one and tending to one. *)
Theorem C50_fraction : forall sp n rh, 0 < n -> 0 < rh -> incomplete sp (2 * n) ->
  frac_sersic sp 0 rh n = Some 0 /\
  frac_sersic sp rh rh n = Some (1 / 2) /\
  (forall r1 r2, 0 <= r1 < r2 -> exists f1 f2,
     frac_sersic sp r1 rh n = Some f1 /\ frac_sersic sp r2 rh n = Some f2 /\ 0 <= f1 < f2 /\ f2 < 1) /\
  (forall eps, 0 < eps -> exists X, forall r, X < r -> exists f,
     frac_sersic sp r rh n = Some f /\ 1 - eps < f < 1).
Proof.
  intros sp n rh Hn Hrh H2. split; [|split; [|split]].
  - apply frac_0; assumption.
  - rewrite frac_eq by assumption. rewrite y_rh by assumption. f_equal. apply H2.
  - intros r1 r2 Hr. destruct (Req_dec r1 0) as [->|Hne].
    + exists 0. eexists. split; [apply frac_0; assumption|]. split; [apply frac_eq; (assumption || lra)|].
      pose proof (g_range sp (2 * n) H2 _ (y_pos sp n rh H2 r2)). lra.
    + do 2 eexists. split; [apply frac_eq; (assumption || lra)|]. split; [apply frac_eq; (assumption || lra)|].
      pose proof (g_range sp (2 * n) H2 _ (y_pos sp n rh H2 r1)).
      pose proof (g_range sp (2 * n) H2 _ (y_pos sp n rh H2 r2)).
      pose proof (g_incr sp (2 * n) H2 _ _ (conj (y_pos sp n rh H2 r1) (y_incr sp n rh Hn Hrh H2 r1 r2 ltac:(lra)))).
      lra.
  - intros eps He. destruct (inc_end sp _ H2 eps He) as (Y & HY).
    destruct (y_large sp n rh Hn Hrh H2 Y) as (X & HX & HX'). exists X. intros r Hr.
    eexists. split; [apply frac_eq; (assumption || lra)|]. specialize (HY _ (HX' r Hr)).
    pose proof (g_range sp (2 * n) H2 _ (y_pos sp n rh H2 r)).
    apply Rabs_def2 in HY. lra.
Qed.
Print Assumptions C50_fraction.

(** With the brightness that I_eff gives at the half light radius, the Sersic
    law has the whole luminosity over all radii, and between any two radii the
    part that frac_sersic says. *)
Theorem C50_flux : forall sp n rh lum, 0 < n -> 0 < rh -> incomplete sp (2 * n) -> exists Ie,
  I_eff sp lum rh None n = Some Ie /\
  let light := fun r => 2 * PI * r * brightness Ie (gammaincinv sp (2 * n) (1 / 2)) n rh r in
  total light lum /\
  forall r1 r2, 0 < r1 < r2 -> exists f1 f2,
    frac_sersic sp r1 rh n = Some f1 /\ frac_sersic sp r2 rh n = Some f2 /\
    is_RInt light r1 r2 (lum * (f2 - f1)).
Proof.
  intros sp n rh lum Hn Hrh H2. exists (Ie0 sp n rh lum). split; [apply I_eff_None; assumption|].
  intro light. split.
  - intros eps He.
    destruct (g_total sp n rh Hn Hrh H2 _ H2 (eps / (Rabs lum + 1))) as (d & X & Hd & T).
    { apply Rdiv_lt_0_compat; [lra|]. pose proof (Rabs_pos lum). lra. }
    exists d, X. split; [assumption|]. intros r1 r2 h1 h2 h. eexists.
    split; [apply flux_ring; (assumption || lra)|]. specialize (T r1 r2 h1 h2 h).
    match goal with |- Rabs (lum * ?g - lum) < _ => replace (lum * g - lum) with (lum * (g - 1)) by ring end.
    rewrite Rabs_mult. pose proof (Rabs_pos lum).
    apply Rle_lt_trans with ((Rabs lum) * (eps / (Rabs lum + 1))).
    + apply Rmult_le_compat_l; [assumption|]. left. exact T.
    + apply Rmult_lt_reg_r with (Rabs lum + 1); [lra|].
      replace (Rabs lum * (eps / (Rabs lum + 1)) * (Rabs lum + 1)) with (Rabs lum * eps) by (field; lra). nra.
  - intros r1 r2 Hr. do 2 eexists. split; [apply frac_eq; (assumption || lra)|]. split; [apply frac_eq; (assumption || lra)|].
    apply flux_ring; assumption.
Qed.
Print Assumptions C50_flux.

Lemma within_of_ring : forall sp n rh a c f, 0 < n -> 0 < rh -> incomplete sp (2 * n) -> incomplete sp a ->
  let y := fun r => gammaincinv sp (2 * n) (1 / 2) * Rpower (r / rh) (1 / n) in
  (forall r1 r2, 0 < r1 < r2 -> is_RInt f r1 r2 (c * (gammainc sp a (y r2) - gammainc sp a (y r1)))) ->
  forall r, 0 < r -> within f r (c * gammainc sp a (y r)).
Proof.
  intros sp n rh a c f Hn Hrh H2 Ha y Hf r Hr eps He.
  pose proof (Rabs_pos c).
  destruct (inc_start sp a Ha (eps / (Rabs c + 1))) as (e & Hepos & S).
  { apply Rdiv_lt_0_compat; lra. }
  destruct (y_small sp n rh Hn Hrh H2 e Hepos) as (d & Hd & S').
  exists d. split; [assumption|]. intros r1 h1 h. eexists. split; [apply Hf; lra|].
  specialize (S _ (S' r1 h1)). fold (y r1) in S.
  replace (c * (gammainc sp a (y r) - gammainc sp a (y r1)) - c * gammainc sp a (y r))
    with (c * - gammainc sp a (y r1)) by ring.
  rewrite Rabs_mult, Rabs_Ropp.
  apply Rle_lt_trans with ((Rabs c) * (eps / (Rabs c + 1))).
  - apply Rmult_le_compat_l; [assumption|]. left. exact S.
  - apply Rmult_lt_reg_r with (Rabs c + 1); [lra|].
    replace (Rabs c * (eps / (Rabs c + 1)) * (Rabs c + 1)) with (Rabs c * eps) by (field; lra). nra.
Qed.

Lemma brightness_scale : forall c Ie k n rh r, brightness (Ie / c) k n rh r = / c * brightness Ie k n rh r.
Proof. intros. unfold brightness, Rdiv. ring. Qed.

Lemma within_scal : forall f c r L, within f r L -> within (fun x => c * f x) r (c * L).
Proof.
  intros f c r L W eps He. pose proof (Rabs_pos c).
  destruct (W (eps / (Rabs c + 1))) as (d & Hd & S); [apply Rdiv_lt_0_compat; lra|].
  exists d. split; [assumption|]. intros r1 h1 h. destruct (S r1 h1 h) as (v & I & V).
  exists (c * v). split; [apply (is_RInt_scal (V := R_NormedModule)); exact I|].
  replace (c * v - c * L) with (c * (v - L)) by ring. rewrite Rabs_mult.
  apply Rle_lt_trans with ((Rabs c) * (eps / (Rabs c + 1))).
  - apply Rmult_le_compat_l; [assumption|]. left. exact V.
  - apply Rmult_lt_reg_r with (Rabs c + 1); [lra|].
    replace (Rabs c * (eps / (Rabs c + 1)) * (Rabs c + 1)) with (Rabs c * eps) by (field; lra). nra.
Qed.

Lemma within_ext : forall f g r L, (forall x, f x = g x) -> within f r L -> within g r L.
Proof.
  intros f g r L E W eps He. destruct (W eps He) as (d & Hd & S). exists d. split; [assumption|].
  intros r1 h1 h. destruct (S r1 h1 h) as (v & I & V). exists v. split; [|assumption].
  eapply is_RInt_ext; [|exact I]. intros. apply E.
Qed.

(** Given the radius the flux was measured in, the law has that flux inside that
    radius. *)
Theorem C50_flux_radius : forall sp n rh lum fr, 0 < n -> 0 < rh -> 0 < fr -> incomplete sp (2 * n) -> exists Ie,
  I_eff sp lum rh (Some fr) n = Some Ie /\
  within (fun r => 2 * PI * r * brightness Ie (gammaincinv sp (2 * n) (1 / 2)) n rh r) fr lum.
Proof.
  intros sp n rh lum fr Hn Hrh Hf H2.
  exists (Ie0 sp n rh lum / gammainc sp (2 * n) (gammaincinv sp (2 * n) (1 / 2) * Rpower (fr / rh) (1 / n))).
  split; [apply I_eff_Some; assumption|].
  set (g := gammainc sp (2 * n) _). set (k := gammaincinv sp (2 * n) (1 / 2)).
  assert (Hg : 0 < g < 1) by (apply g_range; [assumption | apply y_pos; assumption]).
  apply within_ext with (fun r => / g * (2 * PI * r * brightness (Ie0 sp n rh lum) k n rh r)).
  { intros. rewrite brightness_scale. ring. }
  match goal with |- within ?f ?r _ => cut (within f r (/ g * (lum * g))) end.
  { replace (/ g * (lum * g)) with lum by (field; lra). trivial. }
  apply within_scal.
  unfold g. apply (within_of_ring sp n rh (2 * n) lum); try assumption.
  intros. apply flux_ring; assumption.
Qed.
Print Assumptions C50_flux_radius.

(** The Kron radius (first moment over flux) of the whole profile. *)
Theorem C50_kron : forall sp n rh lum, 0 < n -> 0 < rh -> incomplete sp (2 * n) -> incomplete sp (3 * n) ->
  exists Ie rk, I_eff sp lum rh None n = Some Ie /\ kron_radius sp rh n None = Some rk /\ 0 < rk /\
  let light := fun r => 2 * PI * r * brightness Ie (gammaincinv sp (2 * n) (1 / 2)) n rh r in
  total light lum /\ total (fun r => r * light r) (lum * rk).
Proof.
  intros sp n rh lum Hn Hrh H2 H3.
  destruct (C50_flux sp n rh lum Hn Hrh H2) as (Ie & EI & T & _).
  exists Ie. eexists. split; [assumption|]. split; [apply kron_None; assumption|].
  pose proof (inc_gamma _ _ H2). pose proof (inc_gamma _ _ H3).
  set (rk := rh / _ * _).
  assert (0 < rk).
  { unfold rk. apply Rmult_lt_0_compat; apply Rdiv_lt_0_compat; try lra. apply Rpower_pos. }
  split; [assumption|]. intro light. split; [exact T|].
  rewrite (I_eff_None sp n rh Hn Hrh H2) in EI. injection EI as <-.
  intros eps He. set (L := lum * rk). pose proof (Rabs_pos L).
  destruct (g_total sp n rh Hn Hrh H2 _ H3 (eps / (Rabs L + 1))) as (d & X & Hd & G).
  { apply Rdiv_lt_0_compat; lra. }
  exists d, X. split; [assumption|]. intros r1 r2 h1 h2 h. eexists.
  split; [apply moment_ring; (assumption || lra)|]. fold rk. fold L. specialize (G r1 r2 h1 h2 h).
  match goal with |- Rabs (L * ?g - L) < _ => replace (L * g - L) with (L * (g - 1)) by ring end.
  rewrite Rabs_mult.
  apply Rle_lt_trans with ((Rabs L) * (eps / (Rabs L + 1))).
  - apply Rmult_le_compat_l; [assumption|]. left. exact G.
  - apply Rmult_lt_reg_r with (Rabs L + 1); [lra|].
    replace (Rabs L * (eps / (Rabs L + 1)) * (Rabs L + 1)) with (Rabs L * eps) by (field; lra). nra.
Qed.
Print Assumptions C50_kron.

(** With a maximum radius what is returned is too small by the ratio of the two
    complete gamma functions: scipy's gammainc is already divided by gamma. *)
Theorem C50_kron_rmax_partial : forall sp n rh rm lum, 0 < n -> 0 < rh -> 0 < rm -> 
  incomplete sp (2 * n) -> incomplete sp (3 * n) ->
  exists Ie rk F, I_eff sp lum rh None n = Some Ie /\ kron_radius sp rh n (Some rm) = Some rk /\ 0 < rk /\
  let light := fun r => 2 * PI * r * brightness Ie (gammaincinv sp (2 * n) (1 / 2)) n rh r in
  within light rm F /\ within (fun r => r * light r) rm (F * (rk * (gamma sp (3 * n) / gamma sp (2 * n)))) /\
  (0 < lum -> 0 < F < lum).
Proof.
  intros sp n rh rm lum Hn Hrh Hm H2 H3.
  set (g2 := gammainc sp (2 * n) (gammaincinv sp (2 * n) (1 / 2) * Rpower (rm / rh) (1 / n))).
  pose proof (g_range sp (2 * n) H2 _ (y_pos sp n rh H2 rm)) as G2. fold g2 in G2.
  pose proof (g_range sp (3 * n) H3 _ (y_pos sp n rh H2 rm)) as G3.
  pose proof (Rpower_pos (gammaincinv sp (2 * n) (1 / 2)) n) as Hk.
  exists (Ie0 sp n rh lum). eexists. exists (lum * g2).
  split; [apply I_eff_None; assumption|]. split; [apply kron_Some; assumption|].
  split; [apply Rmult_lt_0_compat; apply Rdiv_lt_0_compat; assumption || apply G2 || apply G3|].
  intro light. split; [|split].
  - apply (within_of_ring sp n rh (2 * n) lum); try assumption. intros. apply flux_ring; assumption.
  - fold g2. pose proof (inc_gamma _ _ H2).
    match goal with |- within _ _ ?L => replace L with
      (lum * (rh / Rpower (gammaincinv sp (2 * n) (1 / 2)) n * (gamma sp (3 * n) / gamma sp (2 * n))) *
       gammainc sp (3 * n) (gammaincinv sp (2 * n) (1 / 2) * Rpower (rm / rh) (1 / n))) end.
    + eapply (within_of_ring sp n rh (3 * n)); try assumption. intros. apply moment_ring; assumption.
    + field. repeat split; lra.
  - intros. nra.
Qed.
Print Assumptions C50_kron_rmax_partial.

(** brightness decreases with radius, from Ie e^k *)
Lemma brightness_decr : forall Ie k n rh r1 r2, 0 < Ie -> 0 < k -> 0 < n -> 0 < rh -> 0 < r1 < r2 ->
  brightness Ie k n rh r2 < brightness Ie k n rh r1.
Proof.
  intros. unfold brightness. apply Rmult_lt_compat_l; [assumption|]. apply exp_increasing.
  assert (Rpower (r1 / rh) (1 / n) < Rpower (r2 / rh) (1 / n)); [|nra].
  unfold Rpower. apply exp_increasing. apply Rmult_lt_compat_l; [apply Rdiv_lt_0_compat; lra|].
  apply ln_increasing; [apply Rdiv_lt_0_compat; lra|].
  apply Rmult_lt_compat_r; [apply Rinv_0_lt_compat|]; lra.
Qed.

Lemma brightness_top : forall Ie k n rh r, 0 < Ie -> 0 < k -> brightness Ie k n rh r < Ie * exp k.
Proof.
  intros. unfold brightness. apply Rmult_lt_compat_l; [assumption|]. apply exp_increasing.
  pose proof (Rpower_pos (r / rh) (1 / n)). nra.
Qed.

(** The isophotal radius is the one radius where the law has the given
    brightness, whenever the law reaches it. *)
Theorem C50_isophote : forall sp n rh lum fr Ie iso, 0 < n -> 0 < rh -> incomplete sp (2 * n) ->
  I_eff sp lum rh fr n = Some Ie -> 0 < Ie -> 0 < iso ->
  let k := gammaincinv sp (2 * n) (1 / 2) in
  (iso = Ie * exp k -> isophotal_radius sp iso lum rh fr n = Some 0) /\
  (iso < Ie * exp k -> exists r, isophotal_radius sp iso lum rh fr n = Some r /\ 0 < r /\
     brightness Ie k n rh r = iso /\
     forall r', 0 < r' -> brightness Ie k n rh r' = iso -> r' = r) /\
  (forall r, 0 < r -> brightness Ie k n rh r < Ie * exp k).
Proof.
  intros sp n rh lum fr Ie iso Hn Hrh H2 EI HIe Hiso k.
  assert (Hk : 0 < k) by (apply k_pos; assumption).
  assert (U : forall b, b = 1 - ln (iso / Ie) / k -> isophotal_radius sp iso lum rh fr n = (do r <- npow b n; Some (r * rh))).
  { intros b ->. unfold isophotal_radius. rewrite EI. cbn [bind]. fold k. rewrite ndiv_ok by lra. cbn [bind].
    unfold nlog. destruct (Rlt_dec 0 (iso / Ie)) as [_|N]; [|exfalso; apply N; apply Rdiv_lt_0_compat; lra].
    cbn [bind]. rewrite ndiv_ok by lra. reflexivity. }
  split; [|split].
  - intros E. rewrite (U 0).
    + rewrite npow_0 by assumption. cbn [bind]. f_equal. ring.
    + rewrite E. replace (Ie * exp k / Ie) with (exp k) by (field; lra). rewrite ln_exp. field. lra.
  - intros Hlt. set (b := 1 - ln (iso / Ie) / k).
    assert (Hb : 0 < b).
    { unfold b. assert (ln (iso / Ie) < k).
      { rewrite <- (ln_exp k). apply ln_increasing; [apply Rdiv_lt_0_compat; lra|].
        apply Rmult_lt_reg_r with Ie; [lra|]. replace (iso / Ie * Ie) with iso by (field; lra). lra. }
      assert (ln (iso / Ie) / k < 1); [|lra].
      apply Rmult_lt_reg_r with k; [assumption|]. replace (ln (iso / Ie) / k * k) with (ln (iso / Ie)) by (field; lra).
      lra. }
    exists (Rpower b n * rh). rewrite (U b eq_refl), npow_pos by assumption. cbn [bind].
    assert (Hr : 0 < Rpower b n * rh) by (apply Rmult_lt_0_compat; [apply Rpower_pos | assumption]).
    assert (B : brightness Ie k n rh (Rpower b n * rh) = iso).
    { unfold brightness. replace (Rpower b n * rh / rh) with (Rpower b n) by (field; lra).
      rewrite Rpower_mult. replace (n * (1 / n)) with 1 by (field; lra). rewrite Rpower_1 by assumption.
      replace (- k * (b - 1)) with (ln (iso / Ie)) by (unfold b; field; lra).
      rewrite exp_ln by (apply Rdiv_lt_0_compat; lra). field. lra. }
    repeat split; try assumption.
    intros r' Hr' B'. destruct (Rtotal_order r' (Rpower b n * rh)) as [L|[E|G]]; [|exact E|].
    + pose proof (brightness_decr Ie k n rh _ _ HIe Hk Hn Hrh (conj Hr' L)). lra.
    + pose proof (brightness_decr Ie k n rh _ _ HIe Hk Hn Hrh (conj Hr G)). lra.
  - intros. apply brightness_top; assumption.
Qed.
Print Assumptions C50_isophote.
