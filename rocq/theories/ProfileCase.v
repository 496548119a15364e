(** C50, continued: the functions asked for exist for every whole Sersic index,
    and what kron_radius and isophotal_radius get wrong. *)
From Coq Require Import Reals Lra Lia.
From Coquelicot Require Import Coquelicot.
From Verif Require Import ProfileModel ProfileProps.
Open Scope R_scope.

(** gammainc (m + 1) in closed form *)
Fixpoint erl (m : nat) (x : R) : R :=
  match m with
  | O => 1 - exp (- x)
  | S j => erl j x - exp (- x) * x ^ S j / INR (fact (S j))
  end.

Lemma erl_0 : forall m, erl m 0 = 0.
Proof.
  induction m; cbn [erl].
  - rewrite Ropp_0, exp_0. ring.
  - rewrite IHm. rewrite pow_i by lia. unfold Rdiv. ring.
Qed.

Lemma fact_pos : forall m, 0 < INR (fact m).
Proof. intros. apply lt_0_INR. apply lt_O_fact. Qed.

Lemma erl_der : forall m x, is_derive (erl m) x (x ^ m * exp (- x) / INR (fact m)).
Proof.
  induction m; intros x.
  - cbn [erl pow fact INR]. auto_derive; [exact I|]. field.
  - pose proof (fact_pos m). pose proof (fact_pos (S m)).
    assert (D : is_derive (fun x => exp (- x) * x ^ S m / INR (fact (S m))) x
      ((- exp (- x) * x ^ S m + exp (- x) * (INR (S m) * x ^ m)) / INR (fact (S m)))).
    { auto_derive; [exact I|].
      change (match m with 0%nat => 1 | S _ => INR m + 1 end) with (INR (S m)).
      change (fact m + m * fact m)%nat with (fact (S m)). change (x ^ S m) with (x * x ^ m).
      field. lra. }
    pose proof (is_derive_minus _ _ x _ _ (IHm x) D) as M.
    replace (x ^ S m * exp (- x) / INR (fact (S m)))
      with (minus (x ^ m * exp (- x) / INR (fact m))
             ((- exp (- x) * x ^ S m + exp (- x) * (INR (S m) * x ^ m)) / INR (fact (S m)))); [exact M|].
    unfold minus, plus, opp; cbn [AbelianGroup.opp AbelianGroup.plus]. cbn -[fact INR pow].
    rewrite fact_simpl, mult_INR in *. assert (0 < INR (S m)) by (apply lt_0_INR; lia).
    field. split; lra.
Qed.

(** x^m e^-x is below (m+1)^(m+1) / x *)
Lemma power_exp : forall m x, 0 < x -> exp (- x) * x ^ m <= INR (S m) ^ S m / x.
Proof.
  intros m x Hx. set (s := INR (S m)). assert (Hs : 0 < s) by (apply lt_0_INR; lia).
  assert (E : (x / s) ^ S m <= exp x).
  { replace (exp x) with ((exp (x / s)) ^ S m).
    - apply pow_incr. split; [left; apply Rdiv_lt_0_compat; lra|].
      pose proof (exp_ineq1 (x / s)). assert (0 < x / s) by (apply Rdiv_lt_0_compat; lra).
      specialize (H ltac:(lra)). lra.
    - rewrite <- Rpower_pow by apply exp_pos. unfold Rpower. rewrite ln_exp. f_equal. fold s. field. lra. }
  apply Rmult_le_reg_r with (x * exp x).
  { apply Rmult_lt_0_compat; [assumption | apply exp_pos]. }
  replace (exp (- x) * x ^ m * (x * exp x)) with (x ^ S m * (exp (- x) * exp x)) by (cbn; ring).
  rewrite <- exp_plus, Rplus_opp_l, exp_0.
  replace (s ^ S m / x * (x * exp x)) with (s ^ S m * exp x) by (field; lra).
  replace (x ^ S m * 1) with (s ^ S m * (x / s) ^ S m).
  - apply Rmult_le_compat_l; [left; apply pow_lt; assumption | exact E].
  - rewrite <- Rpow_mult_distr. replace (s * (x / s)) with x by (field; lra). ring.
Qed.

Lemma erl_end : forall m eps, 0 < eps -> exists X, 0 < X /\ forall x, X < x -> Rabs (erl m x - 1) < eps.
Proof.
  assert (Sm : forall m eps, 0 < eps -> exists X, 0 < X /\ forall x, X < x -> Rabs (exp (- x) * x ^ m / INR (fact m)) < eps).
  { intros m eps He. set (C := INR (S m) ^ S m / INR (fact m)).
    assert (HC : 0 < C) by (apply Rdiv_lt_0_compat; [apply pow_lt; apply lt_0_INR; lia | apply fact_pos]).
    exists (C / eps). split; [apply Rdiv_lt_0_compat; assumption|]. intros x Hx.
    assert (0 < C / eps) by (apply Rdiv_lt_0_compat; assumption).
    pose proof (fact_pos m). pose proof (exp_pos (- x)). assert (0 < x ^ m) by (apply pow_lt; lra).
    rewrite Rabs_right.
    - apply Rle_lt_trans with (C / x).
      + unfold C. replace (INR (S m) ^ S m / INR (fact m) / x) with (INR (S m) ^ S m / x / INR (fact m)) by (field; lra).
        apply Rmult_le_compat_r; [left; apply Rinv_0_lt_compat; assumption|]. apply power_exp. lra.
      + apply Rmult_lt_reg_r with x; [lra|]. replace (C / x * x) with C by (field; lra).
        apply Rmult_lt_compat_l with (r := eps) in Hx; [|assumption].
        replace (eps * (C / eps)) with C in Hx by (field; lra). exact Hx.
    - left. apply Rdiv_lt_0_compat; [apply Rmult_lt_0_compat|]; assumption. }
  induction m; intros eps He.
  - destruct (Sm 0%nat eps He) as (X & HX & S). exists X. split; [assumption|]. intros x Hx.
    specialize (S x Hx). cbn [erl]. cbn in S. 
    replace (1 - exp (- x) - 1) with (- (exp (- x) * 1 / 1)) by field. rewrite Rabs_Ropp. exact S.
  - destruct (IHm (eps / 2) ltac:(lra)) as (X1 & HX1 & S1). destruct (Sm (S m) (eps / 2) ltac:(lra)) as (X2 & HX2 & S2).
    exists (Rmax X1 X2). split; [eapply Rlt_le_trans; [exact HX1 | apply Rmax_l]|]. intros x Hx.
    pose proof (Rmax_l X1 X2). pose proof (Rmax_r X1 X2).
    specialize (S1 x ltac:(lra)). specialize (S2 x ltac:(lra)). cbn [erl].
    replace (erl m x - exp (- x) * x ^ S m / INR (fact (S m)) - 1)
      with ((erl m x - 1) + - (exp (- x) * x ^ S m / INR (fact (S m)))) by ring.
    eapply Rle_lt_trans; [apply Rabs_triang|]. rewrite Rabs_Ropp. lra.
Qed.

Lemma erl_cont : forall m x, continuity_pt (erl m) x.
Proof.
  intros. apply derivable_continuous_pt. eexists. apply is_derive_Reals. apply erl_der.
Qed.

Lemma erl_half : forall m, exists z, 0 < z /\ erl m z = 1 / 2.
Proof.
  intros m. destruct (erl_end m (1 / 4) ltac:(lra)) as (X & HX & S).
  specialize (S (X + 1) ltac:(lra)). apply Rabs_def2 in S.
  destruct (IVT (fun x => erl m x - 1 / 2) 0 (X + 1)) as (z & Hz & E).
  - intros x. apply continuity_pt_minus; [apply erl_cont | apply continuity_pt_const; intros ? ?; reflexivity].
  - lra.
  - rewrite erl_0. lra.
  - lra.
  - exists z. split; [|lra]. destruct (Req_dec z 0) as [->|]; [|lra]. rewrite erl_0 in E. lra.
Qed.

(** scipy's functions at two whole first arguments *)
Definition two_gammas (m1 m2 : nat) (z1 z2 : R) : special :=
  {| gamma := fun a => if Req_EM_T a (INR (S m1)) then INR (fact m1) else INR (fact m2);
     gammainc := fun a => if Req_EM_T a (INR (S m1)) then erl m1 else erl m2;
     gammaincinv := fun a _ => if Req_EM_T a (INR (S m1)) then z1 else z2 |}.

Lemma incomplete_erl : forall sp a m z, a = INR (S m) -> gamma sp a = INR (fact m) -> gammainc sp a = erl m ->
  gammaincinv sp a (1 / 2) = z -> 0 < z -> erl m z = 1 / 2 -> incomplete sp a.
Proof.
  intros sp a m z Ea Eg Ei Ez Hz Hh. constructor.
  - rewrite Eg. apply fact_pos.
  - rewrite Ei. apply erl_0.
  - intros eps He. rewrite Ei. destruct (erl_cont m 0 eps He) as (d & Hd & C). exists d. split; [assumption|].
    intros x Hx. specialize (C x). unfold dist in C; cbn in C. unfold R_dist in C. rewrite erl_0, !Rminus_0_r in C.
    apply C. split; [split; [exact I | lra]|]. rewrite Rabs_right; lra.
  - intros x Hx. rewrite Ei, Eg. replace (Rpower x (a - 1)) with (x ^ m).
    + apply is_derive_Reals. apply erl_der.
    + rewrite <- Rpower_pow by assumption. f_equal. rewrite Ea, S_INR. ring.
  - intros eps He. rewrite Ei. destruct (erl_end m eps He) as (X & _ & HX). exists X. exact HX.
  - rewrite Ez, Ei. split; assumption.
Qed.

(** For every whole Sersic index there are functions as C50_fraction ...
    C50_isophote ask for. *)
Example whole_index : forall j, exists sp, incomplete sp (2 * INR (S j)) /\ incomplete sp (3 * INR (S j)) /\
  gamma sp (2 * INR (S j)) = INR (fact (2 * j + 1)) /\ gamma sp (3 * INR (S j)) = INR (fact (3 * j + 2)).
Proof.
  intros j.
  destruct (erl_half (2 * j + 1)) as (z1 & Hz1 & E1). destruct (erl_half (3 * j + 2)) as (z2 & Hz2 & E2).
  assert (A : 2 * INR (S j) = INR (S (2 * j + 1))).
  { replace (S (2 * j + 1)) with (2 * S j)%nat by lia. rewrite mult_INR. reflexivity. }
  assert (B : 3 * INR (S j) = INR (S (3 * j + 2))).
  { replace (S (3 * j + 2)) with (3 * S j)%nat by lia. rewrite mult_INR. replace (INR 3) with 3 by (cbn; ring). reflexivity. }
  assert (N : INR (S (3 * j + 2)) <> INR (S (2 * j + 1))) by (intro H; apply INR_eq in H; lia).
  exists (two_gammas (2 * j + 1) (3 * j + 2) z1 z2). split; [|split; [|split]].
  - rewrite A. eapply incomplete_erl with (m := (2 * j + 1)%nat) (z := z1); try reflexivity; try assumption;
      cbn [gamma gammainc gammaincinv two_gammas];
      destruct (Req_EM_T (INR (S (2 * j + 1))) (INR (S (2 * j + 1)))); congruence.
  - rewrite B. eapply incomplete_erl with (m := (3 * j + 2)%nat) (z := z2); try reflexivity; try assumption;
      cbn [gamma gammainc gammaincinv two_gammas];
      destruct (Req_EM_T (INR (S (3 * j + 2))) (INR (S (2 * j + 1)))); congruence.
  - rewrite A. cbn [gamma two_gammas]. destruct (Req_EM_T (INR (S (2 * j + 1))) (INR (S (2 * j + 1)))); congruence.
  - rewrite B. cbn [gamma two_gammas]. destruct (Req_EM_T (INR (S (3 * j + 2))) (INR (S (2 * j + 1)))); congruence.
Qed.

(** For an exponential disk (index one) cut at the half light radius, the first
    moment over the flux is twice what kron_radius returns. *)
Theorem C50_kron_rmax_refuted : exists sp Ie rk F M,
  incomplete sp (2 * 1) /\ incomplete sp (3 * 1) /\
  I_eff sp 1 1 None 1 = Some Ie /\ kron_radius sp 1 1 (Some 1) = Some rk /\
  let light := fun r => 2 * PI * r * brightness Ie (gammaincinv sp (2 * 1) (1 / 2)) 1 1 r in
  within light 1 F /\ within (fun r => r * light r) 1 M /\ 0 < F /\ 0 < rk /\ M / F = 2 * rk.
Proof.
  destruct (whole_index 0) as (sp & H2 & H3 & G2 & G3). cbn [INR] in *.
  destruct (C50_kron_rmax_partial sp 1 1 1 1 ltac:(lra) ltac:(lra) ltac:(lra) H2 H3) as (Ie & rk & F & E1 & E2 & P & W & W' & Q).
  exists sp, Ie, rk, F. eexists. do 4 (split; [eassumption|]). split; [exact W|]. split; [exact W'|].
  specialize (Q ltac:(lra)). repeat split; try tauto.
  rewrite G2, G3. cbn. field. lra.
Qed.
Print Assumptions C50_kron_rmax_refuted.

(** A brightness that the profile reaches nowhere still has a radius: a positive
    one for index two, a negative one for index one. *)
Theorem C50_isophote_refuted :
  (exists sp Ie iso r, incomplete sp (2 * 2) /\ I_eff sp 1 1 None 2 = Some Ie /\
     (forall r', 0 < r' -> brightness Ie (gammaincinv sp (2 * 2) (1 / 2)) 2 1 r' < iso) /\
     isophotal_radius sp iso 1 1 None 2 = Some r /\ 0 < r) /\
  (exists sp Ie iso r, incomplete sp (2 * 1) /\ I_eff sp 1 1 None 1 = Some Ie /\
     (forall r', 0 < r' -> brightness Ie (gammaincinv sp (2 * 1) (1 / 2)) 1 1 r' < iso) /\
     isophotal_radius sp iso 1 1 None 1 = Some r /\ r < 0).
Proof.
  assert (G : forall sp n, 0 < n -> incomplete sp (2 * n) -> exists Ie iso,
    I_eff sp 1 1 None n = Some Ie /\
    (forall r', 0 < r' -> brightness Ie (gammaincinv sp (2 * n) (1 / 2)) n 1 r' < iso) /\
    isophotal_radius sp iso 1 1 None n = (do r <- npow (-1) n; Some (r * 1))).
  { intros sp n Hn H2. set (k := gammaincinv sp (2 * n) (1 / 2)).
    assert (Hk : 0 < k) by (apply k_pos; assumption).
    pose proof (I_eff_None sp n 1 Hn Rlt_0_1 H2 1) as E. set (Ie := Ie0 sp n 1 1) in *.
    assert (HIe : 0 < Ie).
    { unfold Ie, Ie0. fold k. pose proof PI_RGT_0. pose proof (exp_pos k).
      apply Rdiv_lt_0_compat; [|nra]. rewrite Rmult_1_l.
      apply Rdiv_lt_0_compat; [|apply (inc_gamma _ _ H2)]. apply Rdiv_lt_0_compat; [apply Rpower_pos | nra]. }
    exists Ie, (Ie * exp (2 * k)). split; [exact E|]. pose proof (exp_pos (2 * k)). split.
    - intros r' Hr'. eapply Rlt_trans; [apply brightness_top; assumption|].
      apply Rmult_lt_compat_l; [assumption|]. apply exp_increasing. fold k. lra.
    - unfold isophotal_radius. rewrite E. cbn [bind]. fold k. rewrite ndiv_ok by lra. cbn [bind].
      replace (Ie * exp (2 * k) / Ie) with (exp (2 * k)) by (field; lra).
      unfold nlog. destruct (Rlt_dec 0 (exp (2 * k))); [|lra]. cbn [bind]. rewrite ln_exp.
      rewrite ndiv_ok by lra. cbn [bind]. replace (1 - 2 * k / k) with (-1) by (field; lra). reflexivity. }
  assert (I2 : Int_part 2 = 2%Z).
  { unfold Int_part. rewrite <- (tech_up 2 3); [reflexivity | lra | lra]. }
  assert (I1 : Int_part 1 = 1%Z).
  { unfold Int_part. rewrite <- (tech_up 1 2); [reflexivity | lra | lra]. }
  assert (P2 : npow (-1) 2 = Some 1).
  { unfold npow. destruct (Rlt_dec 0 (-1)); [lra|]. destruct (Req_EM_T (-1) 0); [lra|]. rewrite I2.
    destruct (Req_EM_T 2 2); [|lra]. f_equal. unfold powerRZ. change (Pos.to_nat 2) with 2%nat. cbn. ring. }
  assert (P1 : npow (-1) 1 = Some (-1)).
  { unfold npow. destruct (Rlt_dec 0 (-1)); [lra|]. destruct (Req_EM_T (-1) 0); [lra|]. rewrite I1.
    destruct (Req_EM_T 1 1); [|lra]. f_equal. unfold powerRZ. change (Pos.to_nat 1) with 1%nat. cbn. ring. }
  split.
  - destruct (whole_index 1) as (sp & H2 & _). replace (INR 2) with 2 in H2 by (cbn; ring).
    destruct (G sp 2 ltac:(lra) H2) as (Ie & iso & E & B & R). rewrite P2 in R. cbn [bind] in R.
    exists sp, Ie, iso, (1 * 1). repeat (split; [assumption|]). lra.
  - destruct (whole_index 0) as (sp & H2 & _). cbn [INR] in H2.
    destruct (G sp 1 ltac:(lra) H2) as (Ie & iso & E & B & R). rewrite P1 in R. cbn [bind] in R.
    exists sp, Ie, iso, (-1 * 1). repeat (split; [assumption|]). lra.
Qed.
Print Assumptions C50_isophote_refuted.
