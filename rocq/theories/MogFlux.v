(** C60: what the mixtures say about light: surface brightness, enclosed flux, misfit, smoothness. *)
From Coquelicot Require Import Coquelicot.
From Coq Require Import Reals Lra Lia List Sorting.Sorted.
From Verif Require Import Np NpFacts MogModel MogFacts MogProps.
Import ListNotations.
Open Scope R_scope.

(** The surface brightness of round gaussians in the plane, and the flux they have within a radius *)
Definition brightness (comps : list (R * R)) (x : R) : R :=
  rsum (map (fun p => fst p / (2 * PI * snd p ^ 2) * exp (- (x ^ 2 / (2 * snd p ^ 2)))) comps).
Definition enclosed (comps : list (R * R)) (X : R) : R :=
  rsum (map (fun p => fst p * (1 - exp (- (X ^ 2 / (2 * snd p ^ 2))))) comps).

Ltac req := match goal with |- @eq _ ?l ?r => change (@eq R l r) end.
Lemma two_pi_pos : 0 < 2 * PI.
Proof. pose proof PI_RGT_0; lra. Qed.
Lemma enclosed_one : forall a d X, 0 < d ->
  is_RInt (fun x => 2 * PI * x * (a / (2 * PI * d ^ 2) * exp (- (x ^ 2 / (2 * d ^ 2))))) 0 X (a * (1 - exp (- (X ^ 2 / (2 * d ^ 2))))).
Proof.
  intros a d X Hd. pose proof two_pi_pos as Hp. pose proof PI_RGT_0 as Hpi.
  set (F := fun x => a * (1 - exp (- (x ^ 2 / (2 * d ^ 2))))).
  replace (a * (1 - exp (- (X ^ 2 / (2 * d ^ 2))))) with (minus (F X) (F 0)).
  - apply (is_RInt_derive F).
    + intros x _. unfold F. auto_derive; [repeat split; auto; nra|].
      match goal with |- context [exp ?e] => replace e with (- (x ^ 2 / (2 * d ^ 2))) by (field; lra) end.
      generalize (exp (- (x ^ 2 / (2 * d ^ 2)))) as E; intros E. match goal with |- @eq _ ?l ?r => change (@eq R l r) end. field; split; lra.
    + intros x _. apply (ex_derive_continuous (fun x => 2 * PI * x * (a / (2 * PI * d ^ 2) * exp (- (x ^ 2 / (2 * d ^ 2)))))). auto_derive. repeat split; auto; nra.
  - change (minus (F X) (F 0)) with (F X - F 0). unfold F. replace (- (0 ^ 2 / (2 * d ^ 2))) with 0 by (field; lra). rewrite exp_0. match goal with |- @eq _ ?l ?r => change (@eq R l r) end. ring.
Qed.
Lemma enclosed_RInt : forall comps X, (forall p, In p comps -> 0 < snd p) ->
  is_RInt (fun x => 2 * PI * x * brightness comps x) 0 X (enclosed comps X).
Proof.
  unfold brightness, enclosed. induction comps as [|[a d] l IH]; intros X H; cbn [map rsum fold_right].
  - apply (is_RInt_ext (fun _ => 0)); [intros; req; ring|].
    pose proof (is_RInt_const 0 X (0 : R)) as Q. change (is_RInt (fun _ : R => 0) 0 X ((X - 0) * 0)) in Q. rewrite Rmult_0_r in Q. exact Q.
  - apply (is_RInt_ext (fun x => plus (2 * PI * x * (a / (2 * PI * d ^ 2) * exp (- (x ^ 2 / (2 * d ^ 2)))))
      (2 * PI * x * rsum (map (fun p => fst p / (2 * PI * snd p ^ 2) * exp (- (x ^ 2 / (2 * snd p ^ 2)))) l)))).
    + intros x _. cbn [fst snd].
      match goal with |- plus ?a ?b = _ => change (plus a b) with (a + b) end. unfold rsum. req. ring.
    + apply @is_RInt_plus; [apply enclosed_one; apply (H (a, d)); now left|apply IH; intros; apply H; now right].
Qed.
Lemma exp_neg_small : forall t, 0 <= t -> exp (- t) <= / (1 + t).
Proof.
  intros t Ht. rewrite exp_Ropp. apply Rinv_le_contravar; [lra|]. destruct (Req_dec t 0) as [->|]; [rewrite exp_0; lra|].
  pose proof (exp_ineq1 t ltac:(lra)). lra.
Qed.
Lemma tail_lim : forall d, 0 < d -> is_lim (fun x => exp (- (x ^ 2 / (2 * d ^ 2)))) p_infty 0.
Proof.
  intros d Hd. apply is_lim_spec. intros eps. destruct eps as [e He]. cbn [pos].
  exists (1 + 2 * d ^ 2 / e). intros x Hx.
  assert (Dp : 0 < d ^ 2) by (apply pow_lt; assumption).
  assert (Q : 0 < 2 * d ^ 2 / e) by (apply Rdiv_lt_0_compat; lra).
  rewrite Rminus_0_r, Rabs_right by (left; apply exp_pos).
  eapply Rle_lt_trans; [apply exp_neg_small|].
  - apply Rmult_le_pos; [nra|left; apply Rinv_0_lt_compat; lra].
  - assert (X2 : 2 * d ^ 2 / e < x ^ 2) by nra.
    assert (T : / e < x ^ 2 / (2 * d ^ 2)).
    { apply (Rmult_lt_reg_r (2 * d ^ 2)); [lra|]. replace (x ^ 2 / (2 * d ^ 2) * (2 * d ^ 2)) with (x ^ 2) by (field; lra). unfold Rdiv in X2; lra. }
    assert (0 < / e) by (apply Rinv_0_lt_compat; assumption).
    rewrite <- (Rinv_inv e). apply Rinv_lt_contravar; [|lra]. apply Rmult_lt_0_compat; lra.
Qed.
Lemma enclosed_lim : forall comps, (forall p, In p comps -> 0 < snd p) -> is_lim (enclosed comps) p_infty (rsum (map fst comps)).
Proof.
  unfold enclosed. induction comps as [|[a d] l IH]; intros H; cbn [map rsum fold_right].
  - apply is_lim_const.
  - apply is_lim_plus'; [|apply IH; intros; apply H; now right]. cbn [fst snd].
    replace (Finite a) with (Rbar_mult a (Rbar_minus 1 0)) by (cbn; f_equal; ring).
    apply (is_lim_scal_l (fun y => 1 - exp (- (y ^ 2 / (2 * d ^ 2))))).
    apply is_lim_minus'; [apply is_lim_const|apply tail_lim; apply (H (a, d)); now left].
Qed.

Lemma hypot_sq : forall a b, hypot a b ^ 2 = a ^ 2 + b ^ 2.
Proof. intros. unfold hypot. rewrite <- Rsqr_pow2, Rsqr_sqrt; [reflexivity|nra]. Qed.
Lemma hypot_pos : forall a b, b <> 0 -> 0 < hypot a b.
Proof. intros. unfold hypot. apply sqrt_lt_R0. nra. Qed.

Lemma term_two_d : forall a d x, 0 < d ->
  a / (d * sqrt (2 * PI)) / (d * sqrt (PI * 2)) * exp (- (x - 0) ^ 2 / (2 * d ^ 2)) = a / (2 * PI * d ^ 2) * exp (- (x ^ 2 / (2 * d ^ 2))).
Proof.
  intros a d x Hd. pose proof two_pi_pos as Hp. rewrite (Rmult_comm PI 2).
  replace (- (x - 0) ^ 2 / (2 * d ^ 2)) with (- (x ^ 2 / (2 * d ^ 2))) by (field; lra). f_equal.
  assert (S2 : sqrt (2 * PI) * sqrt (2 * PI) = 2 * PI) by (apply sqrt_sqrt; lra).
  assert (S0 : 0 < sqrt (2 * PI)) by (apply sqrt_lt_R0; assumption).
  replace (2 * PI * d ^ 2) with ((sqrt (2 * PI) * sqrt (2 * PI)) * d ^ 2) by (rewrite S2; reflexivity).
  set (q := sqrt (2 * PI)) in *. clearbody q. field. lra.
Qed.
Lemma mixture_brightness : forall params l sm x, (forall d, In d (disps_of l sm) -> 0 < d) ->
  mixture params l sm x = brightness (combine (map exp params) (disps_of l sm)) x.
Proof.
  intros params l sm x. unfold mixture, amps_of, normal_oned, brightness. cbv zeta. generalize (disps_of l sm) as ds; intros ds.
  revert ds. induction params as [|p ps IH]; intros [|d ds] H; try reflexivity.
  cbn [combine map rsum fold_right fst snd]. unfold rsum in IH. rewrite IH by (intros; apply H; now right). f_equal.
  apply term_two_d. apply H; now left.
Qed.

(** C60_mixture: the mixture compared with the target is the surface brightness of the gaussians with
    amplitudes [exp params] and the smoothed radii; the flux it has within a radius is the curve of
    growth [gauss_cfd] times the sum of the amplitudes. *)
Theorem C60_mixture : forall params l sm X,
  List.length params = List.length l -> (forall r, In r l -> 0 < exp_radius r ^ 2 + sm ^ 2) -> params <> [] ->
  (forall x, mixture params l sm x
     = rsum (map (fun p => let s2 := exp_radius (snd p) ^ 2 + sm ^ 2 in exp (fst p) / (2 * PI * s2) * exp (- (x ^ 2 / (2 * s2)))) (combine params l)))
  /\ is_RInt (fun x => 2 * PI * x * mixture params l sm x) 0 X
       (rsum (map exp params) * gauss_cfd X (map exp params) (map (fun r => hypot (exp_radius r) sm) l)).
Proof.
  intros params l sm X L H N.
  assert (Hd : forall d, In d (disps_of l sm) -> 0 < d).
  { intros d Hd. unfold disps_of in Hd. apply in_map_iff in Hd; destruct Hd as [r [<- Hr]]. unfold hypot. apply sqrt_lt_R0; auto. }
  split.
  - intros x. rewrite (mixture_brightness _ _ _ _ Hd). unfold brightness, disps_of. clear.
    revert l; induction params as [|p ps IH]; intros [|r l]; try reflexivity.
    cbn [map combine rsum fold_right fst snd]. unfold rsum in IH. rewrite IH. rewrite hypot_sq. reflexivity.
  - apply (is_RInt_ext (fun x => 2 * PI * x * brightness (combine (map exp params) (disps_of l sm)) x)).
    + intros x _. rewrite (mixture_brightness _ _ _ _ Hd). reflexivity.
    + replace (rsum (map exp params) * gauss_cfd X (map exp params) (map (fun r => hypot (exp_radius r) sm) l))
        with (enclosed (combine (map exp params) (disps_of l sm)) X).
      * apply enclosed_RInt. intros [a d] Hp. apply in_combine_r in Hp. auto.
      * unfold gauss_cfd. fold (disps_of l sm). pose proof (sum_exp_pos _ N) as S0.
        unfold Rdiv. rewrite (Rmult_comm (rsum (map _ (combine _ _)))), <- Rmult_assoc, Rinv_r, Rmult_1_l by lra.
        unfold enclosed. apply rsum_ext_in. intros [a d] Hp. cbn [fst snd]. apply in_combine_r in Hp. specialize (Hd d Hp).
        destruct (Rle_dec d 0); [lra|]. do 4 f_equal. field. lra.
Qed.

(** C60_growth: the curve of growth starts with the point sources, never falls, and tends to one. *)
Definition cfd_term (x : R) (p : R * R) : R := let '(a, r) := p in if Rle_dec r 0 then a else a * (1 - exp (- (5 / 10 * (x / r) ^ 2))).
Lemma cfd_lim : forall l, is_lim (fun x => rsum (map (cfd_term x) l)) p_infty (rsum (map fst l)).
Proof.
  induction l as [|[a r] l IH]; cbn [map rsum fold_right]; [apply is_lim_const|].
  apply is_lim_plus'; [|exact IH]. unfold cfd_term. cbn [fst]. destruct (Rle_dec r 0); [apply is_lim_const|].
  apply (is_lim_ext (fun x => a * (1 - exp (- (x ^ 2 / (2 * r ^ 2)))))).
  - intros x. do 4 f_equal. field. lra.
  - replace (Finite a) with (Rbar_mult a (Rbar_minus 1 0)) by (cbn; f_equal; ring).
    apply (is_lim_scal_l (fun y => 1 - exp (- (y ^ 2 / (2 * r ^ 2))))). apply is_lim_minus'; [apply is_lim_const|apply tail_lim; lra].
Qed.
Theorem C60_growth : forall amps radii, List.length amps = List.length radii -> amps <> [] -> (forall a, In a amps -> 0 < a) ->
  gauss_cfd 0 amps radii = rsum (map (fun p => if Rle_dec (snd p) 0 then fst p else 0) (combine amps radii)) / rsum amps
  /\ (forall x y, 0 <= x <= y -> gauss_cfd x amps radii <= gauss_cfd y amps radii)
  /\ is_lim (fun x => gauss_cfd x amps radii) p_infty 1.
Proof.
  intros amps radii L N Hp. pose proof (rsum_pos amps N Hp) as S0. unfold gauss_cfd. split; [|split].
  - f_equal. apply rsum_ext_in. intros [a r] _. cbn [fst snd]. destruct (Rle_dec r 0); [reflexivity|].
    replace (- (5 / 10 * (0 / r) ^ 2)) with 0 by (field; lra). rewrite exp_0; ring.
  - intros x y Hxy. apply Rmult_le_compat_r; [left; apply Rinv_0_lt_compat; assumption|]. apply rsum_le. intros [a r] Hin.
    apply in_combine_l in Hin. specialize (Hp a Hin). destruct (Rle_dec r 0); [lra|].
    apply Rmult_le_compat_l; [lra|]. apply Rplus_le_compat_l, Ropp_le_contravar.
    destruct (Req_dec x y) as [->|]; [lra|]. left. apply exp_increasing. apply Ropp_lt_contravar.
    apply Rmult_lt_compat_l; [lra|]. assert (0 < / r) by (apply Rinv_0_lt_compat; lra). unfold Rdiv. rewrite !Rpow_mult_distr.
    apply Rmult_lt_compat_r; [nra|nra].
  - replace (Finite 1) with (Finite (rsum (map fst (combine amps radii)) * / rsum amps)).
    + exact (is_lim_scal_r (fun x => rsum (map (cfd_term x) (combine amps radii))) (/ rsum amps) p_infty (rsum (map fst (combine amps radii))) (cfd_lim _)).
    + f_equal. replace (map fst (combine amps radii)) with amps; [field; lra|]. clear -L. revert radii L.
      induction amps as [|a l IH]; intros [|r m] L; cbn in *; try lia; [reflexivity|]. f_equal. apply IH; lia.
Qed.

(** ** Misfit *)
(** C60_misfit: a fit without penalties is judged by a number that is never negative and is zero exactly
    when the mixture meets the target at every radius; without radii there is no fit. *)
Lemma misfit_terms : forall params l sm xs (ts : list R),
  combine (combine xs ts) (map (mixture params l sm) xs) = map (fun p => (p, mixture params l sm (fst p))) (combine xs ts).
Proof. intros params l sm; induction xs as [|x xs IH]; intros [|t ts]; cbn; [reflexivity..|]. f_equal. apply IH. Qed.
Theorem C60_misfit : forall params xs ts l sm arscale,
  List.length xs = List.length ts -> xs <> [] -> (forall x, In x xs -> 0 < x) -> (forall t, In t ts -> 0 < t) ->
  chisq params xs ts None sm 0 0 arscale = None
  /\ exists c, chisq params xs ts (Some l) sm 0 0 arscale = Some c /\ 0 <= c
     /\ (c = 0 <-> forall i x t, nth_error xs i = Some x -> nth_error ts i = Some t -> mixture params l sm x = t).
Proof.
  intros params xs ts l sm arscale L N Hx Ht. split; [reflexivity|]. eexists. split; [reflexivity|].
  destruct (Rlt_dec 0 0); [lra|]. rewrite !Rplus_0_r. unfold misfit. rewrite misfit_terms, map_map. cbn [fst].
  assert (W : 0 < rsum (map (fun p => fst p * snd p) (combine xs ts))).
  { apply rsum_pos; [destruct xs, ts; cbn in *; try congruence; discriminate|]. intros y Hy. apply in_map_iff in Hy; destruct Hy as [[x t] [<- Hi]]. cbn.
    apply Rmult_lt_0_compat; [apply Hx; eapply in_combine_l; eassumption|apply Ht; eapply in_combine_r; eassumption]. }
  set (w := rsum (map (fun p => fst p * snd p) (combine xs ts))) in *. clearbody w.
  set (f := fun p : R * R => let '(x, t, g) := (p, mixture params l sm (fst p)) in (g - t) / t * ((g - t) / t) * t * x).
  assert (F : forall p, In p (combine xs ts) -> 0 <= f p /\ (f p = 0 <-> mixture params l sm (fst p) = snd p)).
  { intros [x t] Hi. pose proof (Hx x (in_combine_l _ _ _ _ Hi)). pose proof (Ht t (in_combine_r _ _ _ _ Hi)). cbn.
    generalize (mixture params l sm x) as g; intros g. assert (0 < t * x) by (apply Rmult_lt_0_compat; assumption). split.
    - rewrite Rmult_assoc. apply Rmult_le_pos; [apply Rle_0_sqr|lra].
    - split; intros E; [|subst g; field; lra]. rewrite Rmult_assoc in E. apply Rmult_integral in E. destruct E as [E|E]; [|lra].
      assert ((g - t) / t = 0) by (apply Rmult_integral in E; tauto). unfold Rdiv in H2. apply Rmult_integral in H2. destruct H2; [lra|].
      pose proof (Rinv_neq_0_compat t). lra. }
  change (map (fun x => let '(x0, t, g) := (x, mixture params l sm (fst x)) in (g - t) / t * ((g - t) / t) * t * x0) (combine xs ts)) with (map f (combine xs ts)).
  assert (P : forall y, In y (map f (combine xs ts)) -> 0 <= y) by (intros y Hy; apply in_map_iff in Hy; destruct Hy as [p [<- Hp]]; now apply F).
  pose proof (rsum_nonneg _ P) as Q. assert (0 < / w) by (apply Rinv_0_lt_compat; assumption).
  split; [unfold Rdiv; apply Rmult_le_pos; [apply Rmult_le_pos|]; lra|]. split.
  - intros E i x t Hi Hj. assert (Z : rsum (map f (combine xs ts)) = 0).
    { unfold Rdiv in E. apply Rmult_integral in E. destruct E as [E|E]; [|lra]. apply Rmult_integral in E. destruct E as [E|E]; [assumption|lra]. }
    assert (Hc : In (x, t) (combine xs ts)).
    { clear -Hi Hj. revert ts i Hi Hj. induction xs as [|a xs IH]; intros [|b ts] [|i] Hi Hj; cbn in *; try discriminate.
      - left; congruence. - right; eauto. }
    apply (F (x, t) Hc). apply (rsum_zero_all _ P Z). now apply in_map.
  - intros E. rewrite (rsum_all_zero (map f _)); [field; lra|]. intros y Hy. apply in_map_iff in Hy; destruct Hy as [[x t] [<- Hp]].
    apply F; [assumption|]. cbn. apply In_nth_error in Hp. destruct Hp as [i Hi].
    assert (Hc : nth_error xs i = Some x /\ nth_error ts i = Some t).
    { clear -Hi. revert ts i Hi. induction xs as [|a xs IH]; intros [|b ts] [|i] Hi; cbn in *; try discriminate.
      - injection Hi as -> ->; auto. - eauto. }
    apply (E i); tauto.
Qed.

(** ** Smoothness *)
(** C60_smooth_refuted: the smoothness penalty is zero only for amplitudes that are all one: it punishes
    any other, however level, so it is no penalty on gradients and depends on the units of brightness. *)
Lemma second_zero : forall a, (forall v, In v (second_differences a) -> v = 0) -> forall i, (i <= List.length a)%nat -> nth i a 0 = INR (S i) * nth 0 a 0.
Proof.
  intros a H. assert (E : forall i, (i < List.length a)%nat -> 2 * nth i a 0 - (match i with O => 0 | S k => nth k a 0 end) - nth (S i) a 0 = 0).
  { intros i Hi. apply H. unfold second_differences. apply in_map_iff. exists i. split; [reflexivity|]. apply in_seq; lia. }
  assert (P : forall i, (i <= List.length a)%nat -> nth i a 0 = INR (S i) * nth 0 a 0 /\ ((i < List.length a)%nat -> nth (S i) a 0 = INR (S (S i)) * nth 0 a 0)).
  { induction i as [|i IH]; intros Hi.
    - split; [cbn; ring|]. intros Hl. specialize (E 0%nat Hl). cbn beta iota in E. change (INR 2) with 2. lra.
    - destruct (IH ltac:(lia)) as [I1 I2]. specialize (I2 ltac:(lia)). split; [assumption|]. intros Hl. specialize (E (S i) Hl). cbn beta iota in E.
      rewrite I1, I2 in E. rewrite !S_INR in *. lra. }
  intros i Hi. now apply P.
Qed.
Theorem C60_smooth_refuted : forall amps, (forall a, In a amps -> 0 < a) ->
  0 <= smoothness amps /\ (smoothness amps = 0 <-> forall a, In a amps -> a = 1).
Proof.
  intros amps Hp. unfold smoothness.
  assert (P : forall y, In y (map (fun v => v ^ 2) (second_differences (map ln amps))) -> 0 <= y).
  { intros y Hy. apply in_map_iff in Hy; destruct Hy as [v [<- _]]. nra. }
  split; [now apply rsum_nonneg|]. split.
  - intros Z a Ha.
    assert (D : forall v, In v (second_differences (map ln amps)) -> v = 0).
    { intros v Hv. assert (v ^ 2 = 0) by (apply (rsum_zero_all _ P Z); apply in_map_iff; exists v; auto). nra. }
    pose proof (second_zero _ D) as S. pose proof (S (List.length (map ln amps)) ltac:(lia)) as S1. rewrite nth_overflow in S1 by lia.
    assert (Z0 : nth 0 (map ln amps) 0 = 0).
    { pose proof (lt_0_INR (Datatypes.S (List.length (map ln amps))) ltac:(lia)). symmetry in S1. apply Rmult_integral in S1. destruct S1; [lra|assumption]. }
    apply In_nth_error in Ha. destruct Ha as [i Hi]. assert (Hl : (i < List.length amps)%nat) by (apply nth_error_Some; congruence).
    pose proof (S i ltac:(rewrite map_length; lia)) as Si. rewrite Z0, Rmult_0_r in Si.
    rewrite (nth_error_nth (map ln amps) i 0 (x := ln a)) in Si by (rewrite nth_error_map, Hi; reflexivity).
    apply ln_inv; [apply Hp; eapply nth_error_In; eassumption|lra|rewrite ln_1; assumption].
  - intros E. apply rsum_all_zero. intros y Hy. apply in_map_iff in Hy; destruct Hy as [v [<- Hv]]. unfold second_differences in Hv.
    apply in_map_iff in Hv; destruct Hv as [i [<- _]].
    assert (Z : forall j, nth j (map ln amps) 0 = 0).
    { intros j. destruct (nth_error amps j) as [a|] eqn:Ea.
      - rewrite (nth_error_nth (map ln amps) j 0 (x := ln a)) by (rewrite nth_error_map, Ea; reflexivity).
        rewrite (E a) by (eapply nth_error_In; eassumption). apply ln_1.
      - apply nth_overflow. rewrite map_length. now apply nth_error_None. }
    destruct i; rewrite !Z; ring.
Qed.

(** ** The profile of a galaxy *)
Lemma gauss2_eq : forall x s, 0 < s -> gauss2 x s = / (2 * PI * s ^ 2) * exp (- (x ^ 2 / (2 * s ^ 2))).
Proof.
  intros x s Hs. unfold gauss2. pose proof two_pi_pos. assert (Q : 0 < 2 * PI * s ^ 2) by (apply Rmult_lt_0_compat; [assumption|nra]).
  rewrite ln_mult by assumption.
  replace (- (5 / 10) * (((x - 0) / s) ^ 2 + (ln (2 * PI * s ^ 2) + ln (2 * PI * s ^ 2)))) with (- ln (2 * PI * s ^ 2) + - (x ^ 2 / (2 * s ^ 2))) by (field; lra).
  rewrite exp_plus, exp_Ropp, exp_ln by assumption. reflexivity.
Qed.
Lemma profile_brightness : forall g n r flux eps x, eps <> 0 ->
  profile g n r flux eps x = flux * brightness (combine (amplitudes g n r) (map (fun d => hypot d eps) (g_radii g))) x.
Proof.
  intros. unfold profile, brightness. f_equal. generalize (amplitudes g n r) as a, (g_radii g) as d.
  induction a as [|a l IH]; intros [|d m]; try reflexivity. cbn [combine map rsum fold_right fst snd]. unfold rsum in IH. rewrite IH.
  rewrite gauss2_eq by (now apply hypot_pos). unfold Rdiv. rewrite !Rmult_assoc. reflexivity.
Qed.
(** C60_profile: the profile integrates over the plane to the flux times the sum of the amplitudes. *)
Theorem C60_profile : forall g sersic rhalf flux eps,
  List.length (amplitudes g sersic rhalf) = List.length (g_radii g) -> eps <> 0 ->
  exists F, (forall X, is_RInt (fun x => 2 * PI * x * profile g sersic rhalf flux eps x) 0 X (F X))
  /\ is_lim F p_infty (flux * rsum (amplitudes g sersic rhalf)).
Proof.
  intros g n r flux eps L He. set (comps := combine (amplitudes g n r) (map (fun d => hypot d eps) (g_radii g))).
  assert (C : forall p, In p comps -> 0 < snd p).
  { intros [a d] Hp. apply in_combine_r in Hp. apply in_map_iff in Hp; destruct Hp as [y [<- _]]. cbn. now apply hypot_pos. }
  exists (fun X => flux * enclosed comps X). split.
  - intros X. apply (is_RInt_ext (fun x => scal flux (2 * PI * x * brightness comps x))).
    + intros x _. rewrite profile_brightness by assumption. fold comps. unfold scal; cbn; unfold mult; cbn.
      match goal with |- @eq _ ?l ?r => change (@eq R l r) end. ring.
    + apply (is_RInt_scal (fun x => 2 * PI * x * brightness comps x) 0 X flux). now apply enclosed_RInt.
  - replace (Finite (flux * rsum (amplitudes g n r))) with (Rbar_mult flux (rsum (map fst comps))).
    + apply (is_lim_scal_l (enclosed comps)). now apply enclosed_lim.
    + cbn. do 2 f_equal. f_equal. unfold comps. clear -L. revert L. generalize (amplitudes g n r) as a, (g_radii g) as d.
      induction a as [|a l IH]; intros [|d m] L; cbn in *; try lia; [reflexivity|]. f_equal. apply IH; lia.
Qed.
(** C60_stored: a galaxy at a point of the table, smoothed as the fit was, shines as the profile stored
    in the table, scaled to its flux. *)
Theorem C60_stored : forall rnd fit rect ng rg l ngauss g i j n r flux sm x,
  interpolates rect ->
  StronglySorted Rlt (map rnd ng) -> StronglySorted Rlt (map rnd rg) ->
  (forall n r, List.length (fit n r) = ngauss) -> List.length l = ngauss ->
  initialize_splines rect (fit_profiles rnd fit ng rg) (map exp_radius l) ngauss = Some g ->
  nth_error ng i = Some n -> nth_error rg j = Some r -> 0 <= rnd r ->
  (forall a, In a (norm_amps (fit n r)) -> rnd a = a) -> sm <> 0 -> (0 < ngauss)%nat ->
  profile g (rnd n) (rnd r) flux sm x = flux * (stored_model fit n r l sm x / rsum (map exp (fit n r))).
Proof.
  intros rnd fit rect ng rg l ngauss g i j n r flux sm x I Sn Sr L Ll H Hi Hj Hp Hrnd Hs Hg.
  rewrite profile_brightness by assumption.
  rewrite (C60_table _ _ _ _ _ _ _ _ _ _ _ _ I Sn Sr L H Hi Hj Hp). f_equal.
  assert (Nn : ng <> []) by (intros ->; destruct i; discriminate). assert (Nr : rg <> []) by (intros ->; destruct j; discriminate).
  destruct (galaxy_splines _ _ _ _ _ (map rnd ng) (map rnd rg) _ _ _ Nn Nr Sn (fun x => iff_refl _) (map_length _ _) Sr (fun x => iff_refl _) (map_length _ _) H) as [_ [G _]].
  rewrite G, (map_map exp_radius (fun d => hypot d sm)). fold (disps_of l sm). unfold stored_model.
  rewrite mixture_brightness.
  - rewrite (map_ext_in _ (fun a => a / rsum (map exp (fit n r)))).
    + generalize (disps_of l sm) as ds. generalize (rsum (map exp (fit n r))) as t; intros t.
      unfold brightness. induction (map exp (fit n r)) as [|a A IH]; intros [|d ds]; cbn [map combine rsum fold_right fst snd]; try (unfold Rdiv; ring).
      specialize (IH ds). unfold rsum in IH. rewrite IH. unfold Rdiv. ring.
    + intros a Ha. apply Hrnd. unfold norm_amps. apply in_map_iff. exists a; auto.
  - intros d Hd. unfold disps_of in Hd. apply in_map_iff in Hd; destruct Hd as [y [<- _]]. now apply hypot_pos.
Qed.

Print Assumptions C60_mixture.
(** C60_point: the component of radius zero is the smoothing kernel itself; it is the narrowest. *)
Theorem C60_point : forall p q lr sm x, sm <> 0 ->
  mixture [p] [None] sm x = exp p / (2 * PI * sm ^ 2) * exp (- (x ^ 2 / (2 * sm ^ 2))) /\
  mixture [p] [Some lr] sm 0 < mixture [p] [None] sm 0 /\
  mixture [p; q] [None; Some lr] sm x = mixture [p] [None] sm x + mixture [q] [Some lr] sm x.
Proof.
  intros p q lr sm x H. assert (P : 0 < sm ^ 2) by (apply pow2_gt_0; exact H). pose proof (exp_pos lr) as Q.
  assert (Q2 : 0 < exp lr ^ 2) by (apply pow_lt; exact Q).
  assert (C1 : forall l, l <> [] -> (forall r, In r l -> 0 < exp_radius r ^ 2 + sm ^ 2)).
  { intros l _ [r|] _; cbn [exp_radius]; [pose proof (pow2_ge_0 (exp r)); lra|rewrite pow_ne_zero by discriminate; lra]. }
  assert (M : forall p y, mixture [p] [None] sm y = exp p / (2 * PI * sm ^ 2) * exp (- (y ^ 2 / (2 * sm ^ 2)))).
  { intros p0 y. destruct (C60_mixture [p0] [None] sm 0 eq_refl (C1 [None] ltac:(discriminate)) ltac:(discriminate)) as (E & _). rewrite E.
    cbn [combine map rsum fold_right fst snd exp_radius]. rewrite (pow_ne_zero 2) by discriminate. rewrite Rplus_0_l, Rplus_0_r. reflexivity. }
  assert (S1 : forall q y, mixture [q] [Some lr] sm y = exp q / (2 * PI * (exp lr ^ 2 + sm ^ 2)) * exp (- (y ^ 2 / (2 * (exp lr ^ 2 + sm ^ 2))))).
  { intros q0 y. destruct (C60_mixture [q0] [Some lr] sm 0 eq_refl (C1 [Some lr] ltac:(discriminate)) ltac:(discriminate)) as (E & _). rewrite E.
    cbn [combine map rsum fold_right fst snd exp_radius]. rewrite Rplus_0_r. reflexivity. }
  split; [apply M|]. split.
  - rewrite M, S1. rewrite !(pow_ne_zero 2) by discriminate. unfold Rdiv at 2 4. rewrite !Rmult_0_l, Ropp_0, exp_0, !Rmult_1_r.
    pose proof PI_RGT_0. pose proof (exp_pos p). apply Rmult_lt_compat_l; [assumption|]. apply Rinv_lt_contravar; [|nra].
    apply Rmult_lt_0_compat; nra.
  - rewrite M, S1.
    destruct (C60_mixture [p; q] [None; Some lr] sm 0 eq_refl (C1 [None; Some lr] ltac:(discriminate)) ltac:(discriminate)) as (E & _). rewrite E.
    cbn [combine map rsum fold_right fst snd exp_radius]. rewrite (pow_ne_zero 2) by discriminate. rewrite Rplus_0_l, Rplus_0_r. reflexivity.
Qed.
Print Assumptions C60_point.
Print Assumptions C60_growth.
Print Assumptions C60_misfit.
Print Assumptions C60_smooth_refuted.
Print Assumptions C60_profile.
Print Assumptions C60_stored.
