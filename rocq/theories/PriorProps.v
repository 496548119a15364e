(** C65: priors and the numbers drawn from them. *)
From Coquelicot Require Import Coquelicot.
From Coq Require Import Reals Lra Lia List.
From Verif Require Import Np NpFacts PosteriorModel PosteriorSpec PosteriorFacts PriorModel.
Import ListNotations.
Open Scope R_scope.

(** ** Draws *)
Lemma sample_shape : forall p loc s a b r, s <> 0 ->
  let A := (a - loc) / s in let B := (b - loc) / s in
  sample p loc s a b r = Some (loc + s * tan (atan A + (atan B - atan A) * r)).
Proof.
  intros p loc s a b r H A B. unfold sample. destruct (Req_EM_T s 0); [contradiction|]. f_equal. f_equal. f_equal. f_equal.
  fold A B. field. pose proof PI_RGT_0. lra.
Qed.
Lemma mid_range : forall x y r, 0 <= r <= 1 -> - PI / 2 < x < PI / 2 -> - PI / 2 < y < PI / 2 -> - PI / 2 < x + (y - x) * r < PI / 2.
Proof.
  intros x y r Hr Hx Hy. set (h := PI / 2) in *. assert (Eh : - PI / 2 = - h) by (unfold h; field). rewrite Eh in *.
  destruct (Req_dec r 0) as [->|N]; [lra|].
  assert (0 < r * (y + h)) by (apply Rmult_lt_0_compat; lra). assert (0 < r * (h - y)) by (apply Rmult_lt_0_compat; lra).
  assert (0 <= (1 - r) * (x + h)) by (apply Rmult_le_pos; lra). assert (0 <= (1 - r) * (h - x)) by (apply Rmult_le_pos; lra). lra.
Qed.
Lemma tan_le : forall x y, - PI / 2 < x < PI / 2 -> - PI / 2 < y < PI / 2 -> (tan x <= tan y <-> x <= y).
Proof.
  intros x y Hx Hy. split; intros H.
  - destruct (Rle_or_lt x y) as [|L]; [assumption|]. exfalso. pose proof (tan_increasing y x ltac:(lra) L ltac:(lra)). lra.
  - destruct (Req_dec x y) as [->|N]; [lra|]. left. apply tan_increasing; lra.
Qed.
Lemma atan_range : forall x, - PI / 2 < atan x < PI / 2.
Proof. intros. pose proof (atan_bound x). lra. Qed.
Lemma atan_le : forall x y, atan x <= atan y <-> x <= y.
Proof.
  intros. rewrite <- (tan_le (atan x) (atan y)) by apply atan_range. rewrite !tan_atan. reflexivity.
Qed.
Lemma div_le : forall s x y, 0 < s -> (x / s <= y / s <-> x <= y).
Proof.
  intros s x y H. unfold Rdiv. pose proof (Rinv_0_lt_compat s H). split; intros L; [|nra].
  apply Rmult_le_reg_r with (/ s); assumption.
Qed.
(** The draw is at most t exactly when the unit number is at most the share of the angle *)
Lemma sample_below : forall p loc s a b r t v, s <> 0 -> a < b -> 0 <= r <= 1 -> sample p loc s a b r = Some v ->
  let F := fun x => atan ((x - loc) / s) in
  (v <= t <-> r * ((F b - F a) / (if Rlt_dec 0 s then 1 else -1)) <= (F t - F a) / (if Rlt_dec 0 s then 1 else -1)).
Proof.
  intros p loc s a b r t v Hs Hab Hr E F. rewrite sample_shape in E by assumption. cbv zeta in E. injection E as <-.
  fold (F a) (F b). set (th := F a + (F b - F a) * r).
  assert (Hth : - PI / 2 < th < PI / 2) by (apply mid_range; [assumption|apply atan_range|apply atan_range]).
  assert (K : forall x, tan (F x) = (x - loc) / s) by (intros; unfold F; apply tan_atan).
  destruct (Rlt_dec 0 s) as [Hp|Hn].
  - rewrite !Rdiv_1. assert (E : loc + s * tan th <= t <-> tan th <= tan (F t)).
    { rewrite K. split; intros H.
      - apply Rmult_le_reg_l with s; [assumption|]. replace (s * ((t - loc) / s)) with (t - loc) by (field; lra). lra.
      - apply (Rmult_le_compat_l s) in H; [|lra]. replace (s * ((t - loc) / s)) with (t - loc) in H by (field; lra). lra. }
    rewrite E, tan_le by (try assumption; apply atan_range). unfold th. split; intros; lra.
  - assert (Hn' : 0 < - s) by (destruct (Rtotal_order s 0) as [|[|]]; lra).
    assert (E : loc + s * tan th <= t <-> tan (F t) <= tan th).
    { rewrite K. split; intros H.
      - apply Rmult_le_reg_l with (- s); [assumption|]. replace (- s * ((t - loc) / s)) with (- (t - loc)) by (field; lra). lra.
      - apply (Rmult_le_compat_l (- s)) in H; [|lra]. replace (- s * ((t - loc) / s)) with (- (t - loc)) in H by (field; lra). lra. }
    rewrite E, tan_le by (try assumption; apply atan_range). unfold th.
    replace ((F b - F a) / -1) with (F a - F b) by field. replace ((F t - F a) / -1) with (F a - F t) by field. split; intros; lra.
Qed.
Lemma angle_order : forall loc s x y, s <> 0 -> x < y ->
  0 < (atan ((y - loc) / s) - atan ((x - loc) / s)) / (if Rlt_dec 0 s then 1 else -1).
Proof.
  intros loc s x y Hs Hxy. destruct (Rlt_dec 0 s).
  - rewrite Rdiv_1. assert (atan ((x - loc) / s) < atan ((y - loc) / s)); [|lra]. apply atan_increasing.
    apply Rmult_lt_compat_r; [apply Rinv_0_lt_compat; assumption|lra].
  - assert (s < 0) by (destruct (Rtotal_order s 0) as [|[|]]; lra).
    assert (atan ((y - loc) / s) < atan ((x - loc) / s)); [|lra]. apply atan_increasing.
    assert (/ s < 0) by (apply Rinv_lt_0_compat; assumption). unfold Rdiv. nra.
Qed.
(** Every number drawn lies in [a, b]. *)
Theorem C65_range : forall p loc s a b rs, s <> 0 -> a < b -> (forall r, In r rs -> 0 <= r <= 1) ->
  exists vs, sample_many p loc s a b rs = Some vs /\ List.length vs = List.length rs /\ forall v, In v vs -> a <= v <= b.
Proof.
  intros p loc s a b rs Hs Hab. induction rs as [|r rs IH]; intros Hr.
  - exists []. cbn. repeat split; auto; contradiction.
  - destruct IH as (vs & E & L & H); [intros; apply Hr; now right|].
    pose proof (sample_shape p loc s a b r Hs) as E1. cbv zeta in E1.
    eexists. unfold sample_many in *. cbn [mapM]. rewrite E1, E. split; [reflexivity|]. split; [cbn; lia|].
    assert (Hr1 : 0 <= r <= 1) by (apply Hr; now left). pose proof (angle_order loc s a b Hs Hab) as O.
    intros v [<-|Hv]; [|apply H; exact Hv]. split.
    + (* a <= v : for every t < a, not v <= t *)
      apply Rnot_lt_le. intros N.
      match type of N with ?x < _ => set (v := x) in * end.
      assert (Q := proj1 (sample_below p loc s a b r v v Hs Hab Hr1 (sample_shape p loc s a b r Hs)) (Rle_refl v)). cbv zeta in Q.
      pose proof (angle_order loc s v a Hs N) as O2.
      set (k := if Rlt_dec 0 s then 1 else -1) in *.
      assert (0 <= r * ((atan ((b - loc) / s) - atan ((a - loc) / s)) / k)) by (apply Rmult_le_pos; lra).
      replace ((atan ((v - loc) / s) - atan ((a - loc) / s)) / k) with (- ((atan ((a - loc) / s) - atan ((v - loc) / s)) / k)) in Q by (unfold Rdiv; ring).
      lra.
    + apply (sample_below p loc s a b r b _ Hs Hab Hr1 (sample_shape p loc s a b r Hs)). cbv zeta.
      set (w := (atan ((b - loc) / s) - atan ((a - loc) / s)) / (if Rlt_dec 0 s then 1 else -1)) in *. nra.
Qed.
Print Assumptions C65_range.
(** The Cauchy density *)
Definition cauchy (loc s x : R) : R := Rabs s / (PI * ((x - loc) ^ 2 + s ^ 2)).
Lemma cauchy_integral : forall loc s a t, s <> 0 ->
  is_RInt (cauchy loc s) a t ((atan ((t - loc) / s) - atan ((a - loc) / s)) / PI / (if Rlt_dec 0 s then 1 else -1)).
Proof.
  intros loc s a t Hs. set (k := if Rlt_dec 0 s then 1 else -1).
  assert (Hk : k <> 0) by (unfold k; destruct (Rlt_dec 0 s); lra). pose proof PI_RGT_0.
  assert (HA : Rabs s = s / k).
  { unfold k. destruct (Rlt_dec 0 s); [rewrite Rabs_pos_eq; lra|]. rewrite Rabs_left1 by lra. field. }
  assert (D : forall x, is_derive (fun x => atan ((x - loc) / s) / PI / k) x (cauchy loc s x)).
  { intros x. unfold cauchy. rewrite HA. auto_derive; [auto|]. assert (0 < s ^ 2) by (apply pow2_gt_0; assumption).
    assert (0 <= (x - loc) ^ 2) by apply pow2_ge_0. field. repeat split; try assumption; try lra; cbn in *; lra. }
  replace ((atan ((t - loc) / s) - atan ((a - loc) / s)) / PI / k) with (minus (atan ((t - loc) / s) / PI / k) (atan ((a - loc) / s) / PI / k)).
  2:{ unfold minus, plus, opp; cbn. field. repeat split; try assumption; lra. }
  apply (is_RInt_derive (fun x => atan ((x - loc) / s) / PI / k)).
  - intros x _. apply D.
  - intros x _. apply (@ex_derive_continuous R_AbsRing R_NormedModule (cauchy loc s) x). unfold cauchy. auto_derive. assert (0 < s ^ 2) by (apply pow2_gt_0; assumption).
    assert (0 <= (x - loc) ^ 2) by apply pow2_ge_0. apply Rmult_integral_contrapositive_currified; [lra|]. cbn in *. lra.
Qed.
(** A uniform unit number gives a draw below t with the probability the truncated Cauchy
    distribution has below t. *)
Theorem C65_law : forall p loc s a b r t v, s <> 0 -> a < b -> a <= t <= b -> 0 <= r <= 1 -> sample p loc s a b r = Some v ->
  0 < RInt (cauchy loc s) a b /\ (v <= t <-> r <= RInt (cauchy loc s) a t / RInt (cauchy loc s) a b).
Proof.
  intros p loc s a b r t v Hs Hab Ht Hr E.
  rewrite (is_RInt_unique _ _ _ _ (cauchy_integral loc s a b Hs)), (is_RInt_unique _ _ _ _ (cauchy_integral loc s a t Hs)).
  pose proof (angle_order loc s a b Hs Hab) as O. pose proof (sample_below p loc s a b r t v Hs Hab Hr E) as B. cbv zeta in B.
  set (k := if Rlt_dec 0 s then 1 else -1) in *. pose proof PI_RGT_0.
  assert (Hk : k <> 0) by (unfold k; destruct (Rlt_dec 0 s); lra).
  set (w := atan ((b - loc) / s) - atan ((a - loc) / s)) in *. set (u := atan ((t - loc) / s) - atan ((a - loc) / s)) in *.
  assert (Hw : w <> 0) by (intros Z; rewrite Z in O; unfold Rdiv in O; rewrite Rmult_0_l in O; lra).
  replace (w / PI / k) with (w / k / PI) by (field; repeat split; try assumption; lra). replace (u / PI / k) with (u / k / PI) by (field; repeat split; try assumption; lra).
  split; [apply Rdiv_lt_0_compat; assumption|]. rewrite B.
  replace (u / k / PI / (w / k / PI)) with (u / k / (w / k)) by (field; repeat split; try assumption; lra).
  set (w' := w / k) in *. set (u' := u / k). split; intros L.
  - apply Rmult_le_reg_r with w'; [assumption|]. unfold Rdiv. rewrite Rmult_assoc, Rinv_l by lra. lra.
  - apply (Rmult_le_compat_r w') in L; [|lra]. unfold Rdiv in L. rewrite Rmult_assoc, Rinv_l in L by lra. lra.
Qed.
Print Assumptions C65_law.
(** The range of the prior itself is not used: a prior on an interval above one never draws
    from that interval unless told again. *)
Theorem C65_own_range_refuted : forall mn mx p r, 1 < mn -> build TruncatedCauchy [mn] [mx] = Some p -> 0 <= r <= 1 ->
  exists v, sample_default p r = Some v /\ ~ mn <= v <= mx.
Proof.
  intros mn mx p r Hm _ Hr.
  destruct (C65_range p 0 1 (-1) 1 [r]) as (vs & E & L & H); try lra; [intros x [<-|[]]; assumption|].
  unfold sample_many in E. cbn [mapM] in E. destruct (sample p 0 1 (-1) 1 r) as [v|] eqn:Es; [|discriminate].
  injection E as <-. exists v. split; [exact Es|]. specialize (H v (or_introl eq_refl)). lra.
Qed.
Print Assumptions C65_own_range_refuted.

(** ** Densities *)
Lemma call_flat : forall c mn mx q, (forall alpha, c <> ExpBeta alpha) -> List.length mn = List.length q -> List.length mx = List.length q ->
  (forall i, (i < List.length q)%nat -> nth i mn 0 < nth i mx 0) -> call (mkPrior c mn mx) q = (0, repeat 0 (List.length q)).
Proof.
  intros c mn mx q Hc H1 H2 H3. unfold call. cbn [p_class p_min p_max].
  assert (A : forall x, lnprior1 c x = 0) by (intros; destruct c; try reflexivity; exfalso; eapply Hc; reflexivity).
  assert (B : forall x, lnprior_grad1 c x = 0) by (intros; destruct c; try reflexivity; exfalso; eapply Hc; reflexivity).
  assert (Z1 : forall mn mx q, List.length mn = List.length q -> List.length mx = List.length q ->
     zip3 (fun a b x => lnprior1 c (scale a b x)) mn mx q = repeat 0 (List.length q)).
  { clear -A. induction mn as [|x mn IH]; intros [|y mx] [|z q] L1 L2; try discriminate; [reflexivity|].
    unfold zip3 in *. cbn [combine map List.length repeat fst snd]. rewrite A. f_equal. apply IH; cbn in *; lia. }
  assert (Z2 : forall mn mx q, List.length mn = List.length q -> List.length mx = List.length q ->
     zip3 (fun a b x => lnprior_grad1 c (scale a b x) / (b - a)) mn mx q = repeat 0 (List.length q)).
  { clear -B. induction mn as [|x mn IH]; intros [|y mx] [|z q] L1 L2; try discriminate; [reflexivity|].
    unfold zip3 in *. cbn [combine map List.length repeat fst snd]. rewrite B. unfold Rdiv at 1. rewrite Rmult_0_l. f_equal. apply IH; cbn in *; lia. }
  rewrite Z1, Z2 by assumption. f_equal. unfold vsum. generalize (List.length q) as n. induction n as [|n IHn]; [reflexivity|].
  cbn [repeat fold_left]. rewrite Rplus_0_r. exact IHn.
Qed.
(** The flat prior changes neither the log-probability nor its gradient, and that gradient is
    its derivative. *)
Theorem C65_flat : forall mn mx q p, box mn mx q -> build Flat mn mx = Some p ->
  call p q = (0, repeat 0 (List.length q)) /\ is_gradient_at (fun v => fst (call p v)) (snd (call p q)) q.
Proof.
  intros mn mx q p (H1 & H2 & H3) E. injection E as <-.
  assert (C : forall v, List.length v = List.length q -> call (mkPrior Flat mn mx) v = (0, repeat 0 (List.length v))).
  { intros v Lv. apply call_flat; try congruence. rewrite Lv. exact H3. }
  split; [apply C; reflexivity|]. rewrite (C q eq_refl). cbn [snd]. split; [apply repeat_length|].
  intros i Hi. rewrite nth_repeat. eapply derivable_pt_lim_ext; [|apply (derivable_pt_lim_const 0)].
  intros t. rewrite C by apply upd_len. reflexivity.
Qed.
Print Assumptions C65_flat.
(** No prior but ExpBeta tells a value outside its range from one inside, and every named
    distribution is flat. *)
Theorem C65_outside_refuted : forall c mn mx q q' p, (forall alpha, c <> ExpBeta alpha) -> mn < mx -> build c [mn] [mx] = Some p ->
  mn < q < mx -> ~ mn <= q' <= mx -> call p [q'] = call p [q].
Proof.
  intros c mn mx q q' p Hc Hm E _ _. destruct c; try discriminate; try (exfalso; eapply Hc; reflexivity);
  injection E as <-; rewrite !call_flat; try reflexivity; try (intros ? ?; discriminate);
  intros [|i] Hi; cbn in *; try lra; lia.
Qed.
Print Assumptions C65_outside_refuted.
(** The truncated Cauchy prior is drawn from one law and evaluated as another: its value is not
    the logarithm of the density of its draws up to a constant. *)
Theorem C65_density_refuted : forall p, build TruncatedCauchy [-1] [1] = Some p ->
  ~ exists c, forall x, -1 <= x <= 1 -> exp (fst (call p [x])) = c * cauchy 0 1 x.
Proof.
  intros p E (c & H). injection E as <-.
  assert (V : forall x, fst (call (mkPrior TruncatedCauchy [-1] [1]) [x]) = 0).
  { intros x. rewrite call_flat; try reflexivity; [intros ? ?; discriminate|]. intros [|i] Hi; cbn in *; [lra|lia]. }
  pose proof (H 0 ltac:(lra)) as H0. pose proof (H 1 ltac:(lra)) as H1. rewrite V, exp_0 in H0, H1. unfold cauchy in *. rewrite Rabs_R1 in *.
  pose proof PI_RGT_0. assert (E0 : PI * ((0 - 0) ^ 2 + 1 ^ 2) = PI) by ring. assert (E1 : PI * ((1 - 0) ^ 2 + 1 ^ 2) = 2 * PI) by ring.
  rewrite E0 in H0. rewrite E1 in H1.
  assert (c = PI) by (apply (Rmult_eq_compat_r PI) in H0; replace (c * (1 / PI) * PI) with c in H0 by (field; lra); lra).
  subst c. replace (PI * (1 / (2 * PI))) with (/ 2) in H1 by (field; lra). lra.
Qed.
Print Assumptions C65_density_refuted.
(** The barrier prior cannot be built; ExpBeta can exactly for exponents above -1. *)
Theorem C65_barrier_refuted : forall mn mx, build Barrier mn mx = None.
Proof. reflexivity. Qed.
Theorem C65_expbeta : forall alpha mn mx, (-1 < alpha -> exists p, build (ExpBeta alpha) mn mx = Some p /\
    (forall q, call p q = (prior_value alpha mn mx q, prior_grad alpha mn mx q))) /\
  (alpha <= -1 -> build (ExpBeta alpha) mn mx = None).
Proof.
  intros. unfold build. destruct (Rlt_dec (-1) alpha); split; intros; try lra; [|reflexivity].
  eexists. split; [reflexivity|]. intros q. reflexivity.
Qed.
Print Assumptions C65_expbeta.
(** Draws on [2, 5] around 3 with scales 2 and -2 *)
Example C65_case : (exists p, build TruncatedCauchy [2] [5] = Some p) /\ 2 <> 0 /\ -2 <> 0 /\ 2 < 5 /\ 2 <= 3 <= 5 /\
  (forall p, sample p 3 2 2 4 (1 / 2) = Some 3) /\ sample (mkPrior TruncatedCauchy [2] [5]) 3 0 2 5 (1 / 2) = None.
Proof.
  split; [eexists; reflexivity|]. repeat split; try lra.
  - intros p. rewrite sample_shape by lra. cbv zeta. f_equal.
    replace ((2 - 3) / 2) with (- (1 / 2)) by field. replace ((4 - 3) / 2) with (1 / 2) by field. rewrite atan_opp.
    replace (- atan (1 / 2) + (atan (1 / 2) - - atan (1 / 2)) * (1 / 2)) with 0 by field. rewrite tan_0. ring.
  - unfold sample. destruct (Req_EM_T 0 0); [reflexivity|congruence].
Qed.
Example C65_box_case : box [0; -1] [1; 1] [1/2; 0] /\ (exists p, build Flat [0; -1] [1; 1] = Some p) /\
  (forall alpha, Normal <> ExpBeta alpha) /\ (exists p, build Normal [10] [30] = Some p) /\ 10 < 20 < 30 /\ ~ 10 <= 40 <= 30.
Proof.
  split; [split; [reflexivity|split; [reflexivity|]]; intros [|[|i]] Hi; cbn in *; try lra; lia|].
  split; [eexists; reflexivity|]. split; [intros ? ?; discriminate|]. split; [eexists; reflexivity|]. lra.
Qed.
