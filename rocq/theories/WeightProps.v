(** C70: the weights of a galaxy profile as unknowns of a probabilistic model. *)
From Coq Require Import Reals.
From Coquelicot Require Import Coquelicot.
From Coq Require Import List String Bool Arith Lra Lia Psatz.
From Verif Require Import WeightModel WeightFacts.
Import ListNotations.
Open Scope R_scope.

(** ** The covariance of neighbouring weights *)
Lemma nonneg_below_spec n f : nonneg_below n f = true <-> forall i, (i < n)%nat -> 0 <= f i.
Proof.
  induction n as [|n IH]; cbn; [split; [lia|reflexivity]|]. rewrite andb_true_iff, IH. split.
  - intros [H1 H2] i Hi. destruct (Rle_dec 0 (f n)); [|discriminate]. destruct (Nat.eq_dec i n) as [->|]; [assumption|]. apply H1. lia.
  - intros H. split; [intros i Hi; apply H; lia|]. destruct (Rle_dec 0 (f n)) as [|N]; [reflexivity|]. exfalso. apply N, H. lia.
Qed.
(** What is answered, from what is being normalised *)
Lemma kernel_scaled inv n prior scale K : inverts inv -> get_kernel inv n prior scale = Some K ->
  exists Sigma, raw_kernel inv n prior scale = Some Sigma /\ (forall i, (i < n)%nat -> 0 < Sigma i i) /\
    forall i j, (i < n)%nat -> (j < n)%nat -> K i j = / sqrt (Sigma i i) * Sigma i j * / sqrt (Sigma j j).
Proof.
  intros HI H. unfold get_kernel in H. destruct (raw_kernel inv n prior scale) as [Sigma|]; [|discriminate]. exists Sigma. split; [reflexivity|].
  destruct (nonneg_below n (fun i => Sigma i i)) eqn:En; [|discriminate]. rewrite nonneg_below_spec in En. cbv zeta in H.
  destruct (inv n _) as [sinv|] eqn:Ei; [|discriminate]. injection H as <-. destruct (HI n (diagonal (fun i => sqrt (Sigma i i)))) as (HS & _). specialize (HS sinv Ei).
  pose proof (diagonal_inverse _ _ _ HS) as DI. split.
  - intros i Hi. destruct (DI i i Hi Hi) as (N & _). destruct (En i Hi) as [P|Z]; [exact P|]. exfalso. apply N. rewrite <- Z. apply sqrt_0.
  - intros i j Hi Hj. unfold matmul. rewrite (sumn_one n _ i Hi).
    + rewrite (sumn_one n _ j Hj).
      * destruct (DI i i Hi Hi) as (N1 & ->). destruct (DI j j Hj Hj) as (N2 & ->). unfold delta. rewrite !Nat.eqb_refl. field. split; assumption.
      * intros l Hl N. destruct (DI l j Hl Hj) as (N1 & ->). unfold delta. apply Nat.eqb_neq in N. rewrite N. field. assumption.
    + intros k Hk N. destruct (DI i k Hi Hk) as (N1 & ->). unfold delta. assert (E : Nat.eqb i k = false) by (apply Nat.eqb_neq; auto). rewrite E. field. assumption.
Qed.
Lemma kernel_defined inv n prior scale Sigma : inverts inv -> raw_kernel inv n prior scale = Some Sigma -> (forall i, (i < n)%nat -> 0 < Sigma i i) ->
  exists K, get_kernel inv n prior scale = Some K.
Proof.
  intros HI E HP. unfold get_kernel. rewrite E. assert (En : nonneg_below n (fun i => Sigma i i) = true) by (apply nonneg_below_spec; intros i Hi; apply Rlt_le, HP, Hi). rewrite En. cbv zeta.
  destruct (inv n _) as [sinv|] eqn:Ei; [eauto|]. exfalso. destruct (HI n (diagonal (fun i => sqrt (Sigma i i)))) as (_ & HN). destruct (HN Ei) as (v & (i & Hi & Hv) & HA).
  apply Hv. apply (diagonal_regular n (fun i => sqrt (Sigma i i)) v); auto. intros k Hk. pose proof (sqrt_lt_R0 _ (HP k Hk)). lra.
Qed.

(** Whatever the prior, what is answered has ones on the diagonal and is symmetric. *)
Theorem C70_correlation : forall inv n prior scale K, inverts inv -> get_kernel inv n prior scale = Some K ->
  forall i j, (i < n)%nat -> (j < n)%nat -> K i i = 1 /\ K i j = K j i.
Proof.
  intros inv n prior scale K HI H. destruct (kernel_scaled _ _ _ _ _ HI H) as (Sigma & ES & HP & HK).
  assert (Sym : forall i j, (i < n)%nat -> (j < n)%nat -> Sigma i j = Sigma j i).
  { unfold raw_kernel in ES. destruct (String.eqb prior "triangular"); [destruct n; [discriminate|]; injection ES as <-; intros; apply bands_sym|].
    destruct (String.eqb prior "finite-difference").
    - destruct n as [|n]; [discriminate|]. cbv zeta in ES. destruct (HI (S n) (matmul (S n) (transpose (bands 2 (- scale))) (bands 2 (- scale)))) as (HS & _). specialize (HS _ ES).
      apply (inverse_sym _ _ _ HS). intros i j _ _. unfold matmul, transpose. apply sumn_ext. intros k _. ring.
    - destruct (String.eqb prior "exp-squared"); [|discriminate]. destruct (Req_EM_T scale 0); [discriminate|]. injection ES as <-. intros i j _ _. unfold exp_squared, distance.
      rewrite Rabs_minus_sym. reflexivity. }
  intros i j Hi Hj. rewrite !HK by assumption. split; [|rewrite (Sym i j Hi Hj); ring].
  pose proof (HP i Hi) as P. rewrite <- (sqrt_sqrt (Sigma i i)) at 2 by lra. pose proof (sqrt_lt_R0 _ P). field. lra.
Qed.
Print Assumptions C70_correlation.

(** Smooth priors: a covariance for any number of Gaussians and any scale. *)
Theorem C70_exp_squared : forall inv n scale, inverts inv -> scale <> 0 ->
  exists K, get_kernel inv n "exp-squared" scale = Some K /\ positive_definite n K /\
    forall i j, (i < n)%nat -> (j < n)%nat -> K i j = exp (- (INR i - INR j) ^ 2 / (2 * scale ^ 2)).
Proof.
  intros inv n scale HI Hs.
  assert (ES : raw_kernel inv n "exp-squared" scale = Some (exp_squared scale)) by (unfold raw_kernel; cbn; destruct (Req_EM_T scale 0); [contradiction|reflexivity]).
  assert (D1 : forall i, exp_squared scale i i = 1). { intros i. unfold exp_squared, distance. rewrite Rminus_diag_eq, Rabs_R0 by reflexivity. replace (- 0 ^ 2 / (2 * scale ^ 2)) with 0 by (field; assumption). apply exp_0. }
  destruct (kernel_defined inv n "exp-squared" scale _ HI ES) as (K & EK); [intros i _; rewrite D1; lra|]. exists K. split; [exact EK|].
  destruct (kernel_scaled _ _ _ _ _ HI EK) as (Sigma & ES' & _ & HK). rewrite ES in ES'. injection ES' as <-.
  assert (HK' : forall i j, (i < n)%nat -> (j < n)%nat -> K i j = exp_squared scale i j). { intros i j Hi Hj. rewrite HK by assumption. rewrite !D1, sqrt_1. field. }
  split; [apply (pd_ext n K (exp_squared scale) HK'); now apply exp_squared_pd|]. intros i j Hi Hj. rewrite HK' by assumption. unfold exp_squared, distance. now rewrite pow2_abs.
Qed.
Print Assumptions C70_exp_squared.
Theorem C70_finite_difference : forall inv n scale, inverts inv ->
  (forall K, get_kernel inv n "finite-difference" scale = Some K -> positive_definite n K) /\
  ((0 < n)%nat -> -1 <= scale <= 1 -> exists K, get_kernel inv n "finite-difference" scale = Some K).
Proof.
  intros inv n scale HI. set (D := bands 2 (- scale)). split.
  - intros K H. destruct (kernel_scaled _ _ _ _ _ HI H) as (Sigma & ES & HP & HK). unfold raw_kernel in ES. cbn in ES. destruct n as [|n]; [discriminate|].
    destruct (HI (S n) (matmul (S n) (transpose D) D)) as (HS & _). specialize (HS _ ES).
    apply (pd_ext (S n) K _ HK). apply (pd_scaled (S n) Sigma (fun i => / sqrt (Sigma i i))); [|now apply gram_inverse_pd in HS].
    intros i Hi. apply Rinv_neq_0_compat. pose proof (sqrt_lt_R0 _ (HP i Hi)). lra.
  - intros Hn Hs. destruct n as [|n]; [lia|]. destruct (inv (S n) (matmul (S n) (transpose D) D)) as [Sigma|] eqn:Ei.
    + apply (kernel_defined inv (S n) "finite-difference" scale Sigma HI); [exact Ei|]. intros i Hi. apply (pd_diag (S n)); [exact Hi|].
      destruct (HI (S n) (matmul (S n) (transpose D) D)) as (HS & _). exact (gram_inverse_pd _ _ _ (HS _ Ei)).
    + exfalso. destruct (HI (S n) (matmul (S n) (transpose D) D)) as (_ & HN). destruct (HN Ei) as (v & (i & Hi & Hv) & HA). apply Hv.
      assert (PD : positive_definite (S n) D) by (apply bands_pd; lra). apply (pd_regular (S n) D v PD); [|exact Hi]. intros k Hk.
      apply (pd_regular (S n) D (applied (S n) D v) PD); [|exact Hk]. intros l Hl. rewrite <- (HA l Hl), <- applied_matmul. unfold applied at 1 3. apply sumn_ext. intros m _. unfold transpose. unfold D. now rewrite bands_sym.
Qed.
Print Assumptions C70_finite_difference.
Lemma triangular_kernel inv n scale : inverts inv -> (0 < n)%nat -> exists K, get_kernel inv n "triangular" scale = Some K /\
  forall i j, (i < n)%nat -> (j < n)%nat -> K i j = / sqrt 2 * bands 2 scale i j * / sqrt 2.
Proof.
  intros HI Hn. assert (ES : raw_kernel inv n "triangular" scale = Some (bands 2 scale)) by (unfold raw_kernel; cbn; destruct n; [lia|reflexivity]).
  assert (D2 : forall i, bands 2 scale i i = 2) by (intros i; unfold bands; now rewrite Nat.eqb_refl).
  destruct (kernel_defined inv n "triangular" scale _ HI ES) as (K & EK); [intros i _; rewrite D2; lra|]. exists K. split; [exact EK|].
  destruct (kernel_scaled _ _ _ _ _ HI EK) as (Sigma & ES' & _ & HK). rewrite ES in ES'. injection ES' as <-. intros i j Hi Hj. rewrite HK by assumption. now rewrite !D2.
Qed.
(** The triangular one is a covariance up to scale 1 ... *)
Theorem C70_triangular : forall inv n scale, inverts inv -> (0 < n)%nat -> -1 <= scale <= 1 ->
  exists K, get_kernel inv n "triangular" scale = Some K /\ positive_definite n K.
Proof.
  intros inv n scale HI Hn Hs. destruct (triangular_kernel inv n scale HI Hn) as (K & EK & HK). exists K. split; [exact EK|].
  apply (pd_ext n K _ HK). apply (pd_scaled n (bands 2 scale) (fun _ => / sqrt 2)); [|now apply bands_pd].
  intros i _. apply Rinv_neq_0_compat. pose proof (sqrt_lt_R0 2). lra.
Qed.
Print Assumptions C70_triangular.
(** ... and not beyond, from some number of Gaussians on: at the scale the model uses by
    default, from two on. *)
Theorem C70_triangular_refuted : forall inv n scale, inverts inv -> (0 < n)%nat -> INR n < scale * INR (n - 1) ->
  exists K v, get_kernel inv n "triangular" scale = Some K /\ quad n K v < 0.
Proof.
  intros inv n scale HI Hn Hs. destruct (triangular_kernel inv n scale HI Hn) as (K & EK & HK). destruct n as [|n]; [lia|]. exists K, (fun i => (-1) ^ i). split; [exact EK|].
  rewrite (quad_ext _ _ _ _ HK). rewrite (quad_scaled (S n) (bands 2 scale) (fun _ => / sqrt 2)).
  assert (E : quad (S n) (bands 2 scale) (fun i => / sqrt 2 * (-1) ^ i) = / 2 * quad (S n) (bands 2 scale) (fun i => (-1) ^ i)).
  { unfold quad. rewrite <- sumn_scal. apply sumn_ext. intros i _. rewrite <- sumn_scal. apply sumn_ext. intros j _.
    assert (Q : / sqrt 2 * / sqrt 2 = / 2) by (rewrite <- Rinv_mult, sqrt_sqrt by lra; reflexivity). rewrite <- Q. ring. }
  rewrite E, bands_sign. replace (S n - 1)%nat with n in Hs by lia. lra.
Qed.
Print Assumptions C70_triangular_refuted.
Theorem C70_default_scale_refuted : forall inv n, inverts inv -> (2 <= n)%nat -> exists K v, get_kernel inv n "triangular" 3 = Some K /\ quad n K v < 0.
Proof.
  intros inv n HI Hn. apply C70_triangular_refuted; [exact HI|lia|]. rewrite minus_INR by lia. apply le_INR in Hn. cbn in Hn |- *. lra.
Qed.
Print Assumptions C70_default_scale_refuted.

(** ** The light of the mixture *)
Lemma predict_pixel px py x y a weight w radii bg : spread weight (List.length radii) = Some w ->
  sersic_prediction [(px, py)] x y a weight None radii bg = Some [total (map (component px py x y a) (combine w radii)) + bg].
Proof. intros H. unfold sersic_prediction, predict_separate. rewrite H. reflexivity. Qed.
Lemma component_polar x y a w r phi rho : r <> 0 -> component (x + rho * cos phi) (y + rho * sin phi) x y a (w, r) = a * w / (2 * PI * r * r) * exp (- rho ^ 2 / (2 * r ^ 2)).
Proof.
  intros Hr. unfold component. f_equal. f_equal.
  replace (x + rho * cos phi - x) with (rho * cos phi) by ring. replace (y + rho * sin phi - y) with (rho * sin phi) by ring.
  replace ((rho * cos phi / r) ^ 2 + (rho * sin phi / r) ^ 2) with (rho ^ 2 / r ^ 2 * (Rsqr (sin phi) + Rsqr (cos phi))) by (unfold Rsqr; field; exact Hr). rewrite sin2_cos2. field. exact Hr.
Qed.
Lemma ring_of_light a w r R0 : r <> 0 -> is_RInt (fun rho => 2 * PI * rho * (a * w / (2 * PI * r * r) * exp (- rho ^ 2 / (2 * r ^ 2)))) 0 R0 (a * w * (1 - exp (- R0 ^ 2 / (2 * r ^ 2)))).
Proof.
  intros Hr. pose proof PI_RGT_0 as HPI.
  replace (a * w * (1 - exp (- R0 ^ 2 / (2 * r ^ 2)))) with (minus ((fun rho => - (a * w * exp (- rho ^ 2 / (2 * r ^ 2)))) R0) ((fun rho => - (a * w * exp (- rho ^ 2 / (2 * r ^ 2)))) 0)).
  2:{ unfold minus, plus, opp. cbn. replace (- (0 * (0 * 1)) / (2 * (r * (r * 1)))) with 0 by (field; exact Hr). rewrite exp_0. ring. }
  apply (is_RInt_derive (fun rho => - (a * w * exp (- rho ^ 2 / (2 * r ^ 2))))).
  - intros rho _. auto_derive; [exact I|]. replace (- (rho * (rho * 1)) * / (2 * (r * (r * 1)))) with (- rho ^ 2 / (2 * r ^ 2)) by (field; exact Hr).
    set (e := exp _). field. split; [exact Hr|lra].
  - intros rho _. apply (ex_derive_continuous (fun rho => 2 * PI * rho * (a * w / (2 * PI * r * r) * exp (- rho ^ 2 / (2 * r ^ 2))))). auto_derive. exact I.
Qed.
(** The light within a circle about the source, taken along any direction: the amplitude of
    each Gaussian is its light. *)
Theorem C70_light : forall x y a weight w radii phi R0, spread weight (List.length radii) = Some w -> Forall (fun r => r <> 0) radii ->
  exists f, (forall rho, sersic_prediction [(x + rho * cos phi, y + rho * sin phi)] x y a weight None radii 0 = Some [f rho]) /\
    is_RInt (fun rho => 2 * PI * rho * f rho) 0 R0 (fold_right Rplus 0 (map (fun wr => a * fst wr * (1 - exp (- R0 ^ 2 / (2 * snd wr ^ 2)))) (combine w radii))).
Proof.
  intros x y a weight w radii phi R0 Hw Hr. exists (fun rho => total (map (component (x + rho * cos phi) (y + rho * sin phi) x y a) (combine w radii)) + 0).
  split; [intros rho; now apply predict_pixel|].
  assert (HC : Forall (fun wr => snd wr <> 0) (combine w radii)). { apply Forall_forall. intros [u r] Hin. apply in_combine_r in Hin. rewrite Forall_forall in Hr. now apply Hr. }
  clear Hw Hr. induction (combine w radii) as [|[u r] l IH].
  - cbn. apply (is_RInt_ext (fun _ => 0)); [intros t _; rewrite Rplus_0_r, Rmult_0_r; reflexivity|]. pose proof (is_RInt_const (V := R_NormedModule) 0 R0 0) as Z. assert (E : scal (R0 - 0) (0 : R_NormedModule) = 0) by (unfold scal; cbn; unfold mult; cbn; ring). rewrite E in Z. exact Z.
  - inversion HC as [|? ? H1 H2]; subst. cbn [map fold_right fst snd].
    apply (is_RInt_ext (fun rho => plus (2 * PI * rho * (a * u / (2 * PI * r * r) * exp (- rho ^ 2 / (2 * r ^ 2)))) (2 * PI * rho * (total (map (component (x + rho * cos phi) (y + rho * sin phi) x y a) l) + 0)))).
    + intros rho _. rewrite <- (component_polar x y a u r phi rho H1). set (c := component _ _ _ _ _ _). set (t := total (map _ l)).
      change (2 * PI * rho * c + 2 * PI * rho * (t + 0) = 2 * PI * rho * (c + t + 0)). ring.
    + apply (is_RInt_plus (V := R_NormedModule)); [now apply ring_of_light|now apply IH].
Qed.
Print Assumptions C70_light.
(** The separate components make up the whole. *)
Theorem C70_separate : forall pix x y a weight lnW radii bg out, sersic_prediction pix x y a weight lnW radii bg = Some out ->
  exists sep, predict_separate pix x y a weight lnW radii = Some sep /\ List.length sep = List.length pix /\ Forall (fun c => List.length c = List.length radii) sep /\
    out = map (fun c => fold_right Rplus 0 c + bg) sep.
Proof.
  intros pix x y a weight lnW radii bg out H. unfold sersic_prediction in H. destruct (predict_separate pix x y a weight lnW radii) as [sep|] eqn:E; [|discriminate]. injection H as <-.
  exists sep. split; [reflexivity|]. unfold predict_separate in E. destruct (spread _ _) as [w|] eqn:Ew; [|discriminate]. injection E as <-. rewrite map_length. split; [reflexivity|]. split; [|reflexivity].
  apply Forall_forall. intros c Hc. apply in_map_iff in Hc as (p & <- & _). rewrite map_length, combine_length.
  assert (L : List.length w = List.length radii). { unfold spread in Ew. destruct lnW, weight; try (destruct (Nat.eqb _ _) eqn:En; [|discriminate]; injection Ew as <-; now apply Nat.eqb_eq). injection Ew as <-. apply repeat_length. }
  lia.
Qed.
Print Assumptions C70_separate.

(** ** Prediction and model agree *)
Lemma spread_exp l n : spread (WEach (map exp l)) n = option_map (map exp) (spread (WEach l) n).
Proof. cbn. rewrite map_length. destruct (Nat.eqb _ _); reflexivity. Qed.
(** For every choice of priors under which the centre and the amplitude are free, or are the
    defaults of the prediction, the sampled sites predict the mean of the likelihood. *)
Theorem C70_predicts : forall inv s pix v sites mu, sersic_model inv s pix v = Some (sites, mu) ->
  (0 < s_dcen s \/ s_xcen s = 0 /\ s_ycen s = 0) -> (s_afix s = None \/ s_afix s = Some 0 \/ s_afix s = Some 1) ->
  predict_sampled sites v (s_radii s) pix = Some mu.
Proof.
  intros inv s pix v sites mu H Hc Ha. unfold sersic_model in H. cbv zeta in H.
  assert (Ab : fixed_amplitude (s_afix s) = None \/ fixed_amplitude (s_afix s) = Some 1).
  { unfold fixed_amplitude. destruct Ha as [->|[->| ->]]; [auto| |]; destruct (Req_EM_T _ 0); auto; lra. }
  assert (Cb : positive (s_dcen s) = true \/ (positive (s_dcen s) = false /\ s_xcen s = 0 /\ s_ycen s = 0)).
  { unfold positive. destruct (Rlt_dec 0 (s_dcen s)); [auto|]. right. destruct Hc as [|]; [contradiction|auto]. }
  destruct (positive (s_maxbg s)); destruct Cb as [Cb|(Cb & Cx & Cy)]; rewrite Cb in H; try rewrite Cx, Cy in H;
    (destruct (positive (s_gmax s)); [discriminate|]); (destruct Ab as [Ab|Ab]; rewrite Ab in H);
    (destruct (String.eqb (s_prior s) "dirichlet"); [|destruct (get_kernel inv _ (s_prior s) (s_scale s)); [|discriminate]]);
    (destruct (sersic_prediction pix _ _ _ _ _ _ _) as [mu'|] eqn:E in H; [|discriminate]);
    (destruct (s_ngauss_neg s); [|discriminate]); injection H as <- <-; exact E.
Qed.
Print Assumptions C70_predicts.
(** Otherwise not: a centre held fixed away from the origin, or an amplitude held fixed away
    from one, is lost. *)
Definition one_pixel (xcen a : R) : settings := mkSettings 0 xcen 0 0 [1] 0 0 (Some a) 2 "exp-squared" 3 1.
Definition at_origin : values := mkValues 0 0 0 1 [1] [0].
Theorem C70_fixed_refuted : forall inv xcen a, inverts inv -> a <> 0 -> a <> 1 \/ xcen <> 0 ->
  exists pix sites mu mu', sersic_model inv (one_pixel xcen a) pix at_origin = Some (sites, mu) /\ predict_sampled sites at_origin [1] pix = Some mu' /\ mu <> mu'.
Proof.
  intros inv xcen a HI Ha Hne. destruct (C70_exp_squared inv 1 3 HI ltac:(lra)) as (K & EK & _ & _).
  assert (Run : forall pix, sersic_model inv (one_pixel xcen a) pix at_origin =
    Some ([("lnW"%string, MultivariateNormal (repeat (- ln (INR 1)) 1) (fun i j => 1 * K i j))], map (fun p => component (fst p) (snd p) xcen 0 a (1, 1) + 0 + 0) pix)).
  { intros pix. unfold sersic_model, one_pixel. cbn [s_radii s_maxbg s_dcen s_gmax s_afix s_prior s_scale s_lambda s_ngauss_neg s_xcen s_ycen List.length]. unfold positive. destruct (Rlt_dec 0 0); [lra|].
    unfold fixed_amplitude. destruct (Req_EM_T a 0); [contradiction|]. cbn [String.eqb Ascii.eqb Bool.eqb]. rewrite EK. unfold sersic_prediction, predict_separate. cbn [map v_lnW at_origin spread List.length Nat.eqb option_map combine app].
    rewrite exp_0, map_map. reflexivity. }
  assert (Pre : forall pix, predict_sampled [("lnW"%string, MultivariateNormal (repeat (- ln (INR 1)) 1) (fun i j => 1 * K i j))] at_origin [1] pix =
    Some (map (fun p => component (fst p) (snd p) 0 0 1 (1, 1) + 0 + 0) pix)).
  { intros pix. unfold predict_sampled. cbn [has existsb fst String.eqb Ascii.eqb Bool.eqb orb]. unfold sersic_prediction, predict_separate. cbn [map v_lnW at_origin spread List.length Nat.eqb option_map combine]. rewrite exp_0, map_map. reflexivity. }
  pose proof PI_RGT_0 as HPI.
  assert (Cmp : forall px, component px 0 xcen 0 a (1, 1) + 0 + 0 = component px 0 0 0 1 (1, 1) + 0 + 0 -> a * exp (- (1 / 2) * (px - xcen) ^ 2) = exp (- (1 / 2) * px ^ 2)).
  { intros px E. unfold component in E. apply (Rmult_eq_reg_r (/ (2 * PI))); [|apply Rinv_neq_0_compat; lra].
    replace (a * exp (- (1 / 2) * (px - xcen) ^ 2) * / (2 * PI)) with (a * 1 / (2 * PI * 1 * 1) * exp (- (1 / 2) * (((px - xcen) / 1) ^ 2 + ((0 - 0) / 1) ^ 2)) + 0 + 0).
    2:{ replace (((px - xcen) / 1) ^ 2 + ((0 - 0) / 1) ^ 2) with ((px - xcen) ^ 2) by field. field. lra. }
    rewrite E. replace (((px - 0) / 1) ^ 2 + ((0 - 0) / 1) ^ 2) with (px ^ 2) by field. field. lra. }
  (* two pixels, at the two centres, suffice *)
  exists [(0, 0); (xcen, 0)]. eexists. eexists. eexists. split; [apply Run|]. split; [apply Pre|]. intros E. cbn [map fst snd] in E. injection E as E1 E2.
  apply Cmp in E1. apply Cmp in E2. set (g := exp (- (1 / 2) * xcen ^ 2)) in *. replace (- (1 / 2) * (0 - xcen) ^ 2) with (- (1 / 2) * xcen ^ 2) in E1 by ring. fold g in E1.
  replace (- (1 / 2) * (xcen - xcen) ^ 2) with 0 in E2 by ring. replace (- (1 / 2) * 0 ^ 2) with 0 in E1 by ring. rewrite exp_0 in E1, E2.
  assert (Ea : a = g) by lra. assert (G : g * g = 1) by (rewrite Ea in E1; exact E1). assert (Gp : 0 < g) by apply exp_pos. assert (G1 : g = 1) by nra.
  destruct Hne as [Hne|Hne]; [apply Hne; lra|]. unfold g in G1. assert (G2 : exp (- (1 / 2) * xcen ^ 2) = exp 0) by (rewrite exp_0; exact G1). apply exp_inv in G2. apply Hne. apply Rsqr_0_uniq. unfold Rsqr. lra.
Qed.
Print Assumptions C70_fixed_refuted.
(** Free shear cannot be asked for, nor negative Gaussians. *)
Theorem C70_shear_refuted : forall inv s pix v, 0 < s_gmax s \/ s_ngauss_neg s <> O -> sersic_model inv s pix v = None.
Proof.
  intros inv s pix v H. unfold sersic_model. cbv zeta.
  destruct (positive (s_maxbg s)), (positive (s_dcen s)), (positive (s_gmax s)) eqn:Eg; try reflexivity; (destruct H as [H|H]; [unfold positive in Eg; destruct (Rlt_dec 0 (s_gmax s)); [discriminate|contradiction]|]);
    (destruct (fixed_amplitude (s_afix s)); destruct (String.eqb (s_prior s) "dirichlet"); [|destruct (get_kernel inv _ (s_prior s) (s_scale s)); [|reflexivity]| |destruct (get_kernel inv _ (s_prior s) (s_scale s)); [|reflexivity]]);
    (destruct (sersic_prediction _ _ _ _ _ _ _ _); [|reflexivity]); destruct (s_ngauss_neg s); congruence.
Qed.
Print Assumptions C70_shear_refuted.
(** The covariance given to the weights is one, for every smoothing strength. *)
Theorem C70_weights_prior : forall inv s pix v sites mu loc cov, inverts inv -> sersic_model inv s pix v = Some (sites, mu) -> In ("lnW"%string, MultivariateNormal loc cov) sites ->
  0 < s_lambda s -> s_prior s <> "triangular"%string \/ -1 <= s_scale s <= 1 ->
  positive_definite (List.length (s_radii s)) cov /\ List.length loc = List.length (s_radii s) /\
  forall i, (i < List.length (s_radii s))%nat -> cov i i = s_lambda s.
Proof.
  intros inv s pix v sites mu loc cov HI H Hin HL Hp. unfold sersic_model in H. cbv zeta in H. set (n := List.length (s_radii s)) in *.
  assert (E : exists K, get_kernel inv n (s_prior s) (s_scale s) = Some K /\ loc = repeat (- ln (INR n)) n /\ cov = fun i j => s_lambda s * K i j).
  { destruct (positive (s_maxbg s)), (positive (s_dcen s)); (destruct (positive (s_gmax s)); [discriminate|]); destruct (fixed_amplitude (s_afix s));
      (destruct (String.eqb (s_prior s) "dirichlet"); [|destruct (get_kernel inv n (s_prior s) (s_scale s)) as [K|]; [|discriminate]]);
      (destruct (sersic_prediction _ _ _ _ _ _ _ _); [|discriminate]); (destruct (s_ngauss_neg s); [|discriminate]); injection H as <- _; cbn in Hin;
      repeat (destruct Hin as [Hin|Hin]; [try discriminate|]); try contradiction; exists K; injection Hin as <- <-; auto. }
  destruct E as (K & EK & -> & ->).
  assert (PK : positive_definite n K).
  { destruct (kernel_scaled _ _ _ _ _ HI EK) as (Sigma & ES & _ & _). unfold raw_kernel in ES.
    destruct (String.eqb (s_prior s) "triangular") eqn:T.
    - apply String.eqb_eq in T. destruct Hp as [Hp|Hp]; [contradiction|]. rewrite T in EK. destruct n as [|n']; [intros w (i & Hi & _); lia|].
      destruct (C70_triangular inv (S n') (s_scale s) HI ltac:(lia) Hp) as (K' & EK' & P). rewrite EK in EK'. injection EK' as <-. exact P.
    - destruct (String.eqb (s_prior s) "finite-difference") eqn:F.
      + apply String.eqb_eq in F. rewrite F in EK. destruct (C70_finite_difference inv n (s_scale s) HI) as (P & _). now apply P.
      + destruct (String.eqb (s_prior s) "exp-squared") eqn:X; [|discriminate]. destruct (Req_EM_T (s_scale s) 0) as [|N]; [discriminate|]. apply String.eqb_eq in X. rewrite X in EK.
        destruct (C70_exp_squared inv n (s_scale s) HI N) as (K' & EK' & P & _). rewrite EK in EK'. injection EK' as <-. exact P. }
  split; [now apply pd_times|]. split; [apply repeat_length|]. intros i Hi. destruct (C70_correlation _ _ _ _ _ HI EK i i Hi Hi) as (-> & _). ring.
Qed.
Print Assumptions C70_weights_prior.
