(** C47: fitting a PSF image with a mixture of gaussians by expectation
    maximisation. *)
From Coq Require Import Reals List Lra Lia Psatz Sorted.
From Verif Require Import EmModel EmFacts.
Import ListNotations.
Open Scope R_scope.

(** The log-likelihood in textbook form: components with mean [mu], covariance
    matrix ((a, b), (b, d)); stated without the parametrisation of the code. *)
Definition gauss2 (x y mux muy a b d : R) : R :=
  / (2 * PI * sqrt (a * d - b ^ 2)) *
  exp (- / 2 * ((d * (x - mux) ^ 2 - 2 * b * (x - mux) * (y - muy) + a * (y - muy) ^ 2) / (a * d - b ^ 2))).

(** The starting values a fit can be given: no negative amplitude and no negative
    width (the random start has none). *)
Definition startable (c : comp) : Prop := 0 <= amp c /\ 0 <= sx c /\ 0 <= sy c.

Lemma random_startable m1 m2 c : random_start m1 m2 c -> startable c.
Proof. unfold random_start, startable. lra. Qed.

(** [good_image im] : no negative pixel. *)
Definition good_image (im : list (list R)) : Prop := Forall (Forall (fun v => 0 <= v)) im.

Lemma combine_seq_in {A} (l : list A) : forall s k x, In (k, x) (combine (seq s (length l)) l) ->
  (s <= k < s + length l)%nat /\ In x l.
Proof.
  induction l as [|a l IH]; cbn; intros s k x I; [easy|]. destruct I as [I|I].
  - inversion I; subst. split; [lia|now left].
  - apply IH in I. destruct I; split; [lia|now right].
Qed.

Lemma pixels_in im p : In p (pixels im) -> exists i j row, (i < length im)%nat /\ In row im /\ (j < length row)%nat /\
  px p = INR i /\ py p = INR j /\ In (pd p) row.
Proof.
  unfold pixels. rewrite in_flat_map. intros ((i, row) & I & J). cbn [fst snd] in J.
  rewrite in_map_iff in J. destruct J as ((j, v) & <- & J). cbn [fst snd px py pd].
  apply combine_seq_in in I. apply combine_seq_in in J. exists i, j, row. repeat split; try tauto; lia.
Qed.

Lemma good_pixels im : good_image im -> forall p, In p (pixels im) -> 0 <= pd p.
Proof.
  intros G p I. apply pixels_in in I. destruct I as (i & j & row & _ & R & _ & _ & _ & V).
  unfold good_image in G. rewrite Forall_forall in G. specialize (G row R). rewrite Forall_forall in G. now apply G.
Qed.

(** The density of a component is the textbook density with covariance
    ((sx^2, rho sx sy), (rho sx sy, sy^2)). *)
Theorem C47_density : forall x y c, 0 < sx c -> 0 < sy c -> -1 < rho c < 1 ->
  mvn_pdf x y c = amp c * gauss2 x y (mx c) (my c) (sx c ^ 2) (rho c * sx c * sy c) (sy c ^ 2).
Proof.
  intros x y c A B C. assert (D : 0 < 1 - rho c ^ 2) by nra. pose proof PI_RGT_0.
  assert (S : sqrt (sx c ^ 2 * sy c ^ 2 - (rho c * sx c * sy c) ^ 2) = sx c * sy c * sqrt (1 - rho c ^ 2)).
  { replace (sx c ^ 2 * sy c ^ 2 - (rho c * sx c * sy c) ^ 2) with ((sx c * sy c) ^ 2 * (1 - rho c ^ 2)) by ring.
    rewrite sqrt_mult; [|apply pow2_ge_0|lra]. rewrite sqrt_pow2; [reflexivity|]. apply Rmult_le_pos; lra. }
  assert (DE : sx c ^ 2 * sy c ^ 2 - (rho c * sx c * sy c) ^ 2 = (sx c * sy c) ^ 2 * (1 - rho c ^ 2)) by ring.
  unfold mvn_pdf, gauss2. rewrite S, DE. pose proof (sqrt_lt_R0 _ D) as Q. set (s := sqrt (1 - rho c ^ 2)) in *.
  match goal with |- _ * exp ?u = _ * (_ * exp ?v) => replace v with u end.
  - field. repeat split; lra.
  - field. repeat split; lra.
Qed.

(** The log-likelihood of mixture parameters on an image, in textbook form. *)
Definition spec_likelihood (im : list (list R)) (ps : list comp) : R :=
  fold_right Rplus 0 (map (fun p => pd p *
    ln (fold_right Rplus 0 (map (fun c => amp c * gauss2 (px p) (py p) (mx c) (my c)
                                   (sx c ^ 2) (rho c * sx c * sy c) (sy c ^ 2)) ps))) (pixels im)).

Lemma sum_as_fold {A} (f : A -> R) l : sum f l = fold_right Rplus 0 (map f l).
Proof. induction l as [|a l IH]; [apply sum_nil|]. rewrite sum_cons, IH. reflexivity. Qed.

Lemma fold_map_ext {A} (f g : A -> R) l : (forall a, In a l -> f a = g a) -> fold_right Rplus 0 (map f l) = fold_right Rplus 0 (map g l).
Proof. intro H. f_equal. now apply map_ext_in. Qed.

Lemma spec_of_log im ps l : (forall c, In c ps -> 0 <= sx c /\ 0 <= sy c) -> log_likelihood (pixels im) ps = Some l ->
  l = spec_likelihood im ps.
Proof.
  intros P H. apply log_likelihood_inv in H. destruct H as (V & _ & ->). rewrite sum_as_fold. unfold spec_likelihood.
  apply fold_map_ext. intros p _. do 2 f_equal. unfold mix. rewrite sum_as_fold. apply fold_map_ext. intros c I.
  destruct (P c I). destruct (V c I) as (? & ? & ?). apply C47_density; try lra. nra.
Qed.

(** ** No pass lowers the likelihood, if the amplitudes sum to at most one *)
Theorem C47_pass_never_lowers : forall im ps ps' l l',
  good_image im -> Forall startable ps ->
  fold_right Rplus 0 (map amp ps) <= 1 ->
  log_likelihood (pixels im) ps = Some l ->
  step_likelihood (pixels im) ps = Some (ps', l') ->
  spec_likelihood im ps <= spec_likelihood im ps' /\ l = spec_likelihood im ps /\ l' = spec_likelihood im ps'.
Proof.
  intros im ps ps' l l' G S A L E. rewrite Forall_forall in S.
  pose proof (good_pixels _ G) as D.
  pose proof (step_new_good _ D _ _ _ S E) as (G' & _ & _).
  assert (E1 : l = spec_likelihood im ps).
  { apply spec_of_log; auto. intros c I. destruct (S c I). tauto. }
  assert (E2 : l' = spec_likelihood im ps').
  { unfold step_likelihood in E. destruct (em_step (pixels im) ps) as [q|]; [|discriminate].
    destruct (log_likelihood (pixels im) q) eqn:F; [|discriminate]. inversion E; subst.
    apply spec_of_log; auto. intros c I. destruct (G' c I) as (? & ? & ? & ?). lra. }
  repeat split; auto. rewrite <- E1, <- E2. eapply step_monotone; eauto. rewrite sum_as_fold. exact A.
Qed.

(** ** After the first pass the likelihoods never decrease *)
Lemma hist_sorted im (D : forall p, In p im -> 0 <= pd p) : forall n ps l,
  (forall c, In c ps -> start_ok c) -> sum amp ps <= 1 -> log_likelihood im ps = Some l ->
  Sorted Rle (l :: em_history im n ps).
Proof.
  induction n as [|n IH]; intros ps l S A L; cbn [em_history]; [repeat constructor|].
  destruct (step_likelihood im ps) as [(ps', l')|] eqn:E; [|repeat constructor].
  pose proof (step_monotone im D _ _ _ _ S A L E) as M.
  pose proof (step_new_good im D _ _ _ S E) as (G & N & A').
  constructor; [|now constructor].
  apply IH.
  - intros c I. destruct (G c I) as (? & ? & ? & ?). unfold start_ok. lra.
  - destruct ps' as [|c r]; [rewrite sum_nil; lra|]. rewrite A'; [lra|]. intro Z. apply N in Z. discriminate.
  - unfold step_likelihood in E. destruct (em_step im ps) as [q|]; [|discriminate].
    destruct (log_likelihood im q) eqn:F; [|discriminate]. inversion E; subst. exact F.
Qed.

Theorem C47_likelihoods_never_decrease_partial : forall im n ps,
  good_image im -> Forall startable ps -> Sorted Rle (em_history (pixels im) n ps).
Proof.
  intros im n ps G S. rewrite Forall_forall in S. pose proof (good_pixels _ G) as D.
  destruct n as [|n]; cbn [em_history]; [constructor|].
  destruct (step_likelihood (pixels im) ps) as [(ps', l')|] eqn:E; [|constructor].
  pose proof (step_new_good _ D _ _ _ S E) as (G' & N & A').
  apply hist_sorted; auto.
  - intros c I. destruct (G' c I) as (? & ? & ? & ?). unfold start_ok. lra.
  - destruct ps' as [|c r]; [rewrite sum_nil; lra|]. rewrite A'; [lra|]. intro Z. apply N in Z. discriminate.
  - unfold step_likelihood in E. destruct (em_step (pixels im) ps) as [q|]; [|discriminate].
    destruct (log_likelihood (pixels im) q) eqn:F; [|discriminate]. inversion E; subst. exact F.
Qed.

(** ** What an answer is *)
Record sound_mixture (im : list (list R)) (ps : list comp) : Prop := {
  sm_amp : Forall (fun c => 0 < amp c <= 1) ps;
  sm_sum : ps <> [] -> fold_right Rplus 0 (map amp ps) = 1;
  sm_width : Forall (fun c => 0 < sx c /\ 0 < sy c) ps;
  sm_rho : Forall (fun c => -1 < rho c < 1) ps;
  sm_x : Forall (fun c => 0 <= mx c <= INR (length im) - 1) ps;
  sm_y : forall w, Forall (fun row => length row = w) im -> Forall (fun c => 0 <= my c <= INR w - 1) ps }.

Lemma weighted_mean_bounds {A} (w f : A -> R) l n lo hi : sum w l = n -> 0 < n ->
  (forall a, In a l -> 0 <= w a) -> (forall a, In a l -> lo <= f a <= hi) ->
  lo <= sum (fun a => w a * f a) l / n <= hi.
Proof.
  intros E N W F.
  assert (L1 : sum (fun a => lo * w a) l <= sum (fun a => w a * f a) l).
  { apply sum_le. intros a I. rewrite Rmult_comm. apply Rmult_le_compat_l; [auto|apply F; auto]. }
  assert (L2 : sum (fun a => w a * f a) l <= sum (fun a => hi * w a) l).
  { apply sum_le. intros a I. rewrite (Rmult_comm hi). apply Rmult_le_compat_l; [auto|apply F; auto]. }
  rewrite sum_scal, E in L1, L2. unfold Rdiv. split.
  - apply Rmult_le_reg_r with n; [auto|]. rewrite Rmult_assoc, Rinv_l by lra. lra.
  - apply Rmult_le_reg_r with n; [auto|]. rewrite Rmult_assoc, Rinv_l by lra. lra.
Qed.

Lemma INR_index k n : (k < n)%nat -> 0 <= INR k <= INR n - 1.
Proof.
  intro H. split; [apply pos_INR|]. assert (INR (S k) <= INR n) by (apply le_INR; lia). rewrite S_INR in *. lra.
Qed.

Lemma step_sound im ps ps' l : good_image im -> (forall c, In c ps -> start_ok c) ->
  step_likelihood (pixels im) ps = Some (ps', l) -> sound_mixture im ps'.
Proof.
  intros G S E. pose proof (good_pixels _ G) as D.
  pose proof (step_new_good _ D _ _ _ S E) as (G' & N & A').
  unfold step_likelihood in E. destruct (em_step (pixels im) ps) as [q|] eqn:E1; [|discriminate].
  destruct (log_likelihood (pixels im) q) eqn:E2; [|discriminate]. inversion E; subst. clear E.
  pose proof (step_good _ _ _ S E1) as Gp. destruct (step_F2 _ _ _ E1) as (F & H).
  assert (SU : ps' <> [] -> sum amp ps' = 1) by (intro Z; apply A'; intro Y; apply Z, N, Y).
  constructor.
  - apply Forall_forall. intros c I. destruct (G' c I) as (P & _). split; [auto|].
    rewrite <- SU by (intros ->; easy). apply sum_member with (f := amp); auto.
    intros b J. destruct (G' b J). lra.
  - intro Z. rewrite <- sum_as_fold. auto.
  - apply Forall_forall. intros c I. destruct (G' c I) as (? & ? & ? & ?). auto.
  - apply Forall_forall. intros c I. destruct (G' c I) as (? & ? & ? & ?). nra.
  - apply Forall_forall. intros c' I. destruct (F2_in_r _ _ _ _ H I) as (c & J & K).
    apply new_comp_inv in K. cbv zeta in K. destruct K as (K0 & _ & _ & K & _). rewrite K.
    pose proof (Nk_nonneg _ D ps Gp c J).
    apply (weighted_mean_bounds (fun p => pd p * weight ps c p) px); [reflexivity|lra| |].
    + intros p Ip. apply Rmult_le_pos; [auto|]. left. now apply weight_pos.
    + intros p Ip. apply pixels_in in Ip. destruct Ip as (i & j & row & Hi & _ & _ & -> & _). now apply INR_index.
  - intros w W. apply Forall_forall. intros c' I. destruct (F2_in_r _ _ _ _ H I) as (c & J & K).
    apply new_comp_inv in K. cbv zeta in K. destruct K as (K0 & _ & _ & _ & K & _). rewrite K.
    pose proof (Nk_nonneg _ D ps Gp c J).
    apply (weighted_mean_bounds (fun p => pd p * weight ps c p) py); [reflexivity|lra| |].
    + intros p Ip. apply Rmult_le_pos; [auto|]. left. now apply weight_pos.
    + intros p Ip. apply pixels_in in Ip. destruct Ip as (i & j & row & _ & Ir & Hj & _ & -> & _).
      rewrite Forall_forall in W. rewrite (W row Ir) in Hj. now apply INR_index.
Qed.

Lemma sound_start im ps : sound_mixture im ps -> (forall c, In c ps -> start_ok c) /\ sum amp ps <= 1.
Proof.
  intros [A S W R X Y]. rewrite Forall_forall in A, W. split.
  - intros c I. specialize (A c I). specialize (W c I). unfold start_ok. lra.
  - destruct ps as [|c r]; [rewrite sum_nil; lra|]. rewrite sum_as_fold, S; [lra|discriminate].
Qed.

Lemma loop_sound im thresh (G : good_image im) : forall left count ps cur a l,
  (forall c, In c ps -> start_ok c) ->
  (forall c0, cur = Some c0 -> log_likelihood (pixels im) ps = Some c0) ->
  em_loop (pixels im) thresh left count ps cur = Some a -> a_final a = Some l ->
  sound_mixture im (a_params a) /\ l = spec_likelihood im (a_params a) /\
  (forall c0, cur = Some c0 -> sum amp ps <= 1 -> c0 <= l) /\ (count <= a_loops a < count + left)%nat /\
  exists ps0 l0, log_likelihood (pixels im) ps0 = Some l0 /\ Rabs (l - l0) < thresh /\
     step_likelihood (pixels im) ps0 = Some (a_params a, l).
Proof.
  induction left as [|left IH]; intros count ps cur a l S C E F; cbn [em_loop] in E; [discriminate|].
  destruct (step_likelihood (pixels im) ps) as [(ps', l')|] eqn:ST.
  2:{ inversion E; subst. discriminate. }
  pose proof (step_sound _ _ _ _ G S ST) as SM.
  destruct (sound_start _ _ SM) as (S' & A').
  assert (LL : log_likelihood (pixels im) ps' = Some l').
  { unfold step_likelihood in ST. destruct (em_step (pixels im) ps) as [q|]; [|discriminate].
    destruct (log_likelihood (pixels im) q) eqn:FF; [|discriminate]. inversion ST; subst. exact FF. }
  destruct cur as [c0|].
  - destruct (Rlt_dec (Rabs (l' - c0)) thresh) as [T|T].
    + inversion E; subst. cbn in *. inversion F; subst. split; [auto|]. split.
      { apply spec_of_log; auto. intros c I. destruct (S' c I). tauto. }
      split; [|split; [lia|]].
      * intros c1 Q A. inversion Q; subst. exact (step_monotone _ (good_pixels _ G) _ _ _ _ S A (C _ eq_refl) ST).
      * exists ps, c0. auto.
    + destruct (IH (Datatypes.S count) ps' (Some l') a l S') as (R1 & R2 & R3 & R4 & R5); auto.
      { intros c1 Q. inversion Q; subst. exact LL. }
      split; [auto|]. split; [auto|]. split; [|split; [lia|auto]].
      intros c1 Q A. inversion Q; subst. apply Rle_trans with l'.
      * exact (step_monotone _ (good_pixels _ G) _ _ _ _ S A (C _ eq_refl) ST).
      * now apply R3.
  - destruct (IH (Datatypes.S count) ps' (Some l') a l S') as (R1 & R2 & R3 & R4 & R5); auto.
    { intros c1 Q. inversion Q; subst. exact LL. }
    split; [auto|]. split; [auto|]. split; [|split; [lia|auto]]. discriminate.
Qed.

Theorem C47_answer_sound : forall im thresh limit init a l,
  good_image im -> Forall startable init ->
  em_fit im thresh limit init = Some a -> a_final a = Some l ->
  sound_mixture im (a_params a) /\ l = spec_likelihood im (a_params a) /\ (a_loops a < limit)%nat /\
  (* it is the image of parameters whose likelihood is within the threshold *)
  (exists before, step_likelihood (pixels im) before = Some (a_params a, l) /\
     exists l0, log_likelihood (pixels im) before = Some l0 /\ Rabs (l - l0) < thresh) /\
  (* it is at least as likely as the start, if the start has amplitudes summing to at most one *)
  (forall l0, log_likelihood (pixels im) init = Some l0 -> fold_right Rplus 0 (map amp init) <= 1 -> l0 <= l).
Proof.
  intros im thresh limit init a l G S E F. rewrite Forall_forall in S.
  unfold em_fit in E.
  destruct (loop_sound im thresh G limit 0 init _ a l S (fun _ H => H) E F) as (R1 & R2 & R3 & R4 & (p0 & l0 & R5 & R6 & R7)).
  split; [auto|]. split; [auto|]. split; [lia|]. split; [eauto|].
  intros l1 Q A. apply R3; [auto|]. now rewrite sum_as_fold.
Qed.

(** ** Every pass reproduces the centroid and the covariance of the image *)
Definition total (im : list (list R)) : R := fold_right Rplus 0 (map pd (pixels im)).
Definition moment (im : list (list R)) (f : R -> R -> R) : R :=
  fold_right Rplus 0 (map (fun p => pd p * f (px p) (py p)) (pixels im)) / total im.
Definition mixture_moment (ps : list comp) (f : comp -> R) : R := fold_right Rplus 0 (map (fun c => amp c * f c) ps).

Lemma step_linear im ps ps' l (f : pixel -> R) (g : comp -> R) : good_image im -> (forall c, In c ps -> start_ok c) -> ps <> [] ->
  step_likelihood (pixels im) ps = Some (ps', l) ->
  (forall c c', In c ps -> new_comp (pixels im) ps c = Some c' ->
     Nk (pixels im) ps c * g c' = sum (fun p => pd p * weight ps c p * f p) (pixels im)) ->
  sum (fun c => amp c * g c) ps' = sum (fun p => pd p * f p) (pixels im) / sum pd (pixels im).
Proof.
  intros G S N E L. pose proof (good_pixels _ G) as D.
  unfold step_likelihood in E. destruct (em_step (pixels im) ps) as [q|] eqn:E1; [|discriminate].
  destruct (log_likelihood (pixels im) q) eqn:E2; [|discriminate]. inversion E; subst. clear E.
  pose proof (step_good _ _ _ S E1) as Gp. destruct (step_F2 _ _ _ E1) as (_ & H).
  rewrite <- (F2_sum_r _ (fun c => amp c * g c) _ _ H).
  transitivity (sum (fun cc : comp * comp => / sum pd (pixels im) * sum (fun p => pd p * weight ps (fst cc) p * f p) (pixels im)) (combine ps ps')).
  - apply sum_ext. intros (c, c') I. apply (F2_combine _ _ _ _ _ H) in I. destruct I as (I & _ & K). cbn [fst snd].
    rewrite <- (L c c' I K). apply new_comp_inv in K. cbv zeta in K. destruct K as (_ & K0 & K & _).
    rewrite K. rewrite Nk_total by auto. unfold Rdiv. ring.
  - rewrite sum_scal, (F2_sum_l _ (fun c => sum (fun p => pd p * weight ps c p * f p) (pixels im)) _ _ H), sum_swap.
    rewrite Rmult_comm. unfold Rdiv. f_equal. apply sum_ext. intros p I.
    transitivity (sum (fun c => pd p * f p * weight ps c p) ps); [apply sum_ext; intros; ring|].
    rewrite sum_scal, weights_sum by auto. ring.
Qed.

Theorem C47_moments_preserved : forall im ps ps' l, good_image im -> Forall startable ps -> ps <> [] ->
  step_likelihood (pixels im) ps = Some (ps', l) ->
  mixture_moment ps' mx = moment im (fun x _ => x) /\
  mixture_moment ps' my = moment im (fun _ y => y) /\
  mixture_moment ps' (fun c => sx c ^ 2 + mx c ^ 2) = moment im (fun x _ => x ^ 2) /\
  mixture_moment ps' (fun c => sy c ^ 2 + my c ^ 2) = moment im (fun _ y => y ^ 2) /\
  mixture_moment ps' (fun c => rho c * sx c * sy c + mx c * my c) = moment im (fun x y => x * y).
Proof.
  intros im ps ps' l G S N E. rewrite Forall_forall in S.
  unfold mixture_moment, moment, total. rewrite <- !sum_as_fold.
  repeat split.
  - apply (step_linear im ps ps' l (fun p => px p) mx G S N E). intros c c' I K.
    apply new_comp_inv in K. cbv zeta in K. destruct K as (K0 & _ & _ & K & _). rewrite K. field. exact K0.
  - apply (step_linear im ps ps' l (fun p => py p) my G S N E). intros c c' I K.
    apply new_comp_inv in K. cbv zeta in K. destruct K as (K0 & _ & _ & _ & K & _). rewrite K. field. exact K0.
  - apply (step_linear im ps ps' l (fun p => px p ^ 2) (fun c => sx c ^ 2 + mx c ^ 2) G S N E). intros c c' I K.
    apply new_comp_inv in K. cbv zeta in K. destruct K as (K0 & _ & _ & K1 & _ & _ & _ & K2 & _).
    assert (Z : sum (fun p => pd p * weight ps c p) (pixels im) <> 0) by exact K0.
    pose proof (shift_xx (pixels im) (fun p => pd p * weight ps c p) px Z 0) as Q. cbv beta in Q.
    change (sum (fun p => pd p * weight ps c p) (pixels im)) with (Nk (pixels im) ps c) in Q. rewrite <- K1, <- K2 in Q.
    transitivity (sum (fun p => pd p * weight ps c p * (px p - 0) ^ 2) (pixels im)); [rewrite Q; ring|].
    apply sum_ext. intros. ring.
  - apply (step_linear im ps ps' l (fun p => py p ^ 2) (fun c => sy c ^ 2 + my c ^ 2) G S N E). intros c c' I K.
    apply new_comp_inv in K. cbv zeta in K. destruct K as (K0 & _ & _ & _ & K1 & _ & _ & _ & K2 & _).
    assert (Z : sum (fun p => pd p * weight ps c p) (pixels im) <> 0) by exact K0.
    pose proof (shift_yy (pixels im) (fun p => pd p * weight ps c p) py Z 0) as Q. cbv beta in Q.
    change (sum (fun p => pd p * weight ps c p) (pixels im)) with (Nk (pixels im) ps c) in Q. rewrite <- K1, <- K2 in Q.
    transitivity (sum (fun p => pd p * weight ps c p * (py p - 0) ^ 2) (pixels im)); [rewrite Q; ring|].
    apply sum_ext. intros. ring.
  - apply (step_linear im ps ps' l (fun p => px p * py p) (fun c => rho c * sx c * sy c + mx c * my c) G S N E). intros c c' I K.
    apply new_comp_inv in K. cbv zeta in K. destruct K as (K0 & _ & _ & K1 & K2 & _ & _ & _ & _ & K3).
    assert (Z : sum (fun p => pd p * weight ps c p) (pixels im) <> 0) by exact K0.
    pose proof (shift_xy (pixels im) (fun p => pd p * weight ps c p) px py Z 0 0) as Q. cbv beta in Q.
    change (sum (fun p => pd p * weight ps c p) (pixels im)) with (Nk (pixels im) ps c) in Q. rewrite <- K1, <- K2, <- K3 in Q.
    transitivity (sum (fun p => pd p * weight ps c p * (px p - 0) * (py p - 0)) (pixels im)); [rewrite Q; ring|].
    apply sum_ext. intros. ring.
Qed.

(** ** Witnesses: a flat two by two image and two equal components *)
Definition im4 : list (list R) := [[1; 1]; [1; 1]].
Definition flat (a : R) : comp := {| amp := a; mx := / 2; my := / 2; sx := / 2; sy := / 2; rho := 0 |}.

Lemma im4_good : good_image im4.
Proof. repeat constructor; lra. Qed.

Lemma pixels4 : pixels im4 = [{| px := 0; py := 0; pd := 1 |}; {| px := 0; py := 1; pd := 1 |};
                              {| px := 1; py := 0; pd := 1 |}; {| px := 1; py := 1; pd := 1 |}].
Proof. reflexivity. Qed.

Lemma flat_good a : 0 < a -> good (flat a).
Proof. intro H. unfold good, flat; cbn. lra. Qed.

Lemma flat_weight a p : 0 < a -> weight [flat a; flat a] (flat a) p = / 2.
Proof.
  intro H. rewrite weight_eq; [| |discriminate].
  - unfold mix. rewrite !sum_cons, sum_nil. pose proof (mvn_pos (px p) (py p) _ (flat_good a H)). field. lra.
  - intros c [<-|[<-|[]]]; now apply flat_good.
Qed.

Lemma flat_step a : 0 < a -> em_step (pixels im4) [flat a; flat a] = Some [flat (/ 2); flat (/ 2)].
Proof.
  intro H. unfold em_step.
  rewrite (proj2 (forallb_forall _ _)).
  2:{ intros c [<-|[<-|[]]]; apply finite_comp_iff; destruct (flat_good a H) as (? & ? & ? & ?); lra. }
  assert (NK : Nk (pixels im4) [flat a; flat a] (flat a) = 2).
  { unfold Nk. rewrite pixels4, !sum_cons, sum_nil. rewrite !flat_weight by auto. cbn [pd]. lra. }
  assert (NC : new_comp (pixels im4) [flat a; flat a] (flat a) = Some (flat (/ 2))).
  { unfold new_comp. cbv zeta. rewrite !sum_cons, sum_nil, NK.
    destruct (Req_EM_T 2 0); [lra|]. destruct (Req_EM_T (2 + (2 + 0)) 0); [lra|].
    assert (X : sum (fun p => pd p * weight [flat a; flat a] (flat a) p * px p) (pixels im4) / 2 = / 2).
    { rewrite pixels4, !sum_cons, sum_nil, !flat_weight by auto. cbn [pd px py]. lra. }
    assert (Y : sum (fun p => pd p * weight [flat a; flat a] (flat a) p * py p) (pixels im4) / 2 = / 2).
    { rewrite pixels4, !sum_cons, sum_nil, !flat_weight by auto. cbn [pd px py]. lra. }
    rewrite X, Y.
    assert (VX : sum (fun p => pd p * weight [flat a; flat a] (flat a) p * (px p - / 2) ^ 2) (pixels im4) / 2 = (/ 2) ^ 2).
    { rewrite pixels4, !sum_cons, sum_nil, !flat_weight by auto. cbn [pd px py]. lra. }
    assert (VY : sum (fun p => pd p * weight [flat a; flat a] (flat a) p * (py p - / 2) ^ 2) (pixels im4) / 2 = (/ 2) ^ 2).
    { rewrite pixels4, !sum_cons, sum_nil, !flat_weight by auto. cbn [pd px py]. lra. }
    rewrite VX, VY. rewrite sqrt_pow2 by lra.
    destruct (Rlt_dec ((/ 2) ^ 2) 0); [lra|]. destruct (Req_EM_T (/ 2) 0); [lra|].
    assert (RS : sum (fun p => pd p * weight [flat a; flat a] (flat a) p * (px p - / 2) * (py p - / 2)) (pixels im4) = 0).
    { rewrite pixels4, !sum_cons, sum_nil, !flat_weight by auto. cbn [pd px py]. lra. }
    rewrite RS. replace (2 / (2 + (2 + 0))) with (/ 2) by lra. replace (0 / (2 * / 2 * / 2)) with 0 by lra. reflexivity. }
  cbn [map all_some]. rewrite NC. reflexivity.
Qed.

Lemma flat_mix x y a b : mix x y [flat a; flat b] = (a + b) * mix x y [flat (/ 2); flat (/ 2)].
Proof. unfold mix. rewrite !sum_cons, !sum_nil. unfold mvn_pdf, flat; cbn. unfold Rdiv. field.
  pose proof PI_RGT_0. assert (0 < sqrt (1 - 0 * (0 * 1))) by (apply sqrt_lt_R0; lra). lra.
Qed.

Definition flat_l : R := sum (fun p => pd p * ln (mix (px p) (py p) [flat (/ 2); flat (/ 2)])) (pixels im4).

Lemma flat_like a : 0 < a -> log_likelihood (pixels im4) [flat a; flat a] = Some (4 * ln (2 * a) + flat_l).
Proof.
  intro H. rewrite log_likelihood_some; [|discriminate|intros c [<-|[<-|[]]]; now apply flat_good].
  f_equal. unfold flat_l.
  transitivity (sum (fun p => ln (2 * a) * pd p + pd p * ln (mix (px p) (py p) [flat (/ 2); flat (/ 2)])) (pixels im4)).
  - apply sum_ext. intros p _. rewrite (flat_mix (px p) (py p) a a). rewrite ln_mult; [|lra|].
    + replace (a + a) with (2 * a) by ring. ring.
    + apply mix_pos; [|discriminate]. intros c [<-|[<-|[]]]; apply flat_good; lra.
  - rewrite sum_plus, sum_scal. rewrite pixels4 at 1. rewrite !sum_cons, sum_nil. cbn [pd]. ring.
Qed.

Lemma flat_step_like a : 0 < a -> step_likelihood (pixels im4) [flat a; flat a] = Some ([flat (/ 2); flat (/ 2)], flat_l).
Proof.
  intro H. unfold step_likelihood. rewrite flat_step by auto. rewrite flat_like by lra.
  replace (2 * / 2) with 1 by lra. rewrite ln_1. do 2 f_equal. ring.
Qed.

(** The statement without the condition on the amplitudes is false of the first
    pass: a random start may have amplitudes summing to more than one, and the
    first pass then lowers the likelihood. *)
Theorem C47_first_pass_refuted :
  exists im ps ps' l l',
    good_image im /\ Forall (random_start (fst (mean_params (pixels im))) (snd (mean_params (pixels im)))) ps /\
    log_likelihood (pixels im) ps = Some l /\ step_likelihood (pixels im) ps = Some (ps', l') /\
    l = spec_likelihood im ps /\ l' = spec_likelihood im ps' /\ l' < l.
Proof.
  exists im4, [flat (9 / 10); flat (9 / 10)], [flat (/ 2); flat (/ 2)], (4 * ln (2 * (9 / 10)) + flat_l), flat_l.
  assert (L1 : log_likelihood (pixels im4) [flat (9 / 10); flat (9 / 10)] = Some (4 * ln (2 * (9 / 10)) + flat_l))
    by (apply flat_like; lra).
  assert (L2 : step_likelihood (pixels im4) [flat (9 / 10); flat (9 / 10)] = Some ([flat (/ 2); flat (/ 2)], flat_l))
    by (apply flat_step_like; lra).
  split; [apply im4_good|]. split.
  { assert (M : mean_params (pixels im4) = (/ 2, / 2)).
    { unfold mean_params. rewrite pixels4, !sum_cons, !sum_nil. cbn [pd px py]. f_equal; lra. }
    rewrite M. cbn [fst snd]. repeat constructor; unfold flat; cbn; lra. }
  split; [exact L1|]. split; [exact L2|]. split.
  { apply spec_of_log; auto. intros c [<-|[<-|[]]]; unfold flat; cbn; lra. }
  split.
  { apply spec_of_log.
    - intros c [<-|[<-|[]]]; unfold flat; cbn; lra.
    - rewrite flat_like by lra. replace (2 * / 2) with 1 by lra. rewrite ln_1. f_equal. ring. }
  assert (0 < ln (2 * (9 / 10))) by (rewrite <- ln_1; apply ln_increasing; lra). lra.
Qed.

(** A repeat may give no answer at all: with a threshold of zero no pass is ever
    "converged", whatever the limit on the number of passes, and the list of
    answers is empty. *)
Theorem C47_no_answer_refuted :
  exists im init, good_image im /\ Forall startable init /\
    forall limit, em_fit im 0 limit init = None /\ em_repeats im 0 limit [init; init; init] = [].
Proof.
  exists im4, [flat (/ 2); flat (/ 2)]. split; [apply im4_good|]. split.
  { repeat constructor; unfold flat; cbn; lra. }
  intro limit.
  assert (L : log_likelihood (pixels im4) [flat (/ 2); flat (/ 2)] = Some flat_l).
  { rewrite flat_like by lra. replace (2 * / 2) with 1 by lra. rewrite ln_1. f_equal. ring. }
  assert (E : forall k, em_loop (pixels im4) 0 limit k [flat (/ 2); flat (/ 2)] (Some flat_l) = None).
  { induction limit as [|m IH]; intro k; cbn [em_loop]; [reflexivity|].
    rewrite flat_step_like by lra. destruct (Rlt_dec (Rabs (flat_l - flat_l)) 0) as [Z|Z]; [|apply IH].
    pose proof (Rabs_pos (flat_l - flat_l)). lra. }
  assert (EF : em_fit im4 0 limit [flat (/ 2); flat (/ 2)] = None) by (unfold em_fit; rewrite L; apply E).
  split; [exact EF|]. unfold em_repeats. cbn [flat_map]. rewrite EF. reflexivity.
Qed.

(** ** The hypotheses are met *)
Example pass_case : step_likelihood (pixels im4) [flat (1 / 4); flat (1 / 4)] = Some ([flat (/ 2); flat (/ 2)], flat_l) /\
  4 * ln (2 * (1 / 4)) + flat_l <= flat_l.
Proof.
  split; [apply flat_step_like; lra|].
  assert (ln (2 * (1 / 4)) < 0) by (rewrite <- ln_1; apply ln_increasing; lra). lra.
Qed.

Example answer_case : forall thresh, 0 < thresh -> exists a, em_fit im4 thresh 20 [flat (/ 2); flat (/ 2)] = Some a /\ a_final a = Some flat_l.
Proof.
  intros thresh T. unfold em_fit.
  rewrite flat_like by lra. replace (2 * / 2) with 1 by lra. rewrite ln_1.
  cbn [em_loop]. rewrite flat_step_like by lra.
  destruct (Rlt_dec (Rabs (flat_l - (4 * 0 + flat_l))) thresh) as [Z|Z].
  - eexists; split; reflexivity.
  - exfalso. apply Z. replace (flat_l - (4 * 0 + flat_l)) with 0 by ring. now rewrite Rabs_R0.
Qed.

Print Assumptions C47_density.
Print Assumptions C47_pass_never_lowers.
Print Assumptions C47_likelihoods_never_decrease_partial.
Print Assumptions C47_answer_sound.
Print Assumptions C47_moments_preserved.
Print Assumptions C47_first_pass_refuted.
Print Assumptions C47_no_answer_refuted.
