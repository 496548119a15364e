(** C67: the starting values of a PSF mixture fit, its repeats and the answer it picks. *)
From Coq Require Import Reals List Lra Lia Psatz Sorted.
From Verif Require Import EmModel EmFacts EmProps StartModel StartFacts.
Import ListNotations.
Open Scope R_scope.

(** ** Moments *)
Theorem C67_moments : forall im, sum pd im <> 0 ->
  central_moment im 0 0 = Some (noncentral_moment im 0 0) /\ central_moment im 1 0 = Some 0 /\ central_moment im 0 1 = Some 0 /\
  central_moment im 2 0 = Some (noncentral_moment im 2 0 - noncentral_moment im 1 0 ^ 2 / noncentral_moment im 0 0) /\
  central_moment im 0 2 = Some (noncentral_moment im 0 2 - noncentral_moment im 0 1 ^ 2 / noncentral_moment im 0 0) /\
  central_moment im 1 1 = Some (noncentral_moment im 1 1 - noncentral_moment im 1 0 * noncentral_moment im 0 1 / noncentral_moment im 0 0).
Proof.
  intros im T. unfold central_moment, noncentral_moment, mean_params. cbn [fst snd].
  destruct (Req_EM_T (sum pd im) 0) as [|_]; [contradiction|].
  assert (E0 : sum (fun p => pd p * px p ^ 0 * py p ^ 0) im = sum pd im) by (apply sum_ext; intros; ring).
  assert (Ex : sum (fun p => pd p * px p ^ 1 * py p ^ 0) im = sum (fun p => pd p * px p) im) by (apply sum_ext; intros; ring).
  assert (Ey : sum (fun p => pd p * px p ^ 0 * py p ^ 1) im = sum (fun p => pd p * py p) im) by (apply sum_ext; intros; ring).
  rewrite E0, Ex, Ey. set (a := sum (fun p => pd p * px p) im). set (b := sum (fun p => pd p * py p) im). set (t := sum pd im) in *.
  repeat split; f_equal.
  - transitivity (sum pd im); [|reflexivity]. apply sum_ext. intros; ring.
  - transitivity (sum (fun p => pd p * (px p - a / t)) im); [apply sum_ext; intros; ring|]. now apply mean_zero.
  - transitivity (sum (fun p => pd p * (py p - b / t)) im); [apply sum_ext; intros; ring|]. now apply mean_zero.
  - rewrite (sum_ext _ (fun p => pd p * px p ^ 2 * py p ^ 0 + (-2 * (a / t) * (pd p * px p) + (a / t) ^ 2 * pd p))) by (intros; ring).
    rewrite !sum_plus, !sum_scal. fold a t. field. auto.
  - rewrite (sum_ext _ (fun p => pd p * px p ^ 0 * py p ^ 2 + (-2 * (b / t) * (pd p * py p) + (b / t) ^ 2 * pd p))) by (intros; ring).
    rewrite !sum_plus, !sum_scal. fold b t. field. auto.
  - rewrite (sum_ext _ (fun p => pd p * px p ^ 1 * py p ^ 1 + (- (b / t) * (pd p * px p) + (- (a / t) * (pd p * py p) + (a / t) * (b / t) * pd p)))) by (intros; ring).
    rewrite !sum_plus, !sum_scal. fold a b t. field. auto.
Qed.
Print Assumptions C67_moments.

(** ** The start computed from an image *)
(** Sum of image values times a function of the position *)
Definition weighed (im : list (list R)) (f : R -> R -> R) : R := fold_right Rplus 0 (map (fun p => pd p * f (px p) (py p)) (pixels im)).
(** It is one Gaussian with the flux, centroid and covariance of the image, centred within it. *)
Theorem C67_easy_start : forall im w c, good_image im -> Forall (fun row => length row = w) im -> easy_init (pixels im) = Some c ->
  amp c = weighed im (fun _ _ => 1) /\ 0 < amp c /\
  weighed im (fun x _ => x) = amp c * mx c /\ weighed im (fun _ y => y) = amp c * my c /\
  weighed im (fun x _ => (x - mx c) ^ 2) = amp c * sx c ^ 2 /\ weighed im (fun _ y => (y - my c) ^ 2) = amp c * sy c ^ 2 /\
  weighed im (fun x y => (x - mx c) * (y - my c)) = amp c * (rho c * sx c * sy c) /\
  0 < sx c /\ 0 < sy c /\ -1 <= rho c <= 1 /\ 0 <= mx c <= INR (length im) - 1 /\ 0 <= my c <= INR w - 1.
Proof.
  intros im w c G W H. pose proof (good_pixels im G) as D. destruct (easy_spec _ _ D H) as (A1 & A2 & M1 & M2 & X & Y & Rr & V1 & V2 & V3).
  assert (F : forall f, weighed im f = sum (fun p => pd p * f (px p) (py p)) (pixels im)) by (intros f; unfold weighed; now rewrite sum_as_fold).
  rewrite !F. rewrite A1 in *. repeat split; auto; try (rewrite ?V1, ?V2; auto; fail).
  - apply sum_ext. intros; ring.
  - rewrite M1. field. lra.
  - rewrite M2. field. lra.
  - rewrite <- V3. apply sum_ext. intros; ring.
  - nra.
  - nra.
  - rewrite M1. apply (weighted_mean_bounds pd px (pixels im) _ 0 (INR (length im) - 1)); auto.
    intros p Ip. apply pixels_in in Ip. destruct Ip as (i & j & row & Hi & _ & _ & -> & _). now apply INR_index.
  - rewrite M1. apply (weighted_mean_bounds pd px (pixels im) _ 0 (INR (length im) - 1)); auto.
    intros p Ip. apply pixels_in in Ip. destruct Ip as (i & j & row & Hi & _ & _ & -> & _). now apply INR_index.
  - rewrite M2. apply (weighted_mean_bounds pd py (pixels im) _ 0 (INR w - 1)); auto.
    intros p Ip. apply pixels_in in Ip. destruct Ip as (i & j & row & _ & Ir & Hj & _ & -> & _). rewrite Forall_forall in W. rewrite (W row Ir) in Hj. now apply INR_index.
  - rewrite M2. apply (weighted_mean_bounds pd py (pixels im) _ 0 (INR w - 1)); auto.
    intros p Ip. apply pixels_in in Ip. destruct Ip as (i & j & row & _ & Ir & Hj & _ & -> & _). rewrite Forall_forall in W. rewrite (W row Ir) in Hj. now apply INR_index.
Qed.
Print Assumptions C67_easy_start.

(** There is such a start exactly for images whose flux is neither all in one row nor all in one column. *)
Theorem C67_easy_defined : forall im, good_image im ->
  (easy_init (pixels im) <> None <->
   (exists p p', In p (pixels im) /\ In p' (pixels im) /\ 0 < pd p /\ 0 < pd p' /\ px p <> px p') /\
   (exists p p', In p (pixels im) /\ In p' (pixels im) /\ 0 < pd p /\ 0 < pd p' /\ py p <> py p')).
Proof.
  intros im G. pose proof (good_pixels im G) as D. split.
  - intros H. destruct (easy_init (pixels im)) as [c|] eqn:E; [|congruence]. destruct (easy_spec _ _ D E) as (A1 & A2 & M1 & M2 & X & Y & _ & V1 & V2 & _).
    rewrite A1 in A2. split; apply spread_inv; auto; [rewrite <- M1, V1|rewrite <- M2, V2]; apply Rmult_lt_0_compat; auto; nra.
  - intros (X & Y). destruct (easy_defined _ D X Y) as (c & ->). discriminate.
Qed.
Print Assumptions C67_easy_defined.

(** ** The greedy start *)
(** It adds each component to the residual image where it should subtract it: every component has more
    flux than the one before, and together they have at least as many times the flux of the image as there are components. *)
Theorem C67_greedy_refuted : forall im n cs, good_image im -> greedy n (pixels im) = Some cs ->
  length cs = n /\ StronglySorted Rlt (map amp cs) /\ INR n * weighed im (fun _ _ => 1) <= fold_right Rplus 0 (map amp cs).
Proof.
  intros im n cs G H. destruct (greedy_spec n (pixels im) cs (good_pixels im G) H) as (L & S0 & Hd). split; [exact L|].
  assert (SS : StronglySorted Rlt (map amp cs)) by (apply Sorted_StronglySorted; [intros x y z; lra|auto]). split; [auto|].
  assert (E : weighed im (fun _ _ => 1) = sum pd (pixels im)). { unfold weighed. rewrite <- sum_as_fold. apply sum_ext. intros; ring. }
  rewrite E. rewrite <- L. clear L H S0. destruct cs as [|c cs]; [cbn; lra|]. destruct Hd as (E1 & E2). rewrite <- E1. inversion SS as [|? ? S1 F]; subst. cbn [map fold_right].
  assert (K : INR (length cs) * amp c <= fold_right Rplus 0 (map amp cs)).
  { clear -F. induction cs as [|d cs IH]; [cbn; lra|]. inversion F as [|? ? H1 H2]; subst. specialize (IH H2). change (length (d :: cs)) with (S (length cs)). rewrite S_INR. cbn [map fold_right]. lra. }
  change (length (c :: cs)) with (S (length cs)). rewrite S_INR. lra.
Qed.
Print Assumptions C67_greedy_refuted.

(** ** Repeats *)
(** An answer with a likelihood belongs to its own repeat: its mixture is proper, its likelihood, image and residual are
    those of the parameters it carries. *)
Definition model_at (ps : list comp) (p : pixel) : R :=
  fold_right Rplus 0 (map (fun c => amp c * gauss2 (px p) (py p) (mx c) (my c) (sx c ^ 2) (rho c * sx c * sy c) (sy c ^ 2)) ps).
Theorem C67_answers : forall im thresh limit starts all d l, good_image im ->
  Forall (fun s => match s with Some init => Forall startable init | None => True end) starts ->
  fit_all Em im thresh limit starts = Some all -> In d all -> d_final d = Some l ->
  exists ps, d_params d = Some ps /\ sound_mixture im ps /\ l = spec_likelihood im ps /\ (d_loops d < limit)%nat /\
    d_recon d = Some (map (model_at ps) (pixels im)) /\
    d_error d = Some (sqrt (fold_right Rplus 0 (map (fun p => (pd p - model_at ps p) ^ 2) (pixels im)))).
Proof.
  intros im thresh limit starts all d l G HS H Hd Hl. injection H as <-. apply in_map_iff in Hd as ([al d0] & Ed & Hd).
  apply in_flat_map in Hd as (s & Is & Hs). destruct (repeat1 im thresh limit s) as [r|] eqn:Er; [|contradiction]. destruct Hs as [->|[]].
  unfold repeat1 in Er. destruct s as [init|].
  2:{ destruct limit; [discriminate|]. injection Er as <- <-. cbn in Ed. subst d. discriminate. }
  destruct (em_fit im thresh limit init) as [a|] eqn:Ea; [|discriminate]. injection Er as E1 E2.
  assert (Fa : a_final a = Some l). { subst d d0. cbn [read_dict] in Hl. destruct al; cbn in Hl; auto. }
  rewrite Fa in E1. assert (al = false) by (destruct (a_loops a); congruence). clear E1. subst al. cbn [read_dict] in Ed. subst d0 d.
  rewrite Forall_forall in HS. pose proof (HS _ Is) as Hst. cbv beta iota in Hst.
  destruct (C47_answer_sound im thresh limit init a l G Hst Ea Fa) as (S1 & S2 & S3 & _).
  exists (a_params a). cbn [d_params d_loops d_recon d_error]. split; [reflexivity|]. split; [auto|]. split; [auto|]. split; [auto|].
  assert (FF : forallb finite_comp (a_params a) = true).
  { apply forallb_forall. intros c Ic. apply finite_comp_iff. destruct S1 as [_ _ W Rh _ _]. rewrite Forall_forall in W, Rh. specialize (W c Ic). specialize (Rh c Ic). repeat split; [lra|lra|nra]. }
  assert (FM : forall p, mix (px p) (py p) (a_params a) = model_at (a_params a) p).
  { intros p. unfold mix, model_at. rewrite sum_as_fold. apply fold_map_ext. intros c Ic. destruct S1 as [_ _ W Rh _ _]. rewrite Forall_forall in W, Rh. specialize (W c Ic). specialize (Rh c Ic).
    apply C47_density; tauto. }
  assert (FR : recon_image (pixels im) (Some (a_params a)) = Some (map (model_at (a_params a)) (pixels im))).
  { unfold recon_image. rewrite FF. f_equal. apply map_ext. auto. }
  split; [exact FR|]. unfold error_residual. rewrite FR. f_equal. f_equal. rewrite sum_as_fold. f_equal.
  clear. induction (pixels im) as [|p l IH]; [reflexivity|]. cbn [map combine fst snd]. now rewrite IH.
Qed.
Print Assumptions C67_answers.

(** The answer picked among the repeats has the least residual, unless one is nan: then it has a nan residual.
    An exception is raised exactly when no repeat gave an answer. *)
Theorem C67_least : forall im thresh limit starts all, fit_all Em im thresh limit starts = Some all ->
  (fit_one Em im thresh limit starts = None <-> all = []) /\
  forall d, fit_one Em im thresh limit starts = Some d -> In d all /\
    ((exists d', In d' all /\ d_error d' = None) -> d_error d = None) /\
    ((forall d', In d' all -> d_error d' <> None) ->
       exists e, d_error d = Some e /\ forall d' e', In d' all -> d_error d' = Some e' -> e <= e').
Proof.
  intros im thresh limit starts all H. unfold fit_one. rewrite H.
  assert (Hne : np_argmin (map d_error all) = None -> all = []).
  { destruct all as [|d all]; [auto|]. unfold np_argmin. cbn [map]. destruct (first_nan (d_error d :: map d_error all)) as [k|] eqn:E; [discriminate|].
    apply first_nan_none in E. inversion E as [|? ? N _]; subst. destruct (d_error d); [discriminate|congruence]. }
  destruct (np_argmin (map d_error all)) as [k|] eqn:E.
  - pose proof (argmin_spec _ _ E) as HA. rewrite nth_error_map in HA.
    destruct (nth_error all k) as [d|] eqn:Ek; cbn [option_map] in HA; [|destruct HA as [|(_ & w & ? & _)]; discriminate].
    split. { split; [discriminate|]. intros ->. destruct k; discriminate. }
    intros d' Hd. injection Hd as <-. split; [eapply nth_error_In; eauto|]. destruct HA as [HN|(HF & w & HW & HL)].
    + split; [congruence|]. intros HN'. exfalso. apply (HN' d); [eapply nth_error_In; eauto|congruence].
    + split.
      * intros (d' & I' & N'). exfalso. rewrite Forall_forall in HF. apply (HF None); [|reflexivity]. rewrite <- N'. now apply in_map.
      * intros _. exists w. split; [congruence|]. intros d' e' I' E'. apply HL. rewrite <- E'. now apply in_map.
  - specialize (Hne eq_refl). split; [tauto|discriminate].
Qed.
Print Assumptions C67_least.

(** Repeats from the same start give the same answer: a repeated greedy fit is the same fit again. *)
Theorem C67_greedy_repeats : forall im thresh limit start n all d d', fit_all Em im thresh limit (repeat start n) = Some all ->
  In d all -> In d' all -> d = d'.
Proof.
  intros im thresh limit start n all d d' H I I'. injection H as <-.
  apply in_map_iff in I as (a & <- & I). apply in_map_iff in I' as (a' & <- & I'). apply in_flat_map in I as (s & S1 & I). apply in_flat_map in I' as (s' & S1' & I').
  apply repeat_spec in S1, S1'. subst s s'. destruct (repeat1 im thresh limit start) as [r|]; [|contradiction]. destruct I as [<-|[]]. destruct I' as [<-|[]]. reflexivity.
Qed.
Print Assumptions C67_greedy_repeats.

(** Least squares never returns. *)
Theorem C67_least_squares_refuted : forall im thresh limit starts, starts <> [] ->
  fit_all Scipy_ls im thresh limit starts = None /\ fit_one Scipy_ls im thresh limit starts = None.
Proof. intros im thresh limit [|s starts] H; [congruence|]. split; reflexivity. Qed.
Print Assumptions C67_least_squares_refuted.

(** ** Answers that share the array of starting values *)
(** An image of one row: the new width across is zero, the likelihood of the first pass is nan *)
Definition strip : list (list R) := [[1; 1]].
Definition unit_comp (a : R) : comp := {| amp := a; mx := 0; my := / 2; sx := 1; sy := 1; rho := 0 |}.
Definition v1 : R := mvn_pdf 0 0 (unit_comp 1).
Definition cc (a : R) : comp := unit_comp (a / v1).
Lemma v1_pos : 0 < v1.
Proof. apply mvn_pos. unfold good, unit_comp. cbn. lra. Qed.
Lemma cc_at a y : y = 0 \/ y = 1 -> mvn_pdf 0 y (cc a) = a.
Proof.
  intros H. pose proof v1_pos as P. transitivity (a / v1 * v1); [|field; lra]. unfold v1 at 2. unfold mvn_pdf, cc, unit_comp. cbn [amp mx my sx sy rho].
  assert (E : (0 - 0) / 1 * ((0 - 0) / 1) + (y - / 2) / 1 * ((y - / 2) / 1) = / 4) by (destruct H; subst; field).
  assert (E' : exp (- (1 / 2) / (1 - 0 ^ 2) * (((0 - 0) / 1) ^ 2 + ((y - / 2) / 1) ^ 2 - 2 * 0 * ((0 - 0) / 1) * ((y - / 2) / 1))) =
               exp (- (1 / 2) / (1 - 0 ^ 2) * (((0 - 0) / 1) ^ 2 + ((0 - / 2) / 1) ^ 2 - 2 * 0 * ((0 - 0) / 1) * ((0 - / 2) / 1)))).
  { f_equal. destruct H; subst; field. }
  rewrite E'. unfold Rdiv. ring.
Qed.
Lemma strip_pixels : pixels strip = [{| px := 0; py := 0; pd := 1 |}; {| px := 0; py := 1; pd := 1 |}].
Proof. reflexivity. Qed.
Lemma strip_step ps : em_step (pixels strip) ps = match ps with [] => Some [] | _ => None end.
Proof.
  unfold em_step. destruct ps as [|c ps]; [reflexivity|]. destruct (forallb finite_comp (c :: ps)); [|reflexivity]. cbn [map all_some].
  assert (E : new_comp (pixels strip) (c :: ps) c = None); [|now rewrite E].
  unfold new_comp. set (w := weight (c :: ps) c). set (n := Nk _ _ _). destruct (Req_EM_T n 0) as [|Hn]; [reflexivity|]. destruct (Req_EM_T _ 0); [reflexivity|].
  match goal with |- context [Rlt_dec (?a / n) 0] => assert (Ea : a = 0) end.
  { rewrite strip_pixels, !sum_cons, !sum_nil. cbn [px py pd]. set (m := _ / n). assert (Em : m = 0) by (unfold m; field; auto). rewrite Em. ring. }
  rewrite Ea. replace (0 / n) with 0 by (field; auto). destruct (Rlt_dec 0 0); [reflexivity|]. destruct (Rlt_dec _ 0); [reflexivity|].
  rewrite sqrt_0. destruct (Req_EM_T 0 0); [reflexivity|lra].
Qed.
Lemma strip_fit thresh limit c : em_fit strip thresh (S limit) [c] = Some {| a_params := [c]; a_loops := 0; a_final := None |}.
Proof. unfold em_fit. cbn [em_loop]. unfold step_likelihood. rewrite strip_step. reflexivity. Qed.
Lemma cc_finite a : finite_comp (cc a) = true.
Proof. apply finite_comp_iff. unfold cc, unit_comp. cbn. repeat split; lra. Qed.
Lemma cc_recon a : recon_image (pixels strip) (Some [cc a]) = Some [a; a].
Proof.
  unfold recon_image. cbn [forallb]. rewrite cc_finite. cbn [andb]. f_equal. rewrite strip_pixels. cbn [map px py]. unfold mix. rewrite !sum_cons, !sum_nil, !cc_at by auto.
  f_equal; [ring|f_equal; ring].
Qed.
Lemma cc_error a : error_residual (pixels strip) (Some [cc a]) = Some (sqrt (2 * (1 - a) ^ 2)).
Proof. unfold error_residual. rewrite cc_recon. f_equal. f_equal. rewrite strip_pixels. cbn [combine]. rewrite !sum_cons, !sum_nil. cbn [fst snd pd]. ring. Qed.

(** The answer picked carries the parameters of another repeat: its residual is not that of its parameters. *)
Theorem C67_shared_start_refuted : exists im thresh limit starts d ps,
  good_image im /\ Forall (Forall startable) starts /\ (2 <= length starts)%nat /\
  fit_one Em im thresh limit (map Some starts) = Some d /\ d_params d = Some ps /\ d_error d = Some 0 /\
  d_recon d <> recon_image (pixels im) (Some ps) /\ exists e, error_residual (pixels im) (Some ps) = Some e /\ 0 < e.
Proof.
  pose proof v1_pos as P.
  exists strip, 1, 1%nat, [[cc 1]; [cc 2]]. eexists. exists [cc 2].
  split; [repeat constructor; lra|]. split. { assert (0 < / v1) by now apply Rinv_0_lt_compat. repeat constructor; unfold cc, unit_comp; cbn; unfold Rdiv; nra. }
  split; [cbn; lia|]. unfold fit_one, fit_all. cbn [map flat_map]. unfold repeat1. rewrite !strip_fit. cbn [a_loops a_final a_params]. rewrite !cc_error, !cc_recon. cbn [app map read_dict last d_error d_loops d_final d_recon].
  assert (E1 : sqrt (2 * (1 - 1) ^ 2) = 0) by (replace (2 * (1 - 1) ^ 2) with 0 by ring; apply sqrt_0).
  assert (E2 : 0 < sqrt (2 * (1 - 2) ^ 2)) by (apply sqrt_lt_R0; lra).
  unfold np_argmin. cbn [first_nan option_map least_from]. destruct (Rlt_dec _ _) as [L|L]; [rewrite E1 in L; lra|]. cbn [nth_error].
  split; [reflexivity|]. split; [reflexivity|]. split; [cbn [d_error]; now rewrite E1|]. cbn [d_recon].
  split. { intros H. injection H as H. lra. }
  eexists. split; [reflexivity|exact E2].
Qed.
Print Assumptions C67_shared_start_refuted.

(** A repeat whose residual is nan is picked although another reproduces the image. *)
Definition flat_width : comp := {| amp := 0; mx := 0; my := 0; sx := 0; sy := 1; rho := 0 |}.
Theorem C67_nan_refuted : exists im thresh limit starts all d,
  good_image im /\ Forall (Forall startable) starts /\
  fit_all Em im thresh limit (map Some starts) = Some all /\ fit_one Em im thresh limit (map Some starts) = Some d /\ d_error d = None /\
  exists d', In d' all /\ d_error d' = Some 0.
Proof.
  pose proof v1_pos as P.
  exists strip, 1, 1%nat, [[flat_width]; [cc 1]]. eexists. eexists.
  split; [repeat constructor; lra|]. split. { assert (0 < / v1) by now apply Rinv_0_lt_compat. repeat constructor; unfold cc, unit_comp; cbn; unfold Rdiv; nra. }
  assert (E1 : sqrt (2 * (1 - 1) ^ 2) = 0) by (replace (2 * (1 - 1) ^ 2) with 0 by ring; apply sqrt_0).
  assert (E0 : finite_comp flat_width = false). { destruct (finite_comp flat_width) eqn:E; [|auto]. apply finite_comp_iff in E as (E & _). exfalso. now apply E. }
  assert (ER : recon_image (pixels strip) (Some [flat_width]) = None) by (unfold recon_image; cbn [forallb]; now rewrite E0).
  assert (EE : error_residual (pixels strip) (Some [flat_width]) = None) by (unfold error_residual; now rewrite ER).
  unfold fit_one, fit_all. cbn [map flat_map]. unfold repeat1. rewrite !strip_fit. cbn [a_loops a_final a_params]. rewrite EE, ER, cc_error, cc_recon. cbn [app map read_dict last d_error d_loops d_final d_recon].
  unfold np_argmin. cbn [first_nan nth_error]. split; [reflexivity|]. split; [reflexivity|]. split; [reflexivity|].
  eexists. split; [right; left; reflexivity|]. cbn [d_error]. now rewrite E1.
Qed.
Print Assumptions C67_nan_refuted.

(** ** The hypotheses are met *)
(** A two by two image with all pixels lit has a start, and two greedy components. *)
Lemma lit4 : (exists p p', In p (pixels im4) /\ In p' (pixels im4) /\ 0 < pd p /\ 0 < pd p' /\ px p <> px p') /\
  (exists p p', In p (pixels im4) /\ In p' (pixels im4) /\ 0 < pd p /\ 0 < pd p' /\ py p <> py p').
Proof.
  rewrite pixels4. split; eexists; eexists.
  - split; [left; reflexivity|]. split; [right; right; left; reflexivity|]. cbn [pd px]. lra.
  - split; [left; reflexivity|]. split; [right; left; reflexivity|]. cbn [pd py]. lra.
Qed.
Example C67_greedy_case : exists c c', greedy 2 (pixels im4) = Some [c; c'] /\ amp c = 4 /\ 4 < amp c'.
Proof.
  pose proof (good_pixels _ im4_good) as D. destruct (easy_defined _ D (proj1 lit4) (proj2 lit4)) as (c & Ec).
  destruct (easy_spec _ _ D Ec) as (A1 & A2 & M1 & M2 & X & Y & _ & _ & _ & V3).
  assert (T : sum pd (pixels im4) = 4) by (rewrite pixels4, !sum_cons, sum_nil; cbn [pd]; ring).
  assert (Hm : mx c = / 2 /\ my c = / 2). { rewrite M1, M2, T, pixels4, !sum_cons, !sum_nil. cbn [pd px py]. split; field. }
  destruct Hm as [Hm1 Hm2].
  assert (R0 : rho c = 0). { rewrite Hm1, Hm2, T, pixels4, !sum_cons, !sum_nil in V3. cbn [pd px py] in V3.
    assert (Z : rho c * (sx c * sy c) = 0) by lra. assert (0 < sx c * sy c) by (apply Rmult_lt_0_compat; auto). apply Rmult_integral in Z as [Z|Z]; [auto|lra]. }
  assert (F : finite_comp c = true) by (apply finite_comp_iff; rewrite R0; repeat split; lra).
  assert (N : pixels im4 <> []) by (rewrite pixels4; discriminate).
  pose proof (easy_good _ _ D Ec F) as Gc. destruct (residual_more _ _ Gc N D) as (D' & More).
  destruct (easy_defined (next_residual c (pixels im4)) D') as (c' & Ec').
  - rewrite pixels4. eexists; eexists. split; [left; reflexivity|]. split; [right; right; left; reflexivity|]. cbn [pd px py].
    pose proof (mvn_pos 0 0 c Gc). pose proof (mvn_pos 1 0 c Gc). repeat split; try lra; discrR.
  - rewrite pixels4. eexists; eexists. split; [left; reflexivity|]. split; [right; left; reflexivity|]. cbn [pd py px].
    pose proof (mvn_pos 0 0 c Gc). pose proof (mvn_pos 0 1 c Gc). repeat split; try lra; discrR.
  - exists c, c'. cbn [greedy]. rewrite Ec, F, Ec'. split; [reflexivity|]. destruct (easy_spec _ _ D' Ec') as (B1 & _). lra.
Qed.
(** C67_answers and C67_least: two repeats on that image. *)
Example C67_answers_case : exists all d l, fit_all Em im4 1 20 [Some [flat (/ 2); flat (/ 2)]; Some [flat (/ 2); flat (/ 2)]] = Some all /\ length all = 2%nat /\ In d all /\ d_final d = Some l.
Proof.
  destruct (answer_case 1 ltac:(lra)) as (a & Ea & Fa). unfold fit_all. cbn [flat_map]. unfold repeat1. rewrite Ea. cbn [app map].
  eexists. eexists. exists flat_l. split; [reflexivity|]. split; [reflexivity|]. split; [left; reflexivity|]. rewrite Fa. destruct (a_loops a); reflexivity.
Qed.
