(** C52: what the optimiser and the sampler report. *)
From Verif Require Import Np NpFacts PosteriorModel PosteriorSpec PosteriorFacts PosteriorProps KernelSum LinOptModel LinOptProps FitModel FitFacts.
From Coq Require Import Reals Lra.
Open Scope R_scope.

Definition within (lo up q : list R) : Prop := forall i, (i < List.length q)%nat -> nth i lo 0 < nth i q 0 < nth i up 0.
(** What is asked of the optimiser, for one call: it returns the value and gradient at
    the point it returns, of the right length, not above the start. *)
Definition minimised (f : list R -> R) (g : list R -> list R) (x0 : list R) (r : scires) : Prop :=
  List.length (s_x r) = List.length x0 /\ s_fun r = f (s_x r) /\ s_jac r = g (s_x r) /\ s_fun r <= f x0.
Definition opt_call (bfgs : optimizer) (p : posterior) (q : list R) : Prop :=
  minimised (nll p) (nll_grad p) (inverse_transform (tr p) q) (bfgs (nll p) (nll_grad p) (inverse_transform (tr p) q)).

(** The optimum: one vector, inside the bounds, no worse than the start in the
    scene parameters, with its own value as [fun]. *)
Theorem C52_optimum : forall bfgs p lo up q, tr p = Bounded lo up -> sampling p = false -> 0 < ndof p -> box lo up q -> within lo up q -> opt_call bfgs p q ->
  exists row, o_chain (run_opt bfgs p q) = [row] /\ List.length row = List.length q /\ within lo up row /\
    o_fun (run_opt bfgs p q) = - (ll p row + lpr p row) / ndof p /\ ll p q + lpr p q <= ll p row + lpr p row.
Proof.
  intros bfgs p lo up q T Sm Hn Hb Hin (L & F & _ & D). unfold run_opt. rewrite T in *. destruct (transform_inverse lo up q Hb Hin) as [L0 E0].
  set (r := bfgs (nll p) (nll_grad p) (inverse_transform (Bounded lo up) q)) in *. assert (Hb' : box lo up (s_x r)) by (unfold box in *; now rewrite L, L0).
  exists (transform (Bounded lo up) (s_x r)). cbn [o_chain o_fun map]. destruct (C17_transform_inside lo up (s_x r) Hb') as [Lr Hr].
  assert (V : forall z, nll p z = - (ll p (transform (Bounded lo up) z) + lpr p (transform (Bounded lo up) z)) / ndof p) by (intros z; unfold nll, nll_of, lnprob, lnp_of; now rewrite T, Sm).
  split; [reflexivity|]. split; [congruence|]. split; [intros i Hi; rewrite Lr in Hi; now apply Hr|]. split; [rewrite F; apply V|].
  rewrite F, !V, E0 in D. unfold Rdiv in D. apply Rmult_le_reg_r in D; [lra|now apply Rinv_0_lt_compat].
Qed.
Print Assumptions C52_optimum.

(** A zero gradient in the sampling variables is a stationary point of the posterior in
    the scene parameters. *)
Theorem C52_stationary : forall bfgs p lo up q row, tr p = Bounded lo up -> sampling p = false -> ndof p <> 0 -> box lo up q -> within lo up q -> opt_call bfgs p q ->
  o_chain (run_opt bfgs p q) = [row] -> is_gradient_at (ll p) (llg p row) row -> is_gradient_at (lpr p) (lprg p row) row ->
  Forall (fun d => d = 0) (o_jac (run_opt bfgs p q)) ->
  forall i, (i < List.length q)%nat -> derivable_pt_lim (fun t => ll p (upd i t row) + lpr p (upd i t row)) (nth i row 0) 0.
Proof.
  intros bfgs p lo up q row T Sm Hn Hb Hin (L & _ & J & _) Hr G1 G2 H0 i Hi. unfold run_opt in *. rewrite T in *. destruct (transform_inverse lo up q Hb Hin) as [L0 E0].
  set (r := bfgs (nll p) (nll_grad p) (inverse_transform (Bounded lo up) q)) in *. assert (Hb' : box lo up (s_x r)) by (unfold box in *; now rewrite L, L0).
  cbn [o_chain o_jac map] in *. assert (Er : row = transform (Bounded lo up) (s_x r)) by congruence. clear Hr. destruct (C17_transform_inside lo up (s_x r) Hb') as [Lr _]. rewrite <- Er in Lr.
  destruct G1 as [L1 G1], G2 as [L2 G2]. assert (Hi' : (i < List.length row)%nat) by lia.
  assert (D := derivable_pt_lim_plus _ _ _ _ _ (G1 i Hi') (G2 i Hi')). enough (E : nth i (llg p row) 0 + nth i (lprg p row) 0 = 0) by (rewrite E in D; exact D).
  pose proof (range_length lo up (s_x r) Hb') as Rg.
  assert (Gi : nth i (nll_grad p (s_x r)) 0 = - ((nth i (llg p row) 0 + nth i (lprg p row) 0) * ((nth i up 0 - nth i lo 0) * sigmoid_grad (nth i (s_x r) 0))) / ndof p).
  { unfold nll_grad, nll_grad_of, lnprob_grad, lnp_grad_of. rewrite T, Sm, <- Er. cbn [jacobian].
    assert (Lj : List.length (zip Rmult (range lo up) (map sigmoid_grad (s_x r))) = List.length (s_x r)) by (rewrite zip_length, map_length; lia).
    rewrite (map_nthd _ _ _ 0) by (rewrite !zip_length, map_length; lia). rewrite (zip_nth Rmult _ _ i 0 0 0) by (rewrite ?zip_length, ?Lj, ?map_length; lia).
    rewrite (zip_nth Rplus _ _ i 0 0 0) by lia. rewrite (zip_nth Rmult _ _ i 0 0 0) by (rewrite ?map_length; lia). rewrite (map_nthd _ _ _ 0) by lia. rewrite (range_nth lo up (s_x r) i Hb') by lia. reflexivity. }
  assert (Z : nth i (nll_grad p (s_x r)) 0 = 0).
  { rewrite J in H0. destruct (nth_in_or_default i (nll_grad p (s_x r)) 0) as [H|H]; [|exact H]. rewrite Forall_forall in H0. exact (H0 _ H). }
  rewrite Z in Gi. destruct Hb' as (_ & _ & Hlt). specialize (Hlt i ltac:(lia)). pose proof (sigmoid_grad_pos (nth i (s_x r) 0)) as Pg.
  set (g := nth i (llg p row) 0 + nth i (lprg p row) 0) in *. set (c := (nth i up 0 - nth i lo 0) * sigmoid_grad (nth i (s_x r) 0)) in *. assert (Pc : 0 < c) by (unfold c; apply Rmult_lt_0_compat; lra).
  assert (M0 : g * c = 0). { apply (f_equal (fun v => - (v * ndof p))) in Gi. unfold Rdiv in Gi. rewrite Rmult_assoc, Rinv_l in Gi by exact Hn. lra. }
  apply Rmult_integral in M0. destruct M0; lra.
Qed.
Print Assumptions C52_stationary.

(** The reported [lnp] is half of the log-posterior of the optimum: with ndof = 1 it is
    right only where the posterior is one. *)
Theorem C52_lnp_refuted : forall bfgs p lo up q row, tr p = Bounded lo up -> sampling p = false -> ndof p = 1 -> box lo up q -> within lo up q -> opt_call bfgs p q ->
  o_chain (run_opt bfgs p q) = [row] -> (o_lnp (run_opt bfgs p q) = ll p row + lpr p row <-> ll p row + lpr p row = 0).
Proof.
  intros bfgs p lo up q row T Sm Hn Hb Hin Hc Hr. destruct (C52_optimum bfgs p lo up q T Sm ltac:(lra) Hb Hin Hc) as (row' & E & _ & _ & F & _). assert (row' = row) by congruence. subst row'.
  assert (X : o_lnp (run_opt bfgs p q) = - (1 / 2) * o_fun (run_opt bfgs p q)) by reflexivity. rewrite X, F, Hn. split; intros; lra.
Qed.
(** What holds instead. *)
Theorem C52_lnp_partial : forall bfgs p lo up q row, tr p = Bounded lo up -> sampling p = false -> 0 < ndof p -> box lo up q -> within lo up q -> opt_call bfgs p q ->
  o_chain (run_opt bfgs p q) = [row] -> o_lnp (run_opt bfgs p q) = (ll p row + lpr p row) / (2 * ndof p).
Proof.
  intros bfgs p lo up q row T Sm Hn Hb Hin Hc Hr. destruct (C52_optimum bfgs p lo up q T Sm Hn Hb Hin Hc) as (row' & E & _ & _ & F & _). assert (row' = row) by congruence. subst row'.
  assert (X : o_lnp (run_opt bfgs p q) = - (1 / 2) * o_fun (run_opt bfgs p q)) by reflexivity. rewrite X, F. field. lra.
Qed.
(** The optimisation function is said to remove the volume term; it keeps it unless the
    [sampling] switch was turned off. *)
Theorem C52_volume_kept_refuted : exists p z, tr p = Bounded [0] [1] /\ ndof p = 1 /\ box [0] [1] z /\ nll p z <> - (ll p (transform (tr p) z) + lpr p (transform (tr p) z)).
Proof.
  exists (mkPost (Bounded [0] [1]) 1 true (fun _ => 0) (fun _ => 0) (map (fun _ => 0)) (map (fun _ => 0))), [0]. split; [reflexivity|]. split; [reflexivity|].
  split. { split; [reflexivity|]. split; [reflexivity|]. intros [|i] Hi; simpl in *; [lra|lia]. }
  unfold nll, nll_of, lnprob, lnp_of. cbn [tr ndof sampling ll lpr lndetjac jacobian]. assert (E : zip Rmult (range [0] [1]) (map sigmoid_grad [0]) = [(1 - 0) * sigmoid_grad 0]) by reflexivity.
  rewrite E. unfold Rprod. cbn [fold_left]. rewrite sigmoid_grad_alt. unfold sigmoid. rewrite Ropp_0, exp_0. replace (1 * ((1 - 0) * (/ (1 + 1) * (1 - / (1 + 1))))) with (/ 4) by field. rewrite Rabs_right by lra.
  rewrite ln_Rinv by lra. assert (0 < ln 4) by (rewrite <- ln_1; apply ln_increasing; lra). lra.
Qed.
Print Assumptions C52_volume_kept_refuted.

(** ** Sampling *)
(** What is asked of the sampler, for one call: the requested number of samples after
    the tuning ones, if these are kept, and for each sample the value of the function
    and whether it was a tuning sample. *)
Definition sampled (f : list R -> R) (x0 : list R) (draws tune : nat) (discard : bool) (out : list (list R) * list stat) : Prop :=
  let n := (draws + if discard then 0 else tune)%nat in
  List.length (fst out) = n /\ List.length (snd out) = n /\
  (forall i z st, nth_error (fst out) i = Some z -> nth_error (snd out) i = Some st ->
     List.length z = List.length x0 /\ model_logp st = f z /\ tuned st = (negb discard && (i <? tune)%nat)%bool).
Definition lmc_call (nuts : sampler) (p : posterior) (q : list R) (draws tune : nat) (discard : bool) : Prop :=
  let x0 := inverse_transform (tr p) q in sampled (lnprob p) x0 draws tune discard (nuts (lnprob p) (lnprob_grad p) x0 draws tune discard).

(** The chain: every sample inside the bounds and [n_draws] of them besides the tuning
    samples, by the counts of the result as well. *)
Theorem C52_chain : forall nuts p lo up q draws w ws discard, tr p = Bounded lo up -> box lo up q -> within lo up q -> lmc_call nuts p q draws w discard ->
  exists res stats, run_lmc nuts p q draws (w :: ws) discard = Some (res, stats) /\
    List.length (l_chain res) = List.length stats /\ n_sample stats = draws /\ n_tune stats = (if discard then 0 else w)%nat /\
    forall row, In row (l_chain res) -> List.length row = List.length q /\ within lo up row.
Proof.
  intros nuts p lo up q draws w ws discard T Hb Hin H. unfold lmc_call in H. cbv zeta in H. unfold run_lmc. rewrite T in *.
  destruct (transform_inverse lo up q Hb Hin) as [L0 _]. destruct (nuts (lnprob p) (lnprob_grad p) (inverse_transform (Bounded lo up) q) draws w discard) as [trace stats].
  destruct H as (H1 & H2 & H3). cbn [fst snd] in *. exists (mkLmc (List.length q) q (map (transform (Bounded lo up)) trace)), stats. split; [reflexivity|]. cbn [l_chain]. split; [rewrite map_length; congruence|].
  assert (Nt : n_tune stats = (if discard then 0 else w)%nat).
  { unfold n_tune. assert (Ht : forall i st, nth_error stats i = Some st -> tuned st = (negb discard && (i <? w)%nat)%bool).
    { intros i st Hi. destruct (nth_error trace i) as [z|] eqn:Ez; [exact (proj2 (proj2 (H3 i z st Ez Hi)))|]. apply nth_error_None in Ez. assert (i < List.length stats)%nat by (apply nth_error_Some; congruence). lia. }
    clear H3. assert (G : forall l k, (forall i st, nth_error l i = Some st -> tuned st = (negb discard && (k + i <? w)%nat)%bool) -> List.length (filter tuned l) = if discard then O else Nat.min (w - k) (List.length l)).
    { induction l as [|s l IH]; intros k Hl; [destruct discard; cbn; lia|]. cbn [filter List.length]. pose proof (Hl O s eq_refl) as E. rewrite Nat.add_0_r in E.
      assert (IH' := IH (S k) ltac:(intros i st Hi; rewrite (Hl (S i) st Hi); do 2 f_equal; lia)). rewrite E. destruct discard; cbn [negb andb] in *; [exact IH'|].
      destruct (Nat.ltb_spec k w); cbn [List.length]; rewrite IH'; lia. }
    rewrite (G stats O Ht). destruct discard; [reflexivity|]. lia. }
  split; [unfold n_sample; rewrite Nt, H2; destruct discard; lia|]. split; [exact Nt|].
  intros row Hr. apply in_map_iff in Hr. destruct Hr as (z & <- & Hz). apply In_nth_error in Hz. destruct Hz as (i & Hi).
  assert (Lz : List.length z = List.length q).
  { destruct (nth_error stats i) as [st|] eqn:Es; [rewrite (proj1 (H3 i z st Hi Es)); exact L0|]. apply nth_error_None in Es. assert (i < List.length trace)%nat by (apply nth_error_Some; congruence). lia. }
  assert (Hz : box lo up z) by (unfold box in *; now rewrite Lz). destruct (C17_transform_inside lo up z Hz) as [Lr Hr]. split; [congruence|]. intros j Hj. apply Hr. lia.
Qed.
Print Assumptions C52_chain.

(** The documented list of warmup phases is not used beyond its first entry: the run is as
    long as the documentation says only if the other phases are empty. *)
Theorem C52_warmup_refuted : forall nuts p lo up q draws w ws, tr p = Bounded lo up -> box lo up q -> within lo up q -> lmc_call nuts p q draws w false ->
  exists res stats, run_lmc nuts p q draws (w :: ws) false = Some (res, stats) /\
    (List.length (l_chain res) = draws + list_sum (w :: ws) <-> list_sum ws = 0)%nat.
Proof.
  intros nuts p lo up q draws w ws T Hb Hin H. destruct (C52_chain nuts p lo up q draws w ws false T Hb Hin H) as (res & stats & E & L & N1 & N2 & _). exists res, stats. split; [exact E|].
  rewrite L. unfold n_sample in N1. rewrite N2 in N1. cbn [list_sum fold_right].
  assert (n_tune stats <= List.length stats)%nat by (unfold n_tune; apply filter_length_le). change (fold_right Nat.add 0%nat ws) with (list_sum ws). lia.
Qed.

(** The highest-probability sample: a vector of the chain whose density in the sampling
    variables is not exceeded, and exceeded or equalled by no earlier one. *)
Theorem C52_map : forall nuts p lo up q draws w ws discard res stats, tr p = Bounded lo up -> lmc_call nuts p q draws w discard ->
  run_lmc nuts p q draws (w :: ws) discard = Some (res, stats) -> (0 < List.length stats)%nat ->
  exists i z trace, l_chain res = map (transform (tr p)) trace /\ nth_error trace i = Some z /\ get_map (l_chain res) stats = Some (transform (tr p) z) /\
    (forall j z', nth_error trace j = Some z' -> lnprob p z' <= lnprob p z) /\ (forall j z', (j < i)%nat -> nth_error trace j = Some z' -> lnprob p z' < lnprob p z).
Proof.
  intros nuts p lo up q draws w ws discard res stats T H E Hn. unfold lmc_call in H. cbv zeta in H. unfold run_lmc in E. rewrite T in *.
  destruct (nuts (lnprob p) (lnprob_grad p) (inverse_transform (Bounded lo up) q) draws w discard) as [trace st0]. destruct H as (H1 & H2 & H3). cbn [fst snd] in *. injection E as <- <-. cbn [l_chain].
  destruct (argmax_some (map model_logp st0)) as (i & Hi); [destruct st0; simpl in *; [lia|discriminate]|]. destruct (argmax_spec _ _ Hi) as (y & Y1 & Y2 & Y3).
  assert (Key : forall j z', nth_error trace j = Some z' -> nth_error (map model_logp st0) j = Some (lnprob p z')).
  { intros j z' Hj. rewrite nth_error_map. destruct (nth_error st0 j) as [st|] eqn:Es; [cbn [option_map]; f_equal; exact (proj1 (proj2 (H3 j z' st Hj Es)))|].
    apply nth_error_None in Es. assert (j < List.length trace)%nat by (apply nth_error_Some; congruence). lia. }
  assert (Hz : exists z, nth_error trace i = Some z).
  { destruct (nth_error trace i) as [z|] eqn:Ez; [eauto|]. apply nth_error_None in Ez. assert (i < List.length (map model_logp st0))%nat by (apply nth_error_Some; congruence). rewrite map_length in *. lia. }
  destruct Hz as (z & Hz). exists i, z, trace. split; [reflexivity|]. split; [exact Hz|]. split; [unfold get_map; now rewrite Hi, nth_error_map, Hz|].
  rewrite (Key i z Hz) in Y1. injection Y1 as <-. split; [intros j z' Hj; exact (Y2 j _ (Key j z' Hj))|intros j z' Hlt Hj; exact (Y3 j _ Hlt (Key j z' Hj))].
Qed.
Print Assumptions C52_map.

(** ** Mass matrix *)
(** scipy's cholesky on symmetric matrices *)
Definition symmetric (n : nat) (m : list (list R)) : Prop := forall i j, (i < n)%nat -> (j < n)%nat -> entry m i j = entry m j i.
Definition decides_posdef (n : nat) (chol : list (list R) -> bool) : Prop := forall m, square n m -> symmetric n m -> (chol m = true <-> posdef n m).

(** The mass matrix is the given covariance with a multiple of the identity added, as
    small as makes it positive definite, and five steps at most. *)
Theorem C52_mass : forall chol n cov c, decides_posdef n chol -> square n cov -> symmetric n cov -> 0 < c ->
  exists k, (k <= 5)%nat /\ square n (get_pot chol n (Some cov) c) /\
    (forall i j, (i < n)%nat -> (j < n)%nat -> entry (get_pot chol n (Some cov) c) i j = entry cov i j + if Nat.eqb i j then INR k * c else 0) /\
    (forall j, (j < k)%nat -> ~ posdef n (shifted j c cov)) /\
    (posdef n (get_pot chol n (Some cov) c) <-> forall x, 0 < norm2 n x -> - (5 * c) * norm2 n x < quad n cov x).
Proof.
  intros chol n cov c D Sq Sy Hc. unfold get_pot. destruct (regularise_spec chol c 5 cov) as (k & K1 & K2 & K3 & K4). rewrite K2. exists k.
  assert (Ssh : forall j, square n (shifted j c cov) /\ symmetric n (shifted j c cov)).
  { intros j. split; [now apply shifted_square|]. intros a b Ha Hb. rewrite !(shifted_entry n) by auto. rewrite (Sy a b Ha Hb), (Nat.eqb_sym b a). reflexivity. }
  split; [exact K1|]. split; [apply Ssh|]. split; [intros i j Hi Hj; now apply (shifted_entry n)|].
  split. { intros j Hj P. assert (chol (shifted j c cov) = true) by (apply D; [apply Ssh|apply Ssh|exact P]). rewrite (K4 j Hj) in *. discriminate. }
  destruct (Nat.eq_dec k 5) as [->|Hk].
  - split; intros H x Hx; specialize (H x Hx); rewrite shifted_quad in * by exact Sq; simpl INR in *; lra.
  - assert (P : posdef n (shifted k c cov)) by (apply D; [apply Ssh|apply Ssh|apply K3; lia]). split; [intros _|intros _; exact P]. intros x Hx. specialize (P x Hx). rewrite shifted_quad in P by exact Sq.
    assert (INR k < 5) by (replace 5 with (INR 5) by (simpl; lra); apply lt_INR; lia). assert (INR k * c * norm2 n x < 5 * c * norm2 n x) by (apply Rmult_lt_compat_r; [exact Hx|]; apply Rmult_lt_compat_r; auto). lra.
Qed.
Print Assumptions C52_mass.
(** A positive definite covariance, or none, is used as it is, and its diagonal is positive. *)
Theorem C52_mass_kept : forall chol n cov c, decides_posdef n chol -> square n cov -> symmetric n cov -> posdef n cov ->
  get_pot chol n (Some cov) c = cov /\ forall i, (i < n)%nat -> exists v, nth_error (diag cov) i = Some v /\ 0 < v.
Proof.
  intros chol n cov c D Sq Sy P. unfold get_pot. cbn [regularise]. assert (E : chol cov = true) by now apply D. rewrite E. split; [reflexivity|].
  intros i Hi. exists (entry cov i i). split; [now apply (diag_nth n)|now apply (posdef_diag n)].
Qed.
Theorem C52_mass_default : forall chol n c, decides_posdef n chol -> get_pot chol n None c = eye n /\ posdef n (eye n).
Proof.
  intros chol n c D. split; [|apply eye_posdef]. apply (C52_mass_kept chol n (eye n) c); auto using eye_square, eye_posdef. intros i j Hi Hj. rewrite !eye_entry by auto. now rewrite Nat.eqb_sym.
Qed.
(** Past five steps the potential is built from a matrix that is not positive definite. *)
Theorem C52_mass_refuted : forall chol, decides_posdef 1 chol -> square 1 [[-1]] /\ symmetric 1 [[-1]] /\ ~ posdef 1 (get_pot chol 1 (Some [[-1]]) (1 / 1000)).
Proof.
  intros chol D. assert (Sq : square 1 [[-1]]) by (split; [reflexivity|]; intros [|i] Hi; [reflexivity|lia]). assert (Sy : symmetric 1 [[-1]]) by (intros i j Hi Hj; replace i with j by lia; reflexivity).
  split; [exact Sq|]. split; [exact Sy|]. destruct (C52_mass chol 1 [[-1]] (1 / 1000) D Sq Sy ltac:(lra)) as (k & _ & _ & _ & _ & H). rewrite H. intros G. specialize (G (fun _ => 1)).
  unfold quad, norm2, entry, sumR in G. cbn in G. lra.
Qed.
Print Assumptions C52_mass_refuted.

(** ** Flux uncertainties after the linear step *)
(** If the precision matrix has an inverse, the variances on its diagonal are positive. *)
Theorem C52_variance : forall linalg_solve X w y f A S, solves linalg_solve -> rectangular (List.length y) X -> List.length w = List.length y ->
  optimize_one_band linalg_solve X w y None = Some (f, A) ->
  square (List.length X) S -> (forall i j, (i < List.length X)%nat -> (j < List.length X)%nat -> sumR (fun k => entry A i k * entry S k j) (seq 0 (List.length X)) = if Nat.eqb i j then 1 else 0) ->
  forall i, (i < List.length X)%nat -> exists v, nth_error (diag S) i = Some v /\ 0 < v.
Proof.
  intros ls X w y f A S Hs Hr Hw H Sq HI i Hi. exists (entry S i i). split; [now apply (diag_nth (List.length X))|]. destruct (orthogonal ls Hs X w y Hr Hw None I f A H) as (EA & _ & _).
  set (n := List.length X) in *. set (v := fun k => entry S k i). set (u := fun p => sumR (fun k => v k * xw X w k p) (seq 0 n)).
  assert (Au : forall a, (a < n)%nat -> sumR (fun p => xw X w a p * u p) (seq 0 (List.length y)) = if Nat.eqb a i then 1 else 0).
  { intros a Ha. rewrite <- (HI a i Ha Hi). rewrite (sumR_ext _ (fun p => sumR (fun k => v k * (xw X w a p * xw X w k p)) (seq 0 n))) by (intros p _; unfold u; rewrite <- sumR_scal; apply sumR_ext; intros; ring).
    rewrite sum_swap. apply sumR_ext. intros k Hk. apply in_seq in Hk. rewrite sumR_scal. unfold entry at 1. rewrite EA, (ata_entry X w y Hr Hw a k Ha) by (unfold n in *; lia). unfold v. ring. }
  assert (Q : entry S i i = sumR (fun p => u p * u p) (seq 0 (List.length y))).
  { transitivity (sumR (fun a => if Nat.eqb i a then v a else 0) (seq 0 n)); [now rewrite (sumR_delta v n i Hi)|].
    rewrite (sumR_ext _ (fun a => sumR (fun p => v a * xw X w a p * u p) (seq 0 (List.length y)))).
    - rewrite sum_swap. apply sumR_ext. intros p _. unfold u at 2. rewrite (Rmult_comm (sumR _ _)), <- sumR_scal. apply sumR_ext. intros; ring.
    - intros a Ha. apply in_seq in Ha. rewrite (sumR_ext _ (fun p => v a * (xw X w a p * u p))) by (intros; ring). rewrite sumR_scal, Au by lia. rewrite (Nat.eqb_sym a i). destruct (Nat.eqb i a); ring. }
  assert (N0 : forall p, In p (seq 0 (List.length y)) -> 0 <= u p * u p) by (intros; nra). pose proof (sum_nonneg _ _ N0) as P. rewrite <- Q in P. destruct P as [P|P]; [exact P|]. exfalso.
  pose proof (sum_zero_all _ _ N0 ltac:(lra)) as Z. specialize (Au i Hi). rewrite Nat.eqb_refl in Au. rewrite sumR_zero in Au; [lra|]. intros p Hp. specialize (Z p Hp). cbv beta in Z. assert (u p = 0) by nra. rewrite H0. ring.
Qed.
Print Assumptions C52_variance.
