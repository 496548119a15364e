(** Cases for C52, and the sample that get_map returns. *)
From Coq Require Import Reals Lra.
From Verif Require Import Np NpFacts SceneModel SceneSpec SceneFacts SceneProps PosteriorModel PosteriorSpec PosteriorFacts PosteriorProps KernelSum LinOptModel LinOptProps LinOptCase FitModel FitFacts FitProps FitHand.
Open Scope R_scope.

Lemma box1 z : List.length z = 1%nat -> box [0] [1] z.
Proof. intros L. split; [now rewrite L|]. split; [now rewrite L|]. intros i Hi. assert (i = O) by lia. subst. cbn. lra. Qed.
Lemma within1 x : 0 < x < 1 -> within [0] [1] [x].
Proof. intros H i Hi. assert (i = O) by (cbn in Hi; lia). subst. exact H. Qed.
Lemma half_within : within [0] [1] [1 / 2].
Proof. apply within1. lra. Qed.
Lemma lnprob1 f lp g h x : lnprob (mkPost (Bounded [0] [1]) 1 true f lp g h) [x] = f [sigmoid x] + lp [sigmoid x] + ln (sigmoid x * (1 - sigmoid x)).
Proof.
  unfold lnprob, lnp_of. cbn [tr sampling ll lpr]. assert (E : transform (Bounded [0] [1]) [x] = [sigmoid x]). { cbn. f_equal. ring. } rewrite E. cbn [lndetjac jacobian].
  assert (E2 : zip Rmult (range [0] [1]) (map sigmoid_grad [x]) = [(1 - 0) * sigmoid_grad x]) by reflexivity. rewrite E2. unfold Rprod. cbn [fold_left]. rewrite sigmoid_grad_alt.
  destruct (sigmoid_01 x) as [H1 H2]. rewrite Rabs_right by nra. do 2 f_equal. ring.
Qed.

(** ** get_map *)
Definition case_p : posterior := mkPost (Bounded [0] [1]) 1 true (hd 0) (fun _ => 0) (map (fun _ => 1)) (map (fun _ => 0)).
Definition case_nuts : sampler := fun f _ _ _ _ _ => ([[0]; [ln 9]], map (fun z => mkStat (f z) false) [[0]; [ln 9]]).
Lemma case_lmc : lmc_call case_nuts case_p [1 / 2] 2 0 true.
Proof.
  unfold lmc_call, sampled, case_nuts. cbv zeta. cbn [fst snd]. split; [reflexivity|]. split; [reflexivity|]. assert (L : List.length (inverse_transform (tr case_p) [1 / 2]) = 1%nat) by reflexivity. rewrite L.
  intros [|[|i]] z st Hz Hs; cbn [nth_error map] in *; try (destruct i; discriminate); injection Hz as <-; injection Hs as <-; cbn [model_logp tuned negb andb]; auto.
Qed.
(** The sample returned as the maximum a posteriori is not the one with the highest
    posterior probability of the scene parameters. *)
Theorem C52_map_refuted : exists nuts p lo up q draws w res stats row row', tr p = Bounded lo up /\ box lo up q /\ within lo up q /\ lmc_call nuts p q draws w true /\
  run_lmc nuts p q draws [w] true = Some (res, stats) /\ get_map (l_chain res) stats = Some row /\ In row' (l_chain res) /\ ll p row + lpr p row < ll p row' + lpr p row'.
Proof.
  exists case_nuts, case_p, [0], [1], [1 / 2], 2%nat, 0%nat, (mkLmc 1 [1 / 2] (map (transform (tr case_p)) [[0]; [ln 9]])), (map (fun z => mkStat (lnprob case_p z) false) [[0]; [ln 9]]), (transform (tr case_p) [0]), (transform (tr case_p) [ln 9]).
  split; [reflexivity|]. split; [now apply box1|]. split; [apply within1; lra|]. split; [exact case_lmc|]. split; [reflexivity|].
  assert (S0 : sigmoid 0 = 1 / 2) by (unfold sigmoid; rewrite Ropp_0, exp_0; field).
  assert (S9 : sigmoid (ln 9) = 9 / 10) by (unfold sigmoid; rewrite exp_Ropp, exp_ln by lra; field).
  assert (E : argmax (map model_logp (map (fun z => mkStat (lnprob case_p z) false) [[0]; [ln 9]])) = Some O).
  { cbn [map model_logp argmax argmax_from]. unfold case_p. rewrite !lnprob1, S0, S9. cbn [hd]. destruct (Rlt_dec _ _) as [H|]; [|reflexivity]. exfalso.
    replace (9 / 10 * (1 - 9 / 10)) with ((3 / 5) * (3 / 5) * (1 / 2 * (1 - 1 / 2))) in H by field. rewrite !ln_mult in H by lra.
    assert (X : ln (3 / 5) <= 3 / 5 - 1). { rewrite <- (exp_ln (3 / 5)) at 2 by lra. pose proof (exp_ineq1_le (ln (3 / 5))). lra. } lra. }
  split; [unfold get_map; rewrite E; reflexivity|]. split; [right; left; reflexivity|]. cbn [tr case_p ll lpr transform]. cbn. rewrite S0, S9. lra.
Qed.
Print Assumptions C52_map_refuted.
Example C52_chain_case : exists res stats, run_lmc case_nuts case_p [1 / 2] 2 [0%nat] true = Some (res, stats) /\ n_sample stats = 2%nat /\ forall row, In row (l_chain res) -> within [0] [1] row.
Proof.
  destruct (C52_chain case_nuts case_p [0] [1] [1 / 2] 2 0 [] true eq_refl (box1 [1 / 2] eq_refl) half_within case_lmc) as (res & stats & E & _ & N & _ & H). exists res, stats. split; [exact E|]. split; [exact N|]. intros row Hr. now apply H.
Qed.
Example C52_map_case : exists res stats row, run_lmc case_nuts case_p [1 / 2] 2 [0%nat] true = Some (res, stats) /\ get_map (l_chain res) stats = Some row.
Proof.
  destruct (C52_chain case_nuts case_p [0] [1] [1 / 2] 2 0 [] true eq_refl (box1 [1 / 2] eq_refl) half_within case_lmc) as (res & stats & E & _ & N & _). exists res, stats.
  destruct (C52_map case_nuts case_p [0] [1] [1 / 2] 2 0 [] true res stats eq_refl case_lmc E) as (i & z & trace & _ & _ & G & _); [unfold n_sample in N; lia|]. eauto.
Qed.
(** Tuning samples kept: three of them, but only the first entry of the warmup counts *)
Definition case_nuts_tune : sampler := fun f _ x0 n w _ => (repeat x0 (n + w), map (fun i => mkStat (f x0) (i <? w)%nat) (seq 0 (n + w))).
Lemma case_lmc_tune : lmc_call case_nuts_tune case_p [1 / 2] 4 3 false.
Proof.
  unfold lmc_call, sampled, case_nuts_tune. cbv zeta. cbn [fst snd]. split; [reflexivity|]. split; [reflexivity|].
  intros i z st Hz Hs. assert (Z : z = inverse_transform (tr case_p) [1 / 2]) by (apply nth_error_In in Hz; now apply repeat_spec in Hz). subst z.
  rewrite nth_error_map in Hs. destruct (nth_error (seq 0 (4 + 3)) i) as [k|] eqn:Ek; [|discriminate]. injection Hs as <-. assert (i < 7)%nat by (rewrite <- (seq_length 7 0); apply nth_error_Some; cbn [Nat.add] in Ek; congruence).
  apply (nth_error_nth _ _ O) in Ek. rewrite seq_nth in Ek by (cbn; lia). cbn in Ek. subst k. auto.
Qed.
Example C52_warmup_case : exists res stats, run_lmc case_nuts_tune case_p [1 / 2] 4 [3; 5]%nat false = Some (res, stats) /\ List.length (l_chain res) <> (4 + list_sum [3; 5])%nat.
Proof.
  destruct (C52_warmup_refuted case_nuts_tune case_p [0] [1] [1 / 2] 4 3 [5]%nat eq_refl (box1 [1 / 2] eq_refl) half_within case_lmc_tune) as (res & stats & E & H). exists res, stats. split; [exact E|]. intros L. apply H in L. discriminate.
Qed.

(** ** run_opt *)
Definition case_bfgs : optimizer := fun f g x0 => mkSci x0 (f x0) (g x0).
Definition opt_p : posterior := mkPost (Bounded [0] [1]) 1 false (fun q => 3 - (hd 0 q - 1 / 2) ^ 2) (fun _ => 0) (fun q => map (fun x => - (2 * (x - 1 / 2))) q) (map (fun _ => 0)).
Lemma case_opt : opt_call case_bfgs opt_p [1 / 2].
Proof. unfold opt_call, minimised, case_bfgs. cbn [s_x s_fun s_jac]. repeat split. lra. Qed.
Lemma case_row1 : o_chain (run_opt case_bfgs opt_p [1 / 2]) = [[1 / 2]].
Proof. destruct (transform_inverse [0] [1] [1 / 2] (box1 [1 / 2] eq_refl) half_within) as [_ E]. unfold run_opt, case_bfgs. cbn [s_x o_chain map]. change (tr opt_p) with (Bounded [0] [1]). now rewrite E. Qed.
Example C52_optimum_case : o_chain (run_opt case_bfgs opt_p [1 / 2]) = [[1 / 2]] /\ o_fun (run_opt case_bfgs opt_p [1 / 2]) = - 3 /\ o_lnp (run_opt case_bfgs opt_p [1 / 2]) = 3 / 2.
Proof.
  split; [exact case_row1|]. destruct (C52_optimum case_bfgs opt_p [0] [1] [1 / 2] eq_refl eq_refl ltac:(cbn; lra) (box1 [1 / 2] eq_refl) half_within case_opt) as (row & E & _ & _ & F & _).
  rewrite case_row1 in E. assert (row = [1 / 2]) by congruence. subst row. rewrite F. split; [cbn; field|].
  rewrite (C52_lnp_partial case_bfgs opt_p [0] [1] [1 / 2] [1 / 2] eq_refl eq_refl ltac:(cbn; lra) (box1 [1 / 2] eq_refl) half_within case_opt case_row1). cbn. field.
Qed.
Lemma opt_p_gradient : is_gradient_at (ll opt_p) (llg opt_p [1 / 2]) [1 / 2].
Proof.
  split; [reflexivity|]. intros i Hi. assert (i = O) by (cbn in Hi; lia). subst. cbn.
  replace (- (2 * (1 / 2 - 1 / 2))) with (0 - ((1 - 0) * ((1 / 2 - 1 / 2) * 1) + (1 / 2 - 1 / 2) * ((1 - 0) * 1 + (1 / 2 - 1 / 2) * 0))) by field.
  apply (derivable_pt_lim_minus (fun _ => 3) (fun t => (t - 1 / 2) * ((t - 1 / 2) * 1))); [apply derivable_pt_lim_const|].
  assert (D : forall x, derivable_pt_lim (fun t => t - 1 / 2) x (1 - 0)) by (intros x; apply (derivable_pt_lim_minus id (fun _ => 1 / 2)); [apply derivable_pt_lim_id|apply derivable_pt_lim_const]).
  apply (derivable_pt_lim_mult (fun t => t - 1 / 2) (fun t => (t - 1 / 2) * 1)); [apply D|]. apply (derivable_pt_lim_mult (fun t => t - 1 / 2) (fun _ => 1)); [apply D|apply derivable_pt_lim_const].
Qed.
Example C52_stationary_case : derivable_pt_lim (fun t => ll opt_p (upd 0 t [1 / 2]) + lpr opt_p (upd 0 t [1 / 2])) (1 / 2) 0.
Proof.
  apply (C52_stationary case_bfgs opt_p [0] [1] [1 / 2] [1 / 2] eq_refl eq_refl ltac:(cbn; lra) (box1 [1 / 2] eq_refl) half_within case_opt case_row1 opt_p_gradient) with (i := O); [| |cbn; lia].
  - split; [reflexivity|]. intros i Hi. assert (i = O) by (cbn in Hi; lia). subst. apply derivable_pt_lim_const.
  - unfold run_opt, case_bfgs. cbn [o_jac s_jac]. unfold nll_grad, nll_grad_of, lnprob_grad, lnp_grad_of. change (tr opt_p) with (Bounded [0] [1]).
    destruct (transform_inverse [0] [1] [1 / 2] (box1 [1 / 2] eq_refl) half_within) as [_ E]. rewrite E. cbn. constructor; [lra|constructor].
Qed.
Example C52_lnp_case : o_lnp (run_opt case_bfgs opt_p [1 / 2]) <> ll opt_p [1 / 2] + lpr opt_p [1 / 2].
Proof.
  intros H. apply (C52_lnp_refuted case_bfgs opt_p [0] [1] [1 / 2] [1 / 2] eq_refl eq_refl eq_refl (box1 [1 / 2] eq_refl) half_within case_opt case_row1) in H. cbn in H. lra.
Qed.

(** ** get_pot *)
Definition chol1 (m : list (list R)) : bool := if Rlt_dec 0 (entry m 0 0) then true else false.
Lemma chol1_decides : decides_posdef 1 chol1.
Proof.
  intros m _ _. unfold chol1. assert (Q : forall x, quad 1 m x = x 0%nat * entry m 0 0 * x 0%nat) by (intros x; unfold quad, sumR; cbn; ring). assert (N : forall x, norm2 1 x = x 0%nat * x 0%nat) by (intros x; unfold norm2, sumR; cbn; ring).
  destruct (Rlt_dec 0 (entry m 0 0)) as [H|H]; split; auto; try discriminate.
  - intros _ x Hx. rewrite Q. rewrite N in Hx. nra.
  - intros P. exfalso. apply H. specialize (P (fun _ => 1)). rewrite Q, N in P. lra.
Qed.
Lemma square1 x : square 1 [[x]].
Proof. split; [reflexivity|]. intros [|i] Hi; [reflexivity|lia]. Qed.
Lemma symmetric1 m : symmetric 1 m.
Proof. intros i j Hi Hj. replace i with j by lia. reflexivity. Qed.
Example C52_mass_case : posdef 1 (get_pot chol1 1 (Some [[- (1 / 500)]]) (1 / 1000)).
Proof.
  destruct (C52_mass chol1 1 [[- (1 / 500)]] (1 / 1000) chol1_decides (square1 _) (symmetric1 _) ltac:(lra)) as (k & _ & _ & _ & _ & H). apply H. intros x Hx. unfold norm2, quad, entry, sumR in *. cbn in *. nra.
Qed.
Example C52_mass_kept_case : get_pot chol1 1 (Some [[4]]) (1 / 1000) = [[4]].
Proof. apply (C52_mass_kept chol1 1 [[4]] (1 / 1000) chol1_decides (square1 _) (symmetric1 _)). apply chol1_decides; [apply square1|apply symmetric1|]. unfold chol1, entry. cbn. destruct (Rlt_dec 0 4) as [|H]; [reflexivity|exfalso; apply H; lra]. Qed.
Example C52_mass_default_case : get_pot chol1 1 None (1 / 1000) = eye 1.
Proof. exact (proj1 (C52_mass_default chol1 1 (1 / 1000) chol1_decides)). Qed.
Example C52_mass_refuted_case : ~ posdef 1 (get_pot chol1 1 (Some [[-1]]) (1 / 1000)).
Proof. exact (proj2 (proj2 (C52_mass_refuted chol1 chol1_decides))). Qed.

(** ** The hand-off *)
Definition case_active : list arow := [(7%Z, [("ra", 10); ("dec", 20); ("q", 9 / 10); ("pa", 0); ("sersic", 2); ("rhalf", 1 / 10); ("a", 5)]%string)].
Definition case_bcat : list (srow (R * R)) := [[("a", (0, 10)); ("ra", (9, 11)); ("dec", (19, 21)); ("q", (1 / 2, 1)); ("pa", (-1, 1)); ("sersic", (1, 5)); ("rhalf", (1 / 100, 1))]%string].
Lemma case_bounded : bounded ["a"%string] (map snd case_active) case_bcat.
Proof.
  split; [reflexivity|]. split.
  - intros r c [<-|[]] Hc. cbn in Hc. decompose [or] Hc; subst; try contradiction; eexists; reflexivity.
  - intros r c [<-|[]] Hc. cbn in Hc. decompose [or] Hc; subst; try contradiction; eexists _, _; (split; [reflexivity|lra]).
Qed.
Lemma case_distinct : NoDup (names ["a"%string]).
Proof. cbn. repeat (constructor; [cbn; intros H; decompose [or] H; try discriminate; auto|]). constructor. Qed.
Definition case_draw (lo up : list R) : list R := zip (fun l u => (l + u) / 2) lo up.
Lemma case_drawn lo up : box lo up lo -> List.length (case_draw lo up) = List.length lo /\ within lo up (case_draw lo up).
Proof.
  intros (_ & L & H). assert (Lz : List.length (case_draw lo up) = List.length lo) by (unfold case_draw; rewrite zip_length; lia). split; [exact Lz|]. intros i Hi. rewrite Lz in Hi. specialize (H i Hi). unfold case_draw. rewrite (zip_nth _ lo up i 0 0 0) by lia. lra.
Qed.
Definition case_ref (a : list arow) : R * R := match a with (_, r) :: _ => match col r "ra", col r "dec" with Some x, Some y => (x, y) | _, _ => (0, 0) end | [] => (0, 0) end.
Definition case_linear : linear_setting := (fun _ => inl ([[6]], [[[1]]]), fun m => m, 2).
Lemma case_linear_ok : linear_ok 1 ["a"%string] (Some case_linear).
Proof.
  split; [lra|]. intros act L. exists [[6]], [[[1]]]. split; [reflexivity|]. split; [reflexivity|]. split; [reflexivity|].
  intros [|k] f P Hf HP; [|destruct k; discriminate]. injection Hf as <-. injection HP as <-. split; [reflexivity|]. split; [reflexivity|]. intros i x v Hx _. right. destruct i as [|[|i]]; cbn in Hx; try discriminate. injection Hx as <-. lra.
Qed.
Example C52_handoff_case : exists opt act bcat lo up q, optimize case_bfgs case_draw (fun _ => 0) (map (fun _ => 0)) false ["a"%string] case_ref None case_active case_bcat = Some (opt, act, bcat) /\
  sample_start ["a"%string] case_ref act bcat = Some (lo, up, q) /\ within lo up q.
Proof.
  destruct (C52_handoff case_bfgs case_draw (fun _ => 0) (map (fun _ => 0)) false ["a"%string] case_ref case_drawn (fun _ _ _ => eq_refl) case_distinct None case_active case_bcat ltac:(discriminate) case_bounded I)
    as (opt & row & act & bcat & E & _ & _ & _ & (lo & up & q & E2 & _ & W & _) & _). exists opt, act, bcat, lo, up, q. auto.
Qed.
Example C52_handoff_linear_case : exists opt act bcat, optimize case_bfgs case_draw (fun _ => 0) (map (fun _ => 0)) false ["a"%string] case_ref (Some case_linear) case_active case_bcat = Some (opt, act, bcat) /\
  forall r, nth_error act 0 = Some r -> col (snd r) "a" = Some 6.
Proof.
  destruct (C52_handoff_fluxes case_bfgs case_draw (fun _ => 0) (map (fun _ => 0)) false ["a"%string] case_ref case_drawn (fun _ _ _ => eq_refl) case_distinct _ _ _ case_active case_bcat ltac:(discriminate) case_bounded case_linear_ok)
    as (opt & act1 & fs & Ps & act & bcat & _ & Ef & E & H). injection Ef as <- <-. exists opt, act, bcat. split; [exact E|]. intros r Hr. exact (H O r O "a"%string [6] 6 Hr eq_refl eq_refl eq_refl).
Qed.
Example C52_singular_case : optimize case_bfgs case_draw (fun _ => 0) (map (fun _ => 0)) false ["a"%string] case_ref (Some (fun _ => inr 0%nat, fun m => m, 2)) case_active case_bcat = None.
Proof. apply C52_singular_refuted; [intros H; discriminate H|]. intros act. now exists O. Qed.
Example C52_variance_case : exists f A, optimize_one_band solve1 [[1; 2; 0]] [1; 1; 0] [6; 12; 9] None = Some (f, A) /\ exists v, nth_error (diag [[1 / 5]]) 0 = Some v /\ 0 < v.
Proof.
  destruct (C30_band_case 9 0) as (f & A & E & _ & EA). exists [f], A. split; [exact E|].
  apply (C52_variance solve1 [[1; 2; 0]] [1; 1; 0] [6; 12; 9] [f] A [[1 / 5]] solve1_solves); [repeat constructor|reflexivity|exact E|apply square1| |cbn; lia].
  intros i j Hi Hj. cbn in Hi, Hj. replace i with O by lia. replace j with O by lia. unfold sumR, entry. cbn. rewrite EA. field.
Qed.
Example C52_task_optimum_case : exists opt row, (exists act bcat, optimize case_bfgs case_draw (fun _ => 0) (map (fun _ => 0)) false ["a"%string] case_ref None case_active case_bcat = Some (opt, act, bcat)) /\
  o_chain opt = [row] /\ o_fun opt = - 0.
Proof.
  destruct C52_handoff_case as (opt & act & bcat & _ & _ & _ & E & _).
  destruct (C52_task_optimum case_bfgs case_draw (fun _ => 0) (map (fun _ => 0)) ["a"%string] case_ref case_drawn None case_active case_bcat opt act bcat ltac:(discriminate) case_bounded) as (lo & up & row & H1 & _ & H2 & _); [|exact E|exists opt, row; eauto].
  intros f g x0. repeat split; cbn; lra.
Qed.
