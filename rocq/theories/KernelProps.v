(** Properties C20 and C21: the kernel's derivatives; and the posterior gradient
    with the compiled kernel in place. *)
From Verif Require Import Np NpFacts SceneModel StackFacts LnlikeModel LnlikeFacts PosteriorModel PosteriorSpec PosteriorFacts FastPosterior.
From Verif Require Import KernelModel KernelFacts KernelJac KernelSum KernelGrad.
From Coq Require Import Reals Lra.
From Coquelicot Require Import Coquelicot.
Import ListNotations.
Open Scope list_scope.
Open Scope R_scope.

(** ** C20 *)
Definition with_amp g t := mkIG t (xcen g) (ycen g) (fxx g) (fyy g) (fxy g) 0 0 0 0 0 0 0 0 0 0 0 0 0 0 0.
Definition with_x g t := mkIG (amp g) t (ycen g) (fxx g) (fyy g) (fxy g) 0 0 0 0 0 0 0 0 0 0 0 0 0 0 0.
Definition with_y g t := mkIG (amp g) (xcen g) t (fxx g) (fyy g) (fxy g) 0 0 0 0 0 0 0 0 0 0 0 0 0 0 0.
Definition with_fxx g t := mkIG (amp g) (xcen g) (ycen g) t (fyy g) (fxy g) 0 0 0 0 0 0 0 0 0 0 0 0 0 0 0.
Definition with_fyy g t := mkIG (amp g) (xcen g) (ycen g) (fxx g) t (fxy g) 0 0 0 0 0 0 0 0 0 0 0 0 0 0 0.
Definition with_fxy g t := mkIG (amp g) (xcen g) (ycen g) (fxx g) (fyy g) t 0 0 0 0 0 0 0 0 0 0 0 0 0 0 0.
(** What the kernel renders at a pixel for the Gaussians [gs]. *)
Definition rendered (xp yp : R) (gs : list ImageGaussian) : R := - ComputeResidualImage xp yp 0 gs.
(** The squared distance in units of the covariance. *)
Definition distance2 (xp yp : R) (g : ImageGaussian) : R :=
  fxx g * (xp - xcen g) ^ 2 + fyy g * (yp - ycen g) ^ 2 + 2 * fxy g * (xp - xcen g) * (yp - ycen g).
Lemma distance2_exparg xp yp g : distance2 xp yp g = exparg xp yp g.
Proof. unfold distance2, exparg, quad. ring. Qed.

Lemma rendered_one xp yp g : rendered xp yp (g :: nil) = residual_term xp yp g.
Proof. unfold rendered, ComputeResidualImage. simpl. ring. Qed.

Lemma derive_rendered xp yp (G : R -> ImageGaussian) t0 e d : tangent G t0 e -> exparg xp yp (G t0) <> MAX_EXP_ARG ->
  dot6 (pixel_derivs xp yp (- (1/2)) (G t0)) e = d -> derivable_pt_lim (fun t => rendered xp yp (G t :: nil)) t0 d.
Proof.
  intros HT Hc <-. apply is_derive_Reals. eapply is_derive_ext; [|apply residual_term_derive; eauto].
  intros t. symmetry. apply rendered_one.
Qed.

(** The factor -2*residual*ierr^2 is common to the six sums; at -1/2 it is 1. *)
Theorem C20_pixel_derivatives : forall xp yp r g, distance2 xp yp g <> MAX_EXP_ARG ->
  exists dA dx dy dfxx dfyy dfxy,
    pixel_derivs xp yp r g = (-2 * r * dA, -2 * r * dx, -2 * r * dy, -2 * r * dfxx, -2 * r * dfyy, -2 * r * dfxy) /\
    derivable_pt_lim (fun t => rendered xp yp (with_amp g t :: nil)) (amp g) dA /\
    derivable_pt_lim (fun t => rendered xp yp (with_x g t :: nil)) (xcen g) dx /\
    derivable_pt_lim (fun t => rendered xp yp (with_y g t :: nil)) (ycen g) dy /\
    derivable_pt_lim (fun t => rendered xp yp (with_fxx g t :: nil)) (fxx g) dfxx /\
    derivable_pt_lim (fun t => rendered xp yp (with_fyy g t :: nil)) (fyy g) dfyy /\
    derivable_pt_lim (fun t => rendered xp yp (with_fxy g t :: nil)) (fxy g) dfxy.
Proof.
  intros xp yp r g Hd. rewrite distance2_exparg in Hd.
  rewrite (pixel_derivs_scale xp yp r g). destruct (pixel_derivs xp yp (- (1/2)) g) as [[[[[d1 d2] d3] d4] d5] d6] eqn:E.
  exists d1, d2, d3, d4, d5, d6. split; [reflexivity|].
  assert (id1 : forall t0 : R, is_derive (fun t : R => t) t0 1) by (intros; apply @is_derive_id).
  assert (c1 : forall t0 c : R, is_derive (fun _ : R => c) t0 0) by (intros; apply @is_derive_const).
  assert (T : forall i, match i with
    | 0%nat => tangent (with_amp g) (amp g) (1, 0, 0, 0, 0, 0) | 1%nat => tangent (with_x g) (xcen g) (0, 1, 0, 0, 0, 0)
    | 2%nat => tangent (with_y g) (ycen g) (0, 0, 1, 0, 0, 0) | 3%nat => tangent (with_fxx g) (fxx g) (0, 0, 0, 1, 0, 0)
    | 4%nat => tangent (with_fyy g) (fyy g) (0, 0, 0, 0, 1, 0) | _ => tangent (with_fxy g) (fxy g) (0, 0, 0, 0, 0, 1) end).
  { intros [|[|[|[|[|i]]]]]; unfold tangent; cbn [amp xcen ycen fxx fyy fxy with_amp with_x with_y with_fxx with_fyy with_fxy];
      (split; [|split; [|split; [|split; [|split]]]]); auto. }
  change (pixel_derivs xp yp (- (1/2)) (with_amp g (amp g)) = (d1, d2, d3, d4, d5, d6)) in E.
  split; [|split; [|split; [|split; [|split]]]].
  - eapply (derive_rendered _ _ (with_amp g) _ _ _ (T 0%nat)); [exact Hd|]. rewrite E. unfold dot6. ring.
  - eapply (derive_rendered _ _ (with_x g) _ _ _ (T 1%nat)); [exact Hd|].
    change (dot6 (pixel_derivs xp yp (- (1/2)) (with_amp g (amp g))) (0, 1, 0, 0, 0, 0) = d2). rewrite E. unfold dot6. ring.
  - eapply (derive_rendered _ _ (with_y g) _ _ _ (T 2%nat)); [exact Hd|].
    change (dot6 (pixel_derivs xp yp (- (1/2)) (with_amp g (amp g))) (0, 0, 1, 0, 0, 0) = d3). rewrite E. unfold dot6. ring.
  - eapply (derive_rendered _ _ (with_fxx g) _ _ _ (T 3%nat)); [exact Hd|].
    change (dot6 (pixel_derivs xp yp (- (1/2)) (with_amp g (amp g))) (0, 0, 0, 1, 0, 0) = d4). rewrite E. unfold dot6. ring.
  - eapply (derive_rendered _ _ (with_fyy g) _ _ _ (T 4%nat)); [exact Hd|].
    change (dot6 (pixel_derivs xp yp (- (1/2)) (with_amp g (amp g))) (0, 0, 0, 0, 1, 0) = d5). rewrite E. unfold dot6. ring.
  - eapply (derive_rendered _ _ (with_fxy g) _ _ _ (T 5%nat)); [exact Hd|].
    change (dot6 (pixel_derivs xp yp (- (1/2)) (with_amp g (amp g))) (0, 0, 0, 0, 0, 1) = d6). rewrite E. unfold dot6. ring.
Qed.
Print Assumptions C20_pixel_derivatives.

(** Inside the cutoff the counts are amplitude x Gaussian x second-order pixel
    correction; beyond it counts and derivatives vanish. *)
Theorem C20_rendered_value : forall xp yp r g,
  (distance2 xp yp g <= MAX_EXP_ARG ->
   rendered xp yp (g :: nil) = amp g * exp (- (distance2 xp yp g / 2)) *
     (1 + ((fxx g * (xp - xcen g) + fxy g * (yp - ycen g)) ^ 2 + (fxy g * (xp - xcen g) + fyy g * (yp - ycen g)) ^ 2 - (fxx g + fyy g)) / 24)) /\
  (MAX_EXP_ARG < distance2 xp yp g ->
   rendered xp yp (g :: nil) = 0 /\ ComputeGaussianDerivative xp yp r (g :: nil) (repeat 0 NPARAMS) = repeat 0 NPARAMS).
Proof.
  intros xp yp r g. rewrite distance2_exparg, rendered_one. split; intros H.
  - rewrite residual_term_in by auto. unfold count. fold (exparg xp yp g).
    replace (- (1/2) * exparg xp yp g) with (- (exparg xp yp g / 2)) by field. field.
  - rewrite residual_term_out by auto. split; auto. unfold ComputeGaussianDerivative, derivative_row. simpl.
    rewrite pixel_derivs_out by auto. unfold row_add. simpl. repeat (f_equal; try ring).
Qed.
Print Assumptions C20_rendered_value.
(** Several Gaussians: counts and derivative sums add up. *)
Theorem C20_sums : forall xp yp r data gs, 
  ComputeResidualImage xp yp data gs = data - fold_right Rplus 0 (map (fun g => rendered xp yp (g :: nil)) gs) /\
  forall j, (j < NPARAMS)%nat -> nth j (ComputeGaussianDerivative xp yp r gs (repeat 0 NPARAMS)) 0 =
    fold_right Rplus 0 (map (fun g => nth j (ComputeGaussianDerivative xp yp r (g :: nil) (repeat 0 NPARAMS)) 0) gs).
Proof.
  intros xp yp r data gs.
  assert (FS : forall f, fold_right Rplus 0 (map f gs) = sumR f gs).
  { intros f. induction gs as [|g l IH]; auto. simpl. rewrite IH. reflexivity. }
  split.
  - rewrite residual_closed, FS. f_equal. apply sumR_ext. intros. symmetry. apply rendered_one.
  - intros j Hj. rewrite FS. assert (HZ : nth j (repeat 0 NPARAMS) 0 = 0).
    { unfold NPARAMS in *. do 7 (destruct j as [|j]; [reflexivity|]). lia. }
    destruct (deriv_closed xp yp r gs (repeat 0 NPARAMS) eq_refl) as [_ K]. rewrite K, HZ, Rplus_0_l by auto.
    apply sumR_ext. intros g _. destruct (deriv_closed xp yp r (g :: nil) (repeat 0 NPARAMS) eq_refl) as [_ K1]. rewrite K1, HZ by auto.
    rewrite sumR_cons. unfold sumR. simpl. ring.
Qed.
Print Assumptions C20_sums.

(** Non-vacuity: a unit Gaussian at the origin seen from (1, 0), and from (7, 0). *)
Example C20_case : let g := mkIG 2 0 0 1 1 0 0 0 0 0 0 0 0 0 0 0 0 0 0 0 0 in
  distance2 1 0 g <> MAX_EXP_ARG /\ rendered 1 0 (g :: nil) = 2 * exp (-(1/2)) * (1 + -1/24) /\
  MAX_EXP_ARG < distance2 7 0 g /\ rendered 7 0 (g :: nil) = 0.
Proof.
  intros g. assert (D1 : distance2 1 0 g = 1) by (unfold distance2; simpl; ring).
  assert (D7 : distance2 7 0 g = 49) by (unfold distance2; simpl; ring). unfold MAX_EXP_ARG in *.
  split; [lra|]. split; [|split].
  - destruct (C20_rendered_value 1 0 0 g) as [H _]. rewrite H by (unfold MAX_EXP_ARG; lra). rewrite D1. simpl. repeat f_equal; field.
  - lra.
  - apply (C20_rendered_value 7 0 0 g). unfold MAX_EXP_ARG. lra.
Qed.

(** ** C21 *)
(** What the kernel needs to be differentiable at [rows]: non-zero axis ratios,
    positive definite PSF Gaussians, non-negative squared radii, amplitudes with
    the stated derivatives, and no unmasked pixel exactly on a cutoff. *)
Record smooth_at (P : Patch) (b : nat) (amps dan dar : R -> R -> nat -> R) (rows : list (list R)) : Prop := {
  sm_max : (n_sources P <= MAXSOURCES)%nat;
  sm_len : List.length rows = n_sources P;
  sm_row : forall row, In row rows -> List.length row = 7%nat /\ nth 3 row 0 <> 0;
  sm_psf : forall psf, psf_used P b psf -> psf_pd psf /\ 0 <= rad2 P (sersic_radius_bin psf);
  sm_amp : forall psf row, psf_used P b psf -> In row rows ->
     spline_ok amps dan dar (nth 5 row 0) (nth 6 row 0) (sersic_radius_bin psf);
  sm_cut : forall e pix s, In e (exposures P b) -> In pix (pixels P e) -> (s < n_sources P)%nat ->
     P_ierr P pix = 0 \/ off_cutoff P b (sources_of amps dan dar rows) s e pix }.

Theorem C21_kernel_gradient : forall P b amps dan dar rows, smooth_at P b amps dan dar rows ->
  forall s p, (s < n_sources P)%nat -> (p < 7)%nat ->
    derivable_pt_lim (fun t => fst (EvaluateProposal P b (sources_of amps dan dar (upd s (upd p t (nth s rows [])) rows))))
      (nth p (nth s rows []) 0) (nth (s * 7 + p) (snd (EvaluateProposal P b (sources_of amps dan dar rows))) 0).
Proof.
  intros P b amps dan dar rows [H1 H2 H3 H4 H5 H6] s p Hs Hp.
  assert (Hin : In (nth s rows []) rows) by (apply nth_In; lia). destruct (H3 _ Hin) as [Hr Hq].
  apply is_derive_Reals. apply (chi2_derive P b amps dan dar rows s p H1 H2 Hr Hs Hp Hq); auto.
  intros psf Hpsf. destruct (H4 psf Hpsf). auto.
Qed.
Print Assumptions C21_kernel_gradient.

(** The Jacobian alone: every stored entry is a derivative of an image parameter. *)
Theorem C21_jacobian : forall P b e g psf amps dan dar row p, List.length row = 7%nat -> (p < 7)%nat ->
  nth 3 row 0 <> 0 -> 0 <= rad2 P (sersic_radius_bin psf) -> psf_pd psf ->
  spline_ok amps dan dar (nth 5 row 0) (nth 6 row 0) (sersic_radius_bin psf) ->
  let G row := GetGaussianAndJacobian (pix_gaussian P b e g (ksource_of amps dan dar row) psf) psf in
  let D f v := derivable_pt_lim (fun t => f (G (upd p t row))) (nth p row 0) v in
  let g0 := G row in
  match p with
  | 0%nat => D amp (dA_dFlux g0) /\ D xcen 0 /\ D ycen 0 /\ D fxx 0 /\ D fyy 0 /\ D fxy 0
  | 1%nat => D amp 0 /\ D xcen (dx_dAlpha g0) /\ D ycen (dy_dAlpha g0) /\ D fxx 0 /\ D fyy 0 /\ D fxy 0
  | 2%nat => D amp 0 /\ D xcen (dx_dDelta g0) /\ D ycen (dy_dDelta g0) /\ D fxx 0 /\ D fyy 0 /\ D fxy 0
  | 3%nat => D amp (dA_dQ g0) /\ D xcen 0 /\ D ycen 0 /\ D fxx (dFxx_dQ g0) /\ D fyy (dFyy_dQ g0) /\ D fxy (dFxy_dQ g0)
  | 4%nat => D amp (dA_dPA g0) /\ D xcen 0 /\ D ycen 0 /\ D fxx (dFxx_dPA g0) /\ D fyy (dFyy_dPA g0) /\ D fxy (dFxy_dPA g0)
  | 5%nat => D amp (dA_dSersic g0) /\ D xcen 0 /\ D ycen 0 /\ D fxx 0 /\ D fyy 0 /\ D fxy 0
  | _ => D amp (dA_drh g0) /\ D xcen 0 /\ D ycen 0 /\ D fxx 0 /\ D fyy 0 /\ D fxy 0
  end.
Proof.
  intros P b e g psf amps dan dar row p HL Hp Hq Hr Hpsf Hsp G D g0.
  pose proof (gaussian_tangent P b e g psf amps dan dar row p HL Hp Hq Hr Hpsf Hsp) as HT.
  fold (G row) in HT. fold g0 in HT.
  destruct p as [|[|[|[|[|[|[|p]]]]]]]; [| | | | | | |lia]; cbn [jac tangent] in HT; destruct HT as (T1 & T2 & T3 & T4 & T5 & T6);
    unfold D; (split; [|split; [|split; [|split; [|split]]]]); apply is_derive_Reals; assumption.
Qed.
Print Assumptions C21_jacobian.

(** ** The posterior with the compiled kernel *)
Definition prop_source (dan dar : R -> R -> nat -> R) (p : prop_struct R) : KSource :=
  mkKS (p_ra p) (p_dec p) (p_q p) (p_pa p) (fun b => nth b (p_fluxes p) 0) (fun s => nth s (p_amplitudes p) 0)
       (dar (p_nsersic p) (p_rh p)) (dan (p_nsersic p) (p_rh p)).
Definition no_prop : prop_struct R := mkProp [] 0 0 0 0 0 0 [].
Definition prop_sources dan dar (ps : list (prop_struct R)) (g : nat) : KSource := prop_source dan dar (nth g ps no_prop).

Lemma gaussians_ext P b e src src' :
  (forall g, (g < n_sources P)%nat -> k_ra (src g) = k_ra (src' g) /\ k_dec (src g) = k_dec (src' g) /\ k_q (src g) = k_q (src' g) /\
     k_pa (src g) = k_pa (src' g) /\ k_fluxes (src g) b = k_fluxes (src' g) b /\
     (forall i, mixture_amplitudes (src g) i = mixture_amplitudes (src' g) i /\ damplitude_drh (src g) i = damplitude_drh (src' g) i /\
                damplitude_dnsersic (src g) i = damplitude_dnsersic (src' g) i)) ->
  CreateImageGaussians P b e src = CreateImageGaussians P b e src'.
Proof.
  intros H. unfold CreateImageGaussians. rewrite !flat_map_concat_map. f_equal. apply map_ext_in. intros g Hg. apply in_seq in Hg.
  destruct (H g ltac:(lia)) as (E1 & E2 & E3 & E4 & E5 & E6). unfold ConvolveOneSource. apply map_ext. intros p. f_equal.
  unfold pix_gaussian, source_setup. rewrite E1, E2, E3, E4, E5. destruct (E6 (sersic_radius_bin (psfgauss P (psfgauss_start P e + p)))) as (F1 & F2 & F3).
  now rewrite F1, F2, F3.
Qed.
Lemma evaluate_ext P b src src' : (forall e, CreateImageGaussians P b e src = CreateImageGaussians P b e src') ->
  EvaluateProposal P b src = EvaluateProposal P b src'.
Proof.
  intros H. unfold EvaluateProposal. generalize (0, repeat 0 (NPARAMS * MAXSOURCES)). induction (seq 0 (band_N P b)) as [|e l IH]; intros a; simpl; auto.
  rewrite IH. f_equal. unfold exposure_pass. now rewrite H.
Qed.

Lemma mapM_In {A B} (f : A -> option B) l m y : mapM f l = Some m -> In y m -> exists x, In x l /\ f x = Some y.
Proof.
  revert m. induction l as [|a l IH]; simpl; intros m H Hy; [injection H as <-; easy|].
  destruct (f a) eqn:Ea; [|discriminate]. destruct (mapM f l) eqn:El; [|discriminate]. injection H as <-.
  destruct Hy as [<-|Hy]; [eauto|]. destruct (IH _ eq_refl Hy) as (x & ? & ?). eauto.
Qed.
Lemma proposal_amplitudes (amps' : R -> R -> list R) qf paf sc theta ps p : proposal_of amps' qf paf sc theta = Some ps -> In p ps ->
  p_amplitudes p = amps' (p_nsersic p) (p_rh p).
Proof.
  unfold proposal_of, get_proposal. destruct (set_all_source_params sc theta) as [sc'|]; [|discriminate].
  destruct (active_sources sc') as [|a l]; [discriminate|]. intros H Hp. destruct (mapM_In _ _ _ _ H Hp) as (x & _ & Hx).
  unfold proposal in Hx. destruct (s_kind x); try discriminate; destruct (Nat.leb (n_bands x) MAXBANDS); try discriminate;
    injection Hx as <-; reflexivity.
Qed.

Lemma kernel_rows P b (amps' : R -> R -> list R) dan dar ps :
  List.length ps = n_sources P -> (forall p, In p ps -> p_amplitudes p = amps' (p_nsersic p) (p_rh p)) ->
  EvaluateProposal P b (prop_sources dan dar ps) =
  EvaluateProposal P b (sources_of (fun n r s => nth s (amps' n r) 0) dan dar (map (kernel_row b) ps)).
Proof.
  intros HL Ha. apply evaluate_ext. intros e. apply gaussians_ext. intros g Hg.
  assert (Hin : In (nth g ps no_prop) ps) by (apply nth_In; lia).
  unfold sources_of. rewrite nth_indep with (d' := kernel_row b no_prop) by (rewrite map_length; lia).
  rewrite (map_nth (kernel_row b)). unfold prop_sources, prop_source, ksource_of, kernel_row. simpl.
  repeat split. now rewrite (Ha _ Hin).
Qed.

(** fast_evaluate with [chi2] and [derivs] computed by the kernel, and its gradient *)
Definition kernel_chi2 P (amps' : R -> R -> list R) dan dar (b : nat) (rows : list (list R)) : R :=
  fst (EvaluateProposal P b (sources_of (fun n r s => nth s (amps' n r) 0) dan dar rows)).
Definition kernel_derivs P nb dan dar (ps : list (prop_struct R)) : list (list (list R)) :=
  snd (evaluate_proposal P nb (prop_sources dan dar ps)).

Lemma chunk_rows_shape n flat : (n <= MAXSOURCES)%nat -> List.length flat = (NPARAMS * MAXSOURCES)%nat ->
  List.length (chunk_rows n flat) = n /\ List.Forall (fun d => List.length d = 7%nat) (chunk_rows n flat) /\
  forall s p, (s < n)%nat -> (p < 7)%nat -> nth p (nth s (chunk_rows n flat) []) 0 = nth (s * 7 + p) flat 0.
Proof.
  intros Hn HL. unfold chunk_rows. unfold MAXSOURCES, NPARAMS in *. split; [now rewrite map_length, seq_length|]. split.
  - apply List.Forall_forall. intros d Hd. apply in_map_iff in Hd. destruct Hd as (s & <- & Hs). apply in_seq in Hs.
    rewrite firstn_length, skipn_length. lia.
  - intros s p Hs Hp. set (f := fun s => firstn 7 (skipn (s * 7) flat)).
    rewrite nth_indep with (d' := f 0%nat) by (rewrite map_length, seq_length; lia).
    rewrite (map_nth f). rewrite seq_nth by lia. unfold f. simpl plus.
    assert (E : nth_error (firstn 7 (skipn (s * 7) flat)) p = nth_error flat (s * 7 + p)).
    { rewrite nth_error_firstn by lia. apply nth_error_skipn. }
    rewrite (nth_error_nth' flat 0) in E by lia. now apply nth_error_nth with (d := 0) in E.
Qed.

(** C21 end to end: the gradient FastPosterior hands to the sampler is the
    derivative of the log-posterior it reports, kernel included. *)
Theorem C21_posterior_gradient : forall P nb amps' dan dar k sampling lpr lprg qf paf sc z,
  let amps := fun n r s => nth s (amps' n r) 0 in
  fast_galaxies nb sc -> sc <> [] -> (nb <= 30)%nat -> List.length z = (List.length sc * (nb + 6))%nat -> suits k z ->
  List.length sc = n_sources P ->
  is_gradient_at lpr (lprg (transform k z)) (transform k z) ->
  (forall b ps, (b < nb)%nat -> proposal_of amps' qf paf sc (transform k z) = Some ps ->
     smooth_at P b amps dan dar (map (kernel_row b) ps)) ->
  let eval := fast_evaluate k sampling lpr lprg amps' qf paf (kernel_chi2 P amps' dan dar) (kernel_derivs P nb dan dar) nb sc in
  exists v g, eval z = Some (v, g) /\ List.length g = List.length z /\
    forall i, (i < List.length z)%nat ->
      exists f, (forall t, option_map fst (eval (upd i t z)) = Some (f t)) /\
                f (nth i z 0) = v /\ derivable_pt_lim f (nth i z 0) (nth i g 0).
Proof.
  intros P nb amps' dan dar k sampling lpr lprg qf paf sc z amps Hg Hne Hnb HLz Hs HnP Hpr Hsm eval.
  apply C18_fast_posterior_gradient; auto. intros ps Hps.
  assert (Hlen : forall b, (b < nb)%nat -> List.length ps = n_sources P).
  { intros b Hb. pose proof (sm_len _ _ _ _ _ _ (Hsm b ps Hb Hps)) as E. now rewrite map_length in E. }
  assert (Hmax : forall b, (b < nb)%nat -> (n_sources P <= MAXSOURCES)%nat).
  { intros b Hb. exact (sm_max _ _ _ _ _ _ (Hsm b ps Hb Hps)). }
  unfold kernel_derivs, evaluate_proposal. cbn [snd]. split.
  - split; [now rewrite map_length, seq_length|]. apply List.Forall_forall. intros D HD. apply in_map_iff in HD.
    destruct HD as (b & <- & Hb). apply in_seq in Hb. pose proof (Hmax b ltac:(lia)) as Hm.
    destruct (evaluate_closed P b (prop_sources dan dar ps) Hm) as (HL & _).
    destruct (chunk_rows_shape (n_sources P) _ Hm HL) as (C1 & C2 & _). rewrite C1, HnP. auto.
  - intros b s p Hb Hs' Hp. set (rows := map (kernel_row b) ps).
    pose proof (Hmax b Hb) as Hm.
    set (cb := fun b => chunk_rows (n_sources P) (snd (EvaluateProposal P b (prop_sources dan dar ps)))).
    rewrite nth_indep with (d' := cb 0%nat) by (rewrite map_length, seq_length; lia).
    rewrite (map_nth cb), seq_nth by auto. unfold cb. simpl plus.
    destruct (evaluate_closed P b (prop_sources dan dar ps) Hm) as (HL & _).
    destruct (chunk_rows_shape (n_sources P) _ Hm HL) as (_ & _ & C3). rewrite C3 by lia.
    rewrite (kernel_rows P b amps' dan dar ps (Hlen b Hb)) by (intros q Hq; eapply proposal_amplitudes; eauto).
    unfold kernel_chi2. apply (C21_kernel_gradient P b amps dan dar rows (Hsm b ps Hb Hps)); lia.
Qed.
Print Assumptions C21_posterior_gradient.
