(** Property C23: the compiled kernel against the reference renderer. *)
From Verif Require Import Np NpFacts KernelModel KernelFacts KernelJac KernelSum KernelProps SlowModel.
From Coq Require Import Reals Lra Permutation.
Open Scope R_scope.

(** ** Same inputs *)
(** The kernel's PSF Gaussians of an exposure: one per (radius bin, PSF Gaussian). *)
Definition psf_bins (nradii : nat) (psf : slow_psf) : list PSFGaussian :=
  flat_map (fun i => map (fun p => match p with (al, (mx, my), c) => mkPSF al mx my (v11 c) (v22 c) (v12 c) i end) psf) (seq 0 nradii).
(** Source [g] of exposure [e] in patch [P] and [galaxy], against [s] on stamp [st]. *)
Record same_inputs (P : Patch) (b e g : nat) (galaxy : KSource) (s : slow_source) (st : stamp) : Prop := {
  si_ra : k_ra galaxy = ss_ra s; si_dec : k_dec galaxy = ss_dec s; si_q : k_q galaxy = ss_q s; si_pa : k_pa galaxy = ss_pa s;
  si_flux : k_fluxes galaxy b = ss_flux s;
  si_G : P_G P e = photocounts st;
  si_D : m_read (P_D P) (4 * (n_sources P * e + g)) = scale st;
  si_CW : m_read (P_CW P) (4 * (n_sources P * e + g)) = dpix_dsky st;
  si_crpix : (P_crpix P (2 * (n_sources P * e + g)), P_crpix P (2 * (n_sources P * e + g) + 1)) = st_crpix st;
  si_crval : (P_crval P (2 * (n_sources P * e + g)), P_crval P (2 * (n_sources P * e + g) + 1)) = st_crval st;
  si_len : List.length (ss_amplitudes s) = List.length (ss_radii s) /\ List.length (ss_da_dsersic s) = List.length (ss_radii s) /\
           List.length (ss_da_drh s) = List.length (ss_radii s);
  si_bins : forall i, (i < List.length (ss_radii s))%nat ->
     rad2 P i = nth i (ss_radii s) 0 ^ 2 /\ mixture_amplitudes galaxy i = nth i (ss_amplitudes s) 0 /\
     damplitude_dnsersic galaxy i = nth i (ss_da_dsersic s) 0 /\ damplitude_drh galaxy i = nth i (ss_da_drh s) 0;
  si_sym : forall al m c, In (al, m, c) (st_psf st) -> v12 c = v21 c;
  si_psf : Permutation (map (fun p => psfgauss P (psfgauss_start P e + p)) (seq 0 (n_psf_per_source P b)))
                       (psf_bins (List.length (ss_radii s)) (st_psf st)) }.

(** The reference Gaussian number (i, j). *)
Definition beyond_cutoff (xp yp : R) (g : SlowGaussian) : Prop :=
  MAX_EXP_ARG < g_fxx g * (xp - g_xcen g) ^ 2 + g_fyy g * (yp - g_ycen g) ^ 2 + 2 * g_fxy g * (xp - g_xcen g) * (yp - g_ycen g).

(** ** One Gaussian *)
Definition same_gauss (f : ImageGaussian) (g : SlowGaussian) : Prop :=
  amp f = g_amp g /\ xcen f = g_xcen g /\ ycen f = g_ycen g /\ fxx f = g_fxx g /\ fyy f = g_fyy g /\ fxy f = g_fxy g.

Lemma dot_dot_mul a b c : dot_dot a b c = m_mul (m_mul a b) c.
Proof. reflexivity. Qed.
Lemma covar_same T r : matmul_matmul T (covariance r) (transpose T) = m_smul (r ^ 2) (m_AAt T).
Proof. unfold matmul_matmul, dot2, covariance, transpose, m_smul, m_AAt. cbn [v11 v12 v21 v22]. f_equal; ring. Qed.
Lemma covar_same' T r : dot_dot T (covariance r) (transpose T) = m_smul (r ^ 2) (m_AAt T).
Proof. unfold dot_dot, covariance, transpose, m_smul, m_AAt. cbn [v11 v12 v21 v22]. f_equal; ring. Qed.
Lemma inv_same a : fast_inv a = m_inv a.
Proof.
  unfold fast_inv, m_inv, m_det. cbn [v11 v12 v21 v22]. rewrite (Rmult_comm (v21 a) (v12 a)). unfold Rdiv. rewrite Rmult_1_l. reflexivity.
Qed.
Lemma det_same a : fast_det a = m_det a.
Proof. unfold fast_det, m_det. ring. Qed.
Lemma dsigma_same T U r : mplus (dot_dot T (covariance r) (transpose U)) (dot_dot U (covariance r) (transpose T)) = m_smul (r ^ 2) (m_symABt T U).
Proof. unfold mplus, dot_dot, covariance, transpose, m_smul, m_symABt. cbn [v11 v12 v21 v22]. f_equal; ring. Qed.
Lemma aba_same F S : mneg (dot_dot F S F) = m_smul (- 1) (m_ABA F S).
Proof. unfold mneg, dot_dot, m_smul, m_ABA. cbn [v11 v12 v21 v22]. f_equal; ring. Qed.

Ltac list_eq := repeat match goal with
  | |- @eq (list _) (_ :: _) (_ :: _) => apply f_equal2
  | |- @eq (list _) [] [] => reflexivity
  end.
Section One.
Context (P : Patch) (b e g : nat) (galaxy : KSource) (s : slow_source) (st : stamp) (HI : same_inputs P b e g galaxy s st).
Context (i : nat) (Hi : (i < List.length (ss_radii s))%nat) (al mx my : R) (c : matrix22) (Hp : In (al, (mx, my), c) (st_psf st)).
Let psf := mkPSF al mx my (v11 c) (v22 c) (v12 c) i.
Let fast := GetGaussianAndJacobian (pix_gaussian P b e g galaxy psf) psf.
Let r := nth i (ss_radii s) 0.
Let am := nth i (ss_amplitudes s) 0.
Let slow := slow_gaussian s st r am (al, (mx, my), c).

Lemma setup_same : source_setup P e g galaxy =
  (let CW := dpix_dsky st in let dra := ss_ra s - fst (st_crval st) in let ddec := ss_dec s - snd (st_crval st) in
   (v11 CW * dra + v12 CW * ddec + fst (st_crpix st), v21 CW * dra + v22 CW * ddec + snd (st_crpix st), CW, slow_T s st,
    dot_dot (scale st) (rotation_matrix (ss_pa s)) (scale_matrix_deriv (ss_q s)),
    dot_dot (scale st) (rotation_matrix_deriv (ss_pa s)) (scale_matrix (ss_q s)))).
Proof.
  destruct HI. unfold source_setup. cbv zeta. rewrite si_D0, si_CW0, si_ra0, si_dec0, si_q0, si_pa0.
  rewrite <- si_crpix0, <- si_crval0. cbn [fst snd]. unfold m_Av. cbn [fst snd]. unfold slow_T. rewrite !dot_dot_mul.
  assert (E : scale_matrix_deriv (ss_q s) = m_scale_deriv (ss_q s)).
  { unfold scale_matrix_deriv, m_scale_deriv. f_equal. f_equal. ring. }
  rewrite E. reflexivity.
Qed.

Lemma covar_total : let T := slow_T s st in
  mplus (matmul_matmul T (covariance r) (transpose T)) c = m_add (m_smul (r ^ 2) (m_AAt T)) (M22 (v11 c) (v12 c) (v12 c) (v22 c)).
Proof.
  intros T. rewrite covar_same. destruct HI. pose proof (si_sym0 _ _ _ Hp) as Hs. unfold mplus, m_add. cbn [v11 v12 v21 v22]. now rewrite <- Hs.
Qed.

Lemma one_same : same_gauss fast slow.
Proof.
  pose proof setup_same as HS. pose proof covar_total as HC. cbv zeta in HS, HC.
  unfold fast, pix_gaussian. rewrite HS. clear HS. destruct HI. destruct (si_bins0 i Hi) as (B1 & B2 & B3 & B4).
  unfold psf. cbn [sersic_radius_bin]. rewrite B1, B2, B3, B4, si_flux0, si_G0. fold r am.
  unfold slow, slow_gaussian. cbv zeta. rewrite HC. rewrite inv_same, det_same.
  unfold GetGaussianAndJacobian, same_gauss. cbv zeta.
  cbn [amp xcen ycen fxx fyy fxy g_amp g_xcen g_ycen g_fxx g_fyy g_fxy s_covar s_T s_G s_flux s_amp s_xcen s_ycen p_Cxx p_Cxy p_Cyy p_amp p_xcen p_ycen fst snd].
  split; [|auto 10]. unfold Rdiv. ring.
Qed.

Lemma slow_counts xp yp g' : same_gauss g' slow -> 
  fst (compute_gaussian slow xp yp) = count xp yp (amp g') (xcen g') (ycen g') (fxx g') (fyy g') (fxy g') /\
  (beyond_cutoff xp yp slow <-> MAX_EXP_ARG < exparg xp yp g').
Proof.
  intros (E1 & E2 & E3 & E4 & E5 & E6). split.
  - unfold compute_gaussian, count, quad. cbv zeta. cbn [fst]. rewrite <- E1, <- E2, <- E3, <- E4, <- E5, <- E6. ring.
  - unfold beyond_cutoff, exparg, quad. rewrite E2, E3, E4, E5, E6.
    match goal with |- _ < ?a <-> _ < ?b => replace a with b by ring end. reflexivity.
Qed.

(** The 7 x 6 Jacobian of the reference renderer holds the kernel's Jacobian. *)
Lemma jacobian_same : ss_flux s <> 0 -> am <> 0 -> m_det (total_covar (r ^ 2) (slow_T s st) psf) <> 0 ->
  slow_jacobian s st r am (nth i (ss_da_dsersic s) 0) (nth i (ss_da_drh s) 0) (al, (mx, my), c) =
  [[dA_dFlux fast; 0; 0; 0; 0; 0];
   [0; dx_dAlpha fast; dy_dAlpha fast; 0; 0; 0];
   [0; dx_dDelta fast; dy_dDelta fast; 0; 0; 0];
   [dA_dQ fast; 0; 0; dFxx_dQ fast; dFyy_dQ fast; dFxy_dQ fast];
   [dA_dPA fast; 0; 0; dFxx_dPA fast; dFyy_dPA fast; dFxy_dPA fast];
   [dA_dSersic fast; 0; 0; 0; 0; 0];
   [dA_drh fast; 0; 0; 0; 0; 0]].
Proof.
  intros Hf Ha Hd. pose proof setup_same as HS. pose proof covar_total as HC. cbv zeta in HS, HC.
  unfold fast, pix_gaussian. rewrite HS. clear HS. destruct HI. destruct (si_bins0 i Hi) as (B1 & B2 & B3 & B4).
  unfold psf in *. cbn [sersic_radius_bin]. rewrite B1, B2, B3, B4, si_flux0, si_G0. fold r am.
  unfold slow_jacobian. cbv zeta. fold (slow_T s st). rewrite covar_same', <- (covar_same (slow_T s st) r), HC.
  rewrite !dsigma_same, !aba_same, inv_same, det_same.
  unfold GetGaussianAndJacobian. cbv zeta.
  cbn [s_covar s_T s_G s_flux s_amp s_dT_dq s_dT_dpa s_CW s_da_dn s_da_dr p_Cxx p_Cxy p_Cyy p_amp
       dA_dFlux dx_dAlpha dy_dAlpha dx_dDelta dy_dDelta dA_dQ dFxx_dQ dFyy_dQ dFxy_dQ dA_dPA dFxx_dPA dFyy_dPA dFxy_dPA dA_dSersic dA_drh].
  unfold total_covar in Hd. cbn [p_Cxx p_Cxy p_Cyy] in Hd.
  set (Sig := m_add (m_smul (r ^ 2) (m_AAt (slow_T s st))) (M22 (v11 c) (v12 c) (v12 c) (v22 c))) in *.
  assert (HdF : m_det (m_inv Sig) <> 0).
  { assert (E : m_det (m_inv Sig) = / m_det Sig).
    { unfold m_inv, m_det at 1. cbn [v11 v12 v21 v22]. field_simplify; auto. unfold m_det. field. exact Hd. }
    rewrite E. now apply Rinv_neq_0_compat. }
  set (F := m_inv Sig) in *. generalize dependent (m_det F). intros dF HdF.
  assert (HPI : PI <> 0) by apply PI_neq0.
  set (X := m_smul (-1) (m_ABA F (m_smul (r ^ 2) (m_symABt (slow_T s st) (dot_dot (scale st) (rotation_matrix (ss_pa s)) (scale_matrix_deriv (ss_q s))))))).
  set (Y := m_smul (-1) (m_ABA F (m_smul (r ^ 2) (m_symABt (slow_T s st) (dot_dot (scale st) (rotation_matrix_deriv (ss_pa s)) (scale_matrix (ss_q s))))))).
  change (fast_trace (dot2 Sig X)) with (m_trace (m_mul Sig X)). change (fast_trace (dot2 Sig Y)) with (m_trace (m_mul Sig Y)).
  generalize (m_trace (m_mul Sig X)) (m_trace (m_mul Sig Y)). intros tx ty. generalize (sqrt dF). intros sq.
  list_eq; try reflexivity; field; auto.
Qed.

(** The seven gradients at a pixel inside the cutoff. *)
Lemma gradient_same xp yp : ss_flux s <> 0 -> am <> 0 -> m_det (total_covar (r ^ 2) (slow_T s st) psf) <> 0 ->
  g_amp slow <> 0 -> 1 + ((g_fxx slow * (xp - g_xcen slow) + g_fxy slow * (yp - g_ycen slow)) * (g_fxx slow * (xp - g_xcen slow) + g_fxy slow * (yp - g_ycen slow)) + (g_fyy slow * (yp - g_ycen slow) + g_fxy slow * (xp - g_xcen slow)) * (g_fyy slow * (yp - g_ycen slow) + g_fxy slow * (xp - g_xcen slow)) - g_fxx slow - g_fyy slow) / 24 <> 0 ->
  ~ beyond_cutoff xp yp slow ->
  matvec (slow_jacobian s st r am (nth i (ss_da_dsersic s) 0) (nth i (ss_da_drh s) 0) (al, (mx, my), c)) (snd (compute_gaussian slow xp yp)) =
  derivative_row xp yp (- (1/2)) fast.
Proof.
  intros Hf Ha Hd Hamp HH Hc. rewrite jacobian_same by auto. pose proof one_same as HS. pose proof HS as (E1 & E2 & E3 & E4 & E5 & E6).
  destruct (slow_counts xp yp fast HS) as [_ HB]. assert (Hle : exparg xp yp fast <= MAX_EXP_ARG).
  { destruct (Rle_lt_dec (exparg xp yp fast) MAX_EXP_ARG); auto. exfalso. apply Hc, HB. auto. }
  unfold derivative_row. rewrite pixel_derivs_in by auto. cbv zeta. unfold compute_gaussian. cbv zeta. cbn [snd].
  unfold exparg, quad. rewrite <- E1, <- E2, <- E3, <- E4, <- E5, <- E6 in *.
  generalize dependent (xp - xcen fast). intros dx HH. generalize dependent (yp - ycen fast). intros dy HH.
  set (vx := fxx fast * dx + fxy fast * dy) in *. set (vy := fyy fast * dy + fxy fast * dx) in *.
  generalize (exp (- (1/2) * (dx * vx + dy * vy))). intros Gp.
  assert (EH : 1 + (vx * vx + vy * vy - fxx fast - fyy fast) * (1 / 24) = 1 + (vx * vx + vy * vy - fxx fast - fyy fast) / 24) by field.
  rewrite EH. set (H := 1 + (vx * vx + vy * vy - fxx fast - fyy fast) / 24) in *. clearbody H. clear EH.
  unfold matvec. cbn [map combine fold_right fst snd].
  assert (HA : amp fast <> 0) by exact Hamp. set (A := amp fast) in *. clearbody A.
  assert (EA : A * Gp * H * 1 / A = Gp * H) by (field; auto). assert (EC : A * Gp * H * 1 / H = A * Gp) by (field; auto).
  rewrite EA, EC. list_eq; field.
Qed.
End One.

(** ** The whole source *)
Definition psf_of (i : nat) (p : R * (R * R) * matrix22) : PSFGaussian :=
  match p with (al, (mx, my), c) => mkPSF al mx my (v11 c) (v22 c) (v12 c) i end.
Definition index_pairs (s : slow_source) (st : stamp) : list (nat * (R * (R * R) * matrix22)) :=
  flat_map (fun i => map (fun p => (i, p)) (st_psf st)) (seq 0 (List.length (ss_radii s))).
Definition slow_at (s : slow_source) (st : stamp) (ip : nat * (R * (R * R) * matrix22)) : SlowGaussian :=
  let i := fst ip in
  let g := slow_gaussian s st (nth i (ss_radii s) 0) (nth i (ss_amplitudes s) 0) (snd ip) in
  mkSG (g_amp g) (g_xcen g) (g_ycen g) (g_fxx g) (g_fxy g) (g_fyy g)
    (slow_jacobian s st (nth i (ss_radii s) 0) (nth i (ss_amplitudes s) 0) (nth i (ss_da_dsersic s) 0) (nth i (ss_da_drh s) 0) (snd ip)).

Lemma flat_map_map {A B C} (f : B -> C) (g : A -> list B) l : map f (flat_map g l) = flat_map (fun a => map f (g a)) l.
Proof. induction l as [|a l IH]; simpl; auto. now rewrite map_app, IH. Qed.
Lemma flat_map_ext' {A B} (f g : A -> list B) l : (forall a, In a l -> f a = g a) -> flat_map f l = flat_map g l.
Proof. induction l as [|a l IH]; simpl; intros H; auto. rewrite H, IH by auto. reflexivity. Qed.

Lemma components_seq (r a n h : list R) : List.length a = List.length r -> List.length n = List.length r -> List.length h = List.length r ->
  combine (combine (combine r a) n) h = map (fun i => (nth i r 0, nth i a 0, nth i n 0, nth i h 0)) (seq 0 (List.length r)).
Proof.
  revert a n h. induction r as [|x r IH]; intros [|y a] [|z n] [|w h] H1 H2 H3; simpl in *; try discriminate; auto.
  f_equal. rewrite IH by lia. rewrite <- seq_shift, map_map. reflexivity.
Qed.
Lemma convert_pairs P b e g galaxy s st : same_inputs P b e g galaxy s st ->
  convert_to_gaussians s st = map (slow_at s st) (index_pairs s st).
Proof.
  intros HI. destruct (si_len _ _ _ _ _ _ _ HI) as (L1 & L2 & L3). unfold convert_to_gaussians, slow_components.
  rewrite components_seq by auto. unfold index_pairs. rewrite flat_map_map, !flat_map_concat_map, map_map. f_equal.
  apply map_ext. intros i. rewrite map_map. reflexivity.
Qed.
Lemma bins_pairs s st : psf_bins (List.length (ss_radii s)) (st_psf st) = map (fun ip => psf_of (fst ip) (snd ip)) (index_pairs s st).
Proof.
  unfold psf_bins, index_pairs. rewrite flat_map_map, !flat_map_concat_map. f_equal. apply map_ext. intros i. now rewrite map_map.
Qed.
Lemma pairs_in s st ip : In ip (index_pairs s st) -> (fst ip < List.length (ss_radii s))%nat /\ In (snd ip) (st_psf st).
Proof.
  unfold index_pairs. rewrite in_flat_map. intros (i & Hi & H). apply in_map_iff in H as (p & <- & Hp). apply in_seq in Hi. simpl. split; auto. lia.
Qed.

Lemma gig_closed gs xp yp : List.Forall (fun g => List.length (derivs g) = 7%nat) gs ->
  fst (compute_gig gs xp yp) = sumR (fun g => fst (compute_gaussian g xp yp)) gs /\
  List.length (snd (compute_gig gs xp yp)) = 7%nat /\
  forall j, (j < 7)%nat -> nth j (snd (compute_gig gs xp yp)) 0 = sumR (fun g => nth j (matvec (derivs g) (snd (compute_gaussian g xp yp))) 0) gs.
Proof.
  intros HF. unfold compute_gig.
  set (F := fun (acc : R * list R) g => let out := compute_gaussian g xp yp in (fst acc + fst out, row_add (snd acc) (matvec (derivs g) (snd out)))).
  assert (K : forall gs acc, List.Forall (fun g => List.length (derivs g) = 7%nat) gs -> List.length (snd acc) = 7%nat ->
    let res := fold_left F gs acc in
    fst res = fst acc + sumR (fun g => fst (compute_gaussian g xp yp)) gs /\ List.length (snd res) = 7%nat /\
    forall j, (j < 7)%nat -> nth j (snd res) 0 = nth j (snd acc) 0 + sumR (fun g => nth j (matvec (derivs g) (snd (compute_gaussian g xp yp))) 0) gs).
  { clear gs HF. induction gs as [|g gs IH]; intros acc HF HL.
    - cbn [fold_left]. unfold sumR. simpl. split; [ring|]. split; auto. intros. ring.
    - pose proof (List.Forall_inv HF) as Hg. pose proof (List.Forall_inv_tail HF) as Hgs.
      set (acc' := (fst acc + fst (compute_gaussian g xp yp), row_add (snd acc) (matvec (derivs g) (snd (compute_gaussian g xp yp))))).
      assert (HM : List.length (matvec (derivs g) (snd (compute_gaussian g xp yp))) = 7%nat) by (unfold matvec; now rewrite map_length).
      assert (HL' : List.length (snd acc') = 7%nat).
      { unfold acc'. cbn [snd]. unfold row_add. rewrite map_length, combine_length, HL, HM. reflexivity. }
      change (fold_left F (g :: gs) acc) with (fold_left F gs acc').
      destruct (IH acc' Hgs HL') as (I1 & I2 & I3). cbv zeta. split; [|split; auto].
      + rewrite I1, sumR_cons. unfold acc'. cbn [fst]. ring.
      + intros j Hj. rewrite I3 by auto. rewrite sumR_cons. unfold acc'. cbn [snd].
        assert (E : nth j (row_add (snd acc) (matvec (derivs g) (snd (compute_gaussian g xp yp)))) 0 =
          nth j (snd acc) 0 + nth j (matvec (derivs g) (snd (compute_gaussian g xp yp))) 0).
        { unfold row_add. set (f := fun p : R * R => fst p + snd p).
          rewrite nth_indep with (d' := f (0, 0)) by (rewrite map_length, combine_length, HL, HM; simpl; lia).
          rewrite map_nth, combine_nth by congruence. reflexivity. }
        rewrite E. ring. }
  destruct (K gs (0, repeat 0 7) HF eq_refl) as (K1 & K2 & K3). split; [rewrite K1; simpl; ring|]. split; auto.
  intros j Hj. rewrite K3 by auto. cbn [snd]. rewrite nth_repeat. ring.
Qed.
Lemma slow_derivs_len s st ip : List.length (derivs (slow_at s st ip)) = 7%nat.
Proof. unfold slow_at. cbn [derivs]. unfold slow_jacobian. destruct (snd ip) as [[al m] c]. reflexivity. Qed.

Section Whole.
Context (P : Patch) (b e g : nat) (galaxy : KSource) (s : slow_source) (st : stamp) (HI : same_inputs P b e g galaxy s st).
Definition fast_of (ip : nat * (R * (R * R) * matrix22)) : ImageGaussian :=
  let psf := psf_of (fst ip) (snd ip) in GetGaussianAndJacobian (pix_gaussian P b e g galaxy psf) psf.
Definition fast_gaussians : list ImageGaussian := ConvolveOneSource P b e g (n_psf_per_source P b) galaxy.
Lemma fast_perm : Permutation fast_gaussians (map fast_of (index_pairs s st)).
Proof.
  pose proof (si_psf _ _ _ _ _ _ _ HI) as Hp. rewrite bins_pairs in Hp.
  apply (Permutation_map (fun psf => GetGaussianAndJacobian (pix_gaussian P b e g galaxy psf) psf)) in Hp.
  rewrite !map_map in Hp. exact Hp.
Qed.
Lemma pair_same ip : In ip (index_pairs s st) -> same_gauss (fast_of ip) (slow_at s st ip).
Proof.
  intros H. destruct (pairs_in s st ip H) as [H1 H2]. destruct ip as [i [[al [mx my]] c]].
  exact (one_same P b e g galaxy s st HI i H1 al mx my c H2).
Qed.
End Whole.

(** ** C23 *)
(** Reference counts minus kernel counts is the sum of the reference terms beyond
    the exponent cutoff. *)
Theorem C23_same_image : forall P b e g galaxy s st, same_inputs P b e g galaxy s st -> forall xp yp,
  fst (slow_render s st xp yp) =
  rendered xp yp (ConvolveOneSource P b e g (n_psf_per_source P b) galaxy) +
  fold_right Rplus 0 (map (fun gs => if Rlt_dec MAX_EXP_ARG (g_fxx gs * (xp - g_xcen gs) ^ 2 + g_fyy gs * (yp - g_ycen gs) ^ 2 + 2 * g_fxy gs * (xp - g_xcen gs) * (yp - g_ycen gs))
                                     then fst (compute_gaussian gs xp yp) else 0) (convert_to_gaussians s st)).
Proof.
  intros P b e g galaxy s st HI xp yp. unfold slow_render. rewrite (convert_pairs _ _ _ _ _ _ _ HI).
  assert (HF : List.Forall (fun gs => List.length (derivs gs) = 7%nat) (map (slow_at s st) (index_pairs s st))).
  { apply List.Forall_forall. intros gs Hgs. apply in_map_iff in Hgs as (ip & <- & _). apply slow_derivs_len. }
  destruct (gig_closed _ xp yp HF) as (E & _). rewrite E, sumR_map.
  unfold rendered. rewrite residual_closed. fold (fast_gaussians P b e g galaxy). rewrite (sumR_perm _ _ _ (fast_perm P b e g galaxy s st HI)), sumR_map.
  rewrite Rminus_0_l, Ropp_involutive.
  assert (FS : forall (A : Type) (f : A -> R) l, fold_right Rplus 0 (map f l) = sumR f l).
  { intros A f l. induction l as [|x l IH]; auto. simpl. rewrite IH. reflexivity. }
  rewrite FS, sumR_map, <- sumR_plus. apply sumR_ext. intros ip Hip.
  pose proof (pair_same P b e g galaxy s st HI ip Hip) as HS.
  pose proof HS as (E1 & E2 & E3 & E4 & E5 & E6).
  assert (EC : fst (compute_gaussian (slow_at s st ip) xp yp) =
     count xp yp (amp (fast_of P b e g galaxy ip)) (xcen (fast_of P b e g galaxy ip)) (ycen (fast_of P b e g galaxy ip))
       (fxx (fast_of P b e g galaxy ip)) (fyy (fast_of P b e g galaxy ip)) (fxy (fast_of P b e g galaxy ip))).
  { unfold compute_gaussian, count, quad. cbv zeta. cbn [fst]. rewrite <- E1, <- E2, <- E3, <- E4, <- E5, <- E6. ring. }
  set (arg := g_fxx _ * _ + _ + _).
  assert (EA : arg = exparg xp yp (fast_of P b e g galaxy ip)).
  { unfold arg, exparg, quad. rewrite E2, E3, E4, E5, E6. ring. }
  destruct (Rlt_dec MAX_EXP_ARG arg) as [Hlt|Hlt].
  - rewrite residual_term_out by lra. ring.
  - rewrite residual_term_in by lra. rewrite EC. ring.
Qed.
Print Assumptions C23_same_image.

(** A dropped term is small: below amp * exp(-18) times its pixel correction. *)
Theorem C23_dropped_term : forall gs xp yp, beyond_cutoff xp yp gs ->
  Rabs (fst (compute_gaussian gs xp yp)) <=
  exp (-18) * Rabs (g_amp gs * (1 + ((g_fxx gs * (xp - g_xcen gs) + g_fxy gs * (yp - g_ycen gs)) ^ 2 +
                                     (g_fyy gs * (yp - g_ycen gs) + g_fxy gs * (xp - g_xcen gs)) ^ 2 - g_fxx gs - g_fyy gs) / 24)).
Proof.
  intros gs xp yp H. unfold beyond_cutoff, MAX_EXP_ARG in H. unfold compute_gaussian. cbv zeta. cbn [fst].
  set (d := (xp - g_xcen gs) * _ + (yp - g_ycen gs) * _). assert (Hd : 36 < d) by (unfold d; lra). clearbody d.
  set (v1 := g_fxx gs * (xp - g_xcen gs) + g_fxy gs * (yp - g_ycen gs)). set (v2 := g_fyy gs * (yp - g_ycen gs) + g_fxy gs * (xp - g_xcen gs)).
  replace (g_amp gs * exp (- (1/2) * d) * (1 + (v1 * v1 + v2 * v2 - g_fxx gs - g_fyy gs) / 24) * 1)
    with (exp (- (1/2) * d) * (g_amp gs * (1 + (v1 ^ 2 + v2 ^ 2 - g_fxx gs - g_fyy gs) / 24))) by field.
  rewrite Rabs_mult, (Rabs_right (exp _)) by (left; apply exp_pos). apply Rmult_le_compat_r; [apply Rabs_pos|].
  left. apply exp_increasing. lra.
Qed.
Print Assumptions C23_dropped_term.

(** Where no term is dropped and nothing is divided by zero, the seven gradients
    of the reference image are the kernel's derivative sums. *)
Theorem C23_same_gradient : forall P b e g galaxy s st, same_inputs P b e g galaxy s st -> forall xp yp,
  ss_flux s <> 0 -> (forall a, In a (ss_amplitudes s) -> a <> 0) ->
  (forall p, (p < n_psf_per_source P b)%nat -> psf_pd (psfgauss P (psfgauss_start P e + p))) ->
  (forall gs, In gs (convert_to_gaussians s st) -> ~ beyond_cutoff xp yp gs /\ g_amp gs <> 0 /\
     1 + ((g_fxx gs * (xp - g_xcen gs) + g_fxy gs * (yp - g_ycen gs)) ^ 2 +
          (g_fyy gs * (yp - g_ycen gs) + g_fxy gs * (xp - g_xcen gs)) ^ 2 - g_fxx gs - g_fyy gs) / 24 <> 0) ->
  snd (slow_render s st xp yp) = ComputeGaussianDerivative xp yp (- (1/2)) (ConvolveOneSource P b e g (n_psf_per_source P b) galaxy) (repeat 0 NPARAMS).
Proof.
  intros P b e g galaxy s st HI xp yp Hf Ha Hpd Hgs. unfold slow_render. rewrite (convert_pairs _ _ _ _ _ _ _ HI) in *.
  assert (HF : List.Forall (fun gs => List.length (derivs gs) = 7%nat) (map (slow_at s st) (index_pairs s st))).
  { apply List.Forall_forall. intros gs H. apply in_map_iff in H as (ip & <- & _). apply slow_derivs_len. }
  destruct (gig_closed _ xp yp HF) as (_ & L & E).
  destruct (deriv_closed xp yp (- (1/2)) (ConvolveOneSource P b e g (n_psf_per_source P b) galaxy) (repeat 0 NPARAMS) eq_refl) as [L' E'].
  apply (nth_ext _ _ 0 0); [congruence|]. intros j Hj. rewrite L in Hj. rewrite E, E' by (unfold NPARAMS; auto).
  rewrite nth_repeat, Rplus_0_l, sumR_map. fold (fast_gaussians P b e g galaxy).
  rewrite (sumR_perm _ _ _ (fast_perm P b e g galaxy s st HI)), sumR_map. apply sumR_ext. intros ip Hip. f_equal.
  destruct (pairs_in s st ip Hip) as [H1 H2].
  destruct (Hgs (slow_at s st ip) ltac:(now apply in_map)) as (G1 & G2 & G3).
  assert (Hin : In (psf_of (fst ip) (snd ip)) (map (fun p => psfgauss P (psfgauss_start P e + p)) (seq 0 (n_psf_per_source P b)))).
  { eapply Permutation_in; [symmetry; apply (si_psf _ _ _ _ _ _ _ HI)|]. rewrite bins_pairs. apply in_map_iff. eauto. }
  apply in_map_iff in Hin as (p & Ep & Hp). apply in_seq in Hp. pose proof (Hpd p ltac:(lia)) as Hd. rewrite Ep in Hd.
  destruct ip as [i [[al [mx my]] c]]. cbn [fst snd psf_of] in *. unfold slow_at in *. cbn [fst snd derivs] in *.
  destruct (si_len _ _ _ _ _ _ _ HI) as (L1 & _).
  apply (gradient_same P b e g galaxy s st HI i H1 al mx my c H2 xp yp); auto.
  - apply Ha. apply nth_In. lia.
  - apply Rgt_not_eq. apply total_covar_det; auto. apply pow2_ge_0.
  - cbn [g_fxx g_fxy g_fyy g_xcen g_ycen] in G3. intros E0. apply G3. etransitivity; [|exact E0]. field.
Qed.
Print Assumptions C23_same_gradient.

(** PSFs given in 'arcsec' are not rendered by the reference code: the means are
    multiplied on the wrong side.  With other than two Gaussians it raises; with two
    the means are mixed up. *)
Theorem C23_arcsec_psf_refuted :
  (forall D means, List.length means <> 2%nat -> arcsec_means D means = None) /\
  exists D m0 m1 out, arcsec_means D [m0; m1] = Some out /\ out <> [m_Av D m0; m_Av D m1].
Proof.
  split.
  - intros D [|a [|b [|c l]]] H; simpl in *; auto; lia.
  - exists (M22 2 0 0 1), (0, 1), (1, 0). eexists. split; [reflexivity|]. unfold m_Av. cbn [v11 v12 v21 v22 fst snd].
    intros E. injection E. intros. lra.
Qed.
Print Assumptions C23_arcsec_psf_refuted.
