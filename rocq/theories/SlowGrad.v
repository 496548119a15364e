(** The gradients of the reference renderer are the derivatives of its image. *)
From Verif Require Import Np NpFacts KernelModel KernelFacts KernelJac KernelSum KernelProps SlowModel SlowProps.
From Coq Require Import Reals Lra Permutation.
From Coquelicot Require Import Coquelicot.
Open Scope R_scope.

(** The seven parameters of a source as a row: flux, ra, dec, q, pa, sersic, rhalf. *)
Definition src_row (radii : list R) (amps dan dar : R -> R -> list R) (row : list R) : slow_source :=
  let n := nth 5 row 0 in let r := nth 6 row 0 in
  mkSS (nth 1 row 0) (nth 2 row 0) (nth 3 row 0) (nth 4 row 0) (nth 0 row 0) radii (amps n r) (dan n r) (dar n r).

(** A patch with one exposure made of a stamp (to reuse the kernel's lemmas) *)
Definition patch_of (radii : list R) (st : stamp) : Patch :=
  mkPatch (fun _ => 0) (fun _ => 0) (fun _ => 0) (fun _ => 0) (fun _ => 0%nat) (fun _ => 0%nat) (fun _ => 0%nat) (fun _ => 0%nat)
    1 (fun i => nth i radii 0 ^ 2)
    (fun k => nth k [v11 (scale st); v12 (scale st); v21 (scale st); v22 (scale st)] 0)
    (fun k => nth k [fst (st_crpix st); snd (st_crpix st)] 0)
    (fun k => nth k [fst (st_crval st); snd (st_crval st)] 0)
    (fun k => nth k [v11 (dpix_dsky st); v12 (dpix_dsky st); v21 (dpix_dsky st); v22 (dpix_dsky st)] 0)
    (fun _ => photocounts st)
    (fun _ => List.length (psf_bins (List.length radii) (st_psf st)))
    (fun k => nth k (psf_bins (List.length radii) (st_psf st)) (mkPSF 0 0 0 0 0 0 0)) (fun _ => 0%nat).

Definition by_bin (f : R -> R -> list R) (n r : R) (i : nat) : R := nth i (f n r) 0.
(** Amplitude tables fit the radii. *)
Definition tables_fit (radii : list R) (amps dan dar : R -> R -> list R) : Prop :=
  forall n r, List.length (amps n r) = List.length radii /\ List.length (dan n r) = List.length radii /\ List.length (dar n r) = List.length radii.

Lemma map_nth_seq {A} (l : list A) d : map (fun k => nth (0 + k) l d) (seq 0 (List.length l)) = l.
Proof.
  apply nth_ext with (d := d) (d' := d); [now rewrite map_length, seq_length|]. intros k Hk. rewrite map_length, seq_length in Hk.
  rewrite nth_indep with (d' := nth (0 + 0) l d) by (rewrite map_length, seq_length; lia).
  rewrite (map_nth (fun k => nth (0 + k) l d) (seq 0 (List.length l)) 0%nat k), seq_nth by lia. reflexivity.
Qed.
Lemma same_patch radii amps dan dar row st : tables_fit radii amps dan dar ->
  (forall al m c, In (al, m, c) (st_psf st) -> v12 c = v21 c) ->
  same_inputs (patch_of radii st) 0 0 0 (ksource_of (by_bin amps) (by_bin dan) (by_bin dar) row) (src_row radii amps dan dar row) st.
Proof.
  intros HT Hs. destruct (HT (nth 5 row 0) (nth 6 row 0)) as (L1 & L2 & L3). constructor; try reflexivity.
  - simpl. now destruct (scale st).
  - simpl. now destruct (dpix_dsky st).
  - simpl. now destruct (st_crpix st).
  - simpl. now destruct (st_crval st).
  - cbn [src_row ss_amplitudes ss_radii ss_da_dsersic ss_da_drh]. auto.
  - intros i Hi. cbn [src_row ss_amplitudes ss_radii ss_da_dsersic ss_da_drh]. repeat split.
  - exact Hs.
  - cbn [patch_of psfgauss psfgauss_start n_psf_per_source src_row ss_radii]. rewrite map_nth_seq. apply Permutation_refl.
Qed.

(** The image derivative through the six parameters of a Gaussian *)
Section Derive.
Context (radii : list R) (amps dan dar : R -> R -> list R) (st : stamp).
Hypothesis HT : tables_fit radii amps dan dar.
Hypothesis Hsym : forall al m c, In (al, m, c) (st_psf st) -> v12 c = v21 c.
Let src := src_row radii amps dan dar.
Let P := patch_of radii st.
Let K row := ksource_of (by_bin amps) (by_bin dan) (by_bin dar) row.

(** A PSF Gaussian with positive definite covariance and non-zero amplitude *)
Definition proper_psf (g : R * (R * R) * matrix22) : Prop :=
  match g with (al, _, c) => al <> 0 /\ 0 < v11 c /\ 0 < v22 c /\ v12 c * v12 c < v11 c * v22 c end.
(** The second-order pixel correction of a Gaussian at a pixel *)
Definition correction (g : SlowGaussian) (xp yp : R) : R :=
  1 + ((g_fxx g * (xp - g_xcen g) + g_fxy g * (yp - g_ycen g)) ^ 2 +
       (g_fyy g * (yp - g_ycen g) + g_fxy g * (xp - g_xcen g)) ^ 2 - g_fxx g - g_fyy g) / 24.

Lemma one_derive row p ip xp yp : List.length row = 7%nat -> (p < 7)%nat ->
  In ip (index_pairs (src row) st) -> proper_psf (snd ip) ->
  nth 0 row 0 <> 0 -> nth 3 row 0 <> 0 -> photocounts st <> 0 ->
  nth (fst ip) (amps (nth 5 row 0) (nth 6 row 0)) 0 <> 0 ->
  spline_ok (by_bin amps) (by_bin dan) (by_bin dar) (nth 5 row 0) (nth 6 row 0) (fst ip) ->
  correction (slow_at (src row) st ip) xp yp <> 0 ->
  is_derive (fun t => fst (compute_gaussian (slow_at (src (upd p t row)) st ip) xp yp)) (nth p row 0)
    (nth p (matvec (derivs (slow_at (src row) st ip)) (snd (compute_gaussian (slow_at (src row) st ip) xp yp))) 0).
Proof.
  intros HL Hp Hip Hpsf Hfl Hq HG Ham Hsp HH.
  pose (psf := psf_of (fst ip) (snd ip)).
  assert (Hpd : psf_pd psf).
  { unfold psf, psf_of, psf_pd. destruct (snd ip) as [[al [mx my]] c]. destruct Hpsf as (_ & H1 & H2 & H3). simpl. auto. }
  assert (Hbin : sersic_radius_bin psf = fst ip) by (unfold psf, psf_of; destruct (snd ip) as [[al [mx my]] c]; reflexivity).
  assert (Hr2 : 0 <= rad2 P (sersic_radius_bin psf)) by (unfold P, patch_of; simpl; nra).
  pose proof (gaussian_tangent P 0 0 0 psf (by_bin amps) (by_bin dan) (by_bin dar) row p HL Hp Hq Hr2 Hpd ltac:(now rewrite Hbin)) as Tan.
  set (G := fun t => source_gaussian P 0 0 0 psf (by_bin amps) (by_bin dan) (by_bin dar) (upd p t row)) in *.
  assert (Hup : upd p (nth p row 0) row = row).
  { apply nth_error_ext. intros k. rewrite nth_error_upd. destruct (Nat.eqb_spec p k) as [<-|]; auto.
    destruct (Nat.ltb_spec p (List.length row)); [|lia]. symmetry. now apply nth_error_nth'. }
  assert (HG0 : G (nth p row 0) = source_gaussian P 0 0 0 psf (by_bin amps) (by_bin dan) (by_bin dar) row) by (unfold G; now rewrite Hup).
  assert (Sm : forall t, same_gauss (G t) (slow_at (src (upd p t row)) st ip)).
  { intros t. assert (Hip' : In ip (index_pairs (src (upd p t row)) st)) by exact Hip.
    exact (pair_same P 0 0 0 (K (upd p t row)) (src (upd p t row)) st (same_patch radii amps dan dar (upd p t row) st HT Hsym) ip Hip'). }
  assert (Ct : forall t, fst (compute_gaussian (slow_at (src (upd p t row)) st ip) xp yp) =
     count xp yp (amp (G t)) (xcen (G t)) (ycen (G t)) (fxx (G t)) (fyy (G t)) (fxy (G t))).
  { intros t. destruct (Sm t) as (E1 & E2 & E3 & E4 & E5 & E6). unfold compute_gaussian, count, quad. cbv zeta. cbn [fst].
    rewrite <- E1, <- E2, <- E3, <- E4, <- E5, <- E6. ring. }
  apply (is_derive_ext (fun t => count xp yp (amp (G t)) (xcen (G t)) (ycen (G t)) (fxx (G t)) (fyy (G t)) (fxy (G t)))).
  { intros t. symmetry. apply Ct. }
  assert (J : derivs (slow_at (src row) st ip) =
    let g := G (nth p row 0) in
    [[dA_dFlux g; 0; 0; 0; 0; 0]; [0; dx_dAlpha g; dy_dAlpha g; 0; 0; 0]; [0; dx_dDelta g; dy_dDelta g; 0; 0; 0];
     [dA_dQ g; 0; 0; dFxx_dQ g; dFyy_dQ g; dFxy_dQ g]; [dA_dPA g; 0; 0; dFxx_dPA g; dFyy_dPA g; dFxy_dPA g];
     [dA_dSersic g; 0; 0; 0; 0; 0]; [dA_drh g; 0; 0; 0; 0; 0]]).
  { cbv zeta. rewrite HG0. unfold psf in *. destruct (pairs_in _ _ _ Hip) as [H1 H2]. destruct ip as [i [[al [mx my]] c]]. cbn [fst snd psf_of] in *.
    unfold slow_at. cbn [fst snd derivs].
    refine (jacobian_same P 0 0 0 (K row) (src row) st (same_patch radii amps dan dar row st HT Hsym) i H1 al mx my c H2 Hfl Ham _).
    apply Rgt_not_eq. apply total_covar_det; auto. }
  rewrite J. clear J. specialize (Sm (nth p row 0)). rewrite Hup in Sm. destruct Sm as (E1 & E2 & E3 & E4 & E5 & E6).
  assert (HA : g_amp (slow_at (src row) st ip) <> 0).
  { unfold slow_at. cbn [g_amp]. destruct ip as [i [[al [mx my]] c]]. unfold slow_gaussian. cbv zeta. cbn [fst snd g_amp] in *.
    cbn [src src_row ss_flux ss_amplitudes ss_radii]. destruct Hpsf as (Ha & Hc).
    assert (Hsq : 0 < fast_det (fast_inv (mplus (matmul_matmul (slow_T (src row) st) (covariance (nth i radii 0)) (transpose (slow_T (src row) st))) c))).
    { rewrite det_same, inv_same.
      pose proof (covar_total P 0 0 0 (K row) (src row) st (same_patch radii amps dan dar row st HT Hsym) i al mx my c ltac:(apply (pairs_in _ _ _ Hip))) as HC.
      cbv zeta in HC. cbn [src src_row ss_radii] in HC. rewrite HC.
      match goal with |- 0 < m_det (m_inv ?S) => assert (HS : 0 < m_det S); [|set (Sig := S) in *] end.
      { apply (total_covar_det (nth i radii 0 ^ 2) (slow_T (src row) st) psf); auto. }
      assert (E : m_det (m_inv Sig) = / m_det Sig).
      { unfold m_inv, m_det at 1. cbn [v11 v12 v21 v22]. field_simplify; try lra. unfold m_det. field. unfold m_det in HS. lra. }
      rewrite E. now apply Rinv_0_lt_compat. }
    apply sqrt_lt_R0 in Hsq. pose proof PI_RGT_0 as HPI. unfold src. cbn [src_row ss_flux ss_amplitudes ss_radii]. intros HZ.
    assert (Hs2 := Rgt_not_eq _ _ Hsq). revert HZ. apply Rmult_integral_contrapositive_currified; [|apply Rinv_neq_0_compat; lra].
    repeat apply Rmult_integral_contrapositive_currified; auto. }
  unfold correction in HH. unfold compute_gaussian. cbv zeta. cbn [snd].
  rewrite <- E1, <- E2, <- E3, <- E4, <- E5, <- E6 in *.
  remember (jac (source_gaussian P 0 0 0 psf (by_bin amps) (by_bin dan) (by_bin dar) row) p) as e eqn:Ee.
  destruct e as [[[[[e1 e2] e3] e4] e5] e6]. destruct Tan as (T1 & T2 & T3 & T4 & T5 & T6).
  pose proof (count_derive_raw xp yp _ _ _ _ _ _ (nth p row 0) e1 e2 e3 e4 e5 e6 T1 T2 T3 T4 T5 T6) as D. cbv zeta beta in D. rewrite <- HG0 in Ee.
  refine (@eq_ind R _ (fun v : R => is_derive _ _ v) D _ _). clear D T1 T2 T3 T4 T5 T6 Ct. set (g := G (nth p row 0)) in *. clearbody g.
  unfold quad. set (dx := xp - xcen g) in *. set (dy := yp - ycen g) in *. clearbody dx dy.
  set (vx := fxx g * dx + fxy g * dy) in *. set (vy := fyy g * dy + fxy g * dx) in *.
  set (Gp := exp _).
  assert (EH : 1 + (vx * vx + vy * vy - fxx g - fyy g) * (1 / 24) = 1 + (vx ^ 2 + vy ^ 2 - fxx g - fyy g) / 24) by field.
  assert (EH' : 1 + (vx * vx + vy * vy - fxx g - fyy g) / 24 = 1 + (vx ^ 2 + vy ^ 2 - fxx g - fyy g) / 24) by field.
  rewrite ?EH, ?EH'. set (H := 1 + (vx ^ 2 + vy ^ 2 - fxx g - fyy g) / 24) in *. clearbody H Gp.
  assert (EA : amp g * Gp * H * 1 / amp g = Gp * H) by (field; auto). assert (EC : amp g * Gp * H * 1 / H = amp g * Gp) by (field; auto).
  rewrite EA, EC. clearbody vx vy. clear - Ee Hp.
  do 7 (destruct p as [|p]; [unfold jac in Ee; injection Ee as -> -> -> -> -> ->; cbn [nth matvec map combine fold_right fst snd]; field|]). lia.
Qed.
End Derive.

(** Where the derivatives of a source's image on a stamp at a pixel are taken:
    nothing the code divides by is zero, the PSF covariances are symmetric and
    positive definite, and the amplitude derivatives are those of the amplitudes. *)
Record smooth_at (radii : list R) (amps dan dar : R -> R -> list R) (row : list R) (st : stamp) (xp yp : R) : Prop := {
  sm_flux : nth 0 row 0 <> 0;
  sm_q : nth 3 row 0 <> 0;
  sm_counts : photocounts st <> 0;
  sm_amps : List.Forall (fun a => a <> 0) (amps (nth 5 row 0) (nth 6 row 0));
  sm_spline : forall i, (i < List.length radii)%nat -> spline_ok (by_bin amps) (by_bin dan) (by_bin dar) (nth 5 row 0) (nth 6 row 0) i;
  sm_psf : forall g, In g (st_psf st) -> proper_psf g /\ v12 (snd g) = v21 (snd g);
  sm_correction : forall g, In g (convert_to_gaussians (src_row radii amps dan dar row) st) -> correction g xp yp <> 0 }.

Lemma render_sum radii amps dan dar row st xp yp : tables_fit radii amps dan dar ->
  (forall g, In g (st_psf st) -> proper_psf g /\ v12 (snd g) = v21 (snd g)) ->
  let s := src_row radii amps dan dar row in
  convert_to_gaussians s st = map (slow_at s st) (index_pairs s st) /\
  fst (slow_render s st xp yp) = sumR (fun ip => fst (compute_gaussian (slow_at s st ip) xp yp)) (index_pairs s st) /\
  List.length (snd (slow_render s st xp yp)) = 7%nat /\
  forall p, (p < 7)%nat -> nth p (snd (slow_render s st xp yp)) 0 =
    sumR (fun ip => nth p (matvec (derivs (slow_at s st ip)) (snd (compute_gaussian (slow_at s st ip) xp yp))) 0) (index_pairs s st).
Proof.
  intros HT Hs s.
  assert (Hsym : forall al m c, In (al, m, c) (st_psf st) -> v12 c = v21 c) by (intros al m c H; apply (Hs _ H)).
  pose proof (convert_pairs _ _ _ _ _ _ _ (same_patch radii amps dan dar row st HT Hsym)) as HC. fold s in HC. split; [exact HC|].
  unfold slow_render. rewrite HC.
  assert (HF : List.Forall (fun g => List.length (derivs g) = 7%nat) (map (slow_at s st) (index_pairs s st))).
  { apply List.Forall_forall. intros g Hg. apply in_map_iff in Hg as (ip & <- & _). apply slow_derivs_len. }
  destruct (gig_closed _ xp yp HF) as (E1 & E2 & E3). rewrite E1, sumR_map. split; [reflexivity|]. split; [exact E2|].
  intros p Hp. rewrite E3, sumR_map by auto. reflexivity.
Qed.
Lemma render_derive radii amps dan dar row st xp yp p : tables_fit radii amps dan dar ->
  List.length row = 7%nat -> (p < 7)%nat -> smooth_at radii amps dan dar row st xp yp ->
  is_derive (fun t => fst (slow_render (src_row radii amps dan dar (upd p t row)) st xp yp)) (nth p row 0)
    (nth p (snd (slow_render (src_row radii amps dan dar row) st xp yp)) 0).
Proof.
  intros HT HL Hp HS. pose proof (sm_psf _ _ _ _ _ _ _ _ HS) as Hpsf.
  assert (Hsym : forall al m c, In (al, m, c) (st_psf st) -> v12 c = v21 c) by (intros al m c H; apply (Hpsf _ H)).
  apply (is_derive_ext (fun t => sumR (fun ip => fst (compute_gaussian (slow_at (src_row radii amps dan dar (upd p t row)) st ip) xp yp))
    (index_pairs (src_row radii amps dan dar row) st))).
  { intros t. symmetry. apply (render_sum radii amps dan dar (upd p t row) st xp yp HT Hpsf). }
  destruct (render_sum radii amps dan dar row st xp yp HT Hpsf) as (HC & _ & _ & E). rewrite E by auto.
  apply (sumR_derive (fun ip t => fst (compute_gaussian (slow_at (src_row radii amps dan dar (upd p t row)) st ip) xp yp))).
  intros ip Hip. destruct (pairs_in _ _ _ Hip) as [H1 H2]. cbn [src_row ss_radii] in H1.
  destruct (HT (nth 5 row 0) (nth 6 row 0)) as (L1 & _).
  apply one_derive; auto.
  - apply (Hpsf _ H2).
  - apply (sm_flux _ _ _ _ _ _ _ _ HS).
  - apply (sm_q _ _ _ _ _ _ _ _ HS).
  - apply (sm_counts _ _ _ _ _ _ _ _ HS).
  - pose proof (sm_amps _ _ _ _ _ _ _ _ HS) as HA. rewrite List.Forall_forall in HA. apply HA, nth_In. lia.
  - apply (sm_spline _ _ _ _ _ _ _ _ HS). auto.
  - apply (sm_correction _ _ _ _ _ _ _ _ HS). rewrite HC. now apply in_map.
Qed.
