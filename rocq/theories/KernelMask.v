(** Property C22: what the chi-square of a band depends on. *)
From Verif Require Import Np NpFacts KernelModel KernelFacts KernelJac KernelSum KernelGrad KernelProps.
From Coq Require Import Reals Lra Permutation.
Open Scope R_scope.

(** ** Vocabulary *)
(** One observation: the calibration of the exposure, the astrometry of every
    source in it (scale matrix D, CW, crpix, crval), its PSF Gaussians with the
    squared radius of their bin, and the pixel (x, y, data, 1/sigma). *)
Record observation := mkObs {
  o_G : R; o_sky : list (matrix22 * matrix22 * (R * R) * (R * R)); o_psf : list (PSFGaussian * R);
  o_x : R; o_y : R; o_data : R; o_ierr : R }.
Definition sky (P : Patch) (e g : nat) : matrix22 * matrix22 * (R * R) * (R * R) :=
  let k := (n_sources P * e + g)%nat in
  let m (d : nat -> R) := M22 (d (4 * k)%nat) (d (4 * k + 1)%nat) (d (4 * k + 2)%nat) (d (4 * k + 3)%nat) in
  let v (d : nat -> R) := (d (2 * k)%nat, d (2 * k + 1)%nat) in
  (m (P_D P), m (P_CW P), v (P_crpix P), v (P_crval P)).
Definition observe (P : Patch) (b e pix : nat) : observation :=
  mkObs (P_G P e) (map (sky P e) (seq 0 (n_sources P)))
    (map (fun p => let psf := psfgauss P (psfgauss_start P e + p) in (psf, rad2 P (sersic_radius_bin psf))) (seq 0 (n_psf_per_source P b)))
    (P_xpix P pix) (P_ypix P pix) (P_data P pix) (P_ierr P pix).
(** All pixels of band [b]: exposures band_start .. band_start+band_N-1, pixels
    exposure_start .. exposure_start+exposure_N-1. *)
Definition band_pixels (P : Patch) (b : nat) : list (nat * nat) :=
  flat_map (fun e => map (fun pix => (e, pix)) (seq (exposure_start P e) (exposure_N P e))) (seq (band_start P b) (band_N P b)).
Definition observations (P : Patch) (b : nat) : list observation := map (fun ep => observe P b (fst ep) (snd ep)) (band_pixels P b).
Definition unmasked (l l' : list observation) : Prop :=
  (forall o, In o l' -> o_ierr o <> 0) /\ exists m, (forall o, In o m -> o_ierr o = 0) /\ Permutation l (m ++ l').

(** ** Facts *)
Lemma seq_shift_map a n : map (fun k => (a + k)%nat) (seq 0 n) = seq a n.
Proof.
  revert a. induction n as [|n IH]; intros a; simpl; auto. rewrite Nat.add_0_r. f_equal. rewrite <- seq_shift, map_map.
  rewrite <- (IH (S a)). apply map_ext. intros. lia.
Qed.
Lemma exposures_seq P b : exposures P b = seq (band_start P b) (band_N P b).
Proof. apply seq_shift_map. Qed.
Lemma pixels_seq P e : pixels P e = seq (exposure_start P e) (exposure_N P e).
Proof. apply seq_shift_map. Qed.
Lemma sum_band_pixels P b (f : nat -> nat -> R) :
  sumR (fun e => sumR (f e) (pixels P e)) (exposures P b) = sumR (fun ep => f (fst ep) (snd ep)) (band_pixels P b).
Proof.
  unfold band_pixels. rewrite sumR_flat, exposures_seq. apply sumR_ext. intros e _. now rewrite sumR_map, pixels_seq.
Qed.

(** A patch holding exactly one observation. *)
Definition mat_at (m : matrix22) (i : nat) : R := match i with 0%nat => v11 m | 1%nat => v12 m | 2%nat => v21 m | _ => v22 m end.
Definition no_sky : matrix22 * matrix22 * (R * R) * (R * R) := (M22 0 0 0 0, M22 0 0 0 0, (0, 0), (0, 0)).
Definition no_psf : PSFGaussian * R := (mkPSF 0 0 0 0 0 0 0, 0).

(** The Gaussian of source [g], PSF component [p], as a function of the observation. *)
Definition obs_gauss (b : nat) (src : nat -> KSource) (o : observation) (g p : nat) : ImageGaussian :=
  match nth g (o_sky o) no_sky with (D, CW, crpix, crval) =>
    let galaxy := src g in
    let psf := fst (nth p (o_psf o) no_psf) in
    let w := m_Av CW (k_ra galaxy - fst crval, k_dec galaxy - snd crval) in
    let s := sersic_radius_bin psf in
    GetGaussianAndJacobian
      (mkPG (mixture_amplitudes galaxy s) (fst w + fst crpix) (snd w + snd crpix) (snd (nth p (o_psf o) no_psf)) (k_fluxes galaxy b) (o_G o)
            (damplitude_dnsersic galaxy s) (damplitude_drh galaxy s) CW
            (m_mul (m_mul D (m_rot (k_pa galaxy))) (m_scale (k_q galaxy)))
            (m_mul (m_mul D (m_rot (k_pa galaxy))) (m_scale_deriv (k_q galaxy)))
            (m_mul (m_mul D (m_rot_deriv (k_pa galaxy))) (m_scale (k_q galaxy)))) psf
  end.
Lemma obs_gauss_correct P b src e pix g p : (g < n_sources P)%nat -> (p < n_psf_per_source P b)%nat ->
  gauss P b src e g p = obs_gauss b src (observe P b e pix) g p.
Proof.
  intros Hg Hp. unfold obs_gauss, observe. cbn [o_sky o_psf o_G].
  rewrite nth_indep with (d' := sky P e 0) by (rewrite map_length, seq_length; auto). rewrite map_nth, seq_nth by auto. simpl plus.
  unfold sky. cbv zeta.
  set (f := fun p => let psf := psfgauss P (psfgauss_start P e + p) in (psf, rad2 P (sersic_radius_bin psf))).
  rewrite nth_indep with (d' := f 0%nat) by (rewrite map_length, seq_length; auto). rewrite map_nth, seq_nth by auto. simpl plus.
  unfold f. cbn [fst snd]. reflexivity.
Qed.

Definition obs_residual (ns np b : nat) (src : nat -> KSource) (o : observation) : R :=
  o_data o - sumR (fun g => sumR (fun p => residual_term (o_x o) (o_y o) (obs_gauss b src o g p)) (seq 0 np)) (seq 0 ns).
Definition obs_chi2 ns np b src o : R :=
  (obs_residual ns np b src o * o_ierr o - o_data o * o_ierr o) * (obs_residual ns np b src o * o_ierr o + o_data o * o_ierr o).
Definition obs_grad ns np b src o (s j : nat) : R :=
  sumR (fun p => nth j (derivative_row (o_x o) (o_y o) (obs_residual ns np b src o * o_ierr o * o_ierr o) (obs_gauss b src o s p)) 0) (seq 0 np).

Lemma obs_residual_correct P b src e pix :
  residual_at P b src e pix = obs_residual (n_sources P) (n_psf_per_source P b) b src (observe P b e pix).
Proof.
  unfold residual_at, model_at, obs_residual. f_equal. apply sumR_ext. intros g Hg. apply sumR_ext. intros p Hp.
  apply in_seq in Hg, Hp. rewrite (obs_gauss_correct P b src e pix) by lia. reflexivity.
Qed.
Lemma obs_chi2_correct P b src e pix : chi2_at P b src e pix = obs_chi2 (n_sources P) (n_psf_per_source P b) b src (observe P b e pix).
Proof. unfold chi2_at, obs_chi2. now rewrite obs_residual_correct. Qed.
Lemma obs_grad_correct P b src e pix s j : (s < n_sources P)%nat ->
  grad_at P b src e pix s j = obs_grad (n_sources P) (n_psf_per_source P b) b src (observe P b e pix) s j.
Proof.
  intros Hs. unfold grad_at, obs_grad. rewrite obs_residual_correct. apply sumR_ext. intros p Hp. apply in_seq in Hp.
  rewrite (obs_gauss_correct P b src e pix) by lia. reflexivity.
Qed.

Lemma chi2_observations P b src : (n_sources P <= MAXSOURCES)%nat ->
  fst (EvaluateProposal P b src) = sumR (obs_chi2 (n_sources P) (n_psf_per_source P b) b src) (observations P b).
Proof.
  intros Hm. destruct (evaluate_closed P b src Hm) as (_ & E & _). rewrite E, sum_band_pixels. unfold observations. rewrite sumR_map.
  apply sumR_ext. intros ep _. apply obs_chi2_correct.
Qed.
Lemma grad_observations P b src s j : (n_sources P <= MAXSOURCES)%nat -> (s < n_sources P)%nat -> (j < 7)%nat ->
  nth (s * 7 + j) (snd (EvaluateProposal P b src)) 0 =
  sumR (fun o => obs_grad (n_sources P) (n_psf_per_source P b) b src o s j) (observations P b).
Proof.
  intros Hm Hs Hj. destruct (evaluate_closed P b src Hm) as (_ & _ & E). rewrite E by auto.
  rewrite (sum_band_pixels P b (fun e pix => grad_at P b src e pix s j)). unfold observations. rewrite sumR_map.
  apply sumR_ext. intros ep _. now apply obs_grad_correct.
Qed.
Lemma masked_chi2 ns np b src o : o_ierr o = 0 -> obs_chi2 ns np b src o = 0.
Proof. intros H. unfold obs_chi2. rewrite H. ring. Qed.
Lemma masked_grad ns np b src o s j : (j < 7)%nat -> o_ierr o = 0 -> obs_grad ns np b src o s j = 0.
Proof.
  intros Hj H. unfold obs_grad. apply sumR_zero. intros p _. rewrite derivative_row_nth by auto. rewrite H. ring.
Qed.

(** Entries past the sources stay zero. *)
Lemma untouched P b src i : (n_sources P * 7 <= i)%nat -> nth i (snd (EvaluateProposal P b src)) 0 = 0.
Proof.
  intros Hi.
  assert (In_j : forall (d : list R) gal l, (gal < n_sources P)%nat ->
     nth i (fold_left (fun pd j => add_at pd (gal * NPARAMS + j) (nth j d 0)) (seq 0 NPARAMS) l) 0 = nth i l 0).
  { intros d gal l Hg. assert (H : forall js l, (forall j, In j js -> (j < 7)%nat) ->
      nth i (fold_left (fun pd j => add_at pd (gal * NPARAMS + j) (nth j d 0)) js l) 0 = nth i l 0).
    { induction js as [|j js IH]; simpl; intros l' Hjs; auto. rewrite IH by auto. unfold add_at.
      pose proof (Hjs j (or_introl eq_refl)).
      pose proof (nth_error_upd (gal * NPARAMS + j) (nth (gal * NPARAMS + j) l' 0 + nth j d 0) l' i) as E.
      unfold NPARAMS in *. destruct (Nat.eqb_spec (gal * 7 + j) i); [nia|].
      destruct (nth_error l' i) eqn:Ei; [now rewrite (nth_error_nth _ _ _ E), (nth_error_nth _ _ _ Ei)|].
      assert ((List.length l' <= i)%nat) by now apply nth_error_None. rewrite !nth_overflow; rewrite ?upd_length; auto. }
    apply H. intros j Hj. apply in_seq in Hj. unfold NPARAMS in *. lia. }
  assert (Px : forall gs acc pix, nth i (snd (pixel_pass P (n_psf_per_source P b) gs acc pix)) 0 = nth i (snd acc) 0).
  { intros gs acc pix. unfold pixel_pass. cbv zeta. cbn [snd].
    assert (H : forall gl l, (forall g, In g gl -> (g < n_sources P)%nat) -> forall (D : nat -> list R),
      nth i (fold_left (fun pd gal => fold_left (fun pd j => add_at pd (gal * NPARAMS + j) (nth j (D gal) 0)) (seq 0 NPARAMS) pd) gl l) 0 = nth i l 0).
    { induction gl as [|g gl IH]; intros l Hgl D; auto. cbn [fold_left]. rewrite IH by (intros; apply Hgl; simpl; auto).
      apply In_j. apply Hgl. simpl; auto. }
    apply (H (seq 0 (n_sources P)) (snd acc) ltac:(intros g Hg; apply in_seq in Hg; lia)
       (fun gal => ComputeGaussianDerivative (P_xpix P pix) (P_ypix P pix)
          (ComputeResidualImage (P_xpix P pix) (P_ypix P pix) (P_data P pix) gs * P_ierr P pix * P_ierr P pix)
          (firstn (n_psf_per_source P b) (skipn (gal * n_psf_per_source P b) gs)) (repeat 0 NPARAMS))). }
  unfold EvaluateProposal.
  assert (H : forall es acc, nth i (snd (fold_left (fun acc e => exposure_pass P b src acc (band_start P b + e)) es acc)) 0 = nth i (snd acc) 0).
  { induction es as [|e es IH]; intros acc; auto. cbn [fold_left]. rewrite IH. unfold exposure_pass. cbv zeta.
    generalize (seq 0 (exposure_N P (band_start P b + e))). intros ps. revert acc. induction ps as [|p ps IHp]; intros acc; auto.
    cbn [fold_left]. rewrite IHp. apply Px. }
  rewrite H. cbn [snd]. apply nth_repeat.
Qed.

(** ** C22 *)
(** Two patches with the same number of sources and PSF Gaussians whose unmasked
    observations agree up to order give the same answer for every proposal:
    masked and padding pixels, the order of pixels and their division into
    exposures do not matter. *)
Theorem C22_unmasked_pixels_only : forall P P' b src l l',
  (n_sources P <= MAXSOURCES)%nat -> n_sources P' = n_sources P -> n_psf_per_source P' b = n_psf_per_source P b ->
  unmasked (observations P b) l -> unmasked (observations P' b) l' -> Permutation l l' ->
  EvaluateProposal P b src = EvaluateProposal P' b src.
Proof.
  intros P P' b src l l' Hm Hns Hnp (_ & m & Hm0 & Hp) (_ & m' & Hm0' & Hp') Hll.
  assert (Hm' : (n_sources P' <= MAXSOURCES)%nat) by lia.
  assert (Sum : forall f, (forall o, o_ierr o = 0 -> f o = 0) -> sumR f (observations P b) = sumR f (observations P' b)).
  { intros f Hf. rewrite (sumR_perm f _ _ Hp), (sumR_perm f _ _ Hp'), !sumR_app, (sumR_perm f _ _ Hll).
    rewrite (sumR_zero f m), (sumR_zero f m') by auto. reflexivity. }
  pose proof (evaluate_closed P b src Hm) as (L1 & _). pose proof (evaluate_closed P' b src Hm') as (L2 & _).
  pose proof (chi2_observations P b src Hm) as C1. pose proof (chi2_observations P' b src Hm') as C2.
  pose proof (fun s j => grad_observations P b src s j Hm) as G1. pose proof (fun s j => grad_observations P' b src s j Hm') as G2.
  pose proof (untouched P b src) as U1. pose proof (untouched P' b src) as U2.
  rewrite Hns in *. rewrite Hnp in *.
  destruct (EvaluateProposal P b src) as [c d]. destruct (EvaluateProposal P' b src) as [c' d']. cbn [fst snd] in *. f_equal.
  - rewrite C1, C2. apply Sum. intros. now apply masked_chi2.
  - apply (nth_ext d d' 0 0); [congruence|]. intros i Hi.
    destruct (Nat.lt_ge_cases i (n_sources P * 7)) as [H|H]; [|now rewrite U1, U2].
    replace i with (i / 7 * 7 + i mod 7)%nat by (pose proof (Nat.div_mod_eq i 7); lia).
    assert ((i / 7 < n_sources P)%nat) by (apply Nat.div_lt_upper_bound; lia).
    assert ((i mod 7 < 7)%nat) by (apply Nat.mod_upper_bound; lia).
    rewrite G1, G2 by auto. apply Sum. intros. now apply masked_grad.
Qed.
Print Assumptions C22_unmasked_pixels_only.

(** chi-square is the sum over pixels of (residual^2 - data^2) / sigma^2, with the
    residuals the kernel reports. *)
Theorem C22_chi2_value : forall P b src, (n_sources P <= MAXSOURCES)%nat ->
  fst (EvaluateProposal P b src) =
  fold_right Rplus 0 (map (fun e =>
    fold_right Rplus 0 (map (fun rp => (fst rp ^ 2 - P_data P (snd rp) ^ 2) * P_ierr P (snd rp) ^ 2)
                            (combine (residual_image P b e src) (seq (exposure_start P e) (exposure_N P e)))))
    (seq (band_start P b) (band_N P b))).
Proof.
  intros P b src Hm. destruct (evaluate_closed P b src Hm) as (_ & E & _). rewrite E.
  assert (FS : forall (A : Type) (f : A -> R) l, fold_right Rplus 0 (map f l) = sumR f l).
  { intros A f l. induction l as [|x l IH]; auto. simpl. rewrite IH. reflexivity. }
  rewrite FS, exposures_seq. apply sumR_ext. intros e _. rewrite FS, pixels_seq. unfold residual_image.
  rewrite <- (seq_shift_map (exposure_start P e)). generalize (seq 0 (exposure_N P e)). intros l.
  induction l as [|p l IH]; auto. cbn [map combine]. rewrite !sumR_cons, <- IH. f_equal. cbn [fst snd]. unfold chi2_at.
  rewrite residual_at_correct. ring.
Qed.
Print Assumptions C22_chi2_value.

(** Gradient rows past the active sources are exactly zero. *)
Theorem C22_no_extra_gradient : forall P b src i, (n_sources P * 7 <= i)%nat ->
  nth i (snd (EvaluateProposal P b src)) 0 = 0.
Proof. exact untouched. Qed.
Print Assumptions C22_no_extra_gradient.

(** ** A small patch: two exposures of one band, identity astrometry, one PSF Gaussian *)
Definition toy_id (i : nat) : R := match (i mod 4)%nat with 0%nat => 1 | 3%nat => 1 | _ => 0 end.
Definition toy (pad_data : R) (swap : bool) : Patch :=
  mkPatch (fun i => match i with 0%nat => 3 | 1%nat => 5 | _ => pad_data end)
          (fun i => match i with 0%nat => 1/2 | 1%nat => 1/4 | _ => 0 end)
          (fun i => match i with 0%nat => 1 | 1%nat => 0 | _ => pad_data end)
          (fun i => match i with 0%nat => 0 | 1%nat => 2 | _ => pad_data end)
          (fun e => if swap then 0%nat else match e with 0%nat => 0%nat | _ => 1%nat end)
          (fun e => if swap then (match e with 0%nat => 3%nat | _ => 0%nat end) else (match e with 0%nat => 1%nat | _ => 2%nat end))
          (fun _ => 0%nat) (fun _ => 2%nat)
          1 (fun _ => 1) toy_id (fun _ => 0) (fun _ => 0) toy_id (fun _ => 1)
          (fun _ => 1%nat) (fun _ => mkPSF 1 0 0 1 1 0 0) (fun _ => 0%nat).
(** One exposure of three pixels, one of them padding with other contents, against
    two exposures of one and two pixels: equal answers. *)
Example C22_case : forall src, EvaluateProposal (toy 7 false) 0 src = EvaluateProposal (toy 9 true) 0 src.
Proof.
  intros src.
  set (o := fun x y d ie => mkObs 1 [(M22 1 0 0 1, M22 1 0 0 1, (0, 0), (0, 0))] [(mkPSF 1 0 0 1 1 0 0, 1)] x y d ie).
  apply (C22_unmasked_pixels_only _ _ 0 src [o 1 0 3 (1/2); o 0 2 5 (1/4)] [o 1 0 3 (1/2); o 0 2 5 (1/4)]); auto.
  - unfold MAXSOURCES. simpl. lia.
  - split.
    + intros x [<-|[<-|[]]]; simpl; lra.
    + exists [o 7 7 7 0]. split; [intros x [<-|[]]; reflexivity|].
      change (observations (toy 7 false) 0) with [o 1 0 3 (1/2); o 0 2 5 (1/4); o 7 7 7 0].
      change ([o 7 7 7 0] ++ [o 1 0 3 (1/2); o 0 2 5 (1/4)]) with ([o 7 7 7 0] ++ [o 1 0 3 (1/2); o 0 2 5 (1/4)]).
      apply (Permutation_app_comm [o 1 0 3 (1/2); o 0 2 5 (1/4)] [o 7 7 7 0]).
  - split.
    + intros x [<-|[<-|[]]]; simpl; lra.
    + exists [o 9 9 9 0]. split; [intros x [<-|[]]; reflexivity|].
      change (observations (toy 9 true) 0) with [o 1 0 3 (1/2); o 0 2 5 (1/4); o 9 9 9 0].
      apply (Permutation_app_comm [o 1 0 3 (1/2); o 0 2 5 (1/4)] [o 9 9 9 0]).
Qed.
