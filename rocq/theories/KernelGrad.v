(** The gradient EvaluateProposal accumulates is the derivative of its chi-square. *)
From Verif Require Import Np NpFacts KernelModel KernelFacts KernelJac KernelSum.
From Coq Require Import Reals Lra.
From Coquelicot Require Import Coquelicot.
Open Scope R_scope.

(** ** Vocabulary *)
Definition sources_of (amps dan dar : R -> R -> nat -> R) (rows : list (list R)) (g : nat) : KSource :=
  ksource_of amps dan dar (nth g rows []).
(** The PSF Gaussians the kernel reads for band [b] (all sources share them). *)
Definition psf_used (P : Patch) (b : nat) (psf : PSFGaussian) : Prop :=
  exists e p, In e (exposures P b) /\ (p < n_psf_per_source P b)%nat /\ psf = psfgauss P (psfgauss_start P e + p).
(** Pixel [pix] of exposure [e] is not exactly on the exponent cutoff of a Gaussian of source [s]. *)
Definition off_cutoff (P : Patch) (b : nat) (src : nat -> KSource) (s e pix : nat) : Prop :=
  forall p, (p < n_psf_per_source P b)%nat -> exparg (P_xpix P pix) (P_ypix P pix) (gauss P b src e s p) <> MAX_EXP_ARG.

Lemma pixel_chi2_derive (M : R -> R) (d ie t0 m' : R) : is_derive M t0 m' ->
  is_derive (fun t => ((d - M t) * ie - d * ie) * ((d - M t) * ie + d * ie)) t0 (-2 * ((d - M t0) * ie * ie) * m').
Proof. intros H. auto_derive; [side|]. rewrite (Derive_eta _ _ _ H). ring. Qed.

Section Gradient.
Context (P : Patch) (b : nat) (amps dan dar : R -> R -> nat -> R) (rows : list (list R)) (s p : nat).
Hypothesis max_sources : (n_sources P <= MAXSOURCES)%nat.
Hypothesis rows_len : List.length rows = n_sources P.
Hypothesis row_len : List.length (nth s rows []) = 7%nat.
Hypothesis Hs : (s < n_sources P)%nat.
Hypothesis Hp : (p < 7)%nat.
Hypothesis Hq : nth 3 (nth s rows []) 0 <> 0.
Hypothesis Hpsf : forall psf, psf_used P b psf -> psf_pd psf /\ 0 <= rad2 P (sersic_radius_bin psf) /\
  spline_ok amps dan dar (nth 5 (nth s rows []) 0) (nth 6 (nth s rows []) 0) (sersic_radius_bin psf).
Let rowt (t : R) := upd p t (nth s rows []).
Let rowst (t : R) := upd s (rowt t) rows.
Let t0 := nth p (nth s rows []) 0.
Let N := n_psf_per_source P b.
Let src := sources_of amps dan dar.

Lemma rowst_same t : nth s (rowst t) [] = rowt t.
Proof.
  unfold rowst. pose proof (nth_error_upd s (rowt t) rows s) as E. rewrite Nat.eqb_refl in E.
  destruct (Nat.ltb_spec s (List.length rows)); [|lia]. now apply nth_error_nth with (d := []) in E.
Qed.
Lemma rowst_other t g : g <> s -> nth g (rowst t) [] = nth g rows [].
Proof.
  intros Hg. unfold rowst. pose proof (nth_error_upd s (rowt t) rows g) as E. destruct (Nat.eqb_spec s g); [congruence|].
  destruct (nth_error rows g) eqn:Eg.
  - now rewrite (nth_error_nth _ _ _ E), (nth_error_nth _ _ _ Eg).
  - assert ((List.length rows <= g)%nat) by now apply nth_error_None. rewrite !nth_overflow; rewrite ?upd_length; auto.
Qed.
Lemma rowt_t0 : rowt t0 = nth s rows [].
Proof.
  unfold rowt, t0. apply nth_error_ext. intros k. rewrite nth_error_upd. destruct (Nat.eqb_spec p k) as [<-|]; auto.
  destruct (Nat.ltb_spec p (List.length (nth s rows []))); [|lia]. symmetry. now apply nth_error_nth'.
Qed.

Lemma gauss_curve e q t : gauss P b (src (rowst t)) e s q =
  source_gaussian P b e s (psfgauss P (psfgauss_start P e + q)) amps dan dar (rowt t).
Proof. unfold gauss, source_gaussian, src, sources_of. now rewrite rowst_same. Qed.
Lemma gauss_base e q : gauss P b (src rows) e s q =
  source_gaussian P b e s (psfgauss P (psfgauss_start P e + q)) amps dan dar (nth s rows []).
Proof. reflexivity. Qed.
Lemma gauss_other e g q t : g <> s -> gauss P b (src (rowst t)) e g q = gauss P b (src rows) e g q.
Proof. intros H. unfold gauss, src, sources_of. now rewrite rowst_other. Qed.
Lemma gauss_t0 e g q : gauss P b (src (rowst t0)) e g q = gauss P b (src rows) e g q.
Proof.
  destruct (Nat.eq_dec g s) as [->|H]; [|now apply gauss_other]. now rewrite gauss_curve, gauss_base, rowt_t0.
Qed.

Lemma term_derive e pix q : In e (exposures P b) -> (q < N)%nat ->
  exparg (P_xpix P pix) (P_ypix P pix) (gauss P b (src rows) e s q) <> MAX_EXP_ARG ->
  is_derive (fun t => residual_term (P_xpix P pix) (P_ypix P pix) (gauss P b (src (rowst t)) e s q)) t0
    (dot6 (pixel_derivs (P_xpix P pix) (P_ypix P pix) (- (1/2)) (gauss P b (src rows) e s q)) (jac (gauss P b (src rows) e s q) p)).
Proof.
  intros He Hq' Hc. destruct (Hpsf (psfgauss P (psfgauss_start P e + q))) as (H1 & H2 & H3).
  { exists e, q. auto. }
  pose proof (gaussian_tangent P b e s (psfgauss P (psfgauss_start P e + q)) amps dan dar (nth s rows []) p row_len Hp Hq H2 H1 H3) as HT.
  fold t0 in HT.
  set (G := fun t => source_gaussian P b e s (psfgauss P (psfgauss_start P e + q)) amps dan dar (rowt t)).
  assert (HG0 : G t0 = gauss P b (src rows) e s q) by (unfold G; now rewrite rowt_t0).
  pose proof (residual_term_derive (P_xpix P pix) (P_ypix P pix) G t0 _ HT) as K. rewrite HG0 in K. specialize (K Hc).
  apply is_derive_ext with (2 := K). intros t. unfold G. now rewrite gauss_curve.
Qed.

Definition dmodel (e pix : nat) : R :=
  sumR (fun q => dot6 (pixel_derivs (P_xpix P pix) (P_ypix P pix) (- (1/2)) (gauss P b (src rows) e s q)) (jac (gauss P b (src rows) e s q) p)) (seq 0 N).

Lemma model_derive e pix : In e (exposures P b) -> off_cutoff P b (src rows) s e pix ->
  is_derive (fun t => model_at P b (src (rowst t)) e pix) t0 (dmodel e pix).
Proof.
  intros He Hc.
  pose (d := fun g => if Nat.eqb g s then dmodel e pix else 0).
  assert (E : sumR d (seq 0 (n_sources P)) = dmodel e pix).
  { rewrite (sumR_single d _ s Nat.eq_dec).
    - unfold d. now rewrite Nat.eqb_refl.
    - apply seq_NoDup.
    - apply in_seq. lia.
    - intros x _ Hx. unfold d. destruct (Nat.eqb_spec x s); [contradiction|reflexivity]. }
  rewrite <- E. apply (sumR_derive (fun g t => sumR (fun q => residual_term (P_xpix P pix) (P_ypix P pix) (gauss P b (src (rowst t)) e g q)) (seq 0 N))).
  intros g _. unfold d. destruct (Nat.eqb_spec g s) as [->|Hg].
  - apply (sumR_derive (fun q t => residual_term (P_xpix P pix) (P_ypix P pix) (gauss P b (src (rowst t)) e s q))).
    intros q Hq'. apply in_seq in Hq'. apply term_derive; auto; [lia|]. apply Hc. fold N. lia.
  - apply const_derive. intros t. apply sumR_ext. intros q _. now rewrite !gauss_other.
Qed.

Lemma chi2_at_derive e pix : In e (exposures P b) -> P_ierr P pix = 0 \/ off_cutoff P b (src rows) s e pix ->
  is_derive (fun t => chi2_at P b (src (rowst t)) e pix) t0 (grad_at P b (src rows) e pix s p).
Proof.
  intros He Hc.
  assert (EG : grad_at P b (src rows) e pix s p = -2 * (residual_at P b (src rows) e pix * P_ierr P pix * P_ierr P pix) * dmodel e pix).
  { unfold grad_at, dmodel. fold N. rewrite <- sumR_scal. apply sumR_ext. intros q _. now apply derivative_row_nth. }
  rewrite EG. destruct Hc as [Hz|Hc].
  - replace (-2 * (residual_at P b (src rows) e pix * P_ierr P pix * P_ierr P pix) * dmodel e pix) with 0 by (rewrite Hz; ring).
    apply const_derive. intros t. unfold chi2_at. rewrite Hz. ring.
  - unfold chi2_at, residual_at.
    assert (E0 : model_at P b (src (rowst t0)) e pix = model_at P b (src rows) e pix).
    { unfold model_at. apply sumR_ext. intros g _. apply sumR_ext. intros q _. now rewrite gauss_t0. }
    rewrite <- E0. apply (pixel_chi2_derive (fun t => model_at P b (src (rowst t)) e pix)). now apply model_derive.
Qed.

Lemma chi2_derive :
  (forall e pix, In e (exposures P b) -> In pix (pixels P e) -> P_ierr P pix = 0 \/ off_cutoff P b (src rows) s e pix) ->
  is_derive (fun t => fst (EvaluateProposal P b (src (rowst t)))) t0 (nth (s * 7 + p) (snd (EvaluateProposal P b (src rows))) 0).
Proof.
  intros Hc. destruct (evaluate_closed P b (src rows) max_sources) as (_ & _ & E). rewrite E by auto.
  apply is_derive_ext with (f := fun t => sumR (fun e => sumR (fun pix => chi2_at P b (src (rowst t)) e pix) (pixels P e)) (exposures P b)).
  { intros t. symmetry. apply (evaluate_closed P b (src (rowst t)) max_sources). }
  apply (sumR_derive (fun e t => sumR (fun pix => chi2_at P b (src (rowst t)) e pix) (pixels P e))). intros e He.
  apply (sumR_derive (fun pix t => chi2_at P b (src (rowst t)) e pix)). intros pix Hpix. apply chi2_at_derive; auto.
Qed.
End Gradient.
