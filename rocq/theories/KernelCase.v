(** Concrete cases for C21: the patch of C22_case and one source. *)
From Verif Require Import Np NpFacts SceneModel StackFacts LnlikeModel LnlikeFacts PosteriorModel PosteriorSpec PosteriorFacts FastPosterior.
From Verif Require Import KernelModel KernelFacts KernelJac KernelSum KernelGrad KernelProps KernelMask.
From Coq Require Import Reals Lra.
From Coquelicot Require Import Coquelicot.
Import ListNotations.
Open Scope list_scope.
Open Scope R_scope.

Definition toy_row : list R := [2; 0; 0; 1; 0; 4; 1].
Lemma toy_fields pg psf : s_T pg = M22 1 0 0 1 -> s_covar pg = 1 -> s_xcen pg = 0 -> s_ycen pg = 0 -> psf = mkPSF 1 0 0 1 1 0 0 ->
  forall x y, exparg x y (GetGaussianAndJacobian pg psf) = (x * x + y * y) / 2.
Proof.
  intros HT Hc Hx Hy -> x y. unfold exparg, quad.
  change (xcen (GetGaussianAndJacobian pg (mkPSF 1 0 0 1 1 0 0))) with (s_xcen pg + 0).
  change (ycen (GetGaussianAndJacobian pg (mkPSF 1 0 0 1 1 0 0))) with (s_ycen pg + 0).
  set (f := m_inv (m_add (m_smul (s_covar pg) (m_AAt (s_T pg))) (M22 1 0 0 1))).
  change (fxx (GetGaussianAndJacobian pg (mkPSF 1 0 0 1 1 0 0))) with (v11 f).
  change (fyy (GetGaussianAndJacobian pg (mkPSF 1 0 0 1 1 0 0))) with (v22 f).
  change (fxy (GetGaussianAndJacobian pg (mkPSF 1 0 0 1 1 0 0))) with (v21 f).
  assert (Ef : f = M22 (1/2) 0 0 (1/2)).
  { unfold f. rewrite HT, Hc. unfold m_inv, m_add, m_smul, m_AAt, m_det. cbn [v11 v12 v21 v22]. f_equal; field. }
  rewrite Ef, Hx, Hy. cbn [v11 v22 v21]. field.
Qed.
Lemma toy_T : m_mul (m_mul (M22 1 0 0 1) (m_rot 0)) (m_scale 1) = M22 1 0 0 1.
Proof. unfold m_mul, m_rot, m_scale. cbn [v11 v12 v21 v22]. rewrite cos_0, sin_0. f_equal; field. Qed.
Lemma toy_smooth (amps dan dar : R -> R -> nat -> R) : spline_ok amps dan dar 4 1 0 ->
  smooth_at (toy 7 false) 0 amps dan dar (toy_row :: nil).
Proof.
  intros Hsp. constructor.
  - unfold MAXSOURCES. simpl. lia.
  - reflexivity.
  - intros row [<-|[]]. split; [reflexivity|]. simpl. lra.
  - intros psf (e & p & _ & _ & ->). simpl. unfold psf_pd. simpl. repeat split; lra.
  - intros psf row (e & p & _ & _ & ->) [<-|[]]. simpl. exact Hsp.
  - intros e pix s He Hpix Hs. simpl in Hs. replace s with 0%nat by lia. clear s Hs.
    rewrite exposures_seq in He. rewrite pixels_seq in Hpix.
    assert (E : forall x y ee, (ee < 2)%nat -> exparg x y (gauss (toy 7 false) 0 (sources_of amps dan dar (toy_row :: nil)) ee 0 0) = (x * x + y * y) / 2).
    { intros x y ee Hee. unfold gauss. destruct ee as [|[|ee]]; [| |lia]; (apply toy_fields; [exact toy_T|reflexivity| | |reflexivity]);
      cbn [pix_gaussian source_setup s_xcen s_ycen]; unfold m_Av; cbn; ring. }
    unfold off_cutoff.
    assert (Hc : (e = 0%nat /\ pix = 0%nat) \/ (e = 1%nat /\ (pix = 1%nat \/ pix = 2%nat))).
    { simpl in He. destruct He as [<-|[<-|[]]]; simpl in Hpix; intuition auto. }
    destruct Hc as [[-> ->]|[-> [->| ->]]].
    + right. intros p Hp. simpl in Hp. replace p with 0%nat by lia. rewrite E by lia. simpl. unfold MAX_EXP_ARG. lra.
    + right. intros p Hp. simpl in Hp. replace p with 0%nat by lia. rewrite E by lia. simpl. unfold MAX_EXP_ARG. lra.
    + left. reflexivity.
Qed.

Definition toy_amps (n r : R) : list R := n * r :: nil.
Lemma toy_spline : spline_ok (fun n r s => nth s (toy_amps n r) 0) (fun _ r _ => r) (fun n _ _ => n) 4 1 0.
Proof. unfold spline_ok, toy_amps. simpl. split; auto_derive; auto; ring. Qed.

(** C21_kernel_gradient on it: the flux derivative of the chi-square. *)
Example C21_kernel_case :
  smooth_at (toy 7 false) 0 (fun n r s => nth s (toy_amps n r) 0) (fun _ r _ => r) (fun n _ _ => n) (toy_row :: nil) /\ exists d, derivable_pt_lim (fun t => fst (EvaluateProposal (toy 7 false) 0
      (sources_of (fun n r s => nth s (toy_amps n r) 0) (fun _ r _ => r) (fun n _ _ => n) ((t :: tl toy_row) :: nil)))) 2 d.
Proof.
  split; [apply toy_smooth, toy_spline|]. eexists.
  exact (C21_kernel_gradient _ _ _ _ _ _ (toy_smooth _ _ _ toy_spline) 0%nat 0%nat ltac:(simpl; lia) ltac:(lia)).
Qed.

(** C21_posterior_gradient: its hypotheses hold for one galaxy in one band. *)
Example C21_posterior_case : let g : source R := mkSource Galaxy ("a"%string :: nil) (1 :: nil) 0 0 1 0 1 1 0 0 false in
  let z := [2; 0; 0; 1; 0; 4; 1] in
  fast_galaxies 1 (g :: nil) /\ List.length z = (List.length (g :: nil) * (1 + 6))%nat /\ suits Identity z /\ List.length (g :: nil) = n_sources (toy 7 false) /\ is_gradient_at (fun _ => 0) (repeat 0 7) z /\ (forall b ps, (b < 1)%nat -> proposal_of toy_amps (fun _ _ => 0) (fun _ _ => 0) (g :: nil) (transform Identity z) = Some ps ->
     smooth_at (toy 7 false) b (fun n r s => nth s (toy_amps n r) 0) (fun _ r _ => r) (fun n _ _ => n) (map (kernel_row b) ps)).
Proof.
  cbv zeta. split; [repeat constructor|]. split; [reflexivity|]. split; [exact I|]. split; [reflexivity|]. split.
  - split; [reflexivity|]. intros i Hi. do 7 (destruct i as [|i]; [apply derivable_pt_lim_const|]). simpl in Hi. lia.
  - intros b ps Hb H. replace b with 0%nat by lia.
    assert (E : ps = mkProp (2 :: nil) 0 0 1 0 4 1 (4 * 1 :: nil) :: nil).
    { change (Some (mkProp (2 :: nil) 0 0 1 0 4 1 (4 * 1 :: nil) :: nil) = Some ps) in H. congruence. }
    subst ps. change (map (kernel_row 0) (mkProp (2 :: nil) 0 0 1 0 4 1 (4 * 1 :: nil) :: nil)) with (toy_row :: nil).
    apply toy_smooth, toy_spline.
Qed.
