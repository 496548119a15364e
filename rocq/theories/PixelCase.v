(** A case for the theorems of C78: a source of flux 2 seen through a tilted PSF
    component, on a patch of two pixels; and a point source through a PSF
    component of a fortieth of a pixel squared. *)
From Coq Require Import Reals Lra Lia List ZArith.
From Coquelicot Require Import Coquelicot.
From Verif Require Import Np NpFacts KernelModel KernelFacts KernelProps GaussInt PixelFacts PixelProps.
Import ListNotations.
Open Scope R_scope.

Definition I2 := M22 1 0 0 1.
Definition tilted : PSFGaussian := mkPSF 1 0 0 3 2 1 0.
Definition pointed : PSFGaussian := mkPSF 1 0 0 (/ 40) (/ 40) 0 0.
Definition blob (r2 : R) : PixGaussian := mkPG 1 5 7 r2 2 1 0 0 I2 I2 I2 I2.
Lemma tilted_wide : wide tilted 1.
Proof. unfold wide, tilted. cbn [p_Cxx p_Cyy p_Cxy]. lra. Qed.
(** The hypotheses hold, and the bound says something: the pixel at the centre has light. *)
Lemma width_case : let g := GetGaussianAndJacobian (blob 1) tilted in
  shape g /\ Rabs (rendered 5 7 (g :: nil) - pixel_light g 5 7) <= Rabs (amp g) * (/ (45 * 1 ^ 2) + exp (-18) * (1 + 37 / (12 * 1))) /\ fxx g + fyy g <= 24 /\ 0 <= rendered 6 9 (g :: nil).
Proof.
  intros g. destruct (C78_width (blob 1) tilted 1 ltac:(cbn; lra) ltac:(lra) tilted_wide) as (S0 & F1 & F2 & A). fold g in S0, F1, F2, A. cbv zeta in *.
  assert (F : fxx g + fyy g <= 24) by (rewrite Rinv_1 in F1, F2; lra). split; [exact S0|]. split; [apply A|]. split; [exact F|]. apply C78_positive; auto.
  destruct (made (blob 1) tilted) as (E & _). fold g in E. rewrite E. cbn [blob tilted s_G s_flux s_amp p_amp].
  pose proof PI_RGT_0. assert (0 < 1 / (2 * PI)) by (apply Rdiv_lt_0_compat; lra). pose proof (sqrt_pos (m_det (m_inv (M22 (sxx (blob 1) tilted) (sxy (blob 1) tilted) (sxy (blob 1) tilted) (syy (blob 1) tilted))))).
  do 2 (apply Rmult_le_pos; [|lra]). apply Rmult_le_pos; [|lra]. apply Rmult_le_pos; [|assumption]. lra.
Qed.
(** Both sides of the cutoff are met: at the centre, and a hundred pixels away. *)
Lemma pixel_case : let g := GetGaussianAndJacobian (blob 1) tilted in distance2 5 7 g <= MAX_EXP_ARG /\ MAX_EXP_ARG < distance2 105 7 g.
Proof.
  intros g. destruct (made (blob 1) tilted) as (_ & E1 & E2 & E3). fold g in E1, E2, E3.
  assert (X : xcen g = 5 /\ ycen g = 7) by (cbn; lra). destruct X as (X & Y).
  assert (D : sdet (blob 1) tilted = 11) by (unfold sdet, sxx, syy, sxy; cbn; lra). assert (Fx : fxx g = 3 / 11) by (rewrite E1, D; unfold syy; cbn; lra).
  unfold distance2, MAX_EXP_ARG. rewrite X, Y, Fx. split; lra.
Qed.
Lemma flux_case : exists row, (forall y, on_line (fun x => brightness (GetGaussianAndJacobian (blob 1) tilted) x y) (row y)) /\ on_line row 2.
Proof.
  destruct (C78_flux (blob 1) tilted 1 ltac:(cbn; lra) ltac:(lra) tilted_wide) as (row & H1 & H2). exists row. split; [exact H1|]. cbn [blob tilted s_G s_flux s_amp p_amp] in H2. replace 2 with (2 * 1 * 1 * 1) by ring. exact H2.
Qed.
(** A patch: one source, one exposure, two pixels, one PSF component. *)
Definition two_pixels : Patch :=
  mkPatch (fun _ => 3) (fun _ => 1) (fun i => INR i) (fun _ => 0) (fun _ => 0%nat) (fun _ => 2%nat) (fun _ => 0%nat) (fun _ => 1%nat)
          1 (fun _ => 1) (fun i => match i with 0%nat | 3%nat => 1 | _ => 0 end) (fun _ => 0) (fun _ => 0) (fun i => match i with 0%nat | 3%nat => 1 | _ => 0 end) (fun _ => 1)
          (fun _ => 1%nat) (fun _ => tilted) (fun _ => 0%nat).
Lemma image_case : forall sources i, (i < 2)%nat ->
  let gs := CreateImageGaussians two_pixels 0 0 sources in
  length gs = 1%nat /\
  Rabs (nth i (residual_image two_pixels 0 0 sources) 0 - (3 - total (fun g => pixel_light g (INR i) 0) gs)) <= total (fun g => Rabs (amp g)) gs * (/ (45 * 1 ^ 2) + exp (-18) * (1 + 37 / (12 * 1))).
Proof.
  intros sources i Hi gs. split; [reflexivity|]. apply (C78_image two_pixels 0 0 sources i 1 Hi ltac:(lra)). intros k _. split; [exact tilted_wide|]. cbn. lra.
Qed.
Lemma block_case : let g := GetGaussianAndJacobian (blob 1) tilted in
  Rabs (columns 3 (fun j => columns 2 (fun i => rendered (5 + INR i) (6 + INR j) (g :: nil))) - light g (5 - / 2) (5 + INR 2 - / 2) (6 - / 2) (6 + INR 3 - / 2)) <= INR 3 * (INR 2 * tolerance g).
Proof. intros g. apply C78_block. apply (C78_width (blob 1) tilted 1 ltac:(cbn; lra) ltac:(lra) tilted_wide). Qed.
Lemma narrow_case : let g := GetGaussianAndJacobian (blob 0) pointed in rendered 5 7 (g :: nil) < 0 /\ rendered 6 7 (g :: nil) = 0.
Proof.
  intros g. destruct (C78_narrow_refuted (blob 0) pointed 5 7) as (A & B); try (cbn; lra). split; [exact A|]. apply (B 6%Z 7%Z). congruence.
Qed.
