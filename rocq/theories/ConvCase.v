(** Cases for C79: an elongated, turned source through a tilted PSF component on
    stretched pixels; a star; and a patch. *)
From Coq Require Import Reals Lra Lia List ZArith.
From Coquelicot Require Import Coquelicot.
From Verif Require Import Np NpFacts KernelModel KernelFacts KernelProps GaussInt PixelFacts PixelProps PixelCase ConvProps.
Import ListNotations.
Open Scope R_scope.

Definition stretched := M22 2 1 0 3.
Definition turned : PixGaussian := mkPG (/ 2) 5 7 2 4 3 0 0 I2 (m_mul (m_mul stretched (m_rot (PI / 6))) (m_scale (/ 2))) I2 I2.
Lemma convolution_case : forall x y, exists L, convolved (/ 2) (PI / 6) 2 stretched 5 7 tilted x y L /\ brightness (GetGaussianAndJacobian turned tilted) x y = 3 * 4 * / 2 * L.
Proof. intros x y. apply (C79_convolution stretched (/ 2) (PI / 6) turned tilted 1 x y); [reflexivity|lra|cbn; lra|lra|exact tilted_wide]. Qed.
(** There is light: the value at the centre is not zero. *)
Lemma light_case : brightness (GetGaussianAndJacobian turned tilted) 5 7 <> 0.
Proof.
  rewrite (brightness_made turned tilted 1 5 7 ltac:(cbn; lra) ltac:(lra) tilted_wide). destruct (sdet_pos turned tilted 1 ltac:(cbn; lra) ltac:(lra) tilted_wide) as (D & _). pose proof (sqrt_lt_R0 _ D). pose proof PI_RGT_0.
  apply Rmult_integral_contrapositive_currified; [cbn; lra|]. apply Rmult_integral_contrapositive_currified; [|apply Rgt_not_eq, exp_pos]. apply Rgt_not_eq. apply Rdiv_lt_0_compat; [cbn; lra|]. apply Rmult_lt_0_compat; lra.
Qed.
Lemma point_case : forall x y, brightness (GetGaussianAndJacobian (blob 0) tilted) x y = 1 * 2 * 1 * psf_light tilted (x - 5) (y - 7).
Proof. intros x y. apply (C79_point (blob 0) tilted 1 x y); [reflexivity|lra|exact tilted_wide]. Qed.
Lemma unit_case : exists row, (forall n, on_line (fun e => profile (/ 2) 1 3 e n) (row n)) /\ on_line row 1.
Proof. apply (C79_unit (/ 2) 1 3 tilted 1); try lra. exact tilted_wide. Qed.
Definition lone (_ : nat) : KSource := mkKS 1 2 (/ 2) 1 (fun _ => 5) (fun _ => 1) (fun _ => 0) (fun _ => 0).
Lemma patch_case : forall x y, exists L, convolved (/ 2) 1 1 I2 1 2 tilted x y L /\ total (fun g => brightness g x y) (CreateImageGaussians two_pixels 0 0 lone) = 5 * L.
Proof.
  intros x y. destruct (C79_patch two_pixels 0 0 lone 1 x y ltac:(lra)) as (L & H1 & H2).
  - intros k _. split; [exact tilted_wide|]. cbn. lra.
  - intros sid _. cbn. lra.
  - exists (L 0%nat 0%nat). split.
    + specialize (H1 0%nat 0%nat ltac:(cbn; lia) ltac:(cbn; lia)). cbv zeta in H1.
      assert (E : source_x two_pixels 0 0 (lone 0) = 1 /\ source_y two_pixels 0 0 (lone 0) = 2) by (unfold source_x, source_y; cbn; split; ring). destruct E as (E1 & E2). rewrite E1, E2 in H1. exact H1.
    + rewrite H2. unfold columns. cbn [two_pixels n_sources n_psf_per_source seq map fold_right P_G lone k_fluxes mixture_amplitudes]. ring.
Qed.
