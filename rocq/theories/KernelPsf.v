(** C45, continued: which rows of the PSF table the kernels read. *)
From Verif Require Import Np NpFacts KernelModel.
From Coq Require Import Reals Lia.

(** The same patch with another PSF table *)
Definition with_psf (P : Patch) (q : nat -> PSFGaussian) : Patch :=
  mkPatch (P_data P) (P_ierr P) (P_xpix P) (P_ypix P) (exposure_start P) (exposure_N P) (band_start P) (band_N P)
    (n_sources P) (rad2 P) (P_D P) (P_crpix P) (P_crval P) (P_CW P) (P_G P) (n_psf_per_source P) q (psfgauss_start P).

(** Both kernels, for every source, read the rows packed for the first source of
    the exposure and no other: two tables that agree there give the same image
    Gaussians, whatever was packed for the other sources. *)
Theorem C45_kernel_reads_first_refuted : forall P q band exposure sources,
  (forall p, p < n_psf_per_source P band ->
     q (psfgauss_start P exposure + p) = psfgauss P (psfgauss_start P exposure + p)) ->
  CreateImageGaussians (with_psf P q) band exposure sources = CreateImageGaussians P band exposure sources /\
  forall tid, tid < n_sources P * n_psf_per_source P band ->
    ConvolveOne (with_psf P q) band exposure tid (n_psf_per_source P band) sources =
    ConvolveOne P band exposure tid (n_psf_per_source P band) sources.
Proof.
  intros P q band exposure sources H. split.
  - unfold CreateImageGaussians. cbn [n_sources n_psf_per_source with_psf].
    assert (G : forall l, flat_map (fun sid => ConvolveOneSource (with_psf P q) band exposure sid (n_psf_per_source P band) (sources sid)) l =
      flat_map (fun sid => ConvolveOneSource P band exposure sid (n_psf_per_source P band) (sources sid)) l).
    { induction l as [|sid l IH]; [reflexivity|]. cbn [flat_map]. rewrite IH. f_equal. unfold ConvolveOneSource.
      apply map_ext_in. intros p Hp. apply in_seq in Hp. cbn [psfgauss psfgauss_start with_psf].
      rewrite H by lia. reflexivity. }
    apply G.
  - intros tid Ht. unfold ConvolveOne. cbn [psfgauss psfgauss_start with_psf].
    set (n := n_psf_per_source P band) in *. assert (n <> 0) by lia.
    pose proof (Nat.div_mod tid n ltac:(assumption)). pose proof (Nat.mod_upper_bound tid n ltac:(assumption)).
    rewrite H by lia. reflexivity.
Qed.
Print Assumptions C45_kernel_reads_first_refuted.
(** Two sources with one component each: the second row is never read. *)
Example second_row : forall P q, n_sources P = 2 -> (forall b, n_psf_per_source P b = 1) -> psfgauss_start P 0 = 0 ->
  q 0 = psfgauss P 0 -> forall sources, CreateImageGaussians (with_psf P q) 0 0 sources = CreateImageGaussians P 0 0 sources.
Proof.
  intros P q _ H1 H2 H3 sources. apply C45_kernel_reads_first_refuted. intros p Hp. rewrite H1 in Hp. replace p with 0 by lia.
  rewrite H2. exact H3.
Qed.
