(** The CUDA version of the kernel: /repo/forcepho/src/compute_gaussians_kernel.cu.

    Simplifications: floats are reals; one block (one band) is modelled; threads run
    in lock step only where the shuffles need it; the order in which atomicAdd and
    plain writes of different threads take effect is arbitrary ([Permutation]); a
    shuffle that reads a lane which is not executing the instruction returns an
    arbitrary value ([junk], the CUDA manual leaves it undefined). *)
From Verif Require Import Np KernelModel.
From Coq Require Import Reals Permutation.
Open Scope nat_scope.

(** warpSize *)
Definition WARP := 32.
(** kernel_limits.h 23 *)
Definition NUMACCUMS := 1.

(** for (int p = p0; p < N; p += step), 71 and 262: the values of [p]; [fuel] is at least N. *)
Fixpoint strides (fuel p N step : nat) : list nat :=
  match fuel with
  | O => []
  | S fuel => if p <? N then p :: strides fuel (p + step) N step else []
  end.

(** Memory written by several threads: the writes take effect in the order of the list. *)
Definition write_all {A} (m : nat -> A) (writes : list (nat * A)) : nat -> A :=
  fold_left (fun m w i => if i =? fst w then snd w else m i) writes m.

(** CreateImageGaussians 45-127: the writes to imageGauss of all [bd] threads *)
Definition gaussian_writes (P : Patch) (bd band exposure : nat) (sources : nat -> KSource) : list (nat * ImageGaussian) :=
  let n_psf := n_psf_per_source P band in
  let n_gal_gauss := n_sources P * n_psf in
  flat_map (fun thread => map (fun tid => (tid, ConvolveOne P band exposure tid n_psf sources)) (strides n_gal_gauss thread n_gal_gauss bd)) (seq 0 bd).
(** imageGauss[0 .. n_gauss_total-1] after the barrier at 260, starting from memory [m0] *)
Definition gpu_gaussians (P : Patch) (bd band exposure : nat) (sources : nat -> KSource) (m0 : nat -> ImageGaussian) (gs : list ImageGaussian) : Prop :=
  exists order, Permutation order (gaussian_writes P bd band exposure sources) /\
    gs = map (write_all m0 order) (seq 0 (n_sources P * n_psf_per_source P band)).

(** input += __shfl_down_sync(FULL_MASK, input, d), 151-155 *)
Definition shfl_step (active : nat -> bool) (junk : nat -> nat -> R) (v : nat -> R) (d : nat) : nat -> R :=
  fun i => (v i + (if (i + d <? WARP)%nat then (if active (i + d)%nat then v (i + d)%nat else junk d i) else v i))%R.
(** warpReduceSum 150-158: what lane 0 hands to atomicAdd *)
Definition warp_reduce (active : nat -> bool) (junk : nat -> nat -> R) (v : nat -> R) : R :=
  fold_left (shfl_step active junk) [16; 8; 4; 2; 1] v 0.

(** 251-252; all divisions are integer divisions, so ceilf has no effect. [None]: division by zero *)
Definition threads_per_accum (bd : nat) : nat := bd / WARP / NUMACCUMS * WARP.
Definition accumnum (bd thread : nat) : option nat :=
  if threads_per_accum bd =? 0 then None else Some (thread / threads_per_accum bd).

(** The pixel loop 262-301: for one accumulator cell to which pixel [pix] of an
    exposure with [N] pixels from [start] contributes [f pix], the values
    atomically added to it, for all warps of the block. *)
Definition contributions (f : nat -> R) (start N bd : nat) (junk : nat -> nat -> nat -> nat -> R) : list R :=
  flat_map (fun w => map (fun p0 =>
      warp_reduce (fun lane => (WARP * w + lane <? bd) && (p0 + lane <? N)) (junk w p0) (fun lane => f (start + (p0 + lane))))
    (strides N (WARP * w) N bd)) (seq 0 ((bd + 31) / WARP)).
(** The value of that cell after all exposures (255-304), from zero (247). *)
Definition cell (P : Patch) (b bd : nat) (junk : nat -> nat -> nat -> nat -> nat -> R) (f : nat -> nat -> R) (value : R) : Prop :=
  exists order, Permutation order (flat_map (fun e => contributions (f e) (exposure_start P e) (exposure_N P e) bd (junk e))
                                            (map (fun e => band_start P b + e) (seq 0 (band_N P b)))) /\
    value = fold_left Rplus order 0%R.

(** 265-284: the pixel's chi2; 287-293: derivative [j] of source [gal] *)
Definition pixel_chi2 (P : Patch) (gs : list ImageGaussian) (pix : nat) : R :=
  let data := P_data P pix in
  let ierr := P_ierr P pix in
  let residual := ComputeResidualImage (P_xpix P pix) (P_ypix P pix) data gs in
  ((residual * ierr - data * ierr) * (residual * ierr + data * ierr))%R.
Definition pixel_grad (P : Patch) (n_gal_gauss : nat) (gs : list ImageGaussian) (gal j pix : nat) : R :=
  let ierr := P_ierr P pix in
  let residual := ComputeResidualImage (P_xpix P pix) (P_ypix P pix) (P_data P pix) gs in
  nth j (ComputeGaussianDerivative (P_xpix P pix) (P_ypix P pix) (residual * ierr * ierr)%R
           (firstn n_gal_gauss (skipn (gal * n_gal_gauss) gs)) (repeat 0%R NPARAMS)) 0%R.
(** EvaluateProposal 213-312: chi2 and the n_sources*NPARAMS stored derivatives (180-185) *)
Definition gpu_evaluate (P : Patch) (b bd : nat) (sources : nat -> KSource) (chi2 : R) (dchi2_dp : list R) : Prop :=
  exists gs : nat -> list ImageGaussian,
    (forall e, exists m0, gpu_gaussians P bd b e sources m0 (gs e)) /\
    (exists junk, cell P b bd junk (fun e => pixel_chi2 P (gs e)) chi2) /\
    length dchi2_dp = n_sources P * NPARAMS /\
    forall gal j, gal < n_sources P -> j < NPARAMS ->
      exists junk, cell P b bd junk (fun e => pixel_grad P (n_psf_per_source P b) (gs e) gal j) (nth (NPARAMS * gal + j) dchi2_dp 0%R).
(** 273-274: patch->residual after the loop over the pixels of one exposure *)
Definition residual_writes (P : Patch) (bd exposure : nat) (gs : list ImageGaussian) : list (nat * R) :=
  flat_map (fun thread => map (fun p => let pix := exposure_start P exposure + p in
       (pix, ComputeResidualImage (P_xpix P pix) (P_ypix P pix) (P_data P pix) gs))
    (strides (exposure_N P exposure) thread (exposure_N P exposure) bd)) (seq 0 bd).
