(** * Numbers as the device holds them: single precision

    patches/patch.py 81-82 and 226-227: pixel data and metadata are packed as
    np.float32; proposal.py 229-239: so is every number of a proposed source;
    src/patch.cc 19: [typedef float PixFloat].  The kernel then works in
    float, except for the sum of chi-square, which is double.

    Simplified: numbers are reals, and an operation is the exact one followed
    by rounding to nearest, ties to even.  There is no largest number, so
    overflow, infinities and NaN are left out.  Multiplications and additions
    are rounded one by one: a compiler that contracts them into fused
    operations (nvcc does unless told otherwise) rounds less often.  The
    exponential and the shape of a Gaussian are not computed here: the counts
    of a Gaussian in a pixel are given. *)
From Coq Require Import Reals List ZArith.
From Flocq Require Import Core.
From Verif Require Import DeviceFloat.
Import ListNotations.
Open Scope R_scope.

(** float32: 24 bits, smallest positive number 2^-149. *)
Definition fexp32 := FLT_exp (-149) 24.
(** A value is stored in an array of float32: [a[i] = x] (patch.py 315-338),
    [astype(np.float32)] (pixel_patch.py 192-195), assignment to a [float]. *)
Definition rnd32 (x : R) : R := round radix2 fexp32 ZnearestE x.

(** ** What is packed (patches/patch.py) *)
(** 453-456: [source.ra -= zero[0]] in double precision. *)
Definition zeroed (x z : R) : R := rnd64 (x - z).
(** 332, 337: [ssky = s.ra + ra0]; [crval[j, i] = ssky - reference]: computed
    in double precision and stored in single. *)
Definition sky_of (s z : R) : R := rnd64 (s + z).
Definition packed_crval (s z : R) : R := rnd32 (rnd64 (sky_of s z - z)).
(** 338: [crpix[j, i] = wcs.world_to_pixel_values(ssky)]; one coordinate. *)
Definition packed_crpix (w2p : R -> R) (s z : R) : R := rnd32 (w2p (sky_of s z)).
(** proposal.py 230: the [ra] of a proposed source. *)
Definition proposed (ra : R) : R := rnd32 ra.

(** ** Where the kernel puts a source (src/compute_gaussians_kernel.cc 62-67, 92-95;
    src/matrix22.cc 189-193): [smean = ra - crval]; [A.v11*v1 + A.v12*v2];
    [smean + crpix]. One pixel coordinate, with a row [(a, b)] of CW. *)
Definition centre (a b : R) (crval : R * R) (crpix : R) (ra dec : R) : R :=
  let v1 := rnd32 (ra - fst crval) in
  let v2 := rnd32 (dec - snd crval) in
  rnd32 (rnd32 (rnd32 (a * v1) + rnd32 (b * v2)) + crpix).

(** ** One pixel (src/common_kernel.cc 57-83): [residual = data], then
    [residual -= C] for every Gaussian that is not too far away. [cs] are the
    counts of those Gaussians. *)
Definition residual (data : R) (cs : list R) : R := fold_left (fun r c => rnd32 (r - c)) cs data.

(** src/compute_gaussians_kernel.cc 286-292: [residual *= ierr; data *= ierr] in float;
    [chi2 = (double) residual - (double) data; chi2 *= (double) residual + (double) data]. *)
Definition scaled (x ierr : R) : R := rnd32 (x * ierr).
Definition chi2_of (r d : R) : R := rnd64 (rnd64 (r - d) * rnd64 (r + d)).
Definition pixel_chi2 (data ierr : R) (cs : list R) : R :=
  chi2_of (scaled (residual data cs) ierr) (scaled data ierr).

(** ** Over the pixels
    compute_gaussians_kernel.cc 239, 293: [double pchi2 = 0; pchi2 += chi2]. *)
Definition total64 (xs : list R) : R := fold_left (fun t x => rnd64 (t + x)) xs 0.
Record pixel := Pixel { p_data : R; p_ierr : R; p_counts : list R }.
Definition device_chi2 (ps : list pixel) : R := total64 (map (fun p => pixel_chi2 (p_data p) (p_ierr p) (p_counts p)) ps).
(** compute_gaussians_kernel.cc 233-235, 302: [pdchi2_dp[i] = 0; pdchi2_dp[i] += dchi2_dp[j]], in float. *)
Definition total32 (xs : list R) : R := fold_left (fun t x => rnd32 (t + x)) xs 0.
