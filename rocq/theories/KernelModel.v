(** The compiled likelihood kernel:
    /repo/forcepho/src/matrix22.cc, common_kernel.cc, compute_gaussians_kernel.cc,
    patch.cc, proposal.cu, kernel_limits.h, and the reshaping of its output in
    CPUProposer.evaluate_proposal (proposal.py 180-226).

    Simplifications common to the file: [float] and [double] are the real numbers
    (no rounding, no overflow); a C array behind a pointer is a function from
    indices (reads outside the allocation are not detected); the division by zero
    of C is the (unspecified) division by zero of [R]. *)
From Verif Require Import Np.
From Coq Require Import Reals.
Open Scope R_scope.
Open Scope nat_scope.

(** ** matrix22.cc *)
(** class matrix22, 31-34 *)
Record matrix22 := M22 { v11 : R; v12 : R; v21 : R; v22 : R }.
(** matrix22(const float d[]) 49-51: four consecutive floats at [d + start] *)
Definition m_read (d : nat -> R) (start : nat) : matrix22 :=
  M22 (d start) (d (start + 1)) (d (start + 2)) (d (start + 3)).
Local Open Scope R_scope.
(** rot 70-73 *)
Definition m_rot (theta : R) : matrix22 := M22 (cos theta) (- sin theta) (sin theta) (cos theta).
(** rotation_matrix_deriv 75-79 *)
Definition m_rot_deriv (theta : R) : matrix22 := M22 (- sin theta) (- cos theta) (cos theta) (- sin theta).
(** scale 81-83 *)
Definition m_scale (q : R) : matrix22 := M22 (1 / q) 0 0 q.
(** scale_matrix_deriv 85-88 *)
Definition m_scale_deriv (q : R) : matrix22 := M22 (- 1 / (q * q)) 0 0 1.
(** det 98 *)
Definition m_det (a : matrix22) : R := v11 a * v22 a - v12 a * v21 a.
(** trace 101 *)
Definition m_trace (a : matrix22) : R := v11 a + v22 a.
(** inv 104-107 *)
Definition m_inv (a : matrix22) : matrix22 :=
  let idet := 1 / m_det a in M22 (v22 a * idet) (- v12 a * idet) (- v21 a * idet) (v11 a * idet).
(** scalar * matrix 123-125 *)
Definition m_smul (s : R) (a : matrix22) : matrix22 := M22 (s * v11 a) (s * v12 a) (s * v21 a) (s * v22 a).
(** matrix + matrix 128-130 *)
Definition m_add (a b : matrix22) : matrix22 := M22 (v11 a + v11 b) (v12 a + v12 b) (v21 a + v21 b) (v22 a + v22 b).
(** matrix * matrix 136-139 *)
Definition m_mul (a b : matrix22) : matrix22 :=
  M22 (v11 a * v11 b + v12 a * v21 b) (v11 a * v12 b + v12 a * v22 b)
      (v21 a * v11 b + v22 a * v21 b) (v21 a * v12 b + v22 a * v22 b).
(** ABA 144-150 *)
Definition m_ABA (a b : matrix22) : matrix22 :=
  M22 (v11 a * v11 a * v11 b + v11 a * v21 a * v12 b + v11 a * v12 a * v21 b + v12 a * v21 a * v22 b)
      (v11 a * v12 a * v11 b + v11 a * v22 a * v12 b + v12 a * v12 a * v21 b + v12 a * v22 a * v22 b)
      (v11 a * v21 a * v11 b + v21 a * v21 a * v12 b + v11 a * v22 a * v21 b + v21 a * v22 a * v22 b)
      (v12 a * v21 a * v11 b + v21 a * v22 a * v12 b + v12 a * v22 a * v21 b + v22 a * v22 a * v22 b).
(** AAt 153-156 *)
Definition m_AAt (a : matrix22) : matrix22 :=
  let tmp := v11 a * v21 a + v12 a * v22 a in
  M22 (v11 a * v11 a + v12 a * v12 a) tmp tmp (v21 a * v21 a + v22 a * v22 a).
(** symABt 164-167 *)
Definition m_symABt (a b : matrix22) : matrix22 :=
  let tmp := v11 a * v21 b + v12 a * v22 b + v21 a * v11 b + v22 a * v12 b in
  M22 (2 * (v11 a * v11 b + v12 a * v12 b)) tmp tmp (2 * (v21 a * v21 b + v22 a * v22 b)).
(** Av 189-193 *)
Definition m_Av (a : matrix22) (v : R * R) : R * R :=
  (v11 a * fst v + v12 a * snd v, v21 a * fst v + v22 a * snd v).

(** ** common_kernel.cc *)
(** class ImageGaussian 20-46: six parameters and fifteen Jacobian entries *)
Record ImageGaussian := mkIG {
  amp : R; xcen : R; ycen : R; fxx : R; fyy : R; fxy : R;
  dA_dFlux : R; dx_dAlpha : R; dy_dAlpha : R; dx_dDelta : R; dy_dDelta : R;
  dA_dQ : R; dFxx_dQ : R; dFyy_dQ : R; dFxy_dQ : R;
  dA_dPA : R; dFxx_dPA : R; dFyy_dPA : R; dFxy_dPA : R;
  dA_dSersic : R; dA_drh : R }.
(** kernel_limits.h 17 *)
Definition MAX_EXP_ARG : R := 36.

(** The body of the loop of ComputeResidualImage 64-80: what is subtracted. *)
Definition residual_term (xp yp : R) (g : ImageGaussian) : R :=
  let dx := xp - xcen g in
  let dy := yp - ycen g in
  let vx := fxx g * dx + fxy g * dy in
  let vy := fyy g * dy + fxy g * dx in
  let exparg := dx * vx + dy * vy in
  if Rlt_dec MAX_EXP_ARG exparg then 0 else
  let Gp := exp (- (1/2) * exparg) in
  let H := 1 + (vx * vx + vy * vy - fxx g - fyy g) / 24 in
  amp g * Gp * H.
(** ComputeResidualImage 57-83; a skipped Gaussian ([continue], 73) subtracts 0. *)
Definition ComputeResidualImage (xp yp data : R) (gs : list ImageGaussian) : R :=
  fold_left (fun residual g => residual - residual_term xp yp g) gs data.

(** ComputeGaussianDerivative 102-130: dC_dA, dC_dx, dC_dy, dC_dfx, dC_dfy, dC_dfxy *)
Definition pixel_derivs (xp yp residual_ierr2 : R) (g : ImageGaussian) : R * R * R * R * R * R :=
  let dx := xp - xcen g in
  let dy := yp - ycen g in
  let vx := fxx g * dx + fxy g * dy in
  let vy := fyy g * dy + fxy g * dx in
  let exparg := dx * vx + dy * vy in
  if Rlt_dec MAX_EXP_ARG exparg then (0, 0, 0, 0, 0, 0) else
  let Gp := exp (- (1/2) * exparg) in
  let H := 1 + (vx * vx + vy * vy - fxx g - fyy g) * (1 / 24) in
  let dC_dA0 := - 2 * residual_ierr2 * Gp in
  let c_h := dC_dA0 * amp g in
  let dC_dA := dC_dA0 * H in
  let C := c_h * H in
  let dC_dx := C * vx - c_h * (fxx g * vx + fxy g * vy) * (1 / 12) in
  let dC_dy := C * vy - c_h * (fyy g * vy + fxy g * vx) * (1 / 12) in
  let dC_dfx := - (1/2) * C * dx * dx - c_h * (1 - 2 * dx * vx) * (1 / 24) in
  let dC_dfy := - (1/2) * C * dy * dy - c_h * (1 - 2 * dy * vy) * (1 / 24) in
  let dC_dfxy := - 1 * C * dx * dy + c_h * (dy * vx + dx * vy) * (1 / 12) in
  (dC_dA, dC_dx, dC_dy, dC_dfx, dC_dfy, dC_dfxy).
(** 135-141: what one Gaussian adds to dchi2_dp[0..6] (a skipped Gaussian adds 0s) *)
Definition derivative_row (xp yp residual_ierr2 : R) (g : ImageGaussian) : list R :=
  match pixel_derivs xp yp residual_ierr2 g with
  | (dC_dA, dC_dx, dC_dy, dC_dfx, dC_dfy, dC_dfxy) =>
    [ dA_dFlux g * dC_dA;
      dx_dAlpha g * dC_dx + dy_dAlpha g * dC_dy;
      dx_dDelta g * dC_dx + dy_dDelta g * dC_dy;
      dA_dQ g * dC_dA + dC_dfx * dFxx_dQ g + dC_dfxy * dFxy_dQ g + dC_dfy * dFyy_dQ g;
      dA_dPA g * dC_dA + dC_dfx * dFxx_dPA g + dC_dfxy * dFxy_dPA g + dC_dfy * dFyy_dPA g;
      dA_dSersic g * dC_dA;
      dA_drh g * dC_dA ]
  end.
(** elementwise += on the NPARAMS accumulators *)
Definition row_add (a b : list R) : list R := map (fun p => fst p + snd p) (combine a b).
(** ComputeGaussianDerivative 95-143 over the Gaussians of one galaxy *)
Definition ComputeGaussianDerivative (xp yp residual_ierr2 : R) (gs : list ImageGaussian) (dchi2_dp : list R) : list R :=
  fold_left (fun acc g => row_add acc (derivative_row xp yp residual_ierr2 g)) gs dchi2_dp.

(** PixGaussian 151-168 *)
Record PixGaussian := mkPG {
  s_amp : R; s_xcen : R; s_ycen : R; s_covar : R; s_flux : R; s_G : R; s_da_dn : R; s_da_dr : R;
  s_CW : matrix22; s_T : matrix22; s_dT_dq : matrix22; s_dT_dpa : matrix22 }.
(** PSFSourceGaussian, patch.cc 103-119 *)
Record PSFGaussian := mkPSF { p_amp : R; p_xcen : R; p_ycen : R; p_Cxx : R; p_Cyy : R; p_Cxy : R; sersic_radius_bin : nat }.

(** GetGaussianAndJacobian 175-240 *)
Definition GetGaussianAndJacobian (s : PixGaussian) (p : PSFGaussian) : ImageGaussian :=
  let scovar_im := m_smul (s_covar s) (m_AAt (s_T s)) in
  let covar := m_add scovar_im (M22 (p_Cxx p) (p_Cxy p) (p_Cxy p) (p_Cyy p)) in
  let f := m_inv covar in
  let detF := m_det f in
  let tmp := s_G s * p_amp p * sqrt detF * (1 / (2 * PI)) in
  let a := tmp * s_flux s * s_amp s in
  let dSigma_dq := m_smul (s_covar s) (m_symABt (s_T s) (s_dT_dq s)) in
  let dSigma_dpa := m_smul (s_covar s) (m_symABt (s_T s) (s_dT_dpa s)) in
  let dF_dq := m_smul (- 1) (m_ABA f dSigma_dq) in
  let dF_dpa := m_smul (- 1) (m_ABA f dSigma_dpa) in
  {| amp := a; xcen := s_xcen s + p_xcen p; ycen := s_ycen s + p_ycen p;
     fxx := v11 f; fyy := v22 f; fxy := v21 f;
     dA_dFlux := tmp * s_amp s;
     dx_dAlpha := v11 (s_CW s); dy_dAlpha := v21 (s_CW s);
     dx_dDelta := v12 (s_CW s); dy_dDelta := v22 (s_CW s);
     dA_dQ := 1/2 * a * m_trace (m_mul covar dF_dq);
     dFxx_dQ := v11 dF_dq; dFyy_dQ := v22 dF_dq; dFxy_dQ := v21 dF_dq;
     dA_dPA := 1/2 * a * m_trace (m_mul covar dF_dpa);
     dFxx_dPA := v11 dF_dpa; dFyy_dPA := v22 dF_dpa; dFxy_dPA := v21 dF_dpa;
     dA_dSersic := tmp * s_flux s * s_da_dn s;
     dA_drh := tmp * s_flux s * s_da_dr s |}.

(** ** compute_gaussians_kernel.cc *)
Open Scope nat_scope.
(** class Patch, patch.cc 23-100; the residual output pointer is [residual_image] below *)
Record Patch := mkPatch {
  P_data : nat -> R; P_ierr : nat -> R; P_xpix : nat -> R; P_ypix : nat -> R;
  exposure_start : nat -> nat; exposure_N : nat -> nat; band_start : nat -> nat; band_N : nat -> nat;
  n_sources : nat; rad2 : nat -> R;
  P_D : nat -> R; P_crpix : nat -> R; P_crval : nat -> R; P_CW : nat -> R; P_G : nat -> R;
  n_psf_per_source : nat -> nat; psfgauss : nat -> PSFGaussian; psfgauss_start : nat -> nat }.
(** class Source, proposal.cu 13-27 *)
Record KSource := mkKS {
  k_ra : R; k_dec : R; k_q : R; k_pa : R; k_fluxes : nat -> R;
  mixture_amplitudes : nat -> R; damplitude_drh : nat -> R; damplitude_dnsersic : nat -> R }.

(** ConvolveOneSource 45-95: everything before the loop over [p] *)
Definition source_setup (P : Patch) (exposure g : nat) (galaxy : KSource)
  : R * R * matrix22 * matrix22 * matrix22 * matrix22 :=
  let d_cw_start := 4 * (n_sources P * exposure + g) in
  let cr_start := 2 * (n_sources P * exposure + g) in
  let smean := ((k_ra galaxy - P_crval P cr_start)%R, (k_dec galaxy - P_crval P (cr_start + 1))%R) in
  let D := m_read (P_D P) d_cw_start in
  let Rm := m_rot (k_pa galaxy) in
  let S := m_scale (k_q galaxy) in
  let T := m_mul (m_mul D Rm) S in
  let dT_dq := m_mul (m_mul D Rm) (m_scale_deriv (k_q galaxy)) in
  let dT_dpa := m_mul (m_mul D (m_rot_deriv (k_pa galaxy))) S in
  let CW := m_read (P_CW P) d_cw_start in
  let w := m_Av CW smean in
  ((fst w + P_crpix P cr_start)%R, (snd w + P_crpix P (cr_start + 1))%R, CW, T, dT_dq, dT_dpa).
(** The PixGaussian handed to GetGaussianAndJacobian for PSF component [p] (97-112) *)
Definition pix_gaussian (P : Patch) (band exposure g : nat) (galaxy : KSource) (psf : PSFGaussian) : PixGaussian :=
  match source_setup P exposure g galaxy with
  | (x, y, CW, T, dT_dq, dT_dpa) =>
    let s := sersic_radius_bin psf in
    mkPG (mixture_amplitudes galaxy s) x y (rad2 P s) (k_fluxes galaxy band) (P_G P exposure)
         (damplitude_dnsersic galaxy s) (damplitude_drh galaxy s) CW T dT_dq dT_dpa
  end.
(** ConvolveOneSource 45-114: the entries [g*n .. g*n+n-1] of imageGauss *)
Definition ConvolveOneSource (P : Patch) (band exposure g n : nat) (galaxy : KSource) : list ImageGaussian :=
  map (fun p => let psf := psfgauss P (psfgauss_start P exposure + p) in
                GetGaussianAndJacobian (pix_gaussian P band exposure g galaxy psf) psf) (seq 0 n).
(** ConvolveOne 119-193: the entry [tid] of imageGauss (used by the CUDA kernel) *)
Definition ConvolveOne (P : Patch) (band exposure tid n : nat) (sources : nat -> KSource) : ImageGaussian :=
  let g := tid / n in
  let p := tid - g * n in
  let psf := psfgauss P (psfgauss_start P exposure + p) in
  GetGaussianAndJacobian (pix_gaussian P band exposure g (sources g) psf) psf.
(** CreateImageGaussians 197-215 *)
Definition CreateImageGaussians (P : Patch) (band exposure : nat) (sources : nat -> KSource) : list ImageGaussian :=
  flat_map (fun sid => ConvolveOneSource P band exposure sid (n_psf_per_source P band) (sources sid)) (seq 0 (n_sources P)).

(** kernel_limits.h 8 and 11 *)
Definition MAXSOURCES := 30.
Definition NPARAMS := 7.
(** pdchi2_dp[i] += v *)
Definition add_at (l : list R) (i : nat) (v : R) : list R := upd i (nth i l 0 + v)%R l.
(** One pixel: 271-303.  [acc] is (pchi2, pdchi2_dp). *)
Definition pixel_pass (P : Patch) (n_gal_gauss : nat) (imageGauss : list ImageGaussian) (acc : R * list R) (pix : nat)
  : R * list R :=
  let xp := P_xpix P pix in
  let yp := P_ypix P pix in
  let data := P_data P pix in
  let ierr := P_ierr P pix in
  let residual := ComputeResidualImage xp yp data imageGauss in
  let residual1 := (residual * ierr)%R in
  let data1 := (data * ierr)%R in
  let chi2 := ((residual1 - data1) * (residual1 + data1))%R in
  let residual2 := (residual1 * ierr)%R in
  let pd := fold_left (fun pd gal =>
       let d := ComputeGaussianDerivative xp yp residual2
                  (firstn n_gal_gauss (skipn (gal * n_gal_gauss) imageGauss)) (repeat 0%R NPARAMS) in
       fold_left (fun pd j => add_at pd (gal * NPARAMS + j) (nth j d 0%R)) (seq 0 NPARAMS) pd)
     (seq 0 (n_sources P)) (snd acc) in
  ((fst acc + chi2)%R, pd).
(** One exposure: 261-304 *)
Definition exposure_pass (P : Patch) (band : nat) (sources : nat -> KSource) (acc : R * list R) (exposure : nat) : R * list R :=
  let imageGauss := CreateImageGaussians P band exposure sources in
  fold_left (fun acc p => pixel_pass P (n_psf_per_source P band) imageGauss acc (exposure_start P exposure + p))
            (seq 0 (exposure_N P exposure)) acc.
(** EvaluateProposal 227-315: (chi2, dchi2_dp).  The output array has
    NPARAMS*MAXSOURCES entries; with more sources C writes past its end (here:
    [upd] ignores the write), so users of the model ask n_sources <= MAXSOURCES. *)
Definition EvaluateProposal (P : Patch) (band : nat) (sources : nat -> KSource) : R * list R :=
  fold_left (fun acc e => exposure_pass P band sources acc (band_start P band + e)) (seq 0 (band_N P band))
            (0%R, repeat 0%R (NPARAMS * MAXSOURCES)).
(** 281-283: patch->residual[pix] for the pixels of one exposure *)
Definition residual_image (P : Patch) (band exposure : nat) (sources : nat -> KSource) : list R :=
  map (fun p => let pix := exposure_start P exposure + p in
         ComputeResidualImage (P_xpix P pix) (P_ypix P pix) (P_data P pix) (CreateImageGaussians P band exposure sources))
      (seq 0 (exposure_N P exposure)).

(** CPUProposer.evaluate_proposal, proposal.py 203-216: reshape(MAXSOURCES,
    NPARAMS)[:n_sources], one kernel call per band *)
Definition chunk_rows (n : nat) (flat : list R) : list (list R) :=
  map (fun s => firstn NPARAMS (skipn (s * NPARAMS) flat)) (seq 0 n).
Definition evaluate_proposal (P : Patch) (n_bands : nat) (sources : nat -> KSource) : list R * list (list (list R)) :=
  (map (fun b => fst (EvaluateProposal P b sources)) (seq 0 n_bands),
   map (fun b => chunk_rows (n_sources P) (snd (EvaluateProposal P b sources))) (seq 0 n_bands)).
