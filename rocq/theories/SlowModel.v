(** The reference renderer: /repo/forcepho/slow/gaussmodel.py and Source.render of
    /repo/forcepho/sources.py.

    Simplifications: floats are reals; a (2, 2) array is a [matrix22]; the stamp is
    an object, not an integer index (96-104); the pixel arrays are handled one pixel
    at a time (all numpy operations in _compute_gaussian are elementwise); the flux
    is the one selected for the stamp's band (116-120); PSF units are 'pixels'
    (131-134), the 'arcsec' branch is [arcsec_means] below. *)
From Verif Require Import Np KernelModel.
From Coq Require Import Reals.
Open Scope R_scope.

Record slow_source := mkSS {
  ss_ra : R; ss_dec : R; ss_q : R; ss_pa : R; ss_flux : R;
  ss_radii : list R; ss_amplitudes : list R; ss_da_dsersic : list R; ss_da_drh : list R }.
(** PointSpreadFunction, slow/psf.py 14-47: (amplitude, mean, covariance) of every Gaussian *)
Definition slow_psf := list (R * (R * R) * matrix22).
Record stamp := mkStamp {
  scale : matrix22; dpix_dsky : matrix22; st_crpix : R * R; st_crval : R * R; photocounts : R; st_psf : slow_psf }.

(** scale_matrix 535-539, rotation_matrix 542-546, and derivatives 550-561 *)
Definition scale_matrix (q : R) := M22 (1 / q) 0 0 q.
Definition rotation_matrix (t : R) := M22 (cos t) (- sin t) (sin t) (cos t).
Definition scale_matrix_deriv (q : R) := M22 (- 1 / (q ^ 2)) 0 0 1.
Definition rotation_matrix_deriv (t : R) := M22 (- sin t) (- cos t) (cos t) (- sin t).
(** A.T *)
Definition transpose (a : matrix22) := M22 (v11 a) (v21 a) (v12 a) (v22 a).
(** fast_inv_2x2 565-580 *)
Definition fast_inv (a : matrix22) :=
  let d := v11 a * v22 a - v21 a * v12 a in M22 (v22 a / d) (- v12 a / d) (- v21 a / d) (v11 a / d).
(** fast_det_2x2 584-592, fast_trace_2x2 596-604 *)
Definition fast_det (a : matrix22) := v11 a * v22 a - v21 a * v12 a.
Definition fast_trace (a : matrix22) := v11 a + v22 a.
(** fast_dot_dot_2x2 608-622 *)
Definition dot_dot (a b c : matrix22) :=
  M22 ((v11 a * v11 b + v12 a * v21 b) * v11 c + (v11 a * v12 b + v12 a * v22 b) * v21 c)
      ((v11 a * v11 b + v12 a * v21 b) * v12 c + (v11 a * v12 b + v12 a * v22 b) * v22 c)
      ((v21 a * v11 b + v22 a * v21 b) * v11 c + (v21 a * v12 b + v22 a * v22 b) * v21 c)
      ((v21 a * v11 b + v22 a * v21 b) * v12 c + (v21 a * v12 b + v22 a * v22 b) * v22 c).
(** np.dot of two matrices, and fast_matmul_matmul_2x2 628-646 *)
Definition dot2 (a b : matrix22) :=
  M22 (v11 a * v11 b + v12 a * v21 b) (v11 a * v12 b + v12 a * v22 b) (v21 a * v11 b + v22 a * v21 b) (v21 a * v12 b + v22 a * v22 b).
Definition matmul_matmul (a b c : matrix22) := dot2 a (dot2 b c).
Definition mneg (a : matrix22) := M22 (- v11 a) (- v12 a) (- v21 a) (- v22 a).
Definition mplus (a b : matrix22) := M22 (v11 a + v11 b) (v12 a + v12 b) (v21 a + v21 b) (v22 a + v22 b).
(** Galaxy.covariances, sources.py 654: radii**2 * eye(2) *)
Definition covariance (r : R) := M22 (r ^ 2 * 1) (r ^ 2 * 0) (r ^ 2 * 0) (r ^ 2 * 1).

(** ImageGaussian 23-48, with the derivs assigned at 267 (7 rows of 6) *)
Record SlowGaussian := mkSG { g_amp : R; g_xcen : R; g_ycen : R; g_fxx : R; g_fxy : R; g_fyy : R; derivs : list (list R) }.

(** convert_to_gaussians 107-120, the body of _convert_to_gaussians 168-178 for
    the [i]th source and [j]th PSF Gaussian *)
Definition slow_T (s : slow_source) (st : stamp) := dot_dot (scale st) (rotation_matrix (ss_pa s)) (scale_matrix (ss_q s)).
Definition slow_gaussian (s : slow_source) (st : stamp) (r am : R) (psf : R * (R * R) * matrix22) : SlowGaussian :=
  match psf with (al, pmean, pcovar) =>
    let T := slow_T s st in
    let scovar := matmul_matmul T (covariance r) (transpose T) in
    let dra := ss_ra s - fst (st_crval st) in
    let ddec := ss_dec s - snd (st_crval st) in
    let CW := dpix_dsky st in
    let smean := (v11 CW * dra + v12 CW * ddec + fst (st_crpix st), v21 CW * dra + v22 CW * ddec + snd (st_crpix st)) in
    let flux := ss_flux s * photocounts st in
    let covar := mplus scovar pcovar in
    let f := fast_inv covar in
    mkSG (flux * am * al * sqrt (fast_det f) / (2 * PI)) (fst smean + fst pmean) (snd smean + snd pmean)
         (v11 f) (v21 f) (v22 f) []
  end.
(** _get_gaussian_gradients 282-331 *)
Definition slow_jacobian (s : slow_source) (st : stamp) (r am da_dn da_dr : R) (psf : R * (R * R) * matrix22) : list (list R) :=
  match psf with (al, pmean, pcovar) =>
    let D := scale st in
    let Rm := rotation_matrix (ss_pa s) in
    let S := scale_matrix (ss_q s) in
    let T := dot_dot D Rm S in
    let dT_dq := dot_dot D Rm (scale_matrix_deriv (ss_q s)) in
    let dT_dpa := dot_dot D (rotation_matrix_deriv (ss_pa s)) S in
    let scovar := covariance r in
    let CW := dpix_dsky st in
    let flux := ss_flux s in
    let Sigma := mplus (dot_dot T scovar (transpose T)) pcovar in
    let F := fast_inv Sigma in
    let detF := fast_det F in
    let K := flux * photocounts st * am * al * sqrt detF / (2 * PI) in
    let dSigma_dq := mplus (dot_dot T scovar (transpose dT_dq)) (dot_dot dT_dq scovar (transpose T)) in
    let dSigma_dpa := mplus (dot_dot T scovar (transpose dT_dpa)) (dot_dot dT_dpa scovar (transpose T)) in
    let dF_dq := mneg (dot_dot F dSigma_dq F) in
    let dF_dpa := mneg (dot_dot F dSigma_dpa F) in
    let ddetF_dq := detF * fast_trace (dot2 Sigma dF_dq) in
    let ddetF_dpa := detF * fast_trace (dot2 Sigma dF_dpa) in
    let dA_dq := K / (2 * detF) * ddetF_dq in
    let dA_dpa := K / (2 * detF) * ddetF_dpa in
    let dA_dflux := K / flux in
    let dA_dsersic := K / am * da_dn in
    let dA_drh := K / am * da_dr in
    [[dA_dflux; 0; 0; 0; 0; 0];
     [0; v11 CW; v21 CW; 0; 0; 0];
     [0; v12 CW; v22 CW; 0; 0; 0];
     [dA_dq; 0; 0; v11 dF_dq; v22 dF_dq; v21 dF_dq];
     [dA_dpa; 0; 0; v11 dF_dpa; v22 dF_dpa; v21 dF_dpa];
     [dA_dsersic; 0; 0; 0; 0; 0];
     [dA_drh; 0; 0; 0; 0; 0]]
  end.
(** The double loops 159-181 and 265-267: source Gaussians outside, PSF inside *)
Definition slow_components (s : slow_source) : list (R * R * R * R) :=
  combine (combine (combine (ss_radii s) (ss_amplitudes s)) (ss_da_dsersic s)) (ss_da_drh s).
Definition convert_to_gaussians (s : slow_source) (st : stamp) : list SlowGaussian :=
  flat_map (fun c => match c with (r, am, da_dn, da_dr) =>
    map (fun psf => let g := slow_gaussian s st r am psf in
           mkSG (g_amp g) (g_xcen g) (g_ycen g) (g_fxx g) (g_fxy g) (g_fyy g) (slow_jacobian s st r am da_dn da_dr psf))
        (st_psf st) end) (slow_components s).

(** _compute_gaussian 351-476 at one pixel, defaults of compute_gaussian 339-340
    (second_order, no use_det): counts and the six derivatives *)
Definition compute_gaussian (g : SlowGaussian) (xp yp : R) : R * list R :=
  let dx := xp - g_xcen g in
  let dy := yp - g_ycen g in
  let vx := g_fxx g * dx + g_fxy g * dy in
  let vy := g_fyy g * dy + g_fxy g * dx in
  let Gp := exp (- (1/2) * (dx * vx + dy * vy)) in
  let H := 1 + (vx * vx + vy * vy - g_fxx g - g_fyy g) / 24 in
  let C := g_amp g * Gp * H * 1 in
  let dC_dA := C / g_amp g in
  let c_h := C / H in
  let dC_dx := C * vx - c_h * (g_fxx g * vx + g_fxy g * vy) / 12 in
  let dC_dy := C * vy - c_h * (g_fyy g * vy + g_fxy g * vx) / 12 in
  let dC_dfx := - (1/2) * C * dx * dx - c_h * (1 - 2 * dx * vx) / 24 in
  let dC_dfy := - (1/2) * C * dy * dy - c_h * (1 - 2 * dy * vy) / 24 in
  let dC_dfxy := - 1 * C * dx * dy + c_h * (dy * vx + dx * vy) / 12 in
  (C, [dC_dA; dC_dx; dC_dy; dC_dfx; dC_dfy; dC_dfxy]).
(** np.matmul(g.derivs, dI_dphi), 525 *)
Definition matvec (m : list (list R)) (v : list R) : list R :=
  map (fun row => fold_right Rplus 0 (map (fun p => fst p * snd p) (combine row v))) m.
(** compute_gig 509-531 at one pixel *)
Definition compute_gig (gs : list SlowGaussian) (xp yp : R) : R * list R :=
  fold_left (fun acc g => let out := compute_gaussian g xp yp in
               (fst acc + fst out, row_add (snd acc) (matvec (derivs g) (snd out)))) gs (0, repeat 0 7).
(** Source.render 491-496 at one pixel (all seven gradients are used by Galaxy) *)
Definition slow_render (s : slow_source) (st : stamp) (xp yp : R) : R * list R :=
  compute_gig (convert_to_gaussians s st) xp yp.

(** 126-128: with 'arcsec' units, np.matmul(D, psf.means) with means of shape
    (n_gauss, 2) is a matrix product D (2, 2) @ (n_gauss, 2): it raises ([None])
    unless n_gauss = 2. *)
Definition arcsec_means (D : matrix22) (means : list (R * R)) : option (list (R * R)) :=
  match means with
  | [m0; m1] => Some [(v11 D * fst m0 + v12 D * fst m1, v11 D * snd m0 + v12 D * snd m1);
                      (v21 D * fst m0 + v22 D * fst m1, v21 D * snd m0 + v22 D * snd m1)]
  | _ => None
  end.
