(** Model of the local astrometry: the linear approximation of a world
    coordinate system at a source, what a patch stores of it, and the conversion
    of sky positions to pixels from what a patch stored.

    Sources: forcepho/utils/wcs.py 91-177, forcepho/patches/patch.py 300-339
    (_pack_astrometry), forcepho/postprocess.py 116-122, forcepho/slow/stamp.py
    63-94 and 200-250.  Arithmetic is over the reals; [None] is an exception. *)
From Coq Require Import Reals List Lra.
Import ListNotations.
Open Scope R_scope.

(** Arrays of shape (2,) and (2, 2), the latter by rows. *)
Record v2 := V { v0 : R; v1 : R }.
Record m2 := M { m00 : R; m01 : R; m10 : R; m11 : R }.

Definition vadd (u w : v2) : v2 := V (v0 u + v0 w) (v1 u + v1 w).
Definition vsub (u w : v2) : v2 := V (v0 u - v0 w) (v1 u - v1 w).
(** np.matmul of a (2,2) array with a vector, and with another (2,2) array. *)
Definition mv (A : m2) (u : v2) : v2 := V (m00 A * v0 u + m01 A * v1 u) (m10 A * v0 u + m11 A * v1 u).
Definition mm (A B : m2) : m2 :=
  M (m00 A * m00 B + m01 A * m10 B) (m00 A * m01 B + m01 A * m11 B)
    (m10 A * m00 B + m11 A * m10 B) (m10 A * m01 B + m11 A * m11 B).
Definition mscal (k : R) (A : m2) : m2 := M (k * m00 A) (k * m01 A) (k * m10 A) (k * m11 A).
Definition mT (A : m2) : m2 := M (m00 A) (m10 A) (m01 A) (m11 A).
Definition eye : m2 := M 1 0 0 1.
Definition det (A : m2) : R := m00 A * m11 A - m01 A * m10 A.

(** np.linalg.inv and np.linalg.solve: LinAlgError for a singular matrix, by
    Cramer's rule otherwise. *)
Definition inv (A : m2) : option m2 :=
  if Req_EM_T (det A) 0 then None
  else Some (mscal (/ det A) (M (m11 A) (- m01 A) (- m10 A) (m00 A))).
Definition solve (A B : m2) : option m2 :=
  match inv A with Some Ai => Some (mm Ai B) | None => None end.

(** np.deg2rad *)
Definition deg2rad (d : R) : R := d * PI / 180.

(** A world coordinate system: world_to_pixel_values, pixel_to_world_values,
    has_distortion (True when the attribute is missing) and pixel_scale_matrix.
    These are astropy's or gwcs'; theorems say what they assume of them. *)
Record wcs := {
  world_to_pixel : v2 -> v2;
  pixel_to_world : v2 -> v2;
  has_distortion : bool;
  pixel_scale_matrix : m2 }.

(** scale_at_sky, wcs.py 91-145 (stamp.py 200-250 is the same with an [origin]
    argument handed to both conversions).  Returns CW_mat and D_mat. *)
Definition scale_at_sky (sky : v2) (w : wcs) (dpix : R) (make_approx : bool) : option (m2 * m2) :=
  if (has_distortion w || make_approx)%bool then
    let pos0_pix := world_to_pixel w sky in
    let pos1_pix := vadd pos0_pix (V dpix 0) in
    let pos2_pix := vadd pos0_pix (V 0 dpix) in
    let pos1_sky := pixel_to_world w pos1_pix in
    let pos2_sky := pixel_to_world w pos2_pix in
    let P := mscal dpix eye in
    let d1 := vsub pos1_sky sky in
    let d2 := vsub pos2_sky sky in
    let St := M (v0 d1) (v1 d1) (v0 d2) (v1 d2) in
    match solve St P with
    | None => None
    | Some X =>
        let CW := mT X in
        let Winv := M (/ cos (deg2rad (v1 sky))) 0 0 1 in
        Some (CW, mscal (1 / 3600) (mm CW Winv))
    end
  else
    let W := M (cos (deg2rad (v1 sky))) 0 0 1 in
    match inv (mscal 3600 (pixel_scale_matrix w)) with
    | None => None
    | Some D => Some (mm (mscal 3600 D) W, D)
    end.

(** What _pack_astrometry stores for one source in one exposure, patch.py
    320-339: [src] is the position relative to the patch reference [ref]. *)
Record astrometry := { D_of : m2; CW_of : m2; crval_of : v2; crpix_of : v2 }.
Definition pack_one (w : wcs) (ref src : v2) : option astrometry :=
  let ssky := vadd src ref in
  match scale_at_sky ssky w 1 false with
  | None => None
  | Some (CW, D) =>
      Some {| D_of := D; CW_of := CW; crval_of := vsub ssky ref; crpix_of := world_to_pixel w ssky |}
  end.

Fixpoint pack_sources (w : wcs) (ref : v2) (srcs : list v2) : option (list astrometry) :=
  match srcs with
  | [] => Some []
  | s :: t => match pack_one w ref s, pack_sources w ref t with
              | Some a, Some r => Some (a :: r)
              | _, _ => None
              end
  end.

(** One application of the stored linear map, wcs.py 174-175. *)
Definition apply_one (a : astrometry) (ref sky : v2) : v2 :=
  vadd (mv (CW_of a) (vsub sky (vadd (crval_of a) ref))) (crpix_of a).

(** utils.sky_to_pix, wcs.py 148-177: if there are as many positions as sources
    each position uses the astrometry with the same index, otherwise all use the
    first source's; with no stored source that index raises (two empty arrays
    have equal length and give an empty result). *)
Definition sky_to_pix (exp : list astrometry) (ref : v2) (skies : list v2) : option (list v2) :=
  if Nat.eqb (length exp) (length skies)
  then Some (map (fun p => apply_one (fst p) ref (snd p)) (combine exp skies))
  else match exp with
       | [] => None
       | a :: _ => Some (map (apply_one a ref) skies)
       end.

(** PostageStamp.sky_to_pix and pix_to_sky, slow/stamp.py 63-94. *)
Record stamp := { dpix_dsky : m2; s_crval : v2; s_crpix : v2 }.
Definition stamp_sky_to_pix (s : stamp) (sky : v2) : v2 :=
  vadd (mv (dpix_dsky s) (vsub sky (s_crval s))) (s_crpix s).
Definition stamp_pix_to_sky (s : stamp) (pix : v2) : option v2 :=
  match inv (dpix_dsky s) with
  | None => None
  | Some Ai => Some (vadd (mv Ai (vsub pix (s_crpix s))) (s_crval s))
  end.

(** The position a kernel computes for a source with the stored astrometry:
    D, CW, crval and crpix at the fitted position [q] relative to the patch
    reference (src/compute_gaussians_kernel.cc 62-95: smean = (ra, dec) - crval,
    multiplied by CW, plus crpix). *)
Definition kernel_pixel (a : astrometry) (q : v2) : v2 :=
  vadd (mv (CW_of a) (vsub q (crval_of a))) (crpix_of a).
