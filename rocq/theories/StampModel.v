(** Postage stamps: /repo/forcepho/slow/stamp.py (PostageStamp.__init__ 50-61, wcs 136-160, to_fits 163-197).
    The conversions of positions and scale_at_sky are in WcsModel.  Arithmetic is over the reals;
    [None] is an exception, or infinity in an image of uncertainties. *)
From Coq Require Import Reals Arith List Bool.
From Verif Require Import WcsModel.
Import ListNotations.
Open Scope R_scope.

(** np.meshgrid(a, b) of two arrays: both results have len(b) rows of len(a) *)
Definition meshgrid {A} (a b : list A) : list (list A) * list (list A) := (map (fun _ => a) b, map (fun y => map (fun _ => y) a) b).
(** .flat and reshape(-1) of a two-dimensional array *)
Definition flat {A} (a : list (list A)) : list A := concat a.
(** reshape(nx, ny) of a flat array *)
Definition reshape {A} (nx ny : nat) (l : list A) : option (list (list A)) :=
  if Nat.eqb (List.length l) (nx * ny) then Some (map (fun i => firstn ny (skipn (i * ny) l)) (seq 0 nx)) else None.
(** .T of an array with rows of ny *)
Definition column {A} (j : nat) (a : list (list A)) : list A := flat_map (fun row => match nth_error row j with Some v => [v] | None => [] end) a.
Definition transposed {A} (ny : nat) (a : list (list A)) : list (list A) := map (fun j => column j a) (seq 0 ny).

(** 61: the coordinates of the pixels, "note inversion of meshgrid order" *)
Definition grid (nx ny : nat) : list (list nat) * list (list nat) :=
  let yx := meshgrid (seq 0 ny) (seq 0 nx) in (snd yx, fst yx).
Definition xpix (nx ny : nat) := fst (grid nx ny).
Definition ypix (nx ny : nat) := snd (grid nx ny).

(** ierr is kept flat (58) *)
Record pstamp := mkPs { ps_nx : nat; ps_ny : nat; ps_values : list (list R); ps_ierr : list R; ps_scale : m2; ps_astro : stamp }.

(** The header of a FITS image: CRPIX (counted from one), CRVAL and the matrix of degrees per pixel *)
Record header := mkHeader { h_crpix : v2; h_crval : v2; h_pc : m2 }.
(** Declination of a point of the tangent plane (astropy's all_pix2world for RA---TAN, DEC--TAN without
    distortion; Calabretta & Greisen 2002): plane coordinates in degrees from the reference position.  The right
    ascension is the argument [ra]; nothing here depends on it. *)
Definition tan_dec (dec0 : R) (p : v2) : R :=
  let d0 := deg2rad dec0 in let xi := deg2rad (v0 p) in let eta := deg2rad (v1 p) in
  asin ((sin d0 + eta * cos d0) / sqrt (1 + xi * xi + eta * eta)) * 180 / PI.
Definition world (ra : v2 -> v2 -> R) (h : header) (pix : v2) : v2 :=
  let p := mv (h_pc h) (vsub pix (h_crpix h)) in V (ra (h_crval h) p) (tan_dec (v1 (h_crval h)) p).
(** wcs 136-160: the header and the stamp, whose dpix_dsky has been replaced *)
Definition wcs_of (ra : v2 -> v2 -> R) (s : pstamp) : option (header * pstamp) :=
  match inv (ps_scale s) with
  | None => None
  | Some si =>
    let cd := mscal (/ 3600) si in
    let h := mkHeader (vadd (s_crpix (ps_astro s)) (V 1 1)) (s_crval (ps_astro s)) cd in
    let sky := world ra h (s_crpix (ps_astro s)) in
    let w := {| world_to_pixel := fun x => x; pixel_to_world := world ra h; has_distortion := false; pixel_scale_matrix := cd |} in
    match scale_at_sky sky w 1 false with
    | None => None
    | Some (CW, _) =>
      Some (h, mkPs (ps_nx s) (ps_ny s) (ps_values s) (ps_ierr s) (ps_scale s)
                    {| dpix_dsky := CW; s_crval := s_crval (ps_astro s); s_crpix := s_crpix (ps_astro s) |})
    end
  end.
Definition nonzero (x : R) : bool := if Req_EM_T x 0 then false else true.
(** 1 / x of an array: inf for zero *)
Definition recip (x : R) : option R := if Req_EM_T x 0 then None else Some (1 / x).
Record hdus := mkHdus { f_image : list (list R); f_header : header; f_uncertainty : option (list (list (option R))) }.
(** to_fits 163-197 *)
Definition to_fits (ra : v2 -> v2 -> R) (s : pstamp) : option (hdus * pstamp) :=
  let image := transposed (ps_ny s) (ps_values s) in
  match wcs_of ra s with
  | None => None
  | Some (h, s') =>
    if existsb nonzero (ps_ierr s') then
      match reshape (ps_nx s') (ps_ny s') (ps_ierr s') with
      | None => None
      | Some e => Some (mkHdus image h (Some (map (map recip) (transposed (ps_ny s') e))), s')
      end
    else Some (mkHdus image h None, s')
  end.
