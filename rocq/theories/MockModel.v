(** Mock images: /repo/demo/demo_utils.py (__all__ 11-15, make_stamp 43-74, make_scene 77-132, galsim_model 135-182,
    get_galsim_psf 231-257, make_psfstore 260-280, compute_noise_level 283-291, write_fits_to 294-314) and the writing of
    the dithered images, /repo/demo/demo_mosaic/mosaic_make_dithers.py 73-95.
    Stamps and their to_fits are those of StampModel.  Arithmetic is over the reals; [None] is an exception.
    GalSim and astropy are arguments: [p2w] and [w2p] are pixel_to_world_values and world_to_pixel_values of the WCS
    made from a header (pixels counted from zero), [profile n rhalf flux rho] is the surface brightness of
    galsim.Sersic at the radius rho, and [draw scale f X Y] is the value drawImage gives to a pixel whose centre is at
    (X, Y) arcsec from the centre of the object with surface brightness f, with the PSF (if there is one) and the pixel
    taken into account.  GalSim's refusal of a radius, or of a Sersic index outside its range, is not modelled. *)
From Coq Require Import Reals Arith List String Ascii Bool.
From Verif Require Import WcsModel StampModel.
Import ListNotations.
Open Scope R_scope.

(** The entries of a list, or [None] if one fails *)
Fixpoint all_of {A B} (f : A -> option B) (l : list A) : option (list B) :=
  match l with
  | [] => Some []
  | a :: l' => match f a, all_of f l' with Some b, Some bs => Some (b :: bs) | _, _ => None end
  end.

(** ** Stamps *)
Record mstamp := mkMs { ms_stamp : pstamp; ms_band : string }.
(** PostageStamp.__init__ (slow/stamp.py 50-61) and make_stamp 67-74.  dpix_dsky is the class's, the identity, until
    the WCS is asked for. *)
Definition make_stamp (band : string) (scale : R) (nx ny : nat) (dither : v2) : mstamp :=
  mkMs (mkPs nx ny (repeat (repeat 0 ny) nx) (repeat 0 (nx * ny)) (mscal (/ scale) eye)
         {| dpix_dsky := eye; s_crval := V 53 (-27);
            s_crpix := V ((INR nx - 1) / 2 + v0 dither) ((INR ny - 1) / 2 + v1 dither) |}) band.

(** ** Scenes *)
(** A number, or a list of numbers (one-dimensional), given as a parameter *)
Inductive given := Num (v : R) | Nums (l : list R).
(** np.atleast_1d *)
Definition atleast_1d (g : given) : list R := match g with Num v => [v] | Nums l => l end.
(** Assignment to a column of length n, and arithmetic with an array of length n: numpy's broadcasting to length n *)
Definition fill (n : nat) (g : given) : option (list R) :=
  match g with
  | Num v => Some (repeat v n)
  | Nums l => if Nat.eqb (List.length l) n then Some l else match l with [v] => Some (repeat v n) | _ => None end
  end.
(** A row of the catalog; the other columns stay zero *)
Record mrow := mkRow { r_id : nat; r_ra : R; r_dec : R; r_rhalf : R; r_sersic : R; r_q : R; r_pa : R; r_flux : list (string * R) }.
(** np.unique of the names of the bands, sorted; only the set of columns matters here *)
Definition bands_of (stamps : list mstamp) : list string := nodup string_dec (map ms_band stamps).
(** The rows of a table whose columns are given (all of one length) *)
Definition rows_of (n : nat) (bands : list string) (ra dec rhalf sersic q pa flux : list R) : list mrow :=
  map (fun i => let at_ l := nth i l 0 in
         mkRow i (at_ ra) (at_ dec) (at_ rhalf) (at_ sersic) (at_ q) (at_ pa) (map (fun b => (b, at_ flux)) bands)) (seq 0 n).
(** make_scene 98-132.  A table of no bands at all comes only from no stamps, for which stamps[0] raises; with
    ra given it does not.  [radec] is None or the ra with the dec (which may be missing: None in a column of
    numbers raises). *)
Definition make_scene (ra0 : v2 -> v2 -> R) (p2w : header -> v2 -> v2) (stamps : list mstamp) (nsource : nat) (dist_frac : R)
    (radec : option (given * option given)) (rhalf sersic flux q pa : given) : option (list mrow) :=
  let n := Nat.max (List.length (atleast_1d rhalf)) nsource in
  match fill n rhalf, fill n sersic, fill n q, fill n pa, (match bands_of stamps with [] => Some [] | _ => fill n flux end) with
  | Some rh, Some se, Some q', Some pa', Some fl =>
    let table ra dec := Some (rows_of n (bands_of stamps) ra dec rh se q' pa' fl) in
    match radec with
    | None =>
      match stamps with
      | [] => None
      | s :: _ =>
        match to_fits ra0 (ms_stamp s) with
        | None => None
        | Some (f, _) =>
          let w := p2w (f_header f) (V ((INR (ps_nx (ms_stamp s)) - 1) / 2) ((INR (ps_ny (ms_stamp s)) - 1) / 2)) in
          table (repeat (v0 w) n) (map (fun i => v1 w + INR i * (nth i rh 0 * dist_frac) / 3600) (seq 0 n))
        end
      end
    | Some (ra, Some dec) => match fill n ra, fill n dec with Some a, Some d => table a d | _, _ => None end
    | Some (_, None) => None
    end
  | _, _, _, _, _ => None
  end.

(** ** Images *)
(** galsim's Shear(q=, beta=) and GSObject.shear: reduced shear (1 - q) / (1 + q) in the direction beta (from x towards
    y), the matrix of the shear, and the brightness of the sheared object, f of the point carried back *)
Definition shear_of (q beta : R) : option (R * R) :=
  if Rle_dec q 0 then None else if Rlt_dec 1 q then None
  else let g := (1 - q) / (1 + q) in Some (g * cos (2 * beta), g * sin (2 * beta)).
Definition shear_matrix (g : R * R) : m2 :=
  let (g1, g2) := g in mscal (/ sqrt (1 - (g1 * g1 + g2 * g2))) (M (1 + g1) g2 g2 (1 - g1)).
Definition sheared (A : m2) (f : R -> R -> R) : option (R -> R -> R) :=
  match inv A with Some B => Some (fun X Y => let u := mv B (V X Y) in f (v0 u) (v1 u)) | None => None end.
(** 164: the size of a pixel *)
Definition pixel_size (D : m2) : R := 1 / sqrt (Rabs (det D)).
(** galsim.Sersic 167-168 *)
Definition sersic_object (profile : R -> R -> R -> R -> R) (row : mrow) (flux : R) : R -> R -> R :=
  fun X Y => profile (r_sersic row) (r_rhalf row) flux (sqrt (X * X + Y * Y)).
(** 167-178: the object drawn for a row, before the PSF *)
Definition object_of (profile : R -> R -> R -> R -> R) (row : mrow) (flux : R) : option (R -> R -> R) :=
  if Req_EM_T (r_q row) 1 then Some (sersic_object profile row flux)
  else match shear_of (r_q row ^ 2) (r_pa row) with
       | None => None
       | Some g => sheared (shear_matrix g) (sersic_object profile row flux)
       end.
(** 170-177 *)
Definition offset_of (w2p : header -> v2 -> v2) (h : header) (nx ny : nat) (row : mrow) : v2 :=
  let p := w2p h (V (r_ra row) (r_dec row)) in
  let dx := v0 p - (INR nx - 1) / 2 in
  let dy := v1 p - (INR ny - 1) / 2 in
  if Rlt_dec (1 / 100) (sqrt (dx * dx + dy * dy)) then V dx dy else V 0 0.
Definition flux_in (row : mrow) (band : string) : option R :=
  match find (fun p => String.eqb (fst p) band) (r_flux row) with Some p => Some (snd p) | None => None end.
(** drawImage with add_to_image: the image (rows of nx, ny of them) with the object added, its centre at the true centre
    of the image moved by the offset *)
Definition add_object (draw : R -> (R -> R -> R) -> R -> R -> R) (scale : R) (nx ny : nat) (off : v2) (obj : R -> R -> R)
    (image : list (list R)) : list (list R) :=
  map (fun y => map (fun x => nth x (nth y image []) 0 +
         draw scale obj ((INR x - ((INR nx - 1) / 2 + v0 off)) * scale) ((INR y - ((INR ny - 1) / 2 + v1 off)) * scale)) (seq 0 nx)) (seq 0 ny).
(** galsim_model 154-182 *)
Fixpoint draw_all profile draw w2p (h : header) (scale : R) (nx ny : nat) (band : string) (scene : list mrow) (image : list (list R)) : option (list (list R)) :=
  match scene with
  | [] => Some image
  | row :: rest =>
    match flux_in row band with
    | None => None
    | Some fl =>
      match object_of profile row fl with
      | None => None
      | Some obj => draw_all profile draw w2p h scale nx ny band rest (add_object draw scale nx ny (offset_of w2p h nx ny row) obj image)
      end
    end
  end.
Definition galsim_model (ra0 : v2 -> v2 -> R) profile draw w2p (scene : list mrow) (s : mstamp) : option (list (list R)) :=
  let st := ms_stamp s in
  match to_fits ra0 st with
  | None => None
  | Some (f, st') =>
    match draw_all profile draw w2p (f_header f) (pixel_size (ps_scale st')) (ps_nx st) (ps_ny st) (ms_band s) scene (repeat (repeat 0 (ps_nx st)) (ps_ny st)) with
    | None => None
    | Some image => Some (transposed (ps_nx st) image)
    end
  end.

(** ** The PSF *)
(** get_galsim_psf 255: dispersion in arcsec of the Gaussian *)
Definition galsim_sigma (scale sigma_psf : R) : R := sigma_psf * scale.
(** make_psfstore 260-280: the rows of one location, and the file as the groups it has *)
Record psf_row := mkPsf { p_amp : R; p_xcen : R; p_ycen : R; p_cxx : R; p_cyy : R; p_cxy : R; p_bin : nat }.
Record psf_group := mkGroup { g_rows : list psf_row; g_per_source : nat }.
Definition upper_ascii (c : ascii) : ascii :=
  let n := nat_of_ascii c in if (97 <=? n)%nat && (n <=? 122)%nat then ascii_of_nat (n - 32) else c.
Fixpoint upper (s : string) : string := match s with EmptyString => EmptyString | String c s' => String (upper_ascii c) (upper s') end.
Definition psf_pars (sigma : list R) (nradii : nat) : list psf_row :=
  List.concat (map (fun k => map (fun s => mkPsf 1 0 0 (s ^ 2) (s ^ 2) 0 k) sigma) (seq 0 nradii)).
Definition make_psfstore (file : list (string * psf_group)) (band : string) (sigma : given) (nradii : nat) : option (list (string * psf_group)) :=
  let sg := atleast_1d sigma in
  if existsb (fun g => String.eqb (fst g) (upper band)) file then None
  else Some (file ++ [(upper band, mkGroup (psf_pars sg nradii) (nradii * List.length sg))])%list.

(** ** Noise *)
(** compute_noise_level 283-291: for every band, with the scales (one, or one per band) *)
Definition compute_noise_level (scene : list mrow) (scales : list R) (bands : list string) (snr : R) : option (list R) :=
  match scene with
  | [] => None
  | row :: _ =>
    match all_of (flux_in row) bands, fill (List.length bands) (Nums scales) with
    | Some fl, Some sc => Some (map (fun p => fst p / 2 / snr / sqrt (PI * (r_rhalf row / snd p) ^ 2)) (combine fl sc))
    | Some fl, None =>
      match fl with
      | [f] => Some (map (fun s => f / 2 / snr / sqrt (PI * (r_rhalf row / s) ^ 2)) scales)
      | _ => None
      end
    | None, _ => None
    end
  end.

(** ** Files *)
(** The extensions of a file: name, and the array (rows) with its header, or the catalog with its FILTERS *)
Inductive ext := Primary | Image (name : string) (rows : list (list R)) (h : header) | Table (rows : list mrow) (filters : string).
Definition write_fits_to (nx ny : nat) (im unc : list (list R)) (h : header) (bands : list string) (noise : option (list (list R))) (scene : option (list mrow)) : list ext :=
  let T := transposed ny in
  ([Primary; Image "SCI" (T im) h; Image "ERR" (T unc) h]
   ++ match noise with Some e => [Image "NOISE" (T e) h] | None => [] end
   ++ match scene with Some c => [Table c (String.concat "," bands)] | None => [] end)%list.

(** mosaic_make_dithers.py 76-95, for one stamp: to_fits, the names of hdul[0] and hdul[1], the image with its noise,
    the uncertainty (the same everywhere) and the file *)
Definition plus_noise (add : bool) (im noise : list (list R)) : list (list R) :=
  if add then map (fun p => map (fun q => fst q + snd q) (combine (fst p) (snd p))) (combine im noise) else im.
Definition write_dither (ra0 : v2 -> v2 -> R) (s : mstamp) (im noise : list (list R)) (sigma : R) (bands : list string) (add : bool) (scene : list mrow) : option (list ext) :=
  match to_fits ra0 (ms_stamp s) with
  | None => None
  | Some (f, _) =>
    match f_uncertainty f with
    | None => None
    | Some _ =>
      let st := ms_stamp s in
      Some (write_fits_to (ps_nx st) (ps_ny st) (plus_noise add im noise) (map (map (fun _ => sigma)) im) (f_header f) bands (Some noise) (Some scene))
    end
  end.
(** pair_make.py 42-57 and optimize.py 104-118: the same without hdul[1] *)
Definition write_pair (ra0 : v2 -> v2 -> R) (s : mstamp) (im noise : list (list R)) (sigma : R) (bands : list string) (add : bool) (scene : list mrow) : option (list ext) :=
  match to_fits ra0 (ms_stamp s) with
  | None => None
  | Some (f, _) =>
      let st := ms_stamp s in
      Some (write_fits_to (ps_nx st) (ps_ny st) (plus_noise add im noise) (map (map (fun _ => sigma)) im) (f_header f) bands (Some noise) (Some scene))
  end.

(** The names the module defines and those of its __all__ (11-15); [from demo_utils import *] looks up every one *)
Definition defined_names : list string :=
  ["sys"; "os"; "argparse"; "np"; "h5py"; "galsim"; "fits"; "get_parser"; "make_stamp"; "make_scene"; "galsim_model"; "galsim_star";
   "get_galsim_psf"; "make_psfstore"; "compute_noise_level"; "write_fits_to"]%string.
Definition all_names : list string :=
  ["get_parser"; "make_stamp"; "make_scene"; "galsim_model"; "get_galsim_psf"; "make_psf_store"; "compute_noise_level"; "write_to_disk"]%string.
Definition star_import (defined names : list string) : option (list string) :=
  all_of (fun n => if in_dec string_dec n defined then Some n else None) names.
