(** Regions and exposure searches: /repo/forcepho/region.py (CircularRegion 65-137,
    RectangularRegion 140-211, polygons_overlap 214-264, polygon_contains 267-302),
    patches/storage.py (MetaStore.__init__ 313-329, populate_wcs 331-351, find_exposures
    415-479), patches/pixel_patch.py (StorePatch.find_exposures 256-302, FITSPatch.find_exposures
    386-436).

    Simplifications common to the file: floats are reals; a vertex array is a list of
    pairs; a dict is an association list in insertion order; a WCS is a pair of functions. *)
From Verif Require Import Np StoreModel.
From Coq Require Import Reals ZArith.
Open Scope R_scope.
Open Scope nat_scope.

Definition point := (R * R)%type.
Definition Rltb (x y : R) : bool := if Rlt_dec x y then true else false.
(** WCS: world_to_pixel_values and pixel_to_world_values *)
Record WCS := mkWCS { world_to_pixel : R -> R -> point; pixel_to_world : R -> R -> point }.

(** ** Regions *)
Inductive region :=
| Circular (ra dec radius : R)
| Rectangular (ra_min ra_max dec_min dec_max : R).
(** CircularRegion.contains 112-116 and RectangularRegion.contains 187-191, for one
    super-pixel with the given corners (x, y) *)
Definition contains (r : region) (w : WCS) (corners : list point) : bool :=
  match r with
  | Circular ra dec radius =>
    let '(xc, yc) := world_to_pixel w ra dec in
    let '(xr, yr) := world_to_pixel w ra (dec + radius)%R in
    let r2 := ((xc - xr) ^ 2 + (yc - yr) ^ 2)%R in
    existsb (fun c => Rltb ((xc - fst c) ^ 2 + (yc - snd c) ^ 2) r2) corners
  | Rectangular ra_min ra_max dec_min dec_max =>
    existsb (fun c => let '(ra, dec) := pixel_to_world w (fst c) (snd c) in
                      (Rltb ra_min ra && Rltb ra ra_max) && (Rltb dec_min dec && Rltb dec dec_max)) corners
  end.
(** bounding_box 131-137, 207-211; [None] where the division by cos(dec) is by zero *)
Definition bounding_box (r : region) : option (list point) :=
  match r with
  | Circular ra dec radius =>
    let c := cos (dec * (PI / 180))%R in
    if Req_EM_T c 0 then None
    else let dra := (radius / c)%R in
         let ddec := radius in
         Some [(ra - dra, dec - ddec); (ra + dra, dec - ddec); (ra + dra, dec + ddec); (ra - dra, dec + ddec)]%R
  | Rectangular ra_min ra_max dec_min dec_max =>
    Some [(ra_min, dec_min); (ra_max, dec_min); (ra_max, dec_max); (ra_min, dec_max)]
  end.

(** ** Polygons *)
(** (vertex i, vertex (i+1) mod N) *)
Definition edges (poly : list point) : list (point * point) :=
  match poly with [] => [] | p0 :: rest => combine poly (rest ++ [p0]) end.
(** 249: (Y[i+1] - Y[i], X[i] - X[i+1]) *)
Definition normal (e : point * point) : point := (snd (snd e) - snd (fst e), fst (fst e) - fst (snd e))%R.
(** 252, 257 *)
Definition project (n p : point) : R := (fst n * fst p + snd n * snd p)%R.
(** ndarray.min, ndarray.max of a non-empty array *)
Definition list_min (d : R) (l : list R) : R := fold_right Rmin d l.
Definition list_max (d : R) (l : list R) : R := fold_right Rmax d l.
(** polygons_overlap 245-264 on the two bounding boxes; [None] for an empty vertex list *)
Definition polygons_overlap (a b : list point) : option bool :=
  match a, b with
  | a0 :: _, b0 :: _ =>
    let separates n :=
      let minA := list_min (project n a0) (map (project n) a) in
      let maxA := list_max (project n a0) (map (project n) a) in
      let minB := list_min (project n b0) (map (project n) b) in
      let maxB := list_max (project n b0) (map (project n) b) in
      Rltb maxA minB || Rltb maxB minA in
    if existsb separates (map normal (edges a)) then Some false
    else if existsb separates (map normal (edges b)) then Some false
    else Some true
  | _, _ => None
  end.
(** 299: ds x dX for one edge and one point *)
Definition side (q : point) (e : point * point) : R :=
  ((fst (snd e) - fst (fst e)) * (snd q - snd (fst e)) - (snd (snd e) - snd (fst e)) * (fst q - fst (fst e)))%R.
(** np.sign *)
Definition sign (x : R) : Z := if Rlt_dec 0 x then 1%Z else if Rlt_dec x 0 then (-1)%Z else 0%Z.
(** polygon_contains 296-302 for one point; [None]: sign[:, 0] of an empty polygon *)
Definition polygon_contains (poly : list point) (q : point) : option bool :=
  match map (fun e => sign (side q e)) (edges poly) with
  | [] => None
  | (s0 :: _) as ss => Some (forallb (fun s => (s - s0 =? 0)%Z) ss)
  end.

(** ** Exposures *)
(** A header: S_REGION (its vertices), NAXIS1, NAXIS2 and what WCS(hdr) gives.  The
    parse of S_REGION and the number of its vertices (reshape(4, 2)) are left out. *)
Record header := mkHeader { s_region : option (list point); naxis1 : R; naxis2 : R; wcs_of : WCS }.
Definition dict (V : Type) := list (string * V).
Fixpoint get {V} (d : dict V) (k : string) : option V :=
  match d with [] => None | (k', v) :: t => if string_dec k k' then Some v else get t k end.
Fixpoint put {V} (d : dict V) (k : string) (v : V) : dict V :=
  match d with [] => [(k, v)] | (k', v') :: t => if string_dec k k' then (k, v) :: t else (k', v') :: put t k v end.
Record metastore := mkMeta { headers : dict (dict header); wcs : dict (dict WCS) }.

(** populate_wcs 337-351 without GWCS *)
Definition populate_wcs (h : dict (dict header)) : dict (dict WCS) :=
  map (fun be => (fst be, map (fun ih => (fst ih, wcs_of (snd ih))) (snd be))) h.
(** MetaStore(metastorefile) 314-329, [h] what the file holds *)
Definition open_metastore (h : dict (dict header)) (load_all : bool) : metastore :=
  mkMeta h (if load_all then populate_wcs h else []).

(** The detailed check of MetaStore.find_exposures 470-477 *)
Definition image_box (h : header) (w : WCS) : list point :=
  map (fun c => pixel_to_world w (fst c) (snd c)) [(0, 0); (0, naxis2 h); (naxis1 h, naxis1 h); (naxis1 h, 0)]%R.
(** 449-479, one exposure: the cache of this band and whether it is returned *)
Definition check_exposure (sky : point) (cache : dict WCS) (expID : string) (h : header) : option (dict WCS * bool) :=
  match (match s_region h with Some poly => polygon_contains poly sky | None => Some true end) with
  | None => None
  | Some false => Some (cache, false)
  | Some true =>
    let w := match get cache expID with Some w => w | None => wcs_of h end in
    match polygon_contains (image_box h w) sky with
    | None => None
    | Some inim => Some (match get cache expID with Some _ => cache | None => put cache expID w end, inim)
    end
  end.
(** The cache gets an entry for the band only when an exposure passes the rough check
    (462-463); here it is written back only when it changed *)
Fixpoint search_band (sky : point) (cache : dict WCS) (exps : dict header) : option (dict WCS * list string) :=
  match exps with
  | [] => Some (cache, [])
  | (expID, h) :: t =>
    match check_exposure sky cache expID h with
    | None => None
    | Some (cache, inim) =>
      match search_band sky cache t with
      | None => None
      | Some (cache, l) => Some (cache, if inim then expID :: l else l)
      end
    end
  end.
(** MetaStore.find_exposures 438-479: epaths and bands, zipped *)
Fixpoint meta_find_exposures (m : metastore) (sky : point) (bandlist : list string) : option (metastore * list (string * string)) :=
  match bandlist with
  | [] => Some (m, [])
  | band :: t =>
    match get (headers m) band with
    | None => meta_find_exposures m sky t
    | Some exps =>
      let cache := match get (wcs m) band with Some c => c | None => [] end in
      match search_band sky cache exps with
      | None => None
      | Some (cache', ids) =>
        let m := mkMeta (headers m) (match cache' with [] => wcs m | _ => put (wcs m) band cache' end) in
        match meta_find_exposures m sky t with
        | None => None
        | Some (m, l) => Some (m, map (fun id => (id, band)) ids ++ l)
        end
      end
    end
  end.

Definition to_points (c : list (Z * Z)) : list point := map (fun p => (IZR (fst p), IZR (snd p))) c.
(** 285-288: a corner of the bounding box is in the image *)
Definition corner_in_image (nx ny : R) (w : WCS) (bbox : list point) : bool :=
  existsb (fun c => let '(bx, by_) := world_to_pixel w (fst c) (snd c) in
                    (Rltb 0 bx && Rltb bx nx) && (Rltb 0 by_ && Rltb by_ ny)) bbox.
(** The super-pixels of an image selected by region.contains (find_exposures 291-293,
    find_pixels 334) *)
Definition selected (s nx ny : nat) (r : region) (w : WCS) : list (nat * nat) :=
  let corners := superpixel_corners s nx ny in
  where2 (nx / s) (ny / s) (fun i j => match get2 corners i j with Some c => contains r w (to_points c) | None => false end).
(** StorePatch.find_exposures 274-302: band, exposure and WCS of the exposures found;
    the headers returned with them are left out.  [None] for a region without a
    bounding box. *)
Definition store_find_exposures (s nx ny : nat) (m : metastore) (r : region) (bandlist : list string) : option (list (string * string * WCS)) :=
  match bounding_box r with
  | None => None
  | Some bbox =>
    Some (flat_map (fun band =>
      match get (wcs m) band with
      | None => []
      | Some exps =>
        map (fun iw => (band, fst iw, snd iw))
            (filter (fun iw => corner_in_image (INR nx) (INR ny) (snd iw) bbox &&
                               negb (match selected s nx ny r (snd iw) with [] => true | _ => false end)) exps)
      end) bandlist)
  end.
(** FITSPatch.find_exposures 419-429, one exposure, with do_check and a region *)
Definition around_image (nx ny : R) (w : WCS) (bbox : list point) : bool :=
  match map (fun c => world_to_pixel w (fst c) (snd c)) bbox with
  | [] => false
  | (b0 :: _) as b =>
    (Rltb nx (list_max (fst b0) (map fst b)) && Rltb (list_min (fst b0) (map fst b)) 0) &&
    (Rltb ny (list_max (snd b0) (map snd b)) && Rltb (list_min (snd b0) (map snd b)) 0)
  end.
Definition fits_check (nx ny : R) (w : WCS) (bbox : list point) : bool := corner_in_image nx ny w bbox || around_image nx ny w bbox.
