(** Coordinates of the sources of a superscene: /repo/forcepho/superscene.py set_catalog 139-161 and ingest 115-121 (catalog,
    tree), sky_to_scene 163-185, scene_frame 187-206, scene_coordinates 208-227, and the searches around a place of
    checkout_region 255, get_circular_scene 393 and overlap_circle 703, 726.

    Simplifications: floats are reals; a catalog is its right ascensions and declinations in degrees; astropy's frame about a
    place is the rotation that brings it to longitude and latitude zero, with longitudes from -180 to 180 degrees, and a
    declination outside -90 to 90 is its ValueError ([None]); the median of no sources, nan in numpy, is [None] as well;
    the tree is an argument. *)
From Verif Require Import Np.
From Coq Require Import Reals.
From Verif Require Import QuantModel ShearModel.
Open Scope R_scope.

Definition rad (d : R) : R := d * PI / 180.
(** .arcsec of an angle *)
Definition arcsec (a : R) : R := a * 180 / PI * 3600.
(** np.median *)
Definition median (l : list R) : option R :=
  match l with
  | [] => None
  | _ => let s := sort l in let n := List.length l in Some ((nth ((n - 1) / 2) s 0 + nth (n / 2) s 0) / 2)
  end.
(** SkyCoord(ra, dec, unit="deg") *)
Definition sky_coord (p : R * R) : option (R * R) :=
  if Rle_dec (-90) (snd p) then if Rle_dec (snd p) 90 then Some p else None else None.
(** center.skyoffset_frame() and transform_to: turn by the longitude of the centre about z, then by its latitude about y *)
Definition offset (center p : R * R) : R * R :=
  let l := rad (fst p) - rad (fst center) in
  let b := rad (snd p) in
  let b0 := rad (snd center) in
  let x := cos b * cos l in
  let y := cos b * sin l in
  let z := sin b in
  let x' := cos b0 * x + sin b0 * z in
  let z' := - sin b0 * x + cos b0 * z in
  (atan2 y x', atan2 z' (hypot x' y)).

(** The attributes: the catalog, the two caches, and the points the tree was built from *)
Record fstate := mkF { f_cat : list (R * R); f_frame : option (R * R); f_coords : option (list (R * R)); f_tree : list (R * R) }.
Definition f_init : fstate := mkF [] None None [].
(** scene_frame 187-206 *)
Definition scene_frame (s : fstate) : option ((R * R) * fstate) :=
  match f_frame s with
  | Some c => Some (c, s)
  | None =>
    match median (map fst (f_cat s)), median (map snd (f_cat s)) with
    | Some mra, Some mdec =>
      match sky_coord (mra, mdec) with
      | Some c => Some (c, mkF (f_cat s) (Some c) (f_coords s) (f_tree s))
      | None => None
      end
    | _, _ => None
    end
  end.
(** sky_to_scene 163-185 *)
Definition sky_to_scene (s : fstate) (ps : list (R * R)) : option (list (R * R) * fstate) :=
  match mapM sky_coord ps with
  | None => None
  | Some cs =>
    match scene_frame s with
    | None => None
    | Some (c, s') => Some (map (fun p => let o := offset c p in (arcsec (fst o), arcsec (snd o))) cs, s')
    end
  end.
(** scene_coordinates 208-227 *)
Definition scene_coordinates (s : fstate) : option (list (R * R) * fstate) :=
  match f_coords s with
  | Some xy => Some (xy, s)
  | None =>
    match sky_to_scene s (f_cat s) with
    | None => None
    | Some (xy, s') => Some (xy, mkF (f_cat s') (f_frame s') (Some xy) (f_tree s'))
    end
  end.
(** ingest 115-121: set_catalog, then the tree *)
Definition ingest (cat : list (R * R)) (s : fstate) : option fstate :=
  match scene_coordinates (mkF cat (f_frame s) (f_coords s) (f_tree s)) with
  | None => None
  | Some (xy, s') => Some (mkF (f_cat s') (f_frame s') (f_coords s') xy)
  end.
(** checkin_region 311-313, what it does to positions: rows of the catalog are replaced *)
Definition write_back (moved : list (nat * (R * R))) (s : fstate) : fstate :=
  mkF (fold_left (fun cat m => upd (fst m) (snd m) cat) moved (f_cat s)) (f_frame s) (f_coords s) (f_tree s).
(** center = sky_to_scene(ra, dec); kdt.query_ball_point(center, radius) 255, 393, 703, 726 *)
Definition search (query_ball : list (R * R) -> R * R -> R -> list nat) (s : fstate) (place : R * R) (radius : R) : option (list nat * fstate) :=
  match sky_to_scene s [place] with
  | Some ([c], s') => Some (query_ball (f_tree s') c radius, s')
  | _ => None
  end.
