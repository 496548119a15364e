(** Cutting a postage stamp out of an image: /repo/forcepho/slow/stamp.py extract_stamp 259-315.

    Simplifications: floats are reals with one infinity and nan; the files are the arrays and the matrix of the header they
    hold, image and uncertainty of one shape; [None] is an exception. *)
From Coq Require Import String.
From Verif Require Import Np WcsModel StampModel.
From Coq Require Import Reals.
Open Scope R_scope.

Inductive value := Fin (r : R) | Inf | Nan.
(** 1. / x *)
Definition reciprocal (v : value) : value :=
  match v with Fin r => if Req_EM_T r 0 then Inf else Fin (1 / r) | Inf => Fin 0 | Nan => Nan end.
(** np.isfinite *)
Definition finite (v : value) : bool := match v with Fin _ => true | _ => false end.
(** .astype(int): toward zero *)
Definition trunc (x : R) : Z := if Rle_dec 0 x then Int_part x else (- Int_part (- x))%Z.
(** One end of a slice of an axis of length n: negative ends count from the end, and both are cut at the ends of the axis *)
Definition slice_end (n : nat) (z : Z) : nat := if (z <? 0)%Z then Z.to_nat (Z.of_nat n + z) else Nat.min n (Z.to_nat z).
(** l[slice(a, b)] *)
Definition slice {A} (a b : Z) (l : list A) : list A :=
  let n := List.length l in firstn (slice_end n b - slice_end n a) (skipn (slice_end n a) l).
(** a[xinds, yinds] *)
Definition slice2 {A} (lo hi : Z * Z) (a : list (list A)) : list (list A) := map (slice (snd lo) (snd hi)) (slice (fst lo) (fst hi) a).
(** 283-285 *)
Definition low_end (center size : v2) : Z * Z := (trunc (v0 center - / 2 * v0 size), trunc (v1 center - / 2 * v1 size)).
Definition high_end (center size : v2) : Z * Z := (trunc (v0 center + / 2 * v0 size), trunc (v1 center + / 2 * v1 size)).
Record cutout := mkCut { c_values : list (list value); c_ierr : list (list value); c_nx : nat; c_ny : nat;
  c_xpix : list (list nat); c_ypix : list (list nat); c_crpix : v2; c_crval : v2; c_scale : m2; c_center : v2 }.
(** 297-304: values and inverse uncertainties, both zero where the latter is not finite *)
Definition masked (v e : value) : value * value := if finite (reciprocal e) then (v, reciprocal e) else (Fin 0, Fin 0).
Definition masked2 (vs es : list (list value)) : list (list (value * value)) :=
  map (fun q => map (fun p => masked (fst p) (snd p)) (combine (fst q) (snd q))) (combine vs es).
(** 306: shape of the slice of an array of n0 rows of n1 *)
Definition slice_length (n : nat) (a b : Z) : nat := slice_end n b - slice_end n a.
(** 274-315 without 307, which raises (see [extract_stamp]): the stamp as it would be at the end; with a celestial centre, crval_stamp.append(0.) at 291 is an AttributeError (an array has no append) *)
Definition cut (celestial : bool) (n0 n1 : nat) (im err : list (list value)) (CD : m2) (center size : v2) : option cutout :=
  if celestial then None
  else
    let lo := low_end center size in let hi := high_end center size in
    let crpix := V (IZR (Int_part (/ 2 * v0 size))) (IZR (Int_part (/ 2 * v1 size))) in
    let px := masked2 (slice2 lo hi im) (slice2 lo hi err) in
    let nx := slice_length n0 (fst lo) (fst hi) in let ny := slice_length n1 (snd lo) (snd hi) in
    match inv CD with
    | None => None
    | Some i => Some (mkCut (map (map fst) px) (map (map snd) px) nx ny (xpix nx ny) (ypix nx ny) crpix
                        (vadd crpix (V (IZR (fst lo)) (IZR (snd lo)))) (mm i eye) center)
    end.
(** The properties of a PostageStamp, which have no setter (103-109, 136-137): setting one is an AttributeError *)
Definition stamp_properties : list string := ["npix"; "shape"; "wcs"]%string.
(** The attributes that are set, 295-315 *)
Definition attributes_set : list string := ["pixel_values"; "ierr"; "nx"; "ny"; "npix"; "ypix"; "xpix"; "crpix"; "crval"; "scale"; "pixcenter_in_full"]%string.
(** extract_stamp 259-315 for a class with the given properties: what the caller gets; there is no return *)
Definition extract_stamp (properties : list string) (celestial : bool) (n0 n1 : nat) (im err : list (list value)) (CD : m2) (center size : v2) : option (option cutout) :=
  if forallb (fun a => negb (existsb (String.eqb a) properties)) attributes_set
  then match cut celestial n0 n1 im err CD center size with Some _ => Some None | None => None end
  else None.
(** A FITS image: the pixel (x, y), counted from zero, is in row y *)
Definition fits_pixel {A} (im : list (list A)) (x y : nat) : option A := match nth_error im y with Some row => nth_error row x | None => None end.
