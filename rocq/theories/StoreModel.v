(** The pixel store: /repo/forcepho/patches/storage.py (PixelStore.superpixel_corners
    121-143, pixel_coordinates 145-153, add_exposure 155-236, superpixelize 238-270),
    patches/pixel_patch.py (PixelPatch._cap_snr 204-207, StorePatch.find_pixels 304-345).

    Simplifications common to the file: a 2-d array is a list of rows; exceptions are
    [None]; the HDF5 file is the returned array (the attributes written beside it are
    left out). *)
From Verif Require Import Np.
From Coq Require Import ZArith Reals.
From Flocq Require Import Core.Zaux IEEE754.BinarySingleNaN.

(** arr[i][j] *)
Definition get2 {A} (arr : list (list A)) (i j : nat) : option A :=
  match nth_error arr i with Some row => nth_error row j | None => None end.
(** arr[i][j][k] *)
Definition get3 {A} (arr : list (list (list A))) (i j k : nat) : option A :=
  match get2 arr i j with Some l => nth_error l k | None => None end.
(** im.shape (of a rectangular array) *)
Definition shape {A} (im : list (list A)) : nat * nat := (List.length im, match im with [] => 0 | row :: _ => List.length row end).

(** im[I:(I+s), J:(J+s)].flatten() *)
Definition block {A} (s I J : nat) (im : list (list A)) : list A :=
  flat_map (fun row => firstn s (skipn J row)) (firstn s (skipn I im)).
(** superpixelize 254-270; the conversion to the pixel dtype is done by the caller here *)
Definition superpixelize {A} (s : nat) (im ierr : list (list A)) : list (list (list A)) :=
  let '(nx, ny) := shape im in
  map (fun ii => map (fun jj => block s (ii * s) (jj * s) im ++ block s (ii * s) (jj * s) ierr) (seq 0 (ny / s))) (seq 0 (nx / s)).
(** astype(np.int16) of a coordinate *)
Definition int16 (z : Z) : Z := ((z + 32768) mod 65536 - 32768)%Z.
(** pixel_coordinates 145-153: meshgrid(arange(ny), arange(nx)) has xx[i][j] = i, yy[i][j] = j;
    packed as one super-pixel array then cut in two. Coordinates below 2^24 are exact
    in float32; larger ones are not modelled. *)
Definition mesh_x (nx ny : nat) : list (list Z) := map (fun i => map (fun _ => Z.of_nat i) (seq 0 ny)) (seq 0 nx).
Definition mesh_y (nx ny : nat) : list (list Z) := map (fun _ => map (fun j => Z.of_nat j) (seq 0 ny)) (seq 0 nx).
Definition pixel_coordinates (s nx ny : nat) : list (list (list Z)) * list (list (list Z)) :=
  let packed := superpixelize s (mesh_x nx ny) (mesh_y nx ny) in
  (map (map (fun l => map int16 (firstn (s * s) l))) packed, map (map (fun l => map int16 (skipn (s * s) l))) packed).
(** superpixel_corners 121-143: for each super-pixel four (x, y) pairs; [None] for an empty super-pixel *)
Definition corners_of (s : nat) (xl yl : list Z) : list (Z * Z) :=
  match xl, yl with
  | x :: _, y :: _ => map (fun o => (x + fst o * (Z.of_nat s - 1), y + snd o * (Z.of_nat s - 1)))%Z [(0, 0); (1, 0); (1, 1); (0, 1)]%Z
  | _, _ => []
  end.
Definition superpixel_corners (s nx ny : nat) : list (list (list (Z * Z))) :=
  let '(xpix, ypix) := pixel_coordinates s nx ny in
  map (fun rows => map (fun c => corners_of s (fst c) (snd c)) (combine (fst rows) (snd rows))) (combine xpix ypix).
(** np.where(inreg) of a 2-d array, row by row *)
Definition where2 (nx ny : nat) (inreg : nat -> nat -> bool) : list (nat * nat) :=
  flat_map (fun i => map (fun j => (i, j)) (filter (inreg i) (seq 0 ny))) (seq 0 nx).
(** find_pixels 331-345: [contains] is region.contains for one super-pixel; the four
    arrays are flattened (as pack_pix does) *)
Definition find_pixels {A} (s nx ny : nat) (contains : list (Z * Z) -> bool) (data : list (list (list A)))
  : option (list A * list A * list Z * list Z) :=
  let corners := superpixel_corners s nx ny in
  let '(xpix, ypix) := pixel_coordinates s nx ny in
  let sel := where2 (nx / s) (ny / s) (fun i j => match get2 corners i j with Some c => contains c | None => false end) in
  match mapM (fun p => get2 data (fst p) (snd p)) sel, mapM (fun p => get2 xpix (fst p) (snd p)) sel, mapM (fun p => get2 ypix (fst p) (snd p)) sel with
  | Some d, Some x, Some y => Some (flat_map (firstn (s * s)) d, flat_map (skipn (s * s)) d, concat x, concat y)
  | _, _, _ => None
  end.

(** add_exposure.  Floats are IEEE numbers without NaN payloads: [F] the format of the
    images, [G] that of the store. *)
Section Add.
Context (prec emax prec' emax' : Z) (Hp : FLX.Prec_gt_0 prec) (He : Prec_lt_emax prec emax)
        (Hp' : FLX.Prec_gt_0 prec') (He' : Prec_lt_emax prec' emax').
Notation F := (binary_float prec emax).
Notation G := (binary_float prec' emax').
Definition fzero : F := B754_zero false.
(** The images of one exposure: im, ierr, bkg and mask have one shape (no broadcasting),
    so they are one array of records. A boolean mask holds 0 or 1. *)
Record pixel := mkPixel { p_im : F; p_ierr : F; p_bkg : F; p_flag : Z }.
Inductive mask_kind := NoMask | BoolMask | IntMask.
Record options := mkOptions {
  o_bkg : bool;               (** imset.bkg is not None *)
  o_mask : mask_kind;         (** imset.mask and its dtype *)
  o_bitmask : Z;              (** 0 for None *)
  o_fluxcal : option (F * F)  (** the calibration factor and 1/factor, in the image format; None without do_fluxcal *) }.

(** 175-179; without a background bkg is all zeros *)
Definition subtract (o : options) (p : pixel) : pixel :=
  if o_bkg o then mkPixel (Bminus mode_NE (p_im p) (p_bkg p)) (p_ierr p) (p_bkg p) (p_flag p)
  else mkPixel (p_im p) (p_ierr p) fzero (p_flag p).
(** 181 *)
Definition unusable (p : pixel) : bool := negb (is_finite (p_ierr p) && is_finite (p_im p) && Bleb fzero (p_ierr p)).
Definition mask_value (o : options) (p : pixel) : Z :=
  match o_mask o with
  | NoMask => 0
  | BoolMask => if (p_flag p =? 0)%Z then 0 else 1
  | IntMask => p_flag p
  end%Z.
(** 182-187: pmask after the bit selection, when it is boolean *)
Definition flag_set (o : options) (p : pixel) : bool :=
  if (o_bitmask o =? 0)%Z then negb (mask_value o p =? 0)%Z else negb (Z.land (mask_value o p) (o_bitmask o) =? 0)%Z.
(** 188-192 with a boolean mask *)
Definition apply_mask (m : bool) (p : pixel) : pixel :=
  let p := if m then mkPixel (p_im p) fzero (p_bkg p) (p_flag p) else p in
  let p := if m then mkPixel fzero (p_ierr p) (p_bkg p) (p_flag p) else p in
  if m && is_finite (p_bkg p) then mkPixel (p_bkg p) (p_ierr p) (p_bkg p) (p_flag p) else p.
(** numpy integer indexing of the first axis *)
Definition row_index (n : nat) (v : Z) : option nat :=
  if ((0 <=? v) && (v <? Z.of_nat n))%Z then Some (Z.to_nat v)
  else if ((- Z.of_nat n <=? v) && (v <? 0))%Z then Some (Z.to_nat (v + Z.of_nat n)) else None.
Definition map_rows {A} (rows : list nat) (f : A -> A) (im : list (list A)) : list (list A) :=
  map (fun r => if existsb (Nat.eqb (fst r)) rows then map f (snd r) else snd r) (combine (seq 0 (List.length im)) im).
(** 187-192 with an integer mask and no bit selection: [mask | pmask] is an integer array,
    so the assignments select whole rows *)
Definition apply_int_mask (o : options) (im : list (list pixel)) : option (list (list pixel)) :=
  let value p := Z.lor (Z.b2z (unusable p)) (mask_value o p) in
  match mapM (fun p => row_index (List.length im) (value p)) (concat im),
        mapM (fun p => row_index (List.length im) (Z.land (value p) (Z.b2z (is_finite (p_bkg p))))) (concat im) with
  | Some rows, Some rows' =>
    let im := map_rows rows (fun p => mkPixel (p_im p) fzero (p_bkg p) (p_flag p)) im in
    let im := map_rows rows (fun p => mkPixel fzero (p_ierr p) (p_bkg p) (p_flag p)) im in
    Some (map_rows rows' (fun p => mkPixel (p_bkg p) (p_ierr p) (p_bkg p) (p_flag p)) im)
  | _, _ => None
  end.
Definition mask_pixels (o : options) (im : list (list pixel)) : option (list (list pixel)) :=
  match o_mask o, (o_bitmask o =? 0)%Z with
  | IntMask, true => apply_int_mask o im
  | _, _ => Some (map (map (fun p => apply_mask (unusable p || flag_set o p) p)) im)
  end.
(** 194-201 *)
Definition calibrate (o : options) (p : pixel) : pixel :=
  match o_fluxcal o with
  | Some (conv, inv) => mkPixel (Bmult mode_NE (p_im p) conv) (Bmult mode_NE (p_ierr p) inv) (p_bkg p) (p_flag p)
  | None => p
  end.
(** Conversion to the pixel dtype (superpixelize 257-269) *)
Definition cast (x : F) : G :=
  match x with
  | B754_zero s => B754_zero s
  | B754_infinity s => B754_infinity s
  | B754_nan => B754_nan
  | B754_finite s m e _ => binary_normalize prec' emax' Hp' He' mode_NE (Zaux.cond_Zopp s (Zpos m)) e s
  end.
(** The image arrays after the in-place changes *)
Definition processed (o : options) (im : list (list pixel)) : option (list (list pixel)) :=
  match mask_pixels o (map (map (subtract o)) im) with
  | Some im => Some (map (map (calibrate o)) im)
  | None => None
  end.
(** add_exposure 172-213 for a store of side [nside] with super-pixels of side [s]:
    the stored array and the arrays of the caller, which were changed in place *)
Definition add_exposure (s : nat) (nside : nat * nat) (o : options) (im : list (list pixel)) : option (list (list (list G)) * list (list pixel)) :=
  match processed o im with
  | None => None
  | Some im' =>
    let '(nx, ny) := shape im' in
    if ((nx mod s =? 0) && (ny mod s =? 0)) && ((nx =? fst nside) && (ny =? snd nside)) then
      let superpixels := superpixelize s (map (map (fun p => cast (p_im p))) im') (map (map (fun p => cast (p_ierr p))) im') in
      if forallb (forallb (forallb is_finite)) superpixels then Some (superpixels, im') else None
    else None
  end.
End Add.

(** _cap_snr 204-207, one pixel; [gt], [mul], [div] are the arithmetic of the pixel dtype and
    [truthy] is Python's test of max_snr *)
Section Cap.
Context {V : Type} (zero : V) (gt : V -> V -> bool) (mul div : V -> V -> V) (truthy : V -> bool).
Definition cap_pixel (max_snr : option V) (d i : V) : V :=
  match max_snr with
  | Some m => if truthy m then if gt i zero && gt (mul d i) m then div m d else i else i
  | None => i
  end.
Definition cap_snr (max_snr : option V) (data ierr : list V) : list V :=
  map (fun p => cap_pixel max_snr (fst p) (snd p)) (combine data ierr).
End Cap.
