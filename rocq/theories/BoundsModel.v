(** Parameter bounds: /repo/forcepho/superscene.py make_bounds 805-881, bounds_vectors
    884-899, check_bounds 902-919, flux_bounds 922-965, adjust_bounds 968-1002.

    Simplifications common to the file: floats are reals, with [None] for the nan that
    comes of 0/0; a catalog is its column names and, for each row, the value of each
    column; the index column of the bounds catalog is left out of it. *)
From Verif Require Import Np AnglesModel.
From Coq Require Import Reals.
Open Scope R_scope.

Definition value := option R.
Definition lift (f : R -> R -> R) (a b : value) : value := match a, b with Some x, Some y => Some (f x y) | _, _ => None end.
(** A comparison with nan is False. *)
Definition ltv (a b : value) : bool := match a, b with Some x, Some y => if Rlt_dec x y then true else false | _, _ => false end.
(** a / b for finite a, b; x/0 with x not 0, an infinity, does not arise below *)
Definition div (a b : R) : value := if Req_EM_T b 0 then None else Some (a / b).
Record catalog := mkCat { names : list string; rows : list (string -> R) }.
(** sourcecat[c]; [None] is the exception for a missing column *)
Definition column (cat : catalog) (c : string) : option (list R) :=
  if in_dec string_dec c (names cat) then Some (map (fun r => r c) (rows cat)) else None.
(** Columns of (lower, upper), in dtype order *)
Definition bounds := list (string * list (value * value)).

(** ** flux_bounds *)
(** 951-963 without precisions, the part for one flux.  [unc1] is not zero here: with
    it snr and noise are infinite or nan. *)
Definition fmin (unc1 : R) : R := (unc1 / 2) ^ 2.
Definition noise_of (unc1 flux : R) : value := let snr := sqrt (Rabs flux) / unc1 in div (Rabs flux) snr.
Definition flux_lo (unc1 flux : R) : value :=
  let lo := lift Rminus (Some flux) (noise_of unc1 flux) in
  let lo := if Rle_dec flux (fmin unc1) then lift Rmin lo (Some (- fmin unc1)) else lo in
  match lo with None => Some 0 | Some x => Some x end.
Definition flux_hi (unc1 flux : R) : value :=
  lift Rmax (lift Rplus (Some flux) (noise_of unc1 flux)) (Some (fmin unc1)).
(** np.nanmax; nan for an array of nan *)
Definition nanmax (l : list value) : value :=
  fold_right (fun a m => match a, m with Some x, Some y => Some (Rmax x y) | Some x, None => Some x | None, m => m end) None l.
(** 951-965 *)
Definition flux_bounds (unc1 : R) (flux : list R) : list (value * value) :=
  let hi := map (flux_hi unc1) flux in
  combine (map (flux_lo unc1) flux) (map (fun h => match h with None => nanmax hi | Some x => Some x end) hi).
(** 941-947 with precisions; [var] is the diagonal of the pseudo-inverse, an argument here *)
Definition flux_bounds_precision (unc1 snr_max : R) (flux var : list R) : list (value * value) :=
  map (fun fv => let '(f, v) := fv in
                 let sigma := Rmax (sqrt v) (f / snr_max) in
                 (Some (f - unc1 * sigma), Some (Rmax (f + unc1 * sigma) (unc1 * sigma)))) (combine flux var).

(** ** make_bounds *)
Record ranges := mkRanges { sqrtq_range : R * R; pa_range : R * R; rhalf_range : R * R; sersic_range : R * R }.
Definition default_ranges : ranges := mkRanges (4 / 10, 1) (- (6 / 10) * PI, 6 / 10 * PI) (3 / 100, 3 / 10) (1, 5).
Definition both (p : R * R) : value * value := (Some (fst p), Some (snd p)).
(** 870-873, with the column of flux uncertainties *)
Definition unc_flux_bounds (n_sig : R) (flux unc : list R) : list (value * value) :=
  map (fun fu => let '(f, u) := fu in
                 let sigma := Rmax u (Rabs (5 / 100 * f)) in (Some (f - n_sig * sigma), Some (f + n_sig * sigma))) (combine flux unc).
(** 847-865: the shape columns, in the order of Galaxy.SHAPE_COLS *)
Definition shape_names : list string := ["ra"; "dec"; "q"; "pa"; "sersic"; "rhalf"]%string.
Definition ra_bound (dpos0 ra dec : R) : value * value :=
  let dra := div (dpos0 / 3600) (cos (deg2rad dec)) in (lift Rminus (Some ra) dra, lift Rplus (Some ra) dra).
Definition dec_bound (dpos1 dec : R) : value * value := (Some (dec - dpos1 / 3600), Some (dec + dpos1 / 3600)).
(** 805-881.  [unc]: the columns of unccat, or None; a column missing from a given
    unccat raises KeyError/ValueError, here None.  [dpos] after its default 844-845.
    The dtype 851-854 needs distinct names, an assumption of the theorems. *)
Definition make_bounds (active : catalog) (filternames : list string) (unc : option catalog) (n_sig : R) (dpos : R * R) (rg : ranges) : option bounds :=
  match column active "ra", column active "dec", column active "q", column active "pa", column active "sersic", column active "rhalf" with
  | Some ra, Some dec, Some q, Some pa, Some sersic, Some rhalf =>
    let flux b := match column active b with
                  | None => None
                  | Some f => match unc with
                              | None => Some (b, flux_bounds n_sig f)
                              | Some u => match column u b with None => None | Some s => Some (b, unc_flux_bounds n_sig f s) end
                              end
                  end in
    match mapM flux filternames with
    | None => None
    | Some fl =>
      Some (fl ++ [("ra"%string, map (fun rd => ra_bound (fst dpos) (fst rd) (snd rd)) (combine ra dec));
                   ("dec"%string, map (dec_bound (snd dpos)) dec);
                   ("q"%string, map (fun _ => both (sqrtq_range rg)) (rows active));
                   ("pa"%string, map (fun _ => both (pa_range rg)) (rows active));
                   ("sersic"%string, map (fun _ => both (sersic_range rg)) (rows active));
                   ("rhalf"%string, map (fun _ => both (rhalf_range rg)) (rows active))])
    end
  | _, _, _, _, _, _ => None
  end.

(** ** check_bounds *)
Inductive outcome := Passed | BoundsError (c : string) | OtherError.
(** 918-919 for one column: the first assert that fails names the column; [None] for
    arrays whose lengths do not agree.  Broadcasting of a catalog of one row against
    longer bounds is left out. *)
Definition check_column (c : string) (src : list R) (b : list (value * value)) : outcome :=
  if Nat.eqb (List.length src) (List.length b) then
    if forallb (fun sb => ltv (fst (snd sb)) (Some (fst sb))) (combine src b) then
      if forallb (fun sb => ltv (Some (fst sb)) (snd (snd sb))) (combine src b) then Passed else BoundsError c
    else BoundsError c
  else OtherError.
(** 902-919; the column source_index of the bounds is one-dimensional and skipped *)
Fixpoint check_bounds (cat : catalog) (b : bounds) : outcome :=
  match b with
  | [] => Passed
  | (c, col) :: t =>
    match column cat c with
    | None => OtherError
    | Some src => match check_column c src col with Passed => check_bounds cat t | e => e end
    end
  end.

(** ** bounds_vectors *)
Fixpoint lookup (b : bounds) (c : string) : option (list (value * value)) :=
  match b with [] => None | (c', col) :: t => if string_dec c c' then Some col else lookup t c end.
(** 889-899: row i of the vectors, before they are joined.  [ref] is subtracted from
    ra and dec. *)
Definition shift (r : R) (v : value * value) : value * value := (lift Rminus (fst v) (Some r), lift Rminus (snd v) (Some r)).
Definition row_bounds (b : bounds) (cols : list string) (ref : R * R) (i : nat) : option (list (value * value)) :=
  mapM (fun c => match lookup b c with
                 | None => None
                 | Some col => match nth_error col i with
                               | None => None
                               | Some v => Some (if string_dec c "ra" then shift (fst ref) v else if string_dec c "dec" then shift (snd ref) v else v)
                               end
                 end) cols.
Definition bounds_vectors (b : bounds) (n : nat) (filternames shapenames : list string) (ref : R * R) : option (list value * list value) :=
  match mapM (row_bounds b (filternames ++ shapenames) ref) (seq 0 n) with
  | None => None
  | Some l => Some (map fst (List.concat l), map snd (List.concat l))
  end.
(** The parameters of the sources in the same order, with the reference subtracted *)
Definition param_vector (cat : catalog) (cols : list string) (ref : R * R) : list R :=
  flat_map (fun row : string -> R => map (fun c => if string_dec c "ra" then row c - fst ref else if string_dec c "dec" then row c - snd ref else row c) cols) (rows cat).

(** ** adjust_bounds *)
(** 983-992 for one column of bounds and the fluxes of [scat]; [minflux] and
    [maxfluxfactor] after their defaults *)
Definition minv (a : value) (m : R) : value := lift Rmin a (Some m).
Definition maxv (a : value) (m : R) : value := lift Rmax a (Some m).
Definition widen (minflux : option R) (maxfluxfactor flux : R) (b : value * value) : value * value :=
  let lo := match minflux with None => fst b | Some m => minv (fst b) m end in
  let hi := if Rlt_dec 0 maxfluxfactor then maxv (snd b) (flux * maxfluxfactor) else snd b in (lo, hi).
(** 996-998: np.clip(active[b], lower + eps, lower - eps), the same column for both limits *)
Definition adjust_flux (eps flux : R) (b : value * value) : value :=
  match fst b with None => None | Some lo => Some (clip flux (lo + eps) (lo - eps)) end.
(** 968-998, one band, with sceneDB an array of bounds and active given: the bounds and the
    fluxes after *)
Definition adjust_band (minflux : option R) (maxfluxfactor eps : R) (flux : list R) (b : list (value * value)) : list (value * value) * list value :=
  let b' := map (fun fb => widen minflux maxfluxfactor (fst fb) (snd fb)) (combine flux b) in
  (b', map (fun fb => adjust_flux eps (fst fb) (snd fb)) (combine flux b')).
