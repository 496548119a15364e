(** Identities of exposures and the stores keyed by them: /repo/forcepho/patches/storage.py
    header_to_id 39-57, PixelStore.__init__ 97-119, the HDF5 part of PixelStore.add_exposure
    213-223, flux_calibration 272-282, MetaStore.__init__ 313-329, populate_wcs 331-351,
    MetaStore.add_exposure 353-375, write_to_file 377-401, read_from_file 403-415, to_table 481-514,
    nexp 516-522.

    Paths are POSIX.  [None] is a python exception. *)
From Coq Require Import Reals.
From Coq Require Import List String Ascii Bool Arith.
From Verif Require Import Np.
Import ListNotations.
Open Scope nat_scope.

(** ** Strings *)
(** pat in s *)
Fixpoint contains (pat s : string) : bool :=
  prefix pat s || match s with EmptyString => false | String _ t => contains pat t end.
(** s.replace(pat, new) for a pattern that is not empty: all occurrences from the left; [skip]
    characters of the current one remain *)
Fixpoint replace_from (pat new : string) (skip : nat) (s : string) : string :=
  match s with
  | EmptyString => EmptyString
  | String c t =>
    match skip with
    | S k => replace_from pat new k t
    | O => if prefix pat s then (new ++ replace_from pat new (String.length pat - 1) t)%string
           else String c (replace_from pat new 0 t)
    end
  end.
Definition replace (pat new s : string) : string := replace_from pat new 0 s.
(** s.upper() for ASCII letters *)
Definition upc (c : ascii) : ascii :=
  let n := nat_of_ascii c in if (97 <=? n) && (n <=? 122) then ascii_of_nat (n - 32) else c.
Fixpoint upper (s : string) : string := match s with EmptyString => EmptyString | String c t => String (upc c) (upper t) end.

(** ** os.path *)
Fixpoint has_slash (s : string) : bool :=
  match s with EmptyString => false | String c t => Ascii.eqb c "/" || has_slash t end.
(** os.path.basename: what follows the last slash *)
Fixpoint basename (s : string) : string :=
  match s with
  | EmptyString => EmptyString
  | String c t => if has_slash t then basename t else if Ascii.eqb c "/" then t else s
  end.
(** what precedes the basename *)
Fixpoint head_of (s : string) : string :=
  match s with
  | EmptyString => EmptyString
  | String c t => if Ascii.eqb c "/" || has_slash t then String c (head_of t) else EmptyString
  end.
Fixpoint all_slashes (s : string) : bool := match s with EmptyString => true | String c t => Ascii.eqb c "/" && all_slashes t end.
(** s.rstrip("/") *)
Fixpoint rstrip (s : string) : string :=
  match s with EmptyString => EmptyString | String c t => if all_slashes s then EmptyString else String c (rstrip t) end.
Definition dirname (s : string) : string := let h := head_of s in if all_slashes h then h else rstrip h.
(** os.path.join of two *)
Fixpoint ends_slash (s : string) : bool :=
  match s with EmptyString => false | String c EmptyString => Ascii.eqb c "/" | String _ t => ends_slash t end.
Definition join (a b : string) : string :=
  if prefix "/" b then b else if String.eqb a "" || ends_slash a then (a ++ b)%string else (a ++ "/" ++ b)%string.

(** ** header_to_id 39-57 *)
(** 41-46, from FILTER and DETECTOR *)
Definition band_of (filt : string) (detector : option string) (split : list string) : option string :=
  if existsb (String.eqb filt) split then
    match detector with
    | None => None
    | Some d => match String.get 3 d with
                | None => None
                | Some m => Some (upper filt ++ upper (String m EmptyString))%string
                end
    end
  else Some (upper filt).
(** rpath[1:] if rpath[0] == "/", 53-55 *)
Definition drop_slash (s : string) : string := match s with EmptyString => s | String c t => if Ascii.eqb c "/" then t else s end.
(** 48-57; framedir None or empty is left out of the name *)
Definition id_of (name : string) (framedir : option string) : option string :=
  let e := replace ".fits" "" (basename name) in
  match framedir with
  | None | Some EmptyString => Some e
  | Some d =>
    if contains d (dirname name) then
      let r := replace d "" (dirname name) in
      Some (join (drop_slash r) e)
    else None
  end.
Definition header_to_id (filt : string) (detector : option string) (name : string) (framedir : option string) (split : list string)
  : option (string * string) :=
  match band_of filt detector split, id_of name framedir with Some b, Some e => Some (b, e) | _, _ => None end.

(** ** The pixel store *)
(** What __init__ 97-119 reads or writes: the attributes nside_full and super_pixel_size of the file,
    if it exists and has them *)
Record attrs := mkAttrs { a_nside : option (list nat); a_super : option nat }.
Definition open_store (file : option attrs) (nside : list nat) (super : nat) : attrs * (list nat * nat) :=
  match file with
  | Some (mkAttrs (Some n) (Some s)) => (mkAttrs (Some n) (Some s), (n, s))
  | _ => (mkAttrs (Some nside) (Some super), (nside, super))
  end.
(** The parts of an HDF5 path *)
Fixpoint split_at (cur : string) (s : string) : list string :=
  match s with
  | EmptyString => [cur]
  | String c t => if Ascii.eqb c "/" then cur :: split_at EmptyString t else split_at (cur ++ String c EmptyString) t
  end.
Definition parts (s : string) : list string := filter (fun p => negb (String.eqb p "")) (split_at EmptyString s).
Fixpoint is_prefix (p q : list string) : bool :=
  match p, q with
  | [], _ => true
  | a :: p', b :: q' => String.eqb a b && is_prefix p' q'
  | _, [] => false
  end.
(** The datasets of the file: the parts of the group's path, and the content of its dataset "data".
    Empty groups make no difference and are left out. *)
Definition pixels D := list (list string * D).
Fixpoint look {D} (p : list string) (f : pixels D) : option D :=
  match f with [] => None | (q, v) :: t => if list_eq_dec string_dec q p then Some v else look p t end.
(** 213-223: a group that is in the way is deleted with all that is in it; a path that goes through
    a dataset cannot be made, and deleting it raises *)
Definition store {D} (f : pixels D) (band id : string) (v : D) : option (pixels D) :=
  let p := parts (band ++ "/" ++ id)%string in
  let through q := is_prefix (fst q ++ ["data"%string]) p in
  if existsb (fun q => through q && negb (Nat.eqb (List.length (fst q) + 1) (List.length p))) f then None
  else Some (filter (fun q => negb (is_prefix p (fst q)) && negb (through q)) f ++ [(p, v)]).

(** ** The metadata store *)
Definition dict V := list (string * V).
Fixpoint get {V} (d : dict V) (k : string) : option V :=
  match d with [] => None | (k', v) :: t => if String.eqb k' k then Some v else get t k end.
Fixpoint put {V} (d : dict V) (k : string) (v : V) : dict V :=
  match d with [] => [(k, v)] | (k', v') :: t => if String.eqb k' k then (k', v) :: t else (k', v') :: put t k v end.
(** d[band][exp], and the assignment to it after making d[band] when it is missing *)
Definition get2 {V} (d : dict (dict V)) (b e : string) : option V := match get d b with Some x => get x e | None => None end.
Definition put2 {V} (d : dict (dict V)) (b e : string) (v : V) : dict (dict V) :=
  put d b (put (match get d b with Some x => x | None => [] end) e v).

Section Meta.
Variables H W T : Type.                   (* headers, WCS objects, texts *)
Variable wcs_of : H -> W.                 (* WCS(hdr), dropaxis included *)
Variables (tostring : H -> T) (fromstring : T -> H).

Record meta := mkMeta { headers : dict (dict H); tree : dict (dict W); wcs : option (dict (dict W)) }.
(** __init__ without a file: no attribute wcs *)
Definition new_meta : meta := mkMeta [] [] None.
(** add_exposure 353-375 *)
Definition add_exposure (m : meta) (band id : string) (hdr : H) (gwcs : option W) : meta :=
  mkMeta (put2 (headers m) band id hdr)
         (match gwcs with Some w => put2 (tree m) band id w | None => tree m end) (wcs m).
(** Files: the JSON texts and the ASDF trees *)
Record files := mkFiles { jsons : dict (dict (dict T)); asdfs : dict (dict (dict W)) }.
(** write_to_file 377-401 *)
Definition write_to_file (m : meta) (name : string) (f : files) : option files :=
  if contains ".json" name then
    Some (mkFiles (put (jsons f) name (map (fun be => (fst be, map (fun eh => (fst eh, tostring (snd eh))) (snd be))) (headers m)))
                  (match tree m with [] => asdfs f | t => put (asdfs f) (replace ".json" ".asdf" name) t end))
  else None.
(** populate_wcs 331-351: with the tree of the ASDF file, or from the headers *)
Definition populate (headers : dict (dict H)) (gwcs : option (dict (dict W))) : option (dict (dict W)) :=
  mapM (fun be => option_map (pair (fst be))
    (mapM (fun eh => option_map (pair (fst eh))
       (match gwcs with Some t => get2 t (fst be) (fst eh) | None => Some (wcs_of (snd eh)) end)) (snd be))) headers.
(** __init__ 313-329 with a file *)
Definition read_meta (f : files) (name : string) (use_gwcs load_all : bool) : option meta :=
  match get (jsons f) name with
  | None => None
  | Some texts =>
    let hs := map (fun be => (fst be, map (fun et => (fst et, fromstring (snd et))) (snd be))) texts in
    let gwcs := if use_gwcs then get (asdfs f) (replace ".json" ".asdf" name) else None in
    if load_all then
      match populate hs gwcs with
      | Some w => Some (mkMeta hs (match gwcs with Some t => t | None => [] end) (Some w))
      | None => None
      end
    else Some (mkMeta hs [] (Some []))
  end.
(** nexp 516-522 *)
Definition nexp (m : meta) : nat := fold_left (fun n be => n + List.length (snd be)) (headers m) 0.

(** to_table 481-514: [cell c h] is what arr[i][c] = hdr[c.upper()] leaves in column [c] (the zero when
    it raises), [crval h] the two reference coordinates when both are there.  [cols] are the columns; ra
    and dec are written last. *)
Variable C : Type.
Variables (cell : string -> H -> C) (crval : H -> option (C * C)).
Definition table_row (cols : list string) (h : H) : option (dict C) :=
  match crval h with
  | None => None
  | Some (ra, dec) => Some (put (put (map (fun c => (c, cell c h)) cols) "ra" ra) "dec" dec)
  end.
Definition to_table (cols : list string) (m : meta) : option (list (dict C)) :=
  mapM (table_row cols) (concat (map (fun be => map snd (snd be)) (headers m))).
End Meta.

(** flux_calibration 272-282, from ABMAG; over the reals *)
Definition flux_calibration (abmag : option R) : R * string :=
  match abmag with
  | Some zp => ((10 ^ 9 * Rpower 10 (4 / 10 * (89 / 10 - zp)))%R, "nJy"%string)
  | None => (1%R, "counts"%string)
  end.
