(** Model of how a scene is written as a catalog, built from one, and how its
    parameters are named: /repo/forcepho/sources.py, Scene.identify_sources 99-103,
    Scene.parameter_names 105-109, Scene.to_catalog 135-152, Scene.from_catalog
    154-183, Source.__init__ 252-269, Source.parameter_names 291-295,
    Source.cat_dtype 434-440, to_catalog_row 442-456, from_catalog_row 458-468,
    Galaxy.__init__ 531-557, ConformalShearGalaxy.parameter_names 962-966.

    Simplifications: values are an abstract type; [rnd] is the conversion to the
    float32 of the catalog columns; attributes are scalars; ids are those given by
    identify_sources; an empty column name is not treated as numpy treats it. *)
From Coq Require DecimalString.
From Verif Require Import Np SceneModel.

Section Catalog.
Context {V : Type} (zero one : V) (rnd : V -> V) (ofnat : nat -> V) (qf paf : V -> V -> V).

(** A source object: its parameters (SceneModel), the id, and whatever other
    attributes somebody has put on it. *)
Record csource := mkC { base : source V; c_id : nat; others : srow V }.

(** getattr(self, c); [q] and [pa] of a ConformalShearGalaxy are properties
    (968-979), and only it has [ep] and [ec]. *)
Definition is_shear (k : kind) : bool := match k with Shear | ShearNS => true | _ => false end.
Definition getattr (s : csource) (c : string) : option V :=
  let b := base s in
  if String.eqb c "ra" then Some (s_ra b)
  else if String.eqb c "dec" then Some (s_dec b)
  else if String.eqb c "sersic" then Some (s_sersic b)
  else if String.eqb c "rhalf" then Some (s_rhalf b)
  else if String.eqb c "q" then Some (if is_shear (s_kind b) then qf (s_ep b) (s_ec b) else s_q b)
  else if String.eqb c "pa" then Some (if is_shear (s_kind b) then paf (s_ep b) (s_ec b) else s_pa b)
  else if (String.eqb c "ep" && is_shear (s_kind b))%bool then Some (s_ep b)
  else if (String.eqb c "ec" && is_shear (s_kind b))%bool then Some (s_ec b)
  else if String.eqb c "id" then Some (ofnat (c_id s))
  else col (others s) c.

Definition with_base (s : csource) (b : source V) : csource := mkC b (c_id s) (others s).
(** setattr(self, c, v): a property without setter raises AttributeError *)
Definition setattr (s : csource) (c : string) (v : V) : option csource :=
  let b := base s in
  if String.eqb c "ra" then Some (with_base s (set_ra b v))
  else if String.eqb c "dec" then Some (with_base s (set_dec b v))
  else if String.eqb c "sersic" then Some (with_base s (set_sersic b v))
  else if String.eqb c "rhalf" then Some (with_base s (set_rhalf b v))
  else if String.eqb c "q" then if is_shear (s_kind b) then None else Some (with_base s (set_q b v))
  else if String.eqb c "pa" then if is_shear (s_kind b) then None else Some (with_base s (set_pa b v))
  else if (String.eqb c "ep" && is_shear (s_kind b))%bool then Some (with_base s (set_ep b v))
  else if (String.eqb c "ec" && is_shear (s_kind b))%bool then Some (with_base s (set_ec b v))
  else Some (mkC b (c_id s) ((c, v) :: others s)).

(** cat_dtype 434-440; np.dtype raises ValueError when a name occurs twice *)
Definition cat_cols (s : csource) (extra : list string) : list string :=
  ("id"%string :: filternames (base s)) ++ SHAPE_COLS (s_kind (base s)) ++ extra.

(** row[0][c] = v *)
Definition store (r : option (srow V)) (c : string) (v : option V) : option (srow V) :=
  match r, v with
  | Some r, Some v => match col r c with Some _ => Some (put_col r c (rnd v)) | None => None end
  | _, _ => None
  end.
(** 452-455: a missing attribute is passed over *)
Definition store_extra (s : csource) (r : option (srow V)) (c : string) : option (srow V) :=
  match getattr s c with Some v => store r c (Some v) | None => r end.
(** to_catalog_row 442-456 *)
Definition to_catalog_row (extra : list string) (s : csource) : option (srow V) :=
  let cols := cat_cols s extra in
  if has_dup cols then None
  else
    let row0 := Some (map (fun c => (c, zero)) cols) in
    let row1 := fold_left (fun r p => store r p (getattr s p)) (SHAPE_COLS (s_kind (base s)) ++ ["id"%string]) row0 in
    let row2 := fold_left (fun r ib => store r (snd ib) (nth_error (flux (base s)) (fst ib)))
                          (enumerate (filternames (base s))) row1 in
    fold_left (store_extra s) extra row2.

(** to_catalog 135-152: one structured array, or, when np.concatenate fails
    (rows of different columns, or no rows), the list of rows. *)
Inductive catalog := Table (rows : list (srow V)) | Pieces (rows : list (srow V)).
Definition same_cols (r r' : srow V) : bool :=
  if list_eq_dec string_dec (map fst r) (map fst r') then true else false.
Definition to_catalog (extra : list string) (sc : list csource) : option catalog :=
  match mapM (to_catalog_row extra) sc with
  | None => None
  | Some [] => Some (Pieces [])
  | Some (r :: t) => Some (if forallb (same_cols r) t then Table (r :: t) else Pieces (r :: t))
  end.

(** source_type(filternames=bands, **source_kwargs) 179: only Galaxy.__init__
    (531) knows the keyword, Source.__init__ (252) raises TypeError.  The kinds
    GalaxyNS and ShearNS stand for the keyword free_sersic=False. *)
Definition construct (k : kind) (bands : list string) : option csource :=
  match k with
  | Galaxy | GalaxyNS | Shear | ShearNS =>
      Some (mkC (mkSource k bands (repeat zero (List.length bands)) zero zero one zero zero zero zero zero false) 0 [])
  | _ => None
  end.

(** one setattr of 461-462 *)
Definition set_from (row : srow V) (s : option csource) (p : string) : option csource :=
  match s, col row p with Some s, Some v => setattr s p v | _, _ => None end.
(** from_catalog_row 458-468 with filternames=None *)
Definition from_catalog_row (row : srow V) (extra : list string) (s : csource) : option csource :=
  match fold_left (set_from row) (SHAPE_COLS (s_kind (base s)) ++ extra) (Some s) with
  | None => None
  | Some s1 =>
    match mapM (col row) (filternames (base s1)) with
    | None => None
    | Some fl => Some (with_base s1 (set_flux (base s1) fl))
    end
  end.

(** identify_sources 99-103 *)
Definition identify (sc : list csource) : list csource :=
  map (fun p => mkC (base (snd p)) (fst p) (others (snd p))) (enumerate sc).
(** from_catalog 154-183 *)
Definition from_catalog (k : kind) (bands extra : list string) (rows : list (srow V)) : option (list csource) :=
  option_map identify
    (mapM (fun row => match construct k bands with Some s => from_catalog_row row extra s | None => None end) rows).

(** ** parameter_names *)
(** "{}".format(id) *)
Definition text (n : nat) : string := DecimalString.NilZero.string_of_int (Z.to_int (Z.of_nat n)).
(** 293-294, and 964-965 for the conformal shear classes *)
Definition name_parts (s : csource) : list string :=
  filternames (base s) ++
  match s_kind (base s) with
  | Shear | ShearNS => ["ra"; "dec"]%string ++ firstn (nshape (s_kind (base s))) ["ep"; "ec"; "n"; "r"]%string
  | k => SHAPE_COLS k
  end.
Definition source_names (s : csource) : list string :=
  map (fun n => (n ++ "_" ++ text (c_id s))%string) (name_parts s).
(** 105-109; np.concatenate of nothing raises *)
Definition parameter_names (sc : list csource) : option (list string) :=
  match sc with [] => None | _ => Some (concat (map source_names sc)) end.
End Catalog.
Arguments csource : clear implicits.
Arguments catalog : clear implicits.
