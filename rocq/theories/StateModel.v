(** The state of a run on disk and the catalog for the next run: /repo/forcepho/superscene.py __enter__, __exit__
    84-88, writeout 90-96, sourcecat_dtype 751-764, rectify_catalog 767-802;
    /repo/forcepho/postprocess.py run_metadata 170-197, postop_catalog 200-244.

    [None] is a python exception.  Files are kept under the text of their path: two spellings of a path are two files,
    and all directories exist.  Columns hold rationals, so the check for finite numbers (787) always passes and the
    columns id (int32) and roi (float32) are not rounded. *)
From Coq Require Import List String Ascii Bool Arith ZArith QArith.
From Verif Require Import Np SuperSceneModel IdentModel CatalogModel.
Import ListNotations.
Open Scope nat_scope.

(** A table as a FITS file keeps it: the names of the columns besides source_index, is_active, is_valid, n_iter and
    n_patch, and the rows *)
Record table := mkTable { t_names : list string; t_rows : list row }.
Definition header := list (string * string).
Inductive file :=
| Cat (t : table) (h : header) (ext2 : option table)        (* FITS: primary header, first and second extension *)
| Log (sourcelog : list (string * list string)) (patchlog : list string)
| Conf (c : list (string * option string))                  (* JSON: text or null *)
| Samp (bands : list string) (raw_catalog : string).        (* what is needed of a samples file *)
Definition disk := string -> option file.
Definition save (d : disk) (f : string) (x : file) : disk := fun g => if String.eqb g f then Some x else d g.

(** json.dump of a dictionary with integer keys: the keys become text *)
Definition json_log (l : list (nat * list string)) : list (string * list string) := map (fun kv => (text (fst kv), snd kv)) l.
(** writeout 90-96; [names] the columns of the catalog *)
Definition writeout (d : disk) (statefile : string) (filename : option string) (names : list string) (s : state) : disk :=
  let f := match filename with None => statefile | Some f => f end in
  save (save d f (Cat (mkTable names (sourcecat s)) [] None))
       (replace ".fits" "_log.json" f) (Log (json_log (sourcelog s)) (patchlog s)).
(** with sceneDB: body.  The body leaves a state and may raise; __exit__ 87-88 writes the state and, returning
    nothing, lets the exception pass *)
Definition with_scene {E} (d : disk) (statefile : string) (names : list string) (body : state * option E) : disk * option E :=
  (writeout d statefile None names (fst body), snd body).

(** d[k] *)
Fixpoint lookup {V} (l : list (string * V)) (k : string) : option V :=
  match l with [] => None | (j, v) :: t => if String.eqb j k then Some v else lookup t k end.
(** run_metadata 187-197 *)
Definition run_metadata (d : disk) (root : string) : option (list (string * option string) * list string * list (string * list string) * table) :=
  match d (root ++ "/config.json")%string with
  | Some (Conf c) =>
    match (match lookup c "scene_catalog" with None => Some "superscene.fits"%string | Some v => v end) with
    | None => None                                          (* None.replace *)
    | Some scene =>
      let scenestr := replace ".fits" "" scene in
      match d (root ++ "/" ++ scenestr ++ "_log.json")%string, d (root ++ "/" ++ scenestr ++ ".fits")%string with
      | Some (Log slog plog), Some (Cat t _ _) => Some (c, plog, slog, t)
      | _, _ => None
      end
    end
  | _ => None
  end.

(** ** postop_catalog *)
(** hdr[k] = v *)
Fixpoint hset (h : header) (k v : string) : header :=
  match h with [] => [(k, v)] | (j, w) :: t => if String.eqb j k then (j, v) :: t else (j, w) :: hset t k v end.
(** ",".join *)
Fixpoint join_commas (l : list string) : string :=
  match l with [] => "" | [s] => s | s :: t => (s ++ "," ++ join_commas t)%string end.
Fixpoint ends_with (suf s : string) : bool := String.eqb suf s || match s with EmptyString => false | String _ t => ends_with suf t end.
(** glob.glob(f"{root}/*fits"): [listing] are the names in the directory in the order the file system gives them *)
Definition globbed (listing : list string) : list string :=
  filter (fun n => ends_with "fits" n && negb (prefix "." n)) listing.
(** What flux_unc_linear does: a table, an AttributeError (no precisions) or another exception *)
Inductive uncertainties := Made (t : table) | NoAttribute | Raised.
Definition zero_counts (r : row) : row := set_n_patch (set_n_iter r 0%Z) 0%Z.
Definition postop_catalog (d : disk) (root : string) (listing : list string) (unc : uncertainties)
           (bands : option (list string)) (catname : option string) : option (disk * string) :=
  match d (root ++ "/patches/patch0_samples.h5")%string with
  | Some (Samp sbands raw) =>
    let out := match catname with Some n => n | None => replace ".fits" "_postop.fits" raw end in
    let bs := match bands with Some b => b | None => sbands end in
    match globbed listing with
    | [] => None
    | f :: _ =>
      match d (root ++ "/" ++ f)%string with
      | Some (Cat t h e) =>
        let t' := mkTable (t_names t) (map zero_counts (t_rows t)) in
        match (match unc with Made u => Some (hset h "EXT2" "flux uncertainties", match e with None => Some u | Some _ => e end)
                            | NoAttribute => Some (h, e)
                            | Raised => None end) with
        | None => None
        | Some (h1, e1) =>
          Some (save d out (Cat t' (hset (hset (hset h1 "EXT1" "maximum-a-posteriori") "POSTOP" "T") "FILTERS" (join_commas bs)) e1), out)
        end
      | _ => None
      end
    end
  | _ => None
  end.

(** ** rectify_catalog *)
(** s.split(",") *)
Fixpoint split_commas (cur s : string) : list string :=
  match s with
  | EmptyString => [cur]
  | String c t => if Ascii.eqb c "," then cur :: split_commas "" t else split_commas (cur ++ String c "") t
  end.
(** s.strip() for ASCII *)
Definition is_space (c : ascii) : bool :=
  let n := nat_of_ascii c in ((9 <=? n) && (n <=? 13)) || ((28 <=? n) && (n <=? 32)).
Fixpoint lstrip (s : string) : string := match s with EmptyString => s | String c t => if is_space c then lstrip t else s end.
Fixpoint all_space (s : string) : bool := match s with EmptyString => true | String c t => is_space c && all_space t end.
Fixpoint rstrip (s : string) : string :=
  match s with EmptyString => s | String c t => if all_space s then EmptyString else String c (rstrip t) end.
Definition strip (s : string) : string := rstrip (lstrip s).
(** np.clip *)
Definition clip (lo hi v : Q) : Q := let m := if Qlt_le_dec v lo then lo else v in if Qlt_le_dec hi m then hi else m.
(** 791-794 with the defaults of 767-768 *)
Definition clip_column (n : string) (v : Q) : Q :=
  if String.eqb n "rhalf" then clip (51 # 1000) (29 # 100) v
  else if String.eqb n "q" then clip (2 # 10) (99 # 100) v
  else if String.eqb n "sersic" then clip (101 # 100) (499 # 100) v
  else if String.eqb n "pa" then clip (-2) 2 v
  else v.
(** sourcecat_dtype 751-764, the columns besides the five *)
Definition dtype_names (bands : list string) : list string := (["id"; "roi"] ++ shape_cols ++ bands)%list%string.
Fixpoint distinct (l : list string) : bool := match l with [] => true | s :: t => negb (existsb (String.eqb s) t) && distinct t end.
Definition reserved : list string := ["source_index"; "is_active"; "is_valid"; "n_iter"; "n_patch"]%string.
Definition rectify_row (bands : list string) (r : row) : row :=
  mkRow (source_index r) (is_active r) (is_valid r) (n_iter r) (n_patch r)
        (map (fun n => (n, clip_column n (match getcol r n with Some v => v | None => 0%Q end))) (dtype_names bands)).
(** 767-802 without rotate and reverse (see AnglesModel); np.dtype refuses repeated names *)
Definition rectify_catalog (d : disk) (f : string) : option (list row * list string * header) :=
  match d f with
  | Some (Cat t h _) =>
    match lookup h "FILTERS" with
    | None => None
    | Some v =>
      let bands := map strip (split_commas "" v) in
      let known n := existsb (String.eqb n) (t_names t ++ reserved) in
      if forallb known bands && distinct (reserved ++ dtype_names bands) && forallb known shape_cols
      then Some (map (rectify_row bands) (t_rows t), bands, h)
      else None
    end
  | _ => None
  end.
