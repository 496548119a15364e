(** Options: /repo/forcepho/config.py parse_all 149-181, make_bounds_kwargs 184-192,
    yaml_to_namespace 195-217, update_config 220-233, rectify_config 236-265,
    new_args 268-276, read_config 279-306.

    Trusted and simplified: argparse's parse_args for parsers whose options are all
    long, named after their destination, and of nargs None, n or '*' (all the options of
    main_config_parser 17-115 and preprocess_config_parser 118-131 are of that shape):
    exact names, '--k=v', and unambiguous abbreviations.  A token is an option when it
    begins with "--"; the bare "--" separator and '-h' are left out.  SystemExit, like any exception, is
    [None].  The yaml file is a map from option names to values with distinct keys. *)
From Verif Require Import Np.
From Coq Require Import Ascii.
Open Scope string_scope.

Inductive value := VNone | VStr (s : string) | VNum (q : Q) | VList (l : list value) | VArray (l : list value) | VDtype (s : string).
(** argparse.Namespace: getattr and setattr *)
Definition namespace := list (string * value).
Fixpoint get (ns : namespace) (k : string) : option value :=
  match ns with [] => None | (j, v) :: t => if String.eqb j k then Some v else get t k end.
Fixpoint put (ns : namespace) (k : string) (v : value) : namespace :=
  match ns with [] => [(k, v)] | (j, w) :: t => if String.eqb j k then (j, v) :: t else (j, w) :: put t k v end.

Inductive nargs := One | Exactly (n : nat) | Star.
Record opt := mkOpt { oname : string; onargs : nargs; oconv : list string -> option value; odef : value }.
Definition parser := list opt.

(** ** argparse *)
Definition is_opt (t : string) : bool := prefix "--" t.
(** s.split("=", 1) *)
Fixpoint split_eq (s : string) : string * option string :=
  match s with
  | EmptyString => (EmptyString, None)
  | String c t => if Ascii.eqb c "="%char then (EmptyString, Some t) else let '(a, b) := split_eq t in (String c a, b)
  end.
Definition dashed (o : opt) : string := "--" ++ oname o.
(** The option a token names, and the value after '='. *)
Definition resolve (ps : parser) (t : string) : option (opt * option string) :=
  match find (fun o => String.eqb (dashed o) t) ps with
  | Some o => Some (o, None)
  | None =>
    let '(n, v) := split_eq t in
    match find (fun o => String.eqb (dashed o) n) ps with
    | Some o => Some (o, v)
    | None => match filter (fun o => prefix n (dashed o)) ps with [o] => Some (o, v) | _ => None end
    end
  end.
(** Each option token with the argument tokens after it; first the arguments before any option. *)
Definition group (argv : list string) : list string * list (string * list string) :=
  fold_right (fun t ag => if is_opt t then ([], (t, fst ag) :: snd ag) else (t :: fst ag, snd ag)) ([], []) argv.
Definition count_ok (n : nargs) (args : list string) : bool :=
  match n with One => (List.length args =? 1)%nat | Exactly n => (List.length args =? n)%nat | Star => true end.
Definition one_arg (n : nargs) : bool := match n with One | Star => true | Exactly n => (n =? 1)%nat end.
Definition parse_group (ps : parser) (g : string * list string) : option (string * value) :=
  match resolve ps (fst g) with
  | None => None
  | Some (o, None) => if count_ok (onargs o) (snd g) then option_map (pair (oname o)) (oconv o (snd g)) else None
  | Some (o, Some v) => match snd g with [] => if one_arg (onargs o) then option_map (pair (oname o)) (oconv o [v]) else None | _ :: _ => None end
  end.
Definition put_all (ns : namespace) (kvs : list (string * value)) : namespace := fold_left (fun ns kv => put ns (fst kv) (snd kv)) kvs ns.
Definition defaults (ps : parser) : namespace := put_all [] (map (fun o => (oname o, odef o)) ps).
Definition parse_args (ps : parser) (argv : list string) : option namespace :=
  match group argv with
  | ([], gs) => option_map (put_all (defaults ps)) (mapM (parse_group ps) gs)
  | (_ :: _, _) => None
  end.

(** ** config.py *)
(** new_args 268-276; [nconf] is filled in the order of [oconf] *)
Definition in_argv (argv : list string) (k : string) : bool := existsb (String.eqb ("--" ++ k)) argv.
Definition new_args (ps : parser) (argv : list string) : option namespace :=
  option_map (filter (fun kv => in_argv argv (fst kv))) (parse_args ps argv).
(** update_config 220-233 *)
Definition update_config (config : namespace) (args : option namespace) : namespace :=
  match args with
  | None => config
  | Some d => fold_left (fun c kv => match snd kv with VNone => c | v => put c (fst kv) v end) d config
  end.
(** getattr(x, k, None) at 163-165 *)
Definition get_none (ns : namespace) (k : string) : value := match get ns k with Some v => v | None => VNone end.
(** 158-179, before rectify_config: [files] gives the content of the yaml files *)
Definition parse_merge (files : value -> option namespace) (ps : parser) (argv : list string) : option namespace :=
  match parse_args ps [], new_args ps (tl argv) with
  | Some defargs, Some clargs =>
    let config_file := match get_none clargs "config_file" with VNone => get_none defargs "config_file" | v => v end in
    match config_file with
    | VNone => Some (update_config (update_config defargs None) (Some clargs))
    | f => match files f with
           | None => None
           | Some yargs => Some (update_config (update_config defargs (Some yargs)) (Some clargs))
           end
    end
  | _, _ => None
  end.

(** rectify_config 236-265 *)
Definition ends_slash (s : string) : bool := match String.get (String.length s - 1) s with Some c => Ascii.eqb c "/"%char | None => false end.
Definition path_join (a b : string) : string :=
  if prefix "/" b then b else if (String.eqb a "" || ends_slash a)%bool then a ++ b else a ++ "/" ++ b.
Definition storefiles : list string := ["pixelstorefile"; "metastorefile"; "psfstorefile"].
(** 241-246; only AttributeError is caught *)
Definition join_store (d : string) (c : option namespace) (attr : string) : option namespace :=
  match c with
  | None => None
  | Some ns => match get ns attr with
               | None => Some ns
               | Some (VStr n) => Some (put ns attr (VStr (path_join d n)))
               | Some _ => None
               end
  end.
Definition join_stores (ns : namespace) : option namespace :=
  match get ns "store_directory" with
  | None | Some VNone => Some ns
  | Some (VStr d) => if String.eqb d "" then Some ns else fold_left (join_store d) storefiles (Some ns)
  | Some _ => None
  end.
Definition has_dtype (k : string) : bool := match index 0 "dtype" k with Some _ => true | None => false end.
(** 250-261 for one attribute: np.sctypeDict is [dtypes], os.path.expandvars [expand] *)
Definition rectify_value (expand : string -> string) (dtypes : string -> option string) (k : string) (v : value) : option value :=
  if has_dtype k then match v with VStr s => option_map VDtype (dtypes s) | _ => None end
  else match v with
       | VStr s => Some (VStr (expand s))
       | VList l => Some (VArray l)
       | v => Some v
       end.
Definition rectify_config (expand : string -> string) (dtypes : string -> option string) (ns : namespace) : option namespace :=
  match join_stores ns with
  | None => None
  | Some ns => mapM (fun kv => option_map (pair (fst kv)) (rectify_value expand dtypes (fst kv) (snd kv))) ns
  end.
(** make_bounds_kwargs 184-192, which rectify_config attaches at 263 *)
Definition bound_fields : list string := ["sqrtq_range"; "sersic_range"; "rhalf_range"; "pa_range"; "dpos"; "n_sig_flux"; "n_pix"; "pixscale"].
Definition make_bounds_kwargs (ns : namespace) : namespace :=
  fold_left (fun kw f => match get_none ns f with VNone => kw | v => put kw f v end) bound_fields [].
Definition parse_all (expand : string -> string) (dtypes : string -> option string) (files : value -> option namespace) (ps : parser) (argv : list string) : option (namespace * namespace) :=
  match parse_merge files ps argv with
  | None => None
  | Some ns => option_map (fun ns => (ns, make_bounds_kwargs ns)) (rectify_config expand dtypes ns)
  end.
(** read_config 279-306 before rectify_config; dispatcher.py 351-354 calls it with all of parser.parse_args() *)
Definition read_merge (files : value -> option namespace) (f : value) (args : option namespace) : option namespace :=
  option_map (fun y => update_config y args) (files f).
