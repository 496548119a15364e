(** Model of the parent-side scene server: /repo/forcepho/superscene.py,
    class SuperScene (lines 36-492).

    Simplifications common to the file: floating point columns are exact
    rationals; int32 columns are unbounded [Z] (flags keep their integer
    representation, see [is_active]/[is_valid]); FITS/JSON output is not
    modelled; an exception is the value [None]/[Crash] and the (half updated)
    state it leaves behind is not described. *)
From Verif Require Import Np.

(** One row of the structured array [sourcecat] (sourcecat_dtype,
    superscene.py 751-764).  The integer tag columns are explicit fields; all
    float columns (bands, shape columns, and any extra column such as "roi")
    are the association list [cols], keyed by column name. *)
Record row := mkRow {
  source_index : Z;
  is_active : Z;      (* int32: False is stored as 0, True as 1 *)
  is_valid : Z;
  n_iter : Z;
  n_patch : Z;
  cols : list (string * Q)
}.

Definition set_active_flag (r : row) (v : Z) : row :=
  mkRow (source_index r) v (is_valid r) (n_iter r) (n_patch r) (cols r).
Definition set_valid_flag (r : row) (v : Z) : row :=
  mkRow (source_index r) (is_active r) v (n_iter r) (n_patch r) (cols r).
Definition set_n_iter (r : row) (v : Z) : row :=
  mkRow (source_index r) (is_active r) (is_valid r) v (n_patch r) (cols r).
Definition set_n_patch (r : row) (v : Z) : row :=
  mkRow (source_index r) (is_active r) (is_valid r) (n_iter r) v (cols r).
Definition set_source_index (r : row) (v : Z) : row :=
  mkRow v (is_active r) (is_valid r) (n_iter r) (n_patch r) (cols r).

(** [row[f]]; a missing column is a KeyError ([None]). *)
Fixpoint assoc (f : string) (l : list (string * Q)) : option Q :=
  match l with
  | [] => None
  | (g, v) :: t => if String.eqb f g then Some v else assoc f t
  end.
Definition getcol (r : row) (f : string) : option Q := assoc f (cols r).
(** [row[f] = v] for an existing column (columns are never created). *)
Fixpoint assoc_set (f : string) (v : Q) (l : list (string * Q)) : list (string * Q) :=
  match l with
  | [] => []
  | (g, w) :: t => if String.eqb f g then (g, v) :: t else (g, w) :: assoc_set f v t
  end.
Definition setcol (f : string) (r : row) (v : Q) : row :=
  mkRow (source_index r) (is_active r) (is_valid r) (n_iter r) (n_patch r)
        (assoc_set f v (cols r)).

(** Galaxy.SHAPE_COLS, sources.py 516 *)
Definition shape_cols : list string := ["ra"; "dec"; "q"; "pa"; "sersic"; "rhalf"]%string.

(** An opaque covariance matrix / bounds row. *)
Definition matrix := list (list Q).
Definition bounds_row := list (string * (Q * Q)).

(** Scene server limits, SuperScene.__init__ 58-82. *)
Record config := mkConfig {
  bands : list string;
  target_niter : Z;
  maxactive_fraction : Q;
  maxactive : nat;          (* maxactive_per_patch *)
  nscale : Q;
  boundary_radius : Q;
  maxradius : Q;
  minradius : Q
}.
(** parameter_columns, 107-109 *)
Definition parameter_columns (c : config) : list string := bands c ++ shape_cols.

(** External services: astropy coordinate transform (sky_to_scene, 163-185),
    the KD-tree over the original positions (line 121, 393), the distance from
    a centre to the (cached, original) scene coordinates of source k (404-405),
    and numpy's argsort (415), whose treatment of ties is unspecified. *)
Record env := mkEnv {
  sky_to_scene : Q -> Q -> Q * Q;
  query_ball : (Q * Q) -> Q -> list nat;
  distance_to : (Q * Q) -> nat -> Q;
  argsort : list Q -> list nat
}.

(** The mutable state. [sourcelog] is a dict keyed by source number. *)
Record state := mkState {
  sourcecat : list row;
  bounds_catalog : list bounds_row;
  covariance_matrices : list matrix;
  n_active : Z;
  n_fixed : Z;
  sourcelog : list (nat * list string);
  patchlog : list string
}.

(** set_catalog 139-161 (column presence asserts are the caller's
    precondition) + the counters and logs of __init__/ingest 72-73, 115-134.
    Bounds and covariances are given, see BoundsModel. *)
Fixpoint set_catalog_from (i : nat) (l : list row) : list row :=
  match l with
  | [] => []
  | r :: t =>
      set_active_flag (set_valid_flag (set_source_index r (Z.of_nat i)) 1) 0
      :: set_catalog_from (S i) t
  end.
Definition ingest (cat : list row) (bcat : list bounds_row) (covs : list matrix) : state :=
  mkState (set_catalog_from 0 cat) bcat covs 0 0 [] [].

(** undone 103-105 *)
Definition undone (c : config) (s : state) : bool :=
  existsb (fun r => (Z.abs (n_iter r) <? target_niter c)%Z) (sourcecat s).

(** sparse 98-101 (ZeroDivisionError on an empty catalog) *)
Definition sparse (c : config) (s : state) : option bool :=
  match sourcecat s with
  | [] => None
  | _ => Some (Qltb (inject_Z (n_active s) / inject_Z (Z.of_nat (List.length (sourcecat s))))%Q
                    (maxactive_fraction c))
  end.

Definition flag (z : Z) : bool := negb (z =? 0)%Z.

(** Result of get_circular_scene, 372-440. *)
Inductive scene_result :=
| Refused                                     (* return None, None, None *)
| Scene (radius : Q) (active_inds fixed_inds : list nat)
| Crash.                                      (* uncaught exception *)

(** get_circular_scene 372-440.
    Line 393-394: an empty neighbour list becomes a float array and indexing
    with it raises, hence [Crash].  Line 429: [.max()] of an empty array raises
    when no source has its outer distance inside maxradius (or maxactive=0). *)
Definition get_circular_scene (e : env) (c : config) (s : state) (center : Q * Q) : scene_result :=
  let kinds := query_ball e center (boundary_radius c) in
  match kinds, fancy_get (sourcecat s) kinds with
  | [], _ => Crash
  | _, None => Crash
  | _, Some krows =>
    if np_any (map (fun r => flag (is_active r)) krows) then Refused
    else
      match mapM (fun r => getcol r "rhalf") krows with
      | None => Crash
      | Some rhalf =>
        let distance := map (distance_to e center) kinds in
        let outer := map (fun dr => fst dr + nscale c * snd dr)%Q (combine distance rhalf) in
        let inner := map (fun dr => fst dr - nscale c * snd dr)%Q (combine distance rhalf) in
        let order := argsort e outer in
        let N_inside := count_true (map (fun m => Qltb m (maxradius c)) outer) in
        let N_active := Nat.min (maxactive c) N_inside in
        let active_inds := firstn N_active order in
        let finds := skipn N_active order in
        match Qmax_list (map (fun i => nth i outer 0%Q) active_inds) with
        | None => Crash
        | Some rmax =>
          let radius := Qmaxb (minradius c) rmax in
          let close := filter (fun i => Qltb (nth i inner 0%Q) radius) finds in
          let fixed0 := firstn (Nat.min (maxactive c) (List.length finds)) close in
          let fixed_inds := match fixed0 with [] => firstn 1 finds | _ => fixed0 end in
          match fancy_get kinds active_inds, fancy_get kinds fixed_inds with
          | Some a, Some f => Scene radius a f
          | _, _ => Crash
          end
        end
      end
  end.

(** A checked-out patch as handed to the child. Region centre in degrees and
    radius in degrees (CircularRegion(cra, cdec, radius / 3600.)). *)
Record patch := mkPatch {
  region : (Q * Q) * Q;
  p_active : list row;
  p_fixed : list row
}.

Inductive checkout_result :=
| CoRefused (s : state)
| CoGranted (s : state) (p : patch)
| CoCrash.

(** checkout_region 229-267, for the seed source [k] (given, or the outcome of
    the random draw in draw_center 442-465). *)
Definition checkout_region (e : env) (c : config) (s : state) (k : nat) : checkout_result :=
  match nth_error (sourcecat s) k with
  | None => CoCrash
  | Some seed =>
    match getcol seed "ra", getcol seed "dec" with
    | Some cra, Some cdec =>
      let center := sky_to_scene e cra cdec in
      match get_circular_scene e c s center with
      | Crash => CoCrash
      | Refused => CoRefused s
      | Scene radius ai fi =>
        let cat1 := fancy_put_scalar set_active_flag (sourcecat s) ai 1%Z in
        let cat2 := fancy_put_scalar set_valid_flag cat1 ai 0%Z in
        let cat3 := fancy_put_scalar set_valid_flag cat2 fi 0%Z in
        let s' := mkState cat3 (bounds_catalog s) (covariance_matrices s)
                          (n_active s + Z.of_nat (List.length ai))
                          (n_fixed s + Z.of_nat (List.length fi))
                          (sourcelog s) (patchlog s) in
        match fancy_get cat3 ai, fancy_get cat3 fi with
        | Some a, Some f => CoGranted s' (mkPatch ((cra, cdec), (radius / 3600)%Q) a f)
        | _, _ => CoCrash
        end
      end
    | _, _ => CoCrash
    end
  end.

(** sourcelog update, 338-345 *)
Fixpoint log_source (log : list (nat * list string)) (sid : nat) (pid : string) :=
  match log with
  | [] => [(sid, [pid])]
  | (k, l) :: t => if Nat.eqb k sid then (k, l ++ [pid]) :: t else (k, l) :: log_source t sid pid
  end.
Fixpoint log_lookup (log : list (nat * list string)) (sid : nat) : list string :=
  match log with
  | [] => []
  | (k, l) :: t => if Nat.eqb k sid then l else log_lookup t sid
  end.

(** [for f in parameter_columns: sourcecat[f][active_inds] = active[f]], 312-313;
    a column missing from the returned rows is a KeyError. *)
Fixpoint put_columns (fs : list string) (cat : list row) (inds : list nat) (act : list row)
  : option (list row) :=
  match fs with
  | [] => Some cat
  | f :: fs' =>
    match mapM (fun r => getcol r f) act with
    | None => None
    | Some vals => put_columns fs' (fancy_put_field (setcol f) cat inds vals) inds act
    end
  end.

(** [a[f][inds] += v]: numpy computes all new values from the old array, then
    assigns. *)
Definition add_field (getf : row -> Z) (setf : row -> Z -> row) (cat : list row)
           (inds : list nat) (v : Z) : option (list row) :=
  match fancy_get cat inds with
  | None => None
  | Some rs => Some (fancy_put_field setf cat inds (map (fun r => getf r + v)%Z rs))
  end.

(** mass matrix update 330-335: a wrong number of blocks (other than one, which
    numpy broadcasts) is caught and ignored. *)
Definition put_covs (covs : list matrix) (inds : list nat) (block_covs : option (list matrix)) :=
  match block_covs with
  | None => covs
  | Some bc =>
    if Nat.eqb (List.length bc) (List.length inds) then fancy_put covs inds bc
    else match bc with
         | [m] => fancy_put covs inds (map (fun _ => m) inds)
         | _ => covs
         end
  end.

(** bounds update 326-327: a wrong number of rows raises (except one row). *)
Definition put_bounds (b : list bounds_row) (inds : list nat) (new : option (list bounds_row)) :=
  match new with
  | None => Some b
  | Some nb =>
    if Nat.eqb (List.length nb) (List.length inds) then Some (fancy_put b inds nb)
    else match nb with
         | [m] => Some (fancy_put b inds (map (fun _ => m) inds))
         | _ => None
         end
  end.

(** Arguments of checkin_region 269-270 besides the rows. *)
Record checkin_args := mkArgs {
  niter : Z;
  block_covs : option (list matrix);
  new_bounds : option (list bounds_row);
  taskID : option string
}.

(** checkin_region 269-349 (flush/writeout not modelled). *)
Definition checkin_region (c : config) (s : state) (active : list row)
           (fixed : option (list row)) (a : checkin_args) : option state :=
  let n := List.length (sourcecat s) in
  match mapM (fun r => np_index n (source_index r)) active,
        mapM (fun r => np_index n (source_index r)) (match fixed with Some f => f | None => [] end) with
  | Some ai, Some fi =>
    match put_columns (parameter_columns c) (sourcecat s) ai active with
    | None => None
    | Some cat1 =>
      match add_field n_iter set_n_iter cat1 ai (niter a) with
      | None => None
      | Some cat2 =>
        let cat3 := fancy_put_scalar set_active_flag cat2 ai 0%Z in
        match add_field n_patch set_n_patch cat3 ai (if (0 <? niter a)%Z then 1 else 0)%Z with
        | None => None
        | Some cat4 =>
          let cat5 := fancy_put_scalar set_valid_flag cat4 ai 1%Z in
          let cat6 := fancy_put_scalar set_valid_flag cat5 fi 1%Z in
          match put_bounds (bounds_catalog s) ai (new_bounds a) with
          | None => None
          | Some b' =>
            let covs' := put_covs (covariance_matrices s) ai (block_covs a) in
            let slog' := match taskID a with
                         | None => sourcelog s
                         | Some pid => fold_left (fun log k => log_source log k pid) ai (sourcelog s)
                         end in
            let plog' := match taskID a with
                         | None => patchlog s
                         | Some pid => patchlog s ++ [pid]
                         end in
            Some (mkState cat6 b' covs'
                          (n_active s - Z.of_nat (List.length ai))
                          (n_fixed s - Z.of_nat (List.length fi)) slog' plog')
          end
        end
      end
    end
  | _, _ => None
  end.

(** reset 362-370 *)
Definition reset_row (r : row) : row :=
  mkRow (source_index r) 0 1 0 0 (cols r).
Definition reset (s : state) : state :=
  mkState (map reset_row (sourcecat s)) (bounds_catalog s) (covariance_matrices s)
          0 0 (sourcelog s) (patchlog s).

(** bounds_and_covs, row lookup part 351-356 (block_diag: see BlockDiagModel). *)
Definition bounds_and_covs (s : state) (ids : list nat) : option (list bounds_row * list matrix) :=
  match fancy_get (bounds_catalog s) ids, fancy_get (covariance_matrices s) ids with
  | Some b, Some v => Some (b, v)
  | _, _ => None
  end.
