(** Vocabulary for the statements about the scene server (C01-C06).
    Nothing here refers to the inner workings of checkout or check-in. *)
From Verif Require Import Np SuperSceneModel.
From Coq Require Import Permutation Sorted.

(** What is assumed of the external services for a catalog of [n] sources:
    the spatial index returns distinct, in-range source numbers, exactly those
    whose distance is within the radius; argsort returns a sorting
    permutation (any one). *)
Record env_ok (n : nat) (e : env) : Prop := {
  query_nodup : forall ctr r, NoDup (query_ball e ctr r);
  query_spec : forall ctr r k,
      In k (query_ball e ctr r) <-> (k < n)%nat /\ (distance_to e ctr k <= r)%Q;
  argsort_perm : forall l, Permutation (argsort e l) (seq 0 (List.length l));
  argsort_sorted : forall l,
      StronglySorted (fun i j => nth i l 0 <= nth j l 0)%Q (argsort e l)
}.

(** Source numbers of the rows of a (sub)catalog. *)
Definition ids (rows : list row) : list Z := map source_index rows.

(** What an observer of the server's interface sees. *)
Inductive event :=
| EvOut (p : patch)                                (* a granted checkout *)
| EvRefused                                        (* a refused checkout *)
| EvIn (returned : list row) (a : checkin_args).   (* a check-in *)

(** All histories: start from [s0], then any number of checkouts (any seed) and
    check-ins of outstanding patches.  A check-in returns rows for exactly the
    active sources of that patch, in order, with arbitrary contents, together
    with the patch's fixed rows.  The last index is the list of outstanding
    patches. *)
Inductive history (e : env) (c : config) (s0 : state)
  : list event -> state -> list patch -> Prop :=
| h_start : history e c s0 [] s0 []
| h_grant : forall evs s out k s' p,
    history e c s0 evs s out ->
    checkout_region e c s k = CoGranted s' p ->
    history e c s0 (evs ++ [EvOut p]) s' (out ++ [p])
| h_refuse : forall evs s out k s',
    history e c s0 evs s out ->
    checkout_region e c s k = CoRefused s' ->
    history e c s0 (evs ++ [EvRefused]) s' out
| h_in : forall evs s o1 p o2 act a s',
    history e c s0 evs s (o1 ++ p :: o2) ->
    ids act = ids (p_active p) ->
    checkin_region c s act (Some (p_fixed p)) a = Some s' ->
    history e c s0 (evs ++ [EvIn act a]) s' (o1 ++ o2).

(** All active (fixed) entries of the outstanding patches. *)
Definition all_active (out : list patch) : list Z := concat (map (fun p => ids (p_active p)) out).
Definition all_fixed (out : list patch) : list Z := concat (map (fun p => ids (p_fixed p)) out).

(** Row of source [j] *)
Definition src (s : state) (j : nat) : option row := nth_error (sourcecat s) j.

(** Total number of iterations credited to source [j] by the check-ins of a
    history, and the labels of the check-ins that returned it. *)
Definition memZ (z : Z) (l : list Z) : bool := existsb (Z.eqb z) l.
Fixpoint total_niter (j : nat) (evs : list event) : Z :=
  match evs with
  | [] => 0
  | EvIn act a :: t =>
      (if memZ (Z.of_nat j) (ids act) then niter a else 0) + total_niter j t
  | _ :: t => total_niter j t
  end%Z.
Fixpoint total_patches (j : nat) (evs : list event) : Z :=
  match evs with
  | [] => 0
  | EvIn act a :: t =>
      (if memZ (Z.of_nat j) (ids act) && (0 <? niter a) then 1 else 0) + total_patches j t
  | _ :: t => total_patches j t
  end%Z.
Fixpoint labels_of (j : nat) (evs : list event) : list string :=
  match evs with
  | [] => []
  | EvIn act a :: t =>
      match taskID a with
      | Some pid => if memZ (Z.of_nat j) (ids act) then pid :: labels_of j t else labels_of j t
      | None => labels_of j t
      end
  | _ :: t => labels_of j t
  end.
Fixpoint all_labels (evs : list event) : list string :=
  match evs with
  | [] => []
  | EvIn _ a :: t => match taskID a with Some pid => pid :: all_labels t | None => all_labels t end
  | _ :: t => all_labels t
  end.

(** Everything about a row except the two availability flags. *)
Definition same_but_flags (r r' : row) : Prop :=
  source_index r = source_index r' /\ n_iter r = n_iter r' /\
  n_patch r = n_patch r' /\ cols r = cols r'.

(** Outer and inner distance of source [k] from a centre: distance plus/minus
    [nscale] half-light radii (the catalog's current half-light radius). *)
Definition rhalf_of (s : state) (k : nat) : Q :=
  match src s k with
  | Some r => match getcol r "rhalf" with Some v => v | None => 0 end
  | None => 0
  end%Q.
Definition outer_of (e : env) (c : config) (s : state) (ctr : Q * Q) (k : nat) : Q :=
  (distance_to e ctr k + nscale c * rhalf_of s k)%Q.
Definition inner_of (e : env) (c : config) (s : state) (ctr : Q * Q) (k : nat) : Q :=
  (distance_to e ctr k - nscale c * rhalf_of s k)%Q.

(** The columns a fit determines: one flux per band, and the six shape columns. *)
Definition fitted_columns (c : config) : list string :=
  bands c ++ ["ra"; "dec"; "q"; "pa"; "sersic"; "rhalf"]%string.

(** A catalog all of whose rows have the columns the server needs. *)
Definition has_columns (c : config) (s : state) : Prop :=
  forall r f, In r (sourcecat s) -> In f (fitted_columns c) -> exists v, getcol r f = Some v.
