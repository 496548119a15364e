(** Vocabulary for the friends-of-friends server (C08-C11). *)
From Verif Require Import Np SuperSceneModel SuperSceneSpec LinkedModel.
From Coq Require Import Relations.

(** What is assumed of the geometry for [n] sources: the spatial index and
    argsort as before, and distances between source positions are symmetric,
    non-negative and zero from a source to itself. *)
Record lenv_ok (n : nat) (e : lenv) : Prop := {
  lenv_base : env_ok n (le e);
  dist_nonneg : forall ctr k, (0 <= distance_to (le e) ctr k)%Q;
  dist_sym : forall i j, i < n -> j < n ->
      (distance_to (le e) (coord e i) j == distance_to (le e) (coord e j) i)%Q;
  dist_self : forall i, i < n -> (distance_to (le e) (coord e i) i == 0)%Q
}.

(** Every source has a (non-negative) radius of influence. *)
Definition roi_ok (lc : lconfig) (s : state) : Prop :=
  forall k, k < List.length (sourcecat s) -> exists r, roi_at lc s k = Some r /\ (0 <= r)%Q.
Definition roi_of (lc : lconfig) (s : state) (k : nat) : Q :=
  match roi_at lc s k with Some r => r | None => 0%Q end.

(** The regions of influence of two different sources overlap. *)
Definition touch (e : lenv) (lc : lconfig) (s : state) (i j : nat) : Prop :=
  i <> j /\ i < List.length (sourcecat s) /\ j < List.length (sourcecat s) /\
  (distance_to (le e) (coord e i) j < roi_of lc s i + roi_of lc s j)%Q.

(** ... and [j] is close enough to be seen by the search around [i]. *)
Definition sees (e : lenv) (lc : lconfig) (s : state) (i j : nat) : Prop :=
  touch e lc s i j /\
  (distance_to (le e) (coord e i) j <= roi_of lc s i + boundary_radius (base lc))%Q.

(** Chains. *)
Definition linked (e : lenv) (lc : lconfig) (s : state) := clos_refl_trans nat (touch e lc s).
Definition chain_seen (e : lenv) (lc : lconfig) (s : state) := clos_refl_trans nat (sees e lc s).

(** All radii of influence are within the server's boundary radius. *)
Definition small_roi (lc : lconfig) (s : state) : Prop :=
  forall k, k < List.length (sourcecat s) -> (roi_of lc s k <= boundary_radius (base lc))%Q.

(** Histories of the linked server, as in SuperSceneSpec. *)
Definition lfixed_rows (p : lpatch) : list row := match lp_fixed p with Some f => f | None => [] end.
Inductive levent := LEvOut (p : lpatch) | LEvRefused | LEvIn (returned : list row) (a : checkin_args).
Inductive lhistory (e : lenv) (lc : lconfig) (s0 : state) : list levent -> state -> list lpatch -> Prop :=
| lh_start : lhistory e lc s0 [] s0 []
| lh_grant : forall evs s out k mf s' p,
    lhistory e lc s0 evs s out ->
    lcheckout_region e lc s k mf = LCoGranted s' p ->
    lhistory e lc s0 (evs ++ [LEvOut p]) s' (out ++ [p])
| lh_refuse : forall evs s out k mf s',
    lhistory e lc s0 evs s out ->
    lcheckout_region e lc s k mf = LCoRefused s' ->
    lhistory e lc s0 (evs ++ [LEvRefused]) s' out
| lh_in : forall evs s o1 p o2 act a s',
    lhistory e lc s0 evs s (o1 ++ p :: o2) ->
    ids act = ids (lp_active p) ->
    checkin_region (base lc) s act (lp_fixed p) a = Some s' ->
    lhistory e lc s0 (evs ++ [LEvIn act a]) s' (o1 ++ o2).
Definition lall_active (out : list lpatch) : list Z := concat (map (fun p => ids (lp_active p)) out).
