(** Model of the friends-of-friends scene server: /repo/forcepho/superscene.py,
    class LinkedSuperScene (lines 495-748).  Same conventions as
    SuperSceneModel.v (exact rationals, exceptions as [None]/[LCrash]). *)
From Verif Require Import Np SuperSceneModel.

(** __init__ 501-527.  [roi = None] is the case of line 522: the radii are a live
    view of the catalog's half-light radius column, so they follow check-ins;
    otherwise a fixed array was supplied. *)
Record lconfig := mkLConfig {
  base : config;
  buffer : Q;
  strict : bool;
  roi : option (list Q)
}.

(** External services plus the cached scene coordinates of the sources
    ([self.scene_coordinates], 119-121). *)
Record lenv := mkLEnv {
  le : env;
  coord : nat -> Q * Q
}.

(** [self.roi[k]] *)
Definition roi_at (lc : lconfig) (s : state) (k : nat) : option Q :=
  match roi lc with
  | Some l => nth_error l k
  | None => match nth_error (sourcecat s) k with
            | Some r => getcol r "rhalf"
            | None => None
            end
  end.

(** The metric |x_i - x_j| / (R_i + R_j) of 703-704.  [None] stands for the
    float inf/nan of a zero denominator, which fails both comparisons. *)
Definition metric (d radius r : Q) : option Q :=
  if Qeq_bool (radius + r) 0 then None else Some (d / (radius + r))%Q.

Definition overlap_flag (m : option Q) : bool :=
  match m with
  | Some x => Qltb x 1 && Qle_bool 0 x
  | None => false
  end.
Definition metric_value (m : option Q) : Q := match m with Some x => x | None => 0%Q end.

(** find_overlaps 677-711; [seed = None] is the default seed_index = -1. *)
Definition find_overlaps (e : lenv) (lc : lconfig) (s : state) (center : Q * Q) (radius : Q)
           (seed : option nat) (sort : bool) : option (list nat) :=
  let kinds := query_ball (le e) center (radius + boundary_radius (base lc))%Q in
  match mapM (roi_at lc s) kinds with
  | None => None
  | Some rois =>
    let keep := filter (fun km => overlap_flag (snd km) &&
                          match seed with Some i => negb (Nat.eqb (fst km) i) | None => true end)
                  (combine kinds (map (fun kr => metric (distance_to (le e) center (fst kr)) radius (snd kr))
                                      (combine kinds rois))) in
    let inds := map fst keep in
    if sort then fancy_get inds (argsort (le e) (map (fun km => metric_value (snd km)) keep))
    else Some inds
  end.

(** One pass over the seeds, 550-557: [leaves += [b for b in branches if b not in leaves]]. *)
Fixpoint collect_leaves (overlaps : nat -> option (list nat)) (seeds leaves : list nat)
  : option (list nat) :=
  match seeds with
  | [] => Some leaves
  | s :: t =>
    match overlaps s with
    | None => None
    | Some branches =>
      collect_leaves overlaps t (leaves ++ filter (fun b => negb (memn b leaves)) branches)
    end
  end.

(** The [while True] loop of grow_source, 548-564.  [fuel] bounds the number of
    rounds; running out is an error value that the theorems exclude. *)
Fixpoint grow_loop (overlaps : nat -> option (list nat)) (fuel : nat) (seeds members : list nat)
  : option (list nat) :=
  match fuel with
  | O => None
  | S fuel' =>
    let members' := members ++ seeds in
    match collect_leaves overlaps seeds [] with
    | None => None
    | Some l =>
      match filter (fun x => negb (memn x members')) l with
      | [] => Some members'
      | leaves => grow_loop overlaps fuel' leaves members'
      end
    end
  end.

(** branches of source s: [find_overlaps(scene_coordinates[s], roi[s], seed_index=s)], 553-554 *)
Definition source_overlaps (e : lenv) (lc : lconfig) (s : state) (i : nat) : option (list nat) :=
  match roi_at lc s i with
  | None => None
  | Some r => find_overlaps e lc s (coord e i) r (Some i) false
  end.

(** grow_source 529-565 *)
Definition grow_source (e : lenv) (lc : lconfig) (s : state) (index : nat) : option (list nat) :=
  grow_loop (source_overlaps e lc s) (S (List.length (sourcecat s))) [index] [].

(** make_group_catalog 730-748: [groupID[assoc] = gind] overwrites. *)
Fixpoint group_loop (grow : nat -> option (list nat)) (todo : list nat) (gid : list Z) (gind : Z)
  : option (list Z) :=
  match todo with
  | [] => Some gid
  | i :: t =>
    if (0 <=? nth i gid (-1))%Z then group_loop grow t gid gind
    else
      match grow i with
      | None => None
      | Some assoc => group_loop grow t (fancy_put gid assoc (map (fun _ => gind) assoc)) (gind + 1)%Z
      end
  end.
Definition make_group_catalog (e : lenv) (lc : lconfig) (s : state) : option (list Z) :=
  let n := List.length (sourcecat s) in
  group_loop (grow_source e lc s) (seq 0 n) (map (fun _ => (-1)%Z) (seq 0 n)) 0%Z.

(** The greedy loop of grow_scene, 594-606. *)
Fixpoint greedy (grow : nat -> option (list nat)) (maxact : nat) (strict : bool)
         (cands active : list nat) : option (list nat) :=
  match cands with
  | [] => Some active
  | s :: t =>
    if memn s active then greedy grow maxact strict t active
    else
      let n_avail := maxact - List.length active in
      match grow s with
      | None => None
      | Some to_add =>
        if Nat.ltb n_avail (List.length to_add)
        then Some (if negb strict || Nat.eqb (List.length active) 0
                   then active ++ firstn n_avail to_add else active)
        else greedy grow maxact strict t (active ++ to_add)
      end
  end.

Inductive lscene_result :=
| LRefused                    (* (ra, dec), None, None *)
| LScene (cra cdec radius : Q) (active_inds fixed_inds : list nat)
| LCrash.

Definition Qsum (l : list Q) : Q := fold_right Qplus 0%Q l.
(** [np.mean] of a non-empty array *)
Definition Qmean (l : list Q) : Q := (Qsum l / inject_Z (Z.of_nat (List.length l)))%Q.

(** grow_scene 567-626.  A seed number outside the catalog is an IndexError
    (586), an empty neighbour list gives a float index array (IndexError, 590),
    an empty active list makes [np.max] raise (613). *)
Definition grow_scene (e : lenv) (lc : lconfig) (s : state) (seed_index : nat)
           (max_fixed : option nat) : lscene_result :=
  let c := base lc in
  let center := coord e seed_index in
  if negb (Nat.ltb seed_index (List.length (sourcecat s))) then LCrash else
  if (List.length (query_ball (le e) center (boundary_radius c + boundary_radius c)%Q) =? 0)%nat then LCrash else
  match find_overlaps e lc s center (boundary_radius c) None true with
  | None => LCrash
  | Some candidates =>
    match fancy_get (sourcecat s) candidates with
    | None => LCrash
    | Some crows =>
      if np_any (map (fun r => flag (is_active r)) crows) then LRefused
      else
        match greedy (grow_source e lc s) (maxactive c) (strict lc) candidates [] with
        | None => LCrash
        | Some active_inds =>
          match fancy_get (sourcecat s) active_inds with
          | None => LCrash
          | Some active =>
            match mapM (fun r => getcol r "ra") active, mapM (fun r => getcol r "dec") active,
                  mapM (roi_at lc s) active_inds with
            | Some ras, Some decs, Some rois =>
              let cra := Qmean ras in
              let cdec := Qmean decs in
              let center2 := sky_to_scene (le e) cra cdec in
              match Qmax_list (map (fun kr => distance_to (le e) center2 (fst kr) + snd kr + buffer lc)%Q
                                   (combine active_inds rois)) with
              | None => LCrash
              | Some rmax =>
                let radius := Qmaxb (minradius c) rmax in
                let mf := match max_fixed with Some m => m | None => maxactive c end in
                match find_overlaps e lc s center2 ((12#10) * radius)%Q None true with
                | None => LCrash
                | Some inregion =>
                  let fixed0 := filter (fun i => negb (memn i active_inds)) inregion in
                  let fixed_inds := firstn (Nat.min (List.length fixed0) mf) fixed0 in
                  LScene cra cdec radius active_inds fixed_inds
                end
              end
            | _, _, _ => LCrash
            end
          end
        end
    end
  end.

(** A patch of the linked server; the fixed rows are [None] when there are none. *)
Record lpatch := mkLPatch {
  lp_region : (Q * Q) * Q;
  lp_active : list row;
  lp_fixed : option (list row)
}.
Inductive lcheckout_result :=
| LCoRefused (s : state)
| LCoGranted (s : state) (p : lpatch)
| LCoCrash.

(** checkout_region 628-675.  The fixed rows are copied before the flags change
    (line 663), the active rows after (line 675). *)
Definition lcheckout_region (e : lenv) (lc : lconfig) (s : state) (seed_index : nat)
           (max_fixed : option nat) : lcheckout_result :=
  match grow_scene e lc s seed_index max_fixed with
  | LCrash => LCoCrash
  | LRefused => LCoRefused s
  | LScene cra cdec radius ai fi =>
    match fancy_get (sourcecat s) fi with
    | None => LCoCrash
    | Some frows =>
      let fixed := match fi with [] => None | _ => Some frows end in
      let cat1 := fancy_put_scalar set_active_flag (sourcecat s) ai 1%Z in
      let cat2 := fancy_put_scalar set_valid_flag cat1 ai 0%Z in
      let cat3 := fancy_put_scalar set_valid_flag cat2 fi 0%Z in
      let s' := mkState cat3 (bounds_catalog s) (covariance_matrices s)
                        (n_active s + Z.of_nat (List.length ai))
                        (n_fixed s + Z.of_nat (List.length fi))
                        (sourcelog s) (patchlog s) in
      match fancy_get cat3 ai with
      | None => LCoCrash
      | Some arows => LCoGranted s' (mkLPatch ((cra, cdec), (radius / 3600)%Q) arows fixed)
      end
    end
  end.
