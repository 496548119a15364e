(** Model of the scene parameter layout: /repo/forcepho/sources.py (Scene 28-215,
    Source 218-498, Galaxy 501-727, Star 730-792, SimpleGalaxy 795-865,
    ConformalShearGalaxy 868-1022), FastPosterior.stack_grad (model.py 370-387),
    bounds_vectors (superscene.py 884-899), make_chaincat and get_sample_cat
    (utils/chain.py 25-94).

    Simplifications common to the file: parameter values are an abstract type
    with the operations the code applies to them; float32 storage is not modelled;
    the sources of a scene are distinct objects (no aliasing), so a scene is a
    list of values; exceptions are [None]. *)
From Verif Require Import Np.

Section Scene.
Context {V : Type}.

(** The source classes; [GalaxyNS]/[ShearNS] are Galaxy/ConformalShearGalaxy
    constructed with free_sersic=False (sources.py 550-553). *)
Inductive kind := BaseSource | Galaxy | GalaxyNS | Star | SimpleGalaxy | Shear | ShearNS.

(** SHAPE_COLS: 240, 527 (553), 741, 812, 886 (553 inherited) *)
Definition SHAPE_COLS (k : kind) : list string :=
  match k with
  | BaseSource => ["ra"; "dec"; "q"; "pa"; "rhalf"; "sersic"]
  | Galaxy => ["ra"; "dec"; "q"; "pa"; "sersic"; "rhalf"]
  | GalaxyNS | SimpleGalaxy | ShearNS => ["ra"; "dec"; "q"; "pa"]
  | Star => ["ra"; "dec"]
  | Shear => ["ra"; "dec"; "ep"; "ec"; "sersic"; "rhalf"]
  end%string.
(** npos, nshape: 242, 528-529 (552), 742-743, 813-814 *)
Definition npos (k : kind) : nat := 2.
Definition nshape (k : kind) : nat :=
  match k with
  | BaseSource | GalaxyNS | ShearNS | SimpleGalaxy => 2
  | Galaxy | Shear => 4
  | Star => 0
  end.

(** A source object: class, filternames, flux vector, attributes, fixed flag. *)
Record source := mkSource {
  s_kind : kind;
  filternames : list string;
  flux : list V;
  s_ra : V; s_dec : V; s_q : V; s_pa : V; s_sersic : V; s_rhalf : V;
  s_ep : V; s_ec : V;        (* ConformalShearGalaxy only *)
  fixed : bool
}.
Definition set_flux (s : source) (f : list V) := mkSource (s_kind s) (filternames s) f
  (s_ra s) (s_dec s) (s_q s) (s_pa s) (s_sersic s) (s_rhalf s) (s_ep s) (s_ec s) (fixed s).
Definition set_ra (s : source) (v : V) := mkSource (s_kind s) (filternames s) (flux s)
  v (s_dec s) (s_q s) (s_pa s) (s_sersic s) (s_rhalf s) (s_ep s) (s_ec s) (fixed s).
Definition set_dec (s : source) (v : V) := mkSource (s_kind s) (filternames s) (flux s)
  (s_ra s) v (s_q s) (s_pa s) (s_sersic s) (s_rhalf s) (s_ep s) (s_ec s) (fixed s).
Definition set_q (s : source) (v : V) := mkSource (s_kind s) (filternames s) (flux s)
  (s_ra s) (s_dec s) v (s_pa s) (s_sersic s) (s_rhalf s) (s_ep s) (s_ec s) (fixed s).
Definition set_pa (s : source) (v : V) := mkSource (s_kind s) (filternames s) (flux s)
  (s_ra s) (s_dec s) (s_q s) v (s_sersic s) (s_rhalf s) (s_ep s) (s_ec s) (fixed s).
Definition set_sersic (s : source) (v : V) := mkSource (s_kind s) (filternames s) (flux s)
  (s_ra s) (s_dec s) (s_q s) (s_pa s) v (s_rhalf s) (s_ep s) (s_ec s) (fixed s).
Definition set_rhalf (s : source) (v : V) := mkSource (s_kind s) (filternames s) (flux s)
  (s_ra s) (s_dec s) (s_q s) (s_pa s) (s_sersic s) v (s_ep s) (s_ec s) (fixed s).
Definition set_ep (s : source) (v : V) := mkSource (s_kind s) (filternames s) (flux s)
  (s_ra s) (s_dec s) (s_q s) (s_pa s) (s_sersic s) (s_rhalf s) v (s_ec s) (fixed s).
Definition set_ec (s : source) (v : V) := mkSource (s_kind s) (filternames s) (flux s)
  (s_ra s) (s_dec s) (s_q s) (s_pa s) (s_sersic s) (s_rhalf s) (s_ep s) v (fixed s).

(** n_bands 277-282, n_params 284-289 *)
Definition n_bands (s : source) : nat := List.length (filternames s).
Definition n_params (s : source) : nat := npos (s_kind s) + nshape (s_kind s) + n_bands s.

(** filter_index 383-399: [list.index], ValueError when absent. *)
Fixpoint index_of (f : string) (l : list string) : option nat :=
  match l with
  | [] => None
  | g :: t => if String.eqb f g then Some 0 else option_map S (index_of f t)
  end.
Definition filter_index (s : source) (f : string) : option nat := index_of f (filternames s).

(** [self.flux[flux_inds] = parvector[:nflux]]: one element, or the whole vector
    (ValueError on a length mismatch; the case of a one-element right-hand side,
    which numpy broadcasts, only arises with one band). *)
Definition assign_flux (s : source) (which : option nat) (vals : list V) : option source :=
  match which with
  | Some k => match vals with
              | [v] => if Nat.ltb k (List.length (flux s)) then Some (set_flux s (upd k v (flux s))) else None
              | _ => None
              end
  | None => if Nat.eqb (List.length vals) (List.length (flux s)) then Some (set_flux s vals) else None
  end.

(** The attribute assignments that follow (Source 365-366, Galaxy 586-592,
    Star 771-772, SimpleGalaxy 842-845, ConformalShearGalaxy 926-932), given the
    part of the vector behind the fluxes. *)
Definition assign_shape (s : source) (p : list V) : option source :=
  match s_kind s, p with
  | BaseSource, [a; b; c; d; e; f] => Some (set_sersic (set_rhalf (set_pa (set_q (set_dec (set_ra s a) b) c) d) e) f)
  | Galaxy, [a; b; c; d; e; f] => Some (set_rhalf (set_sersic (set_pa (set_q (set_dec (set_ra s a) b) c) d) e) f)
  | GalaxyNS, [a; b; c; d] | SimpleGalaxy, [a; b; c; d] => Some (set_pa (set_q (set_dec (set_ra s a) b) c) d)
  | Star, [a; b] => Some (set_dec (set_ra s a) b)
  | Shear, [a; b; c; d; e; f] => Some (set_rhalf (set_sersic (set_ec (set_ep (set_dec (set_ra s a) b) c) d) e) f)
  | ShearNS, [a; b; c; d] => Some (set_ec (set_ep (set_dec (set_ra s a) b) c) d)
  | _, _ => None
  end.

(** Number of non-flux entries the length assertion of set_params allows
    (Source 362, Galaxy 584, Star 769, SimpleGalaxy 840, Shear 924). *)
Definition shape_len (k : kind) : nat :=
  match k with
  | BaseSource => List.length (SHAPE_COLS BaseSource)
  | Star => 2
  | SimpleGalaxy => 4
  | _ => npos k + nshape k
  end.

(** set_params (all classes) *)
Definition set_params (s : source) (par : list V) (filtername : option string) : option source :=
  let which :=
    match filtername with
    | Some f => match filter_index s f with Some k => Some (1, Some k) | None => None end
    | None => Some (n_bands s, None)
    end in
  match which with
  | None => None
  | Some (nflux, inds) =>
    if Nat.eqb (List.length par) (nflux + shape_len (s_kind s)) then
      match assign_flux s inds (firstn nflux par) with
      | None => None
      | Some s1 => assign_shape s1 (skipn nflux par)
      end
    else None
  end.

(** The non-flux part of get_param_vector (380, 602-604, 781, 854-855, 941-943) *)
Definition shape_params (s : source) : list V :=
  match s_kind s with
  | BaseSource => [s_ra s; s_dec s; s_q s; s_pa s; s_rhalf s; s_sersic s]
  | Galaxy => [s_ra s; s_dec s; s_q s; s_pa s; s_sersic s; s_rhalf s]
  | GalaxyNS | SimpleGalaxy => [s_ra s; s_dec s; s_q s; s_pa s]
  | Star => [s_ra s; s_dec s]
  | Shear => [s_ra s; s_dec s; s_ep s; s_ec s; s_sersic s; s_rhalf s]
  | ShearNS => [s_ra s; s_dec s; s_ep s; s_ec s]
  end.
(** get_param_vector (all classes).  Source and Star test [if filtername:], so the
    empty string means "all bands" for them; the others test [is not None]. *)
Definition get_param_vector (s : source) (filtername : option string) : option (list V) :=
  let filtername :=
    match s_kind s, filtername with
    | BaseSource, Some EmptyString | Star, Some EmptyString => None
    | _, f => f
    end in
  match filtername with
  | None => Some (flux s ++ shape_params s)
  | Some f =>
    match filter_index s f with
    | None => None
    | Some k => match nth_error (flux s) k with
                | None => None
                | Some v => Some (v :: shape_params s)
                end
    end
  end.

(** ** Scene *)

(** active_sources 111-115, fixed_sources 117-121 *)
Definition active_sources (sc : list source) : list source := filter (fun s => negb (fixed s)) sc.
Definition fixed_sources (sc : list source) : list source := filter fixed sc.

(** set_all_source_params 46-61.  [start] is the running offset; [Theta[a:b]] is
    python slicing, which truncates silently. *)
Definition py_slice (l : list V) (a b : nat) : list V := firstn (b - a) (skipn a l).
Fixpoint set_all_from (start : nat) (sc : list source) (Theta : list V) : option (list source) :=
  match sc with
  | [] => Some []
  | s :: t =>
    if fixed s then option_map (cons s) (set_all_from start t Theta)
    else
      match set_params s (py_slice Theta start (start + n_params s)) None with
      | None => None
      | Some s' => option_map (cons s') (set_all_from (start + n_params s) t Theta)
      end
  end.
Definition set_all_source_params (sc : list source) (Theta : list V) := set_all_from 0 sc Theta.

(** get_all_source_params 63-78 ([np.concatenate] of an empty list is an error) *)
Definition get_all_source_params (sc : list source) (active : bool) : option (list V) :=
  let l := if active then active_sources sc else sc in
  match l with
  | [] => None
  | _ => option_map (@concat V) (mapM (fun s => get_param_vector s None) l)
  end.

(** param_indices 185-215: [active_sources[:sid]] for the offset but [sources[sid]]
    for the source. *)
Definition param_indices (sc : list source) (sid : nat) (filtername : string) : option (list nat) :=
  match nth_error sc sid with
  | None => None
  | Some s =>
    let start := fold_left Nat.add (map n_params (firstn sid (active_sources sc))) 0 in
    match filter_index s filtername with
    | None => None
    | Some k => Some ((start + k) :: seq (start + n_bands s) (n_params s - n_bands s))
    end
  end.

(** ** Proposals *)

(** source_struct_dtype (proposal.py 229-241); of the fixed-size arrays only the
    filled leading part is represented. *)
Record prop_struct := mkProp {
  p_fluxes : list V;
  p_ra : V; p_dec : V; p_q : V; p_pa : V; p_nsersic : V; p_rh : V;
  p_amplitudes : list V
}.
Definition MAXBANDS := 30.

(** Galaxy.proposal 607-621 (inherited by ConformalShearGalaxy, for which [q] and
    [pa] are the properties of 968-979, here the arguments [qf], [paf]); the
    other classes have no such method.  [amps] is the splined look-up. *)
Definition proposal (qf paf : V -> V -> V) (amps : V -> V -> list V) (s : source) : option prop_struct :=
  let mk q pa := if Nat.leb (n_bands s) MAXBANDS
                 then Some (mkProp (flux s) (s_ra s) (s_dec s) q pa (s_sersic s) (s_rhalf s)
                                   (amps (s_sersic s) (s_rhalf s)))
                 else None in
  match s_kind s with
  | Galaxy | GalaxyNS => mk (s_q s) (s_pa s)
  | Shear | ShearNS => mk (qf (s_ep s) (s_ec s)) (paf (s_ep s) (s_ec s))
  | _ => None
  end.
(** get_proposal(active=True) 80-97 *)
Definition get_proposal qf paf amps (sc : list source) : option (list prop_struct) :=
  match active_sources sc with
  | [] => None
  | l => mapM (proposal qf paf amps) l
  end.

(** ** Catalog rows *)
Definition srow := list (string * V).
Fixpoint col (r : srow) (c : string) : option V :=
  match r with
  | [] => None
  | (d, v) :: t => if String.eqb c d then Some v else col t c
  end.
Fixpoint put_col (r : srow) (c : string) (v : V) : srow :=
  match r with
  | [] => []
  | (d, w) :: t => if String.eqb c d then (d, v) :: t else (d, w) :: put_col t c v
  end.

(** Galaxy(filternames=bands) + from_catalog_row 458-468 *)
Definition galaxy_from_row (zero : V) (bands : list string) (r : srow) : option source :=
  match mapM (col r) bands, col r "ra", col r "dec", col r "q", col r "pa", col r "sersic", col r "rhalf" with
  | Some fl, Some ra, Some dec, Some q, Some pa, Some n, Some rh =>
      Some (mkSource Galaxy bands fl ra dec q pa n rh zero zero false)
  | _, _, _, _, _, _, _ => None
  end.
(** Scene.from_catalog 154-183 with source_type=Galaxy (patch.set_scene 398-423) *)
Definition scene_from_catalog (zero : V) (bands : list string) (cat : list srow) : option (list source) :=
  mapM (galaxy_from_row zero bands) cat.

(** to_catalog_row 442-456 without extra columns (the id column left out) *)
Definition galaxy_to_row (s : source) : srow :=
  combine (filternames s ++ SHAPE_COLS Galaxy) (flux s ++ shape_params s).

End Scene.
Arguments source : clear implicits.
Arguments prop_struct : clear implicits.
Arguments srow : clear implicits.

(** ** stack_grad *)
Section Stack.
Context {V : Type} (zero : V) (add : V -> V -> V).

(** numpy elementwise [a += b] on equal-length rows *)
Definition vadd (a b : list V) : list V := map (fun p => add (fst p) (snd p)) (combine a b).
(** One pass of the loop of model.py 378-384 for one source row: positions
    [nbands:] receive [derivs[1:]], position [band] receives [derivs[0]]. *)
Definition stack_row (nbands band : nat) (g : list V) (d : list V) : list V :=
  let g1 := firstn nbands g ++ vadd (skipn nbands g) (tl d) in
  match d, nth_error g1 band with
  | d0 :: _, Some v => upd band (add v d0) g1
  | _, _ => g1
  end.
Definition stack_pass (nbands : nat) (grads : list (list V)) (bd : nat * list (list V)) : list (list V) :=
  map (fun p => stack_row nbands (fst bd) (fst p) (snd p)) (combine grads (snd bd)).
(** enumerate(chi2_derivs) *)
Definition enumerate {A} (l : list A) : list (nat * A) := combine (seq 0 (List.length l)) l.
Definition NPARAMS := 7.
(** stack_grad 370-387 *)
Definition stack_grad (nsources nbands : nat) (chi2_derivs : list (list (list V))) : list V :=
  let g0 := repeat (repeat zero (nbands + (NPARAMS - 1))) nsources in
  concat (fold_left (stack_pass nbands) (enumerate chi2_derivs) g0).
End Stack.

(** ** bounds_vectors, chains *)
Section Chain.
Context {V : Type} (add sub : V -> V -> V).

(** bounds_vectors 884-899.  A bounds row maps a column to its (lower, upper)
    pair; the copy's "ra" and "dec" pairs are shifted first. *)
Definition shift_pair (z : V) (p : V * V) : V * V := (sub (fst p) z, sub (snd p) z).
Definition shift_row (ref : V * V) (r : srow (V * V)) : option (srow (V * V)) :=
  match col r "ra" with
  | None => None
  | Some a =>
    let r1 := put_col r "ra" (shift_pair (fst ref) a) in
    match col r1 "dec" with
    | None => None
    | Some d => Some (put_col r1 "dec" (shift_pair (snd ref) d))
    end
  end.
Definition bounds_vectors (bcat : list (srow (V * V))) (filternames shapenames : list string) (ref : V * V)
  : option (list V * list V) :=
  match mapM (shift_row ref) bcat with
  | None => None
  | Some rows =>
    match mapM (fun r => mapM (col r) (filternames ++ shapenames)) rows with
    | None => None
    | Some ll => Some (map fst (concat ll), map snd (concat ll))
    end
  end.

(** A chain catalog row: source number and, per column, the list of samples. *)
Record chain_row := mkChainRow { c_index : Z; c_cols : srow (list V) }.

(** make_chaincat 25-61.  [chain] is n_iter rows of n_param values.  Decoding of
    byte strings is not modelled.  Duplicate names are an error of np.dtype. *)
Fixpoint has_dup (l : list string) : bool :=
  match l with [] => false | c :: t => existsb (String.eqb c) t || has_dup t end.
Definition column (chain : list (list V)) (k : nat) : option (list V) := mapM (fun r => nth_error r k) chain.
Definition make_chaincat (chain : list (list V)) (n_param : nat) (bands : list string) (active : list Z)
           (ref : V * V) (shapes : list string) : option (list chain_row) :=
  let npps := List.length bands + List.length shapes in
  let colnames := bands ++ shapes in
  if Nat.eqb npps 0 then None
  else if negb (Nat.eqb (n_param mod npps) 0) then None
  else
    let n_source := n_param / npps in
    if negb (Nat.eqb n_source (List.length active)) then None
    else if has_dup colnames then None
    else
      match mapM (fun sa : nat * Z =>
              match mapM (fun jc : nat * string =>
                      option_map (pair (snd jc)) (column chain (fst sa * npps + fst jc)))
                      (enumerate colnames) with
              | None => None
              | Some cs => Some (snd sa, cs)
              end) (enumerate active) with
      | None => None
      | Some rows =>
        (* cat["ra"] += ref[0]; cat["dec"] += ref[1] *)
        mapM (fun r : Z * srow (list V) =>
          match col (snd r) "ra", col (snd r) "dec" with
          | Some a, Some d =>
              Some (mkChainRow (fst r)
                (put_col (put_col (snd r) "ra" (map (fun v => add v (fst ref)) a))
                         "dec" (map (fun v => add v (snd ref)) d)))
          | _, _ => None
          end) rows
      end.

(** get_sample_cat 64-94.  A catalog row is (source number, float columns); every
    column of the row that the chain has is replaced by the sample.  (For an
    [iteration] out of range the except branch assigns a 2-d column to a 1-d one,
    a ValueError, here [None]; row counts are assumed equal.) *)
Definition sample_row (iteration : Z) (r : Z * srow V) (c : chain_row) : option (Z * srow V) :=
  match mapM (fun kv : string * V =>
          match col (c_cols c) (fst kv) with
          | None => Some kv
          | Some samples =>
            match np_index (List.length samples) iteration with
            | None => None
            | Some i => option_map (pair (fst kv)) (nth_error samples i)
            end
          end) (snd r) with
  | None => None
  | Some cs => Some (c_index c, cs)
  end.
Definition get_sample_cat (chaincat : list chain_row) (iteration : Z) (active : list (Z * srow V))
  : option (list (Z * srow V)) :=
  if negb (Nat.eqb (List.length chaincat) (List.length active)) then None
  else mapM (fun p => sample_row iteration (fst p) (snd p)) (combine active chaincat).
End Chain.
Arguments chain_row : clear implicits.
