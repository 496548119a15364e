(** Saving the result of a fit and loading it: /repo/forcepho/fitting.py Result.__init__
    28-36, fill 38-150, dump_to_h5 186-207, read_from_h5 209-218, _reconstruct 220-229;
    /repo/forcepho/utils/io.py write_to_disk 13-51; /repo/forcepho/region.py
    CircularRegion.__init__ 85-89 and RectangularRegion.__init__ (attributes only).

    Simplifications: an object is the list of its attributes; names contain no slash; text
    is ASCII; the element type of an empty array is left out.  What h5py does is modelled
    from its documentation (version 3): see [set_of] and [attr_of]. *)
From Coq Require Import Ascii.
From Verif Require Import Np.
Open Scope nat_scope.

Section Result.
  (** Numbers, and the elements of numeric or structured arrays *)
  Context {N B : Type}.

  (** Elements of an array: numbers or rows; byte strings (dtype S, or objects of type
      bytes); fixed-width text (dtype U); objects of type str *)
  Inductive content := Blob (b : B) | Bytes (l : list string) | Texts (l : list string) | Strs (l : list string).
  Inductive value :=
  | Arr (dims : list nat) (c : content)      (* type(value) == np.ndarray *)
  | Number (x : N)                           (* python or numpy number *)
  | Text (s : string)
  | TextList (l : list string)               (* list of str *)
  | ListOf (dims : list nat) (b : B)         (* list of arrays of one shape, or array of a subclass *)
  | Circle (ra dec radius : value)           (* CircularRegion *)
  | Nothing                                  (* None *)
  | Object.                                  (* anything else: dict, ragged list, trace, ... *)

  (** ** Attributes of an object *)
  Definition attributes := list (string * value).
  Fixpoint getattr {A} (o : list (string * A)) (k : string) : option A :=
    match o with [] => None | (k', v) :: t => if String.eqb k' k then Some v else getattr t k end.
  Fixpoint setattr {A} (o : list (string * A)) (k : string) (v : A) : list (string * A) :=
    match o with [] => [(k, v)] | (k', v') :: t => if String.eqb k' k then (k', v) :: t else (k', v') :: setattr t k v end.
  Definition setall {A} (o new : list (string * A)) : list (string * A) := fold_left (fun o kv => setattr o (fst kv) (snd kv)) new o.

  (** ** The file *)
  Record h5 := mkH5 { sets : list (string * (list nat * content)); attrs : attributes }.
  (** create_dataset then f[k][:]: fixed-width text has no HDF5 equivalent (TypeError); str
      objects are read back as bytes *)
  Definition set_of (c : content) : option content :=
    match c with Blob b => Some (Blob b) | Bytes l => Some (Bytes l) | Texts _ => None | Strs l => Some (Bytes l) end.
  (** attrs[k] = v then attrs[k]: lists come back as arrays; an attribute of more than
      [room] bytes (64K) does not fit in the object header; None and other objects have no
      HDF5 equivalent.  Text is stored outside the header: 16 bytes a string. *)
  Definition size (dims : list nat) : nat := fold_right Nat.mul 1 dims.
  Definition attr_of (room : nat) (v : value) : option value :=
    match v with
    | Arr dims c => option_map (Arr dims) (set_of c)
    | Number x => Some (Number x)
    | Text s => Some (Text s)
    | TextList l => if 16 * List.length l <=? room then Some (Arr [List.length l] (Strs l)) else None
    | ListOf dims b => if 8 * size dims <=? room then Some (Arr dims (Blob b)) else None
    | Circle _ _ _ | Nothing | Object => None
    end.

  (** ** dump_to_h5 186-207 *)
  (** The messages (here the names of the attributes they are about), or the attribute
      that made it raise *)
  Inductive outcome := Done (msgs : list string) | Raised (k : string) | NoDirectory.
  Fixpoint dump_loop (room : nat) (o : attributes) (f : h5) (msgs : list string) : h5 * outcome :=
    match o with
    | [] => (f, Done msgs)
    | (k, Arr dims c) :: t =>
        match set_of c with
        | None => (f, Raised k)
        | Some c' => dump_loop room t (mkH5 (sets f ++ [(k, (dims, c'))]) (attrs f)) msgs
        end
    | (k, v) :: t =>
        match attr_of room v with
        | None => dump_loop room t f (msgs ++ [k])
        | Some w => dump_loop room t (mkH5 (sets f) (attrs f ++ [(k, w)])) msgs
        end
    end.
  (** os.makedirs(os.path.dirname(filename), exist_ok=True): the empty name raises *)
  Fixpoint has_slash (s : string) : bool :=
    match s with EmptyString => false | String c t => if Ascii.eqb c "/"%char then true else has_slash t end.
  (** The file afterwards, if it is opened at all *)
  Definition dump_to_h5 (room : nat) (filename : string) (o : attributes) : option h5 * outcome :=
    if has_slash filename then let '(f, r) := dump_loop room o (mkH5 [] []) [] in (Some f, r) else (None, NoDirectory).

  (** ** read_from_h5 209-218 *)
  (** f[k][:] raises for a dataset without dimensions *)
  Definition read_set (s : string * (list nat * content)) : option (string * value) :=
    match fst (snd s) with [] => None | dims => Some (fst s, Arr dims (snd (snd s))) end.
  Definition read_from_h5 (o : attributes) (f : h5) : option attributes :=
    match mapM read_set (sets f) with
    | None => None
    | Some vs => Some (setall (setall o vs) (attrs f))
    end.

  (** ** _reconstruct 220-229 and __init__ 28-36 *)
  (** make_chaincat (C35): chain, bands, active, reference coordinates, shapes *)
  Context (chaincat_of : value -> list string -> value -> value -> list string -> option value).
  (** [b.decode("utf") for b in l] *)
  Definition decode (v : option value) : option (list string) :=
    match v with Some (Arr [_] (Bytes l)) => Some l | _ => None end.
  (** Exceptions are swallowed at 33-34: what was set before stays *)
  Definition reconstruct (o : attributes) : attributes :=
    match decode (getattr o "bandlist") with
    | None => o
    | Some bands =>
      let o := setattr o "bands" (TextList bands) in
      match decode (getattr o "shapenames") with
      | None => o
      | Some shapes =>
        let o := setattr o "shape_cols" (TextList shapes) in
        match getattr o "ra", getattr o "dec", getattr o "radius" with
        | Some ra, Some dec, Some radius =>
          let o := setattr o "region" (Circle ra dec radius) in
          match getattr o "chaincat" with
          | Some _ => o
          | None =>
            match getattr o "chain", getattr o "active", getattr o "reference_coordinates" with
            | Some chain, Some active, Some ref =>
              match chaincat_of chain bands active ref shapes with
              | Some cc => setattr o "chaincat" cc
              | None => o
              end
            | _, _, _ => o
            end
          end
        | _, _, _ => o
        end
      end
    end.
  (** Result(filename, **kwargs) *)
  Definition load (f : h5) (kwargs : attributes) : option attributes :=
    match read_from_h5 [] f with None => None | Some o => Some (setall (reconstruct o) kwargs) end.

  (** ** fill 38-150 *)
  (** What is read of the patch and the model *)
  Record patch := mkPatch { bandlist : list string; shape_cols : list string; refcoord : list nat * B; ncall : N; npix : N; epaths : list string }.
  (** np.array(l, dtype="S") *)
  Definition bytes_of (l : list string) : value := Arr [List.length l] (Bytes l).
  (** 81-117 and 133-150, without a step (the covariance and statistics of 119-131 are left
      out).  [num] is a python int,
      [sample_cat] get_sample_cat (C35) at iteration -1; active, fixed, big and bounds are
      structured arrays, a missing fixed or big is None.  None when a call raises; 147 asks
      for self.chaincat even when 115-117 did not make it. *)
  Definition or_none (v : option (list nat * B)) : value :=
    match v with Some a => Arr (fst a) (Blob (snd a)) | None => Nothing end.
  Definition arr (a : list nat * B) : value := Arr (fst a) (Blob (snd a)).
  Definition fill (num : nat -> N) (sample_cat : value -> value -> option value) (o region : attributes) (active : list nat * B) (fixed big bounds : option (list nat * B)) (patchID : option N) (p : patch) : option attributes :=
    let o := setattr o "patchID" (match patchID with Some i => Number i | None => Nothing end) in
    let o := setattr o "reference_coordinates" (arr (refcoord p)) in
    let o := setattr o "bandlist" (bytes_of (bandlist p)) in
    let o := setattr o "shapenames" (bytes_of (shape_cols p)) in
    let o := setattr o "n_call" (Number (ncall p)) in
    let o := setattr o "npix" (Number (npix p)) in
    let o := setattr o "nexp" (Number (num (List.length (epaths p)))) in
    let o := setattr o "exposures" (bytes_of (epaths p)) in
    let o := setall o region in
    let o := setattr o "active" (arr active) in
    let o := setattr o "fixed" (or_none fixed) in
    let o := setattr o "big" (or_none big) in
    match (match getattr o "chain" with
           | None => Some o
           | Some chain => option_map (setattr o "chaincat") (chaincat_of chain (bandlist p) (arr active) (arr (refcoord p)) (shape_cols p))
           end) with
    | None => None
    | Some o =>
      let o := match bounds with Some b => setattr o "bounds" (arr b) | None => o end in
      match getattr o "chaincat" with
      | None => None
      | Some cc => option_map (setattr o "final") (sample_cat cc (arr active))
      end
    end.
  (** region.__dict__ *)
  Definition circle_dict (ra dec radius : N) : attributes :=
    [("ra", Number ra); ("dec", Number dec); ("radius", Number radius); ("shape", Text "CircularRegion")]%string.
  Definition rectangle_dict (ra_min ra_max dec_min dec_max : N) : attributes :=
    [("ra_min", Number ra_min); ("dec_min", Number dec_min); ("ra_max", Number ra_max); ("dec_max", Number dec_max); ("shape", Text "RectangularRegion")]%string.

  (** ** write_to_disk 13-51: the samples file.  [config] is json.dumps(vars(config)), None
      when that raises TypeError; the messages are dropped *)
  Definition write_to_disk (room : nat) (outfile : string) (o : attributes) (config : option string) : option h5 :=
    let o := match config with Some c => setattr o "config" (Text c) | None => o end in
    match dump_to_h5 room outfile o with (f, Done _) => f | _ => None end.
End Result.
Arguments content : clear implicits.
Arguments value : clear implicits.
Arguments h5 : clear implicits.
Arguments attributes : clear implicits.
