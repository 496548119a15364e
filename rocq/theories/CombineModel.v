(** Putting patches together again: /repo/forcepho/postprocess.py Residuals.fill_images
    124-146, postsample_catalog 247-305, find_multipatch 357-386;
    /repo/forcepho/utils/__init__.py populate_image 84-102.

    Simplifications: an image is its two sides and its rows of cells, a cell is [None] for NaN; pixel
    coordinates, stored as floats, are integers; the h5 and FITS files are their contents;
    broadcasting of one value over many is left out. *)
From Verif Require Import Np.
Open Scope nat_scope.

(** ** Images *)
Record image (V : Type) := mkImage { nx : nat; ny : nat; cells : list (list (option V)) }.
Arguments mkImage {V}. Arguments nx {V}. Arguments ny {V}. Arguments cells {V}.
(** np.zeros(shape) + np.nan *)
Definition nan_image {V} (shape : nat * nat) : image V :=
  mkImage (fst shape) (snd shape) (repeat (repeat None (snd shape)) (fst shape)).
(** One pixel of im[x, y] = v *)
Definition write1 {V} (im : image V) (w : Z * Z * V) : option (image V) :=
  let '(x, y, v) := w in
  match np_index (nx im) x, np_index (ny im) y with
  | Some i, Some j => Some (mkImage (nx im) (ny im) (upd i (upd j (Some v) (nth i (cells im) [])) (cells im)))
  | _, _ => None
  end.
(** im[xs, ys] = vs: later pixels win *)
Definition writes {V} (im : image V) (ws : list (Z * Z * V)) : option (image V) :=
  fold_left (fun o w => match o with Some im => write1 im w | None => None end) ws (Some im).
Definition zip3 {V} (xs ys : list Z) (vs : list V) : list (Z * Z * V) := combine (combine xs ys) vs.
Definition assign {V} (im : image V) (xs ys : list Z) (vs : list V) : option (image V) :=
  if ((List.length xs =? List.length ys) && (List.length xs =? List.length vs))%bool then writes im (zip3 xs ys vs) else None.

(** ** fill_images 124-146 *)
Record exposure (V : Type) := mkExp { ename : string; exs : list Z; eys : list Z; evals : list V }.
Arguments mkExp {V}. Arguments ename {V}. Arguments exs {V}. Arguments eys {V}. Arguments evals {V}.
Definition images (V : Type) := list (string * image V).
Fixpoint look {V} (ims : images V) (e : string) : option (image V) :=
  match ims with [] => None | (f, im) :: t => if String.eqb f e then Some im else look t e end.
Fixpoint store {V} (ims : images V) (e : string) (im : image V) : images V :=
  match ims with [] => [(e, im)] | (f, i) :: t => if String.eqb f e then (f, im) :: t else (f, i) :: store t e im end.
(** One turn of the loop 129-145; [hdr] is the size in the header, from the metastore or
    from the image file if it exists.  [imshape] is overwritten at 135 and 139 and stays so. *)
Definition fill_one {V} (hdr : string -> option (nat * nat)) (st : option (images V * (nat * nat))) (e : exposure V) : option (images V * (nat * nat)) :=
  match st with
  | None => None
  | Some (ims, imshape) =>
    let '(ims, imshape) :=
      match look ims (ename e) with
      | Some _ => (ims, imshape)
      | None => let imshape := match hdr (ename e) with Some s => s | None => imshape end in
                (store ims (ename e) (nan_image imshape), imshape)
      end in
    match look ims (ename e) with
    | None => None
    | Some im => match assign im (exs e) (eys e) (evals e) with
                 | None => None
                 | Some im => Some (store ims (ename e) im, imshape)
                 end
    end
  end.
Definition fill_images {V} (hdr : string -> option (nat * nat)) (imshape : nat * nat) (ims : images V) (exps : list (exposure V)) : option (images V) :=
  option_map fst (fold_left (fill_one hdr) exps (Some (ims, imshape))).
(** images = r.fill_images(images) for one patch after the other *)
Definition fill_patches {V} (hdr : string -> option (nat * nat)) (imshape : nat * nat) (ims : images V) (patches : list (list (exposure V))) : option (images V) :=
  fold_left (fun o p => match o with Some ims => fill_images hdr imshape ims p | None => None end) patches (Some ims).
(** Called without [images], the method fills the one dictionary made when it was defined
    (124) and returns it: [shared] is its content before and the result its content after. *)
Definition fill_default {V} (hdr : string -> option (nat * nat)) (imshape : nat * nat) (shared : images V) (exps : list (exposure V)) : option (images V) :=
  fill_images hdr imshape shared exps.

(** ** populate_image 84-102 *)
Definition zmin (l : list Z) : option Z := match l with [] => None | x :: t => Some (fold_left Z.min t x) end.
Definition zmax (l : list Z) : option Z := match l with [] => None | x :: t => Some (fold_left Z.max t x) end.
(** (x - lo).astype(int) with lo = m - 0.5: truncation toward zero of half of 2 (x - m) + 1 *)
Definition pix_of (m x : Z) : Z := Z.quot (2 * (x - m) + 1) 2.
(** The image; lo and hi doubled *)
Definition populate_image {V} (ws : list (Z * Z * V)) : option (image V * (Z * Z) * (Z * Z)) :=
  let g := filter (fun w => (0 <=? fst (fst w)) && (0 <=? snd (fst w)))%Z ws in
  let xs := map (fun w => fst (fst w)) g in
  let ys := map (fun w => snd (fst w)) g in
  match zmin xs, zmin ys, zmax xs, zmax ys with
  | Some x0, Some y0, Some x1, Some y1 =>
    let lo := (2 * x0 - 1, 2 * y0 - 1)%Z in
    let hi := (2 * x1 + 1, 2 * y1 + 1)%Z in
    let size := (Z.to_nat (Z.quot (fst hi - fst lo) 2), Z.to_nat (Z.quot (snd hi - snd lo) 2)) in
    option_map (fun im => (im, lo, hi)) (writes (nan_image size) (map (fun w => (pix_of x0 (fst (fst w)), pix_of y0 (snd (fst w)), snd w)) g))
  | _, _, _, _ => None
  end.

(** ** postsample_catalog 247-305 *)
(** What is read from one samples file: the source_index column of the chain catalog, the
    ids of the active sources, wall time, the log-posterior chain, and per parameter one chain per source *)
Record samples := mkSamples { s_n : nat; s_inds : list Z; s_ids : list Z; s_wall : Q; s_lnp : list Q; s_cols : list (string * list (list Q)) }.
(** l[-n:] *)
Definition last_n {A} (n : nat) (l : list A) : list A := if n =? 0 then l else skipn (List.length l - n) l.
(** col[inds] = vs, for a 1-d column *)
Definition put_rows {A} (col : list A) (inds : list Z) (vs : list A) : option (list A) :=
  if List.length inds =? List.length vs then
    fold_left (fun o iv => match o with None => None | Some c => match np_index (List.length c) (fst iv) with Some i => Some (upd i (snd iv) c) | None => None end end) (combine inds vs) (Some col)
  else None.
(** rows of [n] numbers only *)
Definition fits (n : nat) (rows : list (list Q)) : bool := forallb (fun r => List.length r =? n) rows.
Fixpoint column (cols : list (string * list (list Q))) (c : string) : option (list (list Q)) :=
  match cols with [] => None | (d, v) :: t => if String.eqb d c then Some v else column t c end.
Record catalog := mkCat { c_id : list Z; c_source : list Z; c_patch : list Z; c_wall : list Q; c_lnp : list (list Q); c_cols : list (string * list (list Q)) }.
(** 280-281 *)
Definition empty_catalog (n n_sample : nat) (params : list string) : catalog :=
  mkCat (repeat (-1)%Z n) (repeat 0%Z n) (repeat 0%Z n) (repeat (0%Q) n) (repeat (repeat (0%Q) n_sample) n) (map (fun c => (c, repeat (repeat (0%Q) n_sample) n)) params).
(** 283-291 for one patch *)
Definition add_patch (n_sample : nat) (cat : catalog) (p : Z) (s : samples) : option catalog :=
  let inds := s_inds s in
  let k := List.length inds in
  let lnp := last_n n_sample (s_lnp s) in
  match put_rows (c_id cat) inds (s_ids s), put_rows (c_patch cat) inds (repeat p k), put_rows (c_source cat) inds inds,
        put_rows (c_wall cat) inds (repeat (s_wall s) k),
        (if List.length lnp =? n_sample then put_rows (c_lnp cat) inds (repeat lnp k) else None),
        mapM (fun cv => match column (s_cols s) (fst cv) with
                        | None => None
                        | Some rows => let rows := map (last_n n_sample) rows in
                                       if fits n_sample rows then option_map (pair (fst cv)) (put_rows (snd cv) inds rows) else None
                        end) (c_cols cat)
  with
  | Some id, Some pid, Some src, Some w, Some l, Some cs => Some (mkCat id src pid w l cs)
  | _, _, _, _, _, _ => None
  end.
(** [n_final] rows in the final catalog, the patches in the order of the log; [read] the samples files *)
Definition postsample (read : Z -> option samples) (n_rows : nat) (patches : list Z) : option catalog :=
  match patches with
  | [] => None
  | p0 :: _ =>
    match read p0 with
    | None => None
    | Some s0 =>
      fold_left (fun o p => match o, read p with Some cat, Some s => add_patch (s_n s0) cat p s | _, _ => None end)
        patches (Some (empty_catalog n_rows (s_n s0) (map fst (s_cols s0))))
    end
  end.
(** 264-269: without [patches] the run's log and final catalog are used; with [patches], "final" is that list *)
Definition postsample_catalog (read : Z -> option samples) (plog : list Z) (n_final : nat) (patches : option (list Z)) : option catalog :=
  match patches with
  | None => postsample read n_final plog
  | Some ps => postsample read (List.length ps) ps
  end.

(** ** find_multipatch 357-386, for one source: the chains read for the patches logged for it *)
Fixpoint index_of (l : list Z) (x : Z) : option nat :=
  match l with [] => None | y :: t => if (y =? x)%Z then Some 0 else option_map S (index_of t x) end.
Definition multipatch (read : Z -> option samples) (plog : list Z) (sid : Z) (pids : list Z) : option (list (Z * Z)) :=
  match mapM read plog with
  | None => None
  | Some ss =>
    mapM (fun pid => match np_index (List.length ss) pid with
                     | None => None
                     | Some i => match nth_error ss i, nth_error plog i with
                                 | Some s, Some p => match index_of (s_inds s) sid with Some a => Some (p, Z.of_nat a) | None => None end
                                 | _, _ => None
                                 end
                     end) pids
  end.
