(** Packing pixels, exposures, bands and PSFs into the flat arrays the kernel reads:
    /repo/forcepho/patches/pixel_patch.py (PixelPatch.build_patch 52-122, pack_pix
    124-202, FITSPatch.find_pixels 462-483), patches/patch.py (_pack_psf 357-396,
    split_pix 469-480, split_band 482-499), proposal.py (unpack_residuals 38-52).

    Simplifications common to the file: pixel values are an abstract type; integer
    arrays hold unbounded naturals (the code has int16 band tables and int32 pixel
    tables); exceptions are [None]; the arrays find_pixels returns are flat lists
    (the code flattens them when concatenating). *)
From Verif Require Import Np SceneModel.

(** numpy on lists of naturals *)
Fixpoint cumsum_from (s : nat) (l : list nat) : list nat :=
  match l with [] => [] | x :: t => (s + x) :: cumsum_from (s + x) t end.
(** np.cumsum *)
Definition cumsum (l : list nat) : list nat := cumsum_from 0 l.
(** np.unique: the values that occur, in increasing order, and their counts *)
Definition np_unique (l : list nat) : list nat := filter (fun v => existsb (Nat.eqb v) l) (seq 0 (S (list_max l))).
Definition unique_counts (l : list nat) : list nat := map (fun v => count_occ Nat.eq_dec l v) (np_unique l).
(** np.diff(l) >= 0 everywhere *)
Fixpoint nondecreasing (l : list nat) : bool :=
  match l with
  | x :: (y :: _) as t => (x <=? y) && nondecreasing t
  | _ => true
  end.
(** np.diff on an array that must not decrease ([None] where the code would store a negative number) *)
Fixpoint np_diff (l : list nat) : option (list nat) :=
  match l with
  | x :: (y :: _) as t => if x <=? y then match np_diff t with Some d => Some ((y - x) :: d) | None => None end else None
  | _ => Some []
  end.
(** np.split(arr, indices) *)
Fixpoint split_from {A} (prev : nat) (indices : list nat) (arr : list A) : list (list A) :=
  match indices with
  | [] => [skipn prev arr]
  | i :: t => firstn (i - prev) (skipn prev arr) :: split_from i t arr
  end.
Definition np_split {A} (arr : list A) (indices : list nat) : list (list A) := split_from 0 indices arr.

Section Pack.
Context {V : Type} (sub : V -> V -> V).

(** One exposure as build_patch sees it: band name, and what find_pixels returns *)
Record exposure := mkExposure { x_band : string; x_flux : list V; x_ierr : list V; x_xpix : list V; x_ypix : list V }.
(** The attributes build_patch fills *)
Record packed := mkPacked {
  bandlist : list string; n_exp_per_band : list nat;
  pk_data : list V; pk_ierr : list V; pk_xpix : list V; pk_ypix : list V;
  pk_band_start : list nat; pk_band_N : list nat; pk_exposure_start : list nat; pk_exposure_N : list nat; pk_band_N_pix : list nat }.

(** The variables of the loop 163-189; [prev] is bands[e-1] *)
Record loop := mkLoop {
  l_b : nat; l_i : nat; l_prev : option string; l_band_N : list nat; l_start : list nat; l_N : list nat;
  l_data : list V; l_ierr : list V; l_xpix : list V; l_ypix : list V }.
(** The body of the loop; 175-178: background offset [bg] *)
Definition pack_step (st : loop) (eb : exposure * option V) : option loop :=
  let '(ex, bg) := eb in
  let n_pix := List.length (x_flux ex) in
  if n_pix =? 0 then None else
  let fluxes := match bg with Some v => map (fun x => sub x v) (x_flux ex) | None => x_flux ex end in
  let b := match l_prev st with Some p => if String.eqb (x_band ex) p then l_b st else S (l_b st) | None => l_b st end in
  match nth_error (l_band_N st) b with
  | None => None
  | Some c => Some (mkLoop b (l_i st + n_pix) (Some (x_band ex)) (upd b (c + 1) (l_band_N st))
      (l_start st ++ [l_i st]) (l_N st ++ [n_pix])
      (l_data st ++ fluxes) (l_ierr st ++ x_ierr ex) (l_xpix st ++ x_xpix ex) (l_ypix st ++ x_ypix ex))
  end.
Fixpoint pack_loop (st : loop) (l : list (exposure * option V)) : option loop :=
  match l with
  | [] => Some st
  | eb :: t => match pack_step st eb with Some st' => pack_loop st' t | None => None end
  end.
(** build_patch 95-115 and pack_pix 143-199; the offsets (98-102) are one per exposure *)
Definition build_patch (allbands : list string) (exps : list exposure) (offsets : option (list V)) : option packed :=
  match exps with
  | [] => None
  | _ =>
    match mapM (fun ex => index_of (x_band ex) allbands) exps with
    | None => None
    | Some band_ids =>
      if negb (nondecreasing band_ids) then None else
      let u := np_unique band_ids in
      match mapM (fun i => nth_error allbands i) u with
      | None => None
      | Some blist =>
        let n_bands := List.length u in
        let ebs := match offsets with
                   | None => Some (map (fun ex => (ex, None)) exps)
                   | Some o => if List.length o =? List.length exps then Some (combine exps (map Some o)) else None
                   end in
        match ebs with
        | None => None
        | Some ebs =>
          match pack_loop (mkLoop 0 0 None (repeat 0 n_bands) [] [] [] [] [] []) ebs with
          | None => None
          | Some st =>
            if negb (List.length (l_data st) =? l_i st) then None else
            let band_start := 0 :: removelast (cumsum (l_band_N st)) in
            match mapM (fun e => nth_error (l_start st) e) band_start with
            | None => None
            | Some firsts =>
              match np_diff firsts with
              | None => None
              | Some d =>
                let s := list_sum d in
                if s <=? List.length (l_xpix st)
                then Some (mkPacked blist (unique_counts band_ids) (l_data st) (l_ierr st) (l_xpix st) (l_ypix st)
                             band_start (l_band_N st) (l_start st) (l_N st) (d ++ [List.length (l_xpix st) - s]))
                else None
              end
            end
          end
        end
      end
    end
  end.

(** split_pix 469-480, split_band 482-499, unpack_residuals (proposal.py 41) *)
Definition split_pix {A} (pk : packed) (arr : list A) : list (list A) := np_split arr (cumsum (removelast (pk_exposure_N pk))).
Definition split_band {A} (pk : packed) (arr : list A) : list (list A) := np_split arr (cumsum (removelast (pk_band_N_pix pk))).
Definition unpack_residuals {A} (pk : packed) (arr : list A) : list (list A) := np_split arr (removelast (cumsum (pk_exposure_N pk))).

(** FITSPatch.find_pixels 469-483: padding; [zero] and [m1] are 0 and -1 *)
Definition pad_pixels (zero m1 : V) (warp : nat) (flux ie xp yp : list V) : list V * list V * list V * list V :=
  let pad := warp - List.length flux mod warp in
  if pad =? warp then (flux, ie, xp, yp)
  else (flux ++ repeat zero pad, ie ++ repeat zero pad, xp ++ repeat m1 pad, yp ++ repeat m1 pad).

(** _pack_psf 376-396.  [attr b] is the n_psf_per_source attribute of the store,
    [local b s] what get_local_psf returns for band [b] and source [s].  The writes
    into psfgauss must fit and fill it exactly (390-396). *)
Record psf_tables {Row} := mkPsfTables { t_n_psf_per_source : list nat; t_psfgauss_start : list nat; t_psfgauss : list Row }.
Fixpoint psf_loop {Row Src} (local : string -> Src -> list Row) (bands : list string) (sources : list Src)
         (s : nat) (starts : list nat) (out : list Row) : list nat * list Row :=
  match bands with
  | [] => (starts, out)
  | b :: t =>
    let rows := flat_map (local b) sources in
    psf_loop local t sources (s + List.length rows) (starts ++ [s]) (out ++ rows)
  end.
Definition pack_psf {Row Src} (attr : string -> option nat) (local : string -> Src -> list Row)
           (pk_bandlist : list string) (pk_n_exp : list nat) (bands : list string) (n_sources : nat) (sources : list Src)
  : option (@psf_tables Row) :=
  match mapM attr pk_bandlist with
  | None => None
  | Some ns =>
    let n_psfgauss := list_sum (map (fun p => fst p * snd p * n_sources) (combine ns pk_n_exp)) in
    let '(starts, out) := psf_loop local bands sources 0 [] [] in
    if List.length out =? n_psfgauss then Some (mkPsfTables _ ns starts out) else None
  end.
(** PSFStore.lookup 543-556 and get_local_psf 558-575: _pack_psf passes no wcs, so xy
    is None, unpacking it raises, and the first location is used. [parameters b] are
    the stored tables of band [b], one per detector location. *)
Definition lookup {Row} (parameters : string -> list (list Row)) (nearest : string -> nat * nat -> nat)
           (band : string) (xy : option (nat * nat)) : list Row :=
  let choose := match xy with Some p => nearest band p | None => 0 end in
  nth choose (parameters band) [].
Definition get_local_psf {Row Src} (parameters : string -> list (list Row)) (nearest : string -> nat * nat -> nat)
           (band : string) (source : Src) : list Row := lookup parameters nearest band None.
End Pack.
Arguments exposure : clear implicits.
Arguments packed : clear implicits.
