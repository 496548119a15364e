(** Patches made of postage stamps: /repo/forcepho/patches/static_patch.py (StaticPatch.__init__ 24-83,
    pack_psf 136-176, pack_source_metadata 178-200, pack_astrometry 202-236, pack_pix 238-307,
    patch_to_stamps 310-337), /repo/forcepho/sources.py (Scene.n_active 124-127, Source.psfgauss 401-432).

    Pixel values are of any type [V] with a zero; an element of an array made by np.empty is [None] until
    it is written.  Integers do not overflow (band_start and band_N are int16, the other indices int32).
    [None] as a result is a python exception. *)
From Coq Require Import Arith List Bool.
From Verif Require Import Np PackModel.
Import ListNotations.

(** arr[i: i+N] = vals for a list of values: the slice is cut at the end of the array; a single value fills
    the slice, any other number but that of the slice is an error *)
Definition splice {A} (arr : list A) (i n : nat) (vals : list A) : option (list A) :=
  let lo := Nat.min i (List.length arr) in
  let hi := Nat.min (i + n) (List.length arr) in
  let w v := Some (firstn lo arr ++ v ++ skipn hi arr) in
  match vals with
  | [v] => w (repeat v (hi - lo))
  | _ => if Nat.eqb (List.length vals) (hi - lo) then w vals else None
  end.

Section Static.
Variables V Mat Pos Gauss : Type.
Variable zero : V.

(** slow/stamp.py PostageStamp: band is an integer; arrays as .flat gives them *)
Record stamp := mkStamp { st_band : nat; st_nx : nat; st_ny : nat; st_xpix : list V; st_ypix : list V; st_values : list V; st_ierr : list V }.
Definition npix (s : stamp) : nat := st_nx s * st_ny s.
(** A source of the mini-scene with what patch conversion attached to it *)
Record source := mkSource {
  so_fixed : bool; so_radii : list V; so_psfs : list (list (list Gauss)); so_crpixs : list Pos; so_crvals : list Pos; so_zps : list V;
  so_scales : list Mat; so_cds : list Mat }.

Record pixels := mkPixels {
  px_shapes : list (nat * nat); px_sizes : list nat;
  px_x : list V; px_y : list V; px_data : list V; px_ierr : list V;
  px_band_start : list nat; px_band_N : list nat; px_start : list nat; px_N : list nat }.
(** One turn of the loop 285-302: counters [i] and [b], the four arrays, band_N, exposure_start, exposure_N *)
Record turn := mkTurn { tn_i : nat; tn_b : nat; tn_last : option nat; tn_x : list V; tn_y : list V; tn_data : list V; tn_ierr : list V;
  tn_band_N : list nat; tn_start : list nat; tn_N : list nat }.
Definition warp_size : nat := 32.
Definition pix_step (t : turn) (s : stamp) : option turn :=
  let b := match tn_last t with Some l => if Nat.eqb (st_band s) l then tn_b t else S (tn_b t) | None => tn_b t end in
  match nth_error (tn_band_N t) b with
  | None => None
  | Some c =>
    let N := npix s in
    let pad := (warp_size - N mod warp_size) mod warp_size in
    match splice (tn_x t) (tn_i t) N (st_xpix s), splice (tn_y t) (tn_i t) N (st_ypix s),
          splice (tn_data t) (tn_i t) N (st_values s), splice (tn_ierr t) (tn_i t) N (st_ierr s) with
    | Some x, Some y, Some d, Some e =>
      Some (mkTurn (tn_i t + N + pad) b (Some (st_band s)) x y d e (upd b (S c) (tn_band_N t)) (tn_start t ++ [tn_i t]) (tn_N t ++ [N + pad]))
    | _, _, _, _ => None
    end
  end.
Fixpoint pix_loop (t : turn) (l : list stamp) : option turn :=
  match l with [] => Some t | s :: l => match pix_step t s with Some t' => pix_loop t' l | None => None end end.
(** pack_pix 238-307 *)
Definition pack_pix (n_bands : nat) (stamps : list stamp) : option pixels :=
  let sizes := map npix stamps in
  let total := list_sum (map (fun n => (n + warp_size - 1) / warp_size * warp_size) sizes) in
  let z := repeat zero total in
  match pix_loop (mkTurn 0 0 None z z z z (repeat 0 n_bands) [] []) stamps with
  | None => None
  | Some t =>
    if negb (Nat.eqb (tn_i t) total) then None else        (* assert 304 *)
    match n_bands with
    | O => None                                            (* band_start[0] of an empty array *)
    | _ => Some (mkPixels (map (fun s => (st_nx s, st_ny s)) stamps) sizes (tn_x t) (tn_y t) (tn_data t) (tn_ierr t)
                 (0 :: removelast (cumsum (tn_band_N t))) (tn_band_N t) (tn_start t) (tn_N t))
    end
  end.

(** Source.psfgauss 401-432: the gaussians of exposure e with the number of their radius *)
Definition psfgauss (s : source) (e : nat) : option (list (Gauss * nat)) :=
  match nth_error (so_psfs s) e with
  | Some psfs => if Nat.eqb (List.length psfs) (List.length (so_radii s))
                 then Some (concat (map (fun rp => map (fun g => (g, fst rp)) (snd rp)) (combine (seq 0 (List.length psfs)) psfs))) else None
  | None => None
  end.
(** np.repeat *)
Fixpoint np_repeat {A} (l : list A) (counts : list nat) : list A :=
  match l, counts with a :: l, c :: counts => repeat a c ++ np_repeat l counts | _, _ => [] end.
(** arr[:] = vals *)
Definition fill {A} (n : nat) (vals : list A) : option (list A) :=
  match vals with [v] => Some (repeat v n) | _ => if Nat.eqb (List.length vals) n then Some vals else None end.
Record psfs := mkPsfs { ps_n : list nat; ps_start : list nat; ps_gauss : list (option (Gauss * nat)) }.
(** 166-173 for one exposure: the array and the counter s *)
Fixpoint psf_sources (e : nat) (sources : list source) (st : list (option (Gauss * nat)) * nat) : option (list (option (Gauss * nat)) * nat) :=
  match sources with
  | [] => Some st
  | so :: rest =>
    match psfgauss so e with
    | None => None
    | Some l => match splice (fst st) (snd st) (List.length l) (map Some l) with
                | Some arr => psf_sources e rest (arr, snd st + List.length l)
                | None => None
                end
    end
  end.
(** 165-176: the check is made for every exposure but the last *)
Fixpoint psf_exposures (sources : list source) (start : list nat) (es : list nat) (st : list (option (Gauss * nat)) * nat)
  : option (list (option (Gauss * nat)) * nat) :=
  match es with
  | [] => Some st
  | e :: es' =>
    match psf_sources e sources st with
    | None => None
    | Some st' =>
      match es' with
      | [] => Some st'
      | _ => match nth_error start (S e) with
             | Some k => if Nat.eqb (snd st') k then psf_exposures sources start es' st' else None
             | None => None
             end
      end
    end
  end.
(** pack_psf 136-176 *)
Definition pack_psf (n_bands n_exp n_sources : nat) (band_N : list nat) (npsf : list nat) (sources : list source) : option psfs :=
  match fill n_bands npsf with
  | None => None
  | Some n =>
    let start := match n_exp with O => [] | S _ => 0 :: map (fun c => c * n_sources) (removelast (cumsum (np_repeat n band_N))) end in
    match psf_exposures sources start (seq 0 n_exp) (repeat None (list_sum n * n_exp * n_sources), 0) with
    | Some (arr, _) => Some (mkPsfs n start arr)
    | None => None
    end
  end.

Record astrometry := mkAstro { as_D : list (list (option Mat)); as_CW : list (list (option Mat)); as_crpix : list (list Pos); as_crval : list (list Pos); as_G : list V }.
(** 234-236: arr[i, s] for all sources; a row has n_sources places *)
Definition row_of (n_sources : nat) (get : source -> option Mat) (sources : list source) : option (list (option Mat)) :=
  match mapM get sources with
  | Some l => if Nat.leb (List.length l) n_sources then Some (map Some l ++ repeat None (n_sources - List.length l)) else None
  | None => None
  end.
Definition at_exposure {A} (f : source -> list A) (i : nat) (s : source) : option A := nth_error (f s) i.
(** pack_astrometry 202-236 *)
Definition pack_astrometry (n_exp n_sources : nat) (sources : list source) : option astrometry :=
  match sources with
  | [] => match n_exp with O => Some (mkAstro [] [] [] [] []) | S _ => None end
  | first :: _ =>
    match mapM (fun i => option_map (fun p => repeat p n_sources) (at_exposure so_crpixs i first)) (seq 0 n_exp),
          mapM (fun i => option_map (fun p => repeat p n_sources) (at_exposure so_crvals i first)) (seq 0 n_exp),
          mapM (fun i => at_exposure so_zps i first) (seq 0 n_exp),
          mapM (fun i => row_of n_sources (at_exposure so_scales i) sources) (seq 0 n_exp),
          mapM (fun i => row_of n_sources (at_exposure so_cds i) sources) (seq 0 n_exp) with
    | Some cp, Some cv, Some g, Some d, Some cw => Some (mkAstro d cw cp cv g)
    | _, _, _, _, _ => None
    end
  end.

(** pack_source_metadata 178-200, without the squares of the radii: n_sources and the radii of the first source *)
Definition n_active (sources : list source) : nat := List.length (filter (fun s => negb (so_fixed s)) sources).
Definition pack_source_metadata (sources : list source) : option (nat * list V) :=
  match sources with [] => None | first :: _ => Some (n_active sources, so_radii first) end.

Record patch := mkPatch { pt_bands : nat; pt_n_exp : nat; pt_pixels : pixels; pt_n_sources : nat; pt_radii : list V; pt_astro : astrometry; pt_psfs : psfs }.
(** __init__ 24-83.  The mask is handed to pack_pix as its dtype: an array of one false pixel or none counts
    as no dtype, any other is no dtype at all *)
Definition as_dtype (mask : option (list bool)) : bool := match mask with None | Some [] | Some [false] => true | _ => false end.
Definition static_patch (stamps : list stamp) (npsf : list nat) (sources : list source) (mask : option (list bool)) : option patch :=
  let bands := map st_band stamps in
  if negb (nondecreasing bands) then None else
  let n_bands := List.length (np_unique bands) in
  let n_exp := List.length stamps in
  if negb (as_dtype mask) then None else
  match pack_pix n_bands stamps with
  | None => None
  | Some px =>
    match pack_source_metadata sources with
    | None => None
    | Some (n, radii) =>
      match pack_astrometry n_exp n sources, pack_psf n_bands n_exp n (px_band_N px) npsf sources with
      | Some a, Some p => Some (mkPatch n_bands n_exp px n radii a p)
      | _, _ => None
      end
    end
  end.

(** patch_to_stamps 310-337: the name PostageStamp is not defined in the module; it is needed once for every
    exposure *)
Definition patch_to_stamps (p : patch) : option (list (list V * list V * list V * list V)) :=
  match list_sum (px_band_N (pt_pixels p)) with
  | O => Some []
  | S _ => None
  end.
End Static.
Arguments mkStamp {V}. Arguments st_band {V}. Arguments st_nx {V}. Arguments st_ny {V}. Arguments st_xpix {V}. Arguments st_ypix {V}.
Arguments st_values {V}. Arguments st_ierr {V}. Arguments npix {V}.
Arguments mkSource {V Mat Pos Gauss}. Arguments so_fixed {V Mat Pos Gauss}. Arguments so_radii {V Mat Pos Gauss}. Arguments so_psfs {V Mat Pos Gauss}.
Arguments so_crpixs {V Mat Pos Gauss}. Arguments so_crvals {V Mat Pos Gauss}. Arguments so_zps {V Mat Pos Gauss}. Arguments so_scales {V Mat Pos Gauss}.
Arguments so_cds {V Mat Pos Gauss}.
Arguments px_shapes {V}. Arguments px_sizes {V}. Arguments px_x {V}. Arguments px_y {V}. Arguments px_data {V}. Arguments px_ierr {V}. Arguments px_band_start {V}.
Arguments px_band_N {V}. Arguments px_start {V}. Arguments px_N {V}. Arguments mkPixels {V}.
Arguments mkTurn {V}. Arguments tn_i {V}. Arguments tn_b {V}. Arguments tn_last {V}. Arguments tn_x {V}. Arguments tn_y {V}. Arguments tn_data {V}. Arguments tn_ierr {V}.
Arguments tn_band_N {V}. Arguments tn_start {V}. Arguments tn_N {V}. Arguments pix_step {V}. Arguments pix_loop {V}. Arguments pack_pix {V}.
Arguments psfgauss {V Mat Pos Gauss}. Arguments mkPsfs {Gauss}. Arguments ps_n {Gauss}. Arguments ps_start {Gauss}. Arguments ps_gauss {Gauss}.
Arguments psf_sources {V Mat Pos Gauss}. Arguments psf_exposures {V Mat Pos Gauss}. Arguments pack_psf {V Mat Pos Gauss}.
Arguments mkAstro {V Mat Pos}. Arguments as_D {V Mat Pos}. Arguments as_CW {V Mat Pos}. Arguments as_crpix {V Mat Pos}. Arguments as_crval {V Mat Pos}. Arguments as_G {V Mat Pos}.
Arguments row_of {V Mat Pos Gauss}. Arguments at_exposure {V Mat Pos Gauss A}. Arguments pack_astrometry {V Mat Pos Gauss}. Arguments n_active {V Mat Pos Gauss}.
Arguments pack_source_metadata {V Mat Pos Gauss}. Arguments static_patch {V Mat Pos Gauss}. Arguments patch_to_stamps {V Mat Pos Gauss}.
Arguments pt_bands {V Mat Pos Gauss}. Arguments pt_n_exp {V Mat Pos Gauss}. Arguments pt_pixels {V Mat Pos Gauss}. Arguments pt_n_sources {V Mat Pos Gauss}.
Arguments pt_radii {V Mat Pos Gauss}. Arguments pt_astro {V Mat Pos Gauss}. Arguments pt_psfs {V Mat Pos Gauss}. Arguments mkPatch {V Mat Pos Gauss}.
