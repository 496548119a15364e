(** Patches on a device: metadata packing and the subtraction of fixed sources.
    /repo/forcepho/patches/patch.py (pack_meta 242-270, _pack_source_metadata
    272-298, _pack_astrometry 300-338, _pack_fluxcal 340-355, _pack_psf 357-396,
    set_scene 398-423, zerocoords 425-459, unzerocoords 461-467),
    patches/device_patch.py (DevicePatchMixin 24-257, GPUPatchMixin 260-438,
    CPUPatchMixin 441-555), proposal.py (evaluate_proposal 96-152 and 180-226),
    sources.py (Scene.from_catalog 155-184, get_proposal 80-97,
    Source.from_catalog_row 447-457, Galaxy.proposal 607-621).

    Simplifications common to the file: floats are reals; a numpy array or device
    allocation holding pixels is an address in a list of buffers, never reused;
    the metadata arrays are one value tagged with the packing that made it; WCS and
    spline evaluations are arbitrary functions; every catalog has the six Galaxy
    columns; exceptions are [None]; on the GPU the CUDA kernel computes what the
    C++ kernel does (C43). *)
From Verif Require Import Np PackModel KernelModel.
From Coq Require Import Reals.
Open Scope R_scope.
Open Scope nat_scope.

(** What the code asks of a WCS object: world_to_pixel_values, and
    utils.wcs.scale_at_sky which returns (CW_mat, D_mat) *)
Record wcs := mkWcs { world_to_pixel : R -> R -> R * R; scale_at_sky : R -> R -> matrix22 * matrix22 }.
(** The contents of a splinedata file as used by Galaxy (sources.py 624-693) *)
Record spline := mkSpline { radii : list R; amplitudes : R -> R -> nat -> R; damp_drh : R -> R -> nat -> R; damp_dsersic : R -> R -> nat -> R }.
(** A row of a source catalog; a missing flux column raises *)
Record catrow := mkRow { c_ra : R; c_dec : R; c_q : R; c_pa : R; c_sersic : R; c_rhalf : R; c_flux : string -> option R }.
(** A Galaxy object and a Scene object *)
Record galaxy := mkGal { g_flux : list R; g_ra : R; g_dec : R; g_q : R; g_pa : R; g_sersic : R; g_rhalf : R }.
Record scene := mkScene { sc_spline : spline; sc_sources : list galaxy }.

(** from_catalog_row 447-457 *)
Definition from_catalog_row (bandlist : list string) (r : catrow) : option galaxy :=
  match mapM (c_flux r) bandlist with
  | Some f => Some (mkGal f (c_ra r) (c_dec r) (c_q r) (c_pa r) (c_sersic r) (c_rhalf r))
  | None => None
  end.
(** set_scene, patch.py 413-423: always a new Scene object *)
Definition set_scene (bandlist : list string) (default : spline) (splinedata : option spline) (cat : list catrow) : option scene :=
  let sp := match splinedata with Some s => s | None => default end in
  option_map (mkScene sp) (mapM (from_catalog_row bandlist) cat).
(** Galaxy.proposal 607-621 and Scene.get_proposal 80-97 *)
Definition proposal (sp : spline) (g : galaxy) : KSource :=
  mkKS (g_ra g) (g_dec g) (g_q g) (g_pa g) (fun b => nth b (g_flux g) 0%R)
       (amplitudes sp (g_sersic g) (g_rhalf g)) (damp_drh sp (g_sersic g) (g_rhalf g)) (damp_dsersic sp (g_sersic g) (g_rhalf g)).
Definition get_proposal (sc : scene) : list KSource := map (proposal (sc_spline sc)) (sc_sources sc).

(** np.median *)
Fixpoint insertR (x : R) (l : list R) : list R :=
  match l with [] => [x] | y :: t => if Rle_dec x y then x :: l else y :: insertR x t end.
Definition sortR (l : list R) : list R := fold_right insertR [] l.
Definition np_median (l : list R) : R :=
  let s := sortR l in
  let n := List.length l in
  if Nat.odd n then nth (n / 2) s 0%R else ((nth (n / 2 - 1) s 0 + nth (n / 2) s 0) / 2)%R.

(** zerocoords 449-457, without and with an explicit sky_zero; unzerocoords 461-467 *)
Definition shift_source (d : R * R) (g : galaxy) : galaxy :=
  mkGal (g_flux g) (g_ra g + fst d)%R (g_dec g + snd d)%R (g_q g) (g_pa g) (g_sersic g) (g_rhalf g).
Definition zerocoords (sc : scene) (sky_zero : option (R * R)) : (R * R) * scene :=
  let zero := match sky_zero with
              | Some z => z
              | None => (np_median (map g_ra (sc_sources sc)), np_median (map g_dec (sc_sources sc)))
              end in
  (zero, mkScene (sc_spline sc) (map (shift_source (- fst zero, - snd zero)%R) (sc_sources sc))).
Definition unzerocoords (reference : R * R) (sc : scene) : scene :=
  mkScene (sc_spline sc) (map (shift_source reference) (sc_sources sc)).

(** The metadata arrays (meta_names, patch.py 73-75), flattened in C order *)
Record meta := mkMeta {
  m_n_sources : nat; m_rad2 : list R; m_D : list R; m_crpix : list R; m_crval : list R; m_CW : list R; m_G : list R;
  m_psf : @psf_tables PSFGaussian }.
(** The attributes of a built patch that later calls only read: the pixel tables,
    band and WCS per exposure, the PSF store and the default splines *)
Record env := mkEnv {
  pk : packed R; bands : list string; wcses : list wcs;
  psf_attr : string -> option nat; psf_parameters : string -> list (list PSFGaussian);
  psf_nearest : string -> nat * nat -> nat; splinedata : spline }.
Definition flat22 (m : matrix22) : list R := [v11 m; v12 m; v21 m; v22 m].
Definition flat2 (p : R * R) : list R := [fst p; snd p].
(** pack_meta 259-270: the zeroed scene, the new reference and the arrays.
    scene.sources[0] (295) raises for an empty scene. *)
Definition pack_meta (E : env) (sc0 : scene) : option ((R * R) * scene * meta) :=
  let '(ref, sc) := zerocoords sc0 None in
  let srcs := sc_sources sc in
  let sky (s : galaxy) := ((g_ra s + fst ref)%R, (g_dec s + snd ref)%R) in
  match srcs with
  | [] => None
  | _ =>
    match pack_psf (psf_attr E) (get_local_psf (psf_parameters E) (psf_nearest E)) (bandlist (pk E)) (n_exp_per_band (pk E))
                   (bands E) (List.length srcs) srcs with
    | None => None
    | Some t =>
      Some (ref, sc,
        mkMeta (List.length srcs) (map (fun r => (r * r)%R) (radii (sc_spline sc)))
          (flat_map (fun w => flat_map (fun s => flat22 (snd (scale_at_sky w (fst (sky s)) (snd (sky s))))) srcs) (wcses E))
          (flat_map (fun w => flat_map (fun s => flat2 (world_to_pixel w (fst (sky s)) (snd (sky s)))) srcs) (wcses E))
          (flat_map (fun w => flat_map (fun s => flat2 ((fst (sky s) - fst ref)%R, (snd (sky s) - snd ref)%R)) srcs) (wcses E))
          (flat_map (fun w => flat_map (fun s => flat22 (fst (scale_at_sky w (fst (sky s)) (snd (sky s))))) srcs) (wcses E))
          (repeat 1%R (List.length (wcses E))) t)
    end
  end.

(** The structure handed to the kernel, given the data buffer *)
Definition no_psf : PSFGaussian := mkPSF 0 0 0 0 0 0 0.
Definition kernel_patch (E : env) (m : meta) (data : list R) : Patch :=
  let at_ (l : list R) i := nth i l 0%R in
  mkPatch (at_ data) (at_ (pk_ierr (pk E))) (at_ (pk_xpix (pk E))) (at_ (pk_ypix (pk E)))
    (fun e => nth e (pk_exposure_start (pk E)) 0) (fun e => nth e (pk_exposure_N (pk E)) 0)
    (fun b => nth b (pk_band_start (pk E)) 0) (fun b => nth b (pk_band_N (pk E)) 0)
    (m_n_sources m) (at_ (m_rad2 m)) (at_ (m_D m)) (at_ (m_crpix m)) (at_ (m_crval m)) (at_ (m_CW m)) (at_ (m_G m))
    (fun b => nth b (t_n_psf_per_source (m_psf m)) 0) (fun i => nth i (t_psfgauss (m_psf m)) no_psf)
    (fun e => nth e (t_psfgauss_start (m_psf m)) 0).

(** The mutable part of a patch.  [struct] is what device_patch points to: data and
    residual addresses and the metadata. *)
Record state := mkState {
  buffers : list (list R);
  attr_data : nat; attr_residual : option nat;
  host_meta : option (nat * meta); packings : nat; reference : R * R;
  ptr_data : option nat; ptr_residual : option nat; ptr_meta : option (nat * meta);
  struct : option (nat * option nat * (nat * meta));
  dirty : bool; return_residual : bool }.
Definition set_return_residual (b : bool) (st : state) : state :=
  mkState (buffers st) (attr_data st) (attr_residual st) (host_meta st) (packings st) (reference st)
    (ptr_data st) (ptr_residual st) (ptr_meta st) (struct st) (dirty st) b.
(** The packed metadata become the attributes of the patch *)
Definition set_meta (ref : R * R) (m : meta) (st : state) : state :=
  mkState (buffers st) (attr_data st) (attr_residual st) (Some (S (packings st), m)) (S (packings st)) ref
    (ptr_data st) (ptr_residual st) (ptr_meta st) (struct st) (dirty st) (return_residual st).
(** send_patchstruct_to_device: GPU 315-343 (a missing residual pointer stays NULL),
    CPU 490-512 (a missing pointer raises KeyError) *)
Definition send_patchstruct (gpu : bool) (st : state) : option state :=
  match ptr_data st, ptr_meta st with
  | Some d, Some m =>
    if negb gpu && match ptr_residual st with None => true | _ => false end then None else
    Some (mkState (buffers st) (attr_data st) (attr_residual st) (host_meta st) (packings st) (reference st)
            (ptr_data st) (ptr_residual st) (ptr_meta st) (Some (d, ptr_residual st, m)) (dirty st) (return_residual st))
  | _, _ => None
  end.
(** send_to_device: GPU 268-300 copies the data and allocates a residual if asked to,
    CPU 449-482 makes a new residual array and takes the addresses *)
Definition send_to_device (gpu : bool) (st : state) : option state :=
  match nth_error (buffers st) (attr_data st), host_meta st with
  | Some d, Some m =>
    let n := List.length (buffers st) in
    let zeros := repeat 0%R (List.length d) in
    if gpu then
      let res := if return_residual st then Some (S n) else None in
      option_map (fun st => mkState (buffers st) (attr_data st) (attr_residual st) (host_meta st) (packings st) (reference st)
                              (ptr_data st) (ptr_residual st) (ptr_meta st) (struct st) false (return_residual st))
        (send_patchstruct true
          (mkState (buffers st ++ [d; zeros]) (attr_data st) (attr_residual st) (host_meta st) (packings st) (reference st)
             (Some n) res (Some m) (struct st) (dirty st) (return_residual st)))
    else
      send_patchstruct false
        (mkState (buffers st ++ [zeros]) (attr_data st) (Some n) (host_meta st) (packings st) (reference st)
           (Some (attr_data st)) (Some n) (Some m) (struct st) (dirty st) (return_residual st))
  | _, _ => None
  end.
(** replace_device_meta_ptrs: GPU 302-313, CPU 484-494 *)
Definition replace_meta (st : state) : option state :=
  match host_meta st with
  | Some m => Some (mkState (buffers st) (attr_data st) (attr_residual st) (host_meta st) (packings st) (reference st)
                      (ptr_data st) (ptr_residual st) (Some m) (struct st) (dirty st) (return_residual st))
  | None => None
  end.
(** swap_on_device: GPU 345-367, CPU 514-545 (the CPU also swaps the attributes and
    leaves the dirty flag alone) *)
Definition swap_on_device (gpu : bool) (st : state) : option state :=
  match ptr_residual st, ptr_data st with
  | Some r, Some d =>
    match replace_meta st with
    | None => None
    | Some st =>
      if gpu then
        option_map (fun st => mkState (buffers st) (attr_data st) (attr_residual st) (host_meta st) (packings st) (reference st)
                                (ptr_data st) (ptr_residual st) (ptr_meta st) (struct st) true (return_residual st))
          (send_patchstruct true
            (mkState (buffers st) (attr_data st) (attr_residual st) (host_meta st) (packings st) (reference st)
               (Some r) (Some d) (ptr_meta st) (struct st) (dirty st) (return_residual st)))
      else
        match attr_residual st with
        | None => None
        | Some a =>
          send_patchstruct false
            (mkState (buffers st) a (Some (attr_data st)) (host_meta st) (packings st) (reference st)
               (Some r) (Some d) (ptr_meta st) (struct st) (dirty st) (return_residual st))
        end
    end
  | _, _ => None
  end.

(** compute_gaussians_kernel.cc 281-283 for every band, exposure and pixel *)
Definition write_residual (P : Patch) (n_bands : nat) (src : nat -> KSource) (buf : list R) : list R :=
  fold_left (fun buf b => fold_left (fun buf e =>
      let gs := CreateImageGaussians P b (band_start P b + e) src in
      fold_left (fun buf p => let pix := exposure_start P (band_start P b + e) + p in
          upd pix (ComputeResidualImage (P_xpix P pix) (P_ypix P pix) (P_data P pix) gs) buf)
        (seq 0 (exposure_N P (band_start P b + e))) buf)
    (seq 0 (band_N P b)) buf) (seq 0 n_bands) buf.
Definition no_source : KSource := mkKS 0 0 0 0 (fun _ => 0%R) (fun _ => 0%R) (fun _ => 0%R) (fun _ => 0%R).
(** evaluate_proposal with unpack=False.  On the CPU the structure holds the addresses
    of the metadata arrays; after another pack_meta those arrays are gone, and the
    evaluation is undefined ([None]).  The residuals are read through
    device_ptrs["residual"] (GPU, 369-376) or the attribute (CPU, 547-555). *)
Definition evaluate (E : env) (gpu : bool) (st : state) (prop : list KSource)
  : option (state * (list R * list (list (list R)) * option (list R))) :=
  match struct st with
  | None => None
  | Some (d, r, (id, m)) =>
    if negb gpu && negb (match host_meta st with Some (now, _) => id =? now | None => false end) then None else
    match nth_error (buffers st) d with
    | None => None
    | Some data =>
      let P := kernel_patch E m data in
      let src i := nth i prop no_source in
      let n_bands := List.length (bandlist (pk E)) in
      let bufs := match r with
                  | Some r => match nth_error (buffers st) r with
                              | Some old => upd r (write_residual P n_bands src old) (buffers st)
                              | None => buffers st
                              end
                  | None => buffers st
                  end in
      let st' := mkState bufs (attr_data st) (attr_residual st) (host_meta st) (packings st) (reference st)
                   (ptr_data st) (ptr_residual st) (ptr_meta st) (struct st) (dirty st) (return_residual st) in
      let out := KernelModel.evaluate_proposal P n_bands src in
      if return_residual st then
        match (if gpu then ptr_residual st else attr_residual st) with
        | None => None
        | Some r => match nth_error bufs r with Some res => Some (st', (fst out, snd out, Some res)) | None => None end
        end
      else Some (st', (fst out, snd out, None))
    end
  end.
(** retrieve_array("data"): GPU 369-376, CPU 547-555 *)
Definition retrieve_data (gpu : bool) (st : state) : option (list R) :=
  if gpu then match ptr_data st with Some d => nth_error (buffers st) d | None => None end
  else nth_error (buffers st) (attr_data st).

(** np.arange and np.array_split(cat, indices) as used in 146-147 *)
Definition np_arange (start stop step : nat) : list nat :=
  map (fun k => start + k * step) (seq 0 ((stop - start + (step - 1)) / step)).
Definition blocks_of (maxactive : nat) (cat : list catrow) : list (list catrow) :=
  np_split cat (np_arange maxactive (List.length cat) maxactive).
(** 145-152: the scenes of one group of sources to subtract *)
Definition group_scenes (E : env) (maxactive : nat) (sp : option spline) (cat : option (list catrow)) : option (list scene) :=
  match cat with
  | None => Some []
  | Some c => if maxactive =? 0 then None
              else mapM (set_scene (bandlist (pk E)) (splinedata E) sp) (blocks_of maxactive c)
  end.
(** pack_meta of the scene object [r], which it changes in place *)
Definition pack_object (E : env) (st : state) (heap : list scene) (r : nat) : option (state * list scene) :=
  match nth_error heap r with
  | None => None
  | Some sc => match pack_meta E sc with
               | Some (ref, sc', m) => Some (set_meta ref m st, upd r sc' heap)
               | None => None
               end
  end.
(** 171-181: the loop over scene objects; [prev] is the object on the device *)
Fixpoint subtract_loop (E : env) (gpu : bool) (st : state) (heap : list scene) (prev : nat) (rest : list nat) : option (state * list scene) :=
  match rest with
  | [] => Some (st, heap)
  | r :: t =>
    match nth_error heap prev with
    | None => None
    | Some sc =>
      match evaluate E gpu st (get_proposal sc) with
      | None => None
      | Some (st1, _) =>
        match pack_object E st1 heap r with
        | None => None
        | Some (st2, heap2) =>
          match swap_on_device gpu st2 with
          | None => None
          | Some st3 => subtract_loop E gpu st3 heap2 r t
          end
        end
      end
    end
  end.
(** subtract_fixed 113-183.  Without active sources the last scene object is used
    twice (156-158). *)
Definition subtract_fixed (E : env) (gpu : bool) (st : state) (fixed active big : option (list catrow)) (maxactive : nat)
           (swap_local : bool) (big_spline scene_spline : option spline) : option (state * scene) :=
  match group_scenes E maxactive big_spline big, group_scenes E maxactive scene_spline fixed with
  | Some sb, Some sf =>
    let n := List.length (sb ++ sf) in
    let objects :=
      match active with
      | Some a => match set_scene (bandlist (pk E)) (splinedata E) scene_spline a with
                  | Some sa => Some (sb ++ sf ++ [sa], seq 0 (S n))
                  | None => None
                  end
      | None => if negb swap_local || (n =? 0) then None else Some (sb ++ sf, seq 0 n ++ [n - 1])
      end in
    match objects with
    | Some (heap, first :: rest) =>
      let st := set_return_residual true st in
      if dirty st then None else
      match pack_object E st heap first with
      | None => None
      | Some (st, heap) =>
        match send_to_device gpu st with
        | None => None
        | Some st =>
          match subtract_loop E gpu st heap first rest with
          | Some (st, heap) => match nth_error heap (List.last rest first) with Some sc => Some (st, sc) | None => None end
          | None => None
          end
        end
      end
    | _ => None
    end
  | _, _ => None
  end.
(** prepare_model 28-62: the device part *)
Definition prepare_model (E : env) (gpu : bool) (st : state) (active fixed big : option (list catrow)) (maxactive : nat)
           (big_spline : option spline) : option (state * scene) :=
  match subtract_fixed E gpu st fixed active big maxactive false big_spline None with
  | Some (st, sc) => Some (set_return_residual false st, sc)
  | None => None
  end.
