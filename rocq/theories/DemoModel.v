(** Demonstration runs: combining dithered exposures (/repo/demo/demo_mosaic/mosaic_combine_dithers.py drizzle_combine 14-72),
    grids of mock fits (demo_psf/psf_grid_fit.py make_tag 20-24, make_grid 27-44 and the loop 94-123, psf_one_fit.py
    fit_image 70-113 (its region)), their summary (demo_psf/psf_grid_plot.py get_map 18-25, make_catalog 28-60,
    compare_parameters 63-130, compare_apflux 133-157, aperture_flux 160-167), the spans common to several chains
    (demo_mosaic/mosaic_plot.py, demo_snr/single_plot.py multispan), the trace panels (forcepho/fitting.py show_chain 231-252) and the frames of demo_pair/pair_movie.py 44-91.

    Simplifications: floats are reals, nan is [None]; drizzlepac's do_driz is an argument; a tag is the four rounded numbers
    its text is made of; an image file is the parameters it was made from; matplotlib is what it is given. *)
From Verif Require Import Np.
From Coq Require Import Reals.
From Verif Require Import IdentModel QuantModel ProfileModel CornerModel ProfModel.
From Verif Require ImagesModel StampModel MockModel.
Open Scope R_scope.

(** ** Combining exposures *)
(** One pixel of a drizzled exposure: its value, nan where no input pixel fell on it (47-48, nothing is filled in), and its weight *)
Definition dpix := (option R * R)%type.
(** do_driz 54-57: from the pixels of an exposure and their weights *)
Definition drizzler := list R -> list R -> list dpix.
(** 37-64: an exposure is its SCI and ERR arrays; the weights are scaled on the way in and back on the way out *)
Definition drizzled (driz : drizzler) (wt_scale : R) (e : list R * list R) : list dpix :=
  map (fun p => (fst p, snd p / wt_scale)) (driz (fst e) (map (fun s => 1 / s ^ 2 * wt_scale) (snd e))).
(** 65-67 at one pixel: the mean so far and its weight; nan * 0 and 0 / 0 are nan *)
Definition accumulate (acc : dpix) (p : dpix) : dpix :=
  let wprime := snd acc + snd p in
  (match fst acc, fst p with
   | Some m, Some s => if Req_EM_T wprime 0 then None else Some ((m * snd acc + s * snd p) / wprime)
   | _, _ => None
   end, wprime).
(** 32-33 and the loop *)
Fixpoint combine_into (final : list dpix) (exps : list (list dpix)) : list dpix :=
  match exps with [] => final | e :: t => combine_into (map (fun q => accumulate (fst q) (snd q)) (combine final e)) t end.
Definition drizzle_combine (driz : drizzler) (wt_scale : R) (n : nat) (exps : list (list R * list R)) : list dpix :=
  combine_into (repeat (Some 0, 0) n) (map (drizzled driz wt_scale) exps).
(** 72: the uncertainty, infinite without weight *)
Definition rms (w : R) : option R := if Rlt_dec 0 w then Some (1 / sqrt w) else None.
(** 29: hdul[0].header, the header every output is given; a primary unit has no image keywords *)
Definition hdr_out (file : list MockModel.ext) : option StampModel.header :=
  match file with MockModel.Image _ _ h :: _ => Some h | _ => None end.
(** 60 *)
Definition drz_name (exp : string) : string := replace "dither" "drz_dither" exp.

(** ** Grids *)
Section Grid.
Context {V : Type}.
(** itertools.product *)
Fixpoint product (ls : list (list V)) : list (list V) :=
  match ls with [] => [[]] | l :: t => flat_map (fun v => map (cons v) (product t)) l end.
Definition grid := list (string * list V).
(** The names of the columns and the rows of the grid *)
Definition table := (list string * list (list V))%type.
Fixpoint values_of (k : string) (g : grid) : option (list V) :=
  match g with [] => None | (k', v) :: t => if String.eqb k k' then Some v else values_of k t end.
Definition rows_of (g : grid) : option table :=
  let names := ImagesModel.sort_str (map fst g) in
  match mapM (fun k => values_of k g) names with Some ls => Some (names, product ls) | None => None end.
(** make_grid 27-44; the files as what reading them gives *)
Definition make_grid (read_yaml : string -> option grid) (read_fits : string -> option table) (g : grid) (spec : string) : option table :=
  match (if contains "yml" spec then read_yaml spec else Some g) with
  | None => None
  | Some g => if contains "fits" spec then read_fits spec else rows_of g
  end.
End Grid.
Arguments grid : clear implicits.
Arguments table : clear implicits.
(** One row of the grid, 98-101 *)
Record gpar := mkPar { g_rhalf : R; g_sersic : R; g_q : R; g_snr : R }.
(** make_tag 20-24: '.1f', '.3f', '.2f' and '.0f'; band and noise are those of the run *)
Definition tag_of (p : gpar) : Z * Z * Z * Z :=
  (round_even (10 * g_sersic p), round_even (1000 * g_rhalf p), round_even (100 * g_q p), round_even (g_snr p)).
Definition tag_eqb (a b : Z * Z * Z * Z) : bool :=
  let '(a1, a2, a3, a4) := a in let '(b1, b2, b3, b4) := b in Z.eqb a1 b1 && Z.eqb a2 b2 && Z.eqb a3 b3 && Z.eqb a4 b4.
(** The images on disk by their tag *)
Definition disk := list ((Z * Z * Z * Z) * gpar).
Fixpoint on_disk (t : Z * Z * Z * Z) (d : disk) : option gpar :=
  match d with [] => None | (t', p) :: r => if tag_eqb t t' then Some p else on_disk t r end.
(** The loop 96-123: the images afterwards, and for every row the image its fit was made to *)
Fixpoint run_grid (d : disk) (ps : list gpar) : disk * list gpar :=
  match ps with
  | [] => (d, [])
  | p :: t =>
    let d' := match on_disk (tag_of p) d with Some _ => d | None => (tag_of p, p) :: d end in
    let used := match on_disk (tag_of p) d' with Some im => im | None => p end in
    let '(d'', l) := run_grid d' t in (d'', used :: l)
  end.
(** 104: the side of the image in pixels *)
Definition size_img (rhalf scale : R) : Z := Int_part (Rmin (Rmax (20 * rhalf / scale) 64) 256).
(** psf_one_fit.py 85-88: the centre in pixels and the radius in arcsec of the region of the fit *)
Definition fit_region (nx ny : R) (scales : list R) : (R * R) * R := ((nx / 2, ny / 2), maximum (map (fun s => nx * s) scales) / sqrt 2 * (11 / 10)).
(** psf_grid_fit.py 14-17 and the names psf_plot.py defines; an import looks up every name *)
Definition import (module names : list string) : option (list string) :=
  mapM (fun n => if existsb (String.eqb n) module then Some n else None) names.
Definition psf_plot_names : list string := ["sys"; "os"; "argparse"; "np"; "pl"; "FormatStrFormatter"; "Samples"; "Residuals"; "fsize";
  "plot_trace"; "plot_corner"; "plot_residual"; "get_map"]%string.
Definition psf_grid_fit_imports : list string := ["plot_trace"; "plot_corner"; "plot_residual"; "make_catalog"; "compare_parameters"; "compare_apflux"]%string.

(** ** Summaries of the grid *)
(** What a samples file has: the number of samples kept, the wall time, the log posterior of every iteration, and for every
    column the chains of the sources *)
Record sfile := mkS { s_n : nat; s_wall : R; s_lnp : list R; s_chains : list (string * list (list R)) }.
(** x[-n:] *)
Definition last_n {A} (n : nat) (l : list A) : list A := match n with O => l | _ => skipn (List.length l - n) l end.
(** Storing an array in a row of n entries: it must have that length, or one *)
Definition store (n : nat) (l : list R) : option (list R) :=
  if Nat.eqb (List.length l) n then Some l else match l with [v] => Some (repeat v n) | _ => None end.
(** ... and one of several sources, which must be one *)
Definition store_sources (n : nat) (ls : list (list R)) : option (list R) := match ls with [l] => store n (last_n n l) | _ => None end.
Record srow := mkSRow { c_id : Z; c_wall : R; c_lnp : list R; c_cols : list (list R) }.
Definition blank (n : nat) (cols : list string) : srow := mkSRow (-1) 0 (repeat 0 n) (map (fun _ => repeat 0 n) cols).
Fixpoint column_of (k : string) (l : list (string * list (list R))) : option (list (list R)) :=
  match l with [] => None | (k', v) :: t => if String.eqb k k' then Some v else column_of k t end.
(** make_catalog 28-60, for files with the asked columns; [None] for a file that is not there *)
Fixpoint catalog_rows (n : nat) (cols : list string) (p : nat) (files : list (option sfile)) : option (list srow) :=
  match files with
  | [] => Some []
  | f :: t =>
    match (match f with
           | None => Some (blank n cols)
           | Some s =>
             if Nat.eqb (s_n s) n then
               match store n (last_n n (s_lnp s)), mapM (fun c => match column_of c (s_chains s) with Some ls => store_sources n ls | None => None end) cols with
               | Some l, Some vs => Some (mkSRow (Z.of_nat p) (s_wall s) l vs)
               | _, _ => None
               end
             else Some (blank n cols)
           end), catalog_rows n cols (S p) t with
    | Some r, Some rs => Some (r :: rs)
    | _, _ => None
    end
  end.
Fixpoint first_file (files : list (option sfile)) : option sfile :=
  match files with [] => None | Some s :: _ => Some s | None :: t => first_file t end.
Definition make_catalog (cols : list string) (files : list (option sfile)) : option (list srow) :=
  match first_file files with Some s => catalog_rows (s_n s) cols 0 files | None => None end.
(** get_map 18-25: the first sample of greatest log posterior *)
Definition get_map {A} (lnp : list R) (chain : list A) : option A :=
  match argmin (map Ropp lnp) with Some k => nth_error chain k | None => None end.
(** compare_parameters 91-100 and 115 for one point: the middle, and the lengths of its bars below and above;
    matplotlib raises for bars of negative length *)
Definition point (map_ : bool) (lnp samples : list R) : option (R * (R * R)) :=
  match percentiles samples [16; 50; 84] with
  | Some [lo; md; hi] =>
    let mid := if map_ then match argmin (map Ropp lnp) with Some k => nth k samples 0 | None => md end else md in
    if Rle_dec lo mid then if Rle_dec mid hi then Some (mid, (mid - lo, hi - mid)) else None else None
  | _ => None
  end.
(** 66-75 and 114: which points are shown, [None] for splitby=None *)
Definition shown (splitby : option (list R)) (onlymax : bool) (ids : list Z) : option (list (list bool)) :=
  match splitby with
  | None => None
  | Some key =>
    let splits := nodup Req_EM_T (sort key) in
    let splits := if onlymax then [last splits 0] else splits in
    Some (map (fun s => map (fun q => (0 <=? fst q)%Z && (if Req_EM_T (snd q) s then true else false)) (combine ids key)) splits)
  end.
(** aperture_flux 160-167 for one sample, and the ratio of compare_apflux 142 *)
Definition aperture_flux (sp : special) (true_rhalf rhalf sersic flux : R) : option R :=
  match frac_sersic sp true_rhalf rhalf sersic with Some fr => Some (flux * fr) | None => None end.
Definition apflux_ratio (sp : special) (true_rhalf rhalf sersic flux : R) : option R :=
  match aperture_flux sp true_rhalf rhalf sersic flux with Some a => Some (a * 2) | None => None end.

(** ** Pictures *)
(** multispan *)
Definition multispan (argsort : list R -> list nat) (default : R) (parsets : list (list (list R))) : option (list (R * R)) :=
  match mapM (fun x => get_spans argsort default None x None) parsets with
  | Some (s :: t) =>
    if forallb (fun u => Nat.eqb (List.length u) (List.length s)) t
    then Some (fold_left (fun acc sp => map (fun q => (Rmin (fst (fst q)) (fst (snd q)), Rmax (snd (fst q)) (snd (snd q)))) (combine acc sp)) t s)
    else None
  | _ => None
  end.
(** show_chain 231-252: for every panel its label, its samples, its limits and the true value; [axes] panels there are;
    without columns the last of the panels is asked for and is not there *)
Record trace_panel := mkTrace { t_label : string; t_samples : list R; t_limits : R * R; t_truth : option R }.
Definition show_chain (span : R) (bands shapes : list string) (show_shapes : bool) (axes : nat) (chain : string -> option (list R))
    (bounds : option (string -> option (R * R))) (truth : option (string -> option R)) : option (list trace_panel) :=
  let cols := if show_shapes then (bands ++ shapes)%list else bands in
  if Nat.leb 1 (List.length cols) && Nat.leb (List.length cols) axes then
    mapM (fun c =>
      match chain c with
      | None => None
      | Some xx =>
        match percentiles xx [100 * (1 / 2 - 1 / 2 * span); 100 * (1 / 2 + 1 / 2 * span)] with
        | Some [a; b] =>
          match (match bounds with Some bd => bd c | None => Some (a, b) end), (match truth with Some t => match t c with Some v => Some (Some v) | None => None end | None => Some None end) with
          | Some lim, Some tv => Some (mkTrace c xx lim tv)
          | _, _ => None
          end
        | _ => None
        end
      end) cols
  else None.
(** pair_movie.py 49-51 and 75-91: l[start::thin] *)
Fixpoint every {A} (thin k : nat) (l : list A) : list A :=
  match l with [] => [] | x :: t => match k with O => x :: every thin (thin - 1) t | S k => every thin k t end end.
Definition strided {A} (start thin : nat) (l : list A) : list A := every thin 0 (skipn start l).
(** The frames: the sample whose residual is shown, and the sample whose fluxes are marked *)
Definition movie {A} (n_tune thin : nat) (chain : list A) : option (list (A * A)) :=
  let deltas := strided 0 thin chain in
  mapM (fun iv => match nth_error deltas (fst iv) with Some d => Some (d, snd iv) | None => None end)
       (combine (seq 0 (List.length (strided n_tune thin chain))) (strided n_tune thin chain)).
