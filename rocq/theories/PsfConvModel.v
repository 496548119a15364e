(** Model of the conversions between a fitted PSF mixture and the PSF the renderers use.

    Sources: forcepho/slow/psf.py (PointSpreadFunction 14-65, get_psf 68-115, make_psf 118-130,
    params_to_gauss 133-170; its mvn_pdf 173-179 is the one of mixtures/psf_mix_em.py, see EmModel),
    forcepho/mixtures/utils_em.py 66-141 (what psf_mixture stores),
    forcepho/mixtures/psf_mix_hmc.py 35-168 (psf_prediction and the sites of psf_model),
    demo/demo_psf/make_jwst_psf/make_psf.py 23-327.

    Arithmetic is over the reals: the rounding of the stored parameters to float32 and divisions
    by zero are not modelled.  [None] is a python exception. *)
From Coq Require Import Reals Lra.
From Coq Require Import ZArith List String Ascii.
From Verif Require Import Np EmModel.
Import ListNotations.
Open Scope R_scope.

(** ** slow/psf.py *)
(** PointSpreadFunction 14-34: the number of gaussians, means, amplitudes, and the covariance
    matrices [[xx, xy], [xy, yy]] as (xx, xy, yy) (every constructor makes them symmetric) *)
Record psf := mkPsf { p_n : nat; p_means : list (R * R); p_amps : list R; p_covs : list (R * R * R) }.
(** __init__ with parameters=None, 26-30 *)
Definition default_psf : psf := mkPsf 1 [(0, 0)] [1] [(1, 0, 1)].
(** as_tuplelist 49-65: (amp, x, y, cxx, cyy, cxy) *)
Definition tuple6 := (R * R * R * R * R * R)%type.
Definition as_tuplelist (p : psf) : option (list tuple6) :=
  mapM (fun i =>
    match nth_error (p_covs p) i, nth_error (p_amps p) i, nth_error (p_means p) i with
    | Some (cxx, cxy, cyy), Some a, Some (x, y) => Some (a, x, y, cxx, cyy, cxy)
    | _, _, _ => None
    end) (seq 0 (p_n p)).

(** A row of a structured array, by field name; a name that is not there raises ValueError *)
Definition srow := list (string * R).
Fixpoint field (k : string) (r : srow) : option R :=
  match r with [] => None | (n, v) :: t => if String.eqb n k then Some v else field k t end.
Definition column (k : string) (rows : list srow) : option (list R) := mapM (field k) rows.
(** make_from_parameters 36-47.  (The rows of one array have the same fields.) *)
Definition make_from_parameters (rows : list srow) : option psf :=
  match mapM (fun r => match field "Cxx" r, field "Cxy" r, field "Cyy" r with
                       | Some a, Some b, Some c => Some (a, b, c) | _, _, _ => None end) rows with
  | None => None
  | Some covs =>
    match (match column "xcr" rows, column "ycr" rows with
           | Some xs, Some ys => Some (combine xs ys)
           | _, _ => match column "xcen" rows, column "ycen" rows with
                     | Some xs, Some ys => Some (combine xs ys) | _, _ => None end
           end), column "amp" rows with
    | Some means, Some amps => Some (mkPsf (List.length rows) means amps covs)
    | _, _ => None
    end
  end.

(** params.reshape(int(len(params)/6), 6), 158-160: the fitted vector as rows of six *)
Fixpoint rows6 (n : nat) (l : list R) : option (list comp) :=
  match n with
  | O => match l with [] => Some [] | _ => None end
  | S m =>
    match l with
    | a :: b :: c :: d :: e :: f :: t => option_map (cons (Build_comp a b c d e f)) (rows6 m t)
    | _ => None
    end
  end.
Definition reshape6 (l : list R) : option (list comp) := rows6 (List.length l / 6) l.

(** What params_to_gauss gives for one row, 164-170: mux, muy, vx, vy, vxy, amp.  [start] and
    [center] are added to the flipped pair, so their first element goes with the second
    coordinate of the fit; a scalar is a pair of equal elements. *)
Record gpar := mkGpar { mux : R; muy : R; vx : R; vy : R; vxy : R; gamp : R }.
Definition to_gauss (os : R) (start center : R * R) (c : comp) : gpar :=
  let sy' := sx c / os in
  let sx' := sy c / os in
  mkGpar ((my c + fst start - fst center) / os) ((mx c + snd start - snd center) / os)
         (sx' ^ 2) (sy' ^ 2) (rho c * sx' * sy') (amp c).
Definition params_to_gauss (fitted : list R) (os : R) (start center : R * R) : option (list gpar) :=
  option_map (map (to_gauss os start center)) (reshape6 fitted).
(** make_psf 118-130 *)
Definition make_psf (fitted : list R) (os : R) (start center : R * R) : option psf :=
  match params_to_gauss fitted os start center with
  | None => None
  | Some gs => Some (mkPsf (List.length gs) (map (fun g => (mux g, muy g)) gs) (map gamp gs)
                          (map (fun g => (vx g, vxy g, vy g)) gs))
  end.

(** What can be in the file given to get_psf: a pickled dictionary from the number of gaussians to
    the fits (their fitted_params), or an HDF5 file with datasets and groups at its root. *)
Inductive h5item := Dataset (rows : list (list srow)) | Group.
Inductive psffile := Pickle (d : list (nat * list (list R))) | Hdf5 (root : list (string * h5item)).
Fixpoint by_key {V} (n : nat) (d : list (nat * V)) : option V :=
  match d with [] => None | (k, v) :: t => if Nat.eqb k n then Some v else by_key n t end.
Fixpoint by_name {V} (n : string) (d : list (string * V)) : option V :=
  match d with [] => None | (k, v) :: t => if String.eqb k n then Some v else by_name n t end.
(** get_psf 68-115.  Reading the pickle or anything after it failing goes to the bare except (105),
    where opening a pickle as HDF5 raises; pdat.keys()[0] (101) is a TypeError; make_psf is called
    with start 0. *)
Definition get_psf (file : option psffile) (fwhm : R) (realization : Z) (n_gauss : option nat) (os center : R) : option psf :=
  match file with
  | None => Some (mkPsf 1 [(0, 0)] [1] (map (fun c => let '(a, b, d) := c in
                    (a * (fwhm / 2.355), b * (fwhm / 2.355), d * (fwhm / 2.355))) (p_covs default_psf)))
  | Some (Pickle d) =>
    match n_gauss with
    | None => None
    | Some n =>
      match by_key n d with
      | None => None
      | Some fits =>
        match np_index (List.length fits) realization with
        | None => None
        | Some i => match nth_error fits i with Some f => make_psf f os (0, 0) (center, center) | None => None end
        end
      end
    end
  | Some (Hdf5 root) =>
    match by_name "parameters" root with
    | Some (Dataset ps) =>
      match np_index (List.length ps) realization with
      | None => None
      | Some i => match nth_error ps i with Some rows => make_from_parameters rows | None => None end
      end
    | _ => None
    end
  end.

(** ** mixtures/utils_em.py *)
(** start of 72-78 for an image of [size] elements along one axis *)
Definition center_full (size : nat) : R := (INR size - 1) / 2.
Definition em_start (size : nat) (width : option R) : R :=
  match width with
  | None => 0
  | Some w => IZR (Int_part (Rmin (Rmax (center_full size - w) 0) (INR size)))
  end.
(** One element of parameters, 102-112 *)
Definition em_row (g : gpar) : srow :=
  [("x", mux g); ("y", muy g); ("vxx", vx g); ("vyy", vy g); ("vxy", vxy g); ("amp", gamp g)]%string.
Definition zero_row : srow := em_row (mkGpar 0 0 0 0 0 0).
(** 103-133: [results] are the fitted vectors of the fits that ended, at most [nrepeat]; the rest of
    the array stays zero.  [size] is data.shape of the full image. *)
Definition newstyle_parameters (results : list (list R)) (nrepeat nmix : nat) (os : R) (size : nat * nat) (width : option R)
  : option (list (list srow)) :=
  let start := (em_start (fst size) width, em_start (snd size) width) in
  let center := (center_full (fst size), center_full (snd size)) in
  match mapM (fun f => params_to_gauss f os start center) results with
  | None => None
  | Some gss =>
    if forallb (fun gs => Nat.eqb (List.length gs) nmix) gss && Nat.leb (List.length gss) nrepeat then
      Some (map (map em_row) gss ++ repeat (repeat zero_row nmix) (nrepeat - List.length gss))
    else None
  end.
Definition newstyle_file (results : list (list R)) (nrepeat nmix : nat) (os : R) (size : nat * nat) (width : option R) : option psffile :=
  option_map (fun p => Hdf5 [("psf_image"%string, Group); ("models"%string, Group); ("parameters"%string, Dataset p); ("lnlike"%string, Group)])
             (newstyle_parameters results nrepeat nmix os size width).

(** ** mixtures/psf_mix_hmc.py *)
(** A value of the dictionary of best fit parameters: a scalar or a vector *)
Inductive val := Sc (r : R) | Vec (l : list R).
Definition dict := list (string * val).
Definition get (d : dict) (k : string) : option val := by_name k d.
Fixpoint set (d : dict) (k : string) (v : val) : dict :=
  match d with [] => [(k, v)] | (n, w) :: t => if String.eqb n k then (n, v) :: t else (n, w) :: set t k v end.
Definition get_default (d : dict) (k : string) (r : R) : val := match get d k with Some v => v | None => Sc r end.
Definition size_of (v : val) : nat := match v with Sc _ => 1 | Vec l => List.length l end.
(** broadcasting to [n] elements (vectors with no elements are left out) *)
Definition bcast (n : nat) (v : val) : option (list R) :=
  match v with
  | Sc r => Some (repeat r n)
  | Vec [r] => Some (repeat r n)
  | Vec l => if Nat.eqb (List.length l) n then Some l else None
  end.
Definition arguments : list string := ["x"; "y"; "a"; "weight"; "sx"; "q"; "rho"; "bg"]%string.
(** One gaussian of the sum, 45-50 *)
Definition hmc_term (px py x y a w sx q rho : R) : R :=
  let sy := q * sx in
  let norm := a * w / (2 * PI * sx * sy * sqrt (1 - rho ^ 2)) in
  let dx := (px - x) / sx in
  let dy := (py - y) / sy in
  norm * exp (- (1 / 2) / (1 - rho ^ 2) * (dx ^ 2 + dy ^ 2 - 2 * rho * dx * dy)).
Fixpoint terms (px py : R) (x y a w sx q rho : list R) : R :=
  match x, y, a, w, sx, q, rho with
  | x :: x', y :: y', a :: a', w :: w', s :: s', q :: q', r :: r' =>
      hmc_term px py x y a w s q r + terms px py x' y' a' w' s' q' r'
  | _, _, _, _, _, _, _ => 0
  end.
(** psf_prediction 35-53 with keyword arguments [d]; the defaults are those of the signature, any
    other keyword is a TypeError.  The background must be a scalar (simplification). *)
Definition psf_prediction (pix : list (R * R)) (d : dict) : option (list R) :=
  if negb (forallb (fun kv => existsb (String.eqb (fst kv)) arguments) d) then None else
  let g := get_default d in
  let vs := [g "x" 0; g "y" 0; g "a" 1; g "weight" 1; g "sx" 3; g "q" 3; g "rho" 0]%string in
  let n := fold_right Nat.max 1%nat (map size_of vs) in
  match mapM (bcast n) vs, g "bg"%string 0 with
  | Some [x; y; a; w; s; q; r], Sc bg => Some (map (fun p => terms (fst p) (snd p) x y a w s q r + bg) pix)
  | _, _ => None
  end.

(** The sample sites of psf_model 119-162, with their shapes ([None] a scalar), when called by
    fit_image of make_psf.py 97-113 (smax and rho_max of length ngauss) *)
Definition psf_sites (ngauss nneg : nat) (fixed fit_bg : bool) : list (string * option nat) :=
  (if fixed then [] else [("a"%string, None)]) ++ (if fit_bg then [("bg"%string, None)] else []) ++
  (if Nat.ltb 1 ngauss then [("weight"%string, Some ngauss)] else []) ++
  map (fun k => (k, Some ngauss)) ["x"; "y"; "rho"; "sx"; "q"]%string ++
  (if Nat.ltb 0 nneg then map (fun k => (k, Some nneg)) ["weight_m"; "x_m"; "y_m"; "rho_m"; "sx_m"; "q_m"]%string else []).
Definition has_shape (v : val) (s : option nat) : bool :=
  match v, s with Sc _, None => true | Vec l, Some n => Nat.eqb (List.length l) n | _, _ => false end.

(** ** demo/demo_psf/make_jwst_psf/make_psf.py *)
(** read_image 23-53: a FITS image of [f_nx] columns and [f_ny] rows *)
Record fitsim := mkFits { f_nx : nat; f_ny : nat; f_rows : list (list R) }.
Record image := mkIm { xpix : list nat; ypix : list nat; idata : list R; inx : nat; iny : nat; icx : R; icy : R }.
Definition read_image (f : fitsim) (pad : nat) : image :=
  let data := map (fun x => map (fun y => nth x (nth y (f_rows f) []) 0) (seq 0 (f_ny f))) (seq 0 (f_nx f)) in
  let cut {A} (n : nat) (l : list A) := firstn (n - pad - pad) (skipn pad l) in
  let data := map (cut (f_ny f)) (cut (f_nx f) data) in
  let nx := (f_nx f - pad - pad)%nat in
  let ny := (f_ny f - pad - pad)%nat in
  mkIm (flat_map (fun x => map (fun _ => x) (seq 0 ny)) (seq 0 nx)) (flat_map (fun _ => seq 0 ny) (seq 0 nx))
       (concat data) nx ny ((INR nx - 1) / 2) ((INR ny - 1) / 2).
Definition pixels_of (im : image) : list (R * R) := map (fun p => (INR (fst p), INR (snd p))) (combine (xpix im) (ypix im)).

(** fit_image 84-118: the dictionary it returns, from the sampled one *)
Definition fit_best (fixed : bool) (a : R) (sampled : dict) : dict := if fixed then set sampled "a" (Sc a) else sampled.

(** rectify 121-148 *)
Fixpoint ends_m (s : string) : option string :=         (* k[:-2] if k[-2:] == "_m" *)
  match s with
  | EmptyString => None
  | String c t => if String.eqb s "_m" then Some EmptyString else option_map (String c) (ends_m t)
  end.
Fixpoint pop_negative (d : dict) : dict * dict :=
  match d with
  | [] => ([], [])
  | (k, v) :: t => let '(p, m) := pop_negative t in
                   match ends_m k with Some s => (p, (s, v) :: m) | None => ((k, v) :: p, m) end
  end.
Definition scale_val (r : R) (v : val) : val := match v with Sc x => Sc (x * r) | Vec l => Vec (map (fun x => x * r) l) end.
Definition rect_step (best : option dict) (pv : string * val) : option dict :=
  match best with
  | None => None
  | Some best =>
    let '(p, v) := pv in
    match (if String.eqb p "weight" then
             match get best "weight", get best "a" with
             | Some w, Some (Sc a) => Some (set (set best "weight" (scale_val a w)) "a" (Sc 1), scale_val (-1) v)
             | _, _ => None
             end
           else Some (best, v)) with
    | None => None
    | Some (best, v) => match get best p, v with
                        | Some (Vec l), Vec m => Some (set best p (Vec (l ++ m)))
                        | _, _ => None
                        end
    end
  end.
Definition rectify (best : dict) (pix : list (R * R)) : option (dict * list R) :=
  let '(best, neg) := pop_negative best in
  match psf_prediction pix best with
  | None => None
  | Some model =>
    match neg with
    | [] => Some (best, model)
    | _ =>
      match psf_prediction pix neg, fold_left rect_step neg (Some best) with
      | Some m, Some best => Some (best, map (fun p => fst p - snd p) (combine model m))
      | _, _ => None
      end
    end
  end.

(** convert_psf_data 151-210.  [argsort] is np.argsort.  Every vector must have ngauss elements. *)
Record grow := mkGrow { g_amp : R; g_x : R; g_y : R; g_xx : R; g_yy : R; g_xy : R; g_bin : nat }.
Record pars := mkPars { q_nloc : nat; q_nradii : nat; q_ngauss : nat; q_cells : list (list (list grow)) }.
Definition taken (d : dict) (k : string) (n : nat) (o : list nat) : option (list R) :=
  match get d k with
  | Some (Vec l) => if Nat.eqb (List.length l) n then mapM (nth_error l) o else None
  | _ => None
  end.
Definition conv_row (bin : nat) (os cx cy scale : R) (w x y s1 s2 r : R) : grow :=
  let sf := 1 / os in
  mkGrow (w * scale) ((x - cx) * sf) ((y - cy) * sf) (s1 ^ 2) (s2 ^ 2) (s1 * s2 * r) bin.
Fixpoint conv_rows (bin : nat) (os cx cy scale : R) (w x y s1 s2 r : list R) : list grow :=
  match w, x, y, s1, s2, r with
  | w :: w', x :: x', y :: y', s :: s', t :: t', r :: r' =>
      conv_row bin os cx cy scale w x y s t r :: conv_rows bin os cx cy scale w' x' y' s' t' r'
  | _, _, _, _, _, _ => []
  end.
Definition convert_psf_data (argsort : list R -> list nat) (best : dict) (cx cy : R) (nloc nradii : nat) (os : R) : option (pars * R) :=
  match get best "x", get best "weight", get_default best "a" 1 with
  | Some (Vec bx), Some (Vec bw), Sc scale =>
    let n := List.length bx in
    let o := rev (argsort bw) in
    let sf := 1 / os in
    match taken best "weight" n o, taken best "x" n o, taken best "y" n o, taken best "sx" n o, taken best "rho" n o with
    | Some w, Some x, Some y, Some s0, Some r =>
      let s1 := map (fun s => s * sf) s0 in
      match (match get best "sy" with
             | Some _ => option_map (map (fun s => s * sf)) (taken best "sy" n o)
             | None => match get best "q" with
                       | Some _ => option_map (fun q => map (fun p => fst p * snd p) (combine s1 q)) (taken best "q" n o)
                       | None => None                       (* sy is not defined *)
                       end
             end) with
      | Some s2 =>
        Some (mkPars nloc nradii n
               (repeat (map (fun bin => conv_rows bin os cx cy scale w x y s1 s2 r) (seq 0 nradii)) nloc), scale)
      | None => None
      end
    | _, _, _, _, _ => None
    end
  | _, _, _ => None
  end.

(** package_output 213-251: the groups of the file, by band; the rest of a group is left out.
    A band that is there and overwrite=False leaves [bg] undefined: the file is not changed and
    the call raises (the second component). *)
Record group := mkGroup { b_parameters : list (list grow); b_npsf : nat }.
Definition h5 := list (string * group).
Fixpoint replace_group (f : h5) (band : string) (g : group) : h5 :=
  match f with [] => [(band, g)] | (k, v) :: t => if String.eqb k band then (k, g) :: t else (k, v) :: replace_group t band g end.
Definition package_output (f : h5) (band : string) (p : pars) (overwrite : bool) : h5 * bool :=
  let g := mkGroup (map (@concat grow) (q_cells p)) (q_nradii p * q_ngauss p) in
  match by_name band f with
  | None => (replace_group f band g, true)
  | Some _ => if overwrite then (replace_group f band g, true) else (f, false)
  end.
(** band.upper(), for ASCII letters *)
Definition up (c : ascii) : ascii :=
  let n := nat_of_ascii c in if (Nat.leb 97 n && Nat.leb n 122)%bool then ascii_of_nat (n - 32) else c.
Fixpoint upper (s : string) : string := match s with EmptyString => EmptyString | String c t => String (up c) (upper t) end.
(** combine_psfdatasets 254-270: copying to a name that exists raises *)
Fixpoint copy_groups (out : h5) (src : h5) : option h5 :=
  match src with
  | [] => Some out
  | (k, g) :: t => match by_name (upper k) out with
                   | Some _ => None
                   | None => copy_groups (out ++ [(upper k, g)]) t
                   end
  end.
Fixpoint combine_psfdatasets (out : h5) (files : list h5) : option h5 :=
  match files with
  | [] => Some out
  | f :: t => match copy_groups out f with Some out => combine_psfdatasets out t | None => None end
  end.

(** scale_psf_data 302-316, for a vector of gaussians *)
Definition scale_psf_data (ps : list grow) (cx cy sf : R) : dict :=
  [("weight", Vec (map g_amp ps)); ("x", Vec (map (fun p => g_x p / sf + cx) ps)); ("y", Vec (map (fun p => g_y p / sf + cy) ps));
   ("sx", Vec (map (fun p => sqrt (g_xx p) / sf) ps)); ("sy", Vec (map (fun p => sqrt (g_yy p) / sf) ps));
   ("rho", Vec (map (fun p => g_xy p / sqrt (g_xx p) / sqrt (g_yy p)) ps))]%string.
(** blur_psf_data 319-327 *)
Definition blur_psf_data (blur : R) (ps : list grow) : list grow :=
  map (fun p => mkGrow (g_amp p) (g_x p) (g_y p) (g_xx p + blur ^ 2) (g_yy p + blur ^ 2) (g_xy p) (g_bin p)) ps.
