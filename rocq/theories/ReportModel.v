(** Reports of a patch and of a chain: /repo/forcepho/postprocess.py Residuals.show 52-76, mark_sources 78-88, show_exp
    564-577, chain_pdf 535-561, check_multipatch 389-397; forcepho/utils/chain.py make_statscat 13-22;
    forcepho/utils/__init__.py Logger 16-31; forcepho/superscene.py overlap_circle 713-728;
    forcepho/fitting.py run_pymc3 502-536.

    Simplifications: floats are reals and nan is [None]; a figure is what it is given; the sampler is an argument;
    image, pixels and populate_image are those of CombineModel, panels those of DemoModel, find_overlaps that of LinkedModel. *)
From Verif Require Import Np.
From Coq Require Import Reals ListDec.
From Verif Require Import QuantModel DemoModel.
From Verif Require CombineModel LinkedModel SuperSceneModel.
Open Scope R_scope.

(** ** Residuals.show 52-76 *)
Definition nan_sub (a b : option R) : option R := match a, b with Some x, Some y => Some (x - y) | _, _ => None end.
(** x.min() and x.max(): nan when one is nan, ValueError ([None]) without values *)
Definition arr_ext (better : R -> R -> R) (l : list (option R)) : option (option R) :=
  match l with [] => None | x :: t => Some (fold_left (fun a b => match a, b with Some u, Some v => Some (better u v) | _, _ => None end) t x) end.
(** Python's min and max: the first argument unless a later one compares before it; nan never does *)
Definition py_min (a b : option R) : option R := match a, b with Some u, Some v => if Rlt_dec v u then b else a | _, _ => a end.
Definition py_max (a b : option R) : option R := match a, b with Some u, Some v => if Rlt_dec u v then b else a | _, _ => a end.
(** One pixel of the file *)
Record rpix := mkRp { p_x : Z; p_y : Z; p_data : option R; p_ierr : R; p_resid : option R }.
Definition model_of (p : rpix) : option R := nan_sub (p_data p) (p_resid p).
(** 64: as it is shown *)
Definition resid_shown (p : rpix) : option R := if Req_EM_T (p_ierr p) 0 then None else p_resid p.
(** 68-69 *)
Definition scale_of (ps : list rpix) : option (option R * option R) :=
  match arr_ext Rmin (map p_data ps), arr_ext Rmin (map model_of ps), arr_ext Rmin (map resid_shown ps),
        arr_ext Rmax (map p_data ps), arr_ext Rmax (map model_of ps), arr_ext Rmax (map resid_shown ps) with
  | Some d, Some m, Some r, Some D, Some M, Some R' => Some (py_min (py_min d m) r, py_max (py_max D M) R')
  | _, _, _, _, _, _ => None
  end.
(** 72-74: the values of the three panels with their pixels, and the limits, those of the caller if given (70) *)
Record shown3 := mkShown { sh_data : list (Z * Z * option R); sh_resid : list (Z * Z * option R); sh_model : list (Z * Z * option R);
  sh_min : option R; sh_max : option R }.
Definition at_pix (f : rpix -> option R) (ps : list rpix) : list (Z * Z * option R) := map (fun p => (p_x p, p_y p, f p)) ps.
Definition show (vmin vmax : option R) (ps : list rpix) : option shown3 :=
  match scale_of ps with
  | None => None
  | Some (lo, hi) => Some (mkShown (at_pix p_data ps) (at_pix resid_shown ps) (at_pix model_of ps)
                       (match vmin with Some v => Some v | None => lo end) (match vmax with Some v => Some v | None => hi end))
  end.
(** show_exp 571-576: imshow(im.T, origin="lower", extent=(lo0, hi0, lo1, hi1)); the middle of cell (i, j) on the axes.
    lo and hi are doubled in populate_image of CombineModel *)
Definition cell_middle {V} (r : CombineModel.image V * (Z * Z) * (Z * Z)) (i j : nat) : R * R :=
  let '(im, lo, hi) := r in
  let at_ (a b : Z) (n k : nat) := IZR a / 2 + (INR k + 1 / 2) * ((IZR b / 2 - IZR a / 2) / INR n) in
  (at_ (fst lo) (fst hi) (CombineModel.nx im) i, at_ (snd lo) (snd hi) (CombineModel.ny im) j).

(** ** mark_sources 78-88: the dictionary in the signature is updated by every call *)
Definition style := list (string * string).
Fixpoint set_key (k v : string) (s : style) : style :=
  match s with [] => [(k, v)] | (k', v') :: t => if String.eqb k k' then (k, v) :: t else (k', v') :: set_key k v t end.
Definition update (s extras : style) : style := fold_left (fun s kv => set_key (fst kv) (snd kv) s) extras s.
Fixpoint get_key (k : string) (s : style) : option string :=
  match s with [] => None | (k', v) :: t => if String.eqb k k' then Some v else get_key k t end.
Definition mark_default : style := [("marker", "x"); ("linestyle", ""); ("color", "red")]%string.
(** The styles of the marks of one call after the other, each call with its extras *)
Fixpoint mark_calls (default : style) (calls : list style) : list style :=
  match calls with [] => [] | e :: t => let s := update default e in s :: mark_calls s t end.

(** ** chain_pdf 535-561 *)
Record chain_page := mkPage { pg_left : list trace_panel; pg_right : list trace_panel; pg_shade : option nat }.
(** max(np.where(tune)[0]): ValueError without any *)
Fixpoint last_true (k : nat) (l : list bool) : option nat :=
  match l with [] => None | b :: t => match last_true (S k) t with Some j => Some j | None => if b then Some k else None end end.
Definition chain_pdf (span : R) (bands shapes : list string) (tune : list bool) (ns : nat) (chain : nat -> string -> option (list R))
    (bounds : option (nat -> string -> option (R * R))) (active : nat -> string -> option R) : option (list chain_page) :=
  mapM (fun i =>
    match last_true 0 tune with
    | None => None
    | Some tuning =>
      let bd := match bounds with Some b => Some (b i) | None => None end in
      match show_chain span (firstn 1 bands) shapes true (Nat.min 7 (Nat.max 7 (List.length bands - 1))) (chain i) bd (Some (active i)),
            show_chain span (skipn 1 bands) shapes false (List.length bands - 1) (chain i) bd (Some (active i)) with
      | Some l, Some r => Some (mkPage l r (if Nat.ltb 1 tuning then Some tuning else None))
      | _, _ => None
      end
    end) (seq 0 ns).

(** ** check_multipatch 389-397: a name that is not there is a NameError when it is reached *)
Definition check_multipatch {S : Type} (bound : string -> bool) (dupes : list S) : option (list S) :=
  mapM (fun s => if bound "vcols"%string then Some s else None) dupes.

(** ** make_statscat 13-22: one dictionary for every iteration, KeyError for a missing key *)
Section Stats.
Context {V : Type}.
Fixpoint stat_of (k : string) (d : list (string * V)) : option V :=
  match d with [] => None | (k', v) :: t => if String.eqb k k' then Some v else stat_of k t end.
Definition make_statscat (names : list string) (stats : list (list (string * V))) : option (list (string * list V)) :=
  mapM (fun c => match mapM (stat_of c) stats with Some col => Some (c, col) | None => None end) names.
End Stats.

(** ** Logger 16-31 *)
Definition info (comments : list (string * string)) (message timetag : string) : list (string * string) := (comments ++ [(message, timetag)])%list.
Definition newline : string := String (Ascii.ascii_of_nat 10) EmptyString.
Definition serialize (comments : list (string * string)) : string := String.concat newline (map fst comments).

(** ** overlap_circle 713-728 *)
Definition overlap_circle (e : LinkedModel.lenv) (lc : LinkedModel.lconfig) (s : SuperSceneModel.state) (ra dec radius : Q) : option (list SuperSceneModel.row) :=
  let center := SuperSceneModel.sky_to_scene (LinkedModel.le e) ra dec in
  match SuperSceneModel.query_ball (LinkedModel.le e) center (radius + SuperSceneModel.boundary_radius (LinkedModel.base lc))%Q with
  | [] => None   (* np.array([]) holds floats and is no index *)
  | _ => match LinkedModel.find_overlaps e lc s center radius None false with
         | Some inds => fancy_get (SuperSceneModel.sourcecat s) inds
         | None => None
         end
  end.

(** ** run_pymc3 502-536 *)
Inductive limit := Scalar (v : option R) | Vec (l : list R).
(** [sample] is the trace for the parameters with their uniform priors, by name *)
Definition run_pymc3 (sample : list (string * (R * R)) -> string -> list R) (pnames : list string) (lower upper : limit) : option (list (list R)) :=
  match lower, upper with
  | Vec l, Vec u =>
    if Nat.eqb (List.length u) (List.length l) && Nat.eqb (List.length l) (List.length pnames) then
      if (if ListDec.NoDup_dec string_dec pnames then true else false) then
        let cols := map (sample (combine pnames (combine l u))) pnames in
        Some (map (fun i => map (fun c => nth i c 0) cols) (seq 0 (List.length (hd [] cols))))
      else None
    else None
  | _, _ => None
  end.
Definition pymc3_defaults : limit * limit := (Scalar None, Scalar None).
