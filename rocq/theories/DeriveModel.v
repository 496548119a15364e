(** Catalogs made from the results of fits: /repo/forcepho/utils/catalog.py out_dtype
    32-40, append_catalogs 43-59, combine_chains 62-89;
    /repo/forcepho/postprocess.py flux_unc_linear 308-354.

    Simplifications: floats are reals with [None] for nan; a FITS file is its list of
    extensions with a name and table rows (headers are left out); str(float(g)) and the
    pseudo-inverse are arguments; columns that stay zero are left out. *)
From Verif Require Import Np.
From Verif Require BoundsModel CombineModel FitModel.
From Coq Require Import Reals.
From Coq Require DecimalString ListDec.
Open Scope R_scope.

(** ** combine_chains *)
(** A source id: text or integer *)
Inductive ident := Txt (s : string) | Num (z : Z).
(** str(s) *)
Definition text (i : ident) : string :=
  match i with Txt s => s | Num z => DecimalString.NilZero.string_of_int (Z.to_int z) end.
(** == between an element of a python list and a string *)
Definition is_text (i : ident) (s : string) : bool := match i with Txt t => String.eqb t s | Num _ => false end.
(** mid.index(s); ValueError when it is not there *)
Fixpoint index_id (mid : list ident) (s : string) : option nat :=
  match mid with [] => None | i :: t => if is_text i s then Some O else option_map S (index_id t s) end.
(** A row of the chain catalog: one chain per column *)
Record crow := mkRow { r_id : ident; r_cols : list (string * list R) }.
Fixpoint field {A} (cols : list (string * A)) (c : string) : option A :=
  match cols with [] => None | (d, v) :: t => if String.eqb d c then Some v else field t c end.
(** out_dtype 32-40 with shapes ra and dec: the names; None when a name is repeated (ValueError) *)
Definition out_names (npoint : nat) (bands : list string) : option (list string) :=
  let names := ["id"; "source_index"; "wall"; "lnp_best"]%string ++ (if Nat.ltb 3 npoint then ["lnp"%string] else []) ++ bands ++ ["ra"; "dec"]%string in
  if ListDec.NoDup_dec string_dec names then Some names else None.
(** chains.sum(axis=0), for chains of [n] samples *)
Definition sum_chains (n : nat) (chains : list (list R)) : list R :=
  fold_left (fun acc c => map (fun p => fst p + snd p) (combine acc c)) chains (repeat 0 n).
(** chains.mean(axis=0); nan without chains *)
Definition mean_chains (n : nat) (chains : list (list R)) : list (option R) :=
  match chains with [] => repeat None n | _ => map (fun s => Some (s / INR (List.length chains))) (sum_chains n chains) end.
Record orow := mkOut { o_id : string; o_cols : list (string * list (option R)) }.
(** d[k] = v *)
Fixpoint dput (d : list (string * string)) (k v : string) : list (string * string) :=
  match d with [] => [(k, v)] | (k', v') :: t => if String.eqb k k' then (k, v) :: t else (k', v') :: dput t k v end.
(** 75-88 for one group *)
Definition combine_group (ftext : ident -> option string) (n : nat) (rows : list crow) (bands : list string) (g : ident * list ident) : option orow :=
  match ftext (fst g) with
  | None => None
  | Some name =>
    match mapM (index_id (map r_id rows)) (map text (snd g)) with
    | None => None
    | Some inds =>
      match mapM (nth_error rows) inds with
      | None => None
      | Some ms =>
        match mapM (fun b => option_map (fun cs => (b, map Some (sum_chains n cs))) (mapM (fun r => field (r_cols r) b) ms)) bands,
              mapM (fun c => option_map (fun cs => (c, mean_chains n cs)) (mapM (fun r => field (r_cols r) c) ms)) ["ra"; "dec"]%string with
        | Some fl, Some po => Some (mkOut name (fl ++ po))
        | _, _ => None
        end
      end
    end
  end.
Definition combine_chains (ftext : ident -> option string) (rows : list crow) (bands : list string) (groups : list (ident * list ident))
  : option (list orow * list (string * string)) :=
  match rows with
  | [] => None
  | r0 :: _ =>
    match field (r_cols r0) "ra"%string with
    | None => None
    | Some c0 =>
      let n := List.length c0 in
      match out_names n bands with
      | None => None
      | Some _ =>
        match mapM (combine_group ftext n rows bands) groups with
        | None => None
        | Some out => Some (out, fold_left (fun d g => dput d ("G" ++ text (fst g))%string (String.concat "," (map text (snd g)))) groups [])
        end
      end
    end
  end.

(** ** append_catalogs *)
Section Append.
Context {D : Type}.
Record hdu := mkHdu { h_name : string; h_data : option (list D) }.
Definition xtensions : list string := ["MOMENT"; "SAMPLES"; "BEST"; "PERCENTILES"]%string.
(** hdul[ext], the first of that name; KeyError when there is none *)
Definition by_name (f : list hdu) (ext : string) : option hdu := find (fun h => String.eqb (h_name h) ext) f.
(** 51-54: [None] for data that are not there *)
Definition read_ext (f : list hdu) (i : nat) (ext : string) : option (list D) :=
  match by_name f ext with
  | Some h => h_data h
  | None => match nth_error f i with Some h => h_data h | None => None end
  end.
(** 49-55 for one file; line 55 wants a second extension *)
Definition read_file (f : list hdu) : option (list (list D)) :=
  match mapM (fun ie => read_ext f (fst ie) (snd ie)) (combine (seq 0 (List.length xtensions)) xtensions) with
  | Some l => match nth_error f 1 with Some _ => Some l | None => None end
  | None => None
  end.
(** The file written: an empty primary and one named extension for each kind *)
Definition append_catalogs (files : list (list hdu)) : option (list hdu) :=
  match files with
  | [] => None
  | _ =>
    match mapM read_file files with
    | None => None
    | Some ls => Some (mkHdu "PRIMARY" None :: map (fun ie => mkHdu (snd ie) (Some (concat (map (fun l => nth (fst ie) l []) ls)))) (combine (seq 0 (List.length xtensions)) xtensions))
    end
  end.
End Append.
Arguments hdu : clear implicits.

(** ** flux_unc_linear *)
(** What is read from one samples file: source_index of the chain catalog, the bands, the
    fluxes of the final catalog, and the precision matrices if there are any *)
Record patchfile := mkPatch { p_inds : list Z; p_bands : list string; p_final : list (string * list R); p_prec : option (list (list (list R))) }.
(** 334-336 *)
Definition default_unc (flux : list R) : list (option R) :=
  map (fun bf => match bf with
                 | ((Some lo, Some hi), f) => Some (Rmax (Rabs (lo - f)) (Rabs (hi - f)))
                 | _ => None
                 end) (combine (BoundsModel.flux_bounds 1 flux) flux).
Fixpoint set_field {A} (cols : list (string * A)) (c : string) (v : A) : list (string * A) :=
  match cols with [] => [] | (d, w) :: t => if String.eqb d c then (d, v) :: t else (d, w) :: set_field t c v end.
Definition fill_default (final : list (string * list R)) (bandlist : list string) : option (list (string * list (option R))) :=
  fold_left (fun o b => match o with
                        | None => None
                        | Some unc => match field final b with Some f => Some (set_field unc b (default_unc f)) | None => None end
                        end) bandlist (Some (map (fun cv => (fst cv, map (fun _ => Some 0) (snd cv))) final)).
(** 347-352 *)
Definition fill_band (pinv : list (list R) -> list (list R)) (snr_max : R) (p : patchfile) (unc : list (string * list (option R))) (ib : nat * string) : option (list (string * list (option R))) :=
  match field (p_final p) (snd ib), p_prec p with
  | Some flux, Some precs =>
    match nth_error precs (fst ib) with
    | None => None
    | Some P =>
      let sigma := map (fun vf => Rmax (sqrt (fst vf)) (snd vf / snr_max)) (combine (FitModel.diag (pinv P)) flux) in
      match field unc (snd ib) with
      | None => None
      | Some col => option_map (set_field unc (snd ib)) (CombineModel.put_rows col (p_inds p) (map Some sigma))
      end
    end
  | _, _ => None
  end.
Definition fill_patch (pinv : list (list R) -> list (list R)) (snr_max : R) (unc : option (list (string * list (option R)))) (p : patchfile) : option (list (string * list (option R))) :=
  fold_left (fun o ib => match o with None => None | Some unc => fill_band pinv snr_max p unc ib end) (combine (seq 0 (List.length (p_bands p))) (p_bands p)) unc.
Definition flux_unc_linear (pinv : list (list R) -> list (list R)) (snr_max : R) (bandlist : list string) (final : list (string * list R)) (patches : list patchfile)
  : option (list (string * list (option R))) :=
  fold_left (fill_patch pinv snr_max) patches (fill_default final bandlist).
