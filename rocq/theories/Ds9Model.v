(** Catalogs handed to and taken from other tools: /repo/forcepho/utils/ds9.py 17-61
    (cat_to_regions, annotate_regions), /repo/forcepho/postprocess.py 400-423
    (write_sourcereg) and /repo/forcepho/utils/catalog.py 151-169 (rectify_jades).

    Simplifications: floats are reals; a row of a catalog has the columns read here;
    an error is [None]; a width or height that is an infinity (division by an axis
    ratio of zero) is an error; the isophotal radii (postprocess.py 415-417) are an
    argument, one per row, [None] for nan (their formula is in ProfileModel.v);
    the FITS files are lists of rows. *)
From Coq Require Import Reals List String Bool.
From Verif Require Import Np.
Import ListNotations.
Open Scope R_scope.

(** The columns of a catalog used by the functions below *)
Record crow := mkRow { c_id : string; c_ra : R; c_dec : R; c_q : R; c_pa : R; c_rhalf : R; c_roi : R }.

(** regions.EllipseSkyRegion as built at ds9.py 40-41, with its meta["text"] and
    visual["color"] set at 58-60. Width and height are in arcsec, the angle in degrees. *)
Record ellipse_region := mkEll {
  e_ra : R; e_dec : R; e_width : R; e_height : R; e_angle : R; e_text : option string; e_color : option string }.

(** annotate_regions, ds9.py 51-61: [ids] and [colors] are indexed by the number of
    the region, an IndexError when there are too few of them *)
Definition annotate1 (ids colors : option (list string)) (i : nat) (r : ellipse_region) : option ellipse_region :=
  match (match ids with None => Some (e_text r) | Some l => option_map Some (nth_error l i) end),
        (match colors with None => Some "green"%string | Some l => nth_error l i end) with
  | Some t, Some c => Some (mkEll (e_ra r) (e_dec r) (e_width r) (e_height r) (e_angle r) t (Some c))
  | _, _ => None
  end.
Fixpoint annotate_from (ids colors : option (list string)) (i : nat) (rs : list ellipse_region) : option (list ellipse_region) :=
  match rs with
  | [] => Some []
  | r :: rs => match annotate1 ids colors i r with
               | Some r' => option_map (cons r') (annotate_from ids colors (S i) rs)
               | None => None
               end
  end.
Definition annotate_regions (rs : list ellipse_region) (ids colors : option (list string)) : option (list ellipse_region) :=
  annotate_from ids colors 0 rs.

(** One turn of the loop of cat_to_regions, ds9.py 28-42; [rad] is roi[i] *)
Definition region_of (ellipse : bool) (rad : R) (row : crow) : option ellipse_region :=
  let sqrtq := if ellipse then c_q row else 1 in
  let pa := if ellipse then 90 - c_pa row * (180 / PI) else 0 in
  if Req_EM_T sqrtq 0 then None
  else Some (mkEll (c_ra row) (c_dec row) (rad / sqrtq) (sqrtq * rad) pa None None).
Fixpoint regions_from (ellipse : bool) (roi : list R) (i : nat) (cat : list crow) : option (list ellipse_region) :=
  match cat with
  | [] => Some []
  | row :: cat => match nth_error roi i with
                  | Some rad => match region_of ellipse rad row with
                                | Some r => option_map (cons r) (regions_from ellipse roi (S i) cat)
                                | None => None
                                end
                  | None => None
                  end
  end.
(** cat_to_regions, ds9.py 17-48 *)
Definition cat_to_regions (cat : list crow) (roi : option (list R)) (ellipse showid : bool) : option (list ellipse_region) :=
  let roi := match roi with Some l => l | None => map c_roi cat end in
  match regions_from ellipse roi 0 cat with
  | Some rs => if showid then annotate_regions rs (Some (map c_id cat)) None else Some rs
  | None => None
  end.

(** The names bound at the top of postprocess.py (4-19 and its definitions) and of
    catalog.py (3-12 and its definitions), besides Python's own *)
Definition postprocess_names : list string :=
  ["os"; "glob"; "np"; "pl"; "PdfPages"; "json"; "fits"; "h5py"; "Result"; "sky_to_pix"; "populate_image"; "isophotal_radius";
   "MetaStore"; "flux_bounds"; "Residuals"; "Samples"; "run_metadata"; "postop_catalog"; "postsample_catalog"; "flux_unc_linear";
   "find_multipatch"; "check_multipatch"; "write_sourcereg"; "write_patchreg"; "write_images"; "residual_pdf"; "chain_pdf";
   "show_exp"; "show_precision"; "combined_rhalf"; "forcepho_slow_model"]%string.
Definition catalog_names : list string :=
  ["os"; "np"; "fits"; "SHAPES"; "write_table"; "out_dtype"; "append_catalogs"; "combine_chains"; "pctile_cat"; "rectify_jades"]%string.
Definition bound (names : list string) (n : string) : bool := existsb (String.eqb n) names.

(** write_sourcereg, postprocess.py 400-423. [outscenes] are the catalogs matched by the
    glob at 409, [radii] the isophotal radii when an isophote is given. The result is the
    answer (or the exception) and what has been done to the disk by then. *)
Inductive disk_op := MakeDir (d : string) | WriteRegions (path : string) (rs : list ellipse_region).
Definition write_sourcereg (names : list string) (root slist : string) (showid : bool) (outscenes : list (list crow))
    (radii : option (list (option R))) : option (list ellipse_region) * list disk_op :=
  match outscenes with
  | [] => (None, [])
  | cat :: _ =>
    let mk := MakeDir (root ++ "/image")%string in
    let roi := match radii with
               | Some l => map (fun p => match fst p with Some r => r | None => c_rhalf (snd p) end) (combine l cat)
               | None => map c_rhalf cat
               end in
    if bound names "cat_to_reg" then
      match cat_to_regions cat (Some roi) true true with
      | Some rs => (Some rs, [mk; WriteRegions slist rs])
      | None => (None, [mk])
      end
    else (None, [mk])
  end.

(** rectify_jades, catalog.py 151-169, for one row of the table: semi-axes A and B in
    pixels, position angle PA in degrees from north to east; the structured array is
    made from sourcecat_dtype *)
Record jrow := mkJ { j_id : string; j_ra : R; j_dec : R; j_A : R; j_B : R; j_PA : R }.
Definition rectified (pixscale : R) (t : jrow) : crow :=
  let pa := PI - j_PA t * (PI / 180) in
  let sqrtq := sqrt (j_A t / j_B t) in
  let rhalf := j_A t * sqrtq * pixscale in
  mkRow (j_id t) (j_ra t) (j_dec t) sqrtq pa rhalf 0.
Definition rectify_jades (names : list string) (pixscale : R) (table : list jrow) : option (list crow) :=
  if bound names "sourcecat_dtype" then Some (map (rectified pixscale) table) else None.
