(** Pictures and region files of a run: /repo/forcepho/postprocess.py write_images
    440-494, write_patchreg 424-437, residual_pdf 497-532 (which patches are on which page).

    Simplifications: images and fill_images as in CombineModel; numbers are rationals and a cell
    is [None] for NaN; a FITS file is its array, whether it got the exposure's header, and IMTYPE; the
    other header cards, plotting and the format of the region file are left out. *)
From Verif Require Import Np CombineModel.
From Coq Require Import Ascii.
Open Scope nat_scope.

(** ** File names *)
(** n.split("/")[-1] *)
Fixpoint has_slash (s : string) : bool :=
  match s with EmptyString => false | String c t => (Ascii.eqb c "/" || has_slash t)%bool end.
Fixpoint last_part (s : string) : string :=
  match s with
  | EmptyString => EmptyString
  | String c t => if has_slash t then last_part t else if Ascii.eqb c "/" then t else s
  end.
(** s.replace(".fits", ""): all occurrences from the left; [skip] characters of the current one remain *)
Fixpoint strip (skip : nat) (s : string) : string :=
  match s with
  | EmptyString => EmptyString
  | String c t =>
    match skip with
    | S k => strip k t
    | O => if prefix ".fits" s then strip 4 t else String c (strip 0 t)
    end
  end.
(** 470 *)
Definition exp_name (n : string) : string := strip 0 (last_part n).
(** f"{root}/{subdir}/{exp}_{stype}.fits", 494 *)
Definition out_file (root subdir n stype : string) : string :=
  (root ++ "/" ++ subdir ++ "/" ++ exp_name n ++ "_" ++ stype ++ ".fits")%string.

(** ** write_images 440-494 *)
(** One exposure in a residuals file *)
Record rexp := mkRexp { r_name : string; r_xs : list Z; r_ys : list Z; r_resid : list Q; r_data : list Q; r_ierr : list Q }.
(** self.handle[e][fill_type] *)
Definition typed (get : rexp -> list Q) (x : rexp) : exposure Q := mkExp (r_name x) (r_xs x) (r_ys x) (get x).
(** The three dictionaries of 461-466, filled patch by patch *)
Record dicts := mkDicts { deltas : images Q; datas : images Q; ierrs : images Q }.
Definition fill_three (hdr : string -> option (nat * nat)) (st : option dicts) (p : list rexp) : option dicts :=
  match st with
  | None => None
  | Some d =>
    match fill_images hdr (2048, 2048) (deltas d) (map (typed r_resid) p) with
    | None => None
    | Some de =>
      match fill_images hdr (2048, 2048) (datas d) (map (typed r_data) p) with
      | None => None
      | Some da => match fill_images hdr (2048, 2048) (ierrs d) (map (typed r_ierr) p) with
                   | None => None
                   | Some ie => Some (mkDicts de da ie)
                   end
      end
    end
  end.
(** Cell by cell; NaN if either is *)
Definition lift2 (f : Q -> Q -> Q) (a b : option Q) : option Q := match a, b with Some x, Some y => Some (f x y) | _, _ => None end.
Definition pointwise (f : Q -> Q -> Q) (a b : image Q) : option (image Q) :=
  if ((nx a =? nx b) && (ny a =? ny b))%bool then
    Some (mkImage (nx a) (ny a) (map (fun rs => map (fun vs => lift2 f (fst vs) (snd vs)) (combine (fst rs) (snd rs))) (combine (cells a) (cells b))))
  else None.
(** s.T, as rows *)
Definition transpose (a : image Q) : list (list (option Q)) :=
  map (fun j => map (fun i => nth j (nth i (cells a) []) None) (seq 0 (nx a))) (seq 0 (ny a)).
Record hdu := mkHdu { h_rows : list (list (option Q)); h_header : bool; h_imtype : string }.
Definition disk := list (string * hdu).
(** writeto(overwrite=True) *)
Fixpoint put (d : disk) (f : string) (h : hdu) : disk :=
  match d with [] => [(f, h)] | (g, k) :: t => if String.eqb g f then (g, h) :: t else (g, k) :: put t f h end.
Fixpoint on_disk (d : disk) (f : string) : option hdu :=
  match d with [] => None | (g, h) :: t => if String.eqb g f then Some h else on_disk t f end.
(** stype.upper() for the four types *)
Definition imtype (stype : string) : string :=
  if String.eqb stype "data" then "DATA" else if String.eqb stype "delta" then "DELTA"
  else if String.eqb stype "model" then "MODEL" else "CHI".
(** 481-494 for one image; the assertions 488-490: the array written is s.T, of NAXIS1 = nx and NAXIS2 = ny *)
Definition write_one (root subdir : string) (hdr : string -> option (nat * nat)) (n : string) (d : disk) (show : string * option (image Q)) : option disk :=
  match snd show with
  | None => Some d
  | Some im =>
    let go := Some (put d (out_file root subdir n (fst show)) (mkHdu (transpose im) (match hdr n with Some _ => true | None => false end) (imtype (fst show)))) in
    match hdr n with
    | None => go
    | Some (n1, n2) => if ((nx im =? n1) && (ny im =? n2))%bool then go else None
    end
  end.
Fixpoint write_shown (root subdir : string) (hdr : string -> option (nat * nat)) (n : string) (d : disk) (show : list (string * option (image Q))) : option disk :=
  match show with
  | [] => Some d
  | s :: t => match write_one root subdir hdr n d s with Some d => write_shown root subdir hdr n d t | None => None end
  end.
(** 469-480 *)
Definition write_exposure (root subdir : string) (hdr : string -> option (nat * nat)) (show_model show_chi : bool) (ds : dicts) (d : disk) (n : string) : option disk :=
  match look (datas ds) n, look (deltas ds) n with
  | Some da, Some de =>
    match (if show_model then option_map Some (pointwise Qminus da de) else Some None),
          (if show_chi then match look (ierrs ds) n with Some ie => option_map Some (pointwise Qmult de ie) | None => None end else Some None) with
    | Some model, Some chi =>
      write_shown root subdir hdr n d [("data", Some da); ("delta", Some de); ("model", model); ("chi", chi)]%string
    | _, _ => None
    end
  | _, _ => None
  end.
Fixpoint write_all (root subdir : string) (hdr : string -> option (nat * nat)) (show_model show_chi : bool) (ds : dicts) (d : disk) (names : list string) : option disk :=
  match names with
  | [] => Some d
  | n :: t => match write_exposure root subdir hdr show_model show_chi ds d n with Some d => write_all root subdir hdr show_model show_chi ds d t | None => None end
  end.
(** The whole: [files] are the residual files in sorted order (at least one, 446); [hdr] the headers of the
    metastore or of existing image files; [d] what is on disk before. *)
Definition write_images (root subdir : string) (hdr : string -> option (nat * nat)) (show_model show_chi : bool) (files : list (list rexp)) (d : disk) : option disk :=
  match files with
  | [] => None
  | _ =>
    match fold_left (fill_three hdr) files (Some (mkDicts [] [] [])) with
    | None => None
    | Some ds => write_all root subdir hdr show_model show_chi ds d (map fst (datas ds))
    end
  end.

(** ** write_patchreg 424-437 *)
(** list.sort() on strings: by code points, and stable *)
Fixpoint insert_str (s : string) (l : list string) : list string :=
  match l with [] => [s] | t :: r => if String.leb s t then s :: l else t :: insert_str s r end.
Fixpoint sort_str (l : list string) : list string := match l with [] => [] | s :: t => insert_str s (sort_str t) end.
Inductive aregion := Circle (ra dec radius : Q) | Other.
(** One line of the file: the circle and the text beside it *)
Definition patch_line := (Q * Q * Q * nat)%type.
Fixpoint patch_lines (read : string -> option aregion) (i : nat) (l : list string) : option (list patch_line) :=
  match l with
  | [] => Some []
  | p :: t =>
    match read p with
    | Some (Circle ra dec radius) => option_map (cons (ra, dec, radius, i)) (patch_lines read (S i) t)
    | _ => None                                  (* no such file, or no attribute radius *)
    end
  end.
(** The caller's list afterwards (sorted in place, 429) and the lines, if all went well *)
Definition write_patchreg (read : string -> option aregion) (patchlist : list string) : list string * option (list patch_line) :=
  (sort_str patchlist, patch_lines read 0 (sort_str patchlist)).

(** ** residual_pdf 497-532: the pages, each the list of the patch numbers shown *)
Definition pages (npatch n : nat) : option (list (list nat)) :=
  if n =? 0 then None else Some (map (fun j => firstn n (skipn (n * j) (seq 0 npatch))) (seq 0 (npatch / n))).
