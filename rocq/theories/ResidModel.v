(** Writing the pixels and residuals of a patch to a file and reading them back:
    /repo/forcepho/utils/io.py write_residuals 54-81, make_imset 84-94;
    /repo/forcepho/patches/patch.py split_pix 469-480;
    /repo/forcepho/postprocess.py Residuals.__init__ 38-43, make_exp 45-53.

    Simplifications: a file is its three header datasets and a table from
    (exposure path, dataset name) to arrays, with the list of groups that exist;
    an exposure path never names a dataset or the inside of one; pixel
    coordinates, stored as floats, are integers. *)
From Verif Require Import Np PackModel CombineModel.
Open Scope nat_scope.

Section Resid.
  (** The type of pixel values and of the per-exposure astrometry arrays *)
  Context {V Mt : Type}.

  (** One array in the file *)
  Inductive dataset := Pixels (l : list V) | Coords (l : list Z) | Meta (m : Mt).

  (** What write_residuals reads of a patch: flat arrays over all pixels, one
      number of pixels per exposure, and arrays with one entry per exposure *)
  Record patch := mkPatch {
    p_epaths : list string; p_bands : list string; p_bandlist : list string; p_ref : Z * Z;
    p_exposure_N : list nat;
    p_data : list V; p_xpix : list Z; p_ypix : list Z; p_ierr : list V;
    p_D : list Mt; p_CW : list Mt; p_crpix : list Mt; p_crval : list Mt }.

  Record file := mkFile {
    f_epaths : list string; f_ebands : list string; f_ref : Z * Z;
    f_groups : list string;
    f_sets : list ((string * string) * dataset) }.

  Definition key_eqb (a b : string * string) : bool := (String.eqb (fst a) (fst b) && String.eqb (snd a) (snd b))%bool.
  Fixpoint find_set (l : list ((string * string) * dataset)) (k : string * string) : option dataset :=
    match l with [] => None | (k', d) :: t => if key_eqb k' k then Some d else find_set t k end.

  (** out[epath], made if it does not exist, io.py 86-89 *)
  Definition need_group (f : file) (g : string) : file :=
    if existsb (String.eqb g) (f_groups f) then f
    else mkFile (f_epaths f) (f_ebands f) (f_ref f) (g :: f_groups f) (f_sets f).

  (** g.create_dataset(name, data): raises if the name is taken *)
  Definition create_dataset (f : file) (g name : string) (d : dataset) : option file :=
    match find_set (f_sets f) (g, name) with
    | Some _ => None
    | None => Some (mkFile (f_epaths f) (f_ebands f) (f_ref f) (f_groups f) (((g, name), d) :: f_sets f))
    end.

  (** make_imset 84-94: every exception of the try block is caught and a line
      printed; but that line itself evaluates arrs[i], so a missing element still
      raises *)
  Fixpoint make_imset (f : file) (paths : list string) (name : string) (arrs : list dataset) : option file :=
    match paths with
    | [] => Some f
    | e :: t =>
        let f := need_group f e in
        match arrs with
        | [] => None
        | d :: ds =>
            let f := match create_dataset f e name d with Some f' => f' | None => f end in
            make_imset f t name ds
        end
    end.

  (** np.split(arr, np.cumsum(self.exposure_N[:-1])), patch.py 479-480 *)
  Definition split_attr {A} (p : patch) (arr : list A) : list (list A) :=
    np_split arr (cumsum (removelast (p_exposure_N p))).

  Definition bind {A B} (o : option A) (k : A -> option B) : option B := match o with Some a => k a | None => None end.

  (** write_residuals 54-81 *)
  Definition write_residuals (p : patch) (residuals : option (list (list V))) : option file :=
    let f := mkFile (p_epaths p) (p_bands p) (p_ref p) [] [] in
    let f := fold_left need_group (p_bandlist p) f in
    bind (match residuals with
          | None => Some f
          | Some r => make_imset f (p_epaths p) "residual" (map Pixels r)
          end) (fun f =>
    bind (make_imset f (p_epaths p) "data" (map Pixels (split_attr p (p_data p)))) (fun f =>
    bind (make_imset f (p_epaths p) "xpix" (map Coords (split_attr p (p_xpix p)))) (fun f =>
    bind (make_imset f (p_epaths p) "ypix" (map Coords (split_attr p (p_ypix p)))) (fun f =>
    bind (make_imset f (p_epaths p) "ierr" (map Pixels (split_attr p (p_ierr p)))) (fun f =>
    bind (make_imset f (p_epaths p) "D" (map Meta (p_D p))) (fun f =>
    bind (make_imset f (p_epaths p) "CW" (map Meta (p_CW p))) (fun f =>
    bind (make_imset f (p_epaths p) "crpix" (map Meta (p_crpix p))) (fun f =>
    make_imset f (p_epaths p) "crval" (map Meta (p_crval p)))))))))).

  (** handle[exp][name] *)
  Definition read (f : file) (exp name : string) : option dataset := find_set (f_sets f) (exp, name).

  (** Residuals.make_exp 45-53 for exposure number [e]; a boolean mask of another
      length than the array raises *)
  Definition make_exp (f : file) (e : nat) (value : string) : option (image V * (Z * Z) * (Z * Z)) :=
    bind (nth_error (f_epaths f) e) (fun exp =>
    match read f exp "xpix", read f exp "ypix", read f exp value with
    | Some (Coords xs), Some (Coords ys), Some (Pixels vs) =>
        if ((List.length xs =? List.length ys) && (List.length xs =? List.length vs))%bool
        then populate_image (zip3 xs ys vs) else None
    | _, _, _ => None
    end).
End Resid.
Arguments dataset : clear implicits.
Arguments patch : clear implicits.
Arguments file : clear implicits.
