(** Linear flux optimisation: fitting.py (optimize_one_band 573-594, optimize_fluxes
    597-627) and patches/device_patch.py (design_matrix 185-238).

    Simplifications: floats are reals; arrays of pixels are lists; np.linalg.solve is an
    arbitrary function ([None] for LinAlgError); a division of the model by a zero flux,
    which fills the row with NaN, is [None]. *)
From Verif Require Import Np PackModel KernelModel DeviceModel.
From Coq Require Import Reals.
Open Scope R_scope.
Open Scope nat_scope.

(** Elementwise product and difference, np.dot *)
Definition vmul (a b : list R) : list R := map (fun ab => (fst ab * snd ab)%R) (combine a b).
Definition vsub (a b : list R) : list R := map (fun ab => (fst ab - snd ab)%R) (combine a b).
Definition dot (a b : list R) : R := fold_right Rplus 0%R (vmul a b).

Section Solver.
Variable linalg_solve : list (list R) -> list R -> option (list R).

(** optimize_one_band 588-594; [fixedX] is the scalar 0 or one image *)
Definition optimize_one_band (X : list (list R)) (w y : list R) (fixedX : option (list R)) : option (list R * list (list R)) :=
  let Xp := map (fun row => vmul row w) X in
  let yp := vmul (match fixedX with Some f => vsub y f | None => y end) w in
  let ATA := map (fun r => map (dot r) Xp) Xp in
  let Xyp := map (fun r => dot r yp) Xp in
  match linalg_solve ATA Xyp with Some flux => Some (flux, ATA) | None => None end.

(** One turn of the loop of design_matrix, 222-236: the rows of all bands for one
    source.  The scene object is new (set_scene, 212). *)
Definition design_row (E : env) (gpu : bool) (sp : option spline) (y : list R) (st : state) (row : catrow) : option (state * list (list R)) :=
  match set_scene (bandlist (pk E)) (splinedata E) sp [row] with
  | None => None
  | Some sc0 =>
    match pack_meta E sc0 with
    | None => None
    | Some (ref, sc, m) =>
      match replace_meta (set_meta ref m st) with
      | None => None
      | Some st =>
        match send_patchstruct gpu st with
        | None => None
        | Some st =>
          match evaluate E gpu st (get_proposal sc) with
          | Some (st, (_, _, Some residual)) =>
            let split := split_band (pk E) (vsub y residual) in
            match mapM (fun jb => match nth_error split (fst jb), c_flux row (snd jb) with
                                  | Some part, Some f => if Req_EM_T f 0 then None else Some (map (fun v => (v / f)%R) part)
                                  | _, _ => None
                                  end) (combine (seq 0 (List.length (bandlist (pk E)))) (bandlist (pk E))) with
            | Some rows => Some (st, rows)
            | None => None
            end
          | _ => None
          end
        end
      end
    end
  end.
Fixpoint design_loop (E : env) (gpu : bool) (sp : option spline) (y : list R) (st : state) (active : list catrow) : option (state * list (list (list R))) :=
  match active with
  | [] => Some (st, [])
  | row :: t =>
    match design_row E gpu sp y st row with
    | None => None
    | Some (st, r) => match design_loop E gpu sp y st t with Some (st, rs) => Some (st, r :: rs) | None => None end
    end
  end.
(** design_matrix 207-238: per band, one row per source; the data per band *)
Definition design_matrix (E : env) (gpu : bool) (st : state) (active : list catrow) (sp : option spline)
  : option (state * list (list (list R)) * list (list R)) :=
  match retrieve_data gpu st with
  | None => None
  | Some y =>
    match design_loop E gpu sp y (set_return_residual true st) active with
    | None => None
    | Some (st, rows) =>
      Some (st, map (fun j => map (fun r => nth j r []) rows) (seq 0 (List.length (bandlist (pk E)))), split_band (pk E) y)
    end
  end.
(** optimize_fluxes 613-627.  On LinAlgError it returns another tuple: [inr] of the
    band number. *)
Fixpoint optimize_bands (i : nat) (wXy : list (list R * list (list R) * list R)) : (list (list R) * list (list (list R))) + nat :=
  match wXy with
  | [] => inl ([], [])
  | (w, X, y) :: t =>
    match optimize_one_band X w y None with
    | None => inr i
    | Some (flux, precision) =>
      match optimize_bands (S i) t with
      | inl (fs, ps) => inl (flux :: fs, precision :: ps)
      | inr j => inr j
      end
    end
  end.
Definition optimize_fluxes (E : env) (gpu : bool) (st : state) (active : list catrow)
  : option (state * ((list (list R) * list (list (list R))) + nat)) :=
  match design_matrix E gpu st active None with
  | None => None
  | Some (st, Xes, ys) => Some (st, optimize_bands 0 (combine (combine (split_band (pk E) (pk_ierr (pk E))) Xes) ys))
  end.
End Solver.
