(** Model images of the python likelihood: /repo/forcepho/slow/likelihood.py make_image 85-107,
    WorkPlan.process_pixels 219-237 and WorkPlan.make_image 254-257.  The sources of a stamp are planned as in
    PlanModel; pixels are the grid of StampModel.

    [use_sources] is a slice lo:hi (slice(None) is 0:n with n at least the number of sources).  The keyword
    arguments for compute_gaussian are left at their defaults. *)
From Verif Require Import Np KernelModel SlowModel SceneModel PlanModel StampModel.
From Coq Require Import Reals Arith List Bool.
Import ListNotations.
Open Scope R_scope.

(** The pixels of a new stamp of nx times ny, in flat order; values and errors play no part *)
Definition stamp_pixels (nx ny : nat) : list spixel :=
  map (fun p => mkPix (INR (fst p)) (INR (snd p)) 0 0) (combine (flat (xpix nx ny)) (flat (ypix nx ny))).
Definition rows {A} (lo hi : nat) (l : list A) : list A := firstn (hi - lo) (skipn lo l).
(** residual of shape (nactive + nfixed, npix) after process_pixels: rows of fixed sources stay zero *)
Definition residuals (px : list spixel) (active fixed : list gig) : list (list R) :=
  map (fun gs => map (work_residual gs) px) active ++ map (fun _ => map (fun _ => 0) px) fixed.
(** .sum(axis=0) *)
Definition sum_rows (n : nat) (m : list (list R)) : list R := map (fun k => total (map (fun row => nth k row 0) m)) (seq 0 n).
(** gradients of shape (nactive, 7, npix), here as nactive * 7 rows (the reshape of 105) *)
Definition gradient_rows (px : list spixel) (active : list gig) : list (list R) :=
  flat_map (fun gs => map (fun k => map (fun q => nth k (work_gradients gs q) 0) px) (seq 0 NDERIV)) active.
(** make_image 99-107 for planned sources *)
Definition make_image (nx ny : nat) (active fixed : list gig) (grad_inds : list nat) (lo hi : nat) : option (list (list R) * list (list R)) :=
  let px := stamp_pixels nx ny in
  match reshape nx ny (map Ropp (sum_rows (nx * ny) (rows lo hi (residuals px active fixed)))),
        mapM (nth_error (gradient_rows px (rows lo hi active))) grad_inds with
  | Some im, Some grad => Some (im, grad)
  | _, _ => None
  end.
(** WorkPlan.make_image 254-257 *)
Definition plan_image (nx ny : nat) (active fixed : list gig) (lo hi : nat) : option (list (list R)) :=
  reshape nx ny (sum_rows (nx * ny) (rows lo hi (residuals (stamp_pixels nx ny) active fixed))).
(** 99-107 from the scene *)
Definition scene_image (gal_radii : list R) (amps dan dar : R -> R -> list R) (simple_radii : list R) (qf paf : R -> R -> R)
  (p : plan) (nx ny : nat) (scene : list (source R)) (lo hi : nat) : option (list (list R) * list (list R)) :=
  match plan_sources gal_radii amps dan dar simple_radii qf paf p scene with
  | Some (active, fixed, _, grad_inds) => make_image nx ny active fixed grad_inds lo hi
  | None => None
  end.
