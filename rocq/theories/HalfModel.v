(** The half-light radius of a fitted scene, measured on its rendered image:
    /repo/forcepho/postprocess.py combined_rhalf 590-608, forcepho_slow_model 611-641.

    Simplifications: floats are reals; np.argsort, whose order of equal numbers is not
    specified, is an argument; the splined amplitudes of a Galaxy and their derivatives
    (sources.py 625-697) are functions of sersic and rhalf; a catalog row has the shape
    columns and its fluxes by band; [samples] are the catalogs get_sample_cat gives for
    the iterations of the chain (C35), as many as the chain is long; at most all of them
    are kept (fitting.py 128); an exception is [None]. *)
From Coq Require Import Reals List String Bool Arith.
From Verif Require Import Np KernelModel SlowModel QuantModel.
Import ListNotations.
Open Scope R_scope.

Record frow := mkF { f_ra : R; f_dec : R; f_q : R; f_pa : R; f_sersic : R; f_rhalf : R; f_flux : list (string * R) }.
(** PostageStamp, slow/stamp.py 15-63: size, band name, and what the renderer uses *)
Record canvas := mkCanvas { cv_nx : nat; cv_ny : nat; cv_filter : string; cv_stamp : stamp }.
(** xpix, ypix flattened, stamp.py 62-63 *)
Definition grid (nx ny : nat) : list (R * R) := flat_map (fun i => map (fun j => (INR i, INR j)) (seq 0 ny)) (seq 0 nx).
(** PointSpreadFunction(), slow/psf.py 26-31 *)
Definition plain_psf : slow_psf := [(1, (0, 0), M22 1 0 0 1)].
(** [stamp.psf = psf], postprocess.py 622-624 *)
Definition with_psf (st : stamp) (p : slow_psf) : stamp := mkStamp (scale st) (dpix_dsky st) (st_crpix st) (st_crval st) (photocounts st) p.
Definition set_psf (cv : canvas) (p : option slow_psf) : canvas :=
  mkCanvas (cv_nx cv) (cv_ny cv) (cv_filter cv) (with_psf (cv_stamp cv) (match p with Some p => p | None => plain_psf end)).

Section Half.
Context (radii : list R) (amps dan dar : R -> R -> list R) (argsort : list R -> list nat).

(** Galaxy(...) and from_catalog_row(row, filternames=[band]), 631-633, sources.py 458-468 *)
Definition galaxy (row : frow) (band : string) : option slow_source :=
  match find (fun p => String.eqb (fst p) band) (f_flux row) with
  | Some (_, v) => Some (mkSS (f_ra row) (f_dec row) (f_q row) (f_pa row) v radii
      (amps (f_sersic row) (f_rhalf row)) (dan (f_sersic row) (f_rhalf row)) (dar (f_sersic row) (f_rhalf row)))
  | None => None
  end.
(** stamp.render(galaxy, compute_deriv=False), 638; the galaxy has the one band, and the
    renderer looks up the band of the stamp (gaussmodel.py 104), which raises if it is another *)
Definition render (cv : canvas) (band : string) (g : slow_source) : option (list R) :=
  if String.eqb (cv_filter cv) band then
    Some (map (fun p => fst (slow_render g (cv_stamp cv) (fst p) (snd p))) (grid (cv_nx cv) (cv_ny cv)))
  else None.
Fixpoint render_all (cv : canvas) (band : string) (cat : list frow) (im : list R) : option (list R * list slow_source) :=
  match cat with
  | [] => Some (im, [])
  | row :: cat =>
    match galaxy row band with
    | None => None
    | Some g =>
      match render cv band g with
      | None => None
      | Some i => match render_all cv band cat (map (fun p => fst p + snd p) (combine im i)) with
                  | Some (im', scene) => Some (im', g :: scene)
                  | None => None
                  end
      end
    end
  end.
(** forcepho_slow_model 611-641: the answer, and the stamp afterwards *)
Definition forcepho_slow_model (cat : list frow) (cv : canvas) (band : string) (psf : option slow_psf)
    : option (list R * list slow_source) * canvas :=
  let cv := set_psf cv psf in
  (render_all cv band cat (repeat 0 (cv_nx cv * cv_ny cv)), cv).

(** 601-606; [None]: nan *)
Definition sum_list (l : list R) : R := fold_right Rplus 0 l.
Definition weigh (w l : list R) : R := sum_list (map (fun p => fst p * snd p) (combine w l)).
Definition half_radius (xy : list (R * R)) (im : list R) : option R :=
  let tot := sum_list im in
  if Req_EM_T tot 0 then None else
  let x := weigh (map fst xy) im / tot in
  let y := weigh (map snd xy) im / tot in
  let r := map (fun p => sqrt ((fst p - x) ^ 2 + (snd p - y) ^ 2)) xy in
  let oo := argsort r in
  let fo := map (fun v => v / tot) (cumsum_from 0 (take im oo)) in
  interp (1 / 2) (combine fo (take r oo)).

(** range(start, stop, step), step positive *)
Definition range (start stop step : nat) : list nat := map (fun k => (start + k * step)%nat) (seq 0 ((stop - start + (step - 1)) / step)).
(** combined_rhalf 590-608; [sources] is the selection by a slice *)
Fixpoint rhalf_loop (samples : list (list frow)) (cv : canvas) (band : string) (sources : list frow -> list frow) (inds : list nat)
    : option (list (option R)) * canvas :=
  match inds with
  | [] => (Some [], cv)
  | i :: inds =>
    match nth_error samples i with
    | None => (None, cv)
    | Some cat =>
      let '(ans, cv) := forcepho_slow_model (sources cat) cv band None in
      match ans with
      | None => (None, cv)
      | Some (im, _) => let '(rest, cv') := rhalf_loop samples cv band sources inds in
                        (option_map (cons (half_radius (grid (cv_nx cv) (cv_ny cv)) im)) rest, cv')
      end
    end
  end.
Definition combined_rhalf (samples : list (list frow)) (n_sample : nat) (cv : canvas) (band : string) (sources : list frow -> list frow) (step : nat)
    : option (list (option R)) * canvas :=
  let stop := List.length samples in
  let start := (stop - n_sample)%nat in
  match step with O => (None, cv) | S _ => rhalf_loop samples cv band sources (range start stop step) end.
End Half.
