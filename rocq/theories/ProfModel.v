(** Profiles and diagnostics of mixtures of Gaussians: /repo/forcepho/mixtures/sersic_mix_oned.py sersic_profile 132-164,
    normal 176-187, rfrac_from_halfn 239-245, plot_cfd 248-269 (the curve of the Sersic profile), amplitude_table 282-305;
    utils_hmc.py infer 18-81, display 109-147 (the residual), ee_plot 183-214, draw_ellipses 217-248; utils_em.py
    draw_ellipses 184-208.  chisq, normal_oned, gauss_cfd and fit_profiles are in MogModel, psf_prediction in WeightModel.

    Simplifications: floats are reals; scipy's gamma functions and hypergeometric function, numpyro's sampler and
    numpy's eigenvectors are arguments; matplotlib is what it is given; colours and axis limits are not modelled. *)
From Verif Require Import Np.
From Coq Require Import Reals.
From Verif Require Import CornerModel.
Open Scope R_scope.

(** ** The Sersic profile, 132-164 *)
(** x ** a for x >= 0 and a > 0 *)
Definition power (x a : R) : R := if Rlt_dec 0 x then Rpower x a else 0.
Section Sersic.
(** gammaincinv(a, p) and gammainc(a, x) *)
Variable ginv ginc : R -> R -> R.
(** 135-136 *)
Definition r0_of (n rh : R) : R := rh / power (ginv (2 * n) (1 / 2)) n.
(** 138-139 *)
Definition sersic_plain (n rh x : R) : R := exp (- power (x / r0_of n rh) (1 / n) + ginv (2 * n) (1 / 2)).
(** 141-164 at one radius; [series] the truncated series of 146-158 times its factors, [None] when it is not finite *)
Definition sersic_profile (series : R -> R -> R -> R -> option R) (n rh sigma x : R) : R :=
  if Rle_dec sigma 0 then sersic_plain n rh x
  else
    let s := sersic_plain n rh x in
    if Rlt_dec x (sigma * 15) then
      match series n rh sigma x with
      | None => s
      | Some v => if Rlt_dec (3 / 2 * v) s then (if Rlt_dec sigma x then s else v) else v
      end
    else s.
(** rfrac_from_halfn 239-245; the inverse is infinite at one: [None], as for the assertion *)
Definition rfrac_from_halfn (frac n rh : R) : option R :=
  if Rlt_dec frac 1 then Some (r0_of n rh * power (ginv (2 * n) frac) n) else None.
(** plot_cfd 249-251 *)
Definition cfd_sersic (n rh x : R) : R := ginc (2 * n) (power (x / rh) (1 / n) * ginv (2 * n) (1 / 2)).
End Sersic.
(** normal 176-187 for one point and a symmetric matrix *)
Definition normal_at (sxx sxy syy x y : R) : R :=
  let det := sxx * syy - sxy * sxy in
  exp (- (1 / 2) * (x * (syy / det * x - sxy / det * y) + y * (- sxy / det * x + sxx / det * y))) / sqrt (2 * PI * det).

(** ** The table of amplitudes, 282-305 *)
(** The digits of '{:3.1f}': tenths *)
Definition tenths (r : R) : Z := round_even (10 * r).
Definition table_columns (radii : list R) : list Z := map tenths radii.
Definition table_row (n rh : R) (a : list R) : list R := [n; rh] ++ map (fun v => v / sumr a) a.

(** ** The best sample, utils_hmc.py infer 42-55; samples of each parameter by name, with the negative logarithm of the
    posterior of each sample *)
Fixpoint argmin_from (best : nat) (v : R) (i : nat) (l : list R) : nat :=
  match l with [] => best | x :: t => if Rlt_dec x v then argmin_from i x (S i) t else argmin_from best v (S i) t end.
Definition argmin (l : list R) : option nat := match l with [] => None | x :: t => Some (argmin_from 0 x 1 t) end.
Definition infer {V : Type} (hmc : bool) (samples : list (string * list V)) (nlnp : list R) : option (list (string * V)) :=
  if hmc then
    match argmin nlnp with
    | None => None
    | Some k => mapM (fun s => match nth_error (snd s) k with Some v => Some (fst s, v) | None => None end) samples
    end
  else None.

(** ** Enclosed light, 183-214 *)
Definition radius (cx cy : R) (p : R * R) : R := sqrt ((fst p - cx) ^ 2 + (snd p - cy) ^ 2).
(** np.linspace for two points or more *)
Definition linspace (a b : R) (n : nat) : list R := map (fun k => a + INR k * ((b - a) / INR (n - 1))) (seq 0 n).
Fixpoint cumsum_ (acc : R) (l : list R) : list R := match l with [] => [] | x :: t => (acc + x) :: cumsum_ (acc + x) t end.
(** The radii and the two curves; np.histogram raises for decreasing edges *)
Definition ee_plot (pix : list (R * R)) (data model : list R) (nx cx cy : R) (n : nat) (renormalize : bool) : option (list R * list R * list R) :=
  let r := map (radius cx cy) pix in
  let dt := sumr (map (fun p => if Rlt_dec (fst p) (nx / 2) then snd p else 0) (combine r data)) in
  match r with
  | [] => None
  | _ =>
    let lo := minimum r in let hi := maximum r / (14 / 10) in
    if Rlt_dec hi lo then None
    else
      let rr := linspace lo hi n in
      match histogram rr r (Some data), histogram rr r (Some model) with
      | Some hd_, Some hm =>
        let scale := fun l => if renormalize then map (fun v => v / dt) l else l in
        Some (rr, scale (cumsum_ 0 hd_), scale (cumsum_ 0 hm))
      | _, _ => None
      end
  end.
(** display 138: the residual in percent of the brightest pixel *)
Definition display_chi (model data : list R) : list R := map (fun p => (fst p - snd p) / (maximum data * (1 / 100))) (combine model data).

(** ** Ellipses *)
Record ellipse := mkEllipse { e_x : R; e_y : R; e_w : R; e_h : R; e_cos : R; e_sin : R }.
(** The eigenvalues and the first eigenvector of [[a, b], [b, c]] *)
Definition eigen := R -> R -> R -> (R * R) * (R * R).
(** 235-240: the angle by its cosine and sine, those of the first eigenvector *)
Definition ellipse_of (eig : eigen) (mx my sx sy rho : R) : ellipse :=
  let '((l0, l1), (v0, v1)) := eig (sx ^ 2) (rho * sx * sy) (sy ^ 2) in
  let len := sqrt (v0 ^ 2 + v1 ^ 2) in
  mkEllipse mx my (2 * sqrt l0) (2 * sqrt l1) (v0 / len) (v1 / len).
(** utils_hmc.py 226-243, with "sy" among the parameters or with "q" *)
Definition draw_hmc (eig : eigen) (x y sx : R) (sy q : option R) (rho : R) : option ellipse :=
  let s2 := sx in
  match (match sy with Some s => Some s | None => match q with Some q => Some (sx * q) | None => None end end) with
  | Some s1 => Some (ellipse_of eig x y s1 s2 rho)
  | None => None
  end.
(** utils_em.py 191-204: a row of parameters is amplitude, the two means, the two dispersions, correlation *)
Definition draw_em (eig : eigen) (row : list R) : option ellipse :=
  match row with
  | [a; m0; m1; s0; s1; rho] => Some (ellipse_of eig m1 m0 s1 s0 rho)
  | _ => None
  end.
(** The boundary matplotlib draws *)
Definition boundary (e : ellipse) (t : R) : R * R :=
  let u := e_w e / 2 * cos t in let v := e_h e / 2 * sin t in
  (e_x e + u * e_cos e - v * e_sin e, e_y e + u * e_sin e + v * e_cos e).
