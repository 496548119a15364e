(** Gaussian mixtures for Sersic profiles: /repo/forcepho/mixtures/sersic_mix_oned.py (chisq 85-129,
    normal_oned 167-173, gauss_cfd 272-279, fit_profiles 329-420) and /repo/forcepho/sources.py (Galaxy:
    initialize_splines 623-645, amplitudes 656-672, damplitude_dsersic 674-683, damplitude_drh 685-694,
    profile 696-728; gauss 1060-1067).

    Arithmetic is over the reals; the fits (scipy.optimize.minimize) and the splines are arguments.
    [None] is a python exception. *)
From Coq Require Import Reals Lra List.
From Verif Require Import Np.
Import ListNotations.
Open Scope R_scope.

Definition rsum (l : list R) : R := fold_right Rplus 0 l.
(** np.hypot *)
Definition hypot (a b : R) : R := sqrt (a ^ 2 + b ^ 2).
(** np.exp of the logarithm of a radius; [None] is -inf, which fit_profiles 341 puts first *)
Definition exp_radius (l : option R) : R := match l with Some x => exp x | None => 0 end.

(** normal_oned 167-173 at one point, with mu = 0 *)
Definition normal_oned (x : R) (comps : list (R * R)) : R :=
  rsum (map (fun p => let '(A, sigma) := p in A / (sigma * sqrt (PI * 2)) * exp (- (x - 0) ^ 2 / (2 * sigma ^ 2))) comps).
(** 96-105: the amplitudes and dispersions handed to normal_oned *)
Definition disps_of (lnradii : list (option R)) (smoothing : R) : list R := map (fun l => hypot (exp_radius l) smoothing) lnradii.
Definition amps_of (params disps : list R) : list R := map (fun p => exp (fst p) / (snd p * sqrt (2 * PI))) (combine params disps).
Definition mixture (params : list R) (lnradii : list (option R)) (smoothing x : R) : R :=
  let d := disps_of lnradii smoothing in normal_oned x (combine (amps_of params d) d).
(** 106-108 *)
Definition misfit (x target gauss : list R) : R :=
  let terms := map (fun p => let '(x, t, g) := p in ((g - t) / t) * ((g - t) / t) * t * x) (combine (combine x target) gauss) in
  rsum terms / rsum (map (fun p => fst p * snd p) (combine x target)) / 100.
(** 111-118: aᵀ dᵀ d a for the tridiagonal d with 2 on and -1 beside the diagonal *)
Definition second_differences (a : list R) : list R :=
  map (fun i => 2 * nth i a 0 - (match i with O => 0 | S k => nth k a 0 end) - nth (S i) a 0) (seq 0 (List.length a)).
Definition smoothness (amps : list R) : R := rsum (map (fun v => v ^ 2) (second_differences (map ln amps))).
(** chisq 85-129 with radii; without them len(params)/2 is no index *)
Definition chisq (params : list R) (x target : list R) (lnradii : option (list (option R))) (smoothing asmooth arpenalty arscale : R) : option R :=
  match lnradii with
  | None => None
  | Some l =>
    let d := disps_of l smoothing in
    let a := amps_of params d in
    Some (misfit x target (map (mixture params l smoothing) x)
          + (if Rlt_dec 0 asmooth then asmooth * smoothness a else 0)
          + (if Rlt_dec 0 arpenalty then arpenalty * rsum (map (fun p => fst p * exp (snd p / arscale)) (combine a d)) else 0))
  end.

(** gauss_cfd 272-279 at one radius; gamma(1) is 1, gammainc(1, t) is 1 - exp(-t) *)
Definition gauss_cfd (x : R) (amplitudes radii : list R) : R :=
  rsum (map (fun p => let '(a, r) := p in if Rle_dec r 0 then a else a * (1 - exp (- (5 / 10 * (x / r) ^ 2)))) (combine amplitudes radii))
  / rsum amplitudes.

(** ** The table written by fit_profiles *)
(** One row, 383-387: the dataset has single precision, [rnd] *)
Record trow := mkRow { t_n : R; t_r : R; t_amps : list R }.
Definition norm_amps (p : list R) : list R := let A := map exp p in map (fun a => a / rsum A) A.
Section Table.
Variable rnd : R -> R.
Variable fit : R -> R -> list R.           (* fit_gaussians(...).x *)
Definition fit_profiles (ngrid rgrid : list R) : list trow :=
  map (fun nr => mkRow (rnd (fst nr)) (rnd (snd nr)) (map rnd (norm_amps (fit (fst nr) (snd nr))))) (list_prod ngrid rgrid).
(** model of 392-397 for the row of (n, r), at x *)
Definition stored_model (n r : R) (lnradii : list (option R)) (smoothing x : R) : R := mixture (fit n r) lnradii smoothing x.
End Table.

(** ** sources.Galaxy *)
(** np.unique *)
Fixpoint insert (x : R) (l : list R) : list R :=
  match l with
  | [] => [x]
  | y :: t => if Rlt_dec x y then x :: l else if Rlt_dec y x then y :: insert x t else l
  end.
Definition unique (l : list R) : list R := fold_right insert [] l.
(** a.reshape(nn, nr) *)
Fixpoint rows_of {A} (nr : nat) (nn : nat) (l : list A) : list (list A) :=
  match nn with O => [] | S k => firstn nr l :: rows_of nr k (skipn nr l) end.
Definition reshape (nn nr : nat) (l : list R) : option (list (list R)) :=
  if Nat.eqb (List.length l) (nn * nr) then Some (rows_of nr nn l) else None.
(** A bivariate spline: its value and its derivatives, spline(n, r), spline(n, r, dx=1), spline(n, r, dy=1) *)
Record spline := mkSpline { s_val : R -> R -> R; s_dn : R -> R -> R; s_dr : R -> R -> R }.
Record galaxy := mkGalaxy { g_splines : list spline; g_radii : list R; g_nrange : R * R; g_rrange : R * R }.
Definition lmin (l : list R) : option R := match l with [] => None | a :: t => Some (fold_left Rmin t a) end.
Definition lmax (l : list R) : option R := match l with [] => None | a :: t => Some (fold_left Rmax t a) end.
(** initialize_splines 623-645 for spline_type "rect"; [rect] is RectBivariateSpline with the given
    smoothing, [None] when it raises *)
Definition initialize_splines (rect : list R -> list R -> list (list R) -> option spline) (rows : list trow) (radii : list R) (ngauss : nat)
  : option galaxy :=
  let n := map t_n rows in
  let r := map t_r rows in
  let ngrid := unique n in
  let rgrid := unique r in
  match mapM (fun i => match reshape (List.length ngrid) (List.length rgrid) (map (fun t => nth i (t_amps t) 0) rows) with
                       | Some z => rect ngrid rgrid z | None => None end) (seq 0 ngauss),
        lmin n, lmax n, lmin r, lmax r with
  | Some s, Some n0, Some n1, Some r0, Some r1 => Some (mkGalaxy s radii (n0, n1) (r0, r1))
  | _, _, _, _, _ => None
  end.
(** np.argmin(np.abs(rhalf - radii)): the first of the nearest *)
Fixpoint argmin_from (best : nat) (v : R) (i : nat) (l : list R) : nat :=
  match l with [] => best | x :: t => if Rlt_dec x v then argmin_from i x (S i) t else argmin_from best v (S i) t end.
Definition argmin (l : list R) : nat := match l with [] => O | x :: t => argmin_from 0 x 1 t end.
Definition unit_at (k n : nat) : list R := map (fun i => if Nat.eqb i k then 1 else 0) (seq 0 n).
(** amplitudes 656-672 *)
Definition amplitudes (g : galaxy) (sersic rhalf : R) : list R :=
  if Rlt_dec sersic (fst (g_nrange g)) then unit_at (argmin (map (fun r => Rabs (rhalf - r)) (g_radii g))) (List.length (g_radii g))
  else if Rlt_dec rhalf 0 then unit_at 0 (List.length (g_radii g))
  else map (fun s => s_val s sersic rhalf) (g_splines g).
(** damplitude_dsersic 674-683 and damplitude_drh 685-694 *)
Definition damplitude (part : spline -> R -> R -> R) (g : galaxy) (sersic rhalf : R) : list R :=
  if Rlt_dec sersic (fst (g_nrange g)) then repeat 0 (List.length (g_radii g))
  else if Rlt_dec rhalf 0 then repeat 0 (List.length (g_radii g))
  else map (fun s => part s sersic rhalf) (g_splines g).
(** gauss 1060-1067 for one radius and one dispersion, ndim=2: the determinant of 2 pi C is (2 pi sigma^2)^2 *)
Definition gauss2 (x sigma : R) : R := exp (- (5 / 10) * (((x - 0) / sigma) ^ 2 + ln ((2 * PI * sigma ^ 2) * (2 * PI * sigma ^ 2)))).
(** profile 696-728 at one radius, for a flux ([1] without a band) *)
Definition profile (g : galaxy) (sersic rhalf flux epsilon r : R) : R :=
  flux * rsum (map (fun p => fst p * gauss2 r (hypot (snd p) epsilon)) (combine (amplitudes g sersic rhalf) (g_radii g))).
