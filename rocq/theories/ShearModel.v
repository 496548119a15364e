(** Conformal shear: /repo/forcepho/sources.py ConformalShearGalaxy 868-1022.
    Simplification: floats are reals. *)
From Verif Require Import Np.
From Coq Require Import Reals.
Open Scope R_scope.

(** numpy.arctan2 on finite arguments without signed zeros (IEEE would give -pi for
    (-0., x<0)) *)
Definition atan2 (y x : R) : R :=
  if Rlt_dec 0 x then atan (y / x)
  else if Rlt_dec x 0 then (if Rlt_dec y 0 then atan (y / x) - PI else atan (y / x) + PI)
  else if Rlt_dec 0 y then PI / 2
  else if Rlt_dec y 0 then - (PI / 2) else 0.
(** numpy.hypot *)
Definition hypot (x y : R) : R := sqrt (x * x + y * y).

(** etas_from_qphi 946-961 *)
Definition etas_from_qphi (q phi : R) : R * R :=
  let eta := - ln (q ^ 2) in
  (eta * cos (phi * 2), eta * sin (phi * 2)).
(** q 968-973 *)
Definition shear_q (ep ec : R) : R := exp (- hypot ep ec / 2).
(** pa 975-979 *)
Definition shear_pa (ep ec : R) : R := atan2 ec ep / 2.
(** ds_deta 981-1000: np.dot(ds_de.T, sq), rows eta_+ and eta_x, columns q and pa *)
Definition ds_deta (ep ec : R) : (R * R) * (R * R) :=
  let sqrtq := shear_q ep ec in
  let q := sqrtq ^ 2 in
  let phi := shear_pa ep ec in
  let sin2phi := sin (2 * phi) in
  let cos2phi := cos (2 * phi) in
  let itlq := 1 / (2 * ln q) in
  let '((a, b), (c, d)) := ((- q * cos2phi, - q * sin2phi), (sin2phi * itlq, - cos2phi * itlq)) in
  let '((e, f), (g, h)) := (((1 / 2) / sqrtq, 0), (0, 1)) in
  ((a * e + c * g, a * f + c * h), (b * e + d * g, b * f + d * h)).
(** render 1002-1022, the conversion of rows 3 and 4 of the gradient, for one pixel *)
Definition shear_rows (ep ec dq dpa : R) : R * R :=
  let '((a, b), (c, d)) := ds_deta ep ec in
  (a * dq + b * dpa, c * dq + d * dpa).
