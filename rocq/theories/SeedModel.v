(** Seed weights of the scene server: superscene.py 467-492.
    The flag columns are int32 (sourcecat_dtype 754-757), so numpy's [~] is the
    bitwise complement [Z.lnot].  Arithmetic is exact real arithmetic. *)
From Verif Require Import Np SuperSceneModel.
From Coq Require Import Reals.
Open Scope R_scope.

Definition Rsum (l : list R) : R := fold_right Rplus 0 l.

(** [w / w.sum()], 478 and 492 *)
Definition normalise (w : list R) : list R := map (fun x => x / Rsum w) w.

(** exp_weight 470-478; line 472 complement, 474 [np.abs(n_iter)], 477 exponential *)
Definition abs_iter (r : row) : R := IZR (Z.abs (n_iter r)).
Definition mean_iter (cat : list row) : R :=
  Rsum (map abs_iter cat) / INR (List.length cat).
Definition exp_raw (cat : list row) (r : row) : R :=
  IZR (Z.lnot (is_valid r)) * exp ((mean_iter cat - abs_iter r) / 20).
Definition exp_weight (cat : list row) : list R := normalise (map (exp_raw cat) cat).

(** seed_weight 467-468 *)
Definition seed_weight := exp_weight.

(** sigmoid_weight 480-492 (a = 20, b = -1); not called by seed_weight *)
Definition sigmoid_raw (target : Z) (r : row) : R :=
  let x := 20 * (1 - IZR (n_iter r) / IZR target) + -1 in
  IZR (Z.lnot (is_active r)) * (1 / (1 + exp (- x))).
Definition sigmoid_weight (target : Z) (cat : list row) : list R :=
  normalise (map (sigmoid_raw target) cat).
