(** Position angles: /repo/forcepho/superscene.py convert_pa 1005-1042 and the angle
    column of rectify_catalog 794-800.

    Simplifications: floats are reals, an array of angles is a list. *)
From Verif Require Import Np.
From Coq Require Import Reals.
Open Scope R_scope.

(** 1018-1019 *)
Definition deg2rad (x : R) : R := x * (PI / 180).
(** 1026-1032, one element: p and n are computed before the array is changed, and no
    element is in both *)
Definition wrap_step (x : R) : R := if Rlt_dec (PI / 2) x then x - PI else if Rlt_dec x (PI / 2) then x + PI else x.
(** 1028: (p.sum() == 0) & (n.sum() == 0) *)
Definition settled (pa : list R) : bool :=
  forallb (fun x => if Rlt_dec (PI / 2) x then false else if Rlt_dec x (PI / 2) then false else true) pa.
(** while count < max_try, 1024-1033 *)
Fixpoint wrap (max_try : nat) (pa : list R) : list R :=
  match max_try with
  | O => pa
  | S n => if settled pa then pa else wrap n (map wrap_step pa)
  end.
(** pa += pi/2 - (pa > 0) * pi, 1036-1038 and 796-798 *)
Definition rotate_pa (x : R) : R := x + (PI / 2 - (if Rlt_dec 0 x then 1 else 0) * PI).
(** 1005-1042 *)
Definition convert_pa (from_deg rotate reverse : bool) (max_try : nat) (pa_in : list R) : list R :=
  let pa := if from_deg then map deg2rad pa_in else pa_in in
  let pa := wrap max_try pa in
  let pa := if rotate then map rotate_pa pa else pa in
  if reverse then map (fun x => x * -1) pa else pa.
(** The default of max_try, 1005 *)
Definition default_max_try : nat := 4.

(** np.clip: minimum(maximum(x, lo), hi) *)
Definition clip (x lo hi : R) : R := Rmin (Rmax x lo) hi.
(** rectify_catalog, the "pa" column: 794-800 *)
Definition rectify_pa (lo hi : R) (rotate reverse : bool) (pa : list R) : list R :=
  let pa := map (fun x => clip x lo hi) pa in
  let pa := if rotate then map rotate_pa pa else pa in
  if reverse then map (fun x => x * -1) pa else pa.
