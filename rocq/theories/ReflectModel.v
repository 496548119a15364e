(** Momentum reflection: /repo/forcepho/model.py
    ConstrainedTransformedPosterior.check_constrained 479-512.

    Simplifications: floats are reals; the arrays theta, sign, lower and upper of one length
    are a list of coordinates; an infinite bound is [None].  The method also changes the
    array it is given, which is the one it returns. *)
From Verif Require Import Np.
From Coq Require Import Reals.
Open Scope R_scope.

Record coord := mkCoord { theta : R; sgn : R; lower : option R; upper : option R }.
(** theta > upper, 504; theta < lower, 507 *)
Definition above (c : coord) : bool := match upper c with Some u => if Rlt_dec u (theta c) then true else false | None => false end.
Definition below (c : coord) : bool := match lower c with Some l => if Rlt_dec (theta c) l then true else false | None => false end.
(** 505-506 and 508-509 *)
Definition reflect (b : R) (c : coord) : coord := mkCoord (2 * b - theta c) (sgn c * -1) (lower c) (upper c).
Definition reflect_above (c : coord) : coord := match upper c with Some u => if above c then reflect u c else c | None => c end.
Definition reflect_below (c : coord) : coord := match lower c with Some l => if below c then reflect l c else c | None => c end.
(** One pass of the loop 504-510: the coordinates and np.any(below | above) *)
Definition pass (cs : list coord) : list coord * bool :=
  let a := map above cs in
  let cs := map reflect_above cs in
  let b := map below cs in
  (map reflect_below cs, existsb (fun ab => fst ab || snd ab) (combine b a)).
(** while oob; [None] when [fuel] passes do not suffice *)
Fixpoint loop (fuel : nat) (cs : list coord) : option (list coord) :=
  match fuel with
  | O => None
  | S n => let '(cs, oob) := pass cs in if oob then loop n cs else Some cs
  end.
(** 495-512 with the arrays as they are set up at 495-500; the flag returned is False *)
Definition check_constrained (fuel : nat) (thetas : list R) (bounds : list (option R * option R)) : option (list R * list R * bool) :=
  match loop fuel (map (fun tb => mkCoord (fst tb) 1 (fst (snd tb)) (snd (snd tb))) (combine thetas bounds)) with
  | None => None
  | Some cs => Some (map theta cs, map sgn cs, false)
  end.
