(** Small executable vocabulary for the numpy / python list operations that the
    modelled code uses.  Each definition names the python construct it stands
    for; the per-area model files cite the /repo lines where it is used. *)
From Coq Require Export String Arith ZArith QArith Lia Bool.
From Coq Require Export List.
Export ListNotations.
Open Scope nat_scope.

(** [l[i] = x] for an in-range non-negative [i]; out of range leaves [l]
    alone (callers check the range first and return an error value). *)
Fixpoint upd {A} (i : nat) (x : A) (l : list A) : list A :=
  match l, i with
  | [], _ => []
  | _ :: t, O => x :: t
  | h :: t, S j => h :: upd j x t
  end.

(** Python/numpy index normalisation for an axis of length [n]:
    negative indices count from the end, anything else out of range is an
    IndexError ([None]). *)
Definition np_index (n : nat) (i : Z) : option nat :=
  if ((0 <=? i) && (i <? Z.of_nat n))%Z then Some (Z.to_nat i)
  else if ((- Z.of_nat n <=? i) && (i <? 0))%Z
       then Some (Z.to_nat (Z.of_nat n + i)) else None.

(** Sequence an option over a list (the first exception wins). *)
Fixpoint mapM {A B} (f : A -> option B) (l : list A) : option (list B) :=
  match l with
  | [] => Some []
  | x :: t => match f x, mapM f t with
              | Some y, Some ys => Some (y :: ys)
              | _, _ => None
              end
  end.

(** [a[inds]] with an integer index array (fancy indexing; copies). *)
Definition fancy_get {A} (l : list A) (inds : list nat) : option (list A) :=
  mapM (nth_error l) inds.

(** [a[inds] = vals]: element by element, later duplicates win. *)
Fixpoint fancy_put {A} (l : list A) (inds : list nat) (vals : list A) : list A :=
  match inds, vals with
  | i :: is_, v :: vs => fancy_put (upd i v l) is_ vs
  | _, _ => l
  end.

(** [a[field][inds] = vals] on a structured array: [setf] writes the field of
    one row. *)
Fixpoint fancy_put_field {A B} (setf : A -> B -> A) (l : list A)
         (inds : list nat) (vals : list B) : list A :=
  match inds, vals with
  | i :: is_, v :: vs =>
      let l' := match nth_error l i with
                | Some r => upd i (setf r v) l
                | None => l
                end in
      fancy_put_field setf l' is_ vs
  | _, _ => l
  end.

(** [a[field][inds] = scalar]. *)
Definition fancy_put_scalar {A B} (setf : A -> B -> A) (l : list A)
         (inds : list nat) (v : B) : list A :=
  fancy_put_field setf l inds (map (fun _ => v) inds).

(** [a[inds][mask]] with a boolean mask. *)
Fixpoint mask {A} (m : list bool) (l : list A) : list A :=
  match m, l with
  | b :: bs, x :: t => if b then x :: mask bs t else mask bs t
  | _, _ => []
  end.

(** [np.any] *)
Definition np_any (l : list bool) : bool := existsb (fun b => b) l.
(** [mask.sum()] *)
Definition count_true (l : list bool) : nat := List.length (filter (fun b => b) l).

(** comparison of exact rationals, as booleans *)
Definition Qltb (x y : Q) : bool := negb (Qle_bool y x).

(** [max(a, b)] on rationals; python's [max] returns the first maximal. *)
Definition Qmaxb (x y : Q) : Q := if Qltb x y then y else x.
(** [.max()] of a non-empty array; the empty array raises ValueError. *)
Definition Qmax_list (l : list Q) : option Q :=
  match l with
  | [] => None
  | x :: t => Some (fold_left Qmaxb t x)
  end.

(** A concrete stable argsort (insertion sort), used to run examples.
    Theorems quantify over any argsort meeting [argsort_ok]. *)
Fixpoint insert_by (key : nat -> Q) (i : nat) (l : list nat) : list nat :=
  match l with
  | [] => [i]
  | j :: t => if Qltb (key j) (key i) then j :: insert_by key i t else i :: l
  end.
Definition argsort_ins (l : list Q) : list nat :=
  fold_right (insert_by (fun i => nth i l 0%Q)) [] (seq 0 (List.length l)).

(** [j in l] *)
Definition memn (j : nat) (l : list nat) : bool := existsb (Nat.eqb j) l.
