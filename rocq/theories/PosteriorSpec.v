(** Vocabulary for C17, C18, C19 and C38. *)
From Verif Require Import Np PosteriorModel.
From Coq Require Import Reals.
Open Scope R_scope.

(** Bounds of the right length with lower < upper in every coordinate. *)
Definition box (lower upper z : list R) : Prop :=
  List.length lower = List.length z /\ List.length upper = List.length z /\
  forall i, (i < List.length z)%nat -> nth i lower 0 < nth i upper 0.

(** [g] lists the partial derivatives of [f] at [q]. *)
Definition is_gradient_at (f : list R -> R) (g : list R) (q : list R) : Prop :=
  List.length g = List.length q /\
  forall i, (i < List.length q)%nat -> derivable_pt_lim (fun t => f (upd i t q)) (nth i q 0) (nth i g 0).

Definition suits (k : transform_kind) (z : list R) : Prop :=
  match k with Bounded lower upper => box lower upper z | _ => True end.


Section Plain.
Context {V P : Type} (veq : V -> V -> bool) (minus99 : V) (neg : V -> V).
Context (evalf : bool -> P -> list V -> option (V * list V)).
(** What a caller is owed for the pair (lnp, gradient): the value, the gradient,
    both, or both with the opposite sign ([neg] is the division by -ndof). *)
Definition owed (r : request) (p : option (V * list V)) : answer (V := V) :=
  match r, p with
  | _, None => Raises
  | Value, Some p => AnsV (fst p)
  | Grad, Some p => AnsG (snd p)
  | Both, Some p => AnsB (fst p) (snd p)
  | Nll, Some p => AnsB (neg (fst p)) (map neg (snd p))
  end.
(** The machine without a cache. *)
Record plain := mkPlain { p_heap : nat -> list V; p_samp : bool; p_prior : P }.
Definition plain_step (s : plain) (o : op (V := V) (P := P)) : plain * option (answer (V := V)) :=
  match o with
  | Ask r z => (s, Some (owed r (evalf (p_samp s) (p_prior s) (p_heap s z))))
  | Write z v => (mkPlain (fun i => if Nat.eqb i z then v else p_heap s i) (p_samp s) (p_prior s), None)
  | WriteGrad _ => (s, None)
  | SetSampling b => (mkPlain (p_heap s) b (p_prior s), None)
  | SetPrior p => (mkPlain (p_heap s) (p_samp s) p, None)
  end.
Fixpoint plain_exec (s : plain) l :=
  match l with [] => [] | o :: t => let (s1, a) := plain_step s o in a :: plain_exec s1 t end.

(** Disciplined histories: an array is not written to after it was passed; the
    returned gradient is not written to; after a switch or prior change the next
    request is for a vector different from the last one that was answered (or
    another request came before); the first vector is not -99 throughout. *)
Fixpoint disciplined (s : plain) (passed : list nat) (last : option (list V)) (dirty : bool) (l : list op) : Prop :=
  match l with
  | [] => True
  | o :: t =>
    let s1 := fst (plain_step s o) in
    match o with
    | Ask r z =>
        let v := p_heap s z in
        match last with
        | None => exists x, In x v /\ veq x minus99 = false
        | Some w => List.length v = List.length w /\ (dirty = true -> exists k x y, nth_error v k = Some x /\ nth_error w k = Some y /\ veq x y = false)
        end /\
        match evalf (p_samp s) (p_prior s) v with
        | Some _ => disciplined s1 (z :: passed) (Some v) false t
        | None => disciplined s1 (z :: passed) last dirty t
        end
    | Write z _ => ~ In z passed /\ disciplined s1 passed last dirty t
    | WriteGrad _ => False
    | SetSampling _ | SetPrior _ => disciplined s1 passed last true t
    end
  end.

End Plain.
