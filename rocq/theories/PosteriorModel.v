(** Transforms, the posterior value and its gradient, the barrier prior, and the
    evaluation cache: /repo/forcepho/model.py 42-257 (Posterior), 302-368
    (FastPosterior.evaluate), 414-462 (SlowPosterior.evaluate), 555-637
    (transforms), /repo/forcepho/priors.py 9-52.
    Real numbers stand for float64; a vector is a list of reals and vectors that
    numpy would broadcast together have equal length here. *)
From Verif Require Import Np.
From Coq Require Import Reals.
Open Scope R_scope.

(** elementwise binary operation *)
Definition zip {A B C} (f : A -> B -> C) (a : list A) (b : list B) : list C :=
  map (fun p => f (fst p) (snd p)) (combine a b).

(** sigmoid 555-557 (scipy expit), logit 560-561, sigmoid_grad 564-569 *)
Definition sigmoid (x : R) : R := / (1 + exp (- x)).
Definition logit (y : R) : R := - ln (1 / y - 1).
Definition sigmoid_grad (z : R) : R := ((1 / 2) / cosh (1 / 2 * z)) ^ 2.

(** np.prod *)
Definition Rprod (l : list R) : R := fold_left Rmult l 1.

(** The [transform] attribute: None, Transform 572-593, BoundedTransform 596-637 *)
Inductive transform_kind := NoTransform | Identity | Bounded (lower upper : list R).

Definition range (lower upper : list R) : list R := zip Rminus upper lower.
Definition transform (k : transform_kind) (z : list R) : list R :=
  match k with
  | NoTransform | Identity => z
  | Bounded lower upper => zip Rplus lower (zip Rmult (map sigmoid z) (range lower upper))
  end.
(** jacobian 581-582, 625-628; make_transform's 1. for no transform (159-161) is
    written as a vector of ones *)
Definition jacobian (k : transform_kind) (z : list R) : list R :=
  match k with
  | NoTransform | Identity => map (fun _ => 1) z
  | Bounded lower upper => zip Rmult (range lower upper) (map sigmoid_grad z)
  end.
(** lndetjac 584-587 (BoundedTransform inherits it), 160 *)
Definition lndetjac (k : transform_kind) (z : list R) : R :=
  match k with
  | NoTransform => 0
  | _ => ln (Rabs (Rprod (jacobian k z)))
  end.
(** lndetjac_grad 590-591, 630-633 *)
Definition lndetjac_grad (k : transform_kind) (z : list R) : list R :=
  match k with
  | NoTransform | Identity => map (fun _ => 0) z
  | Bounded _ _ => map (fun x => 1 - 2 * sigmoid x) z
  end.
(** inverse_transform 593-594, 635-638 *)
Definition inverse_transform (k : transform_kind) (q : list R) : list R :=
  match k with
  | NoTransform | Identity => q
  | Bounded lower upper => map logit (zip Rdiv (zip Rminus q lower) (range lower upper))
  end.

(** FastPosterior.evaluate 340-352 given the likelihood [ll] and prior [lpr] with
    their gradients as functions of the scene parameters; SlowPosterior.evaluate
    454-458 is the case [sampling = true]. *)
Definition lnp_of (k : transform_kind) (sampling : bool) (ll lpr : list R -> R) (z : list R) : R :=
  let q := transform k z in
  let lnp := ll q + lpr q in
  if sampling then lnp + lndetjac k z else lnp.
Definition lnp_grad_of (k : transform_kind) (sampling : bool) (llg lprg : list R -> list R) (z : list R) : list R :=
  let q := transform k z in
  let g := zip Rmult (zip Rplus (llg q) (lprg q)) (jacobian k z) in
  if sampling then zip Rplus g (lndetjac_grad k z) else g.
(** nll 173-184 *)
Definition nll_of (ndof lnp : R) : R := - lnp / ndof.
Definition nll_grad_of (ndof : R) (g : list R) : list R := map (fun x => - x / ndof) g.

(** ** Priors *)
(** LogPrior.__call__ 16-25 with the ExpBeta members 38-52.  [x ** a] for x > 0. *)
Definition scale (mn mx q : R) : R := (q - mn) / (mx - mn).
Definition expbeta (alpha x : R) : R := - (Rpower x alpha * Rpower (1 - x) alpha).
Definition expbeta_grad (alpha x : R) : R := alpha * (2 * x - 1) * Rpower (- (x - 1) * x) (alpha - 1).
Definition zip3 {A B C D} (f : A -> B -> C -> D) (a : list A) (b : list B) (c : list C) : list D :=
  map (fun p => f (fst (fst p)) (snd (fst p)) (snd p)) (combine (combine a b) c).
Definition vsum (l : list R) : R := fold_left Rplus l 0.
Definition prior_value (alpha : R) (mn mx q : list R) : R :=
  vsum (zip3 (fun a b x => expbeta alpha (scale a b x)) mn mx q).
Definition prior_grad (alpha : R) (mn mx q : list R) : list R :=
  zip3 (fun a b x => expbeta_grad alpha (scale a b x) / (b - a)) mn mx q.

(** ** The cache (Posterior 102-191, FastPosterior 287-289, 346-352)
    The caller's arrays are mutable objects, named by numbers; [_z] keeps a
    reference to the array that was passed, [_lnp_grad] is the array handed out.
    [evalf sampling prior v] is what evaluate computes for the vector [v] under
    the current switch and prior ([None] when it raises).  Array dimensions are
    fixed, so the [!=] comparison is elementwise. *)
Section Cache.
Context {V P : Type} (veq : V -> V -> bool) (minus99 : V) (neg : V -> V).
Context (evalf : bool -> P -> list V -> option (V * list V)).

(** [_z]: the initial scalar -99 or a reference; [None] for _lnp: not yet set *)
Inductive zref := Init | Ref (id : nat).
Record post := mkPost {
  heap : nat -> list V;
  c_z : zref;
  c_lnp : option (V * list V);
  sampling_sw : bool;
  prior_fn : P
}.
Inductive request := Value | Grad | Both | Nll.
Inductive op :=
  | Ask (r : request) (z : nat)         (* lnprob, lnprob_grad, lnprob_and_grad, nll *)
  | Write (z : nat) (v : list V)        (* the caller assigns into an array *)
  | WriteGrad (g : list V)              (* the caller assigns into the gradient it was given *)
  | SetSampling (b : bool)
  | SetPrior (p : P).
Inductive answer := AnsV (v : V) | AnsG (g : list V) | AnsB (v : V) (g : list V) | Raises.

(** np.any(z != self._z) *)
Fixpoint differs (a b : list V) : bool :=
  match a, b with
  | x :: a', y :: b' => negb (veq x y) || differs a' b'
  | _, _ => false
  end.
Definition changed (s : post) (z : nat) : bool :=
  match c_z s with
  | Init => existsb (fun x => negb (veq x minus99)) (heap s z)
  | Ref id => differs (heap s z) (heap s id)
  end.
Definition reply (r : request) (p : option (V * list V)) : answer :=
  match p with
  | None => Raises                       (* AttributeError: no _lnp *)
  | Some (v, g) => match r with
                   | Value => AnsV v | Grad => AnsG g | Both => AnsB v g
                   | Nll => AnsB (neg v) (map neg g)
                   end
  end.
Definition ask (s : post) (r : request) (z : nat) : post * answer :=
  if changed s z then
    match evalf (sampling_sw s) (prior_fn s) (heap s z) with
    | None => (s, Raises)
    | Some vg => (mkPost (heap s) (Ref z) (Some vg) (sampling_sw s) (prior_fn s), reply r (Some vg))
    end
  else (s, reply r (c_lnp s)).
Definition step (s : post) (o : op) : post * option answer :=
  match o with
  | Ask r z => let (s', a) := ask s r z in (s', Some a)
  | Write z v => (mkPost (fun i => if Nat.eqb i z then v else heap s i) (c_z s) (c_lnp s) (sampling_sw s) (prior_fn s), None)
  | WriteGrad g => (mkPost (heap s) (c_z s) (match c_lnp s with Some (v, _) => Some (v, g) | None => None end)
                           (sampling_sw s) (prior_fn s), None)
  | SetSampling b => (mkPost (heap s) (c_z s) (c_lnp s) b (prior_fn s), None)
  | SetPrior p => (mkPost (heap s) (c_z s) (c_lnp s) (sampling_sw s) p, None)
  end.
Definition start (h : nat -> list V) (b : bool) (p : P) : post := mkPost h Init None b p.
Fixpoint exec (s : post) (l : list op) : post * list (option answer) :=
  match l with
  | [] => (s, [])
  | o :: t => let (s1, a) := step s o in let (s2, r) := exec s1 t in (s2, a :: r)
  end.
End Cache.
