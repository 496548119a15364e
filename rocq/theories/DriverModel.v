(** Model of the construction of posterior objects and of the drivers not covered by FitModel:
    /repo/forcepho/model.py Posterior.__init__ 47-76, lnprior 142-163, nll 190-202,
    nll_nograd 204-212, check_grad 225-257, FastPosterior.__init__ 271-303 and evaluate 305-352,
    SlowPosterior.__init__ 416-433 and evaluate 435-466, Transform and BoundedTransform 572-637;
    /repo/forcepho/fitting.py run_opt_bounded 457-499 and run_dynesty 539-570.

    Simplifications: floats are reals; the likelihood, scipy's minimiser and dynesty are
    arguments, constrained by hypotheses of the theorems; [None] is an exception; logging,
    timing, call counts and printed options are left out. *)
From Verif Require Import Np PosteriorModel.
From Coq Require Import Reals.
Open Scope R_scope.

Definition reqb (x y : R) : bool := if Req_EM_T x y then true else false.

(** ** Posterior.__init__ 47-76 *)
(** A prior returns the logarithm and its gradient *)
Definition prior := list R -> R * list R.
Definition is_none (k : transform_kind) : bool := match k with NoTransform => true | _ => false end.
(** np.any of an array; of a missing argument (None) it is falsy *)
Definition np_any (l : option (list R)) : bool :=
  match l with None => false | Some l => existsb (fun x => negb (reqb x 0)) l end.
Definition is_some {A} (o : option A) : bool := match o with Some _ => true | None => false end.
(** 65-76.  [t] is NoTransform when the argument is None or missing; the attribute [transform]
    of the object, or an exception: ValueError at 66 or 75, KeyError at 72 when a bound is
    missing (np.any(None) is None, and None == False is false, so 66 is not always reached),
    AssertionError at 607 when the bounds have different lengths *)
Definition posterior_init (t : transform_kind) (lower upper : option (list R)) (others : list string) : option transform_kind :=
  if Bool.eqb (np_any lower && np_any upper) (negb (is_none t)) then None
  else if is_none t then
    match lower, upper, others with
    | Some lo, Some up, [] => if Nat.eqb (List.length up) (List.length lo) then Some (Bounded lo up) else None
    | _, _, _ => None
    end
  else
    match lower, upper, others with
    | None, None, [] => Some t
    | _, _, _ => None
    end.

(** The attributes of a posterior object that are read below; [None] for [a_ndof] and
    [a_priorfn] is a missing attribute *)
Inductive post_class := Fast | Slow.
Record obj := mkObj {
  a_class : post_class;
  a_transform : transform_kind;
  a_ndof : option R;
  a_priorfn : option (option prior);
  a_lnprior : option prior;             (* an instance attribute lnprior, hiding the method *)
  a_sampling : bool;
  a_like : list R -> option (R * list R) }.
(** FastPosterior.__init__ 271-291: calls Posterior.__init__ *)
Definition fast_init (t : transform_kind) (lower upper : option (list R)) (others : list string)
  (lnprior : option prior) (sampling : bool) (like : list R -> option (R * list R)) : option obj :=
  match posterior_init t lower upper others with
  | None => None
  | Some k => Some (mkObj Fast k (Some 1) (Some lnprior) None sampling like)
  end.
(** SlowPosterior.__init__ 416-433: does not *)
Definition slow_init (t : transform_kind) (lnprior : option prior) (like : list R -> option (R * list R)) : obj :=
  mkObj Slow t None None lnprior true like.

(** lnprior 142-163; AttributeError without _lnpriorfn.  The scalar gradient 0.0 is written out *)
Definition lnprior (o : obj) (q : list R) : option (R * list R) :=
  match a_lnprior o with
  | Some f => Some (f q)
  | None =>
    match a_priorfn o with
    | None => None
    | Some None => Some (0, repeat 0 (List.length q))
    | Some (Some f) => Some (f q)
    end
  end.
(** FastPosterior.evaluate 318-352, SlowPosterior.evaluate 450-466 *)
Definition evaluate (o : obj) (z : list R) : option (R * list R) :=
  let k := a_transform o in
  let q := transform k z in
  match lnprior o q with
  | None => None
  | Some (lpr, lpr_grad) =>
    match a_like o q with
    | None => None
    | Some (ll, ll_grad) =>
      let lnp := ll + lpr in
      let grad := zip Rmult (zip Rplus ll_grad lpr_grad) (jacobian k z) in
      match a_class o with
      | Fast => if a_sampling o then Some (lnp + lndetjac k z, zip Rplus grad (lndetjac_grad k z)) else Some (lnp, grad)
      | Slow => Some (lnp + lndetjac k z, zip Rplus grad (lndetjac_grad k z))
      end
    end
  end.
(** lnprob 102-118, nll 190-202 and nll_nograd 204-212, the cache left out (C38) *)
Definition lnprob (o : obj) (z : list R) : option R := option_map fst (evaluate o z).
Definition nll (o : obj) (z : list R) : option (R * list R) :=
  match evaluate o z, a_ndof o with
  | Some (l, g), Some n => Some (- l / n, map (fun x => - x / n) g)
  | _, _ => None
  end.
Definition nll_nograd (o : obj) (z : list R) : option R :=
  match evaluate o z, a_ndof o with
  | Some (l, _), Some n => Some (- l / n)
  | _, _ => None
  end.

(** ** check_grad 225-257, with the cache: every theta.copy() is an array at a new address *)
Section Check.
Context {P : Type} (evalf : bool -> P -> list R -> option (R * list R)) (neg : R -> R).
Let stp := step reqb (-99) neg evalf.
Let askp := ask reqb (-99) neg evalf.
(** The loop 249-256 from index [i] on; [next] is the next free address *)
Fixpoint check_loop (s : post (V := R) (P := P)) (next : nat) (z0 : list R) (i : nat) (delta : list R)
  : post (V := R) (P := P) * option (list R) :=
  match delta with
  | [] => (s, Some [])
  | dp :: rest =>
    if Nat.ltb i (List.length z0) then
      let lo := upd i (nth i z0 0 - dp) z0 in
      match askp (fst (stp s (Write next lo))) Value next with
      | (s, AnsV imlo) =>
        let hi := upd i (nth i lo 0 + 2 * dp) lo in
        match askp (fst (stp s (Write (S next) hi))) Value (S next) with
        | (s, AnsV imhi) =>
          match check_loop s (S (S next)) z0 (S i) rest with
          | (s, Some l) => (s, Some ((imhi - imlo) / (2 * dp) :: l))
          | (s, None) => (s, None)
          end
        | (s, _) => (s, None)
        end
      | (s, _) => (s, None)
      end
    else (s, None)                       (* IndexError *)
  end.
(** [delta] a number or an array (of the gradient's length; otherwise an error, except that
    numpy would also broadcast arrays of one element) *)
Inductive delta_arg := Number (d : R) | Array (d : list R).
Definition deltas (n : nat) (d : delta_arg) : option (list R) :=
  match d with
  | Number d => Some (repeat d n)
  | Array l => if Nat.eqb (List.length l) n then Some l else None
  end.
Definition check_grad (s : post (V := R) (P := P)) (next z : nat) (delta : delta_arg)
  : post (V := R) (P := P) * option (list R * list R) :=
  let z0 := heap s z in
  match askp s Grad z with
  | (s, AnsG dlnp) =>
    match deltas (List.length dlnp) delta with
    | None => (s, None)
    | Some delta =>
      match check_loop s next z0 0 delta with
      | (s, Some l) => (s, Some (dlnp, l ++ repeat 0 (List.length z0 - List.length l)))
      | (s, None) => (s, None)
      end
    end
  | (s, _) => (s, None)
  end.
End Check.

(** ** run_dynesty 539-570 *)
(** [lower] and [upper]: numbers or arrays *)
Inductive bound_arg := Num (x : R) | Arr (l : list R).
Definition spread (n : nat) (b : bound_arg) : option (list R) :=
  match b with Num x => Some (repeat x n) | Arr l => if Nat.eqb (List.length l) n then Some l else None end.
(** dynesty: the function, the prior transform and the dimension; samples and their
    log-likelihoods, or an exception *)
Definition nested := (list R -> option R) -> (list R -> list R) -> nat -> option (list (list R) * list R).
Record dyn_result := mkDyn { d_ndim : nat; d_chain : list (list R); d_lnp : list R }.
(** prior_transform 548-551 *)
Definition prior_transform (lower width unit_coords : list R) : list R := zip Rplus lower (zip Rmult width unit_coords).
(** [len(lower)] of a number is a TypeError *)
Definition run_dynesty (dyn : nested) (o : obj) (lower upper : bound_arg) : option dyn_result :=
  match lower with
  | Num _ => None
  | Arr lo =>
    match spread (List.length lo) upper with
    | None => None
    | Some up =>
      let theta_width := zip Rminus up lo in
      match dyn (lnprob o) (prior_transform lo theta_width) (List.length lo) with
      | None => None
      | Some (samples, logl) => Some (mkDyn (List.length lo) samples logl)
      end
    end
  end.

(** ** run_opt_bounded 457-499 *)
Record scires := mkSci { s_x : list R; s_fun : R }.
(** scipy.optimize.minimize with method L-BFGS-B: the function (with or without its
    gradient), the start and the bounds *)
Definition lbfgsb := (list R -> option (R * option (list R))) -> list R -> option (list (R * R)) -> option scires.
Record opt_result := mkOpt { o_ndim : nat; o_start : list R; o_chain : list (list R); o_lnp : R; o_fun : R }.
Definition run_opt_bounded (mini : lbfgsb) (o : obj) (q : list R) (jac : bool) (bounds : option (list (R * R))) : option opt_result :=
  let start := if is_none (a_transform o) then q else inverse_transform (a_transform o) q in
  let bounds := if is_none (a_transform o) then bounds else Some (map (fun _ => (-200, 200)) q) in
  let f := if jac then (fun z => option_map (fun p => (fst p, Some (snd p))) (nll o z))
           else (fun z => option_map (fun v => (v, None)) (nll_nograd o z)) in
  match mini f start bounds with
  | None => None
  | Some r => Some (mkOpt (List.length q) q [transform (a_transform o) (s_x r)] (- (1 / 2) * s_fun r) (s_fun r))
  end.
