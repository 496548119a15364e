(** Model of /repo/forcepho/priors.py: LogPrior 9-33, ExpBeta 36-52 (its formulas are in
    PosteriorModel), Barrier 55-66, Beta to LogUniform 93-114 and TruncatedCauchy 117-135.

    Simplifications: floats are reals; arrays are lists and numbers lists of one entry; the
    draw of numpy from the unit interval is an argument.  Barrier's formulas 68-91 are left
    out: its constructor never returns. *)
From Verif Require Import Np PosteriorModel.
From Coq Require Import Reals.
Open Scope R_scope.

(** The classes of the module; ExpBeta with its exponent (default -0.9) *)
Inductive prior_class := Flat | ExpBeta (alpha : R) | Barrier | Beta | Normal | GenNormal | HalfNormal | StudentT | LogUniform | TruncatedCauchy.
Record prior := mkPrior { p_class : prior_class; p_min : list R; p_max : list R }.
(** The constructors: LogPrior 11-14, inherited by the classes 93-117; ExpBeta 39-44 with its
    assertion; Barrier 60-66 raises NotImplementedError *)
Definition build (c : prior_class) (mn mx : list R) : option prior :=
  match c with
  | Barrier => None
  | ExpBeta alpha => if Rlt_dec (-1) alpha then Some (mkPrior c mn mx) else None
  | _ => Some (mkPrior c mn mx)
  end.
(** _lnprior and _lnprior_grad of one scaled parameter: 29-33, 46-52.  The sum of the scalar 0
    is the sum of zeros *)
Definition lnprior1 (c : prior_class) (x : R) : R := match c with ExpBeta alpha => expbeta alpha x | _ => 0 end.
Definition lnprior_grad1 (c : prior_class) (x : R) : R := match c with ExpBeta alpha => expbeta_grad alpha x | _ => 0 end.
(** __call__ 16-24 with _scale 26-27 *)
Definition call (p : prior) (q : list R) : R * list R :=
  (vsum (zip3 (fun a b x => lnprior1 (p_class p) (scale a b x)) (p_min p) (p_max p) q),
   zip3 (fun a b x => lnprior_grad1 (p_class p) (scale a b x) / (b - a)) (p_min p) (p_max p) q).

(** TruncatedCauchy.sample 119-135 for one draw; [r] is numpy's number of the unit interval,
    np.random.uniform(low, high) is low + (high - low) * r.  Division by a zero scale is an error.
    The object is not read. *)
Definition sample (p : prior) (loc scale a b r : R) : option R :=
  if Req_EM_T scale 0 then None
  else
    let ua := atan ((a - loc) / scale) / PI + 1 / 2 in
    let ub := atan ((b - loc) / scale) / PI + 1 / 2 in
    let U := ua + (ub - ua) * r in
    Some (loc + scale * tan (PI * (U - 1 / 2))).
(** The defaults 119: loc=0, scale=1, a=-1, b=1; [size] draws *)
Definition sample_default (p : prior) (r : R) : option R := sample p 0 1 (-1) 1 r.
Definition sample_many (p : prior) (loc scale a b : R) (rs : list R) : option (list R) := mapM (sample p loc scale a b) rs.
