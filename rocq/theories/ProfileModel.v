(** Model of the Sersic profile arithmetic, forcepho/utils/profile.py (all of it;
    isophotal_radius is used by postprocess.py 415).

    Arithmetic is over the reals; [None] is nan or an infinity. *)
From Coq Require Import Reals.
Open Scope R_scope.

(** scipy.special gamma, gammainc and gammaincinv, imported at profile.py 7.
    What they are is stated in ProfileProps.v. *)
Record special := mkSpecial {
  gamma : R -> R;
  gammainc : R -> R -> R;
  gammaincinv : R -> R -> R }.

(** x / y *)
Definition ndiv (x y : R) : option R := if Req_EM_T y 0 then None else Some (x / y).

(** x ** y of floats: nan for a negative base unless the exponent is a whole
    number. *)
Definition npow (x y : R) : option R :=
  if Rlt_dec 0 x then Some (Rpower x y)
  else if Req_EM_T x 0 then
    (if Rlt_dec 0 y then Some 0 else if Req_EM_T y 0 then Some 1 else None)
  else if Req_EM_T y (IZR (Int_part y)) then Some (powerRZ x (Int_part y))
  else None.

(** np.log *)
Definition nlog (x : R) : option R := if Rlt_dec 0 x then Some (ln x) else None.

Definition bind {A B} (o : option A) (f : A -> option B) : option B :=
  match o with Some a => f a | None => None end.
Notation "'do' x <- a ; b" := (bind a (fun x => b)) (at level 200, x name, a at level 100, b at level 200).

Section Profile.
  Variable sp : special.

  (** gammainc of a negative second argument is nan *)
  Definition ginc (a x : R) : option R := if Rle_dec 0 x then Some (gammainc sp a x) else None.

  (** frac_sersic, profile.py 14-21 *)
  Definition frac_sersic (radius rhalf sersic : R) : option R :=
    let bn := gammaincinv sp (2 * sersic) (1 / 2) in
    do q <- ndiv radius rhalf;
    do e <- ndiv 1 sersic;
    do p <- npow q e;
    ginc (2 * sersic) (bn * p).

  (** kron_radius, profile.py 24-32.  [if rmax:] treats a maximum radius of zero
      as none given. *)
  Definition kron_radius (rhalf sersic : R) (rmax : option R) : option R :=
    let k := gammaincinv sp (2 * sersic) (1 / 2) in
    do c <- (match rmax with
             | Some rm =>
               if Req_EM_T rm 0 then ndiv (gamma sp (3 * sersic)) (gamma sp (2 * sersic))
               else
                 do q <- ndiv rm rhalf;
                 do e <- ndiv 1 sersic;
                 do p <- npow q e;
                 do g3 <- ginc (3 * sersic) (k * p);
                 do g2 <- ginc (2 * sersic) (k * p);
                 ndiv g3 g2
             | None => ndiv (gamma sp (3 * sersic)) (gamma sp (2 * sersic))
             end);
    do kn <- npow k sersic;
    do s <- ndiv rhalf kn;
    Some (s * c).

  (** I_eff, profile.py 43-54 *)
  Definition I_eff (lum rhalf : R) (flux_radius : option R) (sersic : R) : option R :=
    let two_n := 2 * sersic in
    let k := gammaincinv sp two_n (1 / 2) in
    let f := gamma sp two_n in
    do f <- (match flux_radius with
             | Some fr =>
               do q <- ndiv fr rhalf;
               do e <- ndiv 1 sersic;
               do p <- npow q e;
               do g <- ginc two_n (k * p);
               Some (f * g)
             | None => Some f
             end);
    do kn <- npow k two_n;
    do c <- ndiv kn (sersic * exp k);
    do conv <- ndiv c f;
    ndiv (lum * conv) (2 * PI * rhalf ^ 2).

  (** isophotal_radius, profile.py 35-40 *)
  Definition isophotal_radius (iso flux r_half : R) (flux_radius : option R) (sersic : R) : option R :=
    do Ie <- I_eff flux r_half flux_radius sersic;
    let k := gammaincinv sp (2 * sersic) (1 / 2) in
    do q <- ndiv iso Ie;
    do lg <- nlog q;
    do d <- ndiv lg k;
    do r <- npow (1 - d) sersic;
    Some (r * r_half).
End Profile.
