(** The log-likelihood and its gradient as FastPosterior.evaluate assembles them:
    /repo/forcepho/model.py 301-387.  The kernel is an argument: [chi2 b rows] is
    the chi-square of band [b] for the sources described by [rows], where a row
    holds what the kernel reads for one source in one band (flux of the band, ra,
    dec, q, pa, nsersic, rh; compute_gaussians_kernel.cc 45-114; the mixture
    amplitudes and their derivatives are functions of the last two). Priors and
    transforms are in PosteriorModel. *)
From Verif Require Import Np SceneModel.
From Coq Require Import Reals.

Definition kernel_row (b : nat) (p : prop_struct R) : list R :=
  [nth b (p_fluxes p) 0%R; p_ra p; p_dec p; p_q p; p_pa p; p_nsersic p; p_rh p].

Definition Rsum (l : list R) : R := fold_left Rplus l 0%R.

(** Lines 316-318 and 331: [ll = -0.5 * chi2.sum()]. *)
Definition proposal_of (amps : R -> R -> list R) (qf paf : R -> R -> R) (sc : list (source R)) (theta : list R)
  : option (list (prop_struct R)) :=
  match set_all_source_params sc theta with
  | None => None
  | Some sc' => get_proposal qf paf amps sc'
  end.
Definition lnlike (amps : R -> R -> list R) (qf paf : R -> R -> R) (chi2 : nat -> list (list R) -> R) (nbands : nat)
           (sc : list (source R)) (theta : list R) : option R :=
  match proposal_of amps qf paf sc theta with
  | None => None
  | Some ps => Some (-1/2 * Rsum (map (fun b => chi2 b (map (kernel_row b) ps)) (seq 0 nbands)))%R
  end.
(** Line 332: [ll_grad = -0.5 * stack_grad(chi2_derivs)]. *)
Definition lnlike_grad (nsources nbands : nat) (chi2_derivs : list (list (list R))) : list R :=
  map (fun g => -1/2 * g)%R (stack_grad 0%R Rplus nsources nbands chi2_derivs).
