(** Model of the PSF image fit: a mixture of two-dimensional gaussians fitted by
    expectation maximisation.

    Sources: forcepho/mixtures/psf_mix_em.py (all of it except the
    scipy_ls branch, 121-130, which raises TypeError after the fit because
    [create_ans] is called with one argument) and the caller
    forcepho/mixtures/utils_em.py 91-115.

    Arithmetic is over the reals.  A python [nan] is [None].  The parameter
    vector of length 6*num_mix is a list of records, one per component, in the
    order amp, mu_x, mu_y, sigma_x, sigma_y, rho (psf_mix_em.py 157-158). *)
From Coq Require Import Reals List Lra.
Import ListNotations.
Open Scope R_scope.

Record comp := { amp : R; mx : R; my : R; sx : R; sy : R; rho : R }.

(** np.sum over an array, as a sum over the list of its elements. *)
Definition sum {A} (f : A -> R) (l : list A) : R := fold_right (fun a s => f a + s) 0 l.

(** One element of the image: loc_x, loc_y and the value there
    (psf_mix_em.py 92, 153-154).  An image is a list of rows, the first axis is
    x. *)
Record pixel := { px : R; py : R; pd : R }.
Definition enum {A} (l : list A) : list (nat * A) := combine (seq 0 (length l)) l.
Definition pixels (im : list (list R)) : list pixel :=
  flat_map (fun ir => map (fun jd => {| px := INR (fst ir); py := INR (fst jd); pd := snd jd |})
                          (enum (snd ir))) (enum im).

(** mvn_pdf, psf_mix_em.py 52-58. *)
Definition mvn_pdf (x y : R) (c : comp) : R :=
  let A := amp c / (2 * PI * sx c * sy c * sqrt (1 - rho c ^ 2)) in
  let dx := (x - mx c) / sx c in
  let dy := (y - my c) / sy c in
  let exparg := - (1 / 2) / (1 - rho c ^ 2) * (dx ^ 2 + dy ^ 2 - 2 * rho c * dx * dy) in
  A * exp exparg.

(** mvn_pdf gives a finite number at every position exactly when it divides by
    no zero and takes no root of a negative number. *)
Definition finite_comp (c : comp) : bool :=
  if Req_EM_T (sx c) 0 then false else
  if Req_EM_T (sy c) 0 then false else
  if Rlt_dec (rho c ^ 2) 1 then true else false.

(** mvn_pdf_2d_mix_fn at one pixel, psf_mix_em.py 68-74. *)
Definition mix (x y : R) (ps : list comp) : R := sum (mvn_pdf x y) ps.

(** log_likelihood, psf_mix_em.py 132-133.  [None] stands for nan; the
    simplification is that a mixture value of zero (numpy: -inf, or nan where
    the pixel is zero) is [None] as well. *)
Definition log_likelihood (im : list pixel) (ps : list comp) : option R :=
  if forallb finite_comp ps then
    if forallb (fun p => if Rlt_dec 0 (mix (px p) (py p) ps) then true else false) im
    then Some (sum (fun p => pd p * ln (mix (px p) (py p) ps)) im)
    else None
  else None.

(** weights[x,y,k] after [normalized(axis=2, order=1)], psf_mix_em.py 78-81 and
    143-146: divided by the sum of absolute values over the components, or by
    one if that is zero. *)
Definition weight (ps : list comp) (c : comp) (p : pixel) : R :=
  let l1 := sum (fun c' => Rabs (mvn_pdf (px p) (py p) c')) ps in
  mvn_pdf (px p) (py p) c / (if Req_EM_T l1 0 then 1 else l1).

(** Nk_list[k], psf_mix_em.py 147-149. *)
Definition Nk (im : list pixel) (ps : list comp) (c : comp) : R :=
  sum (fun p => pd p * weight ps c p) im.

(** The update of component k, psf_mix_em.py 160-173.  nan if Nk is zero or the
    sum of the Nk is zero, and nan in rho if one of the new widths is zero. *)
Definition new_comp (im : list pixel) (ps : list comp) (c : comp) : option comp :=
  let n := Nk im ps c in
  let tot := sum (Nk im ps) ps in
  if Req_EM_T n 0 then None else if Req_EM_T tot 0 then None else
  let mux := sum (fun p => pd p * weight ps c p * px p) im / n in
  let muy := sum (fun p => pd p * weight ps c p * py p) im / n in
  let vx := sum (fun p => pd p * weight ps c p * (px p - mux) ^ 2) im / n in
  let vy := sum (fun p => pd p * weight ps c p * (py p - muy) ^ 2) im / n in
  if Rlt_dec vx 0 then None else if Rlt_dec vy 0 then None else
  let sgx := sqrt vx in
  let sgy := sqrt vy in
  if Req_EM_T sgx 0 then None else if Req_EM_T sgy 0 then None else
  Some {| amp := n / tot; mx := mux; my := muy; sx := sgx; sy := sgy;
          rho := sum (fun p => pd p * weight ps c p * (px p - mux) * (py p - muy)) im
                 / (n * sgx * sgy) |}.

Fixpoint all_some {A} (l : list (option A)) : option (list A) :=
  match l with
  | [] => Some []
  | Some a :: t => match all_some t with Some r => Some (a :: r) | None => None end
  | None :: _ => None
  end.

(** One pass of the loop body up to new_log_likelihood, psf_mix_em.py 142-175.
    If the current components are not finite every weight is nan and so is
    everything computed from it. *)
Definition em_step (im : list pixel) (ps : list comp) : option (list comp) :=
  if forallb finite_comp ps then all_some (map (new_comp im ps) ps) else None.

Definition step_likelihood (im : list pixel) (ps : list comp) : option (list comp * R) :=
  match em_step im ps with
  | None => None
  | Some ps' => match log_likelihood im ps' with Some l => Some (ps', l) | None => None end
  end.

(** The dictionary appended to ans_repeat, psf_mix_em.py 96-106, 183-195
    (the images and error norms, which are functions of the parameters, are left
    out).  [a_final] is final_log_likelihood, [None] for nan. *)
Record answer := { a_params : list comp; a_loops : nat; a_final : option R }.

(** The while loop, psf_mix_em.py 141-203, with the limit 20000 as a parameter:
    [left] counts the passes still allowed.  [None] means the loop ran out
    without appending an answer.  [cur] is curr_log_likelihood (nan compares
    false, so a nan [cur] is never "converged"). *)
Fixpoint em_loop (im : list pixel) (thresh : R) (left count : nat)
         (ps : list comp) (cur : option R) : option answer :=
  match left with
  | O => None
  | S left' =>
      match step_likelihood im ps with
      | None => Some {| a_params := ps; a_loops := count; a_final := None |}
      | Some (ps', l) =>
          if (match cur with
              | Some c => if Rlt_dec (Rabs (l - c)) thresh then true else false
              | None => false end)
          then Some {| a_params := ps'; a_loops := count; a_final := Some l |}
          else em_loop im thresh left' (S count) ps' (Some l)
      end
  end.

(** One repeat with method_opt = 'em' from the initial values [init],
    psf_mix_em.py 131-203. *)
Definition em_fit (im : list (list R)) (thresh : R) (limit : nat) (init : list comp) : option answer :=
  em_loop (pixels im) thresh limit 0 init (log_likelihood (pixels im) init).

(** All repeats, psf_mix_em.py 108-203 with returnfull=True: one initial vector
    per repeat; a repeat that runs out of passes contributes nothing.  (The
    answers hold separate vectors here; in the code an answer from a first pass
    that gave nan holds the array all_init itself, which later repeats
    overwrite.) *)
Definition em_repeats (im : list (list R)) (thresh : R) (limit : nat) (inits : list (list comp)) : list answer :=
  flat_map (fun i => match em_fit im thresh limit i with Some a => [a] | None => [] end) inits.

(** The start values of method_init = 'random', psf_mix_em.py 45-49 and
    111-113: np.random.uniform(low, high) is in [low, high). *)
Definition random_start (mean_x mean_y : R) (c : comp) : Prop :=
  0 <= amp c < 1 /\ mean_x - 5 <= mx c < mean_x + 5 /\ mean_y - 5 <= my c < mean_y + 5 /\
  0 <= sx c < 50 /\ 0 <= sy c < 50 /\ -1 <= rho c < 1.

(** mean_params, psf_mix_em.py 24-26. *)
Definition mean_params (im : list pixel) : R * R :=
  (sum (fun p => pd p * px p) im / sum pd im, sum (fun p => pd p * py p) im / sum pd im).

(** The history of log-likelihoods of the loop when nothing stops it:
    psf_mix_em.py 141-203 with the convergence test left out (used to state
    what successive values do). *)
Fixpoint em_history (im : list pixel) (n : nat) (ps : list comp) : list R :=
  match n with
  | O => []
  | S m => match step_likelihood im ps with
           | None => []
           | Some (ps', l) => l :: em_history im m ps'
           end
  end.
