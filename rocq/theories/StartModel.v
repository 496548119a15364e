(** Starting values of a PSF mixture fit, its repeats and what it returns:
    /repo/forcepho/mixtures/psf_mix_em.py noncentral_moment 7-11, central_moment 14-20, mean_params 24-26,
    cov_params 30-38, easy_init 41-42, fit_mvn_mix 84-209 (the expectation maximisation of one repeat is in EmModel).

    Arithmetic is over the reals; an image is the list of its pixels; a parameter vector with a nan in it
    is [None].  [None] in other places is said there. *)
From Coq Require Import Reals List.
From Verif Require Import EmModel.
Import ListNotations.
Open Scope R_scope.

(** 7-11 *)
Definition noncentral_moment (im : list pixel) (a b : nat) : R := sum (fun p => pd p * px p ^ a * py p ^ b) im.
(** 14-20; [None]: not a finite number.  (x ** 0 is one even of a nan.) *)
Definition central_moment (im : list pixel) (a b : nat) : option R :=
  if Req_EM_T (sum pd im) 0 then match a, b with O, O => Some (sum pd im) | _, _ => None end
  else let m := mean_params im in Some (sum (fun p => pd p * (px p - fst m) ^ a * (py p - snd m) ^ b) im).

(** cov_params 30-38 behind mean_params 24-26 and the sum, easy_init 41-42 *)
Definition easy_init (im : list pixel) : option comp :=
  let tot := sum pd im in
  if Req_EM_T tot 0 then None else
  let m := mean_params im in
  let vx := sum (fun p => pd p * (px p - fst m) ^ 2) im / tot in
  let vy := sum (fun p => pd p * (py p - snd m) ^ 2) im / tot in
  if Rlt_dec vx 0 then None else if Rlt_dec vy 0 then None else
  if Req_EM_T (sqrt vx) 0 then None else if Req_EM_T (sqrt vy) 0 then None else
  Some {| amp := tot; mx := fst m; my := snd m; sx := sqrt vx; sy := sqrt vy;
          rho := sum (fun p => pd p * (px p - fst m) * (py p - snd m) / tot) im / (sqrt vx * sqrt vy) |}.

(** [residual_image -= - mvn_pdf_2d(...)], 118 *)
Definition next_residual (c : comp) (im : list pixel) : list pixel :=
  map (fun p => {| px := px p; py := py p; pd := pd p - - mvn_pdf (px p) (py p) c |}) im.
(** method_init = 'greedy', 114-118; a component whose density is not finite leaves a nan residual for the next *)
Fixpoint greedy (num_mix : nat) (im : list pixel) : option (list comp) :=
  match num_mix with
  | O => Some []
  | S n =>
    match easy_init im with
    | None => None
    | Some c =>
      match n with
      | O => Some [c]
      | _ => if finite_comp c then match greedy n (next_residual c im) with Some l => Some (c :: l) | None => None end else None
      end
    end
  end.

(** recon_image 98, and error_residual 102; [None]: nan *)
Definition recon_image (im : list pixel) (v : option (list comp)) : option (list R) :=
  match v with
  | Some ps => if forallb finite_comp ps then Some (map (fun p => mix (px p) (py p) ps) im) else None
  | None => None
  end.
Definition error_residual (im : list pixel) (v : option (list comp)) : option R :=
  match recon_image im v with
  | Some r => Some (sqrt (sum (fun pr => (pd (fst pr) - snd pr) ^ 2) (combine im r)))
  | None => None
  end.
(** The dictionary of an answer as the caller reads it *)
Record dict := mkDict { d_params : option (list comp); d_loops : nat; d_final : option R; d_recon : option (list R); d_error : option R }.

(** One repeat, 108-203.  [curr_params = all_init] (134) does not copy: an answer stored in the first pass
    because the likelihood is nan (186) holds the array all_init itself, [true] here. *)
Definition repeat1 (im : list (list R)) (thresh : R) (limit : nat) (start : option (list comp)) : option (bool * dict) :=
  let store alias ps loops final := Some (alias, mkDict ps loops final (recon_image (pixels im) ps) (error_residual (pixels im) ps)) in
  match start with
  | None => match limit with O => None | S _ => store true None 0%nat None end
  | Some init =>
    match em_fit im thresh limit init with
    | None => None
    | Some a => store (match a_loops a, a_final a with O, None => true | _, _ => false end) (Some (a_params a)) (a_loops a) (a_final a)
    end
  end.
(** What is read in the end: all_init is the vector of the last repeat *)
Definition read_dict (last_start : option (list comp)) (a : bool * dict) : dict :=
  let '(alias, d) := a in
  if alias then mkDict last_start (d_loops d) (d_final d) (d_recon d) (d_error d) else d.

Inductive method_opt := Scipy_ls | Em.
(** ans_repeat 108-203; [starts] has the vector all_init of each repeat.  With 'scipy_ls' create_ans lacks
    an argument (130), or least_squares raises before that; [None] is an exception. *)
Definition fit_all (opt : method_opt) (im : list (list R)) (thresh : R) (limit : nat) (starts : list (option (list comp))) : option (list dict) :=
  match opt with
  | Scipy_ls => match starts with [] => Some [] | _ :: _ => None end
  | Em => Some (map (read_dict (last starts None))
                    (flat_map (fun s => match repeat1 im thresh limit s with Some a => [a] | None => [] end) starts))
  end.
(** np.argmin: the first nan, or else the first of the least *)
Fixpoint first_nan (l : list (option R)) : option nat :=
  match l with [] => None | None :: _ => Some O | Some _ :: t => option_map S (first_nan t) end.
Fixpoint least_from (best : nat) (v : R) (i : nat) (l : list (option R)) : nat :=
  match l with
  | [] => best
  | Some x :: t => if Rlt_dec x v then least_from i x (S i) t else least_from best v (S i) t
  | None :: t => least_from best v (S i) t
  end.
Definition np_argmin (l : list (option R)) : option nat :=
  match l with
  | [] => None
  | x :: t => match first_nan l with Some k => Some k | None => match x with Some v => Some (least_from 0 v 1 t) | None => None end end
  end.
(** returnfull=False, 206-209 *)
Definition fit_one (opt : method_opt) (im : list (list R)) (thresh : R) (limit : nat) (starts : list (option (list comp))) : option dict :=
  match fit_all opt im thresh limit starts with
  | Some l => match np_argmin (map d_error l) with Some k => nth_error l k | None => None end
  | None => None
  end.
