(** The weights of the Gaussians of a galaxy profile as unknowns of a probabilistic model:
    /repo/forcepho/mixtures/sersic_mix_twod.py sersic_prediction 17-41, sersic_model 44-141,
    get_kernel 144-168.

    Simplifications: floats are reals; a matrix is a function of two indices, looked at
    below [ngauss] only; np.linalg.inv is an argument; an exception, or an array with nan in
    it, is [None]. numpyro.sample is an effect: the model answers the list of its sites with
    their distributions, and takes the values of the sites as arguments. *)
From Coq Require Import Reals List String Bool Arith.
Import ListNotations.
Open Scope R_scope.

(** ** get_kernel 144-168 *)
Definition mat := nat -> nat -> R.
(** np.sum over an axis of length n *)
Fixpoint sumn (n : nat) (f : nat -> R) : R := match n with O => 0 | S n => sumn n f + f n end.
Definition matmul (n : nat) (A B : mat) : mat := fun i j => sumn n (fun k => A i k * B k j).
Definition transpose (A : mat) : mat := fun i j => A j i.
Definition diagonal (d : nat -> R) : mat := fun i j => if Nat.eqb i j then d i else 0.
(** np.diag of ones, the diagonal itself and those next to it, 148-150 and 153-155 *)
Definition bands (diag off : R) : mat := fun i j =>
  if Nat.eqb i j then diag else if (Nat.eqb i (S j) || Nat.eqb j (S i))%bool then off else 0.
(** 158-162 *)
Definition distance (i j : nat) : R := Rabs (INR i - INR j).
Definition exp_squared (scale : R) : mat := fun i j => exp (- (distance i j) ^ 2 / (2 * scale ^ 2)).

Section Kernel.
Context (inv : nat -> mat -> option mat).
(** 147-162; another name of a prior leaves Sigma unbound; np.ones(-1) raises *)
Definition raw_kernel (ngauss : nat) (prior : string) (scale : R) : option mat :=
  if String.eqb prior "triangular" then match ngauss with O => None | S _ => Some (bands 2 scale) end
  else if String.eqb prior "finite-difference" then
    match ngauss with O => None | S _ => let D := bands 2 (- scale) in inv ngauss (matmul ngauss (transpose D) D) end
  else if String.eqb prior "exp-squared" then (if Req_EM_T scale 0 then None else Some (exp_squared scale))
  else None.
(** 164-168; the root of a negative number is nan *)
Fixpoint nonneg_below (n : nat) (f : nat -> R) : bool :=
  match n with O => true | S n => (nonneg_below n f && (if Rle_dec 0 (f n) then true else false))%bool end.
Definition get_kernel (ngauss : nat) (prior : string) (scale : R) : option mat :=
  match raw_kernel ngauss prior scale with
  | None => None
  | Some Sigma =>
    if nonneg_below ngauss (fun i => Sigma i i) then
      let s := diagonal (fun i => sqrt (Sigma i i)) in
      match inv ngauss s with
      | None => None
      | Some sinv => Some (matmul ngauss sinv (matmul ngauss Sigma sinv))
      end
    else None
  end.
End Kernel.

(** ** sersic_prediction 17-41 *)
(** [weight]: one number for all components, or one for each *)
Inductive weights := WAll (w : R) | WEach (w : list R).
Definition spread (w : weights) (n : nat) : option (list R) :=
  match w with WAll w => Some (repeat w n) | WEach l => if Nat.eqb (List.length l) n then Some l else None end.
(** 32-37, one component at one pixel *)
Definition component (px py x y a : R) (wr : R * R) : R :=
  let '(w, r) := wr in
  let norm := a * w / (2 * PI * r * r) in
  let dx := (px - x) / r in
  let dy := (py - y) / r in
  norm * exp (- (1 / 2) * (dx ^ 2 + dy ^ 2)).
(** lnW takes the place of weight, 30-31; the answer with separate=True *)
Definition predict_separate (pix : list (R * R)) (x y a : R) (weight : weights) (lnW : option (list R)) (radii : list R) : option (list (list R)) :=
  let weight := match lnW with Some l => WEach (map exp l) | None => weight end in
  match spread weight (List.length radii) with
  | None => None
  | Some w => Some (map (fun p => map (component (fst p) (snd p) x y a) (combine w radii)) pix)
  end.
Definition total (l : list R) : R := fold_right Rplus 0 l.
Definition sersic_prediction (pix : list (R * R)) (x y a : R) (weight : weights) (lnW : option (list R)) (radii : list R) (bg : R) : option (list R) :=
  option_map (map (fun mu => total mu + bg)) (predict_separate pix x y a weight lnW radii).

(** ** sersic_model 44-141 *)
Inductive distribution := Uniform (lo hi : R) | Normal (mean sd : R) | Dirichlet (concentration : list R) | MultivariateNormal (loc : list R) (covariance : mat).
(** The values of the sites *)
Record values := mkValues { v_bg : R; v_x : R; v_y : R; v_a : R; v_weight : list R; v_lnW : list R }.
(** jnp.linspace(2, 1, n), 119 *)
Definition concentration (n : nat) : list R := map (fun k => 2 - INR k / INR (n - 1)) (seq 0 n).
Record settings := mkSettings { s_ngauss_neg : nat; s_xcen : R; s_ycen : R; s_dcen : R; s_radii : list R; s_gmax : R; s_maxbg : R;
  s_afix : option R; s_amax : R; s_prior : string; s_scale : R; s_lambda : R }.
Definition positive (x : R) : bool := if Rlt_dec 0 x then true else false.
(** [if afix], 108: neither None nor zero *)
Definition fixed_amplitude (a : option R) : option R := match a with Some a => if Req_EM_T a 0 then None else Some a | None => None end.
Definition sersic_model (inv : nat -> mat -> option mat) (s : settings) (pix : list (R * R)) (v : values) : option (list (string * distribution) * list R) :=
  let ngauss := List.length (s_radii s) in
  let '(site_bg, bg) := if positive (s_maxbg s) then ([("bg"%string, Uniform (- s_maxbg s) (s_maxbg s))], v_bg v) else ([], 0) in
  let '(site_xy, (x, y)) := if positive (s_dcen s) then ([("x"%string, Normal (s_xcen s) (s_dcen s)); ("y"%string, Normal (s_ycen s) (s_dcen s))], (v_x v, v_y v))
                            else ([], (s_xcen s, s_ycen s)) in
  if positive (s_gmax s) then None (* maxg is not defined, 101 *) else
  let '(site_a, tot) := match fixed_amplitude (s_afix s) with Some a => ([], a) | None => ([("a"%string, Uniform (1 / 2) (s_amax s))], v_a v) end in
  let weighted :=
    if String.eqb (s_prior s) "dirichlet" then Some ([("weight"%string, Dirichlet (concentration ngauss))], v_weight v)
    else match get_kernel inv ngauss (s_prior s) (s_scale s) with
         | None => None
         | Some K => Some ([("lnW"%string, MultivariateNormal (repeat (- ln (INR ngauss)) ngauss) (fun i j => s_lambda s * K i j))], map exp (v_lnW v))
         end in
  match weighted with
  | None => None
  | Some (site_w, w) =>
    match sersic_prediction pix x y tot (WEach w) None (s_radii s) bg with
    | None => None
    | Some mu => match s_ngauss_neg s with
                 | O => Some ((site_bg ++ site_xy ++ site_a ++ site_w)%list, mu)
                 | S _ => None (* NotImplementedError, 139 *)
                 end
    end
  end.

(** The prediction from a dictionary of sampled sites, as the comment at 23-28 has it: sites by
    name as keywords, the radii passed along, the rest by default 17-22 *)
Definition has (name : string) (sites : list (string * distribution)) : bool := existsb (fun p => String.eqb (fst p) name) sites.
Definition predict_sampled (sites : list (string * distribution)) (v : values) (radii : list R) (pix : list (R * R)) : option (list R) :=
  sersic_prediction pix (if has "x" sites then v_x v else 0) (if has "y" sites then v_y v else 0) (if has "a" sites then v_a v else 1)
    (if has "weight" sites then WEach (v_weight v) else WAll 1) (if has "lnW" sites then Some (v_lnW v) else None) radii
    (if has "bg" sites then v_bg v else 0).
