(** What a fit reports and hands on: /repo/forcepho/fitting.py run_lmc 255-342, get_pot
    370-412, run_opt 415-454, Result.fill 128-134 and Result.get_map 170-184;
    /repo/forcepho/tasks.py optimize 14-79 and sample 82-106; the model and start vector
    of /repo/forcepho/patches/device_patch.py prepare_model 58-70.

    Simplifications: floats are reals; the posterior is a function of the vector (its
    cache is C38); the optimiser, the sampler, the Cholesky test, the pseudo-inverse and
    the random draw are arguments, constrained by hypotheses of the theorems; logging,
    timing, messages and the scratchpad are left out. *)
From Verif Require Import Np SceneModel PosteriorModel.
From Verif Require BoundsModel.
From Coq Require Import Reals.
Open Scope R_scope.

(** The part of a Posterior object that a fit uses; [ndof] is 1.0 (model.py 63) *)
Record posterior := mkPost {
  tr : transform_kind; ndof : R; sampling : bool;
  ll : list R -> R; lpr : list R -> R; llg : list R -> list R; lprg : list R -> list R }.
(** lnprob_and_grad, model.py 214-220 *)
Definition lnprob (p : posterior) (z : list R) : R := lnp_of (tr p) (sampling p) (ll p) (lpr p) z.
Definition lnprob_grad (p : posterior) (z : list R) : list R := lnp_grad_of (tr p) (sampling p) (llg p) (lprg p) z.
(** nll, model.py 190-202 *)
Definition nll (p : posterior) (z : list R) : R := nll_of (ndof p) (lnprob p z).
Definition nll_grad (p : posterior) (z : list R) : list R := nll_grad_of (ndof p) (lnprob_grad p z).

(** ** run_opt 415-454 *)
(** scipy's OptimizeResult *)
Record scires := mkSci { s_x : list R; s_fun : R; s_jac : list R }.
(** scipy.optimize.minimize with method BFGS: the function, its gradient, the start *)
Definition optimizer := (list R -> R) -> (list R -> list R) -> list R -> scires.
Record opt_result := mkOpt { o_ndim : nat; o_start : list R; o_chain : list (list R); o_lnp : R; o_fun : R; o_jac : list R }.
Definition run_opt (bfgs : optimizer) (p : posterior) (q : list R) : opt_result :=
  let start := inverse_transform (tr p) q in
  let r := bfgs (nll p) (nll_grad p) start in
  mkOpt (List.length q) q (map (transform (tr p)) [s_x r]) (- (1 / 2) * s_fun r) (s_fun r) (s_jac r).

(** ** run_lmc 255-342 *)
(** Of the statistics of a sample: model_logp and tune *)
Record stat := mkStat { model_logp : R; tuned : bool }.
(** littlemcmc's _sample: function, gradient, start, draws, tune, discard_tuned_samples;
    the trace with one vector per sample *)
Definition sampler := (list R -> R) -> (list R -> list R) -> list R -> nat -> nat -> bool -> list (list R) * list stat.
Record lmc_result := mkLmc { l_ndim : nat; l_start : list R; l_chain : list (list R) }.
(** Only warmup[0] is used (325); an empty list is an IndexError *)
Definition run_lmc (nuts : sampler) (p : posterior) (q : list R) (n_draws : nat) (warmup : list nat) (discard : bool)
  : option (lmc_result * list stat) :=
  match warmup with
  | [] => None
  | w :: _ =>
    let start := inverse_transform (tr p) q in
    let (trace, stats) := nuts (lnprob p) (lnprob_grad p) start n_draws w discard in
    Some (mkLmc (List.length q) q (map (transform (tr p)) trace), stats)
  end.
(** Result.fill 131-134 *)
Definition n_tune (stats : list stat) : nat := List.length (filter tuned stats).
Definition n_sample (stats : list stat) : nat := (List.length stats - n_tune stats)%nat.
(** np.argmax: the first of the greatest; an error on an empty array *)
Fixpoint argmax_from (k best : nat) (x : R) (l : list R) : nat :=
  match l with
  | [] => best
  | y :: t => if Rlt_dec x y then argmax_from (S k) k y t else argmax_from (S k) best x t
  end.
Definition argmax (l : list R) : option nat := match l with [] => None | x :: t => Some (argmax_from 1 0 x t) end.
(** Result.get_map 170-184, structured=False *)
Definition get_map (chain : list (list R)) (stats : list stat) : option (list R) :=
  match argmax (map model_logp stats) with None => None | Some i => nth_error chain i end.

(** ** get_pot 370-412 *)
(** np.eye *)
Definition eye (n : nat) : list (list R) := map (fun i => map (fun j => if Nat.eqb i j then 1 else 0) (seq 0 n)) (seq 0 n).
(** cov[np.diag_indices_from(cov)] += x *)
Definition add_diag (x : R) (m : list (list R)) : list (list R) :=
  map (fun ir => upd (fst ir) (nth (fst ir) (snd ir) 0 + x) (snd ir)) (enumerate m).
(** The loop 396-405; [fuel] counts up to the 5 tries; [chol] says whether cholesky succeeds *)
Fixpoint regularise (chol : list (list R) -> bool) (x : R) (fuel : nat) (cov : list (list R)) : list (list R) :=
  match fuel with
  | O => cov
  | S n => if chol cov then cov else regularise chol x n (add_diag x cov)
  end.
(** np.diag of a matrix *)
Definition diag (m : list (list R)) : list R := map (fun ir => nth (fst ir) (snd ir) 0) (enumerate m).
(** 384-412 without a trace: the mass matrix given to the potential, and its diagonal
    (used when [full] is false) *)
Definition get_pot (chol : list (list R) -> bool) (n_dim : nat) (init_cov : option (list (list R))) (regular_variance : R) : list (list R) :=
  regularise chol regular_variance 5 (match init_cov with Some c => c | None => eye n_dim end).

(** ** tasks.py *)
Definition arow := (Z * srow R)%type.
(** Positions relative to the patch reference (Patch.zerocoords), in the catalog row
    instead of the scene made from it *)
Definition zero_row (ref : R * R) (r : srow R) : srow R :=
  match col r "ra", col r "dec" with
  | Some a, Some d => put_col (put_col r "ra" (a - fst ref)) "dec" (d - snd ref)
  | _, _ => r
  end.
(** prepare_model 58-70 with bounds: lower and upper of the transform and the start vector q *)
Definition prepare (bands : list string) (ref : R * R) (active : list arow) (bcat : list (srow (R * R))) : option (list R * list R * list R) :=
  match scene_from_catalog 0 bands (map (fun r => zero_row ref (snd r)) active), bounds_vectors Rminus bcat bands (SHAPE_COLS Galaxy) ref with
  | Some sc, Some (lo, up) => match get_all_source_params sc true with Some q => Some (lo, up, q) | None => None end
  | _, _ => None
  end.
(** cat[b] = vals for a column of a catalog; None if the column is not there *)
Definition put_column {A} (b : string) (vals : list A) (rows : list (srow A)) : option (list (srow A)) :=
  if Nat.eqb (List.length vals) (List.length rows) then
    mapM (fun rv => match col (fst rv) b with None => None | Some _ => Some (put_col (fst rv) b (snd rv)) end) (combine rows vals)
  else None.
Definition defined (l : list (BoundsModel.value * BoundsModel.value)) : option (list (R * R)) :=
  mapM (fun p => match p with (Some a, Some b) => Some (a, b) | _ => None end) l.
(** The loop 67-73: new fluxes and bounds in every band of the patch *)
Fixpoint set_fluxes (pinv : list (list R) -> list (list R)) (expansion : R) (bands : list string)
         (fluxes : list (list R)) (precisions : list (list (list R))) (acols : list (srow R)) (bcat : list (srow (R * R)))
  : option (list (srow R) * list (srow (R * R))) :=
  match bands with
  | [] => Some (acols, bcat)
  | b :: bs =>
    match fluxes, precisions with
    | f :: fs, P :: Ps =>
      match defined (BoundsModel.flux_bounds_precision expansion 10 f (diag (pinv P))) with
      | None => None
      | Some lohi =>
        match put_column b lohi bcat, put_column b f acols with
        | Some bcat, Some acols => set_fluxes pinv expansion bs fs Ps acols bcat
        | _, _ => None
        end
      end
    | _, _ => None
    end
  end.
(** The linear step 61-73.  [optfl] is optimize_fluxes (C30): fluxes and precisions per
    band, or, after a LinAlgError, the number of the band, which cannot be indexed (68) *)
Definition linear_step (optfl : list arow -> (list (list R) * list (list (list R))) + nat) (pinv : list (list R) -> list (list R)) (expansion : R)
           (bands : list string) (active : list arow) (bcat : list (srow (R * R))) : option (list arow * list (srow (R * R))) :=
  match optfl active with
  | inr _ => match bands with [] => Some (active, bcat) | _ => None end
  | inl (fs, Ps) =>
    match set_fluxes pinv expansion bands fs Ps (map snd active) bcat with
    | None => None
    | Some (acols, bcat) => Some (combine (map fst active) acols, bcat)
    end
  end.
(** optimize 17-79.  [ref_of] is the reference the patch takes for a set of active
    sources; [draw] is np.random.uniform; [like] the log-likelihood and gradient of the
    patch as functions of the bounded vector; [barriers] is config.add_barriers. *)
Definition optimize (bfgs : optimizer) (draw : list R -> list R -> list R) (like : list R -> R) (like_grad : list R -> list R) (barriers : bool)
           (bands : list string) (ref_of : list arow -> R * R)
           (linear : option ((list arow -> (list (list R) * list (list (list R))) + nat) * (list (list R) -> list (list R)) * R))
           (active : list arow) (bcat : list (srow (R * R))) : option (opt_result * list arow * list (srow (R * R))) :=
  let ref := ref_of active in
  match prepare bands ref active bcat with
  | None => None
  | Some (lo, up, q0) =>
    let p := mkPost (Bounded lo up) 1 false like
               (if barriers then prior_value (- (9 / 10)) lo up else fun _ => 0) like_grad
               (if barriers then prior_grad (- (9 / 10)) lo up else map (fun _ => 0)) in
    let opt := run_opt bfgs p (draw lo up) in
    match make_chaincat Rplus (o_chain opt) (List.length (hd [] (o_chain opt))) bands (map fst active) ref (SHAPE_COLS Galaxy) with
    | None => None
    | Some cc =>
      match get_sample_cat cc (-1)%Z active with
      | None => None
      | Some active =>
        match linear with
        | None => Some (opt, active, bcat)
        | Some (optfl, pinv, expansion) =>
          match linear_step optfl pinv expansion bands active bcat with
          | None => None
          | Some (active, bcat) => Some (opt, active, bcat)
          end
        end
      end
    end
  end.
(** sample 85-104: the model of the sampler and its start, in the box *)
Definition sample_start (bands : list string) (ref_of : list arow -> R * R) (active : list arow) (bcat : list (srow (R * R))) : option (list R * list R * list R) :=
  prepare bands (ref_of active) active bcat.
