(** The reference likelihood: /repo/forcepho/slow/likelihood.py (lnlike_multi 23-72,
    plan_sources 110-175, WorkPlan 178-269, FastWorkPlan 272-316), with the source
    attributes it reads from /repo/forcepho/sources.py.

    Simplifications: floats are reals; arrays over pixels are handled one pixel at
    a time; every source of a class has the same radii; a stamp is an object, not
    an index (source_meta=False, as SlowPosterior.evaluate calls it); exceptions
    are [None]. *)
From Verif Require Import Np KernelModel SlowModel SceneModel.
From Coq Require Import Reals.
Open Scope R_scope.

Record spixel := mkPix { q_x : R; q_y : R; q_value : R; q_ierr : R }.
(** A work plan: its stamp's pixels, filter name, metadata and coverage method
    (slow/stamp.py 96-101 returns 2 for every source), and its class *)
Record plan := mkPlan {
  pl_fast : bool; pl_pixels : list spixel; pl_filter : string; pl_stamp : stamp; coverage : source R -> Z }.
(** gaussmodel.GaussianImageGalaxy *)
Definition gig := list SlowGaussian.

(** [self.residual[i] -= I] over the Gaussians of one source, 224-232 *)
Definition work_residual (gs : gig) (q : spixel) : R :=
  fold_left (fun acc g => acc - fst (compute_gaussian g (q_x q) (q_y q))) gs 0.
(** [self.gradients[i] += np.matmul(g.derivs, dI_dphi)], 237 *)
Definition work_gradients (gs : gig) (q : spixel) : list R :=
  fold_left (fun acc g => row_add acc (matvec (derivs g) (snd (compute_gaussian g (q_x q) (q_y q))))) gs (repeat 0 7).
Definition total (l : list R) : R := fold_right Rplus 0 l.
(** WorkPlan.lnlike 239-252: the rows of the fixed sources stay zero (216, 223) *)
Definition work_chi (active fixed : list gig) (q : spixel) : R :=
  (q_value q + total (map (fun gs => work_residual gs q) active ++ map (fun _ => 0) fixed)) * q_ierr q.
Definition work_lnlike (px : list spixel) (active fixed : list gig) : R * list (list R) :=
  (- (1/2) * total (map (fun q => work_chi active fixed q * work_chi active fixed q) px),
   map (fun gs => map (fun k => total (map (fun q => nth k (work_gradients gs q) 0 * (work_chi active fixed q * q_ierr q)) px)) (seq 0 7)) active).

(** FastWorkPlan.process_pixels 282-306 *)
Definition fast_residual (active fixed : list gig) (q : spixel) : R :=
  fold_left (fun r gs => fold_left (fun r g => r - fst (compute_gaussian g (q_x q) (q_y q))) gs r) (active ++ fixed) (q_value q).
Definition fast_chi (active fixed : list gig) (q : spixel) : R := fast_residual active fixed q * q_ierr q.
Definition fast_chivar (active fixed : list gig) (q : spixel) : R := fast_chi active fixed q * q_ierr q.
(** np.matmul(dI_dphi, self.chivar): dI_dphi is (6, npix) *)
Definition against_chivar (active fixed : list gig) (px : list spixel) (g : SlowGaussian) : list R :=
  map (fun k => total (map (fun q => nth k (snd (compute_gaussian g (q_x q) (q_y q))) 0 * fast_chivar active fixed q) px)) (seq 0 6).
Definition fast_lnlike (px : list spixel) (active fixed : list gig) : R * list (list R) :=
  (- (1/2) * total (map (fun q => fast_chi active fixed q * fast_chi active fixed q) px),
   map (fun gs => fold_left (fun acc g => row_add acc (matvec (derivs g) (against_chivar active fixed px g))) gs (repeat 0 7)) active).

(** The entry 'compute_deriv' of the dictionary WorkPlan.compute_keywords (186),
    one object shared by all plans of both classes.  FastWorkPlan writes it (290,
    299).  WorkPlan unpacks two values from compute_gaussian (226), which fails when
    the entry is False. *)
Definition keywords := option bool.
Definition no_gaussians (gs : list gig) : bool := forallb (fun g => match g with [] => true | _ => false end) gs.
Definition plan_lnlike (kw : keywords) (fast : bool) (px : list spixel) (active fixed : list gig)
  : option (R * list (list R) * keywords) :=
  if fast then
    let kw := if no_gaussians (active ++ fixed) then kw else Some false in
    let kw := if no_gaussians active then kw else Some true in
    Some (fast_lnlike px active fixed, kw)
  else
    match kw with
    | Some false => if no_gaussians active then Some (work_lnlike px active fixed, kw) else None
    | _ => Some (work_lnlike px active fixed, kw)
    end.

Section Plan.
(** Galaxy radii and splined look-ups (sources.py 625-697), the radii of a
    SimpleGalaxy, and the q and pa properties of ConformalShearGalaxy (968-979) *)
Context (gal_radii : list R) (amps dan dar : R -> R -> list R) (simple_radii : list R) (qf paf : R -> R -> R).

(** source.covariances, amplitudes, damplitude_dsersic, damplitude_drh by class:
    sources.py 297-329, 646-697, 784-792, 857-865.  The base class has no
    covariances (NotImplementedError). *)
Definition equal_parts (radii : list R) : list R := map (fun _ => 1 / INR (List.length radii)) radii.
Definition zeros_like (radii : list R) : list R := map (fun _ => 0) radii.
(** convert_to_gaussians 96-120: the flux of the stamp's filter, or the only one *)
Definition stamp_flux (s : source R) (f : string) : option R :=
  match filter_index s f with
  | None => None
  | Some k => nth_error (flux s) (if Nat.eqb (List.length (flux s)) 1 then 0 else k)
  end.
Definition slow_of (s : source R) (f : string) : option slow_source :=
  match stamp_flux s f with
  | None => None
  | Some v =>
    let galaxy q pa := Some (mkSS (s_ra s) (s_dec s) q pa v gal_radii
      (amps (s_sersic s) (s_rhalf s)) (dan (s_sersic s) (s_rhalf s)) (dar (s_sersic s) (s_rhalf s))) in
    let plain radii := Some (mkSS (s_ra s) (s_dec s) (s_q s) (s_pa s) v radii (equal_parts radii) (zeros_like radii) (zeros_like radii)) in
    match s_kind s with
    | BaseSource => None
    | Galaxy | GalaxyNS => galaxy (s_q s) (s_pa s)
    | Shear | ShearNS => galaxy (qf (s_ep s) (s_ec s)) (paf (s_ep s) (s_ec s))
    | Star => plain [0]
    | SimpleGalaxy => plain simple_radii
    end
  end.

(** [(i * NDERIV + np.arange(NDERIV))[source.use_gradients]], 169; use_gradients is
    slice(0, 1 + npos + nshape), sources.py 331-338 *)
Definition NDERIV := 7%nat.
Definition grad_indices (i : nat) (s : source R) : list nat :=
  firstn (1 + npos (s_kind s) + nshape (s_kind s)) (seq (i * NDERIV) NDERIV).

(** The loop of plan_sources 149-170 over the sources from number [j] on, with [i]
    active sources so far.  (convert_to_gaussians here returns the Gaussians with
    their Jacobians, which get_gaussian_gradients adds for active sources.) *)
Fixpoint plan_loop (p : plan) (scene : list (source R)) (j i : nat) (rest : list (source R))
  : option (list gig * list gig * list nat * list nat) :=
  match rest with
  | [] => Some ([], [], [], [])
  | s :: rest =>
    if (coverage p s <=? 0)%Z then plan_loop p scene (S j) i rest
    else
      match slow_of s (pl_filter p) with
      | None => None
      | Some ss =>
        let g := convert_to_gaussians ss (pl_stamp p) in
        if (coverage p s =? 1)%Z then
          match plan_loop p scene (S j) i rest with
          | Some (act, fix_, ti, gi) => Some (act, g :: fix_, ti, gi)
          | None => None
          end
        else
          match param_indices scene j (pl_filter p), plan_loop p scene (S j) (S i) rest with
          | Some inds, Some (act, fix_, ti, gi) => Some (g :: act, fix_, inds ++ ti, grad_indices i s ++ gi)
          | _, _ => None
          end
      end
  end.
(** plan_sources 139-175 with its assertion that no index repeats *)
Fixpoint nodupb (l : list nat) : bool :=
  match l with [] => true | a :: t => negb (existsb (Nat.eqb a) t) && nodupb t end.
Definition plan_sources (p : plan) (scene : list (source R)) : option (list gig * list gig * list nat * list nat) :=
  match plan_loop p scene 0 0 scene with
  | Some (act, fix_, ti, gi) => if nodupb ti then Some (act, fix_, ti, gi) else None
  | None => None
  end.

(** [lnp_grad[theta_inds] += values]: IndexError out of range, ValueError for
    another number of values (one value would be broadcast, which cannot happen
    here: every source gives at least three) *)
Definition add_at (grad : list R) (inds : list nat) (vals : list R) : option (list R) :=
  if negb (Nat.eqb (List.length inds) (List.length vals)) then None
  else if forallb (fun i => Nat.ltb i (List.length grad)) inds
  then Some (fold_left (fun g iv => upd (fst iv) (nth (fst iv) grad 0 + snd iv) g) (combine inds vals) grad)
  else None.

(** lnlike_multi 54-72, with the state of the shared dictionary before and after *)
Fixpoint lnlike_plans (kw : keywords) (scene : list (source R)) (plans : list plan) (lnp : R) (grad : list R)
  : option (R * list R * keywords) :=
  match plans with
  | [] => Some (lnp, grad, kw)
  | p :: t =>
    match plan_sources p scene with
    | None => None
    | Some (act, fix_, ti, gi) =>
      match plan_lnlike kw (pl_fast p) (pl_pixels p) act fix_ with
      | None => None
      | Some (v, g, kw) =>
        match mapM (nth_error (concat g)) gi with
        | None => None
        | Some vals =>
          match add_at grad ti vals with
          | None => None
          | Some grad => lnlike_plans kw scene t (lnp + v) grad
          end
        end
      end
    end
  end.
Definition lnlike_multi (kw : keywords) (Theta : list R) (scene : list (source R)) (plans : list plan)
  : option (R * list R * keywords) :=
  match set_all_source_params scene Theta with
  | None => None
  | Some scene => lnlike_plans kw scene plans 0 (repeat 0 (List.length Theta))
  end.
(** negative_lnlike_multi 75-82 with grad=True *)
Definition negative_lnlike_multi (kw : keywords) (Theta : list R) (scene : list (source R)) (plans : list plan)
  : option (R * list R) :=
  match lnlike_multi kw Theta scene plans with
  | Some (v, g, _) => Some (- v, map Ropp g)
  | None => None
  end.
End Plan.
