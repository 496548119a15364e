(** C64: a posterior can be built, asked, checked and fitted by every driver. *)
From Coquelicot Require Import Coquelicot.
From Coq Require Import Reals Lra Lia.
From Verif Require Import Np NpFacts PosteriorModel PosteriorSpec PosteriorFacts PosteriorProps DriverModel DriverFacts.
Open Scope R_scope.

(** ** Construction *)
Lemma np_any_spec : forall l, np_any l = true <-> exists v x, l = Some v /\ In x v /\ x <> 0.
Proof.
  intros [l|]; cbn; split; intros H; try discriminate.
  - apply existsb_exists in H. destruct H as (x & Hx & E). exists l, x. repeat split; auto.
    intros ->. unfold reqb in E. destruct (Req_EM_T 0 0); [discriminate|congruence].
  - destruct H as (v & x & E & Hx & Hn). injection E as ->. apply existsb_exists. exists x. split; [exact Hx|].
    unfold reqb. destruct (Req_EM_T x 0); [contradiction|reflexivity].
  - destruct H as (v & x & E & _). discriminate.
Qed.
(** The posterior has the transform it was given, or the box it was given, never both; the two
    bounds must each have an entry that is not zero. *)
Theorem C64_built : forall t lower upper others k, posterior_init t lower upper others = Some k <->
  (t <> NoTransform /\ k = t /\ lower = None /\ upper = None /\ others = []) \/
  (t = NoTransform /\ others = [] /\ exists lo up, lower = Some lo /\ upper = Some up /\ k = Bounded lo up /\
     List.length lo = List.length up /\ (exists x, In x lo /\ x <> 0) /\ (exists x, In x up /\ x <> 0)).
Proof.
  intros t lower upper others k. unfold posterior_init.
  assert (T : is_none t = true <-> t = NoTransform) by (destruct t; cbn; split; congruence).
  destruct (is_none t) eqn:E.
  - assert (Et : t = NoTransform) by now apply T. cbn [negb].
    destruct (np_any lower && np_any upper)%bool eqn:A; cbn [Bool.eqb].
    + apply andb_true_iff in A. destruct A as (A1 & A2). apply np_any_spec in A1. apply np_any_spec in A2.
      destruct A1 as (lo & x & -> & Hx & Hx0), A2 as (up & y & -> & Hy & Hy0).
      destruct others as [|s others].
      * destruct (Nat.eqb_spec (List.length up) (List.length lo)); split; intros H.
        -- injection H as <-. right. repeat split; auto. exists lo, up. repeat split; eauto.
        -- destruct H as [(H & _)|(_ & _ & lo' & up' & E1 & E2 & -> & _)]; [congruence|]. congruence.
        -- discriminate.
        -- destruct H as [(H & _)|(_ & _ & lo' & up' & E1 & E2 & _ & L & _)]; [congruence|]. injection E1 as <-. injection E2 as <-. congruence.
      * split; [discriminate|]. intros [(H & _)|(_ & H & _)]; congruence.
    + split; [discriminate|]. intros [(H & _)|(_ & _ & lo & up & -> & -> & _ & _ & (x & Hx & Hx0) & (y & Hy & Hy0))]; [congruence|].
      rewrite (proj2 (np_any_spec (Some lo))) in A by eauto. rewrite (proj2 (np_any_spec (Some up))) in A by eauto. discriminate.
  - assert (Et : t <> NoTransform) by (intros C; apply T in C; congruence). cbn [negb].
    destruct (np_any lower && np_any upper)%bool eqn:A; cbn [Bool.eqb].
    + split; [discriminate|]. intros [(_ & _ & -> & -> & _)|(H & _)]; [discriminate|congruence].
    + destruct lower, upper, others; split; intros H; try discriminate;
      try (destruct H as [(_ & ? & ? & ? & ?)|(H & _)]; congruence).
      injection H as <-. left. auto.
Qed.
Print Assumptions C64_built.
(** A proper box whose lower (or upper) bounds are all zero is refused. *)
Theorem C64_zero_bounds_refuted : forall lo up others pr sampling like,
  (forall x, In x lo -> x = 0) \/ (forall x, In x up -> x = 0) ->
  fast_init NoTransform (Some lo) (Some up) others pr sampling like = None.
Proof.
  intros lo up others pr sampling like H. unfold fast_init.
  destruct (posterior_init NoTransform (Some lo) (Some up) others) eqn:E; [|reflexivity]. exfalso.
  apply C64_built in E. destruct E as [(E & _)|(_ & _ & lo' & up' & E1 & E2 & _ & _ & (x & Hx & Hx0) & (y & Hy & Hy0))]; [congruence|].
  injection E1 as <-. injection E2 as <-. destruct H as [H|H]; [apply Hx0, H, Hx|apply Hy0, H, Hy].
Qed.
Print Assumptions C64_zero_bounds_refuted.
Example C64_zero_bounds_case : box [0; 0] [1; 2] [1/2; 1] /\ (forall x, In x [0; 0] -> x = 0).
Proof. split; [split; [reflexivity|split; [reflexivity|]]; intros [|[|i]] Hi; cbn in *; try lra; lia|]. cbn. intuition. Qed.

(** ** What a posterior answers *)
(** The prior's value and gradient; a missing prior counts for nothing *)
Definition prior_at (pr : option prior) (q : list R) : R * list R :=
  match pr with Some f => f q | None => (0, repeat 0 (List.length q)) end.
Lemma zip_zero : forall l n, List.length l = n -> zip Rplus l (repeat 0 n) = l.
Proof.
  induction l as [|x l IH]; intros n H; cbn in H; subst n; [reflexivity|].
  cbn [repeat List.length]. change (zip Rplus (x :: l) (0 :: repeat 0 (List.length l))) with ((x + 0) :: zip Rplus l (repeat 0 (List.length l))).
  rewrite IH by reflexivity. rewrite Rplus_0_r. reflexivity.
Qed.
Theorem C64_fast : forall t lower upper others pr sampling ll llg o,
  fast_init t lower upper others pr sampling (fun q => Some (ll q, llg q)) = Some o ->
  forall k, posterior_init t lower upper others = Some k -> forall z, suits k z ->
  let q := transform k z in
  exists g, evaluate o z = Some (ll q + fst (prior_at pr q) + (if sampling then lndetjac k z else 0), g) /\
    nll o z = Some (- (ll q + fst (prior_at pr q) + (if sampling then lndetjac k z else 0)), map Ropp g) /\
    nll_nograd o z = option_map fst (nll o z) /\
    ((forall v, List.length v = List.length z -> is_gradient_at ll (llg v) v) ->
     (forall v, List.length v = List.length z -> is_gradient_at (fun v => fst (prior_at pr v)) (snd (prior_at pr v)) v) ->
     is_gradient_at (fun z => ll (transform k z) + fst (prior_at pr (transform k z)) + (if sampling then lndetjac k z else 0)) g z).
Proof.
  intros t lower upper others pr sampling ll llg o Ho k Hk z Hs q.
  unfold fast_init in Ho. rewrite Hk in Ho. injection Ho as <-.
  assert (Hp : lnprior (mkObj Fast k (Some 1) (Some pr) None sampling (fun q => Some (ll q, llg q))) q = Some (prior_at pr q)).
  { unfold lnprior, prior_at. cbn. destruct pr; reflexivity. }
  unfold nll, nll_nograd, evaluate. cbn [a_transform a_like a_class a_sampling a_ndof]. fold q. rewrite Hp.
  destruct (prior_at pr q) as [v pg] eqn:Ep. cbn [fst].
  assert (D : forall x, - x / 1 = - x) by (intros; field).
  assert (DM : forall l, map (fun x => - x / 1) l = map Ropp l) by (intros; apply map_ext; intros; apply D).
  set (g := if sampling then zip Rplus (zip Rmult (zip Rplus (llg q) pg) (jacobian k z)) (lndetjac_grad k z) else zip Rmult (zip Rplus (llg q) pg) (jacobian k z)).
  exists g.
  assert (G : (forall v, List.length v = List.length z -> is_gradient_at ll (llg v) v) ->
     (forall v, List.length v = List.length z -> is_gradient_at (fun v => fst (prior_at pr v)) (snd (prior_at pr v)) v) ->
     is_gradient_at (fun z => ll (transform k z) + fst (prior_at pr (transform k z)) + (if sampling then lndetjac k z else 0)) g z).
  { intros H1 H2.
    assert (Lq : List.length q = List.length z).
    { unfold q. destruct k; try reflexivity. cbn in Hs. apply C17_transform_inside. exact Hs. }
    pose proof (C18_posterior_gradient k sampling ll llg (fun v => fst (prior_at pr v)) (fun v => snd (prior_at pr v)) z Hs) as C.
    specialize (C (H1 q Lq) (H2 q Lq)).
    unfold lnp_of, lnp_grad_of in C. cbv zeta in C. fold q in C. rewrite Ep in C. cbn [snd] in C. fold g in C.
    destruct C as (CL & CD). split; [exact CL|]. intros i Hi. specialize (CD i Hi).
    eapply derivable_pt_lim_ext; [|exact CD]. intros x. cbv beta. destruct sampling; ring. }
  destruct sampling; cbv iota beta; (split; [f_equal; f_equal; ring|]); (split; [f_equal; rewrite DM, D; f_equal; ring|]); (split; [reflexivity|exact G]).
Qed.
Print Assumptions C64_fast.
(** The slow posterior answers only if it was given a prior (it never sets the attribute that
    the inherited method reads), and its nll, which the optimisers use, always fails. *)
Theorem C64_slow_refuted : forall t like z, evaluate (slow_init t None like) z = None.
Proof. reflexivity. Qed.
Theorem C64_slow_nll_refuted : forall t pr like z,
  nll (slow_init t pr like) z = None /\ nll_nograd (slow_init t pr like) z = None.
Proof. intros. unfold nll, nll_nograd. destruct (evaluate (slow_init t pr like) z) as [[l g]|]; split; reflexivity. Qed.
Print Assumptions C64_slow_nll_refuted.
Theorem C64_slow_partial : forall t f ll llg z,
  let q := transform t z in
  evaluate (slow_init t (Some f) (fun q => Some (ll q, llg q))) z =
    Some (ll q + fst (f q) + lndetjac t z, zip Rplus (zip Rmult (zip Rplus (llg q) (snd (f q))) (jacobian t z)) (lndetjac_grad t z)).
Proof. intros. unfold evaluate, lnprior. cbn. fold q. destruct (f q); reflexivity. Qed.
Print Assumptions C64_slow_partial.

(** ** check_grad *)
Section C64check.
Context {P : Type} (evalf : bool -> P -> list R -> option (R * list R)) (neg : R -> R).
(** Whatever was asked before, check_grad returns the gradient at the vector and the central
    differences of the log-probability around it, and changes neither the vector nor any other
    array of the caller. *)
Theorem C64_check_grad : forall s next z f gr delta,
  (forall v, List.length v = List.length (heap s z) -> evalf (sampling_sw s) (prior_fn s) v = Some (f v, gr v) /\ List.length (gr v) = List.length v) ->
  (z < next)%nat ->
  (match c_z s with
   | Init => exists x, In x (heap s z) /\ x <> -99
   | Ref id => (id < next)%nat /\ List.length (heap s id) = List.length (heap s z) /\ c_lnp s = Some (f (heap s id), gr (heap s id))
   end) ->
  (match delta with Number _ => True | Array l => List.length l = List.length (heap s z) end) ->
  exists s' num, check_grad evalf neg s next z delta = (s', Some (gr (heap s z), num)) /\
    List.length num = List.length (heap s z) /\
    (forall i, (i < List.length (heap s z))%nat ->
       let d := match delta with Number d => d | Array l => nth i l 0 end in
       nth i num 0 = (f (upd i (nth i (heap s z) 0 + d) (heap s z)) - f (upd i (nth i (heap s z) 0 - d) (heap s z))) / (2 * d)) /\
    (forall j, (j < next)%nat -> heap s' j = heap s j).
Proof.
  intros s next z f gr delta Hev Hz Hc Hd. set (z0 := heap s z) in *. set (n := List.length z0) in *.
  assert (HE : forall v, List.length v = n -> evalf (sampling_sw s) (prior_fn s) v = Some (f v, gr v)) by (intros; apply Hev; assumption).
  assert (A : exists s1, ask reqb (-99) neg evalf s Grad z = (s1, AnsG (gr z0)) /\
     same_settings (sampling_sw s) (prior_fn s) s1 /\ held n f gr s1 next /\ heap s1 = heap s).
  { destruct (c_z s) as [|id] eqn:Ez.
    - unfold ask, changed. rewrite Ez. fold z0.
      assert (X : existsb (fun x => negb (reqb x (-99))) z0 = true).
      { apply existsb_exists. destruct Hc as (x & Hx & Hn). exists x. split; [exact Hx|].
        destruct (reqb x (-99)) eqn:E; [apply reqb_true in E; contradiction|reflexivity]. }
      rewrite X, HE by reflexivity. eexists. split; [reflexivity|]. split; [split; reflexivity|]. split; [|reflexivity].
      exists z. cbn. auto.
    - destruct Hc as (H1 & H2 & H3).
      destruct (ask_same evalf neg (sampling_sw s) (prior_fn s) n f gr HE s next z Grad) as (s1 & E1 & A1 & B1 & C1).
      + split; reflexivity.
      + exists id. auto.
      + reflexivity.
      + exact Hz.
      + exists s1. split; [exact E1|]. auto. }
  destruct A as (s1 & E1 & A1 & B1 & C1). unfold check_grad. fold z0. rewrite E1.
  assert (Lg : List.length (gr z0) = n) by (apply (proj2 (Hev z0 eq_refl))).
  rewrite Lg.
  set (dl := match delta with Number d => repeat d n | Array l => l end).
  assert (Ed : deltas n delta = Some dl).
  { unfold deltas, dl. destruct delta; [reflexivity|]. rewrite (proj2 (Nat.eqb_eq _ _) Hd). reflexivity. }
  assert (Ld : List.length dl = n) by (unfold dl; destruct delta; [apply repeat_length|exact Hd]).
  rewrite Ed.
  destruct (check_loop_spec evalf neg (sampling_sw s) (prior_fn s) n f gr HE dl s1 next z0 0 A1 B1 eq_refl ltac:(lia)) as (s2 & l & E2 & L2 & N2 & A2 & _ & C2).
  rewrite E2. exists s2, (l ++ repeat 0 (List.length z0 - List.length l)). split; [reflexivity|].
  assert (Hl : List.length l = n) by lia.
  replace (List.length z0 - List.length l)%nat with 0%nat by (unfold n in *; lia). cbn [repeat]. rewrite app_nil_r.
  split; [exact Hl|]. split.
  - intros i Hi. cbv zeta. set (d := match delta with Number d => d | Array l => nth i l 0 end). rewrite N2 by lia. unfold quotient. rewrite Nat.add_0_l.
    assert (En : nth i dl 0 = d).
    { unfold dl, d. destruct delta as [r|l']; [|reflexivity]. rewrite nth_indep with (d' := r) by (rewrite repeat_length; exact Hi). apply nth_repeat. }
    rewrite En. reflexivity.
  - intros j Hj. rewrite C2 by exact Hj. rewrite C1. reflexivity.
Qed.
(** The numerical gradient it returns is within M/6 delta^2 of the true partial derivatives,
    M bounding the third derivative along the coordinate: a right gradient passes and a
    gradient that is off by more is seen to be off. *)
Theorem C64_check_error : forall s next z f gr delta dlnp num s' i M,
  (forall v, List.length v = List.length (heap s z) -> evalf (sampling_sw s) (prior_fn s) v = Some (f v, gr v) /\ List.length (gr v) = List.length v) ->
  (z < next)%nat ->
  (match c_z s with
   | Init => exists x, In x (heap s z) /\ x <> -99
   | Ref id => (id < next)%nat /\ List.length (heap s id) = List.length (heap s z) /\ c_lnp s = Some (f (heap s id), gr (heap s id))
   end) ->
  check_grad evalf neg s next z delta = (s', Some (dlnp, num)) ->
  (i < List.length (heap s z))%nat ->
  let g := fun t => f (upd i t (heap s z)) in
  let c := nth i (heap s z) 0 in
  let d := match delta with Number d => d | Array l => nth i l 0 end in
  0 < d ->
  (forall t k, (k <= 3)%nat -> ex_derive_n g k t) ->
  (forall t, c - d <= t <= c + d -> Rabs (Derive_n g 3 t) <= M) ->
  Rabs (nth i num 0 - Derive g c) <= M / 6 * d ^ 2 /\
  (is_derive g c (nth i dlnp 0) -> Rabs (nth i num 0 - nth i dlnp 0) <= M / 6 * d ^ 2) /\
  (M / 6 * d ^ 2 < Rabs (nth i num 0 - nth i dlnp 0) -> ~ is_derive g c (nth i dlnp 0)).
Proof.
  intros s next z f gr delta dlnp num s' i M Hev Hz Hc E Hi g c d Hd Hsm HM.
  assert (Hdl : match delta with Number _ => True | Array l => List.length l = List.length (heap s z) end).
  { destruct delta as [|l]; [exact I|]. unfold check_grad in E.
    destruct (ask reqb (-99) neg evalf s Grad z) as [s1 a] eqn:Ea. destruct a as [v|dl|v dl|]; try discriminate.
    assert (Ld : List.length dl = List.length (heap s z)).
    { unfold ask in Ea. destruct (changed reqb (-99) s z) eqn:Ech.
      - rewrite (proj1 (Hev _ eq_refl)) in Ea. cbn [reply] in Ea. injection Ea as _ <-. apply Hev. reflexivity.
      - destruct (c_z s) as [|id] eqn:Ez.
        + exfalso. unfold changed in Ech. rewrite Ez in Ech. destruct Hc as (x & Hx & Hn).
          assert (X : existsb (fun x => negb (reqb x (-99))) (heap s z) = true).
          { apply existsb_exists. exists x. split; [exact Hx|]. destruct (reqb x (-99)) eqn:Eq; [apply reqb_true in Eq; contradiction|reflexivity]. }
          congruence.
        + destruct Hc as (_ & L & Hc). rewrite Hc in Ea. cbn [reply] in Ea. injection Ea as _ <-.
          rewrite (proj2 (Hev (heap s id) L)). exact L. }
    rewrite Ld in E. unfold deltas in E. destruct (Nat.eqb_spec (List.length l) (List.length (heap s z))); [assumption|discriminate]. }
  destruct (C64_check_grad s next z f gr delta Hev Hz Hc Hdl) as (s2 & num' & E' & _ & N & _).
  rewrite E' in E. injection E as _ <- <-. specialize (N i Hi). cbv zeta in N. fold d c in N. rewrite N.
  pose proof (central_difference g c d M Hd Hsm HM) as C. unfold g in C at 1 2.
  split; [exact C|].
  assert (K : forall D, is_derive g c D -> Rabs ((f (upd i (c + d) (heap s z)) - f (upd i (c - d) (heap s z))) / (2 * d) - D) <= M / 6 * d ^ 2).
  { intros D HD. rewrite <- (is_derive_unique _ _ _ HD). exact C. }
  split; [apply K|]. intros H1 H2. apply K in H2. lra.
Qed.
End C64check.
Print Assumptions C64_check_grad.
Print Assumptions C64_check_error.

(** ** run_dynesty *)
(** What dynesty promises: its samples are prior transforms of points of the unit cube, with
    their log-likelihoods. *)
Definition nested_ok (dyn : nested) : Prop := forall f pt n samples logl, dyn f pt n = Some (samples, logl) ->
  List.length logl = List.length samples /\
  forall k row, nth_error samples k = Some row -> exists u v, List.length u = n /\ (forall x, In x u -> 0 <= x <= 1) /\
    row = pt u /\ f row = Some v /\ nth_error logl k = Some v.
Definition box_args (lo : list R) (b : bound_arg) (up : list R) : Prop :=
  match b with Num x => up = repeat x (List.length lo) | Arr l => up = l end /\
  List.length up = List.length lo /\ forall i, (i < List.length lo)%nat -> nth i lo 0 < nth i up 0.
Lemma prior_transform_nth : forall lo up u i, List.length up = List.length lo -> List.length u = List.length lo -> (i < List.length lo)%nat ->
  List.length (prior_transform lo (zip Rminus up lo) u) = List.length lo /\
  nth i (prior_transform lo (zip Rminus up lo) u) 0 = nth i lo 0 + (nth i up 0 - nth i lo 0) * nth i u 0.
Proof.
  intros lo up u i H1 H2 Hi. unfold prior_transform.
  assert (L1 : List.length (zip Rminus up lo) = List.length lo) by (rewrite zip_length; lia).
  assert (L2 : List.length (zip Rmult (zip Rminus up lo) u) = List.length lo) by (rewrite zip_length; lia).
  split; [rewrite zip_length; lia|].
  rewrite (zip_nth _ _ _ _ 0 0) by lia. rewrite (zip_nth _ _ _ _ 0 0) by lia. rewrite (zip_nth _ _ _ _ 0 0) by lia. reflexivity.
Qed.
(** The samples lie in the box, carry the posterior's log-probability, and a point uniform in
    the unit cube is made uniform in the box. *)
Theorem C64_dynesty : forall dyn o lo b up r, nested_ok dyn -> box_args lo b up -> run_dynesty dyn o (Arr lo) b = Some r ->
  d_ndim r = List.length lo /\ List.length (d_lnp r) = List.length (d_chain r) /\
  forall k row, nth_error (d_chain r) k = Some row ->
    List.length row = List.length lo /\
    (forall i, (i < List.length lo)%nat -> nth i lo 0 <= nth i row 0 <= nth i up 0) /\
    exists v, nth_error (d_lnp r) k = Some v /\ lnprob o row = Some v.
Proof.
  intros dyn o lo b up r Hd (Hb & Hl & Hlt) E. unfold run_dynesty in E.
  assert (Es : spread (List.length lo) b = Some up).
  { unfold spread. destruct b; subst up; [reflexivity|]. rewrite (proj2 (Nat.eqb_eq _ _) Hl). reflexivity. }
  rewrite Es in E. destruct (dyn _ _ _) as [[samples logl]|] eqn:Ed; [|discriminate]. injection E as <-.
  apply Hd in Ed. destruct Ed as (L & H). cbn [d_ndim d_lnp d_chain]. split; [reflexivity|]. split; [exact L|].
  intros k row Hk. destruct (H k row Hk) as (u & v & Lu & Hu & -> & Hf & Hv).
  split.
  { destruct lo as [|x lo]; [reflexivity|]. apply (prior_transform_nth _ _ _ 0); cbn; try lia; assumption. }
  split; [|exists v; auto].
  intros i Hi. destruct (prior_transform_nth lo up u i Hl Lu Hi) as (_ & ->).
  assert (0 <= nth i u 0 <= 1) by (apply Hu, nth_In; lia). specialize (Hlt i Hi). nra.
Qed.
Print Assumptions C64_dynesty.
Theorem C64_dynesty_uniform : forall lo up u i t, List.length up = List.length lo -> List.length u = List.length lo -> (i < List.length lo)%nat ->
  nth i lo 0 < nth i up 0 ->
  (nth i (prior_transform lo (zip Rminus up lo) u) 0 <= t <-> nth i u 0 <= (t - nth i lo 0) / (nth i up 0 - nth i lo 0)).
Proof.
  intros lo up u i t H1 H2 Hi Hlt. destruct (prior_transform_nth lo up u i H1 H2 Hi) as (_ & ->).
  set (a := nth i lo 0) in *. set (b := nth i up 0) in *. set (x := nth i u 0). split; intros H.
  - apply Rmult_le_reg_r with (b - a); [lra|]. unfold Rdiv. rewrite Rmult_assoc, Rinv_l by lra. lra.
  - apply (Rmult_le_compat_r (b - a)) in H; [|lra]. unfold Rdiv in H. rewrite Rmult_assoc, Rinv_l in H by lra. lra.
Qed.
Print Assumptions C64_dynesty_uniform.
(** The box is one of the sampling space: given the posterior's own bounds, a parameter with a
    positive lower bound never takes a value in the lower half of its range. *)
Theorem C64_dynesty_scene_refuted : forall dyn o lo up r, nested_ok dyn -> a_transform o = Bounded lo up -> box_args lo (Arr up) up ->
  run_dynesty dyn o (Arr lo) (Arr up) = Some r ->
  forall row i, In row (d_chain r) -> (i < List.length lo)%nat -> 0 <= nth i lo 0 ->
    (nth i lo 0 + nth i up 0) / 2 <= nth i (transform (a_transform o) row) 0.
Proof.
  intros dyn o lo up r Hd Ht Hb E row i Hr Hi H0. apply In_nth_error in Hr. destruct Hr as (k & Hk).
  destruct (C64_dynesty dyn o lo (Arr up) up r Hd Hb E) as (_ & _ & H). destruct (H k row Hk) as (Lr & Hin & _).
  specialize (Hin i Hi). rewrite Ht. cbn [transform].
  destruct Hb as (_ & Hl & Hlt). specialize (Hlt i Hi).
  assert (L1 : List.length (range lo up) = List.length lo) by (unfold range; rewrite zip_length; lia).
  rewrite (zip_nth _ _ _ _ 0 0) by (rewrite ?zip_length, ?map_length; lia).
  rewrite (zip_nth _ _ _ _ 0 0) by (rewrite ?map_length; lia).
  rewrite (map_nthd sigmoid row i 0 0) by lia. unfold range. rewrite (zip_nth _ _ _ _ 0 0) by lia.
  assert (/ 2 <= sigmoid (nth i row 0)).
  { unfold sigmoid. apply Rinv_le_contravar; [pose proof (exp_pos (- nth i row 0)); lra|].
    assert (exp (- nth i row 0) <= exp 0) by (destruct (Req_dec (nth i row 0) 0) as [->|]; [rewrite Ropp_0; lra|left; apply exp_increasing; lra]).
    rewrite exp_0 in H1. lra. }
  set (a := nth i lo 0) in *. set (b := nth i up 0) in *. nra.
Qed.
Print Assumptions C64_dynesty_scene_refuted.
(** The default bounds are numbers, for which the call fails. *)
Theorem C64_dynesty_default_refuted : forall dyn o, run_dynesty dyn o (Num 0) (Num 1) = None.
Proof. reflexivity. Qed.

(** ** run_opt_bounded *)
(** What L-BFGS-B promises: a vector of the start's length inside the bounds, with the value of
    the function there, which is no more than at a start inside the bounds. *)
Definition in_bounds (b : option (list (R * R))) (x : list R) : Prop :=
  match b with None => True | Some b => forall i, (i < List.length b)%nat -> fst (nth i b (0, 0)) <= nth i x 0 <= snd (nth i b (0, 0)) end.
Definition lbfgsb_ok (mini : lbfgsb) : Prop := forall f start b r, mini f start b = Some r ->
  List.length (s_x r) = List.length start /\ (exists g, f (s_x r) = Some (s_fun r, g)) /\ in_bounds b (s_x r) /\
  (in_bounds b start -> forall v g, f start = Some (v, g) -> s_fun r <= v).
(** A posterior of either class *)
Inductive constructed : obj -> Prop :=
  | by_fast t lower upper others pr sampling like o : fast_init t lower upper others pr sampling like = Some o -> constructed o
  | by_slow t pr like : constructed (slow_init t pr like).
(** The caller's bounds are never used. *)
Theorem C64_bounds_refuted : forall mini o q jac b b', lbfgsb_ok mini -> constructed o ->
  run_opt_bounded mini o q jac b = run_opt_bounded mini o q jac b'.
Proof.
  intros mini o q jac b b' Hm Ho. inversion Ho as [t lower upper others pr sampling like o' E|t pr like E]; subst.
  - unfold fast_init in E. destruct (posterior_init t lower upper others) as [k|] eqn:Ek; [|discriminate]. injection E as <-.
    assert (Hk : is_none k = false).
    { apply C64_built in Ek. destruct Ek as [(H & -> & _)|(_ & _ & lo & up & _ & _ & -> & _)]; [destruct t; [congruence| |]; reflexivity|reflexivity]. }
    unfold run_opt_bounded. cbn [a_transform]. rewrite Hk. reflexivity.
  - assert (N : forall c, run_opt_bounded mini (slow_init t pr like) q jac c = None).
    { intros c. unfold run_opt_bounded. match goal with |- context [mini ?f ?s ?bb] => destruct (mini f s bb) as [r|] eqn:E; [|reflexivity] end.
      apply Hm in E. destruct E as (_ & (g & E) & _ & _). exfalso.
      destruct (C64_slow_nll_refuted t pr like (s_x r)) as (N1 & N2). destruct jac; [rewrite N1 in E|rewrite N2 in E]; discriminate. }
    rewrite !N. reflexivity.
Qed.
Print Assumptions C64_bounds_refuted.
(** What holds: the result lies strictly inside the posterior's own box, its value is the
    function's there and no worse than at the start; the reported lnp is half the
    log-probability. *)
Theorem C64_bounded_partial : forall mini lo up others pr sampling like o q jac b res, lbfgsb_ok mini ->
  fast_init NoTransform (Some lo) (Some up) others pr sampling like = Some o -> box lo up q ->
  run_opt_bounded mini o q jac b = Some res ->
  exists z row v, o_chain res = [row] /\ row = transform (Bounded lo up) z /\ List.length row = List.length q /\
    (forall i, (i < List.length q)%nat -> -200 <= nth i z 0 <= 200 /\ nth i lo 0 < nth i row 0 < nth i up 0) /\
    lnprob o z = Some v /\ o_fun res = - v /\ o_lnp res = v / 2 /\ o_ndim res = List.length q /\ o_start res = q /\
    (forall z0 v0, List.length z0 = List.length q -> transform (Bounded lo up) z0 = q -> (forall x, In x z0 -> -200 <= x <= 200) ->
       lnprob o z0 = Some v0 -> v0 <= v).
Proof.
  intros mini lo up others pr sampling like o q jac b res Hm Ho Hb E.
  unfold fast_init in Ho. destruct (posterior_init NoTransform (Some lo) (Some up) others) as [k|] eqn:Ek; [|discriminate]. injection Ho as <-.
  apply C64_built in Ek. destruct Ek as [(H & _)|(_ & _ & lo' & up' & E1 & E2 & -> & _)]; [congruence|]. injection E1 as <-. injection E2 as <-.
  unfold run_opt_bounded in E. cbn [a_transform is_none] in E.
  match type of E with context [mini ?f ?s ?bb] => destruct (mini f s bb) as [r|] eqn:Er; [|discriminate] end.
  injection E as <-. apply Hm in Er. destruct Er as (Lx & (g & Ef) & Hbd & Hdesc).
  assert (Ls : List.length (inverse_transform (Bounded lo up) q) = List.length q).
  { cbn [inverse_transform]. destruct Hb as (H1 & H2 & _). rewrite map_length, !zip_length. unfold range. rewrite zip_length. lia. }
  rewrite Ls in Lx.
  assert (Hbz : box lo up (s_x r)) by (destruct Hb as (H1 & H2 & H3); split; [lia|split; [lia|]]; rewrite Lx; exact H3).
  destruct (C17_transform_inside lo up (s_x r) Hbz) as (Lt & Hin).
  exists (s_x r), (transform (Bounded lo up) (s_x r)).
  match goal with |- context [lnprob ?ob _] => set (ob0 := ob) in * end.
  assert (V : exists v, lnprob ob0 (s_x r) = Some v /\ s_fun r = - v).
  { unfold lnprob. destruct jac; cbn beta in Ef; [unfold nll in Ef|unfold nll_nograd in Ef];
    destruct (evaluate ob0 (s_x r)) as [[l gg]|]; try discriminate; cbn in Ef; injection Ef as <- _;
    exists l; (split; [reflexivity|field]). }
  destruct V as (v & V1 & V2). exists v. cbn [o_chain o_fun o_lnp o_ndim o_start].
  split; [reflexivity|]. split; [reflexivity|]. split; [lia|]. split.
  - intros i Hi. split; [|apply Hin; lia].
    cbn [in_bounds] in Hbd. rewrite map_length in Hbd. specialize (Hbd i Hi).
    rewrite (map_nthd (fun _ : R => (-200, 200)) q i 0 (0, 0) Hi) in Hbd. exact Hbd.
  - rewrite V2. split; [exact V1|]. split; [reflexivity|]. split; [field|]. split; [reflexivity|]. split; [reflexivity|].
    intros z0 v0 L0 T0 R0 P0.
    assert (Hb0 : box lo up z0) by (destruct Hb as (H1 & H2 & H3); split; [lia|split; [lia|]]; rewrite L0; exact H3).
    assert (E0 : inverse_transform (Bounded lo up) q = z0) by (rewrite <- T0; apply C17_inverse_of_transform; exact Hb0).
    rewrite E0 in Hdesc.
    assert (IB : in_bounds (Some (map (fun _ : R => (-200, 200)) q)) z0).
    { cbn [in_bounds]. rewrite map_length. intros i Hi. rewrite (map_nthd (fun _ : R => (-200, 200)) q i 0 (0, 0) Hi). apply R0, nth_In. lia. }
    unfold lnprob in P0. destruct (evaluate ob0 z0) as [[l0 g0]|] eqn:Ev; [|discriminate]. cbn in P0. injection P0 as <-.
    destruct jac.
    + specialize (Hdesc IB (- l0 / 1) (Some (map (fun x => - x / 1) g0))). unfold nll in Hdesc at 1. rewrite Ev in Hdesc. specialize (Hdesc eq_refl).
      rewrite V2 in Hdesc. lra.
    + specialize (Hdesc IB (- l0 / 1) None). unfold nll_nograd in Hdesc at 1. rewrite Ev in Hdesc. specialize (Hdesc eq_refl).
      rewrite V2 in Hdesc. lra.
Qed.
Print Assumptions C64_bounded_partial.
