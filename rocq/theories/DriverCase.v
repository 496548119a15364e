(** Cases meeting the hypotheses of C64. *)
From Coquelicot Require Import Coquelicot.
From Coq Require Import Reals Lra Lia List.
From Verif Require Import Np NpFacts PosteriorModel PosteriorSpec PosteriorFacts PosteriorProps DriverModel DriverFacts DriverProps.
Import ListNotations.
Open Scope R_scope.

(** A box posterior in two dimensions, and one with a transform *)
Definition ll2 (q : list R) : R := - (nth 0 q 0 ^ 2 + nth 1 q 0 ^ 2) / 2.
Definition llg2 (q : list R) : list R := [- nth 0 q 0; - nth 1 q 0].
Definition pr2 : prior := fun q => (3 * nth 0 q 0, [3; 0]).
Example C64_built_case : exists o, fast_init NoTransform (Some [1; 0]) (Some [3; 2]) [] (Some pr2) true (fun q => Some (ll2 q, llg2 q)) = Some o /\
  a_transform o = Bounded [1; 0] [3; 2] /\ box [1; 0] [3; 2] [0; 1] /\
  posterior_init Identity (Some [1]) (Some [2]) [] = None /\ posterior_init Identity None None [] = Some Identity.
Proof.
  assert (E : posterior_init NoTransform (Some [1; 0]) (Some [3; 2]) [] = Some (Bounded [1; 0] [3; 2])).
  { apply C64_built. right. repeat split. exists [1; 0], [3; 2]. repeat split; [exists 1|exists 3]; cbn; split; auto; lra. }
  unfold fast_init. rewrite E. eexists. split; [reflexivity|]. split; [reflexivity|]. split.
  - split; [reflexivity|split; [reflexivity|]]. intros [|[|i]] Hi; cbn in *; try lra; lia.
  - split; [|reflexivity]. destruct (posterior_init Identity (Some [1]) (Some [2]) []) eqn:F; [|reflexivity].
    apply C64_built in F. destruct F as [(_ & _ & F & _)|(F & _)]; discriminate.
Qed.
Example C64_fast_case : let o := mkObj Fast Identity (Some 1) (Some (Some pr2)) None false (fun q => Some (ll2 q, llg2 q)) in
  fast_init Identity None None [] (Some pr2) false (fun q => Some (ll2 q, llg2 q)) = Some o /\
  evaluate o [1; 2] = Some (- (5 / 2) + 3, [2; -2]) /\
  (forall v, List.length v = 2%nat -> is_gradient_at ll2 (llg2 v) v) /\
  (forall v, List.length v = 2%nat -> is_gradient_at (fun v => fst (prior_at (Some pr2) v)) (snd (prior_at (Some pr2) v)) v).
Proof.
  intros o. split; [reflexivity|]. split.
  { unfold evaluate, o, lnprior, ll2, llg2, pr2. cbn. unfold zip. cbn. f_equal. f_equal; [field|]. repeat f_equal; ring. }
  assert (D : forall f x l, is_derive f x l -> derivable_pt_lim f x l) by (intros; apply is_derive_Reals; assumption).
  split; intros [|a [|b [|c v]]] Hv; try discriminate; (split; [reflexivity|]); intros [|[|i]] Hi; cbn in Hi; try lia;
    apply D; unfold ll2, llg2, pr2, prior_at; cbn [upd nth fst snd]; auto_derive; auto; field.
Qed.
(** check_grad of the cube: the error is the bound *)
Definition ev3 (b : bool) (p : unit) (v : list R) : option (R * list R) := Some (nth 0 v 0 ^ 3, [3 * nth 0 v 0 ^ 2]).
Lemma cube_derivs : forall k t, ex_derive_n (fun x : R => x ^ 3) k t /\ Derive_n (fun x : R => x ^ 3) 3 t = 6.
Proof.
  assert (H : forall t, is_derive_n (fun x : R => x ^ 3) 1 t (3 * t ^ 2)) by (intros; cbn; auto_derive; auto; ring).
  assert (D1 : forall t, Derive (fun x : R => x ^ 3) t = 3 * t ^ 2) by (intros; apply is_derive_unique, H).
  assert (D2 : forall t, Derive (fun x : R => 3 * x ^ 2) t = 6 * t) by (intros; apply is_derive_unique; auto_derive; auto; ring).
  assert (D3 : forall t, Derive (fun x : R => 6 * x) t = 6) by (intros; apply is_derive_unique; auto_derive; auto; ring).
  assert (E2 : forall t, Derive_n (fun x : R => x ^ 3) 2 t = 6 * t).
  { intros. cbn. rewrite (Derive_ext _ (fun x => 3 * x ^ 2)) by (intros; apply D1). apply D2. }
  assert (E3 : forall t, Derive_n (fun x : R => x ^ 3) 3 t = 6).
  { intros. change (Derive (Derive_n (fun x : R => x ^ 3) 2) t = 6). rewrite (Derive_ext _ (fun x => 6 * x)) by apply E2. apply D3. }
  intros k t. split; [|apply E3].
  destruct k as [|[|[|[|k]]]].
  - exact I.
  - cbn. exists (3 * t ^ 2). apply (H t).
  - cbn. apply ex_derive_ext with (fun x => 3 * x ^ 2); [intros; symmetry; apply D1|]. auto_derive. auto.
  - change (ex_derive (Derive_n (fun x : R => x ^ 3) 2) t). apply ex_derive_ext with (fun x => 6 * x); [intros; symmetry; apply E2|]. auto_derive. auto.
  - change (ex_derive (Derive_n (fun x : R => x ^ 3) (S (S (S k)))) t).
    assert (Z : forall j u, Derive_n (fun x : R => x ^ 3) (S (S (S j))) u = match j with O => 6 | _ => 0 end).
    { induction j as [|j IH]; intros u; [apply E3|].
      change (Derive (Derive_n (fun x : R => x ^ 3) (S (S (S j)))) u = 0). rewrite (Derive_ext _ (fun _ => match j with O => 6 | _ => 0 end)) by apply IH.
      apply Derive_const. }
    apply ex_derive_ext with (fun _ => match k with O => 6 | _ => 0 end); [intros; symmetry; apply Z|]. apply ex_derive_const.
Qed.
Example C64_check_case : let s := start (fun i => [2 + INR i]) true tt : post (V := R) (P := unit) in
  (forall v, List.length v = 1%nat -> ev3 true tt v = Some (nth 0 v 0 ^ 3, [3 * nth 0 v 0 ^ 2]) /\ List.length [3 * nth 0 v 0 ^ 2] = List.length v) /\
  (exists x, In x (heap s 0%nat) /\ x <> -99) /\
  (forall t k, (k <= 3)%nat -> ex_derive_n (fun t => nth 0 (upd 0 t (heap s 0%nat)) 0 ^ 3) k t) /\
  (forall t, Rabs (Derive_n (fun t => nth 0 (upd 0 t (heap s 0%nat)) 0 ^ 3) 3 t) <= 6) /\
  exists s' num, check_grad ev3 Ropp s 1 0 (Number (1 / 10)) = (s', Some ([12], [num])) /\ num = 12 + 6 / 6 * (1 / 10) ^ 2.
Proof.
  intros s. split; [intros [|a [|b v]] Hv; try discriminate; split; reflexivity|]. split; [exists (2 + INR 0); cbn; split; [auto|lra]|].
  split; [intros; apply cube_derivs|]. split; [intros t; cbn [upd heap s start nth]; rewrite (proj2 (cube_derivs 3 t)), Rabs_pos_eq; lra|].
  destruct (C64_check_grad ev3 Ropp s 1 0 (fun v => nth 0 v 0 ^ 3) (fun v => [3 * nth 0 v 0 ^ 2]) (Number (1 / 10))) as (s' & num & E & L & N & _).
  - intros [|a [|b v]] Hv; try discriminate; split; reflexivity.
  - lia.
  - exists (2 + INR 0). cbn. split; [auto|lra].
  - exact I.
  - destruct num as [|x [|y num]]; try discriminate. exists s', x. rewrite E. split.
    + cbn. repeat f_equal. lra.
    + specialize (N 0%nat ltac:(cbn; lia)). cbn in N. rewrite N. cbn. field.
Qed.
(** Samplers and minimisers that keep their promises *)
Definition corner_sampler : nested := fun f pt n =>
  match f (pt (repeat 0 n)) with Some v => Some ([pt (repeat 0 n)], [v]) | None => None end.
Lemma corner_ok : nested_ok corner_sampler.
Proof.
  intros f pt n samples logl E. unfold corner_sampler in E. destruct (f (pt (repeat 0 n))) as [v|] eqn:F; [|discriminate]. injection E as <- <-.
  split; [reflexivity|]. intros [|k] row Hk; [|destruct k; discriminate]. injection Hk as <-.
  exists (repeat 0 n), v. split; [apply repeat_length|]. split; [intros x Hx; apply repeat_spec in Hx; lra|]. auto.
Qed.
Definition box_posterior := mkObj Fast (Bounded [1] [3]) (Some 1) (Some None) None true (fun q => Some (- (nth 0 q 0 - 2) ^ 2, [- 2 * (nth 0 q 0 - 2)])).
Example C64_dynesty_case : nested_ok corner_sampler /\ box_args [1] (Arr [3]) [3] /\ box_args [1] (Num 3) [3] /\
  exists r, run_dynesty corner_sampler box_posterior (Arr [1]) (Arr [3]) = Some r /\ d_chain r = [[1]].
Proof.
  split; [apply corner_ok|]. split; [|split].
  - split; [reflexivity|split; [reflexivity|]]. intros [|i] Hi; cbn in *; [lra|lia].
  - split; [reflexivity|split; [reflexivity|]]. intros [|i] Hi; cbn in *; [lra|lia].
  - eexists. split; [reflexivity|]. cbn. unfold prior_transform, zip. cbn. repeat f_equal. lra.
Qed.
(** Stays at a start inside the bounds and otherwise takes the lower corner *)
Definition inb (start : list R) (b : list (R * R)) : bool :=
  forallb (fun i => if Rle_dec (fst (nth i b (0, 0))) (nth i start 0) then if Rle_dec (nth i start 0) (snd (nth i b (0, 0))) then true else false else false) (seq 0 (List.length b)).
Definition corner_min : lbfgsb := fun f start b =>
  match b with
  | Some b => if (Nat.eqb (List.length b) (List.length start) && forallb (fun p => if Rle_dec (fst p) (snd p) then true else false) b)%bool
              then let x := if inb start b then start else map fst b in option_map (fun v => mkSci x (fst v)) (f x) else None
  | None => option_map (fun v => mkSci start (fst v)) (f start)
  end.
Lemma inb_spec : forall start b, inb start b = true <-> in_bounds (Some b) start.
Proof.
  intros start b. unfold inb, in_bounds. rewrite forallb_forall. split; intros H i Hi.
  - specialize (H i ltac:(apply in_seq; lia)). cbv beta in H. destruct (Rle_dec _ _); [|discriminate]. destruct (Rle_dec _ _); [|discriminate]. lra.
  - apply in_seq in Hi. specialize (H i ltac:(lia)). destruct (Rle_dec _ _); [|exfalso; lra]. destruct (Rle_dec _ _); [reflexivity|exfalso; lra].
Qed.
Lemma corner_min_ok : lbfgsb_ok corner_min.
Proof.
  intros f start [b|] r E; unfold corner_min in E.
  - destruct (Nat.eqb_spec (List.length b) (List.length start)) as [L|]; [|discriminate]. cbn [andb] in E.
    destruct (forallb _ b) eqn:Fb; [|discriminate]. destruct (inb start b) eqn:I.
    + cbv zeta in E. destruct (f start) as [[v g]|] eqn:F; [|discriminate]. injection E as <-. cbn [s_x s_fun].
      split; [reflexivity|]. split; [exists g; exact F|]. split; [apply inb_spec; exact I|]. intros _ v' g' E'. injection E' as <- _. lra.
    + cbv zeta in E. destruct (f (map fst b)) as [[v g]|] eqn:F; [|discriminate]. injection E as <-. cbn [s_x s_fun].
      split; [rewrite map_length; exact L|]. split; [exists g; exact F|]. split.
      * intros i Hi. rewrite (map_nthd fst b i (0, 0) 0 Hi). split; [lra|].
        pose proof (proj1 (forallb_forall _ _) Fb (nth i b (0, 0)) (nth_In _ _ Hi)) as Q. cbv beta in Q. destruct (Rle_dec _ _); [assumption|discriminate].
      * intros C. apply inb_spec in C. congruence.
  - destruct (f start) as [[v g]|] eqn:F; [|discriminate]. injection E as <-. cbn. split; [reflexivity|]. split; [exists g; exact F|]. split; [exact I|].
    intros _ v' g' E'. injection E' as <- _. lra.
Qed.
Example C64_bounded_case : lbfgsb_ok corner_min /\
  fast_init NoTransform (Some [1]) (Some [3]) [] None true (fun q => Some (- (nth 0 q 0 - 2) ^ 2, [- 2 * (nth 0 q 0 - 2)])) = Some box_posterior /\
  box [1] [3] [2] /\ exists res, run_opt_bounded corner_min box_posterior [2] true None = Some res.
Proof.
  split; [apply corner_min_ok|]. split.
  - unfold fast_init. rewrite (proj2 (C64_built NoTransform (Some [1]) (Some [3]) [] (Bounded [1] [3]))); [reflexivity|].
    right. repeat split. exists [1], [3]. repeat split; [exists 1|exists 3]; cbn; split; auto; lra.
  - split; [split; [reflexivity|split; [reflexivity|]]; intros [|i] Hi; cbn in *; [lra|lia]|].
    unfold run_opt_bounded, corner_min. cbn [List.length map Nat.eqb forallb fst snd a_transform box_posterior is_none inverse_transform zip combine range andb].
    destruct (Rle_dec (-200) 200) as [_|N]; [|exfalso; apply N; lra]. cbn [andb]. cbv zeta. eexists. reflexivity.
Qed.
