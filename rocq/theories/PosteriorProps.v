(** C17, C18, C19, C38. *)
From Verif Require Import Np NpFacts PosteriorModel PosteriorSpec PosteriorFacts.
From Coq Require Import Reals Lra.
Open Scope R_scope.

(** * C17 *)
Theorem C17_transform_inside : forall lower upper z, box lower upper z ->
  List.length (transform (Bounded lower upper) z) = List.length z /\
  forall i, (i < List.length z)%nat ->
    nth i lower 0 < nth i (transform (Bounded lower upper) z) 0 < nth i upper 0.
Proof.
  intros lower upper z Hb. split; [eapply transform_length; eauto|]. intros i Hi.
  rewrite transform_nth by auto. apply gof_inside. now apply Hb.
Qed.
Print Assumptions C17_transform_inside.

Theorem C17_inverse_of_transform : forall lower upper z, box lower upper z ->
  inverse_transform (Bounded lower upper) (transform (Bounded lower upper) z) = z.
Proof. exact inverse_transform_id. Qed.
Print Assumptions C17_inverse_of_transform.

Theorem C17_transform_of_inverse : forall lower upper q, box lower upper q ->
  (forall i, (i < List.length q)%nat -> nth i lower 0 < nth i q 0 < nth i upper 0) ->
  List.length (inverse_transform (Bounded lower upper) q) = List.length q /\
  transform (Bounded lower upper) (inverse_transform (Bounded lower upper) q) = q.
Proof. exact transform_inverse. Qed.
Print Assumptions C17_transform_of_inverse.

Theorem C17_increasing : forall lower upper z z' i, box lower upper z -> box lower upper z' -> (i < List.length z)%nat ->
  (nth i z 0 < nth i z' 0 <->
   nth i (transform (Bounded lower upper) z) 0 < nth i (transform (Bounded lower upper) z') 0).
Proof.
  intros lower upper z z' i Hb Hb' Hi.
  assert (HL : List.length z = List.length z') by (destruct Hb as (H1 & _), Hb' as (H2 & _); lia).
  rewrite !transform_nth by (auto; lia). unfold gof. destruct Hb as (_ & _ & H). specialize (H i Hi).
  split; intros Hlt.
  - apply sigmoid_incr in Hlt. nra.
  - destruct (Rtotal_order (nth i z 0) (nth i z' 0)) as [|[E|E]]; auto.
    + rewrite E in Hlt. lra.
    + apply sigmoid_incr in E. nra.
Qed.
Print Assumptions C17_increasing.
Example C17_case : box [0; -1] [1; 3] [5; -7].
Proof.
  split; [reflexivity|]. split; [reflexivity|]. intros [|[|i]] Hi; simpl in *; try lra. lia.
Qed.

(** * C18 *)
Theorem C18_posterior_gradient : forall k sampling ll llg lpr lprg z, suits k z ->
  is_gradient_at ll (llg (transform k z)) (transform k z) ->
  is_gradient_at lpr (lprg (transform k z)) (transform k z) ->
  is_gradient_at (lnp_of k sampling ll lpr) (lnp_grad_of k sampling llg lprg z) z.
Proof. exact lnp_gradient. Qed.
Print Assumptions C18_posterior_gradient.

(** The same for the negative log-posterior handed to minimisers. *)
Theorem C18_nll_gradient : forall ndof k sampling ll llg lpr lprg z, ndof <> 0 -> suits k z ->
  is_gradient_at ll (llg (transform k z)) (transform k z) ->
  is_gradient_at lpr (lprg (transform k z)) (transform k z) ->
  is_gradient_at (fun z => nll_of ndof (lnp_of k sampling ll lpr z))
    (nll_grad_of ndof (lnp_grad_of k sampling llg lprg z)) z.
Proof. intros. apply nll_gradient; auto. now apply lnp_gradient. Qed.
Print Assumptions C18_nll_gradient.

(** The sampling term is the log-volume change of the transform: its value is the
    sum over coordinates of the log derivative of the one-coordinate map. *)
Theorem C18_volume_term : forall lower upper z, box lower upper z ->
  exists d, List.length d = List.length z /\
    (forall i, (i < List.length z)%nat -> 0 < nth i d 0 /\
       derivable_pt_lim (fun t => nth i (transform (Bounded lower upper) (upd i t z)) 0) (nth i z 0) (nth i d 0)) /\
    lndetjac (Bounded lower upper) z = fold_left Rplus (map ln d) 0.
Proof.
  intros lower upper z Hb. exists (jacobian (Bounded lower upper) z).
  assert (HJ := jac_length _ _ _ Hb). split; auto.
  assert (Hpos : forall i, (i < List.length z)%nat -> 0 < nth i (jacobian (Bounded lower upper) z) 0).
  { intros i Hi. rewrite jac_nth by auto. apply Rmult_lt_0_compat; [|apply sigmoid_grad_pos].
    destruct Hb as (_ & _ & H). specialize (H i Hi). lra. }
  split.
  - intros i Hi. split; auto. rewrite jac_nth by auto.
    apply derivable_pt_lim_ext with (gof lower upper i); [|apply gof_deriv].
    intros t. rewrite transform_upd, nth_updd, Nat.eqb_refl by (auto; rewrite (transform_length lower upper); auto). reflexivity.
  - unfold lndetjac. rewrite <- HJ in Hpos. clear HJ. generalize dependent (jacobian (Bounded lower upper) z).
    induction l as [|x l IH]; intros Hpos.
    + unfold Rprod. simpl. rewrite Rabs_R1. apply ln_1.
    + simpl map. rewrite Rprod_cons. change (fold_left Rplus (ln x :: map ln l) 0) with (vsum (ln x :: map ln l)). rewrite vsum_cons.
      assert (Hx : 0 < x) by (apply (Hpos 0%nat); simpl; lia).
      assert (Hl : 0 < Rprod l) by (apply Rprod_pos; intros i Hi; apply (Hpos (S i)); simpl; lia).
      change (vsum (map ln l)) with (fold_left Rplus (map ln l) 0). rewrite <- IH by (intros i Hi; apply (Hpos (S i)); simpl; lia).
      rewrite !Rabs_right by nra. apply ln_mult; auto.
Qed.
Print Assumptions C18_volume_term.

(** A likelihood that is not separable, no prior, bounded transform. *)
Example C18_case : let ll q := nth 0 q 0 * nth 1 q 0 in let llg q := [nth 1 q 0; nth 0 q 0] in
  let k := Bounded [0; -1] [1; 3] in let z := [2; -1] in
  suits k z /\ is_gradient_at ll (llg (transform k z)) (transform k z) /\
  is_gradient_at (fun _ => 0) ((fun q => map (fun _ => 0) q) (transform k z)) (transform k z).
Proof.
  cbv zeta. split.
  { split; [reflexivity|]. split; [reflexivity|]. intros [|[|i]] Hi; simpl in *; try lra. lia. }
  remember (transform (Bounded [0; -1] [1; 3]) [2; -1]) as q eqn:Eq.
  assert (HL : List.length q = 2%nat) by (subst q; reflexivity). clear Eq.
  destruct q as [|a [|b [|c q]]]; try discriminate. split.
  - split; [reflexivity|]. intros [|[|i]] Hi; simpl in *; [| |lia].
    + assert (H : derivable_pt_lim (fun t => t * b) a (1 * b + a * 0)); [|now replace (1 * b + a * 0) with b in H by ring].
      apply (derivable_pt_lim_mult (fun t => t) (fun _ => b)); [apply derivable_pt_lim_id|apply derivable_pt_lim_const].
    + assert (H : derivable_pt_lim (fun t => a * t) b (a * 1)); [|now replace (a * 1) with a in H by ring].
      apply (derivable_pt_lim_scal (fun t => t)). apply derivable_pt_lim_id.
  - split; [reflexivity|]. intros i Hi. simpl in Hi.
    replace (nth i (map (fun _ : R => 0) [a; b]) 0) with 0 by (destruct i as [|[|[|i]]]; reflexivity).
    apply derivable_pt_lim_const.
Qed.

(** * C19 *)
Theorem C19_barrier_gradient : forall alpha mn mx q, box mn mx q ->
  (forall i, (i < List.length q)%nat -> nth i mn 0 < nth i q 0 < nth i mx 0) ->
  is_gradient_at (prior_value alpha mn mx) (prior_grad alpha mn mx q) q.
Proof. exact prior_gradient. Qed.
Print Assumptions C19_barrier_gradient.

Theorem C19_symmetric : forall alpha mn mx q i, box mn mx q -> (i < List.length q)%nat ->
  prior_value alpha mn mx (upd i (nth i mn 0 + nth i mx 0 - nth i q 0) q) = prior_value alpha mn mx q.
Proof. exact prior_symmetric. Qed.
Print Assumptions C19_symmetric.

(** One coordinate of the prior on the box (a, b), negative exponent. *)
Theorem C19_barrier_partial : forall alpha a b, a < b -> alpha < 0 ->
  (* decreases toward either bound *)
  (forall x y, a < x -> x < y -> y <= (a + b) / 2 ->
     prior_value alpha [a] [b] [x] < prior_value alpha [a] [b] [y]) /\
  (forall x y, (a + b) / 2 <= x -> x < y -> y < b ->
     prior_value alpha [a] [b] [y] < prior_value alpha [a] [b] [x]) /\
  (* without bound *)
  (forall M, exists delta, 0 < delta /\
     forall x, (a < x < a + delta \/ b - delta < x < b) -> prior_value alpha [a] [b] [x] < - M).
Proof.
  intros alpha a b Hab Ha.
  assert (Hv : forall x, prior_value alpha [a] [b] [x] = expbeta alpha (scale a b x)).
  { intros x. unfold prior_value, zip3, vsum. simpl. ring. }
  assert (Hm : forall x y, a < x -> x < y -> y <= (a + b) / 2 -> expbeta alpha (scale a b x) < expbeta alpha (scale a b y)).
  { intros x y H1 H2 H3. apply expbeta_monotone; auto; unfold scale.
    - apply Rdiv_lt_0_compat; lra.
    - apply Rmult_lt_compat_r; [apply Rinv_0_lt_compat|]; lra.
    - apply Rmult_le_reg_r with (b - a); [lra|]. replace ((y - a) / (b - a) * (b - a)) with (y - a) by (field; lra). lra. }
  assert (Hsym : forall x, expbeta alpha (scale a b x) = expbeta alpha (scale a b (a + b - x))).
  { intros x. replace (scale a b (a + b - x)) with (1 - scale a b x) by (unfold scale; field; lra). now rewrite expbeta_sym. }
  repeat split.
  - intros x y H1 H2 H3. rewrite !Hv. now apply Hm.
  - intros x y H1 H2 H3. rewrite !Hv, (Hsym x), (Hsym y). apply Hm; lra.
  - intros M. destruct (expbeta_unbounded alpha M Ha) as (d & [Hd1 Hd2] & Hd). exists (d * (b - a)).
    split; [apply Rmult_lt_0_compat; lra|].
    assert (Hlow : forall x, a < x < a + d * (b - a) -> expbeta alpha (scale a b x) < - M).
    { intros x Hx. apply Hd. unfold scale. split; [apply Rdiv_lt_0_compat; lra|].
      apply Rmult_lt_reg_r with (b - a); [lra|]. unfold Rdiv. rewrite Rmult_assoc, Rinv_l by lra. lra. }
    intros x [Hx|Hx]; rewrite Hv; [now apply Hlow|]. rewrite Hsym. apply Hlow. lra.
Qed.
Print Assumptions C19_barrier_partial.

(** The constructor also accepts exponents for which there is no barrier at all:
    with alpha = 1 the log-prior stays above -1/4. *)
Theorem C19_any_exponent_refuted : exists alpha, -1 < alpha /\
  forall a b x, a < x < b -> -1/4 <= prior_value alpha [a] [b] [x].
Proof.
  exists 1. split; [lra|]. intros a b x Hx. unfold prior_value, zip3, vsum. simpl. unfold expbeta.
  assert (Hs : 0 < scale a b x < 1).
  { unfold scale. split; [apply Rdiv_lt_0_compat; lra|]. apply Rmult_lt_reg_r with (b - a); [lra|].
    unfold Rdiv. rewrite Rmult_assoc, Rinv_l by lra. lra. }
  rewrite !Rpower_1 by lra. set (s := scale a b x) in *. clearbody s. pose proof (Rle_0_sqr (s - 1/2)) as Hq. unfold Rsqr in Hq. nra.
Qed.
Print Assumptions C19_any_exponent_refuted.
Example C19_case : box [1; 1] [3; 4] [3/2; 2] /\
  (forall i, (i < 2)%nat -> nth i [1; 1] 0 < nth i [3/2; 2] 0 < nth i [3; 4] 0).
Proof.
  split; [split; [reflexivity|]; split; [reflexivity|]|]; intros [|[|i]] Hi; simpl in *; try lra; lia.
Qed.

(** * C38 *)
Open Scope nat_scope.
Theorem C38_answers_fresh_partial : forall V P (veq : V -> V -> bool) minus99 neg (evalf : bool -> P -> list V -> option (V * list V)),
  (forall x y, veq x y = true -> x = y) ->
  forall h b p l, disciplined veq minus99 neg evalf (mkPlain h b p) [] None false l ->
    snd (exec veq minus99 neg evalf (start h b p) l) = plain_exec neg evalf (mkPlain h b p) l.
Proof. intros V P veq minus99 neg evalf Hv h b p l HD. eapply exec_disciplined; eauto; reflexivity. Qed.
Print Assumptions C38_answers_fresh_partial.

(** Each clause of the discipline is needed. *)
Section C38ex.
Open Scope Z_scope.
(** value = x0 + 10 when sampling + prior; gradient = [x0; 1] *)
Definition ev38 (b : bool) (p : Z) (v : list Z) : option (Z * list Z) :=
  Some (hd 0 v + (if b then 10 else 0) + p, [hd 0 v; 1]).
Definition h38 (i : nat) : list Z := match i with O => [3; 4] | 1%nat => [5; 6] | 2%nat => [-99; -99] | _ => [0; 0] end.
Definition run38 (l : list (op (V := Z) (P := Z))) := snd (exec Z.eqb (-99) Z.opp ev38 (start h38 true 0) l).
Definition fresh38 (l : list (op (V := Z) (P := Z))) := plain_exec Z.opp ev38 (mkPlain h38 true 0) l.
End C38ex.
Theorem C38_stale_after_inplace_change_refuted :
  let l := [Ask Value 0; Write 0 [7; 4]%Z; Ask Value 0] in run38 l <> fresh38 l.
Proof. vm_compute. discriminate. Qed.
Theorem C38_stale_after_switch_refuted :
  let l := [Ask Value 0; SetSampling false; Ask Value 0] in run38 l <> fresh38 l.
Proof. vm_compute. discriminate. Qed.
Theorem C38_stale_after_prior_change_refuted :
  let l := [Ask Value 0; SetPrior 2%Z; Ask Value 0] in run38 l <> fresh38 l.
Proof. vm_compute. discriminate. Qed.
Theorem C38_shared_gradient_refuted :
  let l := [Ask Grad 0; WriteGrad [0; 0]%Z; Ask Grad 0] in run38 l <> fresh38 l.
Proof. vm_compute. discriminate. Qed.
Theorem C38_first_vector_refuted :
  let l := [Ask Value 2] in run38 l = [Some Raises] /\ fresh38 l <> [Some Raises].
Proof. vm_compute. split; [reflexivity|discriminate]. Qed.
Print Assumptions C38_first_vector_refuted.
(** A disciplined history with a cache hit, a new vector, a toggle. *)
Example C38_case : let l := [Ask Value 0; Ask Grad 0; Write 3 [8; 9]%Z; Ask Both 3; SetSampling false; Ask Nll 1] in
  disciplined Z.eqb (-99)%Z Z.opp ev38 (mkPlain h38 true 0%Z) [] None false l /\
  run38 l = [Some (AnsV 13); Some (AnsG [3; 1]); None; Some (AnsB 18 [8; 1]); None; Some (AnsB (-5) [-5; -1])]%Z.
Proof.
  split; [|vm_compute; reflexivity]. simpl.
  split; [exists 3%Z; split; auto|]. split; [split; [reflexivity|discriminate]|].
  split; [intros [|[|[]]]; discriminate|]. split; [split; [reflexivity|discriminate]|].
  split; [|exact I]. split; [reflexivity|]. intros _. exists 0%nat, 5%Z, 8%Z. auto.
Qed.
