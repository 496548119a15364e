(** FastPosterior.evaluate as a whole (/repo/forcepho/model.py 302-352): transform,
    set the scene, make the proposal, ask the kernel, add prior and volume term. *)
From Verif Require Import Np NpFacts SceneModel SceneSpec StackFacts LnlikeModel LnlikeFacts PosteriorModel PosteriorSpec PosteriorFacts.
From Coq Require Import Reals Lra.
Open Scope R_scope.

(** The kernel is [chi2 b rows] (per band) and [derivs ps] (band x source x 7). *)
Definition fast_evaluate (k : transform_kind) (sampling : bool) (lpr : list R -> R) (lprg : list R -> list R)
    (amps : R -> R -> list R) (qf paf : R -> R -> R) (chi2 : nat -> list (list R) -> R)
    (derivs : list (prop_struct R) -> list (list (list R))) (nb : nat) (sc : list (source R)) (z : list R)
  : option (R * list R) :=
  let q := transform k z in
  match proposal_of amps qf paf sc q with
  | None => None
  | Some ps =>
    let ll := -1/2 * Rsum (map (fun b => chi2 b (map (kernel_row b) ps)) (seq 0 nb)) in
    let llg := lnlike_grad (List.length sc) nb (derivs ps) in
    let lnp := ll + lpr q in
    let g := zip Rmult (zip Rplus llg (lprg q)) (jacobian k z) in
    if sampling then Some (lnp + lndetjac k z, zip Rplus g (lndetjac_grad k z)) else Some (lnp, g)
  end.

Lemma evaluate_value k sampling lpr lprg amps qf paf chi2 derivs nb sc z :
  fast_galaxies nb sc -> sc <> [] -> (nb <= 30)%nat -> List.length (transform k z) = (List.length sc * (nb + 6))%nat ->
  exists ps, proposal_of amps qf paf sc (transform k z) = Some ps /\
  fast_evaluate k sampling lpr lprg amps qf paf chi2 derivs nb sc z =
    Some (lnp_of k sampling (fun q => match lnlike amps qf paf chi2 nb sc q with Some v => v | None => 0 end) lpr z,
          lnp_grad_of k sampling (fun _ => lnlike_grad (List.length sc) nb (derivs ps)) lprg z).
Proof.
  intros Hg Hne Hnb HL. destruct (proposal_view amps qf paf nb sc (transform k z) Hg Hne Hnb HL) as (ps & Hps & _).
  exists ps. split; auto. unfold fast_evaluate, lnp_of, lnp_grad_of, lnlike. rewrite Hps. destruct sampling; reflexivity.
Qed.

Lemma evaluate_gradient k sampling lpr lprg amps qf paf chi2 derivs nb sc z v g :
  fast_galaxies nb sc -> sc <> [] -> (nb <= 30)%nat -> List.length z = (List.length sc * (nb + 6))%nat -> suits k z ->
  is_gradient_at lpr (lprg (transform k z)) (transform k z) ->
  (forall ps, proposal_of amps qf paf sc (transform k z) = Some ps ->
     response_shape nb (List.length sc) (derivs ps) /\
     forall b s p, (b < nb)%nat -> (s < List.length sc)%nat -> (p < 7)%nat ->
       derivable_pt_lim (fun t => chi2 b (upd s (upd p t (nth s (map (kernel_row b) ps) [])) (map (kernel_row b) ps)))
         (nth p (nth s (map (kernel_row b) ps) []) 0) (nth p (nth s (nth b (derivs ps) []) []) 0)) ->
  fast_evaluate k sampling lpr lprg amps qf paf chi2 derivs nb sc z = Some (v, g) ->
  List.length g = List.length z /\
  forall i, (i < List.length z)%nat ->
    exists f, (forall t, option_map fst (fast_evaluate k sampling lpr lprg amps qf paf chi2 derivs nb sc (upd i t z)) = Some (f t)) /\
              f (nth i z 0) = v /\ derivable_pt_lim f (nth i z 0) (nth i g 0).
Proof.
  intros Hg Hne Hnb HLz Hs Hpr Hker He.
  assert (HT : forall z', List.length z' = List.length z -> List.length (transform k z') = (List.length sc * (nb + 6))%nat).
  { intros z' HL. rewrite <- HLz, <- HL. destruct k as [| |lower upper]; auto. apply (transform_length lower upper); auto.
    destruct Hs as (H1 & H2 & H3). repeat split; rewrite ?HL; auto. }
  destruct (evaluate_value k sampling lpr lprg amps qf paf chi2 derivs nb sc z Hg Hne Hnb (HT z eq_refl)) as (ps & Hps & E).
  rewrite E in He. injection He as <- <-. destruct (Hker ps Hps) as [Hshape Hd].
  set (LL := fun q => match lnlike amps qf paf chi2 nb sc q with Some v => v | None => 0 end).
  assert (Hll : is_gradient_at LL (lnlike_grad (List.length sc) nb (derivs ps)) (transform k z)).
  { split.
    - rewrite (HT z eq_refl). unfold lnlike_grad. rewrite map_length. now destruct (stack_entries 0 Rplus _ _ _ Hshape).
    - intros i Hi. destruct (gradient_lemma amps qf paf nb sc (transform k z) chi2 ps (derivs ps) Hg Hne Hnb (HT z eq_refl) Hps Hshape Hd i Hi)
        as (f & Hf & Hdf). apply derivable_pt_lim_ext with (2 := Hdf). intros t. unfold LL. now rewrite Hf. }
  destruct (lnp_gradient k sampling LL (fun _ => lnlike_grad (List.length sc) nb (derivs ps)) lpr lprg z Hs Hll Hpr) as [G1 G2].
  split; auto. intros i Hi. exists (fun t => lnp_of k sampling LL lpr (upd i t z)). split; [|split].
  - intros t. destruct (evaluate_value k sampling lpr lprg amps qf paf chi2 derivs nb sc (upd i t z) Hg Hne Hnb
                          (HT _ (upd_len _ _ _))) as (ps' & _ & ->). reflexivity.
  - now rewrite upd_same.
  - now apply G2.
Qed.

(** C18 for the posterior the sampler uses. *)
Theorem C18_fast_posterior_gradient : forall k sampling lpr lprg amps qf paf chi2 derivs nb sc z,
  fast_galaxies nb sc -> sc <> [] -> (nb <= 30)%nat -> List.length z = (List.length sc * (nb + 6))%nat -> suits k z ->
  is_gradient_at lpr (lprg (transform k z)) (transform k z) ->
  (forall ps, proposal_of amps qf paf sc (transform k z) = Some ps ->
     response_shape nb (List.length sc) (derivs ps) /\
     forall b s p, (b < nb)%nat -> (s < List.length sc)%nat -> (p < 7)%nat ->
       derivable_pt_lim (fun t => chi2 b (upd s (upd p t (nth s (map (kernel_row b) ps) [])) (map (kernel_row b) ps)))
         (nth p (nth s (map (kernel_row b) ps) []) 0) (nth p (nth s (nth b (derivs ps) []) []) 0)) ->
  exists v g, fast_evaluate k sampling lpr lprg amps qf paf chi2 derivs nb sc z = Some (v, g) /\
    List.length g = List.length z /\
    forall i, (i < List.length z)%nat ->
      exists f, (forall t, option_map fst (fast_evaluate k sampling lpr lprg amps qf paf chi2 derivs nb sc (upd i t z)) = Some (f t)) /\
                f (nth i z 0) = v /\ derivable_pt_lim f (nth i z 0) (nth i g 0).
Proof.
  intros k sampling lpr lprg amps qf paf chi2 derivs nb sc z Hg Hne Hnb HLz Hs Hpr Hker.
  assert (HT : List.length (transform k z) = (List.length sc * (nb + 6))%nat).
  { rewrite <- HLz. destruct k as [| |lower upper]; auto. now apply (transform_length lower upper). }
  destruct (evaluate_value k sampling lpr lprg amps qf paf chi2 derivs nb sc z Hg Hne Hnb HT) as (ps & Hps & E).
  do 2 eexists. split; [exact E|]. eapply evaluate_gradient; eauto.
Qed.
Print Assumptions C18_fast_posterior_gradient.

(** Non-vacuity: one source, one band, chi2 = flux * q + pa. *)
Example C18_fast_case : let g : source R := mkSource Galaxy ["a"%string] [1] 0 0 1 0 1 1 0 0 false in
  let derivs (ps : list (prop_struct R)) := map (fun _ => map (fun p => [p_q p; 0; 0; nth 0 (p_fluxes p) 0; 1; 0; 0]) ps) (seq 0 1) in
  let chi2 (b : nat) (rows : list (list R)) := nth 0 (nth 0 rows []) 0 * nth 3 (nth 0 rows []) 0 + nth 4 (nth 0 rows []) 0 in
  let z := [1; 2; 3; 4; 5; 6; 7] in
  fast_galaxies 1 [g] /\ List.length z = (List.length [g] * (1 + 6))%nat /\ suits Identity z /\
  forall ps, proposal_of (fun _ _ => []) (fun _ _ => 0) (fun _ _ => 0) [g] (transform Identity z) = Some ps ->
     response_shape 1 1 (derivs ps) /\
     forall b s p, (b < 1)%nat -> (s < 1)%nat -> (p < 7)%nat ->
       derivable_pt_lim (fun t => chi2 b (upd s (upd p t (nth s (map (kernel_row b) ps) [])) (map (kernel_row b) ps)))
         (nth p (nth s (map (kernel_row b) ps) []) 0) (nth p (nth s (nth b (derivs ps) []) []) 0).
Proof.
  cbv zeta. split; [repeat constructor|]. split; [reflexivity|]. split; [exact I|].
  intros ps H. assert (E : ps = [mkProp [1] 2 3 4 5 6 7 []]).
  { change (Some [mkProp [1] 2 3 4 5 6 7 []] = Some ps) in H. congruence. }
  subst ps. clear H. split; [split; [reflexivity|repeat constructor]|].
  intros b s p Hb Hs Hp. destruct b; [|lia]. destruct s; [|lia].
  assert (Heq : forall f a x, (forall t, f t = a * t + f 0) -> derivable_pt_lim f x a).
  { intros f a x H. apply derivable_pt_lim_ext with (fun t => a * t + f 0); [intros; symmetry; apply H|].
    assert (D : derivable_pt_lim (fun t => a * t + f 0) x (a * 1 + 0)); [|now replace (a * 1 + 0) with a in D by ring].
    apply (derivable_pt_lim_plus (fun t => a * t) (fun _ => f 0)); [|apply derivable_pt_lim_const].
    apply (derivable_pt_lim_scal (fun t => t)). apply derivable_pt_lim_id. }
  do 7 (destruct p as [|p]; [apply Heq; intros t; cbn [nth upd map seq kernel_row p_fluxes p_ra p_dec p_q p_pa p_nsersic p_rh]; ring|]). lia.
Qed.
