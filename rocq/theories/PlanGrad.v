(** The derivative of the reference likelihood in one entry of the parameter vector. *)
From Coquelicot Require Import Coquelicot.
From Verif Require Import Np NpFacts KernelModel KernelSum SlowModel SlowProps SlowGrad SceneModel SceneSpec SceneFacts PlanModel PlanFacts PlanScene.
From Coq Require Import Reals Lra.
Open Scope R_scope.

Lemma row_upd b k t Theta p : where_is k (b_inds b) = Some p -> NoDup (b_inds b) -> (k < List.length Theta)%nat ->
  rowT (upd k t Theta) b = upd p t (rowT Theta b).
Proof.
  intros Hp HN Hk. destruct (where_is_Some _ _ _ Hp) as [E Hlt].
  apply (nth_ext _ _ 0 0); [rewrite upd_length; apply rowT_len|].
  intros j Hj. rewrite upd_nth. unfold rowT in *. rewrite app_length, map_length in Hj. rewrite app_length, map_length.
  destruct (le_lt_dec (List.length (b_inds b)) j) as [Hge|Hl].
  - rewrite !app_nth2 by (rewrite map_length; lia). rewrite !map_length. destruct (Nat.eqb_spec p j); [lia|reflexivity].
  - rewrite !app_nth1 by (rewrite map_length; lia).
    assert (M : forall T : list R, nth j (map (fun i => nth i T 0) (b_inds b)) 0 = nth (nth j (b_inds b) 0%nat) T 0).
    { intros T. rewrite (nth_indep _ 0 (nth 0%nat T 0)) by (rewrite map_length; auto). apply (map_nth (fun i => nth i T 0)). }
    rewrite !M, upd_nth. apply nth_error_nth with (d := 0%nat) in E. destruct (Nat.eqb_spec p j) as [<-|Hne].
    + rewrite E, Nat.eqb_refl. destruct (Nat.ltb_spec k (List.length Theta)); [|lia]. destruct (Nat.ltb_spec p (List.length (b_inds b) + List.length (b_rest b))); [reflexivity|lia].
    + destruct (Nat.eqb_spec k (nth j (b_inds b) 0%nat)) as [Hk'|]; [|reflexivity].
      exfalso. apply Hne. apply (proj1 (NoDup_nth (b_inds b) 0%nat) HN); auto. congruence.
Qed.
Lemma row_at b k Theta p : where_is k (b_inds b) = Some p -> nth p (rowT Theta b) 0 = nth k Theta 0.
Proof.
  intros Hp. destruct (where_is_Some _ _ _ Hp) as [E Hlt]. unfold rowT. rewrite app_nth1 by (now rewrite map_length).
  rewrite (nth_indep _ 0 (nth 0%nat Theta 0)) by (now rewrite map_length). rewrite (map_nth (fun i => nth i Theta 0)).
  apply nth_error_nth with (d := 0%nat) in E. now rewrite E.
Qed.
Lemma row_free b k t Theta : where_is k (b_inds b) = None -> rowT (upd k t Theta) b = rowT Theta b.
Proof.
  intros Hp. apply where_is_None in Hp. unfold rowT. f_equal. apply map_ext_in. intros i Hi. rewrite upd_nth.
  destruct (Nat.eqb_spec k i); [subst; contradiction|reflexivity].
Qed.

Section Grad.
Context (gal_radii : list R) (amps dan dar : R -> R -> list R) (simple_radii : list R) (qf paf : R -> R -> R).
Hypothesis HT : tables_fit gal_radii amps dan dar.
Let csrc := class_src gal_radii amps dan dar simple_radii.
Definition gigT (p : plan) (Theta : list R) (b : blk) : gig :=
  convert_to_gaussians (class_src gal_radii amps dan dar simple_radii (b_kind b) (rowT Theta b)) (pl_stamp p).
Definition smooth_blk (p : plan) (Theta : list R) (b : blk) : Prop :=
  forall q, In q (pl_pixels p) ->
    smooth_at (class_radii gal_radii simple_radii (b_kind b)) (class_amps gal_radii amps simple_radii (b_kind b))
      (class_dan gal_radii dan simple_radii (b_kind b)) (class_dar gal_radii dar simple_radii (b_kind b)) (rowT Theta b) (pl_stamp p) (q_x q) (q_y q).

Lemma image_derive p Theta b k q : NoDup (b_inds b) -> (k < List.length Theta)%nat -> List.length (rowT Theta b) = 7%nat ->
  smooth_blk p Theta b -> In q (pl_pixels p) ->
  is_derive (fun t => fst (at_pixel (gigT p (upd k t Theta) b) q)) (nth k Theta 0) (hit k (b_inds b) (snd (at_pixel (gigT p Theta b) q))).
Proof.
  intros HN Hk HL HS Hq. unfold hit. destruct (where_is k (b_inds b)) as [j|] eqn:Ej.
  - apply (is_derive_ext (fun t => fst (slow_render (csrc (b_kind b) (upd j t (rowT Theta b))) (pl_stamp p) (q_x q) (q_y q)))).
    { intros t. unfold gigT, at_pixel, slow_render, csrc. do 4 f_equal. symmetry. exact (row_upd b k t Theta j Ej HN Hk). }
    rewrite <- (row_at b k Theta j Ej). destruct (where_is_Some _ _ _ Ej) as [_ Hj].
    apply (render_derive _ _ _ _ (rowT Theta b) (pl_stamp p) (q_x q) (q_y q) j); auto.
    + now apply class_fit.
    + unfold rowT in HL. rewrite app_length, map_length in HL. lia.
  - apply (is_derive_ext (fun _ => fst (at_pixel (gigT p Theta b) q))).
    { intros t. unfold gigT. do 4 f_equal. symmetry. exact (row_free b k t Theta Ej). }
    apply @is_derive_const.
Qed.

Lemma hit_scal k inds row c : hit k inds row * c = match where_is k inds with Some p => nth p row 0 * c | None => 0 end.
Proof. unfold hit. destruct (where_is k inds); ring. Qed.
Lemma hit_gradient k b px active gs : (List.length (b_inds b) <= 7)%nat ->
  hit k (b_inds b) (plan_gradient px active gs) = sumR (fun q => hit k (b_inds b) (snd (at_pixel gs q)) * (chi_at active q * q_ierr q)) px.
Proof.
  intros HL. unfold hit. destruct (where_is k (b_inds b)) as [p|] eqn:E.
  - apply where_is_Some in E as [_ Hp]. unfold plan_gradient. set (F := fun m => _).
    rewrite (nth_indep _ 0 (F 0%nat)) by (rewrite map_length, seq_length; lia). rewrite map_nth, seq_nth by lia. reflexivity.
  - symmetry. apply sumR_zero. intros. ring.
Qed.

Lemma value_derive p Theta B k : (k < List.length Theta)%nat ->
  (forall b, In b B -> NoDup (b_inds b) /\ List.length (rowT Theta b) = 7%nat /\ smooth_blk p Theta b) ->
  is_derive (fun t => plan_value (pl_pixels p) (map (gigT p (upd k t Theta)) B)) (nth k Theta 0)
    (sumR (fun b => hit k (b_inds b) (plan_gradient (pl_pixels p) (map (gigT p Theta) B) (gigT p Theta b))) B).
Proof.
  intros Hk HB.
  set (act := map (gigT p Theta) B). set (d := fun q => sumR (fun b => hit k (b_inds b) (snd (at_pixel (gigT p Theta b) q))) B).
  assert (Hup : upd k (nth k Theta 0) Theta = Theta).
  { apply nth_error_ext. intros j. rewrite nth_error_upd. destruct (Nat.eqb_spec k j) as [<-|]; auto.
    destruct (Nat.ltb_spec k (List.length Theta)); [|lia]. symmetry. now apply nth_error_nth'. }
  assert (HC : forall q, In q (pl_pixels p) -> is_derive (fun t => chi_at (map (gigT p (upd k t Theta)) B) q) (nth k Theta 0) (- d q * q_ierr q)).
  { intros q Hq. apply (is_derive_ext (fun t => (q_value q - sumR (fun b => fst (at_pixel (gigT p (upd k t Theta) b) q)) B) * q_ierr q)).
    { intros t. unfold chi_at. now rewrite sumR_map. }
    assert (HD : is_derive (fun t => sumR (fun b => fst (at_pixel (gigT p (upd k t Theta) b) q)) B) (nth k Theta 0) (d q)).
    { apply (sumR_derive (fun b t => fst (at_pixel (gigT p (upd k t Theta) b) q))). intros b Hb. destruct (HB b Hb) as (H1 & H2 & H3). now apply image_derive. }
    assert (H0 : is_derive (fun _ : R => q_value q) (nth k Theta 0) 0) by apply @is_derive_const.
    pose proof (is_derive_minus _ _ _ _ _ H0 HD) as H1.
    pose proof (is_derive_scal_l _ _ _ (q_ierr q) H1) as H2.
    refine (@eq_ind R _ (fun v : R => is_derive _ _ v) H2 _ _). unfold scal, minus, plus, opp; simpl. unfold mult; simpl. ring. }
  assert (E : sumR (fun b => hit k (b_inds b) (plan_gradient (pl_pixels p) act (gigT p Theta b))) B =
    - (1/2) * sumR (fun q => (- d q * q_ierr q) * chi_at act q + chi_at act q * (- d q * q_ierr q)) (pl_pixels p)).
  { rewrite <- sumR_scal. rewrite (sumR_ext _ (fun b => sumR (fun q => hit k (b_inds b) (snd (at_pixel (gigT p Theta b) q)) * (chi_at act q * q_ierr q)) (pl_pixels p))).
    - rewrite sumR_swap. apply sumR_ext. intros q _. unfold d.
      rewrite (sumR_ext _ (fun b => (chi_at act q * q_ierr q) * hit k (b_inds b) (snd (at_pixel (gigT p Theta b) q)))) by (intros; ring).
      rewrite sumR_scal. field.
    - intros b Hb. apply hit_gradient. destruct (HB b Hb) as (_ & H2 & _). unfold rowT in H2. rewrite app_length, map_length in H2. lia. }
  rewrite E. unfold plan_value.
  apply is_derive_scal. apply (sumR_derive (fun q t => chi_at (map (gigT p (upd k t Theta)) B) q * chi_at (map (gigT p (upd k t Theta)) B) q)).
  intros q Hq. pose proof (HC q Hq) as H. pose proof (is_derive_mult _ _ _ _ _ H H Rmult_comm) as H2. cbv beta in H2.
  refine (@eq_ind R _ (fun v : R => is_derive _ _ v) H2 _ _).
  assert (Ec : chi_at (map (gigT p (upd k (nth k Theta 0) Theta)) B) q = chi_at act q) by (now rewrite Hup).
  transitivity (- d q * q_ierr q * chi_at (map (gigT p (upd k (nth k Theta 0) Theta)) B) q + chi_at (map (gigT p (upd k (nth k Theta 0) Theta)) B) q * (- d q * q_ierr q));
    [reflexivity|now rewrite Ec].
Qed.

(** The loop over the plans on a scene whose objects are set *)
Let lplans := lnlike_plans gal_radii amps dan dar simple_radii qf paf.
Definition plan_ok (sc : list (source R)) (p : plan) : Prop := List.Forall (good (pl_filter p)) sc /\ (forall s, (1 < coverage p s)%Z).
Definition active_of (p : plan) (sc : list (source R)) : list gig := map (gig_of gal_radii amps dan dar simple_radii p) sc.
Definition grad_entry (sc : list (source R)) (k : nat) (p : plan) : R :=
  sumR (fun sb => hit k (b_inds (snd sb)) (plan_gradient (pl_pixels p) (active_of p sc) (gig_of gal_radii amps dan dar simple_radii p (fst sb))))
    (combine sc (blocks 0 sc (pl_filter p))).
Lemma plan_lnlike_ok kw fast px (active : list gig) : List.Forall (List.Forall shaped) active -> kw <> Some false ->
  exists kw', plan_lnlike kw fast px active [] = Some (plan_value px active, map (plan_gradient px active) active, kw') /\ kw' <> Some false.
Proof.
  intros HF Hkw. unfold plan_lnlike. destruct fast.
  - rewrite app_nil_r, (fast_closed px active HF). eexists. split; [reflexivity|]. destruct (no_gaussians active); auto. discriminate.
  - rewrite work_closed. destruct kw as [[|]|]; try congruence; eexists; (split; [reflexivity|]); auto.
Qed.
Lemma plans_ok sc plans : forall kw lnp grad, List.Forall (plan_ok sc) plans -> kw <> Some false ->
  (list_sum (map size sc) <= List.length grad)%nat ->
  exists grad' kw', lplans kw sc plans lnp grad =
      Some (lnp + sumR (fun p => plan_value (pl_pixels p) (active_of p sc)) plans, grad', kw') /\
    List.length grad' = List.length grad /\ forall k, nth k grad' 0 = nth k grad 0 + sumR (grad_entry sc k) plans.
Proof.
  induction plans as [|p plans IH]; intros kw lnp grad HP Hkw HL.
  - exists grad, kw. unfold lplans. cbn [lnlike_plans]. split; [unfold sumR; simpl; now rewrite Rplus_0_r|]. split; auto. intros; unfold sumR; simpl; ring.
  - inversion HP as [|? ? [G1 G2] HP']; subst. unfold lplans. cbn [lnlike_plans].
    unfold plan_sources. pose proof (loop_ok gal_radii amps dan dar simple_radii qf paf p sc [] G1 G2) as HLp. cbn [app List.length map list_sum fold_right] in HLp.
    rewrite HLp. rewrite nodupb_ok by (now apply blocks_nodup). fold (active_of p sc).
    destruct (plan_lnlike_ok kw (pl_fast p) (pl_pixels p) (active_of p sc)) as (kw1 & E1 & Hkw1); auto.
    { apply List.Forall_forall. intros g Hg. unfold active_of in Hg. apply in_map_iff in Hg as (s & <- & _). apply convert_shaped. }
    rewrite E1.
    assert (H7 : forall gs, List.length (plan_gradient (pl_pixels p) (active_of p sc) gs) = 7%nat) by (intros; unfold plan_gradient; now rewrite map_length, seq_length).
    set (h := fun s => plan_gradient (pl_pixels p) (active_of p sc) (gig_of gal_radii amps dan dar simple_radii p s)).
    assert (Eh : map (plan_gradient (pl_pixels p) (active_of p sc)) (active_of p sc) = map h sc) by (unfold active_of at 2; now rewrite map_map).
    rewrite Eh.
    assert (HF7 : List.Forall (fun r => List.length r = 7%nat) (map h sc)).
    { apply List.Forall_forall. intros r Hr. apply in_map_iff in Hr as (s & <- & _). apply H7. }
    pose proof (flat_ok sc [] (map h sc) HF7 (map_length h sc)) as HFl. cbn [app List.length] in HFl. rewrite HFl.
    destruct (add_at_ok grad (concat (map b_inds (blocks 0 sc (pl_filter p)))) (cut (map h sc) sc)) as (grad1 & A1 & A2 & A3).
    { now apply blocks_nodup. } { apply cut_len; auto. apply map_length. }
    { intros i Hi. apply in_concat in Hi as (l & Hl & Hi). apply in_map_iff in Hl as (b & <- & Hb).
      pose proof (blocks_range (pl_filter p) sc 0 b i G1 Hb Hi). lia. }
    rewrite A1. destruct (IH kw1 (lnp + plan_value (pl_pixels p) (active_of p sc)) grad1 HP' Hkw1 ltac:(lia)) as (grad2 & kw2 & B1 & B2 & B3).
    exists grad2, kw2. unfold lplans in B1. rewrite B1. rewrite sumR_cons. split; [f_equal; f_equal; f_equal; ring|]. split; [congruence|].
    intros k. rewrite B3, A3, sumR_cons. unfold grad_entry at 2. rewrite (hit_cut (pl_filter p) k h) by (auto; intros; apply H7). unfold h. ring.
Qed.
End Grad.
