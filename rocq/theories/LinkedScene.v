(** Shape of the patches of the linked server (C10). *)
From Verif Require Import Np NpFacts SuperSceneModel SuperSceneSpec SuperSceneFacts SuperSceneHist
     LinkedModel LinkedSpec LinkedGraph LinkedFacts.
From Coq Require Import Relations Permutation Sorted Lqa.

(** * grow_scene *)
Lemma grow_scene_inv e lc s k mf cra cdec radius ai fi :
  grow_scene e lc s k mf = LScene cra cdec radius ai fi ->
  k < List.length (sourcecat s) /\
  exists cands, find_overlaps e lc s (coord e k) (boundary_radius (base lc)) None true = Some cands /\
    (exists crows, fancy_get (sourcecat s) cands = Some crows /\
       np_any (map (fun r => flag (is_active r)) crows) = false) /\
    greedy (grow_source e lc s) (maxactive (base lc)) (strict lc) cands [] = Some ai /\
    (exists arows ras decs, fancy_get (sourcecat s) ai = Some arows /\
       mapM (fun r => getcol r "ra") arows = Some ras /\ mapM (fun r => getcol r "dec") arows = Some decs /\
       cra = Qmean ras /\ cdec = Qmean decs) /\
    (exists rois rmax, mapM (roi_at lc s) ai = Some rois /\
       Qmax_list (map (fun kr => distance_to (le e) (sky_to_scene (le e) cra cdec) (fst kr) + snd kr + buffer lc)%Q
                      (combine ai rois)) = Some rmax /\ radius = Qmaxb (minradius (base lc)) rmax) /\
    exists inreg, find_overlaps e lc s (sky_to_scene (le e) cra cdec) ((12#10) * radius)%Q None true = Some inreg /\
      fi = firstn (Nat.min (List.length (filter (fun i => negb (memn i ai)) inreg))
                    (match mf with Some m => m | None => maxactive (base lc) end))
                  (filter (fun i => negb (memn i ai)) inreg).
Proof.
  unfold grow_scene. intros H.
  destruct (Nat.ltb_spec k (List.length (sourcecat s))) as [Hk|]; [|discriminate].
  cbn [negb] in H. split; auto.
  destruct (_ =? 0); [discriminate|].
  destruct (find_overlaps e lc s (coord e k) _ None true) as [cands|] eqn:Ec; [|discriminate].
  destruct (fancy_get (sourcecat s) cands) as [crows|] eqn:Ecr; [|discriminate].
  destruct (np_any _) eqn:Eany; [discriminate|].
  destruct (greedy _ _ _ _ _) as [ai'|] eqn:Eg; [|discriminate].
  destruct (fancy_get (sourcecat s) ai') as [arows|] eqn:Ear; [|discriminate].
  destruct (mapM (fun r => getcol r "ra") arows) as [ras|] eqn:Era; [|discriminate].
  destruct (mapM (fun r => getcol r "dec") arows) as [decs|] eqn:Ede; [|discriminate].
  destruct (mapM (roi_at lc s) ai') as [rois|] eqn:Ero; [|discriminate].
  destruct (Qmax_list _) as [rmax|] eqn:Em; [|discriminate].
  destruct (find_overlaps e lc s (sky_to_scene _ _ _) _ None true) as [inreg|] eqn:Ei; [|discriminate].
  injection H as <- <- <- <- <-.
  exists cands. split; auto. split; [eauto|]. split; auto. split; [exists arows, ras, decs; auto|].
  split; [exists rois, rmax; auto|]. exists inreg. auto.
Qed.

Lemma lcheckout_inv e lc s k mf s' p :
  lcheckout_region e lc s k mf = LCoGranted s' p ->
  exists cra cdec r ai fi,
    grow_scene e lc s k mf = LScene cra cdec r ai fi /\
    (forall j, src s' j = option_map (out_row ai fi j) (src s j)) /\
    List.length (sourcecat s') = List.length (sourcecat s) /\
    lp_region p = ((cra, cdec), (r / 3600)%Q) /\
    fancy_get (sourcecat s') ai = Some (lp_active p) /\
    fancy_get (sourcecat s) fi = Some (lfixed_rows p) /\
    n_active s' = (n_active s + Z.of_nat (List.length ai))%Z /\
    n_fixed s' = (n_fixed s + Z.of_nat (List.length fi))%Z /\
    bounds_catalog s' = bounds_catalog s /\ covariance_matrices s' = covariance_matrices s /\
    sourcelog s' = sourcelog s /\ patchlog s' = patchlog s.
Proof.
  unfold lcheckout_region. intros H.
  destruct (grow_scene _ _ _ _ _) as [|cra cdec r ai fi|] eqn:Hsc; try discriminate.
  destruct (fancy_get (sourcecat s) fi) as [frows|] eqn:Hf; [|discriminate].
  destruct (fancy_get _ ai) as [arows|] eqn:Ha; [|discriminate].
  injection H as <- <-.
  exists cra, cdec, r, ai, fi. cbn [sourcecat lp_region lp_active n_active n_fixed bounds_catalog covariance_matrices sourcelog patchlog].
  split; auto. split.
  { intros j. unfold src. cbn [sourcecat].
    rewrite !put_scalar_nth by reflexivity.
    destruct (nth_error (sourcecat s) j) as [rw|]; simpl; auto. f_equal.
    unfold out_row. rewrite memn_app.
    destruct (memn j ai), (memn j fi); destruct rw; reflexivity. }
  split. { unfold fancy_put_scalar. now rewrite !fancy_put_field_length. }
  repeat match goal with |- _ /\ _ => split end; auto.
  unfold lfixed_rows. cbn [lp_fixed]. destruct fi; auto.
Qed.

Lemma lcheckout_refused e lc s k mf s' : lcheckout_region e lc s k mf = LCoRefused s' -> s' = s.
Proof.
  unfold lcheckout_region. intros H.
  repeat match goal with H : match ?x with _ => _ end = _ |- _ => destruct x; try discriminate end.
  now injection H as <-.
Qed.

Section Shape.
Context (e : lenv) (lc : lconfig) (s : state).
Let n := List.length (sourcecat s).
Context (He : lenv_ok n e) (Hroi : roi_ok lc s).
Context (HB : (0 <= boundary_radius (base lc))%Q) (HM : (0 <= minradius (base lc))%Q).

Lemma roi_of_nonneg k : k < n -> (0 <= roi_of lc s k)%Q.
Proof. intros Hk. destruct (Hroi k Hk) as (r & Hr & Hp). unfold roi_of. now rewrite Hr. Qed.

Context (k : nat) (mf : option nat) (cra cdec radius : Q) (ai fi : list nat).
Context (Hg : grow_scene e lc s k mf = LScene cra cdec radius ai fi).

Lemma scene_seed : k < n.
Proof. apply (grow_scene_inv _ _ _ _ _ _ _ _ _ _ Hg). Qed.

Lemma scene_active_lt j : In j ai -> j < n.
Proof.
  intros Hj. destruct (grow_scene_inv _ _ _ _ _ _ _ _ _ _ Hg) as (_ & cands & _ & _ & _ & (arows & ras & decs & Ha & _) & _).
  unfold fancy_get in Ha. apply mapM_Some in Ha. apply In_nth_error in Hj as (i & Hi).
  destruct (Forall2_nth_error _ _ _ _ _ Ha Hi) as (r & _ & Hr). apply nth_error_Some. congruence.
Qed.

Lemma scene_length : 1 <= List.length ai <= maxactive (base lc).
Proof.
  destruct (grow_scene_inv _ _ _ _ _ _ _ _ _ _ Hg) as (_ & cands & _ & _ & Hgr & _ & (rois & rmax & Hro & Hmax & _) & _).
  split.
  - destruct ai; simpl in *; [discriminate|lia].
  - apply (greedy_length _ _ _ _ _ _ Hgr). simpl. lia.
Qed.

Lemma scene_radius : (minradius (base lc) <= radius)%Q /\
  forall j, In j ai -> (distance_to (le e) (sky_to_scene (le e) cra cdec) j + roi_of lc s j + buffer lc <= radius)%Q.
Proof.
  pose proof scene_active_lt as Hlt.
  destruct (grow_scene_inv _ _ _ _ _ _ _ _ _ _ Hg) as (_ & cands & _ & _ & _ & _ & (rois & rmax & Hro & Hmax & Hr) & _).
  rewrite (rois_map lc s Hroi ai Hlt) in Hro. injection Hro as <-.
  rewrite combine_self_map, map_map in Hmax. cbn [fst snd] in Hmax.
  apply Qmax_list_spec in Hmax as [_ Hmax].
  assert (HQ : (minradius (base lc) <= radius /\ rmax <= radius)%Q).
  { rewrite Hr. unfold Qmaxb. destruct (Qltb _ _) eqn:E.
    - apply Qltb_lt in E. split; [lra|lra].
    - split; [lra|]. unfold Qltb in E. apply negb_false_iff, Qle_bool_iff in E. exact E. }
  split; [tauto|]. intros j Hj.
  eapply Qle_trans; [|apply HQ]. apply Hmax. apply in_map_iff. eauto.
Qed.

Lemma scene_fixed :
  NoDup fi /\ (forall j, In j fi -> j < n /\ ~ In j ai /\
     (distance_to (le e) (sky_to_scene (le e) cra cdec) j < (12#10) * radius + roi_of lc s j)%Q) /\
  List.length fi <= (match mf with Some m => m | None => maxactive (base lc) end) /\
  (List.length fi < (match mf with Some m => m | None => maxactive (base lc) end) ->
   forall j, j < n -> ~ In j ai ->
     (distance_to (le e) (sky_to_scene (le e) cra cdec) j <= (12#10) * radius + boundary_radius (base lc))%Q ->
     (distance_to (le e) (sky_to_scene (le e) cra cdec) j < (12#10) * radius + roi_of lc s j)%Q -> In j fi).
Proof.
  pose proof scene_radius as [Hrad _].
  destruct (grow_scene_inv _ _ _ _ _ _ _ _ _ _ Hg) as (_ & cands & _ & _ & _ & _ & _ & inreg & Hin & Hfi).
  assert (Hpos : (0 <= (12#10) * radius)%Q) by lra.
  destruct (find_overlaps_spec e lc s He Hroi (sky_to_scene (le e) cra cdec) ((12#10) * radius)%Q None true Hpos)
    as (r & Hr & Hnd & Hspec & _).
  rewrite Hr in Hin. injection Hin as <-.
  set (f0 := filter (fun i => negb (memn i ai)) r) in *.
  set (m := match mf with Some m => m | None => maxactive (base lc) end) in *.
  assert (Hf0 : forall j, In j f0 <-> In j r /\ ~ In j ai).
  { intros j. unfold f0. rewrite filter_In, negb_true_iff, memn_nIn. tauto. }
  split; [|split; [|split]].
  - rewrite Hfi. apply NoDup_firstn, NoDup_filter; auto.
  - intros j Hj. rewrite Hfi in Hj. apply firstn_In in Hj. apply Hf0 in Hj as [Hj Hn].
    apply Hspec in Hj as (H1 & H2 & H3 & _). auto.
  - rewrite Hfi, firstn_length. lia.
  - intros Hl j Hj Hna Hd1 Hd2. rewrite Hfi, firstn_length in Hl.
    assert (Hmin : Nat.min (List.length f0) m = List.length f0) by lia.
    rewrite Hfi, Hmin, firstn_all. apply Hf0. split; auto. apply Hspec. repeat split; auto. discriminate.
Qed.

Lemma scene_candidates_free : exists cands,
  find_overlaps e lc s (coord e k) (boundary_radius (base lc)) None true = Some cands /\
  greedy (grow_source e lc s) (maxactive (base lc)) (strict lc) cands [] = Some ai /\
  (forall j, In j cands -> j < n /\ exists rw, src s j = Some rw /\ is_active rw = 0%Z).
Proof.
  destruct (grow_scene_inv _ _ _ _ _ _ _ _ _ _ Hg) as (_ & cands & Hc & (crows & Hcr & Hany) & Hgr & _).
  exists cands. split; auto. split; auto. intros j Hj.
  unfold fancy_get in Hcr. apply mapM_Some in Hcr. apply In_nth_error in Hj as (i & Hi).
  destruct (Forall2_nth_error _ _ _ _ _ Hcr Hi) as (rw & Hrw & Hsj).
  split; [apply nth_error_Some; congruence|].
  exists rw. split; auto. destruct (Z.eq_dec (is_active rw) 0) as [|Hne]; auto.
  assert (Ht : np_any (map (fun r => flag (is_active r)) crows) = true); [|congruence].
  unfold np_any. rewrite existsb_exists. exists true. split; auto.
  apply in_map_iff. exists rw. split; [|eapply nth_error_In; eauto].
  unfold flag. apply negb_true_iff, Z.eqb_neq. auto.
Qed.

(** With radii of influence inside the boundary radius. *)
Context (Hsmall : small_roi lc s).

Definition whole (l : list nat) : Prop := forall i j, In i l -> linked e lc s i j -> In j l.

Lemma scene_groups :
  NoDup ai /\
  (whole ai \/
   exists act' c group, ai = act' ++ firstn (maxactive (base lc) - List.length act') group /\ whole act' /\
      NoDup group /\ (forall x, In x group <-> linked e lc s c x) /\
      maxactive (base lc) < List.length act' + List.length group /\
      (strict lc = true -> act' = [])).
Proof.
  destruct scene_candidates_free as (cands & Hc & Hgr & Hfree).
  destruct (greedy_spec (grow_source e lc s) (maxactive (base lc)) (strict lc) n (linked e lc s)
              (fun i => rt_refl _ _ i) (linked_sym e lc s He) (fun i j k => rt_trans _ _ i j k)
              (grow_source_linked e lc s He Hroi Hsmall) cands []) as (res & H1 & H2 & H3 & H4).
  - intros c Hcc. now apply Hfree.
  - constructor.
  - intros i j [].
  - simpl; lia.
  - rewrite Hgr in H1. injection H1 as <-. split; auto.
    destruct H4 as [[H4 _]|(act' & c & ta & Q1 & Q2 & Q3 & Q4 & Q5 & Q6 & Q7)]; [left; exact H4|].
    right. exists act', c, ta. split; auto. split; auto.
    destruct (grow_source_linked e lc s He Hroi Hsmall c) as (l & Hl & Hnd & _ & Hin); [apply Hfree; auto|].
    rewrite Hl in Q3. injection Q3 as ->. split; auto. split; auto. split; auto.
    intros Hst. now apply Q7.
Qed.

(** The seed's group is added first. *)
Lemma scene_has_seed group :
  (0 < roi_of lc s k)%Q -> NoDup group -> (forall x, In x group <-> linked e lc s k x) ->
  List.length group <= maxactive (base lc) -> incl group ai.
Proof.
  intros Hpos Hndg Hgroup Hfit.
  pose proof scene_seed as Hk.
  destruct scene_candidates_free as (cands & Hc & Hgr & Hfree).
  destruct (find_overlaps_spec e lc s He Hroi (coord e k) (boundary_radius (base lc)) None true HB)
    as (r & Hr & Hnd & Hspec & Hsort).
  rewrite Hc in Hr. injection Hr as <-. specialize (Hsort eq_refl).
  pose proof (dist_self _ _ He k Hk) as Hself.
  assert (Hkc : In k cands).
  { apply Hspec. split; auto. rewrite Hself. split; [lra|]. split; [lra|discriminate]. }
  destruct cands as [|c cands]; [contradiction|].
  assert (Hcl : c < n) by (apply Hfree; simpl; auto).
  assert (Hck : linked e lc s c k).
  { destruct (Nat.eq_dec c k) as [->|Hne]; [apply rt_refl|].
    destruct Hkc as [|Hkc]; [congruence|].
    inversion Hsort as [|? ? _ Hall]; subst. rewrite Forall_forall in Hall. specialize (Hall k Hkc).
    pose proof (roi_of_nonneg c Hcl) as Hrc.
    pose proof (dist_nonneg _ _ He (coord e k) c) as Hdc.
    assert (Hin : In c (c :: cands)) by (simpl; auto).
    apply Hspec in Hin as (_ & _ & Hdlt & _).
    assert (Hnz1 : (0 < boundary_radius (base lc) + roi_of lc s c)%Q) by lra.
    assert (Hnz2 : (0 < boundary_radius (base lc) + roi_of lc s k)%Q) by lra.
    unfold met, metric in Hall.
    destruct (Qeq_bool (boundary_radius (base lc) + roi_of lc s c) 0) eqn:E1; [apply Qeq_bool_eq in E1; lra|].
    destruct (Qeq_bool (boundary_radius (base lc) + roi_of lc s k) 0) eqn:E2; [apply Qeq_bool_eq in E2; lra|].
    cbn [metric_value] in Hall.
    assert (Hz : (distance_to (le e) (coord e k) k / (boundary_radius (base lc) + roi_of lc s k) == 0)%Q).
    { rewrite Hself. field. lra. }
    rewrite Hz in Hall.
    assert (Hd0 : (distance_to (le e) (coord e k) c <= 0)%Q).
    { apply Qmult_le_compat_r with (z := (boundary_radius (base lc) + roi_of lc s c)%Q) in Hall; [|lra].
      assert (Ex : (distance_to (le e) (coord e k) c / (boundary_radius (base lc) + roi_of lc s c) *
                   (boundary_radius (base lc) + roi_of lc s c) == distance_to (le e) (coord e k) c)%Q) by (field; lra).
      rewrite Ex in Hall. lra. }
    apply (linked_sym e lc s He). apply rt_step. split; [auto|]. split; [auto|]. split; [auto|]. lra. }
  cbn [greedy memn existsb] in Hgr.
  destruct (grow_source_linked e lc s He Hroi Hsmall c Hcl) as (l & Hl & Hndl & _ & Hinl).
  rewrite Hl in Hgr. cbn [List.length] in Hgr.
  assert (Hlen : List.length l <= maxactive (base lc)).
  { eapply Nat.le_trans; [|exact Hfit]. apply NoDup_incl_length; auto. intros x Hx. apply Hgroup.
    apply Hinl in Hx. eapply rt_trans; [|exact Hx]. now apply (linked_sym e lc s He). }
  destruct (Nat.ltb_spec (maxactive (base lc) - 0) (List.length l)) as [Hlt|Hge]; [lia|].
  destruct (greedy_length _ _ _ _ _ _ Hgr) as (_ & rest & Hrest); [simpl; lia|].
  intros x Hx. rewrite Hrest. apply in_or_app. left. apply Hinl. apply Hgroup in Hx. eapply rt_trans; eauto.
Qed.

(** When every group fits, in strict mode no active source is taken. *)
Lemma scene_free :
  strict lc = true ->
  (forall i group, i < n -> NoDup group -> (forall x, In x group -> linked e lc s i x) ->
     List.length group <= maxactive (base lc)) ->
  whole ai /\ forall j, In j ai -> exists c rw, linked e lc s c j /\ src s c = Some rw /\ is_active rw = 0%Z.
Proof.
  intros Hst Hfit.
  destruct scene_candidates_free as (cands & Hc & Hgr & Hfree).
  destruct (greedy_spec (grow_source e lc s) (maxactive (base lc)) (strict lc) n (linked e lc s)
              (fun i => rt_refl _ _ i) (linked_sym e lc s He) (fun i j k => rt_trans _ _ i j k)
              (grow_source_linked e lc s He Hroi Hsmall) cands []) as (res & H1 & H2 & H3 & H4).
  - intros c Hcc. now apply Hfree.
  - constructor.
  - intros i j [].
  - simpl; lia.
  - rewrite Hgr in H1. injection H1 as <-. split.
    + destruct H4 as [[H4 _]|(act' & c & ta & Q1 & Q2 & Q3 & Q4 & Q5 & Q6 & Q7)]; [exact H4|].
      destruct (Q7 Hst) as (-> & _). simpl in Q5.
      destruct (grow_source_linked e lc s He Hroi Hsmall c) as (l & Hl & Hnd & _ & Hin); [apply Hfree; auto|].
      rewrite Hl in Q3. injection Q3 as ->.
      assert (List.length ta <= maxactive (base lc)); [|lia].
      apply (Hfit c); auto; [now apply Hfree|]. intros x Hx. now apply Hin.
    + intros j Hj. destruct (H3 j Hj) as [[]|(c & Hcc & Hlk)].
      destruct (Hfree c Hcc) as (_ & rw & Hs & Hz). eauto.
Qed.
End Shape.
