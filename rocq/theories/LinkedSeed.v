(** C82 for the friends-of-friends server (superscene.py 567-675): the seed is in
    its own patch, so no source is left out for ever, unless another source is
    at exactly the same place. *)
From Verif Require Import Np NpFacts SuperSceneModel SuperSceneSpec SuperSceneFacts SuperSceneHist SuperSceneExamples
     LinkedModel LinkedSpec LinkedGraph LinkedFacts LinkedScene LinkedHist LinkedExamples LinkedProps.
From Coq Require Import Relations Permutation Sorted Lqa.
Open Scope nat_scope.

(** Whatever the radii, the limit and the mode: a patch around a source with no
    other at its very place holds that source, first of all. *)
Theorem C82_linked_seed : forall e lc s k mf s' p,
  lenv_ok (List.length (sourcecat s)) e -> roi_ok lc s -> numbered s -> (0 < boundary_radius (base lc))%Q ->
  (forall j, j < List.length (sourcecat s) -> j <> k -> (0 < distance_to (le e) (coord e k) j)%Q) ->
  lcheckout_region e lc s k mf = LCoGranted s' p ->
  hd_error (ids (lp_active p)) = Some (Z.of_nat k).
Proof.
  intros e lc s k mf s' p He Hroi Hnum HB Halone H.
  apply lcheckout_inv in H as (cra & cdec & r & ai & fi & Hgs & Hrow & HLen & Hreg & Ha & Hf & _).
  assert (Hidx' : forall j rw, src s' j = Some rw -> source_index rw = Z.of_nat j).
  { intros j rw Hj. rewrite Hrow in Hj. destruct (src s j) as [rw0|] eqn:E; [|discriminate].
    injection Hj as <-. simpl. auto. }
  rewrite (SuperSceneHist.fetched_ids _ _ _ Hidx' Ha).
  enough (exists rest, ai = k :: rest) by (destruct H as (rest & ->); reflexivity).
  pose proof (scene_length e lc s k mf cra cdec r ai fi Hgs) as Hlen.
  destruct (grow_scene_inv _ _ _ _ _ _ _ _ _ _ Hgs) as (Hk & cands & Hc & _ & Hgr & _).
  destruct (find_overlaps_spec e lc s He Hroi (coord e k) (boundary_radius (base lc)) None true (Qlt_le_weak _ _ HB))
    as (r0 & Hr & Hnd & Hspec & Hsort).
  rewrite Hc in Hr. injection Hr as <-. specialize (Hsort eq_refl).
  pose proof (dist_self _ _ He k Hk) as Hself.
  assert (Hpos : forall j, j < List.length (sourcecat s) -> (0 <= roi_of lc s j)%Q) by (intros j Hj; now apply roi_of_nonneg).
  pose proof (Hpos k Hk) as Hrk.
  assert (Hkc : In k cands).
  { apply Hspec. split; auto. rewrite Hself. split; [lra|]. split; [lra|discriminate]. }
  destruct cands as [|c cands]; [contradiction|].
  assert (c = k).
  { destruct (Nat.eq_dec c k) as [|Hne]; [assumption|exfalso].
    destruct Hkc as [|Hkc]; [congruence|].
    inversion Hsort as [|? ? _ Hall]; subst. rewrite Forall_forall in Hall. specialize (Hall k Hkc).
    assert (Hin : In c (c :: cands)) by (simpl; auto).
    apply Hspec in Hin as (Hcl & _ & Hdlt & _).
    pose proof (Hpos c Hcl) as Hrc. pose proof (Halone c Hcl Hne) as Hdc.
    unfold met, metric in Hall.
    destruct (Qeq_bool (boundary_radius (base lc) + roi_of lc s c) 0) eqn:E1; [apply Qeq_bool_eq in E1; lra|].
    destruct (Qeq_bool (boundary_radius (base lc) + roi_of lc s k) 0) eqn:E2; [apply Qeq_bool_eq in E2; lra|].
    cbn [metric_value] in Hall.
    assert (Hz : (distance_to (le e) (coord e k) k / (boundary_radius (base lc) + roi_of lc s k) == 0)%Q).
    { rewrite Hself. field. lra. }
    rewrite Hz in Hall.
    assert (Hlt : (0 < distance_to (le e) (coord e k) c / (boundary_radius (base lc) + roi_of lc s c))%Q).
    { apply Qlt_shift_div_l; lra. }
    lra. }
  subst c. cbn [greedy memn existsb] in Hgr.
  destruct (grow_spec (List.length (sourcecat s)) (source_overlaps e lc s) (Hov' e lc s He Hroi) k Hk) as (l & Hl & _ & (rest & El) & _).
  change (grow_loop (source_overlaps e lc s) (S (List.length (sourcecat s))) [k] []) with (grow_source e lc s k) in Hl.
  rewrite Hl in Hgr. cbn [List.length app] in Hgr.
  destruct (Nat.ltb_spec (maxactive (base lc) - 0) (List.length l)) as [Hlt|Hge].
  - cbn [Nat.eqb] in Hgr. rewrite orb_true_r in Hgr. injection Hgr as <-. subst l.
    destruct (maxactive (base lc)) as [|m]; [lia|]. cbn. eauto.
  - destruct (greedy_length _ _ _ _ _ _ Hgr) as (_ & rest2 & Hrest); [lia|].
    subst l. exists (rest ++ rest2). exact Hrest.
Qed.
Print Assumptions C82_linked_seed.

(** * A free neighbourhood is granted *)
Lemma mapM_total {A B} (f : A -> option B) l : (forall x, In x l -> exists y, f x = Some y) -> exists r, mapM f l = Some r.
Proof.
  induction l as [|x l IH]; intros H; simpl; [eauto|].
  destruct (H x (or_introl eq_refl)) as (y & ->). destruct IH as (r & ->); [intros; apply H; simpl; auto|]. eauto.
Qed.
Lemma greedy_total grow maxact strict n :
  (forall i, i < n -> exists l, grow i = Some l /\ forall x, In x l -> x < n) ->
  forall cands active, (forall x, In x cands -> x < n) -> (forall x, In x active -> x < n) ->
  exists res, greedy grow maxact strict cands active = Some res /\ forall x, In x res -> x < n.
Proof.
  intros Hg. induction cands as [|c cands IH]; intros active Hc Ha; simpl; [eauto|].
  destruct (memn c active); [apply IH; auto; intros; apply Hc; simpl; auto|].
  destruct (Hg c (Hc c (or_introl eq_refl))) as (l & -> & Hl).
  destruct (_ <? _).
  - eexists. split; [reflexivity|]. intros x Hx. destruct (negb strict || _); [|auto].
    apply in_app_iff in Hx as [Hx|Hx]; auto. apply firstn_In in Hx. auto.
  - apply IH; [intros; apply Hc; simpl; auto|]. intros x Hx. apply in_app_iff in Hx as [Hx|Hx]; auto.
Qed.

(** When no source that overlaps the circle around the seed is out, a patch is
    handed out, in strict mode too and however large the groups: the request is
    neither refused nor does it fail. *)
Theorem C82_linked_granted : forall e lc s k mf,
  lenv_ok (List.length (sourcecat s)) e -> roi_ok lc s -> (0 < boundary_radius (base lc))%Q -> (0 <= minradius (base lc))%Q ->
  1 <= maxactive (base lc) ->
  (forall r, In r (sourcecat s) -> exists ra dec, getcol r "ra" = Some ra /\ getcol r "dec" = Some dec) ->
  k < List.length (sourcecat s) ->
  (forall j rw, src s j = Some rw -> (distance_to (le e) (coord e k) j < boundary_radius (base lc) + roi_of lc s j)%Q -> is_active rw = 0%Z) ->
  exists s' p, lcheckout_region e lc s k mf = LCoGranted s' p.
Proof.
  intros e lc s k mf He Hroi HB HM Hmax Hcols Hk Hfree.
  set (n := List.length (sourcecat s)) in *.
  assert (Hpos : forall j, j < n -> (0 <= roi_of lc s j)%Q) by (intros j Hj; now apply roi_of_nonneg).
  pose proof (dist_self _ _ He k Hk) as Hself. pose proof (Hpos k Hk) as Hrk.
  destruct (find_overlaps_spec e lc s He Hroi (coord e k) (boundary_radius (base lc)) None true (Qlt_le_weak _ _ HB))
    as (cands & Hc & _ & Hspec & _).
  assert (Hkc : In k cands).
  { apply Hspec. split; auto. rewrite Hself. split; [lra|]. split; [lra|discriminate]. }
  assert (Hclt : forall x, In x cands -> x < n) by (intros x Hx; apply Hspec in Hx; tauto).
  assert (Hgrow : forall i, i < n -> exists l rest, grow_source e lc s i = Some l /\ l = i :: rest /\ forall x, In x l -> x < n).
  { intros i Hi. destruct (grow_spec n (source_overlaps e lc s) (Hov' e lc s He Hroi) i Hi) as (l & Hl & _ & (rest & El) & Hin).
    exists l, rest. split; [exact Hl|]. split; [exact El|]. intros x Hx. apply Hin in Hx.
    exact (reach_lt n (source_overlaps e lc s) (Hov' e lc s He Hroi) i x Hi Hx). }
  destruct (greedy_total (grow_source e lc s) (maxactive (base lc)) (strict lc) n) with (cands := cands) (active := @nil nat) as (ai & Hai & Halt); auto.
  { intros i Hi. destruct (Hgrow i Hi) as (l & rest & H1 & _ & H2). eauto. }
  { contradiction. }
  assert (Hne : ai <> []).
  { destruct cands as [|c cands]; [contradiction|]. cbn [greedy memn existsb] in Hai.
    destruct (Hgrow c (Hclt c (or_introl eq_refl))) as (l & rest & H1 & H2 & _). rewrite H1 in Hai.
    destruct (_ <? _) eqn:El.
    - cbn [List.length Nat.eqb] in Hai. rewrite orb_true_r in Hai. injection Hai as <-. subst l.
      destruct (maxactive (base lc)); [lia|]. cbn. discriminate.
    - apply Nat.ltb_ge in El. cbn [app List.length] in Hai, El.
      destruct (greedy_length _ _ _ _ _ _ Hai) as (_ & rest2 & ->); [lia|]. subst l. discriminate. }
  assert (Hq : In k (query_ball (le e) (coord e k) (boundary_radius (base lc) + boundary_radius (base lc)))).
  { apply (query_spec _ _ (lenv_base _ _ He)). split; auto. rewrite Hself. lra. }
  assert (Hgs : exists cra cdec r fi, grow_scene e lc s k mf = LScene cra cdec r ai fi /\ forall x, In x fi -> x < n).
  { unfold grow_scene. cbv zeta. fold n.
    assert (E1 : (k <? n) = true) by now apply Nat.ltb_lt. rewrite E1. cbn [negb].
    destruct (query_ball _ _ _) as [|q0 qs] eqn:Eq; [contradiction|]. cbn [List.length Nat.eqb].
    rewrite Hc. rewrite (fancy_get_map row0) by exact Hclt.
    assert (E2 : np_any (map (fun r => flag (is_active r)) (map (fun i => nth i (sourcecat s) row0) cands)) = false).
    { apply not_true_iff_false. unfold np_any. rewrite existsb_exists. intros (x & Hx & ->).
      rewrite map_map in Hx. apply in_map_iff in Hx as (j & Hj & Hin).
      apply Hspec in Hin as (Hjn & _ & Hd & _).
      assert (Es : src s j = Some (nth j (sourcecat s) row0)) by (apply nth_error_nth'; exact Hjn).
      unfold flag in Hj. rewrite (Hfree j _ Es Hd) in Hj. discriminate. }
    rewrite E2, Hai. rewrite (fancy_get_map row0) by exact Halt.
    assert (Hrows : forall r, In r (map (fun i => nth i (sourcecat s) row0) ai) -> In r (sourcecat s)).
    { intros r Hr. apply in_map_iff in Hr as (j & <- & Hj). apply nth_In. now apply Halt. }
    destruct (mapM_total (fun r => getcol r "ra") (map (fun i => nth i (sourcecat s) row0) ai)) as (ras & ->).
    { intros r Hr. destruct (Hcols r (Hrows r Hr)) as (ra & dec & H1 & H2). eauto. }
    destruct (mapM_total (fun r => getcol r "dec") (map (fun i => nth i (sourcecat s) row0) ai)) as (decs & ->).
    { intros r Hr. destruct (Hcols r (Hrows r Hr)) as (ra & dec & H1 & H2). eauto. }
    rewrite (rois_map lc s Hroi ai Halt), combine_self_map, map_map.
    destruct ai as [|a0 ai']; [congruence|]. cbn [map Qmax_list].
    match goal with |- context [Qmaxb (minradius (base lc)) ?m] => set (rmax := m) end.
    assert (Hrad : (0 <= (12#10) * Qmaxb (minradius (base lc)) rmax)%Q).
    { unfold Qmaxb. destruct (Qltb _ _) eqn:E; [apply Qltb_lt in E; lra|lra]. }
    destruct (find_overlaps_spec e lc s He Hroi (sky_to_scene (le e) (Qmean ras) (Qmean decs)) _ None true Hrad)
      as (inreg & -> & _ & Hin & _).
    do 4 eexists. split; [reflexivity|]. intros x Hx. apply firstn_In in Hx. apply filter_In in Hx as [Hx _].
    apply Hin in Hx. tauto. }
  destruct Hgs as (cra & cdec & r & fi & Hgs & Hflt). unfold lcheckout_region. rewrite Hgs.
  rewrite (fancy_get_map row0) by exact Hflt.
  match goal with |- context [fancy_get ?c ai] => rewrite (fancy_get_map row0 c) end.
  - eauto.
  - intros i Hi. unfold fancy_put_scalar. rewrite !fancy_put_field_length. now apply Halt.
Qed.
Print Assumptions C82_linked_granted.

(** Two sources at one place and one source to a patch: over all histories the
    second is in no patch. *)
Definition twin : list (Q * Q) := [(0, 1); (0, 1)]%Q.
Definition twin_e := line_lenv (map fst twin).
Definition twin_c := lcfg 1 8 true (Some (map snd twin)).
Theorem C82_twins_refuted : exists e lc cat b covs,
  lenv_ok (List.length cat) e /\ roi_ok lc (ingest cat b covs) /\ small_roi lc (ingest cat b covs) /\
  1 <= maxactive (base lc) /\ 1 < List.length cat /\
  (exists k mf s' p, lcheckout_region e lc (ingest cat b covs) k mf = LCoGranted s' p) /\
  forall evs s out k mf s' p, lhistory e lc (ingest cat b covs) evs s out ->
    lcheckout_region e lc s k mf = LCoGranted s' p -> ids (lp_active p) = [0]%Z.
Proof.
  exists twin_e, twin_c, (lcat twin), (map (fun _ => []) twin), (map (fun _ => []) twin).
  split; [exact (line_lenv_ok (map fst twin))|]. split.
  { intros k Hk. destruct k as [|[|k]]; [| |simpl in Hk; lia]; eexists; split; try reflexivity; discriminate. }
  split.
  { intros k Hk. destruct k as [|[|k]]; [| |simpl in Hk; lia]; discriminate. }
  split; [simpl; lia|]. split; [simpl; lia|]. split.
  { exists 0, None. eexists. eexists. vm_compute. reflexivity. }
  intros evs s out k mf s' p Hh H.
  destruct (lhistory_numbered _ _ _ _ _ _ _ _ Hh) as [HL Hnum]. change (List.length (lcat twin)) with 2 in HL.
  apply lcheckout_inv in H as (cra & cdec & r & ai & fi & Hgs & Hrow & HLen & Hreg & Ha & Hf & _).
  assert (Hidx' : forall j rw, src s' j = Some rw -> source_index rw = Z.of_nat j).
  { intros j rw Hj. rewrite Hrow in Hj. destruct (src s j) as [rw0|] eqn:E; [|discriminate].
    injection Hj as <-. simpl. auto. }
  rewrite (SuperSceneHist.fetched_ids _ _ _ Hidx' Ha).
  destruct (grow_scene_inv _ _ _ _ _ _ _ _ _ _ Hgs) as (Hk & cands & Hc & _ & Hgr & _).
  rewrite HL in Hk.
  assert (Ec : find_overlaps twin_e twin_c s (coord twin_e k) (boundary_radius (base twin_c)) None true = Some [0; 1])
    by (destruct k as [|[|k]]; [reflexivity|reflexivity|lia]).
  rewrite Ec in Hc. injection Hc as <-.
  cbn [greedy memn existsb] in Hgr. unfold grow_source in Hgr. rewrite HL in Hgr.
  assert (Eg : grow_loop (source_overlaps twin_e twin_c s) 3 [0] [] = Some [0; 1]) by reflexivity.
  rewrite Eg in Hgr. vm_compute in Hgr. injection Hgr as <-. reflexivity.
Qed.
Print Assumptions C82_twins_refuted.

(** A seed in the middle of a chain longer than a patch. *)
Example C82_linked_case : lcheckout_region long_e long_c long_s1 8 None = LCoGranted long_s2 long_p2 /\
  hd_error (ids (lp_active long_p2)) = Some 8%Z.
Proof.
  assert (H1 : lcheckout_region long_e long_c long_s1 8 None = LCoGranted long_s2 long_p2) by (vm_compute; reflexivity).
  split; [exact H1|].
  apply (C82_linked_seed long_e long_c long_s1 8 None long_s2 long_p2); auto.
  - exact (line_lenv_ok (map fst long)).
  - intros k Hk. do 10 (destruct k as [|k]; [eexists; split; [reflexivity|discriminate]|]). simpl in Hk; lia.
  - intros j rw Hj. do 10 (destruct j as [|j]; [injection Hj as <-; reflexivity|]). destruct j; discriminate.
  - reflexivity.
  - intros j Hj Hne. do 10 (destruct j as [|j]; [first [lia|vm_compute; reflexivity]|]). simpl in Hj; lia.
Qed.

(** The same sky at the start, nothing out: the patch around the fifth of the ten
    linked sources is handed out, though the group is larger than a patch. *)
Example C82_granted_case : exists s' p, lcheckout_region long_e long_c (lstart long) 4 None = LCoGranted s' p.
Proof.
  apply C82_linked_granted.
  - exact (line_lenv_ok (map fst long)).
  - intros k Hk. do 10 (destruct k as [|k]; [eexists; split; [reflexivity|discriminate]|]). simpl in Hk; lia.
  - reflexivity.
  - discriminate.
  - simpl; lia.
  - intros r Hr. apply In_nth_error in Hr as (j & Hj).
    do 10 (destruct j as [|j]; [injection Hj as <-; do 2 eexists; split; reflexivity|]). destruct j; discriminate.
  - simpl; lia.
  - intros j rw Hj _. do 10 (destruct j as [|j]; [injection Hj as <-; reflexivity|]). destruct j; discriminate.
Qed.
