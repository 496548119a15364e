(** C82 continued: sources that are never fitted, and runs that never end. *)
From Verif Require Import Np NpFacts SuperSceneModel SuperSceneSpec SuperSceneFacts SuperSceneHist SuperSceneFrame
     SuperSceneExamples DispatchModel DispatchSpec DispatchFacts DispatchProps DispatchTotal EndFacts EndProps.
From Coq Require Import Permutation.
From Coq Require Qabs.

(** * A source as wide as the largest patch *)
Lemma wide_history e c cat b cv evs s out j r rh :
  env_ok (List.length cat) e -> (forall ctr k, 0 <= distance_to e ctr k)%Q ->
  nth_error cat j = Some r -> getcol r "rhalf" = Some rh -> (maxradius c <= nscale c * rh)%Q ->
  history e c (ingest cat b cv) evs s out ->
  (exists rw, src s j = Some rw /\ getcol rw "rhalf" = Some rh /\ n_iter rw = n_iter r) /\
  forall p, In p out -> ~ In (Z.of_nat j) (ids (p_active p)).
Proof.
  intros He Hpos Hj Hrh Hwide H.
  induction H as [|evs s out k s' p H IH Hco|evs s out k s' H IH Hco|evs s o1 p o2 act a s' H IH Hids Hci].
  - split; [|intros p []]. unfold src, ingest. cbn [sourcecat]. rewrite set_catalog_nth, Hj. simpl. eauto.
  - destruct IH as [(rw & Hs & Hr & Hn) Hout].
    pose proof (history_inv _ _ _ _ _ _ _ _ He H) as HI.
    pose proof (history_inv _ _ _ _ _ _ _ _ He (h_grant _ _ _ _ _ _ _ _ _ H Hco)) as HI'.
    apply checkout_inv in Hco as (seed & cra & cdec & rr & ai & fi & Hk & Hra & Hdec & Hsc & Hrow & _ & Hpa & _).
    split.
    + rewrite Hrow, Hs. simpl. eexists. split; [reflexivity|]. split; [exact Hr|exact Hn].
    + intros p0 Hin. apply in_app_iff in Hin as [Hin|[<-|[]]]; [auto|].
      rewrite (fetched_ids _ _ _ (inv_idx _ _ _ _ _ HI') Hpa). intros Hi. apply in_map_iff in Hi as (i & Ei & Hi).
      apply Nat2Z.inj in Ei. subst i.
      assert (He' : env_ok (List.length (sourcecat s)) e) by now rewrite (inv_len _ _ _ _ _ HI).
      pose proof (circular_scene_shape_aux e c s _ He' _ eq_refl rr ai fi Hsc) as (_ & _ & _ & _ & Ho & _).
      destruct (Ho j Hi) as [Ho1 _]. unfold outer_of, rhalf_of in Ho1. rewrite Hs, Hr in Ho1.
      apply (Qlt_irrefl (maxradius c)). eapply Qle_lt_trans; [|exact Ho1].
      eapply Qle_trans; [exact Hwide|].
      setoid_replace (nscale c * rh)%Q with (0 + nscale c * rh)%Q at 1 by ring.
      apply Qplus_le_compat; [apply Hpos|apply Qle_refl].
  - apply checkout_refused in Hco. now subst s'.
  - destruct IH as [(rw & Hs & Hr & Hn) Hout].
    pose proof (history_inv _ _ _ _ _ _ _ _ He H) as HI.
    split; [|intros p0 Hp; apply Hout; apply in_app_iff in Hp; apply in_app_iff; simpl; tauto].
    apply checkin_inv in Hci as (ai & fi & Hai & _ & _ & Hother & _). rewrite (inv_len _ _ _ _ _ HI) in Hai.
    assert (Hni : ~ In j ai).
    { intros Hi. apply (Hout p (in_elt _ _ _)). rewrite <- Hids.
      destruct (inv_ids _ _ _ _ _ HI p (in_elt _ _ _)) as (ai' & fi' & Ea & _ & _ & Hlt).
      assert (ai = ai') by (eapply np_index_ids; [exact Hai|congruence|intros; apply Hlt, in_or_app; auto]).
      subst ai'. rewrite Hids, Ea. now apply in_map. }
    rewrite (Hother j Hni), Hs. simpl. eexists. split; [reflexivity|]. destruct (memn j fi); auto.
Qed.

(** C82, the wide source: one whose half light radius times nscale is no less
    than the largest patch radius is in no task of any run, keeps its number of
    iterations, and the loop goes on as long as it wants any. *)
Theorem C82_wide : forall e c label draws ans n cat b cv tr st j r rh,
  env_ok (List.length cat) e -> answers_ok ans -> 1 <= n -> (forall ctr k, 0 <= distance_to e ctr k)%Q ->
  nth_error cat j = Some r -> getcol r "rhalf" = Some rh -> (maxradius c <= nscale c * rh)%Q ->
  run e c label draws ans n (ingest cat b cv) tr st ->
  (exists rw, src (sceneDB st) j = Some rw /\ n_iter rw = n_iter r) /\
  (forall h, In h (irecv_handles (pqueue st)) -> ~ In (Z.of_nat j) (ids (p_active (h_task h)))) /\
  ((Z.abs (n_iter r) < target_niter c)%Z -> undone c (sceneDB st) = true).
Proof.
  intros e c label draws ans n cat b cv tr st j r rh He Ha Hn Hpos Hj Hrh Hwide Hr.
  destruct (li_hist _ _ _ _ _ _ _ _ _ _ (run_inv e c label draws ans n cat b cv He Ha Hn _ _ Hr))
    as (evs & out & Hh & Hp & _).
  destruct (wide_history e c cat b cv evs _ out j r rh He Hpos Hj Hrh Hwide Hh) as [(rw & K1 & _ & K3) K].
  split; [eauto|]. split.
  - intros h Hin. apply K. apply (Permutation_in _ (Permutation_sym Hp)). now apply in_map.
  - intros Hlt. unfold undone. apply existsb_exists. exists rw. split; [eapply nth_error_In; exact K1|].
    rewrite K3. now apply Z.ltb_lt.
Qed.
Print Assumptions C82_wide.

(** * A source crowded out *)
(** Two sources half an arcsecond apart, one narrow and one a second wide, one
    source to a patch; both fit in the largest patch. *)
Definition crowd_xs : list Q := [0; 1#2]%Q.
Definition crowd_rh : list Q := [1#10; 1]%Q.
Definition crowd_env := line_env crowd_xs.
Definition crowd_config : config := mkConfig ["F200W"%string] 1 1 1 1 10 5 1.
Definition crowd_row (j : nat) : row := ex_row (nth j crowd_xs 0%Q) (nth j crowd_rh 0%Q).
Definition crowd_cat := map crowd_row [0; 1].
(** The children find every source where and as it was. *)
Definition crowd_ans (h : handle patch) : answer :=
  mkAnswer (map (fun r => mkRow (source_index r) 0 1 0 0 (cols (crowd_row (Z.to_nat (source_index r))))) (p_active (h_task h))) None.
Notation crowd_runs := (run crowd_env crowd_config ex_label 1 crowd_ans 1 (ingest crowd_cat [[]; []] [[]; []])).

Lemma crowd_env_ok : env_ok (List.length crowd_cat) crowd_env.
Proof. exact (line_env_ok crowd_xs). Qed.
Lemma crowd_ans_ok : answers_ok crowd_ans.
Proof. intros h. unfold crowd_ans, ids. cbn [final]. rewrite map_map. reflexivity. Qed.
Lemma crowd_ans_complete : answers_complete crowd_config crowd_ans.
Proof.
  intros h r f Hr Hf. apply in_map_iff in Hr as (r0 & <- & _). simpl in Hf.
  repeat destruct Hf as [<-|Hf]; try contradiction; eexists; reflexivity.
Qed.
Lemma crowd_cols : forall r f, In r crowd_cat -> In f (fitted_columns crowd_config) -> exists v, getcol r f = Some v.
Proof. intros r f [<-|[<-|[]]] Hf; simpl in Hf; repeat destruct Hf as [<-|Hf]; try contradiction; eexists; reflexivity. Qed.
Lemma crowd_compact j r : cols r = cols (crowd_row j) -> compact crowd_env crowd_config j r.
Proof.
  intros Hc. unfold compact, getcol. rewrite Hc. exists (nth j crowd_xs 0%Q), 0%Q, (nth j crowd_rh 0%Q). split; [reflexivity|]. split; [reflexivity|]. split; [reflexivity|].
  destruct j as [|[|[|j]]]; split; vm_compute; congruence.
Qed.

(** Every row keeps its place and width. *)
Definition as_was (j : nat) (r : row) : Prop := forall f, In f (fitted_columns crowd_config) -> getcol r f = getcol (crowd_row j) f.
Lemma crowd_keeps tr st : crowd_runs tr st -> forall j rw, src (sceneDB st) j = Some rw -> as_was j rw.
Proof.
  intros Hr.
  assert (Pext : forall j r r', as_was j r -> (forall f, In f (fitted_columns crowd_config) -> getcol r' f = getcol r f) -> as_was j r').
  { intros j r r' H1 H2 f Hf. rewrite H2 by auto. auto. }
  assert (Pcols : forall j r, as_was j r -> forall f, In f (fitted_columns crowd_config) -> exists v, getcol r f = Some v).
  { intros j r H f Hf. rewrite H by auto. simpl in Hf. repeat destruct Hf as [<-|Hf]; try contradiction; eexists; reflexivity. }
  assert (HansP : forall h r j, In r (final (crowd_ans h)) -> source_index r = Z.of_nat j -> as_was j r).
  { intros h r j H1 H2 f _. apply in_map_iff in H1 as (r0 & <- & _). cbn [source_index] in H2. rewrite H2, Nat2Z.id. reflexivity. }
  assert (H0 : everywhere as_was (ingest crowd_cat [[]; []] [[]; []])).
  { intros j rw Hj f _. unfold src, ingest in Hj. cbn [sourcecat] in Hj. rewrite set_catalog_nth in Hj.
    destruct (nth_error crowd_cat j) as [r|] eqn:E; [|discriminate]. injection Hj as <-.
    destruct j as [|[|j]]; [| |destruct j; discriminate]; injection E as <-; reflexivity. }
  exact (run_keeps crowd_env crowd_config as_was Pext Pcols ex_label 1%Z crowd_ans 1 crowd_cat [[]; []] [[]; []] crowd_env_ok crowd_ans_ok (le_n 1) HansP tr st H0 Hr).
Qed.

(** No patch has the second source in it. *)
Lemma crowd_checkout tr st k s' p : crowd_runs tr st -> checkout_region crowd_env crowd_config (sceneDB st) k = CoGranted s' p ->
  ~ In 1%Z (ids (p_active p)).
Proof.
  intros Hr Hco.
  destruct (li_hist _ _ _ _ _ _ _ _ _ _ (run_inv _ _ _ _ _ _ _ _ _ crowd_env_ok crowd_ans_ok (le_n 1) _ _ Hr)) as (evs & out & Hh & _).
  pose proof (history_inv _ _ _ _ _ _ _ _ crowd_env_ok Hh) as HI.
  pose proof (history_inv _ _ _ _ _ _ _ _ crowd_env_ok (h_grant _ _ _ _ _ _ _ _ _ Hh Hco)) as HI'.
  apply checkout_inv in Hco as (seed & cra & cdec & rr & ai & fi & Hk & Hra & Hdec & Hsc & Hrow & _ & Hpa & _).
  rewrite (fetched_ids _ _ _ (inv_idx _ _ _ _ _ HI') Hpa). intros Hi. apply in_map_iff in Hi as (i & Ei & Hi).
  assert (i = 1) by lia. subst i.
  assert (He' : env_ok (List.length (sourcecat (sceneDB st))) crowd_env) by (rewrite (inv_len _ _ _ _ _ HI); exact crowd_env_ok).
  pose proof (circular_scene_shape_aux _ _ _ _ He' _ eq_refl rr ai fi Hsc) as ((_ & Hl) & Hnd & Hincl & _ & _ & Hfirst & _).
  cbn [maxactive crowd_config] in Hl.
  assert (H0 : ~ In 0 ai).
  { intros H0. destruct ai as [|a [|a' ai]]; [contradiction| |simpl in Hl; lia].
    destruct Hi as [->|[]]. destruct H0 as [H0|[]]. discriminate. }
  assert (Hk2 : k < 2).
  { change 2 with (List.length crowd_cat). rewrite <- (inv_len _ _ _ _ _ HI). apply nth_error_Some. unfold src in Hk. congruence. }
  assert (Ectr : cra = nth k crowd_xs 0%Q).
  { pose proof (crowd_keeps tr st Hr k seed Hk "ra"%string (fitted_ra _)) as E. rewrite Hra in E.
    change (getcol (crowd_row k) "ra") with (Some (nth k crowd_xs 0%Q)) in E. congruence. }
  subst cra.
  assert (Hrh : forall j, j < 2 -> rhalf_of (sceneDB st) j = nth j crowd_rh 0%Q).
  { intros j Hj. unfold rhalf_of. destruct (src (sceneDB st) j) as [rw|] eqn:E.
    - rewrite (crowd_keeps tr st Hr j rw E "rhalf"%string (fitted_rhalf _)). reflexivity.
    - apply nth_error_None in E. pose proof (inv_len _ _ _ _ _ HI) as L. simpl in L. lia. }
  assert (Hin0 : In 0 (query_ball crowd_env (sky_to_scene crowd_env (nth k crowd_xs 0%Q) cdec) (boundary_radius crowd_config))).
  { apply (query_spec _ _ crowd_env_ok). split; [simpl; lia|]. destruct k as [|[|k]]; [| |lia]; vm_compute; congruence. }
  pose proof (Hfirst 1 0 Hi Hin0 H0) as Hle. unfold outer_of in Hle. rewrite !Hrh in Hle by lia.
  destruct k as [|[|k]]; [| |lia]; vm_compute in Hle; apply Hle; reflexivity.
Qed.

(** Source [j] is in no patch: then in none of the tasks of a run. *)
Lemma left_out e c label draws ans n cat b cv j tr st :
  env_ok (List.length cat) e -> answers_ok ans -> 1 <= n ->
  (forall tr st k s' p, run e c label draws ans n (ingest cat b cv) tr st ->
     checkout_region e c (sceneDB st) k = CoGranted s' p -> ~ In (Z.of_nat j) (ids (p_active p))) ->
  run e c label draws ans n (ingest cat b cv) tr st ->
  forall h, In h (collected tr ++ irecv_handles (pqueue st)) -> holds h j = false.
Proof.
  intros He Ha Hn Hnot Hr. induction Hr as [|tr st seeds done s1 q1 tid mode st' results Hr IH Hu Hs Hph Hm Hb].
  - intros h Hin. exfalso. unfold collected in Hin. simpl in Hin.
    unfold irecv_handles in Hin. simpl in Hin. auto.
  - pose proof (run_inv e c label draws ans n cat b cv He Ha Hn _ _ Hr) as Hinv.
    destruct (phase1_spec e c label draws n cat b cv He Hn _ _ _ Hinv Hs) as [_ Hsp].
    destruct (Hsp _ _ _ _ Hph) as (Hq & Hnn & Hne & _ & _ & evs & out & Hh & Hp & _).
    unfold loop_body in Hb. rewrite Hph in Hb.
    destruct (collect_spec q1 mode done Hq Hm Hne) as (q' & res & freed & K1 & K2 & K3 & _).
    rewrite K1 in Hb. destruct (checkin_all c label draws tid ans s1 res) as [s'|] eqn:Ec; [|discriminate].
    injection Hb as <- <-. cbn [pqueue].
    assert (Hq1 : forall h, In h (irecv_handles q1) -> holds h j = false).
    { unfold submit_phase in Hph. destruct (try_checkout e c (sceneDB st) seeds) as [|s2 p|] eqn:Et; [| |discriminate].
      - injection Hph as _ <- _ _. intros h Hin. apply IH. apply in_or_app; auto.
      - destruct (submit_spec (pqueue st) p (S (taskid st)) (li_q _ _ _ _ _ _ _ _ _ _ Hinv)) as [_ Hsome].
        destruct (submit (pqueue st) p (S (taskid st))) as [[q2 ch]|]; [|discriminate].
        destruct (Hsome _ _ eq_refl) as (_ & _ & Ehs & _).
        destruct (sparse c s2); [|discriminate]. injection Hph as _ <- _ _. intros h Hin. rewrite Ehs in Hin.
        apply in_app_iff in Hin as [Hin|[<-|[]]]; [apply IH, in_or_app; auto|].
        destruct (try_checkout_seed _ _ _ _ _ _ Et) as (k & _ & Hco).
        unfold holds, members. cbn [h_task]. apply memZ_nIn. eapply Hnot; eauto. }
    intros h Hin. unfold collected in Hin. rewrite map_app, concat_app in Hin. simpl in Hin. rewrite app_nil_r in Hin.
    rewrite <- app_assoc in Hin. apply in_app_iff in Hin as [Hin|Hin].
    + apply IH, in_or_app. auto.
    + apply Hq1. eapply Permutation_in; [exact K3|exact Hin].
Qed.

(** Refuted without room: there is a catalog with every source well inside the
    largest patch, children that find every source where it was, no failing
    pass, runs of every length, and no run that ends: the second source is
    never sampled. *)
Theorem C82_crowd_refuted : exists e c label draws ans n cat b cv,
  env_ok (List.length cat) e /\ answers_ok ans /\ answers_complete c ans /\ 1 <= n /\ 1 <= maxactive c /\ (0 < draws)%Z /\ (0 <= nscale c)%Q /\
  (forall r f, In r cat -> In f (fitted_columns c) -> exists v, getcol r f = Some v) /\
  (forall j r, nth_error cat j = Some r -> compact e c j r) /\
  (forall m, exists tr st, List.length tr = m /\ run e c label draws ans n (ingest cat b cv) tr st) /\
  (forall tr st, run e c label draws ans n (ingest cat b cv) tr st ->
     undone c (sceneDB st) = true /\ exists rw, src (sceneDB st) 1 = Some rw /\ n_iter rw = 0%Z).
Proof.
  exists crowd_env, crowd_config, ex_label, 1%Z, crowd_ans, 1, crowd_cat, [[]; []], [[]; []].
  assert (Hcomp : forall j r, nth_error crowd_cat j = Some r -> compact crowd_env crowd_config j r).
  { intros j r Hj. apply crowd_compact. destruct j as [|[|j]]; [| |destruct j; discriminate]; injection Hj as <-; reflexivity. }
  assert (Hnever : forall tr st, crowd_runs tr st -> undone crowd_config (sceneDB st) = true /\ exists rw, src (sceneDB st) 1 = Some rw /\ n_iter rw = 0%Z).
  { intros tr st Hr.
    pose proof (left_out _ _ _ _ _ _ _ _ _ 1 tr st crowd_env_ok crowd_ans_ok (le_n 1) crowd_checkout Hr) as Hnone.
    destruct (li_hist _ _ _ _ _ _ _ _ _ _ (run_inv _ _ _ _ _ _ _ _ _ crowd_env_ok crowd_ans_ok (le_n 1) _ _ Hr)) as (evs & out & Hh & _).
    pose proof (inv_len _ _ _ _ _ (history_inv _ _ _ _ _ _ _ _ crowd_env_ok Hh)) as HL.
    destruct (src (sceneDB st) 1) as [rw|] eqn:E; [|apply nth_error_None in E; simpl in HL; lia].
    destruct (C13_results_checked_in_partial _ _ _ _ _ _ _ _ _ _ _ crowd_env_ok crowd_ans_ok (le_n 1) Hr) as [K _].
    destruct (K 1 (crowd_row 1) rw eq_refl E) as [Ki _]. rewrite count_for_times, times_none in Ki
      by (intros h Hin; apply Hnone, in_or_app; auto).
    assert (Hz : n_iter rw = 0%Z) by (rewrite Ki; reflexivity).
    split; [|eauto]. unfold undone. apply existsb_exists. exists rw. split; [eapply nth_error_In; exact E|]. rewrite Hz. reflexivity. }
  split; [exact crowd_env_ok|]. split; [exact crowd_ans_ok|]. split; [exact crowd_ans_complete|]. split; [lia|].
  split; [simpl; lia|]. split; [lia|]. split; [vm_compute; congruence|]. split; [exact crowd_cols|]. split; [exact Hcomp|].
  split; [|exact Hnever].
  induction m as [|m (tr & st & Hl & Hr)].
  - exists [], (mkParent (ingest crowd_cat [[]; []] [[]; []]) (new_queue 1) 0). split; [reflexivity|constructor].
  - assert (Hs : [0] <> []) by discriminate.
    assert (Hmp : forall s1 q1 tid mode, submit_phase crowd_env crowd_config st [0] = Ready s1 q1 tid mode -> mpi_reports q1 mode [0]).
    { intros s1 q1 tid mode Hph.
      destruct (phase1_spec _ _ _ _ _ _ _ _ crowd_env_ok (le_n 1) _ _ _ (run_inv _ _ _ _ _ _ _ _ _ crowd_env_ok crowd_ans_ok (le_n 1) _ _ Hr) Hs) as [_ Hsp].
      destruct (Hsp _ _ _ _ Hph) as (_ & _ & Hne & _).
      split; [repeat constructor; simpl; tauto|]. split; [|intros; discriminate].
      intros i [<-|[]]. destruct (irecv_handles q1); [congruence|simpl; lia]. }
    destruct (C13_no_exception_partial crowd_env crowd_config ex_label 1%Z crowd_ans 1 crowd_cat [[]; []] [[]; []] tr st [0] [0]) as (st2 & res & Hb); auto.
    + exact crowd_env_ok.
    + exact crowd_ans_ok.
    + exact crowd_ans_complete.
    + exact crowd_cols.
    + intros h r j H1 H2. apply crowd_compact. apply in_map_iff in H1 as (r0 & <- & _). cbn [source_index] in H2. cbn [cols]. now rewrite H2, Nat2Z.id.
    + intros k [<-|[]]. simpl. lia.
    + destruct (submit_phase crowd_env crowd_config st [0]) as [s1 q1 tid mode| |] eqn:Hph;
        [|unfold loop_body in Hb; rewrite Hph in Hb; discriminate|unfold loop_body in Hb; rewrite Hph in Hb; discriminate].
      exists (tr ++ [(tid, res)]), st2. split; [rewrite app_length; simpl; lia|].
      eapply run_step; eauto. apply (Hnever _ _ Hr).
Qed.
Print Assumptions C82_crowd_refuted.


(** * Cases *)
(** Two sources thirty apart and two children, after one pass: the second still
    wants a round; at most three more passes, and an end. *)
Example C82_ends_case :
  rounds_wanted str_config 1 (sceneDB tidy_st1) = 1 /\
  (forall m st', steered str_env str_config ex_label 1 tidy_ans tidy_st1 m st' -> m <= 3) /\
  exists m st', steered str_env str_config ex_label 1 tidy_ans tidy_st1 m st' /\
    forall j rw, src (sceneDB st') j = Some rw -> (1 <= Z.abs (n_iter rw))%Z.
Proof.
  split; [vm_compute; reflexivity|].
  destruct (C82_ends_partial str_env str_config ex_label 1%Z tidy_ans 2 str_cat [[]; []] [[]; []] [(1, got_of tidy_it1)] tidy_st1) as (B & _ & E).
  - exact (line_env_ok [0; 30]%Q).
  - intros h. unfold tidy_ans, ids. cbn [final]. rewrite map_map. reflexivity.
  - intros h r f Hr Hf. apply in_map_iff in Hr as (r0 & <- & _). simpl in Hf.
    repeat destruct Hf as [<-|Hf]; try contradiction; eexists; reflexivity.
  - lia.
  - simpl; lia.
  - lia.
  - vm_compute; congruence.
  - intros r f [<-|[<-|[]]] Hf; simpl in Hf; repeat destruct Hf as [<-|Hf]; try contradiction; eexists; reflexivity.
  - intros r [<-|[<-|[]]]; simpl; lia.
  - intros [|[|j]] r Hj; [| |destruct j; discriminate]; injection Hj as <-.
    + exists 0%Q, 0%Q, (1#10)%Q. repeat split; vm_compute; try congruence; lia.
    + exists 30%Q, 0%Q, (1#10)%Q. repeat split; vm_compute; try congruence; lia.
  - intros h r j Hr Hj. apply in_map_iff in Hr as (r0 & <- & _). cbn [source_index] in Hj. rewrite Hj, Nat2Z.id.
    exists (nth j [0; 30]%Q 0%Q), 0%Q, (1#5)%Q. split; [reflexivity|]. split; [reflexivity|]. split; [reflexivity|].
    destruct j as [|[|[|j]]]; repeat split; vm_compute; try congruence; lia.
  - exact tidy_run.
  - split; [|exact E]. intros m st' Hst. specialize (B m st' Hst). vm_compute in B. lia.
Qed.

(** The second source six wide and the largest patch five: a pass with the first
    for a seed, and the loop goes on. *)
Definition wide_cat := [ex_row 0 (1#10); ex_row (1#2) 6].
Definition wide_st0 := mkParent (ingest wide_cat [[]; []] [[]; []]) (new_queue 1) 0.
Definition wide_it := Eval vm_compute in loop_body crowd_env str_config ex_label 1 tidy_ans wide_st0 [0] [0].
Definition wide_st1 := Eval vm_compute in next_of wide_it wide_st0.
Example C82_wide_case : map n_iter (sourcecat (sceneDB wide_st1)) = [1; 0]%Z /\ undone str_config (sceneDB wide_st1) = true.
Proof.
  split; [reflexivity|].
  apply (C82_wide crowd_env str_config ex_label 1%Z tidy_ans 1 wide_cat [[]; []] [[]; []] [(1, got_of wide_it)] wide_st1 1 (ex_row (1#2) 6) 6%Q).
  - exact crowd_env_ok.
  - intros h. unfold tidy_ans, ids. cbn [final]. rewrite map_map. reflexivity.
  - lia.
  - intros ctr k. apply Qabs.Qabs_nonneg.
  - reflexivity.
  - reflexivity.
  - vm_compute; congruence.
  - eapply (run_step _ _ _ _ _ _ _ []) with (seeds := [0]) (done := [0]).
    + constructor.
    + vm_compute. reflexivity.
    + discriminate.
    + vm_compute. reflexivity.
    + mpi_trivial.
    + vm_compute. reflexivity.
  - simpl. lia.
Qed.
