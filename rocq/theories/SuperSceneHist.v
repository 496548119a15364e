(** Invariants of histories of the scene server (C01, C02, C04). *)
From Verif Require Import Np NpFacts SuperSceneModel SuperSceneSpec SuperSceneFacts.
From Coq Require Import Permutation Sorted.

Lemma memZ_In z l : memZ z l = true <-> In z l.
Proof.
  unfold memZ. rewrite existsb_exists. split.
  - intros (x & Hx & E). apply Z.eqb_eq in E. now subst.
  - intros H. exists z. split; auto. apply Z.eqb_refl.
Qed.
Lemma memZ_nIn z l : memZ z l = false <-> ~ In z l.
Proof. rewrite <- memZ_In. destruct (memZ z l); split; congruence. Qed.
Lemma memZ_map j l : memZ (Z.of_nat j) (map Z.of_nat l) = memn j l.
Proof.
  induction l as [|k l IH]; simpl; auto.
  unfold memZ, memn in *. rewrite IH. f_equal.
  destruct (Nat.eqb_spec j k) as [->|H]; [apply Z.eqb_refl|]. apply Z.eqb_neq. lia.
Qed.
Lemma memZ_app z a b : memZ z (a ++ b) = memZ z a || memZ z b.
Proof. apply existsb_app. Qed.

Lemma NoDup_map_of_nat l : NoDup (map Z.of_nat l) <-> NoDup l.
Proof.
  induction l as [|k l IH]; simpl; split; intros H; try constructor; inversion H; subst.
  - intros Hk. apply H2. now apply in_map.
  - now apply IH.
  - intros Hk. apply in_map_iff in Hk as (x & Hx & Hin). apply Nat2Z.inj in Hx. subst. auto.
  - now apply IH.
Qed.

Lemma all_active_app o1 o2 : all_active (o1 ++ o2) = all_active o1 ++ all_active o2.
Proof. unfold all_active. now rewrite map_app, concat_app. Qed.
Lemma all_fixed_app o1 o2 : all_fixed (o1 ++ o2) = all_fixed o1 ++ all_fixed o2.
Proof. unfold all_fixed. now rewrite map_app, concat_app. Qed.
Lemma all_active_cons p o : all_active (p :: o) = ids (p_active p) ++ all_active o.
Proof. reflexivity. Qed.
Lemma all_fixed_cons p o : all_fixed (p :: o) = ids (p_fixed p) ++ all_fixed o.
Proof. reflexivity. Qed.

Lemma set_catalog_nth cat : forall i j,
  nth_error (set_catalog_from i cat) j =
  option_map (fun r => set_active_flag (set_valid_flag (set_source_index r (Z.of_nat (i + j))) 1) 0)
             (nth_error cat j).
Proof.
  induction cat as [|r t IH]; intros i [|j]; simpl; auto.
  - now rewrite Nat.add_0_r.
  - rewrite IH. now rewrite Nat.add_succ_r.
Qed.
Lemma set_catalog_length cat : forall i, List.length (set_catalog_from i cat) = List.length cat.
Proof. induction cat; intros; simpl; auto. Qed.

Lemma log_lookup_log_source log sid pid j :
  log_lookup (log_source log sid pid) j = log_lookup log j ++ (if Nat.eqb j sid then [pid] else []).
Proof.
  induction log as [|[k l] t IH]; simpl.
  - rewrite (Nat.eqb_sym sid j). now destruct (Nat.eqb j sid).
  - destruct (Nat.eqb_spec k sid) as [->|Hks]; simpl.
    + destruct (Nat.eqb_spec sid j) as [->|Hsj]; simpl.
      * now rewrite Nat.eqb_refl.
      * destruct (Nat.eqb_spec j sid); [congruence|]. now rewrite app_nil_r.
    + destruct (Nat.eqb_spec k j) as [->|]; [|exact IH].
      destruct (Nat.eqb_spec j sid); [congruence|]. now rewrite app_nil_r.
Qed.

Lemma log_lookup_fold ai pid j : NoDup ai -> forall log,
  log_lookup (fold_left (fun log k => log_source log k pid) ai log) j =
  log_lookup log j ++ (if memn j ai then [pid] else []).
Proof.
  induction 1 as [|k ai Hk Hnd IH]; intros log; simpl.
  - now rewrite app_nil_r.
  - rewrite IH, log_lookup_log_source, <- app_assoc. f_equal.
    destruct (Nat.eqb_spec j k) as [->|]; simpl; auto.
    assert (memn k ai = false) by now apply memn_nIn. now rewrite H.
Qed.

Lemma total_niter_app j e1 e2 : total_niter j (e1 ++ e2) = (total_niter j e1 + total_niter j e2)%Z.
Proof. induction e1 as [|[] ? IH]; simpl; rewrite ?IH; lia. Qed.
Lemma total_patches_app j e1 e2 : total_patches j (e1 ++ e2) = (total_patches j e1 + total_patches j e2)%Z.
Proof. induction e1 as [|[] ? IH]; simpl; rewrite ?IH; lia. Qed.
Lemma labels_of_app j e1 e2 : labels_of j (e1 ++ e2) = labels_of j e1 ++ labels_of j e2.
Proof.
  induction e1 as [|[] ? IH]; simpl; rewrite ?IH; auto.
  destruct (taskID a); auto. destruct (memZ _ _); auto.
Qed.
Lemma all_labels_app e1 e2 : all_labels (e1 ++ e2) = all_labels e1 ++ all_labels e2.
Proof. induction e1 as [|[] ? IH]; simpl; rewrite ?IH; auto. destruct (taskID a); auto. Qed.

(** Rows fetched at positions [inds] of a well numbered catalog carry those numbers. *)
Lemma fetched_ids s inds rows :
  (forall j rw, src s j = Some rw -> source_index rw = Z.of_nat j) ->
  fancy_get (sourcecat s) inds = Some rows -> ids rows = map Z.of_nat inds.
Proof.
  intros Hsi H. unfold fancy_get in H. apply mapM_Some in H.
  induction H as [|j rw inds rows Hj H IH]; simpl; auto. f_equal; auto.
Qed.

Lemma np_index_ids n act ai nats :
  Forall2 (fun r k => np_index n (source_index r) = Some k) act ai ->
  ids act = map Z.of_nat nats -> (forall k, In k nats -> k < n) -> ai = nats.
Proof.
  intros H. revert nats. induction H as [|r k act ai Hr H IH]; intros [|m nats] E Hlt; simpl in *;
    try discriminate; auto.
  injection E as E1 E2. rewrite E1, np_index_nat in Hr by auto. injection Hr as <-.
  f_equal. apply IH; auto.
Qed.

Record Inv (n : nat) (s0 : state) (evs : list event) (s : state) (out : list patch) : Prop := {
  inv_len : List.length (sourcecat s) = n;
  inv_idx : forall j rw, src s j = Some rw -> source_index rw = Z.of_nat j;
  inv_nodup : NoDup (all_active out);
  inv_act : forall j rw, src s j = Some rw ->
      is_active rw = (if memZ (Z.of_nat j) (all_active out) then 1 else 0)%Z;
  inv_val : forall j rw, src s j = Some rw -> is_valid rw = 1%Z \/
      (is_valid rw = 0%Z /\ In (Z.of_nat j) (all_active out ++ all_fixed out));
  inv_na : n_active s = Z.of_nat (List.length (all_active out));
  inv_nf : n_fixed s = Z.of_nat (List.length (all_fixed out));
  inv_ids : forall p, In p out -> exists ai fi,
      ids (p_active p) = map Z.of_nat ai /\ ids (p_fixed p) = map Z.of_nat fi /\
      NoDup (ai ++ fi) /\ (forall k, In k (ai ++ fi) -> k < n);
  inv_iter : forall j r0 rw, src s0 j = Some r0 -> src s j = Some rw ->
      n_iter rw = (n_iter r0 + total_niter j evs)%Z;
  inv_pat : forall j r0 rw, src s0 j = Some r0 -> src s j = Some rw ->
      n_patch rw = (n_patch r0 + total_patches j evs)%Z;
  inv_log : forall j, log_lookup (sourcelog s) j = labels_of j evs;
  inv_plog : patchlog s = all_labels evs
}.

Lemma inv_start cat b covs :
  Inv (List.length cat) (ingest cat b covs) [] (ingest cat b covs) [].
Proof.
  split; simpl; auto.
  - apply set_catalog_length.
  - intros j rw H. unfold src, ingest in H; cbn in H. rewrite set_catalog_nth in H.
    destruct (nth_error cat j); [|discriminate]. injection H as <-. reflexivity.
  - constructor.
  - intros j rw H. unfold src, ingest in H; cbn in H. rewrite set_catalog_nth in H.
    destruct (nth_error cat j); [|discriminate]. injection H as <-. reflexivity.
  - intros j rw H. unfold src, ingest in H; cbn in H. rewrite set_catalog_nth in H.
    destruct (nth_error cat j); [|discriminate]. injection H as <-. left; reflexivity.
  - contradiction.
  - intros j r0 rw H0 H. rewrite H0 in H. injection H as <-. lia.
  - intros j r0 rw H0 H. rewrite H0 in H. injection H as <-. lia.
Qed.

Lemma inv_grant n s0 e c evs s out k s' p :
  env_ok n e -> Inv n s0 evs s out -> checkout_region e c s k = CoGranted s' p ->
  Inv n s0 (evs ++ [EvOut p]) s' (out ++ [p]).
Proof.
  intros Henv HI H. pose proof (checkout_length _ _ _ _ _ _ H) as HL.
  apply checkout_inv in H as (seed & cra & cdec & r & ai & fi & _ & _ & _ & Hsc & Hrow & _ & Ha & Hf &
    Hna & Hnf & _ & _ & Hsl & Hpl).
  assert (Henv' : env_ok (List.length (sourcecat s)) e) by (rewrite (inv_len _ _ _ _ _ HI); auto).
  pose proof (circular_scene_shape_aux e c s _ Henv' _ eq_refl r ai fi Hsc) as
    (_ & Hnd & Hincl & Hinact & _).
  assert (Hlt : forall j, In j (ai ++ fi) -> j < n).
  { intros j Hj. apply Hincl in Hj. apply (query_spec _ _ Henv) in Hj. tauto. }
  assert (Hidx' : forall j rw, src s' j = Some rw -> source_index rw = Z.of_nat j).
  { intros j rw Hj. rewrite Hrow in Hj. destruct (src s j) as [rw0|] eqn:E; [|discriminate].
    injection Hj as <-. simpl. eapply inv_idx; eauto. }
  pose proof (fetched_ids _ _ _ Hidx' Ha) as Hia.
  pose proof (fetched_ids _ _ _ Hidx' Hf) as Hif.
  assert (Hfree : forall j, In j ai -> ~ In (Z.of_nat j) (all_active out)).
  { intros j Hj Hin. destruct (Hinact j) as (rw & Hs & Hz); [apply Hincl, in_or_app; auto|].
    pose proof (inv_act _ _ _ _ _ HI _ _ Hs) as Hact. apply memZ_In in Hin. rewrite Hin in Hact. lia. }
  pose proof (proj1 (NoDup_app_iff _ _) Hnd) as (Hnda & Hndf & _).
  split.
  - rewrite HL. apply HI.
  - exact Hidx'.
  - rewrite all_active_app, all_active_cons, Hia. simpl. rewrite app_nil_r.
    apply NoDup_app_iff. split; [apply HI|]. split; [now apply NoDup_map_of_nat|].
    intros x Hx Hx'. apply in_map_iff in Hx' as (j & <- & Hj). eapply Hfree; eauto.
  - intros j rw Hj. rewrite Hrow in Hj. destruct (src s j) as [rw0|] eqn:E; [|discriminate].
    injection Hj as <-. simpl. rewrite all_active_app, all_active_cons, Hia, !memZ_app, memZ_map.
    simpl. rewrite orb_false_r. rewrite (inv_act _ _ _ _ _ HI _ _ E).
    destruct (memn j ai); rewrite ?orb_true_r, ?orb_false_r; reflexivity.
  - intros j rw Hj. rewrite Hrow in Hj. destruct (src s j) as [rw0|] eqn:E; [|discriminate].
    injection Hj as <-. simpl. rewrite all_active_app, all_fixed_app, all_active_cons, all_fixed_cons, Hia, Hif.
    simpl. rewrite !app_nil_r. destruct (memn j (ai ++ fi)) eqn:Em.
    + right. split; auto. apply memn_In in Em. rewrite !in_app_iff in *.
      destruct Em; [left|right]; right; now apply in_map.
    + destruct (inv_val _ _ _ _ _ HI _ _ E) as [|[Hv Hin]]; auto. right. split; auto.
      rewrite !in_app_iff in *. tauto.
  - rewrite Hna, (inv_na _ _ _ _ _ HI), all_active_app, all_active_cons, Hia. simpl.
    rewrite !app_length, map_length. simpl. lia.
  - rewrite Hnf, (inv_nf _ _ _ _ _ HI), all_fixed_app, all_fixed_cons, Hif. simpl.
    rewrite !app_length, map_length. simpl. lia.
  - intros p' Hp'. apply in_app_or in Hp' as [Hp'|[<-|[]]]; [now apply HI|].
    exists ai, fi. auto.
  - intros j r0 rw H0 Hj. rewrite Hrow in Hj. destruct (src s j) as [rw0|] eqn:E; [|discriminate].
    injection Hj as <-. simpl. rewrite total_niter_app. simpl.
    rewrite (inv_iter _ _ _ _ _ HI _ _ _ H0 E). lia.
  - intros j r0 rw H0 Hj. rewrite Hrow in Hj. destruct (src s j) as [rw0|] eqn:E; [|discriminate].
    injection Hj as <-. simpl. rewrite total_patches_app. simpl.
    rewrite (inv_pat _ _ _ _ _ HI _ _ _ H0 E). lia.
  - intros j. rewrite Hsl, labels_of_app. simpl. rewrite app_nil_r. apply HI.
  - rewrite Hpl, all_labels_app. simpl. rewrite app_nil_r. apply HI.
Qed.

Lemma inv_in n s0 c evs s o1 p o2 act a s' :
  Inv n s0 evs s (o1 ++ p :: o2) -> ids act = ids (p_active p) ->
  checkin_region c s act (Some (p_fixed p)) a = Some s' ->
  Inv n s0 (evs ++ [EvIn act a]) s' (o1 ++ o2).
Proof.
  intros HI Hids H.
  apply checkin_inv in H as (ai & fi & Hai & Hfi & HL & Hother & Hat & _ & _ & Hna & Hnf & Hsl & Hpl).
  rewrite (inv_len _ _ _ _ _ HI) in *.
  destruct (inv_ids _ _ _ _ _ HI p) as (ai' & fi' & Ea & Ef & Hnd & Hlt); [apply in_or_app; simpl; auto|].
  assert (ai = ai').
  { eapply np_index_ids; [exact Hai|congruence|intros; apply Hlt, in_or_app; auto]. }
  assert (fi = fi').
  { eapply np_index_ids; [exact Hfi|exact Ef|intros; apply Hlt, in_or_app; auto]. }
  subst ai' fi'.
  pose proof (proj1 (NoDup_app_iff _ _) Hnd) as (Hnda & Hndf & Hdis).
  specialize (Hat Hnda).
  assert (Hrow : forall j rw, src s' j = Some rw -> exists rw0, src s j = Some rw0 /\
     source_index rw = source_index rw0 /\
     is_active rw = (if memn j ai then 0 else is_active rw0)%Z /\
     is_valid rw = (if memn j (ai ++ fi) then 1 else is_valid rw0)%Z /\
     n_iter rw = (n_iter rw0 + (if memn j ai then niter a else 0))%Z /\
     n_patch rw = (n_patch rw0 + (if memn j ai && (0 <? niter a)%Z then 1 else 0))%Z).
  { intros j rw Hj. destruct (memn j ai) eqn:Em.
    - pose proof Em as Em'. apply memn_In in Em. apply In_nth_error in Em as (k & Hk).
      destruct (Forall2_nth_error_r _ _ _ _ _ Hai Hk) as (ak & Hak & _).
      destruct (Hat k j ak Hk Hak) as [Hs _]. rewrite Hs in Hj.
      destruct (src s j) as [rw0|]; [|discriminate]. injection Hj as <-.
      exists rw0. rewrite memn_app, Em'. simpl. repeat split; auto.
    - rewrite Hother in Hj by now apply memn_nIn.
      destruct (src s j) as [rw0|]; [|discriminate]. injection Hj as <-.
      exists rw0. rewrite memn_app, Em. simpl.
      destruct (memn j fi); simpl; repeat split; auto; lia. }
  pose proof (inv_nodup _ _ _ _ _ HI) as HND.
  rewrite all_active_app, all_active_cons, Ea in HND.
  assert (HIa : forall j, In j ai -> ~ In (Z.of_nat j) (all_active (o1 ++ o2))).
  { intros j Hj Hin. rewrite all_active_app in Hin.
    apply NoDup_app_iff in HND as (_ & HND2 & HND3). apply NoDup_app_iff in HND2 as (_ & _ & HND4).
    assert (In (Z.of_nat j) (map Z.of_nat ai)) by now apply in_map.
    apply in_app_or in Hin as [Hin|Hin].
    - apply (HND3 _ Hin). apply in_or_app; auto.
    - eapply HND4; eauto. }
  split.
  - congruence.
  - intros j rw Hj. destruct (Hrow _ _ Hj) as (rw0 & H0 & -> & _). eapply inv_idx; eauto.
  - rewrite all_active_app. apply NoDup_app_iff in HND as (HND1 & HND2 & HND3).
    apply NoDup_app_iff in HND2 as (HND4 & HND5 & HND6).
    apply NoDup_app_iff. split; [auto|split; [auto|]]. intros x Hx Hx'. apply (HND3 x Hx).
    apply in_or_app; auto.
  - intros j rw Hj. destruct (Hrow _ _ Hj) as (rw0 & H0 & _ & Hact & _).
    rewrite Hact. pose proof (inv_act _ _ _ _ _ HI _ _ H0) as Hold.
    rewrite all_active_app, all_active_cons, Ea, !memZ_app, memZ_map in Hold.
    destruct (memn j ai) eqn:Em.
    + apply memn_In in Em. apply HIa in Em. apply memZ_nIn in Em. now rewrite Em.
    + rewrite Hold, all_active_app, memZ_app. reflexivity.
  - intros j rw Hj. destruct (Hrow _ _ Hj) as (rw0 & H0 & _ & _ & Hv & _).
    destruct (memn j (ai ++ fi)) eqn:Em; [left; auto|].
    rewrite Hv. destruct (inv_val _ _ _ _ _ HI _ _ H0) as [|[Hv0 Hin]]; auto. right. split; auto.
    rewrite all_active_app, all_fixed_app, all_active_cons, all_fixed_cons, Ea, Ef in Hin.
    apply memn_nIn in Em. rewrite all_active_app, all_fixed_app.
    rewrite !in_app_iff in *.
    assert (Ha' : ~ In (Z.of_nat j) (map Z.of_nat ai)).
    { intros Hx. apply in_map_iff in Hx as (x & Ex & Hx). apply Nat2Z.inj in Ex. subst. tauto. }
    assert (Hf' : ~ In (Z.of_nat j) (map Z.of_nat fi)).
    { intros Hx. apply in_map_iff in Hx as (x & Ex & Hx). apply Nat2Z.inj in Ex. subst. tauto. }
    tauto.
  - rewrite Hna, (inv_na _ _ _ _ _ HI), !all_active_app, all_active_cons.
    rewrite !app_length. unfold ids at 1. rewrite map_length.
    assert (List.length act = List.length (p_active p))
      by (apply (f_equal (@List.length Z)) in Hids; unfold ids in Hids; now rewrite !map_length in Hids). lia.
  - rewrite Hnf, (inv_nf _ _ _ _ _ HI), !all_fixed_app, all_fixed_cons.
    rewrite !app_length. unfold ids at 1. rewrite map_length. lia.
  - intros p' Hp'. apply HI. apply in_app_or in Hp' as [Hp'|Hp']; apply in_or_app; simpl; auto.
  - intros j r0 rw H0 Hj. destruct (Hrow _ _ Hj) as (rw0 & Hj0 & _ & _ & _ & -> & _).
    rewrite total_niter_app. simpl. rewrite (inv_iter _ _ _ _ _ HI _ _ _ H0 Hj0).
    rewrite Hids, Ea, memZ_map. lia.
  - intros j r0 rw H0 Hj. destruct (Hrow _ _ Hj) as (rw0 & Hj0 & _ & _ & _ & _ & ->).
    rewrite total_patches_app. simpl. rewrite (inv_pat _ _ _ _ _ HI _ _ _ H0 Hj0).
    rewrite Hids, Ea, memZ_map. lia.
  - intros j. rewrite Hsl, labels_of_app. simpl. rewrite Hids, Ea, memZ_map.
    destruct (taskID a) as [pid|].
    + rewrite log_lookup_fold by assumption. rewrite (inv_log _ _ _ _ _ HI).
      now destruct (memn j ai).
    + rewrite app_nil_r. apply HI.
  - rewrite Hpl, all_labels_app. simpl. destruct (taskID a).
    + rewrite (inv_plog _ _ _ _ _ HI). reflexivity.
    + rewrite app_nil_r. apply HI.
Qed.

Lemma history_inv e c cat b covs evs s out :
  env_ok (List.length cat) e ->
  history e c (ingest cat b covs) evs s out ->
  Inv (List.length cat) (ingest cat b covs) evs s out.
Proof.
  intros Henv H. induction H.
  - apply inv_start.
  - eapply inv_grant; eauto.
  - apply checkout_refused in H0. subst s'.
    destruct IHhistory. split; auto; intros; rewrite ?total_niter_app, ?total_patches_app, ?labels_of_app, ?all_labels_app;
      simpl; rewrite ?app_nil_r, ?Z.add_0_r; eauto.
  - eapply inv_in; eauto.
Qed.

(** ** Exported facts *)

Definition disjointZ (l1 l2 : list Z) : Prop := forall x, In x l1 -> ~ In x l2.

Lemma concat_pairwise (ls : list (list Z)) :
  NoDup (concat ls) ->
  (forall l, In l ls -> NoDup l) /\
  (forall i j a b, i <> j -> nth_error ls i = Some a -> nth_error ls j = Some b -> disjointZ a b).
Proof.
  induction ls as [|l ls IH]; simpl; intros H.
  - split; [contradiction|]. intros [|i] j a b _ Hi; discriminate.
  - apply NoDup_app_iff in H as (H1 & H2 & H3). destruct (IH H2) as [IH1 IH2]. split.
    + intros x [<-|Hx]; auto.
    + intros [|i] [|j] a b Hne Hi Hj x Hxa Hxb; simpl in *; try congruence.
      * injection Hi as <-. apply (H3 x Hxa). apply in_concat. exists b. split; auto. eapply nth_error_In; eauto.
      * injection Hj as <-. apply (H3 x Hxb). apply in_concat. exists a. split; auto. eapply nth_error_In; eauto.
      * eapply (IH2 i j a b); eauto.
Qed.

Lemma exclusive_lemma e c cat b covs evs s out :
  env_ok (List.length cat) e ->
  history e c (ingest cat b covs) evs s out ->
  (forall p, In p out -> NoDup (ids (p_active p))) /\
  (forall i j p q, i <> j -> nth_error out i = Some p -> nth_error out j = Some q ->
     forall x, In x (ids (p_active p)) -> ~ In x (ids (p_active q))) /\
  (forall k s', checkout_region e c s k = CoRefused s' -> s' = s).
Proof.
  intros Henv H. pose proof (history_inv _ _ _ _ _ _ _ _ Henv H) as HI.
  pose proof (concat_pairwise _ (inv_nodup _ _ _ _ _ HI)) as [H1 H2].
  split; [|split].
  - intros p Hp. apply H1. apply in_map_iff. eauto.
  - intros i j p q Hne Hp Hq. eapply (H2 i j); eauto.
    + now rewrite nth_error_map, Hp.
    + now rewrite nth_error_map, Hq.
  - intros k s'. apply checkout_refused.
Qed.

Lemma balance_lemma e c cat b covs evs s out :
  env_ok (List.length cat) e ->
  history e c (ingest cat b covs) evs s out ->
  n_active s = Z.of_nat (List.length (all_active out)) /\
  n_fixed s = Z.of_nat (List.length (all_fixed out)) /\
  List.length (sourcecat s) = List.length cat /\
  (forall j rw, src s j = Some rw ->
     source_index rw = Z.of_nat j /\
     (is_active rw = 1 \/ is_active rw = 0)%Z /\ (is_valid rw = 1 \/ is_valid rw = 0)%Z /\
     (is_active rw = 1%Z <-> exists p, In p out /\ In (Z.of_nat j) (ids (p_active p))) /\
     (is_valid rw = 0%Z -> exists p, In p out /\
         In (Z.of_nat j) (ids (p_active p) ++ ids (p_fixed p)))) /\
  (out = [] -> n_active s = 0%Z /\ n_fixed s = 0%Z /\
     forall j rw, src s j = Some rw -> is_active rw = 0%Z /\ is_valid rw = 1%Z).
Proof.
  intros Henv H. pose proof (history_inv _ _ _ _ _ _ _ _ Henv H) as HI.
  assert (Hin : forall z, In z (all_active out) <-> exists p, In p out /\ In z (ids (p_active p))).
  { intros z. unfold all_active. rewrite in_concat. split.
    - intros (l & Hl & Hz). apply in_map_iff in Hl as (p & <- & Hp). eauto.
    - intros (p & Hp & Hz). exists (ids (p_active p)). split; auto. apply in_map_iff. eauto. }
  assert (Hinf : forall z, In z (all_fixed out) -> exists p, In p out /\ In z (ids (p_fixed p))).
  { intros z. unfold all_fixed. rewrite in_concat.
    intros (l & Hl & Hz). apply in_map_iff in Hl as (p & <- & Hp). eauto. }
  split; [apply HI|]. split; [apply HI|]. split; [apply HI|]. split.
  - intros j rw Hj. pose proof (inv_act _ _ _ _ _ HI _ _ Hj) as Ha.
    pose proof (inv_val _ _ _ _ _ HI _ _ Hj) as Hv.
    split; [eapply inv_idx; eauto|]. split; [destruct (memZ _ _); auto|].
    split; [tauto|]. split.
    + rewrite <- Hin, <- memZ_In, Ha. destruct (memZ _ _); split; auto; discriminate.
    + intros Hz. destruct Hv as [Hv|[_ Hv]]; [lia|].
      apply in_app_or in Hv as [Hv|Hv].
      * apply Hin in Hv as (p & Hp & Hz'). exists p. split; auto. apply in_or_app; auto.
      * apply Hinf in Hv as (p & Hp & Hz'). exists p. split; auto. apply in_or_app; auto.
  - intros ->. split; [apply (inv_na _ _ _ _ _ HI)|]. split; [apply (inv_nf _ _ _ _ _ HI)|].
    intros j rw Hj. split; [apply (inv_act _ _ _ _ _ HI _ _ Hj)|].
    destruct (inv_val _ _ _ _ _ HI _ _ Hj) as [|[_ []]]; auto.
Qed.

Lemma totals_lemma e c cat b covs evs s out :
  env_ok (List.length cat) e ->
  history e c (ingest cat b covs) evs s out ->
  (forall j r0, nth_error cat j = Some r0 -> exists rw, src s j = Some rw /\
      n_iter rw = (n_iter r0 + total_niter j evs)%Z /\
      n_patch rw = (n_patch r0 + total_patches j evs)%Z) /\
  (forall j, log_lookup (sourcelog s) j = labels_of j evs) /\
  patchlog s = all_labels evs /\
  (undone c s = false <->
   forall j r0, nth_error cat j = Some r0 ->
     (target_niter c <= Z.abs (n_iter r0 + total_niter j evs))%Z).
Proof.
  intros Henv H. pose proof (history_inv _ _ _ _ _ _ _ _ Henv H) as HI.
  assert (Hsome : forall j r0, nth_error cat j = Some r0 -> exists rw, src s j = Some rw /\
      n_iter rw = (n_iter r0 + total_niter j evs)%Z /\
      n_patch rw = (n_patch r0 + total_patches j evs)%Z).
  { intros j r0 Hj.
    assert (Hlt : j < List.length (sourcecat s)).
    { rewrite (inv_len _ _ _ _ _ HI). apply nth_error_Some. congruence. }
    exists (nth j (sourcecat s) row0). pose proof (src_nth _ _ Hlt) as Hs. split; auto.
    assert (H0 : src (ingest cat b covs) j = Some
      (set_active_flag (set_valid_flag (set_source_index r0 (Z.of_nat j)) 1) 0)).
    { unfold src, ingest. cbn. rewrite set_catalog_nth, Hj. reflexivity. }
    split.
    - apply (inv_iter _ _ _ _ _ HI _ _ _ H0 Hs).
    - apply (inv_pat _ _ _ _ _ HI _ _ _ H0 Hs). }
  split; [exact Hsome|]. split; [apply HI|]. split; [apply HI|].
  unfold undone. split.
  - intros Hu j r0 Hj. destruct (Hsome j r0 Hj) as (rw & Hs & Hi & _).
    rewrite <- Hi. destruct (Z.abs (n_iter rw) <? target_niter c)%Z eqn:E; [|lia].
    assert (existsb (fun r => (Z.abs (n_iter r) <? target_niter c)%Z) (sourcecat s) = true); [|congruence].
    apply existsb_exists. exists rw. split; auto. eapply nth_error_In; eauto.
  - intros Hall. apply not_true_is_false. intros Hex. apply existsb_exists in Hex as (rw & Hin & Hlt).
    apply In_nth_error in Hin as (j & Hj).
    assert (Hjl : j < List.length cat).
    { rewrite <- (inv_len _ _ _ _ _ HI). apply nth_error_Some. congruence. }
    apply nth_error_Some in Hjl. destruct (nth_error cat j) as [r0|] eqn:E0; [|congruence].
    specialize (Hall j r0 E0). destruct (Hsome j r0 E0) as (rw' & Hs & Hi & _).
    unfold src in Hs. rewrite Hj in Hs. injection Hs as <-. lia.
Qed.
