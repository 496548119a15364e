(** Histories of the linked server (C11). *)
From Verif Require Import Np NpFacts SuperSceneModel SuperSceneSpec SuperSceneFacts SuperSceneHist
     LinkedModel LinkedSpec LinkedGraph LinkedFacts LinkedScene.
From Coq Require Import Relations Permutation Sorted Lqa.

Definition as_patch (p : lpatch) : patch := mkPatch (lp_region p) (lp_active p) (lfixed_rows p).
Definition as_event (ev : levent) : event :=
  match ev with LEvOut p => EvOut (as_patch p) | LEvRefused => EvRefused | LEvIn act a => EvIn act a end.

Lemma inv_grant_gen n s0 evs s out s' p ai fi :
  Inv n s0 evs s out ->
  (forall j, src s' j = option_map (out_row ai fi j) (src s j)) ->
  List.length (sourcecat s') = List.length (sourcecat s) ->
  ids (p_active p) = map Z.of_nat ai -> ids (p_fixed p) = map Z.of_nat fi ->
  n_active s' = (n_active s + Z.of_nat (List.length ai))%Z ->
  n_fixed s' = (n_fixed s + Z.of_nat (List.length fi))%Z ->
  sourcelog s' = sourcelog s -> patchlog s' = patchlog s ->
  NoDup (ai ++ fi) -> (forall j, In j (ai ++ fi) -> j < n) ->
  (forall j, In j ai -> ~ In (Z.of_nat j) (all_active out)) ->
  Inv n s0 (evs ++ [EvOut p]) s' (out ++ [p]).
Proof.
  intros HI Hrow HL Hia Hif Hna Hnf Hsl Hpl Hnd Hlt Hfree.
  pose proof (proj1 (NoDup_app_iff _ _) Hnd) as (Hnda & Hndf & _).
  assert (Hidx' : forall j rw, src s' j = Some rw -> source_index rw = Z.of_nat j).
  { intros j rw Hj. rewrite Hrow in Hj. destruct (src s j) as [rw0|] eqn:E; [|discriminate].
    injection Hj as <-. simpl. eapply inv_idx; eauto. }
  split.
  - rewrite HL. apply HI.
  - exact Hidx'.
  - rewrite all_active_app, all_active_cons, Hia. simpl. rewrite app_nil_r.
    apply NoDup_app_iff. split; [apply HI|]. split; [now apply NoDup_map_of_nat|].
    intros x Hx Hx'. apply in_map_iff in Hx' as (j & <- & Hj). eapply Hfree; eauto.
  - intros j rw Hj. rewrite Hrow in Hj. destruct (src s j) as [rw0|] eqn:E; [|discriminate].
    injection Hj as <-. simpl. rewrite all_active_app, all_active_cons, Hia, !memZ_app, memZ_map.
    simpl. rewrite orb_false_r. rewrite (inv_act _ _ _ _ _ HI _ _ E).
    destruct (memn j ai); rewrite ?orb_true_r, ?orb_false_r; reflexivity.
  - intros j rw Hj. rewrite Hrow in Hj. destruct (src s j) as [rw0|] eqn:E; [|discriminate].
    injection Hj as <-. simpl. rewrite all_active_app, all_fixed_app, all_active_cons, all_fixed_cons, Hia, Hif.
    simpl. rewrite !app_nil_r. destruct (memn j (ai ++ fi)) eqn:Em.
    + right. split; auto. apply memn_In in Em. rewrite !in_app_iff in *.
      destruct Em; [left|right]; right; now apply in_map.
    + destruct (inv_val _ _ _ _ _ HI _ _ E) as [|[Hv Hin]]; auto. right. split; auto.
      rewrite !in_app_iff in *. tauto.
  - rewrite Hna, (inv_na _ _ _ _ _ HI), all_active_app, all_active_cons, Hia. simpl.
    rewrite !app_length, map_length. simpl. lia.
  - rewrite Hnf, (inv_nf _ _ _ _ _ HI), all_fixed_app, all_fixed_cons, Hif. simpl.
    rewrite !app_length, map_length. simpl. lia.
  - intros p' Hp'. apply in_app_or in Hp' as [Hp'|[<-|[]]]; [now apply HI|].
    exists ai, fi. auto.
  - intros j r0 rw H0 Hj. rewrite Hrow in Hj. destruct (src s j) as [rw0|] eqn:E; [|discriminate].
    injection Hj as <-. simpl. rewrite total_niter_app. simpl.
    rewrite (inv_iter _ _ _ _ _ HI _ _ _ H0 E). lia.
  - intros j r0 rw H0 Hj. rewrite Hrow in Hj. destruct (src s j) as [rw0|] eqn:E; [|discriminate].
    injection Hj as <-. simpl. rewrite total_patches_app. simpl.
    rewrite (inv_pat _ _ _ _ _ HI _ _ _ H0 E). lia.
  - intros j. rewrite Hsl, labels_of_app. simpl. rewrite app_nil_r. apply HI.
  - rewrite Hpl, all_labels_app. simpl. rewrite app_nil_r. apply HI.
Qed.

(** With a supplied array of radii the links do not depend on the catalog contents. *)
Lemma roi_of_fixed lc s s' k : roi lc <> None -> roi_of lc s k = roi_of lc s' k.
Proof. unfold roi_of, roi_at. destruct (roi lc); congruence. Qed.
Lemma touch_fixed e lc s s' i j : roi lc <> None ->
  List.length (sourcecat s) = List.length (sourcecat s') ->
  touch e lc s i j <-> touch e lc s' i j.
Proof.
  intros Hr HL. unfold touch. rewrite HL, !(roi_of_fixed lc s s') by assumption. tauto.
Qed.
Lemma linked_fixed e lc s s' i j : roi lc <> None ->
  List.length (sourcecat s) = List.length (sourcecat s') ->
  linked e lc s i j -> linked e lc s' i j.
Proof.
  intros Hr HL H. induction H; [apply rt_step; now apply (touch_fixed e lc s s')|apply rt_refl|eapply rt_trans; eauto].
Qed.

Section Excl.
Context (e : lenv) (lc : lconfig) (cat : list row) (b : list bounds_row) (covs : list matrix).
Let n := List.length cat.
Let s0 := ingest cat b covs.
Context (He : lenv_ok n e) (Hfix : roi lc <> None) (Hroi : roi_ok lc s0) (Hsmall : small_roi lc s0).
Context (HB : (0 <= boundary_radius (base lc))%Q) (HM : (0 <= minradius (base lc))%Q).
Context (Hst : strict lc = true).
Context (Hfit : forall i group, i < n -> NoDup group -> (forall x, In x group -> linked e lc s0 i x) ->
     List.length group <= maxactive (base lc)).

Lemma len0 : List.length (sourcecat s0) = n.
Proof. apply set_catalog_length. Qed.

Definition keeps_groups (out : list lpatch) : Prop :=
  forall p i j, In p out -> In (Z.of_nat i) (ids (lp_active p)) -> linked e lc s0 i j ->
    In (Z.of_nat j) (ids (lp_active p)).

Lemma lhistory_inv evs s out :
  lhistory e lc s0 evs s out ->
  Inv n s0 (map as_event evs) s (map as_patch out) /\ keeps_groups out.
Proof.
  intros H. induction H as [|evs s out k mf s' p H IH Hg|evs s out k mf s' H IH Hr|evs s o1 p o2 act a s' H IH Hids Hc].
  - split; [apply inv_start|]. intros p i j [].
  - destruct IH as [HI HK].
    pose proof (inv_len _ _ _ _ _ HI) as HLs.
    assert (HLL : List.length (sourcecat s0) = List.length (sourcecat s)) by (rewrite len0; auto).
    assert (He' : lenv_ok (List.length (sourcecat s)) e) by (rewrite HLs; exact He).
    assert (Hroi' : roi_ok lc s).
    { intros i Hi. rewrite <- HLL in Hi. destruct (Hroi i Hi) as (r & Hr1 & Hr2). exists r. split; auto.
      unfold roi_at in *. destruct (roi lc); congruence. }
    assert (Hsmall' : small_roi lc s).
    { intros i Hi. rewrite <- HLL in Hi. rewrite (roi_of_fixed lc s s0) by auto. now apply Hsmall. }
    apply lcheckout_inv in Hg as (cra & cdec & r & ai & fi & Hgs & Hrow & HLen & _ & Ha & Hf & Hna & Hnf & _ & _ & Hsl & Hpl).
    assert (Hidx' : forall j rw, src s' j = Some rw -> source_index rw = Z.of_nat j).
    { intros j rw Hj. rewrite Hrow in Hj. destruct (src s j) as [rw0|] eqn:E; [|discriminate].
      injection Hj as <-. simpl. eapply inv_idx; eauto. }
    pose proof (fetched_ids _ _ _ Hidx' Ha) as Hia.
    pose proof (fetched_ids _ _ _ (inv_idx _ _ _ _ _ HI) Hf) as Hif.
    destruct (scene_free e lc s He' Hroi' k mf cra cdec r ai fi Hgs Hsmall' Hst) as [Hwh Hfr].
    { intros i group Hi Hnd Hgrp. apply (Hfit i); [lia|auto|].
      intros x Hx. apply (linked_fixed e lc s s0); auto. }
    destruct (scene_groups e lc s He' Hroi' k mf cra cdec r ai fi Hgs Hsmall') as [Hnda _].
    destruct (scene_fixed e lc s He' Hroi' HM k mf cra cdec r ai fi Hgs) as (Hndf & Hfi & _).
    rewrite !map_app. cbn [map as_event]. split.
    + eapply (inv_grant_gen n s0 _ s _ s' (as_patch p) ai fi HI); auto.
      * apply NoDup_app_iff. split; auto. split; auto. intros x Hx Hx'. now apply Hfi in Hx' as (_ & ? & _).
      * intros j Hj. rewrite <- HLs. apply in_app_or in Hj as [Hj|Hj].
        -- eapply scene_active_lt; eauto.
        -- now apply Hfi.
      * intros j Hj Hin. destruct (Hfr j Hj) as (c & rw & Hlk & Hs & Hz).
        unfold all_active in Hin. apply in_concat in Hin as (l & Hl & Hjl).
        rewrite map_map in Hl. apply in_map_iff in Hl as (p' & <- & Hp'). simpl in Hjl.
        assert (Hcin : In (Z.of_nat c) (ids (lp_active p'))).
        { eapply HK; eauto. apply (linked_fixed e lc s s0); auto. now apply (linked_sym e lc s He'). }
        pose proof (inv_act _ _ _ _ _ HI _ _ Hs) as Hact.
        assert (Hm : memZ (Z.of_nat c) (all_active (map as_patch out)) = true).
        { apply memZ_In. unfold all_active. apply in_concat. exists (ids (lp_active p')). split; auto.
          rewrite map_map. apply in_map_iff. exists p'. auto. }
        rewrite Hm in Hact. lia.
    + intros p' i j Hp' Hi Hij. apply in_app_or in Hp' as [Hp'|[<-|[]]]; [eapply HK; eauto|].
      rewrite Hia in *. apply in_map_iff in Hi as (i' & Ei & Hi). apply Nat2Z.inj in Ei. subst i'.
      apply in_map. eapply Hwh; eauto. apply (linked_fixed e lc s0 s); auto.
  - apply lcheckout_refused in Hr. subst s'. destruct IH as [HI HK]. split; auto.
    rewrite map_app. cbn [map as_event].
    destruct HI. split; auto; intros; rewrite ?total_niter_app, ?total_patches_app, ?labels_of_app, ?all_labels_app;
      simpl; rewrite ?app_nil_r, ?Z.add_0_r; eauto.
  - destruct IH as [HI HK]. rewrite !map_app in *. cbn [map as_event] in *. split.
    + eapply (inv_in n s0 (base lc) _ s (map as_patch o1) (as_patch p) (map as_patch o2) act a s' HI); [exact Hids|].
      rewrite <- Hc. unfold as_patch, lfixed_rows; cbn [p_fixed]. destruct (lp_fixed p); reflexivity.
    + intros p' i j Hp'. apply HK. apply in_app_or in Hp' as [Hp'|Hp']; apply in_or_app; simpl; auto.
Qed.

Lemma lexclusive_lemma evs s out :
  lhistory e lc s0 evs s out ->
  (forall p, In p out -> NoDup (ids (lp_active p))) /\
  (forall i j p q, i <> j -> nth_error out i = Some p -> nth_error out j = Some q ->
     forall x, In x (ids (lp_active p)) -> ~ In x (ids (lp_active q))) /\
  (forall k mf s', lcheckout_region e lc s k mf = LCoRefused s' -> s' = s) /\
  n_active s = Z.of_nat (List.length (lall_active out)) /\
  (forall j rw, src s j = Some rw -> source_index rw = Z.of_nat j /\
     (is_active rw = 1%Z <-> exists p, In p out /\ In (Z.of_nat j) (ids (lp_active p))) /\
     (is_active rw = 1 \/ is_active rw = 0)%Z).
Proof.
  intros H. destruct (lhistory_inv _ _ _ H) as [HI _].
  pose proof (concat_pairwise _ (inv_nodup _ _ _ _ _ HI)) as [H1 H2]. rewrite map_map in H1, H2.
  split; [|split; [|split; [|split]]].
  - intros p Hp. apply H1. apply in_map_iff. exists p. auto.
  - intros i j p q Hne Hp Hq. eapply (H2 i j); eauto.
    + rewrite nth_error_map, Hp. reflexivity.
    + rewrite nth_error_map, Hq. reflexivity.
  - intros k mf s'. apply lcheckout_refused.
  - rewrite (inv_na _ _ _ _ _ HI). unfold all_active, lall_active. now rewrite map_map.
  - intros j rw Hj. split; [eapply inv_idx; eauto|]. pose proof (inv_act _ _ _ _ _ HI _ _ Hj) as Ha.
    assert (Hin : In (Z.of_nat j) (all_active (map as_patch out)) <->
                  exists p, In p out /\ In (Z.of_nat j) (ids (lp_active p))).
    { unfold all_active. rewrite in_concat, map_map. split.
      - intros (l & Hl & Hz). apply in_map_iff in Hl as (p & <- & Hp). eauto.
      - intros (p & Hp & Hz). exists (ids (lp_active p)). split; auto. apply in_map_iff. exists p. auto. }
    rewrite <- Hin, <- memZ_In, Ha. destruct (memZ _ _); split; auto; split; auto; discriminate.
Qed.
End Excl.

(** Histories keep the numbering of the catalog, whatever the configuration. *)
Lemma lhistory_numbered e lc cat b covs evs s out :
  lhistory e lc (ingest cat b covs) evs s out ->
  List.length (sourcecat s) = List.length cat /\
  forall j rw, src s j = Some rw -> source_index rw = Z.of_nat j.
Proof.
  intros H. induction H as [|evs s out k mf s' p H IH Hg|evs s out k mf s' H IH Hr|evs s o1 p o2 act a s' H IH Hids Hc].
  - split; [apply set_catalog_length|]. intros j rw H. unfold src, ingest in H; cbn in H. rewrite set_catalog_nth in H.
    destruct (nth_error cat j); [|discriminate]. injection H as <-. reflexivity.
  - destruct IH as [IH1 IH2].
    apply lcheckout_inv in Hg as (cra & cdec & r & ai & fi & Hgs & Hrow & HLen & _).
    split; [congruence|]. intros j rw Hj. rewrite Hrow in Hj. destruct (src s j) as [rw0|] eqn:E; [|discriminate].
    injection Hj as <-. simpl. auto.
  - apply lcheckout_refused in Hr. now subst s'.
  - destruct IH as [IH1 IH2]. unfold checkin_region in Hc.
    destruct (mapM _ act) as [ai|] eqn:Eai; [|discriminate].
    destruct (mapM _ (match lp_fixed p with Some f => f | None => [] end)) as [fi|]; [|discriminate].
    destruct (put_columns _ _ _ _) as [c1|] eqn:E1; [|discriminate].
    destruct (add_field n_iter _ _ _ _) as [c2|] eqn:E2; [|discriminate].
    destruct (add_field n_patch _ _ _ _) as [c4|] eqn:E4; [|discriminate].
    destruct (put_bounds _ _ _); [|discriminate]. injection Hc as <-. cbn [sourcecat src].
    assert (Gf : forall B (setf : row -> B -> row), (forall r v, source_index (setf r v) = source_index r) ->
        forall inds vals cat0, map source_index (fancy_put_field setf cat0 inds vals) = map source_index cat0).
    { clear. intros B setf Hs inds. induction inds as [|i inds IHi]; intros [|v vals] cat0; auto.
      simpl. rewrite IHi. destruct (nth_error cat0 i) as [r|] eqn:Er; auto.
      clear -Er Hs. revert i Er. induction cat0 as [|h t IH]; intros [|i] Er; simpl in *; try discriminate; auto.
      - injection Er as ->. now rewrite Hs.
      - f_equal. now apply IH. }
    assert (Gp : forall fs cat0 cat1, put_columns fs cat0 ai act = Some cat1 -> map source_index cat1 = map source_index cat0).
    { clear -Gf. induction fs as [|f fs IH]; intros cat0 cat1 H; simpl in H; [now injection H as <-|].
      destruct (mapM _ act); [|discriminate]. rewrite (IH _ _ H). now apply Gf. }
    assert (Ga : forall getf (setf : row -> Z -> row) v cat0 cat1, (forall r v, source_index (setf r v) = source_index r) ->
       add_field getf setf cat0 ai v = Some cat1 -> map source_index cat1 = map source_index cat0).
    { clear -Gf. intros getf setf v cat0 cat1 Hs H. unfold add_field in H. destruct (fancy_get _ _); [|discriminate].
      injection H as <-. now apply Gf. }
    match goal with |- List.length ?C = _ /\ _ => set (cc := C) end.
    assert (Hm : map source_index cc = map source_index (sourcecat s)).
    { unfold cc, fancy_put_scalar in *. rewrite !Gf by reflexivity.
      rewrite (Ga n_patch set_n_patch _ _ _ (fun r v => eq_refl) E4). rewrite Gf by reflexivity.
      rewrite (Ga n_iter set_n_iter _ _ _ (fun r v => eq_refl) E2). eapply Gp; eauto. }
    split.
    + apply (f_equal (@List.length _)) in Hm. rewrite !map_length in Hm. congruence.
    + intros j rw Hj. unfold src in *. cbn [sourcecat] in Hj. fold cc in Hj.
      assert (Hnj : nth_error (map source_index (sourcecat s)) j = Some (source_index rw)).
      { rewrite <- Hm, nth_error_map, Hj. reflexivity. }
      rewrite nth_error_map in Hnj. destruct (nth_error (sourcecat s) j) as [r0|] eqn:E; [|discriminate].
      injection Hnj as Hnj. rewrite <- Hnj. now apply IH2.
Qed.
