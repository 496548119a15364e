From Verif Require Import Np NpFacts SuperSceneModel SuperSceneSpec SuperSceneFacts SuperSceneHist
     DispatchModel DispatchSpec.
From Coq Require Import Permutation Sorted.

(** * The queue *)
Section Q.
Context {T : Type}.

Lemma remove_nth_perm {A} (l : list A) : forall i x, nth_error l i = Some x -> Permutation (x :: remove_nth i l) l.
Proof.
  induction l as [|h t IH]; intros [|i] x H; simpl in *; try discriminate.
  - injection H as ->. reflexivity.
  - rewrite perm_swap. constructor. auto.
Qed.
Lemma remove_nth_map {A B} (f : A -> B) l : forall i, remove_nth i (map f l) = map f (remove_nth i l).
Proof. induction l as [|h t IH]; intros [|i]; simpl; auto. now rewrite IH. Qed.
Lemma remove_nth_before {A} (l : list A) : forall i j, j < i -> nth_error (remove_nth i l) j = nth_error l j.
Proof.
  induction l as [|h t IH]; intros [|i] [|j] H; simpl; auto; try lia. apply IH. lia.
Qed.

Lemma insert_desc_perm i l : Permutation (insert_desc i l) (i :: l).
Proof.
  induction l as [|j t IH]; simpl; auto. destruct (Nat.leb j i); auto.
  rewrite IH. apply perm_swap.
Qed.
Lemma sorted_reverse_perm l : Permutation (sorted_reverse l) l.
Proof. induction l as [|i l IH]; simpl; auto. rewrite insert_desc_perm. now constructor. Qed.
Lemma insert_desc_sorted i l : StronglySorted ge l -> StronglySorted ge (insert_desc i l).
Proof.
  intros H. induction H as [|j t Hs IH Hf]; simpl.
  - constructor; constructor.
  - destruct (Nat.leb_spec j i).
    + constructor; [constructor; auto|]. constructor; [lia|]. eapply Forall_impl; [|exact Hf]. simpl. lia.
    + constructor; auto. apply Forall_forall. intros x Hx.
      apply (Permutation_in _ (insert_desc_perm i t)) in Hx. destruct Hx as [<-|Hx]; [lia|].
      rewrite Forall_forall in Hf. auto.
Qed.
Lemma sorted_reverse_sorted l : StronglySorted ge (sorted_reverse l).
Proof. induction l as [|i l IH]; simpl; [constructor|]. now apply insert_desc_sorted. Qed.

Lemma nodupb_NoDup l : nodupb l = true <-> NoDup l.
Proof.
  induction l as [|x t IH]; simpl; split; intros H; auto; try constructor.
  - apply andb_true_iff in H as [H _]. apply memn_nIn. now apply negb_true_iff in H.
  - apply andb_true_iff in H as [_ H]. now apply IH.
  - inversion H; subst. apply andb_true_iff. split; [|now apply IH].
    apply negb_true_iff. now apply memn_nIn.
Qed.

Definition qok (q : queue T) : Prop :=
  busy q = map h_child (irecv_handles q) /\
  Permutation (idle q ++ busy q) (seq 1 (n_children q)).

Lemma pop_loop_spec inds : forall (q : queue T),
  busy q = map h_child (irecv_handles q) -> StronglySorted ge inds -> NoDup inds ->
  (forall i, In i inds -> i < List.length (irecv_handles q)) ->
  exists q' popped, pop_loop inds q = Some q' /\ fancy_get (irecv_handles q) inds = Some popped /\
    Permutation (popped ++ irecv_handles q') (irecv_handles q) /\
    busy q' = map h_child (irecv_handles q') /\ idle q' = idle q ++ map h_child popped /\
    n_children q' = n_children q.
Proof.
  induction inds as [|i inds IH]; intros q Hb Hs Hnd Hlt; simpl.
  - exists q, []. simpl. rewrite app_nil_r. auto 7.
  - assert (Hi : i < List.length (irecv_handles q)) by (apply Hlt; simpl; auto).
    destruct (nth_error (irecv_handles q) i) as [h|] eqn:Eh; [|apply nth_error_None in Eh; lia].
    rewrite Hb, nth_error_map, Eh. cbn [option_map].
    inversion Hs as [|? ? Hs' Hf]; subst. inversion Hnd as [|? ? Hni Hnd']; subst.
    set (q1 := mkQueue (remove_nth i (irecv_handles q)) (remove_nth i (map h_child (irecv_handles q)))
                       (idle q ++ [h_child h]) (n_children q)).
    pose proof (remove_nth_perm _ _ _ Eh) as Hp.
    destruct (IH q1) as (q' & popped & H1 & H2 & H3 & H4 & H5 & H6); auto.
    + simpl. apply remove_nth_map.
    + intros j Hj. simpl. rewrite Forall_forall in Hf. specialize (Hf j Hj).
      assert (j <> i) by (intros ->; contradiction).
      apply Permutation_length in Hp. simpl in Hp. lia.
    + exists q', (h :: popped). split; [exact H1|].
      assert (Hsame : fancy_get (irecv_handles q) inds = Some popped).
      { rewrite <- H2. unfold fancy_get. clear -Hf Hni.
        induction inds as [|j inds IHi]; auto. simpl. inversion Hf; subst. simpl in Hni.
        rewrite remove_nth_before by lia. rewrite IHi by tauto. reflexivity. }
      unfold fancy_get in *. cbn [mapM]. rewrite Eh, Hsame. split; auto.
      split. { simpl. rewrite H3. exact Hp. }
      split; auto. split; auto. rewrite H5. simpl. now rewrite <- app_assoc.
Qed.

Lemma mapM_None_ex {A B} (f : A -> option B) l : mapM f l = None -> exists i, In i l /\ f i = None.
Proof.
  induction l as [|i t IH]; simpl; intros E; [discriminate|].
  destruct (f i) eqn:Ei; [|exists i; simpl; auto].
  destruct (mapM f t); [discriminate|]. destruct IH as (j & Hj & Hn); auto. exists j; simpl; auto.
Qed.
Lemma mapM_None_in {A B} (f : A -> option B) l i : In i l -> f i = None -> mapM f l = None.
Proof.
  induction l as [|j t IH]; simpl; intros Hi Hn; [contradiction|]. destruct Hi as [->|Hi].
  - now rewrite Hn.
  - rewrite IH by auto. now destruct (f j).
Qed.

Lemma fancy_get_perm {A} (l : list A) inds inds' r r' :
  Permutation inds inds' -> fancy_get l inds = Some r -> fancy_get l inds' = Some r' -> Permutation r r'.
Proof.
  intros H. revert r r'. unfold fancy_get. induction H; intros r r' H1 H2; simpl in *.
  - injection H1 as <-. injection H2 as <-. constructor.
  - destruct (nth_error l x); [|discriminate].
    destruct (mapM (nth_error l) l0); [|discriminate]. destruct (mapM (nth_error l) l'); [|discriminate].
    injection H1 as <-. injection H2 as <-. constructor. auto.
  - destruct (nth_error l y); [|destruct (nth_error l x); discriminate].
    destruct (nth_error l x); [|discriminate]. destruct (mapM (nth_error l) l0); [|discriminate].
    injection H1 as <-. injection H2 as <-. apply perm_swap.
  - destruct (mapM (nth_error l) l') as [m|] eqn:E;
      [exact (perm_trans (IHPermutation1 r m H1 eq_refl) (IHPermutation2 m r' eq_refl H2))|].
    exfalso. destruct (mapM_None_ex _ _ E) as (i & Hi & Hn).
    apply (Permutation_in _ (Permutation_sym H)) in Hi. rewrite (mapM_None_in _ _ i Hi Hn) in H1. discriminate.
Qed.

Lemma map_Some_inj {A} (l l' : list A) : map Some l = map Some l' -> l = l'.
Proof.
  revert l'. induction l as [|x l IH]; intros [|y l'] H; simpl in H; try discriminate; auto.
  injection H as <- H. f_equal. auto.
Qed.
Lemma map_nth_error_seq {A} (l : list A) : map (nth_error l) (seq 0 (List.length l)) = map Some l.
Proof.
  enough (H : forall (l l0 : list A), map (nth_error (l0 ++ l)) (seq (List.length l0) (List.length l)) = map Some l)
    by exact (H l []).
  clear. induction l as [|x l IH]; intros l0; simpl; auto.
  rewrite nth_error_app2, Nat.sub_diag by lia. simpl. f_equal.
  specialize (IH (l0 ++ [x])). rewrite <- app_assoc, app_length, Nat.add_comm in IH. exact IH.
Qed.

Lemma fancy_get_total' {A} (l : list A) inds : (forall i, In i inds -> i < List.length l) ->
  exists r, fancy_get l inds = Some r.
Proof.
  intros H. unfold fancy_get. induction inds as [|i inds IH]; simpl; eauto.
  destruct (nth_error l i) eqn:E; [|apply nth_error_None in E; specialize (H i (or_introl eq_refl)); lia].
  destruct IH as (r & ->); eauto. intros; apply H; simpl; auto.
Qed.

Definition reported (q : queue T) (mode : blocking_mode) (done : list nat) : list nat :=
  match mode with BlockAll => seq 0 (List.length (irecv_handles q)) | _ => done end.

Lemma collect_spec (q : queue T) mode done :
  qok q -> mpi_reports q mode done -> irecv_handles q <> [] ->
  exists q' res freed, collect q mode done = Some (q', res) /\
    fancy_get (irecv_handles q) (reported q mode done) = Some res /\
    Permutation (res ++ irecv_handles q') (irecv_handles q) /\ qok q' /\
    idle q' = idle q ++ freed /\ Permutation freed (map h_child res) /\ n_children q' = n_children q.
Proof.
  intros [Hb Hp] (Hnd & Hlt & _) Hne. unfold collect.
  change (match mode with BlockAll => seq 0 (List.length (irecv_handles q)) | _ => done end)
    with (reported q mode done). set (inds := reported q mode done).
  assert (Hnd' : NoDup inds) by (unfold inds, reported; destruct mode; auto; apply seq_NoDup).
  assert (Hlt' : forall i, In i inds -> i < List.length (irecv_handles q)).
  { unfold inds, reported. destruct mode; auto. intros i Hi. apply in_seq in Hi. lia. }
  assert (Hlt2 : forall i, In i (sorted_reverse inds) -> i < List.length (irecv_handles q)).
  { intros i Hi. apply Hlt'. eapply Permutation_in; [apply sorted_reverse_perm|auto]. }
  destruct (pop_loop_spec (sorted_reverse inds) q Hb (sorted_reverse_sorted inds)) as
    (q' & popped & H1 & H2 & H3 & H4 & H5 & H6); auto.
  { eapply Permutation_NoDup; [symmetry; apply sorted_reverse_perm|auto]. }
  destruct (fancy_get_total' (irecv_handles q) inds Hlt') as (res & Hres).
  assert (Hpr : Permutation popped res) by exact (fancy_get_perm _ _ _ _ _ (sorted_reverse_perm inds) H2 Hres).
  rewrite Hres, H1.
  assert (Hq' : Permutation (idle q' ++ busy q') (seq 1 (n_children q'))).
  { rewrite H6, <- Hp, H5, H4, Hb, <- app_assoc, <- map_app. apply Permutation_app_head. now apply Permutation_map. }
  assert (Hni : nodupb (idle q') = true).
  { apply nodupb_NoDup. assert (Hn : NoDup (idle q' ++ busy q')).
    { eapply Permutation_NoDup; [symmetry; exact Hq'|apply seq_NoDup]. }
    now apply NoDup_app_iff in Hn. }
  exists q', res, (map h_child popped).
  split.
  { destruct (irecv_handles q); [congruence|]. rewrite Hni. destruct mode; reflexivity. }
  split; auto. split; [rewrite <- Hpr; exact H3|]. split; [split; auto|]. split; auto.
  split; auto. now apply Permutation_map.
Qed.

Lemma submit_spec (q : queue T) task tag :
  qok q ->
  (submit q task tag = None <-> idle q = []) /\
  (forall q' child, submit q task tag = Some (q', child) ->
     qok q' /\ (exists rest, idle q = child :: rest /\ idle q' = rest) /\
     irecv_handles q' = irecv_handles q ++ [mkHandle child tag task] /\ n_children q' = n_children q).
Proof.
  intros [Hb Hp]. unfold submit. destruct (idle q) as [|c rest] eqn:Ei.
  - split; [tauto|]. intros; discriminate.
  - assert (Hnot : memn c (busy q) = false).
    { apply memn_nIn. assert (Hn : NoDup ((c :: rest) ++ busy q)).
      { eapply Permutation_NoDup; [symmetry; exact Hp|apply seq_NoDup]. }
      apply NoDup_app_iff in Hn as (_ & _ & Hn). apply Hn. simpl; auto. }
    rewrite Hnot. split; [split; discriminate|]. intros q' child [= <- <-]. simpl.
    split; [|eauto 6]. split; simpl.
    + now rewrite Hb, map_app.
    + rewrite <- Hp. simpl. rewrite app_assoc. symmetry. apply Permutation_cons_append.
Qed.

Lemma all_submitted_app (a b : list (qevent T)) : all_submitted (a ++ b) = all_submitted a ++ all_submitted b.
Proof. induction a as [|[] a IH]; simpl; rewrite ?IH; auto. Qed.
Lemma all_returned_app (a b : list (qevent T)) : all_returned (a ++ b) = all_returned a ++ all_returned b.
Proof. induction a as [|[] a IH]; simpl; rewrite ?IH, ?app_assoc; auto. Qed.

Lemma collect_empty (q : queue T) mode done : irecv_handles q = [] ->
  collect q mode done = match mode with BlockAll => Some (q, []) | _ => None end.
Proof. intros H. unfold collect. rewrite H. destruct mode; reflexivity. Qed.

Lemma list_eq_nil_dec {A} (l : list A) : {l = []} + {l <> []}.
Proof. destruct l; [left|right]; congruence. Qed.

Lemma qhistory_inv n evs (q : queue T) : qhistory n evs q ->
  qok q /\ n_children q = n /\ Permutation (all_submitted evs) (all_returned evs ++ irecv_handles q).
Proof.
  intros H. induction H as [|evs q task tag q' child H (IH1 & IH2 & IH3) Hs|evs q mode done q' res H (IH1 & IH2 & IH3) Hm Hc].
  - split; [split; simpl; auto|]; [now rewrite app_nil_r|]. split; auto.
  - destruct (submit_spec q task tag IH1) as [_ Hsp]. destruct (Hsp _ _ Hs) as (K1 & _ & K3 & K4).
    split; auto. split; [congruence|]. rewrite all_submitted_app, all_returned_app, K3. simpl.
    rewrite app_nil_r, IH3, <- app_assoc. reflexivity.
  - destruct (list_eq_nil_dec (irecv_handles q)) as [E|E].
    + rewrite (collect_empty _ _ _ E) in Hc. destruct mode; try discriminate. injection Hc as <- <-.
      split; auto. split; auto. rewrite all_submitted_app, all_returned_app. simpl. now rewrite !app_nil_r.
    + destruct (collect_spec q mode done IH1 Hm E) as (q2 & r2 & fr & K1 & _ & K2 & K3 & _ & _ & K4).
      rewrite Hc in K1. injection K1 as <- <-. split; auto. split; [congruence|].
      rewrite all_submitted_app, all_returned_app. simpl. rewrite !app_nil_r, IH3, <- app_assoc.
      apply Permutation_app_head. symmetry. exact K2.
Qed.

Lemma closeout_spec (q : queue T) : qok q ->
  (irecv_handles q = [] -> closeout q = Some (seq 1 (n_children q))) /\
  (irecv_handles q <> [] -> closeout q = None).
Proof.
  intros [Hb Hp]. unfold closeout.
  assert (HL : List.length (idle q) + List.length (irecv_handles q) = n_children q).
  { apply Permutation_length in Hp. rewrite app_length, seq_length, Hb, map_length in Hp. exact Hp. }
  split; intros H.
  - rewrite H in *. simpl in *. rewrite Nat.add_0_r in HL. now rewrite HL, Nat.eqb_refl.
  - destruct (Nat.eqb_spec (List.length (idle q)) (n_children q)) as [E|]; auto. simpl.
    destruct (irecv_handles q); [congruence|]. simpl in HL. lia.
Qed.
End Q.

(** * The parent loop *)

Lemma try_checkout_region e c s seeds s1 p : try_checkout e c s seeds = Region s1 p ->
  exists k, checkout_region e c s k = CoGranted s1 p.
Proof.
  induction seeds as [|k t IH]; simpl; [discriminate|].
  destruct (checkout_region e c s k) eqn:E; intros H; try discriminate.
  - apply checkout_refused in E. subst. auto.
  - injection H as <- <-. eauto.
Qed.
Lemma try_checkout_none e c s seeds : seeds <> [] -> try_checkout e c s seeds = NoRegion ->
  exists k s', checkout_region e c s k = CoRefused s'.
Proof.
  destruct seeds as [|k t]; [congruence|]. intros _. simpl.
  destruct (checkout_region e c s k) eqn:E; intros H; try discriminate. eauto.
Qed.

Lemma refused_active e c s k s' : env_ok (List.length (sourcecat s)) e ->
  checkout_region e c s k = CoRefused s' -> exists j rw, src s j = Some rw /\ is_active rw <> 0%Z.
Proof.
  intros He H. unfold checkout_region in H.
  repeat match type of H with match ?x with _ => _ end = _ => destruct x eqn:?; try discriminate end.
  match goal with E : get_circular_scene _ _ _ _ = Refused |- _ => apply circular_refused_iff in E; auto;
    destruct E as (j & rw & _ & K1 & K2); eauto end.
Qed.

Lemma checkin_all_history e c label draws tid ans s0 :
  answers_ok ans -> forall res rest evs s out s',
  history e c s0 evs s out -> Permutation out (map h_task (res ++ rest)) ->
  checkin_all c label draws tid ans s res = Some s' ->
  exists evs' out', history e c s0 (evs ++ evs') s' out' /\ Permutation out' (map h_task rest) /\
    (forall j, total_niter j evs' = draws * count_for j res)%Z /\
    all_labels evs' = map (fun _ => label tid) res.
Proof.
  intros Hans. induction res as [|h res IH]; intros rest evs s out s' Hh Hp H; simpl in H.
  - injection H as <-. exists [], out. rewrite app_nil_r. split; [exact Hh|]. split; [exact Hp|].
    split; [intros j; unfold count_for; simpl; lia|reflexivity].
  - destruct (checkin_region c s (final (ans h)) (Some (p_fixed (h_task h)))
                (mkArgs draws (covs (ans h)) None (Some (label tid)))) as [s2|] eqn:Ec; [|discriminate].
    assert (Hin : In (h_task h) out).
    { eapply Permutation_in; [symmetry; exact Hp|]. simpl; auto. }
    apply in_split in Hin as (o1 & o2 & ->).
    assert (Hh2 := h_in _ _ _ _ _ _ _ _ _ _ _ Hh (Hans h) Ec).
    assert (Hp2 : Permutation (o1 ++ o2) (map h_task (res ++ rest))).
    { apply (Permutation_cons_inv (a := h_task h)). rewrite Permutation_middle. exact Hp. }
    destruct (IH rest _ _ _ _ Hh2 Hp2 H) as (evs' & out' & K1 & K2 & K3 & K4).
    exists (EvIn (final (ans h)) (mkArgs draws (covs (ans h)) None (Some (label tid))) :: evs'), out'.
    rewrite <- app_assoc in K1. split; [exact K1|]. split; [exact K2|]. split.
    + intros j. cbn [total_niter niter]. rewrite K3, (Hans h). unfold count_for. cbn [filter].
      destruct (memZ (Z.of_nat j) (ids (p_active (h_task h)))); cbn [List.length]; lia.
    + cbn [all_labels taskID map]. now rewrite K4.
Qed.

Lemma count_for_app j a b : (count_for j (a ++ b) = count_for j a + count_for j b)%Z.
Proof. unfold count_for. rewrite filter_app, app_length. lia. Qed.

Section Loop.
Context (e : env) (c : config) (label : nat -> string) (draws : Z) (ans : handle patch -> answer)
        (n : nat) (cat : list row) (b : list bounds_row) (cv : list matrix).
Hypothesis He : env_ok (List.length cat) e.
Hypothesis Hans : answers_ok ans.
Hypothesis Hn : 1 <= n.
Let s0 := ingest cat b cv.

Record loop_inv (tr : list (nat * list (handle patch))) (st : parent) : Prop := {
  li_q : qok (pqueue st);
  li_n : n_children (pqueue st) = n;
  li_idle : idle (pqueue st) <> [];
  li_hist : exists evs out, history e c s0 evs (sceneDB st) out /\
      Permutation out (map h_task (irecv_handles (pqueue st))) /\
      (forall j, total_niter j evs = draws * count_for j (collected tr))%Z /\
      all_labels evs = concat (map (fun x => map (fun _ => label (fst x)) (snd x)) tr)
}.

(** The first half of a pass. *)
Lemma phase1_spec tr st seeds : loop_inv tr st -> seeds <> [] ->
  submit_phase e c st seeds <> Phase1QueueError /\
  (forall s1 q1 tid mode, submit_phase e c st seeds = Ready s1 q1 tid mode ->
     qok q1 /\ n_children q1 = n /\ irecv_handles q1 <> [] /\ (idle q1 = [] -> mode = Blocking) /\
     mode <> BlockAll /\
     exists evs out, history e c s0 evs s1 out /\
       Permutation out (map h_task (irecv_handles q1)) /\
       (forall j, total_niter j evs = draws * count_for j (collected tr))%Z /\
       all_labels evs = concat (map (fun x => map (fun _ => label (fst x)) (snd x)) tr)).
Proof.
  intros [Hq Hnn Hi (evs & out & Hh & Hp & Ht & Hl)] Hs. unfold submit_phase.
  destruct (try_checkout e c (sceneDB st) seeds) as [|s1 p|] eqn:Et.
  - split; [discriminate|]. intros s1 q1 tid mode [= <- <- <- <-].
    split; [exact Hq|]. split; [exact Hnn|]. split; [|split; [auto|split; [discriminate|eauto 7]]].
    destruct (try_checkout_none _ _ _ _ Hs Et) as (k & s' & Hk).
    destruct (balance_lemma _ _ _ _ _ _ _ _ He Hh) as (_ & _ & HL & Hb & _).
    apply refused_active in Hk as (j & rw & K1 & K2); [|now rewrite HL].
    destruct (Hb _ _ K1) as (_ & [Ha|Ha] & _ & Hact & _); [|congruence].
    apply Hact in Ha as (p & Hin & _). intros E. rewrite E in Hp. simpl in Hp.
    apply (Permutation_in _ Hp) in Hin. contradiction.
  - destruct (submit_spec (pqueue st) p (S (taskid st)) Hq) as [Hnone Hsome].
    destruct (submit (pqueue st) p (S (taskid st))) as [[q1 ch]|] eqn:Es.
    2:{ exfalso. apply Hi. now apply Hnone. }
    destruct (Hsome _ _ eq_refl) as (K1 & K2 & K3 & K4).
    destruct (sparse c s1) as [sp|]; (split; [discriminate|]); [|discriminate].
    intros s1' q1' tid mode [= <- <- <- <-]. split; [exact K1|]. split; [congruence|].
    split; [rewrite K3; destruct (irecv_handles (pqueue st)); discriminate|].
    split. { intros E. rewrite E. reflexivity. }
    split. { destruct (_ || _); discriminate. }
    apply try_checkout_region in Et as (k & Hk).
    exists (evs ++ [EvOut p]), (out ++ [p]). split; [eapply h_grant; eauto|].
    split. { rewrite K3, map_app. simpl. now apply Permutation_app_tail. }
    split. { intros j. rewrite total_niter_app. simpl. rewrite Ht. lia. }
    rewrite all_labels_app. simpl. now rewrite app_nil_r.
  - split; [discriminate|]. intros; discriminate.
Qed.

Lemma loop_step tr st seeds done s1 q1 tid mode st' results :
  loop_inv tr st -> seeds <> [] -> submit_phase e c st seeds = Ready s1 q1 tid mode ->
  mpi_reports q1 mode done -> loop_body e c label draws ans st seeds done = Next st' results ->
  loop_inv (tr ++ [(tid, results)]) st'.
Proof.
  intros Hinv Hs Hphase Hm Hb.
  destruct (phase1_spec _ _ _ Hinv Hs) as [_ Hsp].
  destruct (Hsp _ _ _ _ Hphase) as (Hq & Hnn & Hne & Hwait & Hnall & evs & out & Hh & Hp & Ht & Hl).
  unfold loop_body in Hb. rewrite Hphase in Hb.
  destruct (collect_spec q1 mode done Hq Hm Hne) as (q' & res & freed & K1 & K2 & K3 & K4 & K5 & K6 & K7).
  rewrite K1 in Hb. destruct (checkin_all c label draws tid ans s1 res) as [s'|] eqn:Ec; [|discriminate].
  injection Hb as <- <-.
  destruct (checkin_all_history e c label draws tid ans s0 Hans res (irecv_handles q') evs s1 out s') as
    (evs' & out' & L1 & L2 & L3 & L4); auto.
  { rewrite Hp. symmetry. now apply Permutation_map. }
  split; simpl.
  - exact K4.
  - congruence.
  - rewrite K5. destruct (idle q1) eqn:Ei; [|discriminate]. simpl.
    specialize (Hwait eq_refl). destruct Hm as (_ & _ & Hm). specialize (Hm Hwait Hne).
    unfold reported in K2. rewrite Hwait in K2. intros ->.
    apply Permutation_nil in K6. destruct done as [|i d]; [congruence|].
    unfold fancy_get in K2. simpl in K2. destruct (nth_error (irecv_handles q1) i); [|discriminate].
    destruct (mapM _ d); [|discriminate]. injection K2 as <-. discriminate.
  - exists (evs ++ evs'), out'. split; [exact L1|]. split; [exact L2|]. split.
    + intros j. unfold collected. rewrite total_niter_app, Ht, L3, map_app, concat_app, count_for_app. simpl.
      rewrite app_nil_r. unfold collected. lia.
    + rewrite all_labels_app, Hl, L4, map_app, concat_app. simpl. now rewrite app_nil_r.
Qed.

Lemma run_inv tr st : run e c label draws ans n s0 tr st -> loop_inv tr st.
Proof.
  intros H. induction H.
  - split; simpl.
    + split; simpl; auto. now rewrite app_nil_r.
    + reflexivity.
    + destruct n; [lia|]. discriminate.
    + exists [], []. split; [constructor|]. split; [constructor|]. split; [|reflexivity].
      intros j. unfold count_for. simpl. lia.
  - eapply loop_step; eauto.
Qed.

Lemma never_queue_error tr st seeds done :
  run e c label draws ans n s0 tr st -> seeds <> [] ->
  (forall s1 q1 tid mode, submit_phase e c st seeds = Ready s1 q1 tid mode -> mpi_reports q1 mode done) ->
  loop_body e c label draws ans st seeds done <> QueueError.
Proof.
  intros Hr Hs Hm. apply run_inv in Hr. destruct (phase1_spec _ _ _ Hr Hs) as [Hne Hsp].
  unfold loop_body. destruct (submit_phase e c st seeds) as [s1 q1 tid mode| |] eqn:E; try congruence.
  destruct (Hsp _ _ _ _ eq_refl) as (Hq & _ & Hh & _).
  destruct (collect_spec q1 mode done Hq (Hm _ _ _ _ eq_refl) Hh) as (q' & res & fr & K1 & _).
  rewrite K1. destruct (checkin_all _ _ _ _ _ _ _); discriminate.
Qed.

Lemma finish_spec tr st done : run e c label draws ans n s0 tr st ->
  exists st' results, finish st done = Some (st', results, seq 1 n) /\
    Permutation results (irecv_handles (pqueue st)) /\ sceneDB st' = sceneDB st /\
    irecv_handles (pqueue st') = [].
Proof.
  intros Hr. apply run_inv in Hr as [Hq Hnn _ _]. unfold finish.
  destruct (list_eq_nil_dec (irecv_handles (pqueue st))) as [E|E].
  - rewrite (collect_empty _ _ _ E). destruct (closeout_spec _ Hq) as [Hc _]. rewrite (Hc E), Hnn.
    do 2 eexists. split; [reflexivity|]. rewrite E. simpl. auto.
  - assert (Hcol : collect (pqueue st) BlockAll done = collect (pqueue st) BlockAll []).
    { unfold collect. reflexivity. }
    rewrite Hcol.
    destruct (collect_spec (pqueue st) BlockAll [] Hq) as (q' & res & fr & K1 & K2 & K3 & K4 & K5 & K6 & K7); auto.
    { split; [constructor|]. split; [contradiction|discriminate]. }
    rewrite K1. assert (Hall : res = irecv_handles (pqueue st)).
    { unfold reported in K2. clear -K2. revert K2. generalize (irecv_handles (pqueue st)). intros l H.
      assert (Hg : forall (l l0 : list (handle patch)), mapM (nth_error (l0 ++ l)) (seq (List.length l0) (List.length l)) = Some l).
      { clear. induction l as [|x l IH]; intros l0; simpl; auto.
        rewrite nth_error_app2, Nat.sub_diag by lia. simpl.
        specialize (IH (l0 ++ [x])). rewrite <- app_assoc, app_length, Nat.add_comm in IH. simpl in IH. now rewrite IH. }
      specialize (Hg l []). unfold fancy_get in H. simpl in Hg. congruence. }
    subst res. assert (E' : irecv_handles q' = []).
    { apply Permutation_length in K3. rewrite app_length in K3. destruct (irecv_handles q'); auto. simpl in K3. lia. }
    destruct (closeout_spec _ K4) as [Hc _]. rewrite (Hc E'), K7, Hnn.
    do 2 eexists. split; [reflexivity|]. simpl. auto.
Qed.
End Loop.
