From Verif Require Import Np NpFacts SuperSceneModel SuperSceneSpec SuperSceneFacts LinkedModel LinkedSpec LinkedGraph.
From Coq Require Import Relations Permutation Sorted Lqa.

(** * find_overlaps *)

Lemma overlap_flag_spec d radius r :
  (0 <= d)%Q -> (0 <= radius + r)%Q ->
  overlap_flag (metric d radius r) = true <-> (d < radius + r)%Q.
Proof.
  intros Hd Hr. unfold metric.
  destruct (Qeq_bool (radius + r) 0) eqn:E.
  - apply Qeq_bool_iff in E. simpl. split; [discriminate|]. intros H. rewrite E in H. lra.
  - apply Qeq_bool_neq in E. assert (Hp : (0 < radius + r)%Q) by lra. simpl.
    rewrite andb_true_iff, Qltb_lt, Qle_bool_iff.
    assert (Hdiv : (d / (radius + r) < 1 <-> d < radius + r)%Q).
    { split; intros H.
      - apply (Qmult_lt_r _ _ (radius + r) Hp) in H.
        assert (Ex : (d / (radius + r) * (radius + r) == d)%Q) by (field; lra). rewrite Ex in H. lra.
      - apply Qlt_shift_div_r; lra. }
    rewrite Hdiv. split; [tauto|]. intros H. split; auto. apply Qle_shift_div_l; lra.
Qed.

Section Overlaps.
Context (e : lenv) (lc : lconfig) (s : state).
Let n := List.length (sourcecat s).
Context (He : lenv_ok n e) (Hroi : roi_ok lc s).

Lemma rois_map ks : (forall k, In k ks -> k < n) -> mapM (roi_at lc s) ks = Some (map (roi_of lc s) ks).
Proof.
  intros H. induction ks as [|k ks IH]; simpl; auto.
  destruct (Hroi k) as (r & Hr & _); [apply H; simpl; auto|].
  rewrite IH by (intros; apply H; simpl; auto). unfold roi_of at 2. now rewrite Hr.
Qed.

Lemma combine_self_map {A B} (f : A -> B) l : combine l (map f l) = map (fun k => (k, f k)) l.
Proof. induction l; simpl; congruence. Qed.

Definition met (ctr : Q * Q) (radius : Q) (k : nat) : option Q :=
  metric (distance_to (le e) ctr k) radius (roi_of lc s k).
Definition keepf (ctr : Q * Q) (radius : Q) (seed : option nat) (k : nat) : bool :=
  overlap_flag (met ctr radius k) && match seed with Some i => negb (Nat.eqb k i) | None => true end.

Lemma find_overlaps_eq ctr radius seed sort :
  let inds := filter (keepf ctr radius seed) (query_ball (le e) ctr (radius + boundary_radius (base lc))%Q) in
  find_overlaps e lc s ctr radius seed sort =
  if sort then fancy_get inds (argsort (le e) (map (fun k => metric_value (met ctr radius k)) inds)) else Some inds.
Proof.
  intros inds. unfold find_overlaps.
  set (kinds := query_ball (le e) ctr (radius + boundary_radius (base lc))%Q) in *.
  assert (Hlt : forall k, In k kinds -> k < n).
  { intros k Hk. now apply (query_spec _ _ (lenv_base _ _ He)) in Hk. }
  rewrite (rois_map kinds Hlt). cbv zeta.
  rewrite combine_self_map, map_map. cbn [fst snd].
  change (map (fun x => metric (distance_to (le e) ctr x) radius (roi_of lc s x)) kinds)
    with (map (met ctr radius) kinds).
  rewrite combine_self_map.
  assert (Ef : forall ks, filter (fun km : nat * option Q => overlap_flag (snd km) &&
      match seed with Some i => negb (Nat.eqb (fst km) i) | None => true end)
      (map (fun k => (k, met ctr radius k)) ks) =
      map (fun k => (k, met ctr radius k)) (filter (keepf ctr radius seed) ks)).
  { induction ks as [|k ks IH]; simpl; auto. unfold keepf at 1. rewrite IH.
    destruct (overlap_flag (met ctr radius k) && _); reflexivity. }
  rewrite Ef. fold inds. rewrite !map_map. cbn [fst snd]. rewrite map_id. reflexivity.
Qed.

Lemma keepf_In ctr radius seed k : (0 <= radius)%Q -> k < n ->
  keepf ctr radius seed k = true <->
  (distance_to (le e) ctr k < radius + roi_of lc s k)%Q /\ seed <> Some k.
Proof.
  intros Hr Hk. unfold keepf. rewrite andb_true_iff. unfold met.
  destruct (Hroi k Hk) as (r & Er & Hrp).
  assert (Hro : (0 <= roi_of lc s k)%Q) by (unfold roi_of; now rewrite Er).
  rewrite overlap_flag_spec; [|apply (dist_nonneg _ _ He)|lra].
  destruct seed as [i|].
  - rewrite negb_true_iff, Nat.eqb_neq. split; intros [H1 H2]; split; auto; congruence.
  - split; intros [H1 _]; split; auto. discriminate.
Qed.

Lemma find_overlaps_spec ctr radius seed sort : (0 <= radius)%Q ->
  exists r, find_overlaps e lc s ctr radius seed sort = Some r /\ NoDup r /\
    (forall k, In k r <-> k < n /\ (distance_to (le e) ctr k <= radius + boundary_radius (base lc))%Q /\
        (distance_to (le e) ctr k < radius + roi_of lc s k)%Q /\ seed <> Some k) /\
    (sort = true -> StronglySorted (fun i j => metric_value (met ctr radius i) <= metric_value (met ctr radius j))%Q r).
Proof.
  intros Hr. rewrite find_overlaps_eq. cbv zeta.
  set (kinds := query_ball (le e) ctr (radius + boundary_radius (base lc))%Q).
  set (inds := filter (keepf ctr radius seed) kinds).
  assert (Hin : forall k, In k inds <-> k < n /\ (distance_to (le e) ctr k <= radius + boundary_radius (base lc))%Q /\
        (distance_to (le e) ctr k < radius + roi_of lc s k)%Q /\ seed <> Some k).
  { intros k. unfold inds. rewrite filter_In. unfold kinds. rewrite (query_spec _ _ (lenv_base _ _ He)).
    split.
    - intros [[H1 H2] H3]. apply keepf_In in H3; [tauto|exact Hr|exact H1].
    - intros (H1 & H2 & H3). split; auto. apply keepf_In; auto. }
  assert (Hnd : NoDup inds) by (apply NoDup_filter, (query_nodup _ _ (lenv_base _ _ He))).
  destruct sort; [|exists inds; split; [auto|split; [auto|split; [auto|discriminate]]]].
  set (ms := map (fun k => metric_value (met ctr radius k)) inds).
  pose proof (argsort_perm _ _ (lenv_base _ _ He) ms) as Hp.
  pose proof (argsort_sorted _ _ (lenv_base _ _ He) ms) as Hs.
  assert (Hlm : List.length ms = List.length inds) by apply map_length. rewrite Hlm in Hp.
  assert (Hlt : forall i, In i (argsort (le e) ms) -> i < List.length inds).
  { intros i Hi. apply (Permutation_in _ Hp) in Hi. apply in_seq in Hi. lia. }
  rewrite (fancy_get_map 0) by exact Hlt. eexists. split; [reflexivity|].
  assert (HP : Permutation (map (fun i => nth i inds 0) (argsort (le e) ms)) inds).
  { eapply perm_trans; [apply Permutation_map; exact Hp|]. now rewrite map_nth_seq. }
  split; [|split].
  - eapply Permutation_NoDup; [symmetry; exact HP|auto].
  - intros k. rewrite <- Hin. split; intros H; [exact (Permutation_in _ HP H)|exact (Permutation_in _ (Permutation_sym HP) H)].
  - intros _. clear HP Hp.
    revert Hs Hlt. generalize (argsort (le e) ms) as o. intros o.
    induction 1 as [|i o Hs IH Hf]; intros Hlt; simpl; constructor.
    + apply IH. intros; apply Hlt; simpl; auto.
    + apply Forall_forall. intros y Hy. apply in_map_iff in Hy as (j & <- & Hj).
      rewrite Forall_forall in Hf. specialize (Hf j Hj).
      unfold ms in Hf.
      rewrite !(nth_map_lt (fun k => metric_value (met ctr radius k)) inds _ 0 0%Q) in Hf
        by (apply Hlt; simpl; auto). exact Hf.
Qed.

(** * grow_source *)

Lemma source_overlaps_spec i : i < n ->
  exists l, source_overlaps e lc s i = Some l /\ NoDup l /\ forall j, In j l <-> sees e lc s i j.
Proof.
  intros Hi. unfold source_overlaps. destruct (Hroi i Hi) as (r & Hr & Hrp). rewrite Hr.
  assert (Ero : roi_of lc s i = r) by (unfold roi_of; now rewrite Hr).
  destruct (find_overlaps_spec (coord e i) r (Some i) false Hrp) as (l & Hl & Hnd & Hin & _).
  exists l. split; auto. split; auto. intros j. rewrite Hin. unfold sees, touch. rewrite Ero.
  fold n. split.
  - intros (H1 & H2 & H3 & H4). assert (i <> j) by congruence. auto.
  - intros ((H1 & H2 & H3 & H4) & H5). repeat split; auto. congruence.
Qed.

Lemma edge_sees i j : i < n -> edge (source_overlaps e lc s) i j <-> sees e lc s i j.
Proof.
  intros Hi. destruct (source_overlaps_spec i Hi) as (l & Hl & _ & Hin). unfold edge. rewrite <- Hin. split.
  - intros (l' & Hl' & Hj). congruence.
  - eauto.
Qed.

Lemma Hov' : forall i, i < n -> exists l, source_overlaps e lc s i = Some l /\ NoDup l /\ forall t, In t l -> t < n.
Proof.
  intros i Hi. destruct (source_overlaps_spec i Hi) as (l & Hl & Hnd & Hin). exists l. split; auto. split; auto.
  intros t Ht. apply Hin in Ht as ((_ & _ & H & _) & _). exact H.
Qed.

Lemma reach_chain i j : i < n -> reach (source_overlaps e lc s) i j <-> chain_seen e lc s i j.
Proof.
  intros Hi. split; intros H.
  - apply clos_rt_rt1n in H. apply clos_rt1n_rt. revert Hi. induction H; intros Hi; [constructor|].
    econstructor; [apply edge_sees; eauto|]. apply IHclos_refl_trans_1n. eapply edge_lt; eauto. apply Hov'.
  - apply clos_rt_rt1n in H. apply clos_rt1n_rt. revert Hi. induction H; intros Hi; [constructor|].
    econstructor; [apply edge_sees; eauto|]. apply IHclos_refl_trans_1n. now destruct H as ((_ & _ & ? & _) & _).
Qed.

Lemma grow_source_spec i : i < n ->
  exists res, grow_source e lc s i = Some res /\ NoDup res /\
    (exists rest, res = i :: rest) /\ (forall x, In x res <-> chain_seen e lc s i x).
Proof.
  intros Hi. destruct (grow_spec n (source_overlaps e lc s) Hov' i Hi) as (res & H1 & H2 & H3 & H4).
  exists res. split; [exact H1|]. split; auto. split; auto.
  intros x. rewrite H4. now apply reach_chain.
Qed.

Lemma chain_seen_lt i j : i < n -> chain_seen e lc s i j -> j < n.
Proof.
  intros Hi H. apply (reach_chain i j Hi) in H.
  eapply (reach_lt n (source_overlaps e lc s) Hov'); eauto.
Qed.

Context (Hsmall : small_roi lc s).

Lemma touch_sees i j : touch e lc s i j <-> sees e lc s i j.
Proof.
  unfold sees. split; [|tauto]. intros H. split; auto.
  destruct H as (_ & _ & Hj & Hd). specialize (Hsmall j Hj). lra.
Qed.
Lemma touch_sym i j : touch e lc s i j -> touch e lc s j i.
Proof.
  intros (H1 & H2 & H3 & H4). split; [auto|]. split; [auto|]. split; [auto|].
  rewrite <- (dist_sym _ _ He i j H2 H3). lra.
Qed.
Lemma chain_linked i j : chain_seen e lc s i j <-> linked e lc s i j.
Proof.
  split; intros H.
  - induction H; [apply rt_step; now apply touch_sees|apply rt_refl|eapply rt_trans; eauto].
  - induction H; [apply rt_step; now apply touch_sees|apply rt_refl|eapply rt_trans; eauto].
Qed.
Lemma linked_sym i j : linked e lc s i j -> linked e lc s j i.
Proof.
  intros H. induction H; [apply rt_step; now apply touch_sym|apply rt_refl|eapply rt_trans; eauto].
Qed.

Lemma grow_source_linked i : i < n ->
  exists res, grow_source e lc s i = Some res /\ NoDup res /\
    (exists rest, res = i :: rest) /\ (forall x, In x res <-> linked e lc s i x).
Proof.
  intros Hi. destruct (grow_source_spec i Hi) as (res & H1 & H2 & H3 & H4).
  exists res. split; auto. split; auto. split; auto. intros x. rewrite H4. apply chain_linked.
Qed.

Lemma group_catalog_lemma :
  exists g G, make_group_catalog e lc s = Some g /\ List.length g = n /\
    (forall i j, i < n -> j < n -> (nth i g (-1)%Z = nth j g (-1)%Z <-> linked e lc s i j)) /\
    (forall z, (0 <= z < G)%Z <-> exists i, i < n /\ nth i g (-1)%Z = z).
Proof.
  apply (groups_spec n (grow_source e lc s) (linked e lc s)).
  - intros; apply rt_refl.
  - apply linked_sym.
  - intros; eapply rt_trans; eauto.
  - intros i Hi. destruct (grow_source_linked i Hi) as (l & H1 & H2 & _ & H4). eauto.
  - intros i j Hi Hij. eapply chain_seen_lt; eauto. now apply chain_linked.
Qed.
End Overlaps.

(** * The greedy loop *)
Section Greedy.
Context (grow : nat -> option (list nat)) (maxact : nat) (strict : bool).

(** Without any assumption on the links: never more than the permitted number. *)
Lemma greedy_length cands : forall active res,
  greedy grow maxact strict cands active = Some res -> List.length active <= maxact ->
  List.length res <= maxact /\ exists rest, res = active ++ rest.
Proof.
  induction cands as [|c cands IH]; intros active res H Hl; simpl in H.
  - injection H as <-. split; auto. exists []. now rewrite app_nil_r.
  - destruct (memn c active); [now apply IH|].
    destruct (grow c) as [to_add|]; [|discriminate].
    destruct (Nat.ltb_spec (maxact - List.length active) (List.length to_add)).
    + injection H as <-. destruct (negb strict || _).
      * split; [|eexists; reflexivity]. rewrite app_length, firstn_length. lia.
      * split; auto. exists []. now rewrite app_nil_r.
    + destruct (IH _ _ H) as (IH1 & rest & IH2).
      * rewrite app_length. lia.
      * split; auto. exists (to_add ++ rest). now rewrite IH2, <- app_assoc.
Qed.

Context (n : nat) (E : nat -> nat -> Prop).
Context (Erefl : forall i, E i i) (Esym : forall i j, E i j -> E j i)
        (Etrans : forall i j k, E i j -> E j k -> E i k).
Context (Hgrow : forall i, i < n -> exists l, grow i = Some l /\ NoDup l /\
           (exists rest, l = i :: rest) /\ forall x, In x l <-> E i x).

Definition closed (l : list nat) : Prop := forall i j, In i l -> E i j -> In j l.

Lemma greedy_spec cands : forall active,
  (forall c, In c cands -> c < n) -> NoDup active -> closed active -> List.length active <= maxact ->
  exists res, greedy grow maxact strict cands active = Some res /\ NoDup res /\
    (forall x, In x res -> In x active \/ exists c, In c cands /\ E c x) /\
    (closed res /\ (forall c, In c cands -> In c res \/ exists act' to_add c', closed act' /\ incl act' res /\ In c' cands /\
         grow c' = Some to_add /\ maxact < List.length act' + List.length to_add)
     \/ exists act' c to_add, In c cands /\ ~ In c act' /\ grow c = Some to_add /\ closed act' /\
          maxact < List.length act' + List.length to_add /\
          res = act' ++ firstn (maxact - List.length act') to_add /\
          (strict = true -> act' = [] /\ active = [] /\ exists t, cands = c :: t)).
Proof.
  induction cands as [|c cands IH]; intros active Hlt Hnd Hcl Hl; simpl.
  - exists active. split; auto. split; auto. split; [auto|]. left. split; auto. contradiction.
  - destruct (memn c active) eqn:Em.
    + apply memn_In in Em. destruct (IH active) as (res & H1 & H2 & H3 & H4); auto.
      { intros; apply Hlt; simpl; auto. }
      destruct (greedy_length _ _ _ H1 Hl) as (_ & rest & Hrest).
      exists res. split; auto. split; auto. split.
      { intros x Hx. destruct (H3 x Hx) as [|(c' & Hc' & He)]; [left; assumption|]. right. exists c'. simpl; auto. }
      destruct H4 as [[H4 H4']|(a' & c' & ta & Q1 & Q2 & Q3 & Q4 & Q5 & Q6 & Q7)].
      * left. split; auto. intros x [<-|Hx].
        -- left. rewrite Hrest. apply in_or_app; auto.
        -- destruct (H4' x Hx) as [|(a' & ta & c' & R1 & R2 & R3 & R4)]; auto.
           right. exists a', ta, c'. split; [auto|split; [auto|split; [simpl; auto|auto]]].
      * right. exists a', c', ta. split; [simpl; auto|]. split; [auto|split; [auto|split; [auto|split; [auto|split; [auto|]]]]].
        intros Hst. destruct (Q7 Hst) as (-> & -> & _). contradiction.
    + apply memn_nIn in Em. destruct (Hgrow c) as (l & G1 & G2 & (grest & G3) & G4); [apply Hlt; simpl; auto|].
      rewrite G1. destruct (Nat.ltb_spec (maxact - List.length active) (List.length l)) as [Hlt'|Hge].
      * assert (Hdis : forall x, In x active -> ~ In x l).
        { intros x Hx Hx'. apply Em. eapply Hcl; eauto. apply Esym. now apply G4. }
        destruct (negb strict || (List.length active =? 0)) eqn:Eb.
        -- eexists. split; [reflexivity|]. split.
           { apply NoDup_app_iff. split; auto. split; [now apply NoDup_firstn|].
             intros x Hx Hx'. apply firstn_In in Hx'. eapply Hdis; eauto. }
           split.
           { intros x Hx. apply in_app_or in Hx as [|Hx]; auto. right. exists c. split; [auto|].
             apply G4. eapply firstn_In; eauto. }
           right. exists active, c, l. split; [auto|]. split; auto. split; auto. split; auto. split; [lia|].
           split; auto. intros ->. simpl in Eb. apply Nat.eqb_eq in Eb.
           assert (active = []) by (destruct active; [auto|discriminate]). eauto.
        -- exists active. split; auto. split; auto. split; [auto|]. left. split; auto.
           intros x Hx. right. exists active, l, c. split; auto. split; [apply incl_refl|].
           split; [auto|]. split; auto. lia.
      * destruct (IH (active ++ l)) as (res & H1 & H2 & H3 & H4).
        { intros; apply Hlt; simpl; auto. }
        { apply NoDup_app_iff. split; auto. split; auto. intros x Hx Hx'.
          apply Em. eapply Hcl; eauto. apply Esym. now apply G4. }
        { intros i j Hi He. apply in_or_app. apply in_app_or in Hi as [Hi|Hi].
          - left. eapply Hcl; eauto.
          - right. apply G4. apply G4 in Hi. eauto. }
        { rewrite app_length. lia. }
        assert (HL2 : List.length (active ++ l) <= maxact) by (rewrite app_length; lia).
        destruct (greedy_length _ _ _ H1 HL2) as (_ & rest & Hrest).
        exists res. split; auto. split; auto. split.
        { intros x Hx. destruct (H3 x Hx) as [Hx'|(c' & Hc' & He)].
          - apply in_app_or in Hx' as [|Hx']; auto. right. exists c. split; auto. now apply G4.
          - right. eauto. }
        destruct H4 as [[H4 H4']|(a' & c' & ta & Q1 & Q2 & Q3 & Q4 & Q5 & Q6 & Q7)].
        -- left. split; auto. intros x [<-|Hx].
           ++ left. rewrite Hrest, <- app_assoc. apply in_or_app. right. apply in_or_app. left. apply G4. auto.
           ++ destruct (H4' x Hx) as [|(a' & ta & c' & R1 & R2 & R3 & R4)]; auto.
              right. exists a', ta, c'. auto.
        -- right. exists a', c', ta. split; [auto|]. split; [auto|split; [auto|split; [auto|split; [auto|split; [auto|]]]]].
           intros Hst. destruct (Q7 Hst) as (_ & Hn & _). subst l. destruct active; discriminate.
Qed.
End Greedy.
