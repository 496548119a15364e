(** Properties C08-C11: the friends-of-friends scene server. *)
From Verif Require Import Np NpFacts SuperSceneModel SuperSceneSpec SuperSceneFacts SuperSceneExamples
     LinkedModel LinkedSpec LinkedFacts LinkedScene LinkedHist LinkedExamples.
From Coq Require Import Relations Qabs Lqa.
Open Scope nat_scope.

(** * C08 *)

(** Growing a source always terminates (the result is never the out-of-fuel
    value) and gives, without repeats and starting with the source, exactly
    what is reachable through the overlap search. *)
Theorem C08_growth_is_reachable_set : forall e lc s i,
  lenv_ok (List.length (sourcecat s)) e -> roi_ok lc s -> i < List.length (sourcecat s) ->
  exists res, grow_source e lc s i = Some res /\ NoDup res /\ (exists rest, res = i :: rest) /\
    forall x, In x res <-> chain_seen e lc s i x.
Proof. intros e lc s i He Hr Hi. exact (grow_source_spec e lc s He Hr i Hi). Qed.
Print Assumptions C08_growth_is_reachable_set.

(** When no radius of influence exceeds the boundary radius this is exactly the
    set of sources linked by a chain of overlapping regions of influence. *)
Theorem C08_growth_is_linked_set : forall e lc s i,
  lenv_ok (List.length (sourcecat s)) e -> roi_ok lc s -> small_roi lc s -> i < List.length (sourcecat s) ->
  exists res, grow_source e lc s i = Some res /\ NoDup res /\ (exists rest, res = i :: rest) /\
    forall x, In x res <-> linked e lc s i x.
Proof. intros e lc s i He Hr Hs Hi. exact (grow_source_linked e lc s He Hr Hs i Hi). Qed.
Print Assumptions C08_growth_is_linked_set.

(** ... and not otherwise: two overlapping sources that do not see each other. *)
Theorem C08_wide_radii_refuted : exists e lc s i j,
  lenv_ok (List.length (sourcecat s)) e /\ roi_ok lc s /\ touch e lc s i j /\
  exists res, grow_source e lc s i = Some res /\ ~ In j res.
Proof.
  exists wide_e, wide_c, (lstart wide), 0, 1.
  split; [exact (line_lenv_ok (map fst wide))|]. split; [exact wide_roi|]. split; [exact wide_touch|].
  exists [0]. split; [vm_compute; reflexivity|]. simpl. lia.
Qed.
Print Assumptions C08_wide_radii_refuted.

Example C08_case :
  lenv_ok (List.length (sourcecat (lstart good))) good_e /\ roi_ok good_c (lstart good) /\
  small_roi good_c (lstart good) /\ grow_source good_e good_c (lstart good) 3 = Some [3; 2].
Proof.
  split; [exact (line_lenv_ok (map fst good))|]. split; [exact good_roi|]. split; [exact good_small|].
  vm_compute. reflexivity.
Qed.

(** * C09 *)

(** With radii inside the boundary radius: the group numbers are exactly
    0..G-1 and two sources share a number exactly when they are linked. *)
Theorem C09_group_catalog_partial : forall e lc s,
  lenv_ok (List.length (sourcecat s)) e -> roi_ok lc s -> small_roi lc s ->
  exists g G, make_group_catalog e lc s = Some g /\ List.length g = List.length (sourcecat s) /\
    (forall i j, i < List.length (sourcecat s) -> j < List.length (sourcecat s) ->
       (nth i g (-1)%Z = nth j g (-1)%Z <-> linked e lc s i j)) /\
    (forall z, (0 <= z < G)%Z <-> exists i, i < List.length (sourcecat s) /\ nth i g (-1)%Z = z).
Proof. intros e lc s He Hr Hs. exact (group_catalog_lemma e lc s He Hr Hs). Qed.
Print Assumptions C09_group_catalog_partial.

(** For wider radii both clauses fail. *)
Theorem C09_group_catalog_refuted :
  (exists e lc s i j g, lenv_ok (List.length (sourcecat s)) e /\ roi_ok lc s /\
     make_group_catalog e lc s = Some g /\ touch e lc s i j /\ nth i g (-1)%Z <> nth j g (-1)%Z) /\
  (exists e lc s g, lenv_ok (List.length (sourcecat s)) e /\ roi_ok lc s /\
     make_group_catalog e lc s = Some g /\ In 1%Z g /\ ~ In 0%Z g).
Proof.
  split.
  - exists wide_e, wide_c, (lstart wide), 0, 1. eexists.
    split; [exact (line_lenv_ok (map fst wide))|]. split; [exact wide_roi|].
    split; [vm_compute; reflexivity|]. split; [exact wide_touch|]. simpl. lia.
  - exists oneway_e, oneway_c, (lstart oneway). eexists.
    split; [exact (line_lenv_ok (map fst oneway))|]. split; [exact oneway_roi|].
    split; [vm_compute; reflexivity|]. simpl. split; [auto|]. lia.
Qed.
Print Assumptions C09_group_catalog_refuted.

Example C09_case : make_group_catalog good_e good_c (lstart good) = Some [0; 0; 1; 1; 2]%Z.
Proof. vm_compute. reflexivity. Qed.

(** * C10 *)

Definition numbered (s : state) : Prop := forall j rw, src s j = Some rw -> source_index rw = Z.of_nat j.

(** Size, fixed sources and region, for any radii.  [max_fixed] defaults to the
    number of permitted active sources. *)
Theorem C10_linked_patch_shape : forall e lc s k mf s' p,
  lenv_ok (List.length (sourcecat s)) e -> roi_ok lc s -> numbered s ->
  (0 <= boundary_radius (base lc))%Q -> (0 <= minradius (base lc))%Q ->
  lcheckout_region e lc s k mf = LCoGranted s' p ->
  1 <= List.length (lp_active p) <= maxactive (base lc) /\
  (forall x, In x (ids (lfixed_rows p)) -> ~ In x (ids (lp_active p))) /\
  NoDup (ids (lfixed_rows p)) /\
  List.length (lfixed_rows p) <= (match mf with Some m => m | None => maxactive (base lc) end) /\
  (minradius (base lc) <= 3600 * snd (lp_region p))%Q /\
  (forall j, In (Z.of_nat j) (ids (lp_active p)) ->
     (distance_to (le e) (sky_to_scene (le e) (fst (fst (lp_region p))) (snd (fst (lp_region p)))) j
        + roi_of lc s j + buffer lc <= 3600 * snd (lp_region p))%Q) /\
  (forall j, In (Z.of_nat j) (ids (lfixed_rows p)) ->
     (distance_to (le e) (sky_to_scene (le e) (fst (fst (lp_region p))) (snd (fst (lp_region p)))) j
        < (12#10) * (3600 * snd (lp_region p)) + roi_of lc s j)%Q).
Proof.
  intros e lc s k mf s' p He Hr Hnum HB HM H.
  apply lcheckout_inv in H as (cra & cdec & r & ai & fi & Hgs & Hrow & HLen & Hreg & Ha & Hf & _).
  assert (Hidx' : forall j rw, src s' j = Some rw -> source_index rw = Z.of_nat j).
  { intros j rw Hj. rewrite Hrow in Hj. destruct (src s j) as [rw0|] eqn:E; [|discriminate].
    injection Hj as <-. simpl. auto. }
  pose proof (SuperSceneHist.fetched_ids _ _ _ Hidx' Ha) as Hia.
  pose proof (SuperSceneHist.fetched_ids _ _ _ Hnum Hf) as Hif.
  assert (Hla : List.length (lp_active p) = List.length ai).
  { apply (f_equal (@List.length _)) in Hia. unfold ids in Hia. now rewrite !map_length in Hia. }
  assert (Hlf : List.length (lfixed_rows p) = List.length fi).
  { apply (f_equal (@List.length _)) in Hif. unfold ids in Hif. now rewrite !map_length in Hif. }
  destruct (scene_radius e lc s Hr k mf cra cdec r ai fi Hgs) as [R1 R2].
  destruct (scene_fixed e lc s He Hr HM k mf cra cdec r ai fi Hgs) as (F1 & F2 & F3 & _).
  rewrite Hla, Hlf, Hia, Hif, Hreg. cbn [fst snd].
  assert (E36 : (3600 * (r / 3600) == r)%Q) by (field).
  split; [exact (scene_length e lc s k mf cra cdec r ai fi Hgs)|]. split.
  { intros x Hx Hx'. apply in_map_iff in Hx as (j & <- & Hj). apply in_map_iff in Hx' as (j' & E & Hj').
    apply Nat2Z.inj in E. subst. now apply F2 in Hj as (_ & ? & _). }
  split; [now apply SuperSceneHist.NoDup_map_of_nat|]. split; [exact F3|].
  split; [rewrite E36; exact R1|]. split.
  - intros j Hj. apply in_map_iff in Hj as (j' & E & Hj). apply Nat2Z.inj in E. subst. rewrite E36. now apply R2.
  - intros j Hj. apply in_map_iff in Hj as (j' & E & Hj). apply Nat2Z.inj in E. subst. rewrite E36. now apply F2.
Qed.
Print Assumptions C10_linked_patch_shape.

(** The clauses about groups, for radii inside the boundary radius: no repeats;
    the seed's whole group is included if it fits (and the seed has a positive
    radius); groups are taken whole except for one last group that is cut at the
    limit, which in strict mode only happens to the very first group. *)
Theorem C10_linked_patch_groups_partial : forall e lc s k mf s' p,
  lenv_ok (List.length (sourcecat s)) e -> roi_ok lc s -> numbered s -> small_roi lc s ->
  (0 <= boundary_radius (base lc))%Q ->
  lcheckout_region e lc s k mf = LCoGranted s' p ->
  exists ai, ids (lp_active p) = map Z.of_nat ai /\ NoDup ai /\
    (forall group, (0 < roi_of lc s k)%Q -> NoDup group -> (forall x, In x group <-> linked e lc s k x) ->
       List.length group <= maxactive (base lc) -> incl group ai) /\
    ((forall i j, In i ai -> linked e lc s i j -> In j ai) \/
     exists before c group,
       ai = before ++ firstn (maxactive (base lc) - List.length before) group /\
       (forall i j, In i before -> linked e lc s i j -> In j before) /\
       NoDup group /\ (forall x, In x group <-> linked e lc s c x) /\
       maxactive (base lc) < List.length before + List.length group /\
       (strict lc = true -> before = [])).
Proof.
  intros e lc s k mf s' p He Hr Hnum Hsm HB H.
  apply lcheckout_inv in H as (cra & cdec & r & ai & fi & Hgs & Hrow & HLen & Hreg & Ha & Hf & _).
  assert (Hidx' : forall j rw, src s' j = Some rw -> source_index rw = Z.of_nat j).
  { intros j rw Hj. rewrite Hrow in Hj. destruct (src s j) as [rw0|] eqn:E; [|discriminate].
    injection Hj as <-. simpl. auto. }
  exists ai. split; [exact (SuperSceneHist.fetched_ids _ _ _ Hidx' Ha)|].
  destruct (scene_groups e lc s He Hr k mf cra cdec r ai fi Hgs Hsm) as [G1 G2].
  split; auto. split; [|exact G2].
  intros group. exact (scene_has_seed e lc s He Hr HB k mf cra cdec r ai fi Hgs Hsm group).
Qed.
Print Assumptions C10_linked_patch_groups_partial.

(** Without the restriction on the radii the active list can contain a source twice. *)
Theorem C10_active_repeats_refuted : exists e lc s k s' p,
  lenv_ok (List.length (sourcecat s)) e /\ roi_ok lc s /\ numbered s /\
  lcheckout_region e lc s k None = LCoGranted s' p /\ ~ NoDup (ids (lp_active p)).
Proof.
  exists oneway_e, oneway_c, (lstart oneway), 0. eexists. eexists.
  split; [exact (line_lenv_ok (map fst oneway))|]. split; [exact oneway_roi|]. split.
  { exact (proj2 (lhistory_numbered oneway_e oneway_c _ _ _ [] _ [] (lh_start _ _ (lstart oneway)))). }
  split; [vm_compute; reflexivity|].
  cbn. intros H. inversion H. simpl in *. tauto.
Qed.
Print Assumptions C10_active_repeats_refuted.

Example C10_case :
  lenv_ok (List.length (sourcecat (lstart good))) good_e /\ roi_ok good_c (lstart good) /\
  numbered (lstart good) /\ small_roi good_c (lstart good) /\
  lcheckout_region good_e good_c (lstart good) 0 None = LCoGranted good_s1 good_p1 /\
  ids (lp_active good_p1) = [0; 1]%Z.
Proof.
  split; [exact (line_lenv_ok (map fst good))|]. split; [exact good_roi|]. split.
  { exact (proj2 (lhistory_numbered good_e good_c _ _ _ [] _ [] (lh_start _ _ (lstart good)))). }
  split; [exact good_small|]. split; vm_compute; reflexivity.
Qed.

(** * C11 *)

(** A source can be active in two outstanding patches: with a group larger than
    a patch, and, when the radii follow the catalog, even if all groups fit at
    the start. *)
Theorem C11_exclusive_linked_checkout_refuted :
  (exists e lc cat b covs evs s p q,
    lenv_ok (List.length cat) e /\ roi_ok lc (ingest cat b covs) /\ small_roi lc (ingest cat b covs) /\
    strict lc = true /\ roi lc <> None /\
    lhistory e lc (ingest cat b covs) evs s [p; q] /\
    exists x, In x (ids (lp_active p)) /\ In x (ids (lp_active q))) /\
  (exists e lc cat b covs evs s p q,
    lenv_ok (List.length cat) e /\ roi_ok lc (ingest cat b covs) /\ small_roi lc (ingest cat b covs) /\
    strict lc = true /\ (exists g, make_group_catalog e lc (ingest cat b covs) = Some g /\
       forall z, List.length (filter (Z.eqb z) g) <= maxactive (base lc)) /\
    lhistory e lc (ingest cat b covs) evs s [p; q] /\
    exists x, In x (ids (lp_active p)) /\ In x (ids (lp_active q))).
Proof.
  split.
  - exists long_e, long_c, (lcat long), (map (fun _ => []) long), (map (fun _ => []) long).
    eexists. eexists. exists long_p1, long_p2.
    split; [exact (line_lenv_ok (map fst long))|]. split.
    { intros k Hk. do 10 (destruct k as [|k]; [eexists; split; [reflexivity|discriminate]|]). simpl in Hk; lia. }
    split.
    { intros k Hk. do 10 (destruct k as [|k]; [discriminate|]). simpl in Hk; lia. }
    split; [reflexivity|]. split; [discriminate|]. split; [exact long_history|].
    exists 4%Z. destruct long_ids as [-> ->]. simpl. lia.
  - exists live_e, live_c, (lcat live), (map (fun _ => []) live), (map (fun _ => []) live).
    eexists. eexists. exists live_p2, live_p3.
    split; [exact (line_lenv_ok (map fst live))|]. split.
    { intros k Hk. do 5 (destruct k as [|k]; [eexists; split; [reflexivity|discriminate]|]). simpl in Hk; lia. }
    split.
    { intros k Hk. do 5 (destruct k as [|k]; [discriminate|]). simpl in Hk; lia. }
    split; [reflexivity|]. split.
    { exists [0; 1; 1; 1; 2]%Z. split; [vm_compute; reflexivity|]. intros z. cbn [filter].
      destruct (Z.eqb_spec z 0), (Z.eqb_spec z 1), (Z.eqb_spec z 2); subst; simpl; lia. }
    split; [exact live_history|].
    exists 0%Z. destruct live_ids as (_ & -> & ->). simpl. lia.
Qed.
Print Assumptions C11_exclusive_linked_checkout_refuted.

(** What holds: in strict mode, with a supplied array of radii of influence none
    of which exceeds the boundary radius, and every linked group small enough
    for a patch, over all histories: exclusive checkout, a refused checkout
    changes nothing, and the active marks and count are exact. *)
Theorem C11_exclusive_linked_checkout_partial : forall e lc cat b covs,
  lenv_ok (List.length cat) e -> roi lc <> None ->
  roi_ok lc (ingest cat b covs) -> small_roi lc (ingest cat b covs) ->
  (0 <= minradius (base lc))%Q -> strict lc = true ->
  (forall i group, i < List.length cat -> NoDup group ->
     (forall x, In x group -> linked e lc (ingest cat b covs) i x) ->
     List.length group <= maxactive (base lc)) ->
  forall evs s out, lhistory e lc (ingest cat b covs) evs s out ->
  (forall p, In p out -> NoDup (ids (lp_active p))) /\
  (forall i j p q, i <> j -> nth_error out i = Some p -> nth_error out j = Some q ->
     forall x, In x (ids (lp_active p)) -> ~ In x (ids (lp_active q))) /\
  (forall k mf s', lcheckout_region e lc s k mf = LCoRefused s' -> s' = s) /\
  n_active s = Z.of_nat (List.length (lall_active out)) /\
  (forall j rw, src s j = Some rw -> source_index rw = Z.of_nat j /\
     (is_active rw = 1%Z <-> exists p, In p out /\ In (Z.of_nat j) (ids (lp_active p))) /\
     (is_active rw = 1 \/ is_active rw = 0)%Z).
Proof.
  intros e lc cat b covs He Hf Hr Hs HM Hst Hfit evs s out H.
  exact (lexclusive_lemma e lc cat b covs He Hf Hr Hs HM Hst Hfit evs s out H).
Qed.
Print Assumptions C11_exclusive_linked_checkout_partial.

Example C11_case :
  lenv_ok (List.length (lcat good)) good_e /\ roi good_c <> None /\
  roi_ok good_c (lstart good) /\ small_roi good_c (lstart good) /\ (0 <= minradius (base good_c))%Q /\
  strict good_c = true /\
  (forall i group, i < List.length (lcat good) -> NoDup group ->
     (forall x, In x group -> linked good_e good_c (lstart good) i x) ->
     List.length group <= maxactive (base good_c)) /\
  lhistory good_e good_c (lstart good) [LEvOut good_p1; LEvOut good_p2; LEvRefused] good_s2 [good_p1; good_p2] /\
  ids (lp_active good_p1) = [0; 1]%Z /\ ids (lp_active good_p2) = [2; 3]%Z.
Proof.
  split; [exact (line_lenv_ok (map fst good))|]. split; [discriminate|]. split; [exact good_roi|].
  split; [exact good_small|]. split; [discriminate|]. split; [reflexivity|]. split; [exact good_fit|].
  split; [exact good_history|]. split; reflexivity.
Qed.
