(** Properties C01-C06 of the circular scene server. *)
From Verif Require Import Np NpFacts SuperSceneModel SuperSceneSpec SuperSceneFacts SuperSceneHist
  SuperSceneFrame SuperSceneExamples.
From Coq Require Import Permutation.

(** C01: after every history, no patch lists a source twice as active, no two
    outstanding patches share an active source, and a refusal changes nothing. *)
Theorem C01_exclusive_checkout :
  forall e c cat b covs evs s out,
    env_ok (List.length cat) e ->
    history e c (ingest cat b covs) evs s out ->
    (forall p, In p out -> NoDup (ids (p_active p))) /\
    (forall i j p q, i <> j -> nth_error out i = Some p -> nth_error out j = Some q ->
       forall x, In x (ids (p_active p)) -> ~ In x (ids (p_active q))) /\
    (forall k s', checkout_region e c s k = CoRefused s' -> s' = s).
Proof. exact exclusive_lemma. Qed.
Print Assumptions C01_exclusive_checkout.

(** C02 *)
Theorem C02_bookkeeping_balances :
  forall e c cat b covs evs s out,
    env_ok (List.length cat) e ->
    history e c (ingest cat b covs) evs s out ->
    n_active s = Z.of_nat (List.length (all_active out)) /\
    n_fixed s = Z.of_nat (List.length (all_fixed out)) /\
    List.length (sourcecat s) = List.length cat /\
    (forall j rw, src s j = Some rw ->
       source_index rw = Z.of_nat j /\
       (is_active rw = 1 \/ is_active rw = 0)%Z /\ (is_valid rw = 1 \/ is_valid rw = 0)%Z /\
       (is_active rw = 1%Z <-> exists p, In p out /\ In (Z.of_nat j) (ids (p_active p))) /\
       (is_valid rw = 0%Z -> exists p, In p out /\
           In (Z.of_nat j) (ids (p_active p) ++ ids (p_fixed p)))) /\
    (out = [] -> n_active s = 0%Z /\ n_fixed s = 0%Z /\
       forall j rw, src s j = Some rw -> is_active rw = 0%Z /\ is_valid rw = 1%Z).
Proof. exact balance_lemma. Qed.
Print Assumptions C02_bookkeeping_balances.

(** C03, first half: what a check-in writes and what it leaves alone. *)
Theorem C03_checkin_frame :
  forall c s act fixed a s' ai,
  checkin_region c s act fixed a = Some s' ->
  ids act = map Z.of_nat ai -> NoDup ai -> (forall j, In j ai -> j < List.length (sourcecat s)) ->
  List.length (bounds_catalog s) = List.length (sourcecat s) ->
  List.length (covariance_matrices s) = List.length (sourcecat s) ->
  (forall j rw, src s j = Some rw -> ~ In j ai ->
     exists rw', src s' j = Some rw' /\ same_but_flags rw rw' /\ is_active rw' = is_active rw) /\
  (forall j, ~ In j ai -> nth_error (bounds_catalog s') j = nth_error (bounds_catalog s) j /\
                          nth_error (covariance_matrices s') j = nth_error (covariance_matrices s) j) /\
  (forall k j ak rw, nth_error ai k = Some j -> nth_error act k = Some ak -> src s j = Some rw ->
     (forall f, In f (fitted_columns c) -> exists v, getcol rw f = Some v) ->
     exists rw', src s' j = Some rw' /\
       (forall f, In f (fitted_columns c) -> getcol rw' f = getcol ak f) /\
       (forall f, ~ In f (fitted_columns c) -> getcol rw' f = getcol rw f) /\
       map fst (cols rw') = map fst (cols rw) /\
       source_index rw' = source_index rw /\ is_active rw' = 0%Z /\ is_valid rw' = 1%Z /\
       n_iter rw' = (n_iter rw + niter a)%Z /\
       n_patch rw' = (if (0 <? niter a)%Z then n_patch rw + 1 else n_patch rw)%Z) /\
  (new_bounds a = None -> bounds_catalog s' = bounds_catalog s) /\
  (block_covs a = None -> covariance_matrices s' = covariance_matrices s) /\
  (forall nb k j x, new_bounds a = Some nb -> List.length nb = List.length ai ->
     nth_error ai k = Some j -> nth_error nb k = Some x -> nth_error (bounds_catalog s') j = Some x) /\
  (forall bc k j x, block_covs a = Some bc -> List.length bc = List.length ai ->
     nth_error ai k = Some j -> nth_error bc k = Some x -> nth_error (covariance_matrices s') j = Some x).
Proof. exact checkin_frame_lemma. Qed.
Print Assumptions C03_checkin_frame.

(** C03, second half: check-ins of patches with disjoint active sources commute. *)
Theorem C03_checkins_commute :
  forall c s act1 fx1 a1 ai1 act2 fx2 a2 ai2 s1 s12,
  ids act1 = map Z.of_nat ai1 -> NoDup ai1 -> (forall j, In j ai1 -> j < List.length (sourcecat s)) ->
  ids act2 = map Z.of_nat ai2 -> NoDup ai2 -> (forall j, In j ai2 -> j < List.length (sourcecat s)) ->
  (forall j, In j ai1 -> ~ In j ai2) ->
  checkin_region c s act1 fx1 a1 = Some s1 -> checkin_region c s1 act2 fx2 a2 = Some s12 ->
  exists s2 s21,
    checkin_region c s act2 fx2 a2 = Some s2 /\ checkin_region c s2 act1 fx1 a1 = Some s21 /\
    sourcecat s21 = sourcecat s12 /\ bounds_catalog s21 = bounds_catalog s12 /\
    covariance_matrices s21 = covariance_matrices s12 /\
    n_active s21 = n_active s12 /\ n_fixed s21 = n_fixed s12 /\
    (forall j, log_lookup (sourcelog s21) j = log_lookup (sourcelog s12) j) /\
    Permutation (patchlog s21) (patchlog s12).
Proof. exact checkin_commute_lemma. Qed.
Print Assumptions C03_checkins_commute.

(** C03: exactly when a check-in goes through. *)
Theorem C03_checkin_succeeds_iff :
  forall c s act fixed a,
  (exists s', checkin_region c s act fixed a = Some s') <->
  (forall r, In r (act ++ match fixed with Some f => f | None => [] end) ->
      (- Z.of_nat (List.length (sourcecat s)) <= source_index r < Z.of_nat (List.length (sourcecat s)))%Z) /\
  (forall r f, In r act -> In f (fitted_columns c) -> exists v, getcol r f = Some v) /\
  (match new_bounds a with None => True
   | Some l => List.length l = List.length act \/ List.length l = 1%nat end).
Proof. exact checkin_total. Qed.
Print Assumptions C03_checkin_succeeds_iff.

(** C04 *)
Theorem C04_counts_and_logs :
  forall e c cat b covs evs s out,
    env_ok (List.length cat) e ->
    history e c (ingest cat b covs) evs s out ->
    (forall j r0, nth_error cat j = Some r0 -> exists rw, src s j = Some rw /\
        n_iter rw = (n_iter r0 + total_niter j evs)%Z /\
        n_patch rw = (n_patch r0 + total_patches j evs)%Z) /\
    (forall j, log_lookup (sourcelog s) j = labels_of j evs) /\
    patchlog s = all_labels evs /\
    (undone c s = false <->
     forall j r0, nth_error cat j = Some r0 ->
       (target_niter c <= Z.abs (n_iter r0 + total_niter j evs))%Z).
Proof. exact totals_lemma. Qed.
Print Assumptions C04_counts_and_logs.

(** C04: reset forgets the work done, and nothing else: counts and flags start
    over, positions, shapes, fluxes, bounds, covariances and logs stay. *)
Theorem C04_reset :
  forall c s,
  List.length (sourcecat (reset s)) = List.length (sourcecat s) /\
  (forall j rw, src s j = Some rw -> exists rw', src (reset s) j = Some rw' /\
     n_iter rw' = 0%Z /\ n_patch rw' = 0%Z /\ is_active rw' = 0%Z /\ is_valid rw' = 1%Z /\
     source_index rw' = source_index rw /\ forall f, getcol rw' f = getcol rw f) /\
  n_active (reset s) = 0%Z /\ n_fixed (reset s) = 0%Z /\
  bounds_catalog (reset s) = bounds_catalog s /\ covariance_matrices (reset s) = covariance_matrices s /\
  sourcelog (reset s) = sourcelog s /\ patchlog (reset s) = patchlog s /\
  (undone c (reset s) = true <-> sourcecat s <> [] /\ (0 < target_niter c)%Z).
Proof.
  intros c s. split; [apply map_length|]. split.
  { intros j rw H. exists (reset_row rw). unfold src in *. cbn [sourcecat reset]. rewrite nth_error_map, H. repeat split. }
  repeat (split; [reflexivity|]). unfold undone. cbn [sourcecat reset]. rewrite existsb_exists. split.
  - intros (r & Hr & H). apply in_map_iff in Hr. destruct Hr as (r0 & <- & Hr). cbn in H. split; [intros E; rewrite E in Hr; destruct Hr|]. apply Z.ltb_lt in H. exact H.
  - intros [Hs Ht]. destruct (sourcecat s) as [|r l]; [congruence|]. exists (reset_row r). split; [left; reflexivity|]. cbn. apply Z.ltb_lt. exact Ht.
Qed.
Print Assumptions C04_reset.

(** C05: shape of a granted circular patch around [ctr]; the neighbours are the
    sources within [boundary_radius] of the centre. *)
Theorem C05_circular_patch_shape :
  forall e c s ctr r a f,
  env_ok (List.length (sourcecat s)) e ->
  get_circular_scene e c s ctr = Scene r a f ->
  let nb := query_ball e ctr (boundary_radius c) in
  (1 <= List.length a <= maxactive c)%nat /\
  NoDup (a ++ f) /\ incl (a ++ f) nb /\
  (forall k, In k nb -> exists rw, src s k = Some rw /\ is_active rw = 0%Z) /\
  (forall k, In k a -> (outer_of e c s ctr k < maxradius c)%Q /\ (outer_of e c s ctr k <= r)%Q) /\
  (forall k j, In k a -> In j nb -> ~ In j a -> (outer_of e c s ctr k <= outer_of e c s ctr j)%Q) /\
  (List.length a = maxactive c \/
   forall j, In j nb -> (outer_of e c s ctr j < maxradius c)%Q -> In j a) /\
  (minradius c <= r)%Q /\
  (r = minradius c \/ (exists k, In k a /\ r = outer_of e c s ctr k)) /\
  (List.length f <= maxactive c)%nat /\
  ((exists j, In j nb /\ ~ In j a) -> f <> []) /\
  (forall k, In k f -> (inner_of e c s ctr k < r)%Q \/
     (f = [k] /\ forall j, In j nb -> ~ In j a -> (r <= inner_of e c s ctr j)%Q)) /\
  (List.length f = maxactive c \/
   forall j, In j nb -> ~ In j a -> (inner_of e c s ctr j < r)%Q -> In j f).
Proof. intros e c s ctr r a f Henv. exact (circular_scene_shape_aux e c s ctr Henv _ eq_refl r a f). Qed.
Print Assumptions C05_circular_patch_shape.

(** C05: exactly when a patch is refused / granted (otherwise: an exception). *)
Theorem C05_circular_refused_iff :
  forall e c s ctr, env_ok (List.length (sourcecat s)) e ->
  (get_circular_scene e c s ctr = Refused <->
   exists k rw, In k (query_ball e ctr (boundary_radius c)) /\ src s k = Some rw /\ is_active rw <> 0%Z).
Proof. exact circular_refused_iff. Qed.
Print Assumptions C05_circular_refused_iff.

Theorem C05_circular_granted_iff :
  forall e c s ctr, env_ok (List.length (sourcecat s)) e -> has_columns c s ->
  ((exists r a f, get_circular_scene e c s ctr = Scene r a f) <->
   (forall k, In k (query_ball e ctr (boundary_radius c)) ->
              exists rw, src s k = Some rw /\ is_active rw = 0%Z) /\
   (1 <= maxactive c)%nat /\
   exists k, In k (query_ball e ctr (boundary_radius c)) /\ (outer_of e c s ctr k < maxradius c)%Q).
Proof. exact circular_granted_iff. Qed.
Print Assumptions C05_circular_granted_iff.

(** C06 at full strength is false: an active source of an outstanding patch can
    be marked valid. *)
Theorem C06_in_use_not_valid_refuted :
  exists e c cat b covs evs s out p j rw,
    env_ok (List.length cat) e /\ history e c (ingest cat b covs) evs s out /\
    In p out /\ In (Z.of_nat j) (ids (p_active p)) /\ src s j = Some rw /\ is_valid rw = 1%Z.
Proof. exact in_use_refuted_lemma. Qed.
Print Assumptions C06_in_use_not_valid_refuted.

(** C06, what does hold: a checked-out source stays not valid as long as no patch
    containing it is checked in ([quiet]).  Missing from the full statement:
    the case of another patch that shares the source as a fixed source. *)
Theorem C06_in_use_not_valid_partial :
  forall e c s k s1 p j s2,
  (forall i rw, src s i = Some rw -> source_index rw = Z.of_nat i) ->
  checkout_region e c s k = CoGranted s1 p ->
  In (Z.of_nat j) (ids (p_active p) ++ ids (p_fixed p)) ->
  quiet e c j s1 s2 ->
  exists rw, src s2 j = Some rw /\ is_valid rw = 0%Z.
Proof. exact in_use_lemma. Qed.
Print Assumptions C06_in_use_not_valid_partial.

(** ** The hypotheses are met by a concrete history: two grants, a refusal and a
    check-in on a four-source sky. *)
Example C01_C02_C04_hypotheses_met :
  env_ok (List.length ex_cat) ex_env /\
  history ex_env ex_config (ingest ex_cat [[]; []; []; []] [[]; []; []; []]) ex_history ex_s3 [ex_p2] /\
  ids (p_active ex_p1) = [0]%Z /\ ids (p_fixed ex_p1) = [1]%Z /\
  ids (p_active ex_p2) = [2; 1]%Z /\ n_active ex_s3 = 2%Z /\
  total_niter 0 ex_history = 128%Z /\ labels_of 0 ex_history = ["patch1"%string].
Proof. split; [exact (line_env_ok ex_xs)|]. split; [exact ex_history_ok|]. exact ex_patches. Qed.

Example C03_hypotheses_met :
  exists s', checkin_region ex_config ex_s2 ex_ret (Some (p_fixed ex_p1)) ex_args = Some s' /\
  ids ex_ret = map Z.of_nat [0] /\ NoDup [0] /\
  List.length (bounds_catalog ex_s2) = List.length (sourcecat ex_s2) /\
  (exists s'', checkin_region ex_config s' (p_active ex_p2) (Some (p_fixed ex_p2)) ex_args = Some s'') /\
  ids (p_active ex_p2) = map Z.of_nat [2; 1].
Proof.
  exists ex_s3. split; [vm_compute; reflexivity|]. split; [vm_compute; reflexivity|].
  split; [repeat constructor; auto|]. split; [reflexivity|].
  split; [eexists; vm_compute; reflexivity|]. vm_compute. reflexivity.
Qed.

Example C05_hypotheses_met :
  env_ok (List.length (sourcecat ex_start)) ex_env /\ has_columns ex_config ex_start /\
  exists r, get_circular_scene ex_env ex_config ex_start (12, 0)%Q = Scene r [2; 1] [] /\
            (exists r', get_circular_scene ex_env ex_config ex_start (0, 0)%Q = Scene r' [0] [1]).
Proof.
  split; [exact (line_env_ok ex_xs)|]. split.
  - intros r f Hr Hf. simpl in Hr, Hf.
    repeat (destruct Hr as [<-|Hr]; [repeat (destruct Hf as [<-|Hf]; [eexists; vm_compute; reflexivity|]); contradiction|]).
    contradiction.
  - eexists. split; [vm_compute; reflexivity|]. eexists. vm_compute. reflexivity.
Qed.

Example C06_hypotheses_met :
  checkout_region ex_env ex_config ex_start 0 = CoGranted ex_s1 ex_p1 /\
  In (Z.of_nat 1) (ids (p_active ex_p1) ++ ids (p_fixed ex_p1)) /\
  quiet ex_env ex_config 1 ex_s1 ex_s2.
Proof.
  split; [vm_compute; reflexivity|]. split; [vm_compute; auto|].
  eapply q_grant with (k := 2%nat) (p := ex_p2); [apply q_refl|]. vm_compute. reflexivity.
Qed.
