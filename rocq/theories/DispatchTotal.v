(** C13, the part about the scene server: when a pass of the parent loop fails
    with an exception from the checkout, the sparseness test or the check-in. *)
From Verif Require Import Np NpFacts SuperSceneModel SuperSceneSpec SuperSceneFacts SuperSceneHist SuperSceneFrame
     SuperSceneExamples DispatchModel DispatchSpec DispatchFacts DispatchProps.
From Coq Require Import Permutation.

(** Children report every fitted column. *)
Definition answers_complete (c : config) (ans : handle patch -> answer) : Prop :=
  forall h r f, In r (final (ans h)) -> In f (fitted_columns c) -> exists v, getcol r f = Some v.

(** Source [k] cannot be the seed of a region: there is no such source, or no
    neighbour within the boundary radius is in use and yet none of them fits
    (with [nscale] half-light radii) inside the maximal radius. *)
Definition hopeless (e : env) (c : config) (s : state) (k : nat) : Prop :=
  src s k = None \/
  exists seed cra cdec, src s k = Some seed /\ getcol seed "ra" = Some cra /\ getcol seed "dec" = Some cdec /\
    forall j, In j (query_ball e (sky_to_scene e cra cdec) (boundary_radius c)) ->
      (exists rw, src s j = Some rw /\ is_active rw = 0%Z) /\
      ~ (outer_of e c s (sky_to_scene e cra cdec) j < maxradius c)%Q.
(** A neighbour of [k] is in use. *)
Definition in_use_near (e : env) (c : config) (s : state) (k : nat) : Prop :=
  exists seed cra cdec j rw, src s k = Some seed /\ getcol seed "ra" = Some cra /\ getcol seed "dec" = Some cdec /\
    In j (query_ball e (sky_to_scene e cra cdec) (boundary_radius c)) /\ src s j = Some rw /\ is_active rw <> 0%Z.

Lemma has_columns_src c s : has_columns c s <->
  forall j rw, src s j = Some rw -> forall f, In f (fitted_columns c) -> exists v, getcol rw f = Some v.
Proof.
  unfold has_columns, src. split.
  - intros H j rw E f Hf. apply (H rw f); auto. eapply nth_error_In; eauto.
  - intros H r f Hr Hf. apply In_nth_error in Hr as (j & Hj). eapply H; eauto.
Qed.

Lemma fitted_ra c : In "ra"%string (fitted_columns c).
Proof. unfold fitted_columns. apply in_or_app. right. simpl. auto. Qed.
Lemma fitted_dec c : In "dec"%string (fitted_columns c).
Proof. unfold fitted_columns. apply in_or_app. right. simpl. auto. Qed.
Lemma fitted_rhalf c : In "rhalf"%string (fitted_columns c).
Proof. unfold fitted_columns. apply in_or_app. right. simpl. tauto. Qed.

Lemma refused_iff e c s k : env_ok (List.length (sourcecat s)) e -> has_columns c s ->
  ((exists s', checkout_region e c s k = CoRefused s') <-> in_use_near e c s k).
Proof.
  intros He Hc. split.
  - intros (s' & H). unfold checkout_region in H. fold (src s k) in H.
    destruct (src s k) as [seed|] eqn:Hk; [|discriminate].
    destruct (getcol seed "ra") as [cra|] eqn:Hra; [|discriminate].
    destruct (getcol seed "dec") as [cdec|] eqn:Hdec; [|discriminate].
    destruct (get_circular_scene _ _ _ _) as [|r ai fi|] eqn:Hsc; try discriminate.
    + apply circular_refused_iff in Hsc; auto. destruct Hsc as (j & rw & K1 & K2 & K3).
      exists seed, cra, cdec, j, rw. auto 8.
    + destruct (fancy_get _ ai); [|discriminate]. destruct (fancy_get _ fi); discriminate.
  - intros (seed & cra & cdec & j & rw & Hk & Hra & Hdec & K1 & K2 & K3).
    unfold checkout_region. fold (src s k). rewrite Hk, Hra, Hdec. cbv zeta.
    assert (Hr : get_circular_scene e c s (sky_to_scene e cra cdec) = Refused)
      by (apply circular_refused_iff; eauto).
    rewrite Hr. eauto.
Qed.

Lemma scene_in_range e c s ctr r ai fi : env_ok (List.length (sourcecat s)) e ->
  get_circular_scene e c s ctr = Scene r ai fi ->
  forall j, In j (ai ++ fi) -> j < List.length (sourcecat s).
Proof.
  intros He H. pose proof (circular_scene_shape_aux e c s ctr He _ eq_refl r ai fi H) as (_ & _ & Hi & _).
  intros j Hj. apply Hi, (query_spec _ _ He) in Hj. tauto.
Qed.

Lemma crash_iff e c s k : env_ok (List.length (sourcecat s)) e -> has_columns c s -> 1 <= maxactive c ->
  (checkout_region e c s k = CoCrash <-> hopeless e c s k).
Proof.
  intros He Hc Hm. pose proof (proj1 (has_columns_src c s) Hc) as Hcs. split.
  - intros H. unfold hopeless. destruct (src s k) as [seed|] eqn:Hk; [|auto]. right.
    destruct (Hcs _ _ Hk _ (fitted_ra c)) as (cra & Hra).
    destruct (Hcs _ _ Hk _ (fitted_dec c)) as (cdec & Hdec).
    exists seed, cra, cdec. split; [auto|]. split; [auto|]. split; [auto|].
    unfold checkout_region in H. fold (src s k) in H. rewrite Hk, Hra, Hdec in H. cbv zeta in H.
    destruct (get_circular_scene _ _ _ _) as [|r ai fi|] eqn:Hsc; try discriminate.
    { exfalso. pose proof (scene_in_range _ _ _ _ _ _ _ He Hsc) as Hin.
      match type of H with context [fancy_get ?cat ai] => set (cat3 := cat) in H end.
      assert (HL : List.length cat3 = List.length (sourcecat s)).
      { unfold cat3, fancy_put_scalar. now rewrite !fancy_put_field_length. }
      destruct (fancy_get_total' cat3 ai) as (x & Ex).
      { intros i Hi. rewrite HL. apply Hin. apply in_or_app. auto. }
      destruct (fancy_get_total' cat3 fi) as (y & Ey).
      { intros i Hi. rewrite HL. apply Hin. apply in_or_app. auto. }
      rewrite Ex, Ey in H. discriminate. }
    assert (Hno : forall j, In j (query_ball e (sky_to_scene e cra cdec) (boundary_radius c)) ->
                  exists rw, src s j = Some rw /\ is_active rw = 0%Z).
    { intros j Hj. destruct (src s j) as [rw|] eqn:Ej.
      2:{ apply (query_spec _ _ He) in Hj as [Hj _]. unfold src in Ej. apply nth_error_None in Ej. lia. }
      exists rw. split; auto. destruct (Z.eq_dec (is_active rw) 0) as [|Hne]; auto. exfalso.
      assert (Hr : get_circular_scene e c s (sky_to_scene e cra cdec) = Refused)
        by (apply circular_refused_iff; eauto). congruence. }
    intros j Hj. split; [auto|]. intros Hlt.
    assert (Hg : exists r a f, get_circular_scene e c s (sky_to_scene e cra cdec) = Scene r a f).
    { apply circular_granted_iff; auto. split; [exact Hno|]. split; [exact Hm|]. eauto. }
    destruct Hg as (r & a & f & Hg). congruence.
  - intros [Hk|(seed & cra & cdec & Hk & Hra & Hdec & H)].
    + unfold checkout_region. fold (src s k). now rewrite Hk.
    + unfold checkout_region. fold (src s k). rewrite Hk, Hra, Hdec. cbv zeta.
      destruct (get_circular_scene _ _ _ _) as [|r ai fi|] eqn:Hsc; [| |reflexivity]; exfalso.
      * apply circular_refused_iff in Hsc; auto. destruct Hsc as (j & rw & K1 & K2 & K3).
        destruct (H j K1) as [(rw' & E1 & E2) _]. congruence.
      * assert (Hg : exists r a f, get_circular_scene e c s (sky_to_scene e cra cdec) = Scene r a f) by eauto.
        apply circular_granted_iff in Hg; auto. destruct Hg as (_ & _ & j & K1 & K2).
        destruct (H j K1) as [_ K]. auto.
Qed.

(** * A property of the fitted columns that the children maintain holds of the catalog *)
Section Keep.
Context (e : env) (c : config) (P : nat -> row -> Prop).
Hypothesis Pext : forall j r r', P j r -> (forall f, In f (fitted_columns c) -> getcol r' f = getcol r f) -> P j r'.
Hypothesis Pcols : forall j r, P j r -> forall f, In f (fitted_columns c) -> exists v, getcol r f = Some v.

Definition everywhere (s : state) : Prop := forall j rw, src s j = Some rw -> P j rw.

Lemma checkout_keeps s k s' p : checkout_region e c s k = CoGranted s' p -> everywhere s -> everywhere s'.
Proof.
  intros H Hp j rw Hj. apply checkout_inv in H as (seed & cra & cdec & r & ai & fi & _ & _ & _ & _ & Hs & _).
  rewrite Hs in Hj. destruct (src s j) as [rw0|] eqn:E; [|discriminate]. injection Hj as <-.
  apply (Pext j rw0); [auto|]. intros; reflexivity.
Qed.

Lemma checkin_keeps cat b cv evs s o1 p o2 act a s' : env_ok (List.length cat) e ->
  history e c (ingest cat b cv) evs s (o1 ++ p :: o2) -> ids act = ids (p_active p) ->
  checkin_region c s act (Some (p_fixed p)) a = Some s' ->
  (forall r j, In r act -> source_index r = Z.of_nat j -> P j r) ->
  everywhere s -> everywhere s'.
Proof.
  intros He Hh Hid H Hact Hp.
  pose proof (history_inv _ _ _ _ _ _ _ _ He Hh) as Hinv.
  destruct (inv_ids _ _ _ _ _ Hinv p) as (ai & fi & Ha & _ & Hnd & Hlt); [apply in_or_app; simpl; auto|].
  pose proof (inv_len _ _ _ _ _ Hinv) as HL.
  apply checkin_inv in H as (ai' & fi' & Hai & _ & _ & Ho & Hat & _).
  assert (ai' = ai).
  { eapply np_index_ids; [exact Hai|congruence|]. intros k Hk. rewrite HL. apply Hlt. apply in_or_app; auto. }
  subst ai'. apply NoDup_app_iff in Hnd as (Hnd & _ & _). specialize (Hat Hnd).
  intros j rw Hj. destruct (in_dec Nat.eq_dec j ai) as [Hin|Hin].
  - apply In_nth_error in Hin as (k & Hk).
    assert (Hak : exists ak, nth_error act k = Some ak /\ source_index ak = Z.of_nat j).
    { assert (E : nth_error (ids act) k = Some (Z.of_nat j)).
      { rewrite Hid, Ha, nth_error_map, Hk. reflexivity. }
      unfold ids in E. rewrite nth_error_map in E. destruct (nth_error act k) as [ak|]; [|discriminate].
      injection E as E. eauto. }
    destruct Hak as (ak & Hak & Hsi). destruct (Hat _ _ _ Hk Hak) as [Hs Hc]. rewrite Hs in Hj.
    destruct (src s j) as [rw0|] eqn:E0; [|discriminate]. injection Hj as <-.
    assert (HP : P j ak) by (apply Hact; [eapply nth_error_In; eauto|exact Hsi]).
    apply (Pext j ak); [exact HP|]. intros f Hf.
    change (getcol (cols_from (parameter_columns c) ak rw0) f = getcol ak f).
    rewrite cols_from_get by exact Hc. change (parameter_columns c) with (fitted_columns c).
    assert (Ex : existsb (String.eqb f) (fitted_columns c) = true).
    { apply existsb_exists. exists f. split; [exact Hf|apply String.eqb_refl]. }
    rewrite Ex. destruct (Pcols j rw0 (Hp _ _ E0) f Hf) as (v & Hv). now rewrite Hv.
  - rewrite (Ho j Hin) in Hj. destruct (src s j) as [rw0|] eqn:E0; [|discriminate].
    injection Hj as <-. apply (Pext j rw0); [auto|]. intros f Hf. destruct (memn j fi'); reflexivity.
Qed.

Context (label : nat -> string) (draws : Z) (ans : handle patch -> answer) (n : nat)
        (cat : list row) (b : list bounds_row) (cv : list matrix).
Hypothesis He : env_ok (List.length cat) e.
Hypothesis Hans : answers_ok ans.
Hypothesis Hn : 1 <= n.
Hypothesis HansP : forall h r j, In r (final (ans h)) -> source_index r = Z.of_nat j -> P j r.
Let s0 := ingest cat b cv.

(** Every check-in succeeds, and the property is kept. *)
Lemma checkin_all_keeps tid : forall res rest evs s out,
  history e c s0 evs s out -> Permutation out (map h_task (res ++ rest)) -> everywhere s ->
  exists s', checkin_all c label draws tid ans s res = Some s' /\ everywhere s'.
Proof.
  induction res as [|h res IH]; intros rest evs s out Hh Hp HP; simpl; [eauto|].
  assert (Hin : In (h_task h) out).
  { eapply Permutation_in; [symmetry; exact Hp|]. simpl; auto. }
  apply in_split in Hin as (o1 & o2 & ->).
  pose proof (history_inv _ _ _ _ _ _ _ _ He Hh) as Hinv.
  destruct (inv_ids _ _ _ _ _ Hinv (h_task h)) as (ai & fi & Ha & Hf & _ & Hlt); [apply in_or_app; simpl; auto|].
  pose proof (inv_len _ _ _ _ _ Hinv) as HL.
  assert (Hids : forall r, In r (final (ans h)) -> exists j, source_index r = Z.of_nat j /\ j < List.length cat).
  { intros r Hr. assert (K : In (source_index r) (ids (final (ans h)))) by (unfold ids; now apply in_map).
    rewrite (Hans h), Ha in K. apply in_map_iff in K as (j & E & Kj). exists j. split; [auto|].
    apply Hlt. apply in_or_app; auto. }
  destruct (proj2 (checkin_total c s (final (ans h)) (Some (p_fixed (h_task h)))
                     (mkArgs draws (covs (ans h)) None (Some (label tid))))) as (s2 & Ec).
  { split; [|split].
    - intros r Hr. rewrite HL. apply in_app_or in Hr as [Hr|Hr].
      + destruct (Hids r Hr) as (j & -> & Hj). lia.
      + assert (K : In (source_index r) (ids (p_fixed (h_task h)))) by (unfold ids; now apply in_map).
        rewrite Hf in K. apply in_map_iff in K as (j & E & Kj). rewrite <- E.
        assert (j < List.length cat) by (apply Hlt; apply in_or_app; auto). lia.
    - intros r f Hr Hcf. destruct (Hids r Hr) as (j & Hj & _). apply (Pcols j r); auto. eapply HansP; eauto.
    - exact I. }
  rewrite Ec. assert (HP2 : everywhere s2).
  { eapply checkin_keeps; eauto. }
  assert (Hh2 := h_in _ _ _ _ _ _ _ _ _ _ _ Hh (Hans h) Ec).
  apply (IH rest _ _ _ Hh2); [|exact HP2].
  apply (Permutation_cons_inv (a := h_task h)). rewrite Permutation_middle. exact Hp.
Qed.

Lemma run_keeps tr st : everywhere s0 -> run e c label draws ans n s0 tr st -> everywhere (sceneDB st).
Proof.
  intros H0 H. induction H as [|tr st seeds done s1 q1 tid mode st' results Hr IH Hu Hs Hph Hm Hb]; [exact H0|].
  pose proof (run_inv e c label draws ans n cat b cv He Hans Hn _ _ Hr) as Hinv.
  destruct (phase1_spec e c label draws n cat b cv He Hn _ _ _ Hinv Hs) as [_ Hsp].
  destruct (Hsp _ _ _ _ Hph) as (Hq & Hnn & Hne & _ & _ & evs & out & Hh & Hp & _).
  assert (HP1 : everywhere s1).
  { unfold submit_phase in Hph. destruct (try_checkout e c (sceneDB st) seeds) as [|s2 p|] eqn:Et; [| |discriminate].
    - injection Hph as <- _ _ _. exact IH.
    - destruct (submit _ _ _) as [[q2 ch]|]; [|discriminate]. destruct (sparse c s2); [|discriminate].
      injection Hph as <- _ _ _. apply try_checkout_region in Et as (k & Hk). eapply checkout_keeps; eauto. }
  unfold loop_body in Hb. rewrite Hph in Hb.
  destruct (collect_spec q1 mode done Hq Hm Hne) as (q' & res & freed & K1 & K2 & K3 & K4 & K5 & K6 & K7).
  rewrite K1 in Hb.
  destruct (checkin_all_keeps tid res (irecv_handles q') evs s1 out Hh) as (s' & Es & HPs).
  { rewrite Hp. symmetry. now apply Permutation_map. }
  { exact HP1. }
  rewrite Es in Hb. injection Hb as <- _. exact HPs.
Qed.

(** A pass meets an exception of the server only in the checkout. *)
Lemma server_error_checkout tr st seeds done : everywhere s0 ->
  run e c label draws ans n s0 tr st -> seeds <> [] ->
  (forall s1 q1 tid mode, submit_phase e c st seeds = Ready s1 q1 tid mode -> mpi_reports q1 mode done) ->
  (loop_body e c label draws ans st seeds done = ServerError <->
   try_checkout e c (sceneDB st) seeds = AttemptCrash).
Proof.
  intros H0 Hr Hs Hm. pose proof (run_keeps tr st H0 Hr) as HP.
  pose proof (run_inv e c label draws ans n cat b cv He Hans Hn _ _ Hr) as Hinv.
  destruct (phase1_spec e c label draws n cat b cv He Hn _ _ _ Hinv Hs) as [Hnq Hsp].
  unfold loop_body. split.
  - intros H. destruct (submit_phase e c st seeds) as [s1 q1 tid mode| |] eqn:Eph; [|discriminate|].
    + exfalso. destruct (Hsp _ _ _ _ eq_refl) as (Hq & Hnn & Hne & _ & _ & evs & out & Hh & Hp & _).
      assert (HP1 : everywhere s1).
      { unfold submit_phase in Eph. destruct (try_checkout e c (sceneDB st) seeds) as [|s2 p|] eqn:Et; [| |discriminate].
        - injection Eph as <- _ _ _. exact HP.
        - destruct (submit _ _ _) as [[q2 ch]|]; [|discriminate]. destruct (sparse c s2); [|discriminate].
          injection Eph as <- _ _ _. apply try_checkout_region in Et as (k & Hk). eapply checkout_keeps; eauto. }
      destruct (collect_spec q1 mode done Hq (Hm _ _ _ _ eq_refl) Hne) as (q' & res & freed & K1 & K2 & K3 & _).
      rewrite K1 in H. destruct (checkin_all_keeps tid res (irecv_handles q') evs s1 out Hh) as (s' & Es & HPs).
      { rewrite Hp. symmetry. now apply Permutation_map. }
      { exact HP1. }
      rewrite Es in H. discriminate.
    + unfold submit_phase in Eph. destruct (try_checkout e c (sceneDB st) seeds) as [|s2 p|] eqn:Et; [discriminate| |reflexivity].
      exfalso. destruct (submit _ _ _) as [[q2 ch]|]; [|discriminate].
      destruct (sparse c s2) eqn:Esp; [discriminate|]. unfold sparse in Esp.
      destruct (sourcecat s2) eqn:Ecat; [|discriminate].
      apply try_checkout_region in Et as (k & Hk). pose proof (checkout_length _ _ _ _ _ _ Hk) as HL.
      apply checkout_inv in Hk as (seed & _ & _ & _ & _ & _ & Hk & _).
      rewrite Ecat in HL. unfold src in Hk. destruct (sourcecat (sceneDB st)); [|discriminate]. destruct k; discriminate.
  - intros H. unfold submit_phase. rewrite H. reflexivity.
Qed.
End Keep.

Lemma try_crash_iff e c s : env_ok (List.length (sourcecat s)) e -> has_columns c s -> 1 <= maxactive c ->
  forall seeds, try_checkout e c s seeds = AttemptCrash <->
  exists pre k post, seeds = pre ++ k :: post /\ Forall (in_use_near e c s) pre /\ hopeless e c s k.
Proof.
  intros He Hc Hm. induction seeds as [|k t IH]; simpl.
  - split; [discriminate|]. intros ([|x pre] & k & post & E & _); discriminate.
  - destruct (checkout_region e c s k) as [s'|s' p|] eqn:Ek.
    + assert (Hu : in_use_near e c s k) by (apply refused_iff; eauto).
      apply checkout_refused in Ek as Es. subst s'. rewrite IH. split.
      * intros (pre & k' & post & -> & Hf & Hh). exists (k :: pre), k', post. split; [reflexivity|]. auto.
      * intros ([|x pre] & k' & post & E & Hf & Hh).
        -- injection E as <- _. apply crash_iff in Hh; auto. congruence.
        -- injection E as <- ->. inversion Hf; subst. eauto 6.
    + split; [discriminate|]. intros ([|x pre] & k' & post & E & Hf & Hh).
      * injection E as <- _. apply crash_iff in Hh; auto. congruence.
      * injection E as <- _. inversion Hf; subst. assert (Hr : exists s', checkout_region e c s k = CoRefused s') by (now apply refused_iff).
        destruct Hr; congruence.
    + split; auto. intros _. exists [], k, t. split; [reflexivity|]. split; [constructor|]. now apply crash_iff.
Qed.

(** ** Theorems *)

(** Exactly when a pass fails in the scene server: in the checkout, at the first
    seed that is not refused, if that seed is hopeless.  Check-ins and the
    sparseness test never fail. *)
Theorem C13_server_error_iff : forall e c label draws ans n cat b cv tr st seeds done,
  env_ok (List.length cat) e -> answers_ok ans -> answers_complete c ans -> 1 <= n -> 1 <= maxactive c ->
  (forall r f, In r cat -> In f (fitted_columns c) -> exists v, getcol r f = Some v) ->
  run e c label draws ans n (ingest cat b cv) tr st -> seeds <> [] ->
  (forall s1 q1 tid mode, submit_phase e c st seeds = Ready s1 q1 tid mode -> mpi_reports q1 mode done) ->
  (loop_body e c label draws ans st seeds done = ServerError <->
   exists pre k post, seeds = pre ++ k :: post /\ Forall (in_use_near e c (sceneDB st)) pre /\ hopeless e c (sceneDB st) k).
Proof.
  intros e c label draws ans n cat b cv tr st seeds done He Ha Hac Hn Hm Hcat Hr Hs Hmpi.
  set (P := fun (_ : nat) (r : row) => forall f, In f (fitted_columns c) -> exists v, getcol r f = Some v).
  assert (Pext : forall j r r', P j r -> (forall f, In f (fitted_columns c) -> getcol r' f = getcol r f) -> P j r').
  { intros j r r' H1 H2 f Hf. rewrite H2 by auto. apply H1. exact Hf. }
  assert (Pcols : forall j r, P j r -> forall f, In f (fitted_columns c) -> exists v, getcol r f = Some v)
    by (intros j r H; exact H).
  assert (HansP : forall h r j, In r (final (ans h)) -> source_index r = Z.of_nat j -> P j r).
  { intros h r j H1 _ f Hf. eapply Hac; eauto. }
  assert (H0 : everywhere P (ingest cat b cv)).
  { intros j rw Hj. unfold src, ingest in Hj. cbn [sourcecat] in Hj. rewrite set_catalog_nth in Hj.
    destruct (nth_error cat j) as [r|] eqn:E; [|discriminate]. injection Hj as <-. intros f Hf.
    apply (Hcat r f); auto. eapply nth_error_In; eauto. }
  rewrite (server_error_checkout e c P Pext Pcols label draws ans n cat b cv He Ha Hn HansP tr st seeds done H0 Hr Hs Hmpi).
  pose proof (run_keeps e c P Pext Pcols label draws ans n cat b cv He Ha Hn HansP tr st H0 Hr) as HP.
  destruct (run_inv e c label draws ans n cat b cv He Ha Hn _ _ Hr) as [_ _ _ (evs & out & Hh & _)].
  pose proof (inv_len _ _ _ _ _ (history_inv _ _ _ _ _ _ _ _ He Hh)) as HL.
  apply try_crash_iff; auto.
  - now rewrite HL.
  - apply has_columns_src. intros j rw Hj. apply (HP j rw Hj).
Qed.
Print Assumptions C13_server_error_iff.

(** A row is compact for source [j] when its position is within the boundary
    radius of the source's original position, and fits there inside the maximal
    radius. *)
Definition compact (e : env) (c : config) (j : nat) (r : row) : Prop :=
  exists ra dec rhalf, getcol r "ra" = Some ra /\ getcol r "dec" = Some dec /\ getcol r "rhalf" = Some rhalf /\ (distance_to e (sky_to_scene e ra dec) j <= boundary_radius c)%Q /\
  (distance_to e (sky_to_scene e ra dec) j + nscale c * rhalf < maxradius c)%Q.

(** If the catalog starts with compact sources and the children answer with
    compact sources, the loop never meets an exception at all: neither of the
    queue nor of the server.  Missing from the full claim: fits that move or grow
    a source too much ([C13_server_fails_refuted]). *)
Theorem C13_no_exception_partial : forall e c label draws ans n cat b cv tr st seeds done,
  env_ok (List.length cat) e -> answers_ok ans -> answers_complete c ans -> 1 <= n -> 1 <= maxactive c ->
  (forall r f, In r cat -> In f (fitted_columns c) -> exists v, getcol r f = Some v) ->
  (forall j r, nth_error cat j = Some r -> compact e c j r) ->
  (forall h r j, In r (final (ans h)) -> source_index r = Z.of_nat j -> compact e c j r) ->
  run e c label draws ans n (ingest cat b cv) tr st -> seeds <> [] ->
  (forall k, In k seeds -> k < List.length cat) ->
  (forall s1 q1 tid mode, submit_phase e c st seeds = Ready s1 q1 tid mode -> mpi_reports q1 mode done) ->
  exists st' results, loop_body e c label draws ans st seeds done = Next st' results.
Proof.
  intros e c label draws ans n cat b cv tr st seeds done He Ha Hac Hn Hm Hcat Hcomp Hansc Hr Hs Hlt Hmpi.
  assert (Hq : loop_body e c label draws ans st seeds done <> QueueError) by exact (never_queue_error e c label draws ans n cat b cv He Ha Hn tr st seeds done Hr Hs Hmpi).
  assert (Hse : loop_body e c label draws ans st seeds done <> ServerError).
  { intros Herr.
    destruct (proj1 (C13_server_error_iff e c label draws ans n cat b cv tr st seeds done
                       He Ha Hac Hn Hm Hcat Hr Hs Hmpi) Herr) as (pre & k & post & Es & _ & Hh).
    clear Herr.
    set (P := fun (j : nat) (r : row) => (forall f, In f (fitted_columns c) -> exists v, getcol r f = Some v) /\ compact e c j r).
    assert (Pext : forall j r r', P j r -> (forall f, In f (fitted_columns c) -> getcol r' f = getcol r f) -> P j r').
    { intros j r r' [H1 (ra & dec & rh & K1 & K2 & K3 & K4)] H2. split.
      - intros f Hf. rewrite H2 by auto. apply H1. exact Hf.
      - exists ra, dec, rh. rewrite !H2; [auto 6|apply fitted_rhalf|apply fitted_dec|apply fitted_ra]. }
    assert (Pcols : forall j r, P j r -> forall f, In f (fitted_columns c) -> exists v, getcol r f = Some v)
      by (intros j r [H _]; exact H).
    assert (HansP : forall h r j, In r (final (ans h)) -> source_index r = Z.of_nat j -> P j r).
    { intros h r j H1 H2. split; [intros f Hf; eapply Hac; eauto|eapply Hansc; eauto]. }
    assert (H0 : everywhere P (ingest cat b cv)).
    { intros j rw Hj. unfold src, ingest in Hj. cbn [sourcecat] in Hj. rewrite set_catalog_nth in Hj.
      destruct (nth_error cat j) as [r|] eqn:E; [|discriminate]. injection Hj as <-. split.
      - intros f Hf. apply (Hcat r f); auto. eapply nth_error_In; eauto.
      - exact (Hcomp j r E). }
    pose proof (run_keeps e c P Pext Pcols label draws ans n cat b cv He Ha Hn HansP tr st H0 Hr) as HP.
    destruct (run_inv e c label draws ans n cat b cv He Ha Hn _ _ Hr) as [_ _ _ (evs & out & Hh' & _)].
    pose proof (inv_len _ _ _ _ _ (history_inv _ _ _ _ _ _ _ _ He Hh')) as HL.
    assert (Hk : k < List.length cat) by (apply Hlt; rewrite Es; apply in_or_app; simpl; auto).
    destruct Hh as [E|(seed & cra & cdec & Hseed & Hra & Hdec & Hj)].
    { unfold src in E. apply nth_error_None in E. lia. }
    destruct (HP _ _ Hseed) as [_ (ra & dec & rh & K1 & K2 & K3 & K4 & K5)].
    rewrite Hra in K1. rewrite Hdec in K2. injection K1 as <-. injection K2 as <-.
    destruct (Hj k) as [_ Hno]; [apply (query_spec _ _ He); auto|]. apply Hno.
    unfold outer_of, rhalf_of. rewrite Hseed, K3. exact K5. }
  destruct (loop_body e c label draws ans st seeds done) as [st' res| |]; [eauto|congruence|congruence].
Qed.
Print Assumptions C13_no_exception_partial.

(** One source; its fit comes back with a half-light radius of 20 while the
    largest allowed region has radius 5: the next pass dies in the checkout,
    with work still to do. *)
Definition grow_ans (h : handle patch) : answer :=
  mkAnswer (map (fun r => setcol "rhalf" r 20) (p_active (h_task h))) None.
Lemma grow_ans_ok : answers_ok grow_ans.
Proof. intros h. unfold grow_ans, ids. cbn [final]. rewrite map_map. reflexivity. Qed.
Definition grow_config : config := mkConfig ["F200W"%string] 2 1 2 1 10 5 1.
Definition grow_cat := [ex_row 0 (1#10)].
Definition grow_env := line_env [0]%Q.
Definition grow_start := ingest grow_cat [[]] [[]].
Definition grow_st0 := mkParent grow_start (new_queue 1) 0.
Definition grow_it1 := Eval vm_compute in loop_body grow_env grow_config ex_label 1 grow_ans grow_st0 [0] [0].
Definition grow_st1 := Eval vm_compute in next_of grow_it1 grow_st0.
Lemma grow_run : run grow_env grow_config ex_label 1 grow_ans 1 grow_start [(1, got_of grow_it1)] grow_st1.
Proof.
  eapply (run_step _ _ _ _ _ _ _ []) with (seeds := [0]) (done := [0]).
  - constructor.
  - vm_compute. reflexivity.
  - discriminate.
  - vm_compute. reflexivity.
  - mpi_trivial.
  - vm_compute. reflexivity.
Qed.

Theorem C13_server_fails_refuted : exists e c label draws ans n cat b cv tr st,
  env_ok (List.length cat) e /\ answers_ok ans /\ 1 <= n /\ 1 <= maxactive c /\ (forall r f, In r cat -> In f (fitted_columns c) -> exists v, getcol r f = Some v) /\
  (forall j r, nth_error cat j = Some r -> compact e c j r) /\
  run e c label draws ans n (ingest cat b cv) tr st /\
  undone c (sceneDB st) = true /\
  forall seeds done, seeds <> [] -> loop_body e c label draws ans st seeds done = ServerError.
Proof.
  exists grow_env, grow_config, ex_label, 1%Z, grow_ans, 1, grow_cat, [[]], [[]], [(1, got_of grow_it1)], grow_st1.
  split; [exact (line_env_ok [0]%Q)|]. split; [exact grow_ans_ok|]. split; [lia|]. split; [simpl; lia|].
  split.
  { intros r f [<-|[]] Hf. simpl in Hf. repeat destruct Hf as [<-|Hf]; try contradiction; eexists; reflexivity. }
  split.
  { intros [|j] r Hj; [|destruct j; discriminate]. injection Hj as <-. exists 0%Q, 0%Q, (1#10)%Q.
    repeat split; vm_compute; congruence. }
  split; [exact grow_run|]. split; [reflexivity|].
  intros [|[|k] t] done Hs; [congruence| |].
  - vm_compute. reflexivity.
  - unfold loop_body, submit_phase. cbn [try_checkout]. unfold checkout_region.
    assert (E : nth_error (sourcecat (sceneDB grow_st1)) (S k) = None) by (apply nth_error_None; simpl; lia).
    rewrite E. reflexivity.
Qed.
Print Assumptions C13_server_fails_refuted.

(** The premises of [C13_server_error_iff] and [C13_no_exception_partial] met: two
    far sources, two children that refit every source at its original place. *)
Definition tidy_ans (h : handle patch) : answer :=
  mkAnswer (map (fun r => mkRow (source_index r) 0 1 0 0
                     (cols (ex_row (nth (Z.to_nat (source_index r)) [0; 30]%Q 0%Q) (1#5)))) (p_active (h_task h))) None.
Definition tidy_st0 := mkParent str_start (new_queue 2) 0.
Definition tidy_it1 := Eval vm_compute in loop_body str_env str_config ex_label 1 tidy_ans tidy_st0 [0] [0].
Definition tidy_st1 := Eval vm_compute in next_of tidy_it1 tidy_st0.

Lemma tidy_run : run str_env str_config ex_label 1 tidy_ans 2 str_start [(1, got_of tidy_it1)] tidy_st1.
Proof.
  eapply (run_step _ _ _ _ _ _ _ []) with (seeds := [0]) (done := [0]).
  - constructor.
  - vm_compute. reflexivity.
  - discriminate.
  - vm_compute. reflexivity.
  - mpi_trivial.
  - vm_compute. reflexivity.
Qed.

Example C13_total_case :
  undone str_config (sceneDB tidy_st1) = true /\
  exists st' results, loop_body str_env str_config ex_label 1 tidy_ans tidy_st1 [1; 0] [0] = Next st' results.
Proof.
  split; [reflexivity|].
  apply (C13_no_exception_partial str_env str_config ex_label 1%Z tidy_ans 2 str_cat [[]; []] [[]; []]
           [(1, got_of tidy_it1)]).
  - exact (line_env_ok [0; 30]%Q).
  - intros h. unfold tidy_ans, ids. cbn [final]. rewrite map_map. reflexivity.
  - intros h r f Hr Hf. apply in_map_iff in Hr as (r0 & <- & _). simpl in Hf.
    repeat destruct Hf as [<-|Hf]; try contradiction; eexists; reflexivity.
  - lia.
  - simpl; lia.
  - intros r f [<-|[<-|[]]] Hf; simpl in Hf; repeat destruct Hf as [<-|Hf]; try contradiction; eexists; reflexivity.
  - intros [|[|j]] r Hj; [| |destruct j; discriminate]; injection Hj as <-.
    + exists 0%Q, 0%Q, (1#10)%Q. repeat split; vm_compute; congruence.
    + exists 30%Q, 0%Q, (1#10)%Q. repeat split; vm_compute; congruence.
  - intros h r j Hr Hj. apply in_map_iff in Hr as (r0 & <- & _). cbn [source_index] in Hj. rewrite Hj, Nat2Z.id.
    exists (nth j [0; 30]%Q 0%Q), 0%Q, (1#5)%Q. split; [reflexivity|]. split; [reflexivity|]. split; [reflexivity|].
    destruct j as [|[|[|j]]]; split; vm_compute; congruence.
  - exact tidy_run.
  - discriminate.
  - simpl. intros k [<-|[<-|[]]]; lia.
  - intros s1 q1 tid mode E. vm_compute in E. injection E as <- <- <- <-. mpi_trivial.
Qed.
