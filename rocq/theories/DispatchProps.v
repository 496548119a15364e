(** C12 and C13. *)
From Verif Require Import Np NpFacts SuperSceneModel SuperSceneSpec SuperSceneFacts SuperSceneHist SuperSceneExamples
     DispatchModel DispatchSpec DispatchFacts.
From Coq Require Import Permutation Ascii.

(** ** C12 *)
Theorem C12_queue_accounting : forall (T : Type) (n : nat) (evs : list (qevent T)) (q : queue T),
  qhistory n evs q ->
  (* every child is in exactly one of the lists *)
  Permutation (idle q ++ busy q) (seq 1 n) /\
  (* each outstanding request belongs to exactly one busy child *)
  busy q = map h_child (irecv_handles q) /\ NoDup (map h_child (irecv_handles q)) /\
  (* everything submitted has been returned once or is outstanding, under its child and tag *)
  Permutation (all_submitted evs) (all_returned evs ++ irecv_handles q) /\
  (* submission fails exactly when no child is idle *)
  (forall task tag, submit q task tag = None <-> idle q = []) /\
  (* and otherwise goes to an idle child, which becomes busy *)
  (forall task tag q' child, submit q task tag = Some (q', child) ->
     In child (idle q) /\ ~ In child (idle q') /\
     irecv_handles q' = irecv_handles q ++ [mkHandle child tag task]) /\
  (* close-out reaches all children, exactly when nothing is outstanding *)
  (closeout q = Some (seq 1 n) <-> irecv_handles q = []) /\
  (closeout q = None <-> irecv_handles q <> []).
Proof.
  intros T n evs q H. destruct (qhistory_inv _ _ _ H) as (Hq & Hn & Hp).
  pose proof Hq as [Hb Hperm]. rewrite Hn in Hperm.
  assert (HND : NoDup (idle q ++ busy q)) by (eapply Permutation_NoDup; [symmetry; exact Hperm|apply seq_NoDup]).
  split; [exact Hperm|]. split; [exact Hb|].
  split. { rewrite <- Hb. now apply NoDup_app_iff in HND. }
  split; [exact Hp|]. split; [intros; now apply submit_spec|].
  split.
  { intros task tag q' child Hs. destruct (proj2 (submit_spec q task tag Hq) _ _ Hs) as (_ & (rest & E1 & E2) & E3 & _).
    rewrite E1 in *. split; [simpl; auto|]. split; [|exact E3]. rewrite E2.
    apply NoDup_app_iff in HND as (HND & _ & _). now inversion HND. }
  destruct (closeout_spec q Hq) as [K1 K2]. rewrite Hn in K1.
  destruct (list_eq_nil_dec (irecv_handles q)) as [E|E].
  - rewrite (K1 E). intuition congruence.
  - rewrite (K2 E). intuition congruence.
Qed.
Print Assumptions C12_queue_accounting.

(** What one collection does: it hands back exactly the requests MPI reports, in
    that order, and frees exactly their children; it fails only when there is
    nothing to wait for. *)
Theorem C12_collect_effect : forall (T : Type) (n : nat) (evs : list (qevent T)) (q : queue T) mode done,
  qhistory n evs q -> mpi_reports q mode done ->
  (collect q mode done = None <-> irecv_handles q = [] /\ mode <> BlockAll) /\
  (forall q' res, collect q mode done = Some (q', res) ->
     (mode <> BlockAll -> map Some res = map (nth_error (irecv_handles q)) done) /\
     (mode = BlockAll -> res = irecv_handles q /\ irecv_handles q' = []) /\
     (forall child, In child (idle q') <-> In child (idle q) \/ exists h, In h res /\ h_child h = child) /\
     Permutation (res ++ irecv_handles q') (irecv_handles q)).
Proof.
  intros T n evs q mode done H Hm. destruct (qhistory_inv _ _ _ H) as (Hq & Hn & Hp).
  destruct (list_eq_nil_dec (irecv_handles q)) as [E|E].
  - rewrite (collect_empty _ _ _ E). destruct mode.
    1,2: split; [split; [intros _; split; [exact E|discriminate]|auto]|intros; discriminate].
    split; [split; [discriminate|intros [_ K]; congruence]|].
    intros q' res [= <- <-]. split; [congruence|]. split; [auto|]. split.
    + intros child. split; [auto|]. intros [K|(h & [] & _)]; exact K.
    + reflexivity.
  - destruct (collect_spec q mode done Hq Hm E) as (q1 & r1 & fr & K1 & K2 & K3 & K4 & K5 & K6 & K7).
    rewrite K1. split; [split; [discriminate|intros [K _]; congruence]|].
    intros q' res [= <- <-].
    assert (Hmap : map Some r1 = map (nth_error (irecv_handles q)) (reported q mode done)).
    { unfold fancy_get in K2. apply mapM_Some in K2. clear -K2. induction K2; simpl; congruence. }
    split. { intros Hne. rewrite Hmap. destruct mode; auto. congruence. }
    split.
    { intros ->. unfold reported in Hmap.
      assert (Hr : r1 = irecv_handles q).
      { apply map_Some_inj. rewrite Hmap. clear. apply map_nth_error_seq. }
      split; [exact Hr|]. subst r1. apply Permutation_length in K3. rewrite app_length in K3.
      destruct (irecv_handles q1); auto. simpl in K3. lia. }
    split; [|exact K3].
    intros child. rewrite K5, in_app_iff. split; (intros [K|K]; [left; exact K|right]).
    + apply (Permutation_in _ K6) in K. apply in_map_iff in K as (h & K & Kin). eauto.
    + destruct K as (h & Kin & <-). eapply Permutation_in; [symmetry; exact K6|]. now apply in_map.
Qed.
Print Assumptions C12_collect_effect.

(** Three children, three tasks, the first two come back in the order second,
    first, and the freed children get new work in that (popped) order. *)
Example C12_case :
  exists q, qhistory 3 [Submitted (mkHandle 1 10 "a"); Submitted (mkHandle 2 20 "b"); Submitted (mkHandle 3 30 "c");
                        Collected [mkHandle 2 20 "b"; mkHandle 1 10 "a"]; Submitted (mkHandle 2 40 "d")]%string q /\
    irecv_handles q = [mkHandle 3 30 "c"; mkHandle 2 40 "d"]%string /\ idle q = [1] /\ closeout q = None.
Proof.
  eexists. split.
  - eapply (qh_submit _ [_; _; _; _]). eapply (qh_collect _ [_; _; _]) with (mode := NonBlocking) (done := [1; 0]).
    eapply (qh_submit _ [_; _]). eapply (qh_submit _ [_]). eapply (qh_submit _ []).
    constructor. all: try (vm_compute; reflexivity).
    split; [repeat constructor; simpl; intuition lia|]. split; [simpl; intuition lia|discriminate].
  - vm_compute. auto.
Qed.

(** ** C13 *)

(** The queue is never misused: in no execution with at least one child (and at
    least one checkout attempt per pass) does a pass fail in the queue, and when
    the loop is left, the remaining requests are collected and all children
    stopped. *)
Theorem C13_queue_never_misused : forall e c label draws ans n cat b cv tr st,
  env_ok (List.length cat) e -> answers_ok ans -> 1 <= n ->
  run e c label draws ans n (ingest cat b cv) tr st ->
  idle (pqueue st) <> [] /\
  (forall seeds done, seeds <> [] ->
     (forall s1 q1 tid mode, submit_phase e c st seeds = Ready s1 q1 tid mode -> mpi_reports q1 mode done) ->
     loop_body e c label draws ans st seeds done <> QueueError) /\
  (forall seeds s1 q1 tid mode, seeds <> [] ->
     submit_phase e c st seeds = Ready s1 q1 tid mode -> irecv_handles q1 <> []) /\
  (forall done, exists st' results, finish st done = Some (st', results, seq 1 n) /\
     Permutation results (irecv_handles (pqueue st))).
Proof.
  intros e c label draws ans n cat b cv tr st He Ha Hn Hr.
  pose proof (run_inv e c label draws ans n cat b cv He Ha Hn _ _ Hr) as Hinv.
  split; [apply Hinv|]. split; [intros; eapply never_queue_error; eauto|]. split.
  - intros seeds s1 q1 tid mode Hs Hp.
    destruct (phase1_spec e c label draws n cat b cv He Hn tr st seeds Hinv Hs) as [_ K].
    destruct (K _ _ _ _ Hp) as (_ & _ & K' & _). exact K'.
  - intros done. destruct (finish_spec e c label draws ans n cat b cv He Ha Hn _ _ done Hr) as (st' & res & K1 & K2 & _).
    eauto.
Qed.
Print Assumptions C13_queue_never_misused.

(** Every result collected in the loop is checked in once: the iteration count of
    a source is its initial count plus the number of draws for each collected
    result that had it active, and every collected result leaves one entry in
    the patch log -- labelled with the number of the latest task submitted, not
    with its own.  Exactly the outstanding tasks' active sources are marked.
    Missing from the full claim: the labels ([C13_label_refuted]) and the results
    collected after the loop ([C13_stragglers_refuted]). *)
Theorem C13_results_checked_in_partial : forall e c label draws ans n cat b cv tr st,
  env_ok (List.length cat) e -> answers_ok ans -> 1 <= n ->
  run e c label draws ans n (ingest cat b cv) tr st ->
  (forall j r0 rw, nth_error cat j = Some r0 -> src (sceneDB st) j = Some rw ->
     n_iter rw = (n_iter r0 + draws * count_for j (collected tr))%Z /\
     (is_active rw = 1%Z <-> exists h, In h (irecv_handles (pqueue st)) /\ In (Z.of_nat j) (ids (p_active (h_task h))))) /\
  patchlog (sceneDB st) = concat (map (fun x => map (fun _ => label (fst x)) (snd x)) tr).
Proof.
  intros e c label draws ans n cat b cv tr st He Ha Hn Hr.
  destruct (run_inv e c label draws ans n cat b cv He Ha Hn _ _ Hr) as [_ _ _ (evs & out & Hh & Hp & Ht & Hl)].
  pose proof (history_inv _ _ _ _ _ _ _ _ He Hh) as Hinv.
  destruct (balance_lemma _ _ _ _ _ _ _ _ He Hh) as (_ & _ & _ & Hb & _).
  split; [|rewrite <- Hl; apply Hinv].
  intros j r0 rw H0 H1. split.
  - assert (H0' : src (ingest cat b cv) j = Some (set_active_flag (set_valid_flag (set_source_index r0 (Z.of_nat j)) 1) 0)).
    { unfold src, ingest. cbn [sourcecat]. now rewrite set_catalog_nth, H0. }
    rewrite (inv_iter _ _ _ _ _ Hinv _ _ _ H0' H1), Ht. reflexivity.
  - destruct (Hb _ _ H1) as (_ & _ & _ & Hact & _). rewrite Hact. split.
    + intros (p & Kin & Kj). apply (Permutation_in _ Hp), in_map_iff in Kin as (h & <- & Kin). eauto.
    + intros (h & Kin & Kj). exists (h_task h). split; auto.
      eapply Permutation_in; [symmetry; exact Hp|]. now apply in_map.
Qed.
Print Assumptions C13_results_checked_in_partial.

(** *** Witnesses *)
Definition ex_label (k : nat) : string := String (ascii_of_nat (48 + k)) "".
Definition ex_ans (h : handle patch) : answer := mkAnswer (p_active (h_task h)) None.
Lemma ex_ans_ok : answers_ok ex_ans.
Proof. intros h. reflexivity. Qed.
Definition next_of (i : iteration) (d : parent) : parent := match i with Next p _ => p | _ => d end.
Definition got_of (i : iteration) : list (handle patch) := match i with Next _ r => r | _ => [] end.

(** Two children; the first pass checks out source 0 and finds nothing done; the
    second checks out sources 1 and 2, waits, and gets the first task's result:
    it is logged under task 2. *)
Definition lab_st0 := mkParent ex_start (new_queue 2) 0.
Definition lab_it1 := Eval vm_compute in loop_body ex_env ex_config ex_label 128 ex_ans lab_st0 [0] [].
Definition lab_st1 := Eval vm_compute in next_of lab_it1 lab_st0.
Definition lab_it2 := Eval vm_compute in loop_body ex_env ex_config ex_label 128 ex_ans lab_st1 [2] [0].
Definition lab_st2 := Eval vm_compute in next_of lab_it2 lab_st0.

Ltac mpi_trivial := vm_compute; split; [repeat constructor; simpl; intuition lia|split; [simpl; intuition lia|
  first [discriminate|intros; discriminate]]].

Lemma lab_run : run ex_env ex_config ex_label 128 ex_ans 2 ex_start [(1, []); (2, got_of lab_it2)] lab_st2.
Proof.
  eapply (run_step _ _ _ _ _ _ _ [_]) with (seeds := [2]) (done := [0]).
  - eapply (run_step _ _ _ _ _ _ _ []) with (seeds := [0]) (done := []).
    + constructor.
    + vm_compute. reflexivity.
    + discriminate.
    + vm_compute. reflexivity.
    + mpi_trivial.
    + vm_compute. reflexivity.
  - vm_compute. reflexivity.
  - discriminate.
  - vm_compute. reflexivity.
  - mpi_trivial.
  - vm_compute. reflexivity.
Qed.

Theorem C13_label_refuted : exists e c label draws ans n cat b cv tr st tid res h,
  env_ok (List.length cat) e /\ answers_ok ans /\
  run e c label draws ans n (ingest cat b cv) tr st /\
  In (tid, res) tr /\ In h res /\ label (h_tag h) <> label tid /\
  patchlog (sceneDB st) = [label tid].
Proof.
  exists ex_env, ex_config, ex_label, 128%Z, ex_ans, 2, ex_cat, [[]; []; []; []], [[]; []; []; []],
    [(1, []); (2, got_of lab_it2)], lab_st2, 2, (got_of lab_it2), (nth 0 (got_of lab_it2) (mkHandle 0 0 ex_p1)).
  split; [exact (line_env_ok ex_xs)|]. split; [exact ex_ans_ok|]. split; [exact lab_run|].
  split; [simpl; auto|]. split; [vm_compute; auto|]. split; [vm_compute; discriminate|]. vm_compute. reflexivity.
Qed.
Print Assumptions C13_label_refuted.

(** Two far sources, two children, one iteration wanted each: source 0 comes back
    and is checked out again; source 1 comes back; the loop ends; the second
    result for source 0 is collected and thrown away. *)
Definition str_config : config := mkConfig ["F200W"%string] 1 1 2 1 10 5 1.
Definition str_cat := map (fun x => ex_row x (1#10)) [0; 30]%Q.
Definition str_env := line_env [0; 30]%Q.
Definition str_start := ingest str_cat [[]; []] [[]; []].
Definition str_st0 := mkParent str_start (new_queue 2) 0.
Definition str_it1 := Eval vm_compute in loop_body str_env str_config ex_label 1 ex_ans str_st0 [0] [0].
Definition str_st1 := Eval vm_compute in next_of str_it1 str_st0.
Definition str_it2 := Eval vm_compute in loop_body str_env str_config ex_label 1 ex_ans str_st1 [0] [].
Definition str_st2 := Eval vm_compute in next_of str_it2 str_st0.
Definition str_it3 := Eval vm_compute in loop_body str_env str_config ex_label 1 ex_ans str_st2 [1] [1].
Definition str_st3 := Eval vm_compute in next_of str_it3 str_st0.

Lemma str_run : run str_env str_config ex_label 1 ex_ans 2 str_start
  [(1, got_of str_it1); (2, got_of str_it2); (3, got_of str_it3)] str_st3.
Proof.
  eapply (run_step _ _ _ _ _ _ _ [_; _]) with (seeds := [1]) (done := [1]).
  - eapply (run_step _ _ _ _ _ _ _ [_]) with (seeds := [0]) (done := []).
    + eapply (run_step _ _ _ _ _ _ _ []) with (seeds := [0]) (done := [0]).
      * constructor.
      * vm_compute. reflexivity.
      * discriminate.
      * vm_compute. reflexivity.
      * mpi_trivial.
      * vm_compute. reflexivity.
    + vm_compute. reflexivity.
    + discriminate.
    + vm_compute. reflexivity.
    + mpi_trivial.
    + vm_compute. reflexivity.
  - vm_compute. reflexivity.
  - discriminate.
  - vm_compute. reflexivity.
  - mpi_trivial.
  - vm_compute. reflexivity.
Qed.

Theorem C13_stragglers_refuted : exists e c label draws ans n cat b cv tr st done st' stragglers killed,
  env_ok (List.length cat) e /\ answers_ok ans /\
  run e c label draws ans n (ingest cat b cv) tr st /\
  undone c (sceneDB st) = false /\
  finish st done = Some (st', stragglers, killed) /\ stragglers <> [] /\
  (* the final catalog does not have them: source 0 is still out, one result short *)
  exists rw, src (sceneDB st') 0 = Some rw /\ is_active rw = 1%Z /\
    (n_iter rw < draws * count_for 0 (collected tr ++ stragglers))%Z.
Proof.
  exists str_env, str_config, ex_label, 1%Z, ex_ans, 2, str_cat, [[]; []], [[]; []],
    [(1, got_of str_it1); (2, got_of str_it2); (3, got_of str_it3)], str_st3, [].
  do 3 eexists. split; [exact (line_env_ok [0; 30]%Q)|]. split; [exact ex_ans_ok|].
  split; [exact (str_run)|]. split; [vm_compute; reflexivity|].
  split; [vm_compute; reflexivity|]. split; [discriminate|].
  eexists. split; [vm_compute; reflexivity|]. split; vm_compute; reflexivity.
Qed.
Print Assumptions C13_stragglers_refuted.

(** A pass that meets the premises of the two theorems above. *)
Example C13_case : collected [(1, []); (2, got_of lab_it2)] <> [] /\
  irecv_handles (pqueue lab_st2) <> [] /\ count_for 0 (got_of lab_it2) = 1%Z.
Proof. vm_compute. repeat split; discriminate. Qed.
