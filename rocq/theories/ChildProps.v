(** C66: parent and children. *)
From Verif Require Import Np NpFacts DispatchModel DispatchSpec DispatchFacts ChildModel ChildFacts.
From Coq Require Import Permutation Sorted.
Import ListNotations.

(** Whatever the order of the steps: each task handed to the queue is returned at most once, with the
    answer to that very task, under the child and the tag it was sent to; what has not been returned is
    outstanding. *)
Theorem C66_answers : forall (T A : Type) (answer : T -> option A) n sub rec (s : system T A), execution answer n sub rec s ->
  Forall (fun ha => answer (h_task (fst ha)) = Some (snd ha)) rec /\
  Permutation sub (map fst rec ++ irecv_handles (s_queue s)).
Proof. intros T A answer n sub rec s H. destruct (execution_inv _ _ _ _ _ H) as (_ & _ & _ & _ & _ & K1 & K2). auto. Qed.
Print Assumptions C66_answers.

(** Every execution is a history of the queue in the sense of C12, with the same submissions and the same
    returns: what is assumed of MPI there holds of the messages here. *)
Theorem C66_refines : forall (T A : Type) (answer : T -> option A) n sub rec (s : system T A), execution answer n sub rec s ->
  exists evs, qhistory n evs (s_queue s) /\ all_submitted evs = sub /\ all_returned evs = map fst rec.
Proof.
  intros T A answer n sub rec s H.
  induction H as [|sub rec s task tag s' c H IH Hc Hs|sub rec s mode done s' l H IH Hc Hm Hs|sub rec s c s' H IH Hs|sub rec s s' H IH Hc Hs].
  - exists []. repeat split. apply qh_new.
  - destruct IH as (evs & I1 & I2 & I3). unfold parent_submit in Hs.
    destruct (submit (s_queue s) task tag) as [[q c']|] eqn:E; [|discriminate]. injection Hs as <- <-.
    exists (evs ++ [Submitted (mkHandle c' tag task)]). split; [eapply qh_submit; eauto|].
    rewrite all_submitted_app, all_returned_app, I2, I3. simpl. now rewrite app_nil_r.
  - destruct IH as (evs & I1 & I2 & I3). unfold parent_collect in Hs.
    destruct (collect (s_queue s) mode done) as [[q hs]|] eqn:E; [|discriminate].
    destruct (take_all hs (s_up s)) as [[la up]|] eqn:Et; [|discriminate]. injection Hs as <- <-.
    exists (evs ++ [Collected hs]). split; [eapply qh_collect; eauto|].
    rewrite all_submitted_app, all_returned_app, I2, I3, map_app. simpl. rewrite !app_nil_r. split; auto. f_equal.
    clear -Et. revert Et. generalize (s_up s) as u. revert la up. induction hs as [|x t IH]; intros la up u Et; simpl in Et.
    + now injection Et as <- <-.
    + destruct (take (h_tag x) (u (h_child x))) as [[a r]|]; [|discriminate].
      destruct (take_all t (setf u (h_child x) r)) as [[l1 u1]|] eqn:E1; [|discriminate]. injection Et as <- <-. simpl. f_equal. eauto.
  - destruct IH as (evs & I). exists evs. now rewrite (proj1 (child_step_local _ _ _ _ Hs)).
  - destruct IH as (evs & I). exists evs. unfold parent_close in Hs. destruct (closeout (s_queue s)); [|discriminate].
    now injection Hs as <-.
Qed.
Print Assumptions C66_refines.

(** A child that is sent a task has nothing else to read and no answer on its way, and is waiting for it or
    about to: the blocking send returns. *)
Theorem C66_listening : forall (T A : Type) (answer : T -> option A) n sub rec (s : system T A) task tag s' c, execution answer n sub rec s ->
  s_closed s = false -> parent_submit s task tag = Some (s', c) ->
  s_down s c = [] /\ s_up s c = [] /\
  (s_child s c = Listening \/
   (s_child s c = Freeing /\ exists s1, child_step answer s c = Some s1 /\ s_child s1 c = Listening)).
Proof.
  intros T A answer n sub rec s task tag s' c H Hc Hs. pose proof (execution_inv _ _ _ _ _ H) as Hi.
  destruct (Inv_submit _ _ _ _ _ _ _ _ _ Hi Hc Hs) as (_ & Hin).
  destruct Hi as (_ & _ & _ & I4 & _). destruct (proj1 (I4 Hc) c Hin) as (D & U & [P|P]); split; auto; split; auto.
  right. split; auto. unfold child_step. rewrite P. eexists. split; [reflexivity|]. simpl. apply setf_same.
Qed.
Print Assumptions C66_listening.

(** A child never holds more than one task, sent or begun. *)
Theorem C66_one_task : forall (T A : Type) (answer : T -> option A) n sub rec (s : system T A) c, execution answer n sub rec s ->
  List.length (s_down s c) + List.length (s_up s c) + (match s_child s c with Working _ _ => 1 | _ => 0 end) <= 1.
Proof.
  intros T A answer n sub rec s c H. destruct (execution_inv _ _ _ _ _ H) as (I1 & I2 & I3 & I4 & I5 & _).
  assert (Hd : 1 <= c <= n \/ ~ (1 <= c <= n)) by lia. destruct Hd as [Hc|Hc].
  - destruct (s_closed s) eqn:E.
    + destruct (proj2 (I5 eq_refl) c Hc) as (-> & [(-> & [->| ->])|(-> & ->)]); simpl; lia.
    + destruct (I4 eq_refl) as (Ia & Ib). rewrite <- I2 in Hc. apply (qok_range _ _ I1) in Hc as [Hi|Hi].
      * destruct (Ia c Hi) as (-> & -> & [->| ->]); simpl; lia.
      * destruct I1 as [Eb _]. rewrite Eb in Hi. apply in_map_iff in Hi as (h & <- & Hh).
        destruct (Ib h Hh) as [(-> & [->| ->] & ->)|[(-> & -> & ->)|[(a & -> & [->| ->] & -> & _)|(-> & -> & -> & _)]]]; simpl; lia.
  - destruct (I3 c Hc) as (-> & -> & ->). simpl. lia.
Qed.
Print Assumptions C66_one_task.

(** Waiting ends, when the outstanding tasks can be done: the children can take no more than 4 n steps
    on their own, in any order, and when they can take no more, every way of collecting, also of all
    requests, succeeds. *)
Theorem C66_waiting : forall (T A : Type) (answer : T -> option A) n sub rec (s : system T A), execution answer n sub rec s -> s_closed s = false ->
  (forall h, In h (irecv_handles (s_queue s)) -> answer (h_task h) <> None) ->
  forall k s', child_steps answer s k s' ->
  k <= 4 * n /\
  ((forall c, child_step answer s' c = None) -> irecv_handles (s_queue s') <> [] ->
   forall mode done, mpi_reports (s_queue s') mode done -> exists s2 l, parent_collect s' mode done = Some (s2, l)).
Proof.
  intros T A answer n sub rec s H Hc Ha k s' Hs. split; [eapply child_steps_bound; eauto|].
  assert (Eq : s_queue s' = s_queue s /\ s_closed s' = s_closed s).
  { clear -Hs. induction Hs as [|s c s1 k s2 H1 H2 [IH1 IH2]]; auto.
    destruct (child_step_local _ _ _ _ H1) as (K1 & K2 & _). rewrite IH1, IH2, K1, K2. auto. }
  destruct Eq as (Eq & Ec). rewrite Eq. intros Hstuck Hne mode done Hm.
  destruct (execution_inv _ _ _ _ _ (execution_steps _ _ _ _ _ _ _ H Hs)) as (I1 & I2 & _ & I4 & _).
  rewrite Ec in I4. destruct (I4 Hc) as (_ & Ib). rewrite Eq in I1, Ib.
  destruct (collect_spec _ mode done I1 Hm Hne) as (q1 & hs & fr & K1 & K2 & K3 & K4 & K5 & K6 & K7).
  unfold parent_collect. rewrite Eq, K1.
  assert (Hin : forall h, In h hs -> In h (irecv_handles (s_queue s))).
  { intros h Hh. eapply Permutation_in; [exact K3|]. apply in_app_iff. auto. }
  destruct (take_all_total hs (s_up s')) as (l & up & ->); [| |eauto].
  - pose proof (qok_nodup _ I1) as Hn. apply NoDup_app_iff in Hn as (_ & Hn & _). destruct I1 as [Eb _]. rewrite Eb in Hn.
    eapply Permutation_NoDup in Hn; [|apply Permutation_map; symmetry; exact K3]. rewrite map_app in Hn.
    now apply NoDup_app_iff in Hn.
  - intros h Hh. pose proof (Hstuck (h_child h)) as Hst. unfold child_step in Hst.
    destruct (Ib h (Hin h Hh)) as [(D & [P|P] & U)|[(D & P & U)|[(a & D & P & U & K)|(D & P & U & K)]]].
    + rewrite P, D in Hst. discriminate.
    + rewrite P in Hst. discriminate.
    + rewrite P in Hst. destruct (answer (h_task h)); discriminate.
    + eauto.
    + exfalso. exact (Ha h (Hin h Hh) K).
Qed.
Print Assumptions C66_waiting.

(** Closing: it is possible as soon as everything has been returned; the children can then take no more
    than 4 n steps, after which every one of them has stopped and no message is left. *)
Theorem C66_stops : forall (T A : Type) (answer : T -> option A) n sub rec (s : system T A), execution answer n sub rec s ->
  (s_closed s = false -> (exists s', parent_close s = Some s') <-> Permutation sub (map fst rec)) /\
  (s_closed s = true -> Permutation sub (map fst rec) /\
     forall k s', child_steps answer s k s' -> k <= 4 * n /\
     ((forall c, child_step answer s' c = None) -> forall c, 1 <= c <= n ->
        s_child s' c = Stopped /\ s_down s' c = [] /\ s_up s' c = [])).
Proof.
  intros T A answer n sub rec s H. destruct (execution_inv _ _ _ _ _ H) as (I1 & I2 & I3 & I4 & I5 & I6 & I7). split.
  - intros Hc. destruct (closeout_spec _ I1) as (C1 & C2). unfold parent_close. split.
    + intros (s' & E). destruct (list_eq_nil_dec (irecv_handles (s_queue s))) as [K|K].
      * now rewrite K, app_nil_r in I6.
      * rewrite (C2 K) in E. discriminate.
    + intros Hp. assert (E : irecv_handles (s_queue s) = []).
      { apply Permutation_length in Hp. apply Permutation_length in I6. rewrite app_length in I6.
        destruct (irecv_handles (s_queue s)); auto. simpl in I6. lia. }
      rewrite (C1 E). eauto.
  - intros Hc. destruct (I5 Hc) as (K1 & K2). split; [now rewrite K1, app_nil_r in I6|].
    intros k s' Hs. split; [eapply child_steps_bound; eauto|]. intros Hst c Hr.
    assert (Ec : s_closed s' = true).
    { clear -Hs Hc. induction Hs as [|s c s1 k s2 H1 H2 IH]; auto. apply IH.
      destruct (child_step_local _ _ _ _ H1) as (_ & -> & _). exact Hc. }
    destruct (execution_inv _ _ _ _ _ (execution_steps _ _ _ _ _ _ _ H Hs)) as (_ & _ & _ & _ & J5 & _).
    destruct (proj2 (J5 Ec) c Hr) as (U & [(D & P)|(D & P)]); auto.
    exfalso. pose proof (Hst c) as E. unfold child_step in E. destruct P as [P|P]; rewrite P in E; [rewrite D in E|]; discriminate.
Qed.
Print Assumptions C66_stops.

(** A task that cannot be done is never returned: whatever happens later, it stays outstanding, waiting
    for all requests never returns and the queue cannot be closed. *)
Theorem C66_crash : forall (T A : Type) (answer : T -> option A) n sub rec (s : system T A) h, execution answer n sub rec s ->
  In h sub -> answer (h_task h) = None ->
  In h (irecv_handles (s_queue s)) /\ ~ In h (map fst rec) /\ s_closed s = false /\ parent_close s = None /\
  (forall done, parent_collect s BlockAll done = None) /\
  (forall mode done s' l, mpi_reports (s_queue s) mode done -> parent_collect s mode done = Some (s', l) -> ~ In h (map fst l)).
Proof.
  intros T A answer n sub rec s h H Hin Hno. pose proof (execution_inv _ _ _ _ _ H) as Hinv.
  destruct Hinv as (I1 & I2 & I3 & I4 & I5 & I6 & I7).
  assert (Hr : ~ In h (map fst rec)).
  { intros K. apply in_map_iff in K as (ha & <- & K). rewrite Forall_forall in I7. rewrite (I7 _ K) in Hno. discriminate. }
  assert (Ho : In h (irecv_handles (s_queue s))).
  { apply (Permutation_in _ I6), in_app_iff in Hin as [K|K]; auto. contradiction. }
  assert (Hc : s_closed s = false).
  { destruct (s_closed s) eqn:E; auto. destruct (I5 eq_refl) as (K & _). rewrite K in Ho. contradiction. }
  split; auto. split; auto. split; auto.
  assert (Hcol : forall mode done s' l, mpi_reports (s_queue s) mode done -> parent_collect s mode done = Some (s', l) -> ~ In h (map fst l)).
  { intros mode done s' l Hm Hp K. pose proof (Inv_collect answer n sub rec s mode done s' l
      (conj I1 (conj I2 (conj I3 (conj I4 (conj I5 (conj I6 I7)))))) Hc Hm Hp) as (_ & _ & _ & _ & _ & _ & J7).
    apply in_map_iff in K as (ha & <- & K). rewrite Forall_forall in J7.
    rewrite (J7 ha) in Hno; [discriminate|]. apply in_app_iff. auto. }
  split.
  { unfold parent_close. rewrite (proj2 (closeout_spec _ I1)); auto. intros E. rewrite E in Ho. contradiction. }
  split; [|exact Hcol].
  assert (Hm : mpi_reports (s_queue s) BlockAll []) by (split; [constructor|split; [contradiction|discriminate]]).
  intros done. assert (E : parent_collect s BlockAll done = parent_collect s BlockAll []) by reflexivity. rewrite E.
  destruct (parent_collect s BlockAll []) as [[s' l]|] eqn:Ep; auto. exfalso.
  apply (Hcol _ _ _ _ Hm Ep). unfold parent_collect in Ep.
  destruct (collect (s_queue s) BlockAll []) as [[q hs]|] eqn:Ecl; [|discriminate].
  destruct (take_all hs (s_up s)) as [[la up]|] eqn:Et; [|discriminate]. injection Ep as <- <-.
  destruct (collect_case _ _ _ _ _ I1 Hm Ecl) as (K1 & _ & _ & _ & K5).
  assert (Ehs : hs = irecv_handles (s_queue s)).
  { apply map_Some_inj. rewrite <- (map_nth_error_seq (irecv_handles (s_queue s))). unfold reported, fancy_get in K5. apply mapM_Some in K5.
    clear -K5. induction K5; simpl; congruence. }
  assert (L : List.length la = List.length hs).
  { clear -Et. revert Et. generalize (s_up s) as u. revert la up. induction hs as [|x t IH]; intros la up u E; simpl in E.
    - now injection E as <- <-.
    - destruct (take (h_tag x) (u (h_child x))) as [[a r]|]; [|discriminate].
      destruct (take_all t (setf u (h_child x) r)) as [[l1 u1]|] eqn:E1; [|discriminate]. injection E as <- <-. simpl. f_equal. eauto. }
  rewrite <- Ehs in Ho. clear -Ho L. revert la L. induction hs as [|x t IH]; intros [|a la] L; simpl in *; try discriminate; try contradiction.
  destruct Ho as [->|Ho]; auto.
Qed.
Print Assumptions C66_crash.

(** The work a child does today raises for every task: nothing is ever returned to the parent, whatever
    is submitted, and a parent that has submitted something never ends. *)
Theorem C66_child_refuted : forall fill n sub rec (s : system value value), execution (do_child_answer fill) n sub rec s ->
  rec = [] /\
  (sub <> [] -> parent_close s = None /\
     forall mode done s' l, mpi_reports (s_queue s) mode done -> parent_collect s mode done = Some (s', l) -> l = []).
Proof.
  intros fill n sub rec s H.
  assert (Hno : forall task, do_child_answer fill task = None).
  { intros task. unfold do_child_answer, child_answer.
    destruct (getitem task "region"), (getitem task "active"), (getitem task "fixed"), (getitem task "bounds"); reflexivity. }
  destruct (execution_inv _ _ _ _ _ H) as (I1 & I2 & I3 & I4 & I5 & I6 & I7).
  assert (Hl : forall l : list (handle value * value), Forall (fun ha => do_child_answer fill (h_task (fst ha)) = Some (snd ha)) l -> l = []).
  { intros [|ha l] F; auto. inversion F as [|x y K _]; subst. rewrite Hno in K. discriminate. }
  split; [now apply Hl|]. intros Hne. destruct sub as [|h sub]; [congruence|].
  destruct (C66_crash _ _ (do_child_answer fill) n (h :: sub) rec s h H (or_introl eq_refl) (Hno _)) as (Ho & _ & Hc & Hcl & _ & _).
  split; auto. intros mode done s' l Hm Hp. apply Hl.
  pose proof (Inv_collect _ n (h :: sub) rec s mode done s' l (conj I1 (conj I2 (conj I3 (conj I4 (conj I5 (conj I6 I7)))))) Hc Hm Hp)
    as (_ & _ & _ & _ & _ & _ & J7). apply Forall_app in J7. tauto.
Qed.
Print Assumptions C66_child_refuted.

(** Twice over: the stand-in for the work indexes the tuple it is handed by name, and what it would
    return for a dictionary carries that dictionary's parameters but cannot be taken apart. *)
Theorem C66_dummy_refuted :
  (forall l, dummy_work (Tuple l) = None) /\
  (forall a f rest, exists w, dummy_work (Dict (("active", a) :: ("fixed", f) :: rest)%string) = Some w /\
     (exists fields, w = Namespace fields /\ lookup "active" fields = Some a /\ lookup "fixed" fields = Some f) /\
     forall n, unpack n w = None).
Proof.
  split; [reflexivity|]. intros a f rest. eexists. split; [reflexivity|]. split; [|reflexivity].
  eexists. repeat split.
Qed.
Print Assumptions C66_dummy_refuted.

(** With work that returns what the loop takes apart, the answer carries the result, its covariances and
    the filled rows. *)
Theorem C66_content : forall work fill task r a f b out step stats model r' a' f' b' final covs,
  getitem task "region" = Some r -> getitem task "active" = Some a -> getitem task "fixed" = Some f -> getitem task "bounds" = Some b ->
  work (Tuple [r; a; f; b]) = Some (Tuple [Tuple [out; step; stats]; Tuple [r'; a'; f'; b']; model]) ->
  fill out [r'; a'; f'; model; b'; step; stats] = Some (final, covs) ->
  exists ans, child_answer work fill task = Some ans /\ getitem ans "final" = Some final /\
              getitem ans "covs" = Some covs /\ getitem ans "out" = Some out.
Proof.
  intros work fill task r a f b out step stats model r' a' f' b' final covs H1 H2 H3 H4 Hw Hf.
  unfold child_answer. rewrite H1, H2, H3, H4, Hw. simpl. rewrite Hf. eexists. split; [reflexivity|]. auto.
Qed.
Print Assumptions C66_content.

(** ** The default tag *)
(** Histories of a queue in which k submissions were made with the default tag *)
Inductive tag_history {T} (n : nat) : nat -> queue T -> Prop :=
| th_new : tag_history n 0 (new_queue n)
| th_submit : forall k q task tag q' child, tag_history n k q -> submit q task tag = Some (q', child) -> tag_history n k q'
| th_collect : forall k q mode done q' res, tag_history n k q -> mpi_reports q mode done -> collect q mode done = Some (q', res) -> tag_history n k q'
| th_any : forall k q q', tag_history n k q -> submit_any q = Some q' -> tag_history n (S k) q'.

(** Each submission with the default tag loses a child for good, and one is enough for the queue never
    to be closed. *)
Theorem C66_default_tag_refuted : forall T n k (q : queue T), tag_history n k q ->
  List.length (idle q) + List.length (irecv_handles q) + k = n /\ (0 < k -> closeout q = None).
Proof.
  intros T n k q H.
  assert (Hk : n_children q = n /\ busy q = map h_child (irecv_handles q) /\ List.length (idle q) + List.length (irecv_handles q) + k = n).
  { induction H as [|k q task tag q' child H (N & B & L) Hs|k q mode done q' res H (N & B & L) Hm Hc|k q q' H (N & B & L) Hs].
    - simpl. rewrite seq_length. repeat split; auto; lia.
    - unfold submit in Hs. destruct (idle q) as [|c rest] eqn:E; [discriminate|].
      destruct (memn c (busy q)); [discriminate|]. injection Hs as <- <-. simpl. rewrite map_app, <- B, app_length. simpl in *.
      repeat split; auto; lia.
    - destruct (list_eq_nil_dec (irecv_handles q)) as [E|E].
      + rewrite (collect_empty _ _ _ E) in Hc. destruct mode; try discriminate. injection Hc as <- <-. auto.
      + unfold collect in Hc. set (inds := match mode with BlockAll => seq 0 (List.length (irecv_handles q)) | _ => done end) in *.
        destruct Hm as (Hnd & Hlt & _).
        assert (Hnd' : NoDup inds) by (unfold inds; destruct mode; auto; apply seq_NoDup).
        assert (Hlt' : forall i, In i inds -> i < List.length (irecv_handles q)).
        { unfold inds. destruct mode; auto. intros i Hi. apply in_seq in Hi. lia. }
        destruct (pop_loop_spec (sorted_reverse inds) q B (sorted_reverse_sorted inds)) as (q1 & popped & K1 & K2 & K3 & K4 & K5 & K6).
        { eapply Permutation_NoDup; [symmetry; apply sorted_reverse_perm|auto]. }
        { intros i Hi. apply Hlt'. eapply Permutation_in; [apply sorted_reverse_perm|auto]. }
        rewrite K1 in Hc. clearbody inds.
        assert (Hq : q' = q1).
        { destruct (irecv_handles q); [congruence|]. destruct mode; destruct (fancy_get _ inds); try discriminate;
            destruct (nodupb (idle q1)); try discriminate; congruence. }
        subst q1. apply Permutation_length in K3. rewrite app_length in K3. rewrite K5, app_length, map_length.
        repeat split; auto; [congruence|lia].
    - unfold submit_any in Hs. destruct (idle q) as [|c rest] eqn:E; [discriminate|].
      destruct (memn c (busy q)); [discriminate|]. injection Hs as <-. simpl in *. repeat split; auto; lia. }
  destruct Hk as (N & B & L). split; auto. intros Hp. unfold closeout. rewrite N.
  destruct (Nat.eqb_spec (List.length (idle q)) n); [|reflexivity]. simpl.
  destruct (Nat.eqb_spec (List.length (irecv_handles q)) 0); [|reflexivity]. lia.
Qed.
Print Assumptions C66_default_tag_refuted.

(** ** Cases *)
(** Executions given by a list of steps *)
Inductive move (T : Type) := Submit (task : T) (tag : nat) | Collect (mode : blocking_mode) (done : list nat) | Child (c : nat) | Close.
Arguments Submit {T}. Arguments Collect {T}. Arguments Child {T}. Arguments Close {T}.
Definition reports {T} (q : queue T) (mode : blocking_mode) (done : list nat) : bool :=
  nodupb done && forallb (fun i => i <? List.length (irecv_handles q)) done && match done with [] => match mode with Blocking => false | _ => true end | _ => true end.
Definition play1 {T A} (answer : T -> option A) (st : list (handle T) * list (handle T * A) * system T A) (m : move T) :=
  let '(sub, rec, s) := st in
  match m with
  | Child c => match child_step answer s c with Some s' => Some (sub, rec, s') | None => None end
  | _ =>
    if s_closed s then None else
    match m with
    | Submit task tag => match parent_submit s task tag with Some (s', c) => Some (sub ++ [mkHandle c tag task], rec, s') | None => None end
    | Collect mode done =>
      if reports (s_queue s) mode done then match parent_collect s mode done with Some (s', l) => Some (sub, rec ++ l, s') | None => None end else None
    | _ => match parent_close s with Some s' => Some (sub, rec, s') | None => None end
    end
  end.
Fixpoint play {T A} (answer : T -> option A) (st : list (handle T) * list (handle T * A) * system T A) (ms : list (move T)) :=
  match ms with [] => Some st | m :: t => match play1 answer st m with Some st' => play answer st' t | None => None end end.
Lemma reports_ok T (q : queue T) mode done : reports q mode done = true -> mpi_reports q mode done.
Proof.
  unfold reports. intros H. apply andb_prop in H as [H H3]. apply andb_prop in H as [H1 H2]. split; [now apply nodupb_NoDup|]. split.
  - intros i Hi. rewrite forallb_forall in H2. apply H2, Nat.ltb_lt in Hi. auto.
  - intros -> _ ->. discriminate.
Qed.
Lemma play_execution T A (answer : T -> option A) n : forall ms sub rec s sub' rec' s', execution answer n sub rec s ->
  play answer (sub, rec, s) ms = Some (sub', rec', s') -> execution answer n sub' rec' s'.
Proof.
  induction ms as [|m ms IH]; intros sub rec s sub' rec' s' E H; cbn [play] in H; [now injection H as <- <- <-|].
  destruct (play1 answer (sub, rec, s) m) as [[[sub1 rec1] s1]|] eqn:P; [|discriminate]. apply (IH sub1 rec1 s1); auto. clear H IH.
  unfold play1 in P. destruct m as [task tag|mode done|c|].
  - destruct (s_closed s) eqn:C; [discriminate|]. destruct (parent_submit s task tag) as [[s2 c]|] eqn:Q; [|discriminate]. injection P as <- <- <-. eapply ex_submit; eauto.
  - destruct (s_closed s) eqn:C; [discriminate|]. destruct (reports (s_queue s) mode done) eqn:W; [|discriminate].
    destruct (parent_collect s mode done) as [[s2 l]|] eqn:Q; [|discriminate]. injection P as <- <- <-. eapply ex_collect; eauto. now apply reports_ok.
  - destruct (child_step answer s c) as [s2|] eqn:Q; [|discriminate]. injection P as <- <- <-. eapply ex_child; eauto.
  - destruct (s_closed s) eqn:C; [discriminate|]. destruct (parent_close s) as [s2|] eqn:Q; [|discriminate]. injection P as <- <- <-. eapply ex_close; eauto.
Qed.

(** Two children, three tasks: the second child answers first, the first child is given another task
    while it is still freeing memory, the parent waits for all and closes. *)
Example C66_case :
  let ans := fun k : nat => Some (10 * k) in
  exists s rec, execution ans 2 [mkHandle 1 1 7; mkHandle 2 2 8; mkHandle 2 3 9] rec s /\
    rec = [(mkHandle 2 2 8, 80); (mkHandle 1 1 7, 70); (mkHandle 2 3 9, 90)] /\
    s_closed s = true /\ s_child s 1 = Stopped /\ s_child s 2 = Stopped.
Proof.
  intros ans.
  assert (H : match play ans ([], [], start 2) [Submit 7 1; Submit 8 2; Child 1; Child 2; Child 2; Collect Blocking [1]; Submit 9 3; Child 2; Child 2;
      Child 1; Child 2; Collect BlockAll []; Close; Child 2; Child 2; Child 1; Child 1] with
    | Some (sub, rec, s) => sub = [mkHandle 1 1 7; mkHandle 2 2 8; mkHandle 2 3 9] /\ rec = [(mkHandle 2 2 8, 80); (mkHandle 1 1 7, 70); (mkHandle 2 3 9, 90)] /\
        s_closed s = true /\ s_child s 1 = Stopped /\ s_child s 2 = Stopped
    | None => False end) by (vm_compute; repeat split).
  destruct (play ans ([], [], start 2) _) as [[[sub rec] s]|] eqn:E; [|contradiction]. destruct H as (-> & H). exists s, rec. split; [|exact H].
  exact (play_execution _ _ ans 2 _ _ _ _ _ _ _ (ex_start ans 2) E).
Qed.

(** Two children of the code as it is, one task. *)
Example C66_child_case :
  let task := Dict [("region", Obj 1); ("active", Obj 2); ("fixed", Obj 3); ("bounds", Obj 4)]%string in
  exists s, execution (do_child_answer (fun _ _ => None)) 2 [mkHandle 1 1 task] [] s /\ s_child s 1 = Crashed /\ parent_close s = None.
Proof.
  cbv zeta. pose proof (ex_start (do_child_answer (fun _ _ => None)) 2) as E.
  pose proof (ex_submit _ _ _ _ _ (Dict [("region", Obj 1); ("active", Obj 2); ("fixed", Obj 3); ("bounds", Obj 4)]%string) 1 _ _ E eq_refl eq_refl) as E1.
  pose proof (ex_child _ _ _ _ _ 1 _ E1 eq_refl) as E2.
  pose proof (ex_child _ _ _ _ _ 1 _ E2 eq_refl) as E3.
  eexists. split; [exact E3|]. split; reflexivity.
Qed.

(** Three children, one of them lost. *)
Example C66_tag_case : exists q, @tag_history nat 3 1 q /\ idle q = [3] /\ List.length (irecv_handles q) = 1 /\ closeout q = None.
Proof.
  eexists. split.
  { exact (th_any _ _ _ _ (th_submit _ _ _ 5 1 _ _ (th_new 3) eq_refl) eq_refl). }
  repeat split; reflexivity.
Qed.

Example C66_content_case :
  let work := fun v => match v with Tuple [r; a; f; b] => Some (Tuple [Tuple [Obj 5; Obj 6; Obj 7]; v; Obj 8]) | _ => None end in
  let fill := fun out (l : list value) => Some (Tuple (firstn 2 l), out) in
  let task := Dict [("region", Obj 1); ("active", Obj 2); ("fixed", Obj 3); ("bounds", Obj 4); ("cov", Obj 9)]%string in
  exists ans, child_answer work fill task = Some ans /\ getitem ans "final" = Some (Tuple [Obj 1; Obj 2]) /\ getitem ans "covs" = Some (Obj 5).
Proof. eexists. repeat split. Qed.
