(** C82: does a run come to its end?

    The parent loop (dispatcher.py 156-246 with superscene.py 98-105, 229-349,
    372-465, modelled in DispatchModel and SuperSceneModel) goes on while a source
    has fewer iterations than the target.  Proved: when there is room for every
    source in a patch of its own, no pass fails and the loop ends within twice
    the number of rounds of sampling that are still wanted, provided the seeds
    are drawn among the sources that want them (exp_weight, 467-479, favours
    them); from every state of every run such an end can be reached.  Refuted
    without room: a source wider than the maximal patch radius, or one crowded
    out by neighbours, is never fitted and the loop goes on for ever. *)
From Verif Require Import Np NpFacts SuperSceneModel SuperSceneSpec SuperSceneFacts SuperSceneHist SuperSceneFrame
     SuperSceneExamples DispatchModel DispatchSpec DispatchFacts DispatchProps DispatchTotal EndFacts.
From Coq Require Import Permutation.
From Coq Require Qabs.

(** Source [k] still wants iterations. *)
Definition wanting (c : config) (s : state) (k : nat) : Prop :=
  exists rw, src s k = Some rw /\ (Z.abs (n_iter rw) < target_niter c)%Z.

(** [m] passes of the loop from [st] to [st'] whose seeds all want iterations. *)
Inductive steered (e : env) (c : config) (label : nat -> string) (draws : Z)
          (ans : handle patch -> answer) (st : parent) : nat -> parent -> Prop :=
| steered_none : steered e c label draws ans st 0 st
| steered_pass : forall m st1 seeds done s1 q1 tid mode st2 results,
    steered e c label draws ans st m st1 ->
    undone c (sceneDB st1) = true -> seeds <> [] -> (forall k, In k seeds -> wanting c (sceneDB st1) k) ->
    submit_phase e c st1 seeds = Ready s1 q1 tid mode -> mpi_reports q1 mode done ->
    loop_body e c label draws ans st1 seeds done = Next st2 results ->
    steered e c label draws ans st (S m) st2.

(** Rounds of [draws] iterations that the sources of a catalog still want. *)
Definition rounds_wanted (c : config) (draws : Z) (s : state) : nat :=
  list_sum (map (fun r => Z.to_nat ((target_niter c - Z.abs (n_iter r) + (draws - 1)) / draws)) (sourcecat s)).

Section Pass.
Context (e : env) (c : config) (label : nat -> string) (draws : Z) (ans : handle patch -> answer)
        (n : nat) (cat : list row) (b : list bounds_row) (cv : list matrix).
Hypothesis He : env_ok (List.length cat) e.
Hypothesis Hans : answers_ok ans.
Hypothesis Hac : answers_complete c ans.
Hypothesis Hn : 1 <= n.
Hypothesis Hm : 1 <= maxactive c.
Hypothesis Hd : (0 < draws)%Z.
Hypothesis Hns : (0 <= nscale c)%Q.
Hypothesis Hcols : forall r f, In r cat -> In f (fitted_columns c) -> exists v, getcol r f = Some v.
Hypothesis Hpos : forall r, In r cat -> (0 <= n_iter r)%Z.
Hypothesis Hroom : forall j r, nth_error cat j = Some r -> roomy e c j r.
Hypothesis Haroom : forall h r j, In r (final (ans h)) -> source_index r = Z.of_nat j -> roomy e c j r.
Let s0 := ingest cat b cv.
Let N := List.length cat.
Notation runs := (run e c label draws ans n s0).

Definition wants (tr : list (nat * list (handle patch))) (j : nat) : nat :=
  match nth_error cat j with Some r => rounds c draws (n_iter r) | None => 0 end - times j (collected tr).
Definition potential (tr : list (nat * list (handle patch))) (st : parent) : Z :=
  (2 * Z.of_nat (total (wants tr) N)
   + Z.of_nat (how_many (fun h => negb (useful (wants tr) N h)) (irecv_handles (pqueue st)))
   - Z.of_nat (how_many (useful (wants tr) N) (irecv_handles (pqueue st))))%Z.

Lemma out_apart evs s out hs : history e c s0 evs s out -> Permutation out (map h_task hs) -> apart hs.
Proof.
  intros Hh Hp. pose proof (inv_nodup _ _ _ _ _ (history_inv _ _ _ _ _ _ _ _ He Hh)) as Hnd.
  unfold apart, members, all_active in *. rewrite <- (map_map h_task (fun p => ids (p_active p))).
  assert (apart_ : forall l l' : list patch, Permutation l l' ->
    Permutation (concat (map (fun p => ids (p_active p)) l)) (concat (map (fun p => ids (p_active p)) l'))).
  { intros l l' H. induction H; simpl; auto.
    - now apply Permutation_app_head.
    - rewrite !app_assoc. apply Permutation_app_tail. apply Permutation_app_comm.
    - eauto using perm_trans. }
  eapply Permutation_NoDup; [apply apart_; exact Hp|exact Hnd].
Qed.

Lemma rooms tr st : runs tr st -> forall j rw, src (sceneDB st) j = Some rw -> roomy e c j rw.
Proof.
  intros Hr.
  set (P := fun (j : nat) (r : row) => (forall f, In f (fitted_columns c) -> exists v, getcol r f = Some v) /\ roomy e c j r).
  assert (Pext : forall j r r', P j r -> (forall f, In f (fitted_columns c) -> getcol r' f = getcol r f) -> P j r').
  { intros j r r' [H1 (ra & dec & rh & K1 & K2 & K3 & K4)] H2. split.
    - intros f Hf. rewrite H2 by auto. apply H1. exact Hf.
    - exists ra, dec, rh. rewrite !H2; [auto 6|apply fitted_rhalf|apply fitted_dec|apply fitted_ra]. }
  assert (Pcols : forall j r, P j r -> forall f, In f (fitted_columns c) -> exists v, getcol r f = Some v)
    by (intros j r [H _]; exact H).
  assert (HansP : forall h r j, In r (final (ans h)) -> source_index r = Z.of_nat j -> P j r).
  { intros h r j H1 H2. split; [intros f Hf; eapply Hac; eauto|eapply Haroom; eauto]. }
  assert (H0 : everywhere P (ingest cat b cv)).
  { intros j rw Hj. unfold src, ingest in Hj. cbn [sourcecat] in Hj. rewrite set_catalog_nth in Hj.
    destruct (nth_error cat j) as [r|] eqn:E; [|discriminate]. injection Hj as <-. apply (Pext j r).
    - split; [|auto]. intros f Hf. apply (Hcols r f); auto. eapply nth_error_In; eauto.
    - intros; reflexivity. }
  intros j rw Hj. exact (proj2 (run_keeps e c P Pext Pcols label draws ans n cat b cv He Hans Hn HansP tr st H0 Hr j rw Hj)).
Qed.

(** What a row of the catalog says it wants. *)
Lemma wants_row tr st j rw : runs tr st -> src (sceneDB st) j = Some rw ->
  (0 <= n_iter rw)%Z /\ rounds c draws (Z.abs (n_iter rw)) = wants tr j.
Proof.
  intros Hr Hj.
  destruct (run_inv e c label draws ans n cat b cv He Hans Hn _ _ Hr) as [_ _ _ (evs & out & Hh & _)].
  pose proof (inv_len _ _ _ _ _ (history_inv _ _ _ _ _ _ _ _ He Hh)) as HL.
  assert (Hlt : j < List.length cat). { rewrite <- HL. apply nth_error_Some. unfold src in Hj. congruence. }
  destruct (nth_error cat j) as [r0|] eqn:E0; [|apply nth_error_None in E0; lia].
  destruct (C13_results_checked_in_partial e c label draws ans n cat b cv tr st He Hans Hn Hr) as [K _].
  destruct (K j r0 rw E0 Hj) as [Ki _]. rewrite count_for_times in Ki.
  pose proof (Hpos r0 (nth_error_In _ _ E0)) as H0.
  assert (Hge : (0 <= n_iter rw)%Z) by (rewrite Ki; nia).
  split; [exact Hge|]. rewrite Z.abs_eq by exact Hge. unfold wants. rewrite E0, Ki. now apply rounds_step.
Qed.

Lemma map_nth_seq {A} (l : list A) (g : A -> nat) (f : nat -> nat) :
  (forall j x, nth_error l j = Some x -> g x = f j) -> map g l = map f (seq 0 (List.length l)).
Proof.
  enough (H : forall (l : list A) i (f : nat -> nat), (forall j x, nth_error l j = Some x -> g x = f (i + j)) ->
            map g l = map f (seq i (List.length l))) by exact (H l 0 f).
  clear. induction l as [|x l IH]; intros i f H; simpl; auto. f_equal.
  - rewrite (H 0 x eq_refl). f_equal. lia.
  - apply IH. intros j y Hy. rewrite (H (S j) y Hy). f_equal. lia.
Qed.

Lemma wanted_total tr st : runs tr st -> rounds_wanted c draws (sceneDB st) = total (wants tr) N.
Proof.
  intros Hr. unfold rounds_wanted, total. f_equal.
  destruct (run_inv e c label draws ans n cat b cv He Hans Hn _ _ Hr) as [_ _ _ (evs & out & Hh & _)].
  pose proof (inv_len _ _ _ _ _ (history_inv _ _ _ _ _ _ _ _ He Hh)) as HL. unfold N. rewrite <- HL.
  apply map_nth_seq. intros j x Hj. exact (proj2 (wants_row tr st j x Hr Hj)).
Qed.

(** One pass with seeds that want iterations. *)
Lemma pass_pays tr st seeds done s1 q1 tid mode st' results :
  runs tr st -> undone c (sceneDB st) = true -> seeds <> [] -> (forall k, In k seeds -> wanting c (sceneDB st) k) ->
  submit_phase e c st seeds = Ready s1 q1 tid mode -> mpi_reports q1 mode done ->
  loop_body e c label draws ans st seeds done = Next st' results ->
  runs (tr ++ [(tid, results)]) st' /\
  (potential (tr ++ [(tid, results)]) st' + 1 <= potential tr st)%Z.
Proof.
  intros Hr Hu Hs Hw Hph Hmpi Hb.
  assert (Hr' : runs (tr ++ [(tid, results)]) st') by (eapply run_step; eauto).
  split; [exact Hr'|].
  pose proof (run_inv e c label draws ans n cat b cv He Hans Hn _ _ Hr) as Hinv.
  destruct (phase1_spec e c label draws n cat b cv He Hn _ _ _ Hinv Hs) as [_ Hsp].
  destruct (Hsp _ _ _ _ Hph) as (Hq & Hnn & Hne & Hwait & Hnall & evs & out & Hh & Hp & _).
  pose proof (out_apart _ _ _ _ Hh Hp) as Hap.
  unfold loop_body in Hb. rewrite Hph in Hb.
  destruct (collect_spec q1 mode done Hq Hmpi Hne) as (q' & res & freed & K1 & K2 & K3 & K4 & K5 & K6 & K7).
  rewrite K1 in Hb. destruct (checkin_all c label draws tid ans s1 res) as [s'|] eqn:Ec; [|discriminate].
  injection Hb as Est Eres. subst st' results.
  set (f := wants tr). set (f' := wants (tr ++ [(tid, res)])).
  assert (Ef : forall j, f' j = f j - times j res).
  { intros j. unfold f', f, wants, collected. rewrite map_app, concat_app. simpl. rewrite app_nil_r.
    unfold times. rewrite how_many_app. lia. }
  pose proof (apart_perm _ _ (Permutation_sym K3) Hap) as Hap2.
  destruct (apart_app _ _ Hap2) as (Hres & Hrest & Hdis).
  (* collecting *)
  pose proof (useful_pays f N res Hres) as Hpay.
  assert (Etot : total f' N = total (fun j => f j - times j res) N).
  { apply list_sum_ext. intros j _. apply Ef. }
  assert (Hsame : forall h, In h (irecv_handles q') -> useful f' N h = useful f N h).
  { intros h Hin. unfold useful.
    assert (G : forall j, holds h j && (0 <? f' j) = holds h j && (0 <? f j)).
    { intros j. destruct (holds h j) eqn:E; [|reflexivity]. simpl. rewrite Ef, times_none; [now rewrite Nat.sub_0_r|].
      intros g Hg. destruct (holds g j) eqn:Eg; [|reflexivity].
      rewrite (Hdis g h j Hg Hin Eg) in E. discriminate. }
    induction (seq 0 N) as [|j l IH]; simpl; [reflexivity|]. now rewrite G, IH. }
  (* submitting *)
  assert (Hsub : (how_many (useful f N) (irecv_handles q1) = S (how_many (useful f N) (irecv_handles (pqueue st))) /\
                  how_many (fun h => negb (useful f N h)) (irecv_handles q1)
                  = how_many (fun h => negb (useful f N h)) (irecv_handles (pqueue st))) \/
                 (irecv_handles q1 = irecv_handles (pqueue st) /\ mode = Blocking)).
  { unfold submit_phase in Hph. destruct (try_checkout e c (sceneDB st) seeds) as [|s2 p|] eqn:Et; [| |discriminate].
    - injection Hph as _ <- _ <-. right. auto.
    - left. destruct (submit_spec (pqueue st) p (S (taskid st)) (li_q _ _ _ _ _ _ _ _ _ _ Hinv)) as [_ Hsome].
      destruct (submit (pqueue st) p (S (taskid st))) as [[q2 ch]|]; [|discriminate].
      destruct (Hsome _ _ eq_refl) as (_ & _ & Ehs & _).
      destruct (sparse c s2); [|discriminate]. injection Hph as _ <- _ _. rewrite Ehs, !how_many_app.
      assert (Eu : useful f N (mkHandle ch (S (taskid st)) p) = true).
      { destruct (try_checkout_seed _ _ _ _ _ _ Et) as (k & Hk & Hco).
        destruct (Hw k Hk) as (rw & Hsrc & Hlt).
        destruct (li_hist _ _ _ _ _ _ _ _ _ _ Hinv) as (evs0 & out0 & Hh0 & _).
        pose proof (history_inv _ _ _ _ _ _ _ _ He Hh0) as HI.
        assert (Hin : In (Z.of_nat k) (ids (p_active p))).
        { apply (seed_included e c (sceneDB st) k s2 p); auto.
          - now rewrite (inv_len _ _ _ _ _ HI).
          - apply (rooms tr st Hr).
          - apply (inv_idx _ _ _ _ _ HI). }
        unfold useful. apply existsb_exists. exists k. split.
        - apply in_seq. simpl. unfold N. rewrite <- (inv_len _ _ _ _ _ HI). split; [lia|].
          apply nth_error_Some. unfold src in Hsrc. congruence.
        - apply andb_true_iff. split.
          + unfold holds, members. simpl. now apply memZ_In.
          + apply Nat.ltb_lt. unfold f. destruct (wants_row tr st k rw Hr Hsrc) as [_ <-].
            now apply rounds_pos. }
      assert (E1 : how_many (useful f N) [mkHandle ch (S (taskid st)) p] = 1)
        by (unfold how_many; simpl; now rewrite Eu).
      assert (E2 : how_many (fun h => negb (useful f N h)) [mkHandle ch (S (taskid st)) p] = 0)
        by (unfold how_many; simpl; now rewrite Eu).
      rewrite E1, E2. lia. }
  assert (Hgot : mode = Blocking -> 1 <= List.length res).
  { intros ->. destruct Hmpi as (_ & _ & Hmp). specialize (Hmp eq_refl Hne). unfold reported in K2.
    destruct done as [|i d]; [congruence|]. unfold fancy_get in K2. simpl in K2.
    destruct (nth_error (irecv_handles q1) i); [|discriminate].
    destruct (mapM _ d); [|discriminate]. injection K2 as <-. simpl. lia. }
  unfold potential. cbn [pqueue]. fold f f'.
  rewrite (how_many_ext (useful f' N) (useful f N) (irecv_handles q') Hsame).
  rewrite (how_many_ext (fun h => negb (useful f' N h)) (fun h => negb (useful f N h)) (irecv_handles q'))
    by (intros h Hin; now rewrite Hsame).
  pose proof (how_many_perm (useful f N) _ _ K3) as P1. rewrite how_many_app in P1.
  pose proof (how_many_perm (fun h => negb (useful f N h)) _ _ K3) as P2. rewrite how_many_app in P2.
  pose proof (how_many_split (useful f N) res) as P3.
  destruct Hsub as [[S1 S2]|[S1 S2]].
  - lia.
  - rewrite S1 in P1, P2. specialize (Hgot S2). lia.
Qed.

Lemma potential_range tr st : runs tr st ->
  (0 <= potential tr st <= 2 * Z.of_nat (rounds_wanted c draws (sceneDB st))
                           + Z.of_nat (List.length (irecv_handles (pqueue st))))%Z.
Proof.
  intros Hr. rewrite (wanted_total tr st Hr). unfold potential.
  destruct (li_hist _ _ _ _ _ _ _ _ _ _ (run_inv e c label draws ans n cat b cv He Hans Hn _ _ Hr))
    as (evs & out & Hh & Hp & _).
  pose proof (useful_pays (wants tr) N _ (out_apart _ _ _ _ Hh Hp)) as K.
  pose proof (how_many_split (useful (wants tr) N) (irecv_handles (pqueue st))). lia.
Qed.

Lemma steered_runs tr st m st' : runs tr st -> steered e c label draws ans st m st' ->
  exists tr', runs tr' st' /\ (potential tr' st' + Z.of_nat m <= potential tr st)%Z.
Proof.
  intros Hr H. induction H as [|m st1 seeds done s1 q1 tid mode st2 results H IH Hu Hs Hw Hph Hmp Hb].
  - exists tr. split; [exact Hr|lia].
  - destruct IH as (tr' & Hr' & Hle).
    destruct (pass_pays _ _ _ _ _ _ _ _ _ _ Hr' Hu Hs Hw Hph Hmp Hb) as [K1 K2].
    exists (tr' ++ [(tid, results)]). split; [exact K1|lia].
Qed.

Lemma compact_next tr st seeds done : runs tr st -> seeds <> [] -> (forall k, In k seeds -> wanting c (sceneDB st) k) ->
  (forall s1 q1 tid mode, submit_phase e c st seeds = Ready s1 q1 tid mode -> mpi_reports q1 mode done) ->
  exists st' results, loop_body e c label draws ans st seeds done = Next st' results.
Proof.
  intros Hr Hs Hw Hmp.
  apply (C13_no_exception_partial e c label draws ans n cat b cv tr st); auto.
  - intros j r Hj. apply roomy_compact. auto.
  - intros h r j H1 H2. apply roomy_compact. eauto.
  - intros k Hk. destruct (Hw k Hk) as (rw & Hsrc & _).
    destruct (li_hist _ _ _ _ _ _ _ _ _ _ (run_inv e c label draws ans n cat b cv He Hans Hn _ _ Hr))
      as (evs & out & Hh & _).
    rewrite <- (inv_len _ _ _ _ _ (history_inv _ _ _ _ _ _ _ _ He Hh)).
    apply nth_error_Some. unfold src in Hsrc. congruence.
Qed.

Lemma undone_wanting s : undone c s = true -> exists k, wanting c s k.
Proof.
  unfold undone. intros H. apply existsb_exists in H as (rw & Hin & Hlt). apply Z.ltb_lt in Hlt.
  apply In_nth_error in Hin as (k & Hk). exists k, rw. auto.
Qed.

Lemma can_end : forall w tr st, runs tr st -> (potential tr st <= Z.of_nat w)%Z ->
  exists m st', steered e c label draws ans st m st' /\ undone c (sceneDB st') = false.
Proof.
  intros w tr st Hr Hw.
  enough (G : forall w m st1 tr1, steered e c label draws ans st m st1 -> runs tr1 st1 ->
            (potential tr1 st1 <= Z.of_nat w)%Z ->
            exists m st', steered e c label draws ans st m st' /\ undone c (sceneDB st') = false).
  { apply (G w 0 st tr); auto. constructor. }
  clear w tr Hr Hw. induction w as [|w IH]; intros m st1 tr1 Hst Hr Hle.
  all: destruct (undone c (sceneDB st1)) eqn:Hu; [|eauto].
  all: destruct (undone_wanting _ Hu) as (k & Hk).
  all: assert (Hw : forall i, In i [k] -> wanting c (sceneDB st1) i) by (intros i [<-|[]]; exact Hk).
  all: assert (Hs : [k] <> []) by discriminate.
  all: assert (Hmp : forall s1 q1 tid mode, submit_phase e c st1 [k] = Ready s1 q1 tid mode -> mpi_reports q1 mode [0]) by
    (intros s1 q1 tid mode Hph;
     destruct (phase1_spec e c label draws n cat b cv He Hn _ _ _ (run_inv e c label draws ans n cat b cv He Hans Hn _ _ Hr) Hs) as [_ Hsp];
     destruct (Hsp _ _ _ _ Hph) as (_ & _ & Hne & _);
     split; [repeat constructor; simpl; tauto|]; split; [|intros; discriminate];
     intros i [<-|[]]; destruct (irecv_handles q1); [congruence|simpl; lia]).
  all: destruct (compact_next tr1 st1 [k] [0] Hr Hs Hw Hmp) as (st2 & res & Hb).
  all: destruct (submit_phase e c st1 [k]) as [s1 q1 tid mode| |] eqn:Hph;
    [|unfold loop_body in Hb; rewrite Hph in Hb; discriminate|unfold loop_body in Hb; rewrite Hph in Hb; discriminate].
  all: destruct (pass_pays _ _ _ _ _ _ _ _ _ _ Hr Hu Hs Hw Hph (Hmp _ _ _ _ eq_refl) Hb) as [K1 K2].
  - pose proof (proj1 (potential_range _ _ K1)). lia.
  - apply (IH (S m) st2 (tr1 ++ [(tid, res)])); [|exact K1|lia].
    eapply steered_pass; eauto.
Qed.
End Pass.

(** C82: with room for every source, from every state of every run: passes whose
    seeds want iterations never fail, there are at most twice as many of them as
    rounds wanted (plus the tasks outstanding), and they lead to the end.  Missing from the full claim: sources without such room
    ([C82_wide], [C82_crowd_refuted]) and seeds that want nothing. *)
Theorem C82_ends_partial : forall e c label draws ans n cat b cv tr st,
  env_ok (List.length cat) e -> answers_ok ans -> answers_complete c ans -> 1 <= n -> 1 <= maxactive c ->
  (0 < draws)%Z -> (0 <= nscale c)%Q ->
  (forall r f, In r cat -> In f (fitted_columns c) -> exists v, getcol r f = Some v) ->
  (forall r, In r cat -> (0 <= n_iter r)%Z) ->
  (forall j r, nth_error cat j = Some r -> roomy e c j r) ->
  (forall h r j, In r (final (ans h)) -> source_index r = Z.of_nat j -> roomy e c j r) ->
  run e c label draws ans n (ingest cat b cv) tr st ->
  (* a bound on the number of passes *)
  (forall m st', steered e c label draws ans st m st' ->
     m <= 2 * rounds_wanted c draws (sceneDB st) + List.length (irecv_handles (pqueue st))) /\
  (* no pass fails *)
  (forall m st', steered e c label draws ans st m st' ->
   forall seeds done, seeds <> [] -> (forall k, In k seeds -> wanting c (sceneDB st') k) ->
     (forall s1 q1 tid mode, submit_phase e c st' seeds = Ready s1 q1 tid mode -> mpi_reports q1 mode done) ->
     exists st'' results, loop_body e c label draws ans st' seeds done = Next st'' results) /\
  (* the end *)
  (exists m st', steered e c label draws ans st m st' /\
     forall j rw, src (sceneDB st') j = Some rw -> (target_niter c <= Z.abs (n_iter rw))%Z).
Proof.
  intros e c label draws ans n cat b cv tr st He Ha Hac Hn Hm Hd Hns Hcols Hpos Hroom Haroom Hr.
  assert (Hrange : forall tr st, run e c label draws ans n (ingest cat b cv) tr st ->
    (0 <= potential c draws cat tr st <= 2 * Z.of_nat (rounds_wanted c draws (sceneDB st))
                           + Z.of_nat (List.length (irecv_handles (pqueue st))))%Z).
  { intros. eapply (potential_range e c label draws ans n cat b cv); eauto. }
  assert (Hruns : forall m st', steered e c label draws ans st m st' ->
    exists tr', run e c label draws ans n (ingest cat b cv) tr' st' /\
      (potential c draws cat tr' st' + Z.of_nat m <= potential c draws cat tr st)%Z).
  { intros. eapply (steered_runs e c label draws ans n cat b cv); eauto. }
  split; [|split].
  - intros m st' Hst. destruct (Hruns m st' Hst) as (tr' & Hr' & Hle).
    pose proof (Hrange _ _ Hr'). pose proof (Hrange _ _ Hr). lia.
  - intros m st' Hst seeds done Hs Hw Hmp. destruct (Hruns m st' Hst) as (tr' & Hr' & _).
    eapply (compact_next e c label draws ans n cat b cv); eauto.
  - assert (K : exists m st', steered e c label draws ans st m st' /\ undone c (sceneDB st') = false).
    { eapply (can_end e c label draws ans n cat b cv) with (w := Z.to_nat (potential c draws cat tr st)); eauto.
      pose proof (Hrange _ _ Hr). lia. }
    destruct K as (m & st' & K1 & K2).
    exists m, st'. split; [exact K1|]. intros j rw Hj.
    destruct (Z_lt_le_dec (Z.abs (n_iter rw)) (target_niter c)) as [Hlt|Hle]; [|exact Hle]. exfalso.
    enough (undone c (sceneDB st') = true) by congruence.
    apply existsb_exists. exists rw. split; [eapply nth_error_In; exact Hj|]. now apply Z.ltb_lt.
Qed.
Print Assumptions C82_ends_partial.
