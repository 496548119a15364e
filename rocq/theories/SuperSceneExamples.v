(** A concrete one-dimensional sky used to exercise the theorems about the
    scene server, and the witness that refutes C06. *)
From Verif Require Import Np NpFacts SuperSceneModel SuperSceneSpec SuperSceneFacts SuperSceneHist.
From Coq Require Import Permutation Sorted Qabs.

Definition line_env (xs : list Q) : env := {|
  sky_to_scene := fun ra dec => (ra, dec);
  query_ball := fun ctr r =>
     filter (fun k => Qle_bool (Qabs (fst ctr - nth k xs 0)) r) (seq 0 (List.length xs));
  distance_to := fun ctr k => Qabs (fst ctr - nth k xs 0)%Q;
  argsort := argsort_ins
|}.

Lemma line_env_ok xs : env_ok (List.length xs) (line_env xs).
Proof.
  split; simpl.
  - intros. apply NoDup_filter, seq_NoDup.
  - intros. rewrite filter_In, in_seq, Qle_bool_iff. intuition lia.
  - intros l. apply (argsort_ins_ok l).
  - intros l. apply (argsort_ins_ok l).
Qed.

Definition ex_row (x rh : Q) : row :=
  mkRow 99 1 0 0 0
    [("F200W", 1); ("ra", x); ("dec", 0); ("q", 1); ("pa", 0); ("sersic", 2); ("rhalf", rh); ("extra", 7)]%string%Q.
Definition ex_xs : list Q := [0; 10; 12; 30]%Q.
Definition ex_cat : list row := map (fun x => ex_row x (1#10)) ex_xs.
Definition ex_config : config :=
  mkConfig ["F200W"%string] 256 (1#2) 2 1 10 5 1.
Definition ex_env := line_env ex_xs.
Definition ex_start := ingest ex_cat [[]; []; []; []] [[]; []; []; []].

Definition granted_state (r : checkout_result) (d : state) : state :=
  match r with CoGranted s _ => s | CoRefused s => s | CoCrash => d end.
Definition granted_patch (r : checkout_result) : patch :=
  match r with CoGranted _ p => p | _ => mkPatch ((0, 0), 0)%Q [] [] end.

(** Checkout around source 0 (active 0, fixed 1), checkout around source 2
    (active 1 and 2), a refused checkout around source 1, then the first patch
    comes back. *)
Definition ex_co1 := Eval vm_compute in checkout_region ex_env ex_config ex_start 0.
Definition ex_s1 := Eval vm_compute in granted_state ex_co1 ex_start.
Definition ex_p1 := Eval vm_compute in granted_patch ex_co1.
Definition ex_co2 := Eval vm_compute in checkout_region ex_env ex_config ex_s1 2.
Definition ex_s2 := Eval vm_compute in granted_state ex_co2 ex_start.
Definition ex_p2 := Eval vm_compute in granted_patch ex_co2.
Definition ex_ret : list row := map (fun r => setcol "ra" r (1#7)%Q) (p_active ex_p1).
Definition ex_args : checkin_args := mkArgs 128 None None (Some "patch1"%string).
Definition ex_s3 := Eval vm_compute in
  match checkin_region ex_config ex_s2 ex_ret (Some (p_fixed ex_p1)) ex_args with Some s => s | None => ex_start end.

Definition ex_history : list event := [EvOut ex_p1; EvOut ex_p2; EvRefused; EvIn ex_ret ex_args].

Lemma ex_history_ok : history ex_env ex_config ex_start ex_history ex_s3 [ex_p2].
Proof.
  assert (H1 : history ex_env ex_config ex_start ([] ++ [EvOut ex_p1]) ex_s1 ([] ++ [ex_p1])).
  { eapply h_grant with (k := 0%nat); [constructor|]. vm_compute. reflexivity. }
  assert (H2 : history ex_env ex_config ex_start (([] ++ [EvOut ex_p1]) ++ [EvOut ex_p2]) ex_s2
                 (([] ++ [ex_p1]) ++ [ex_p2])).
  { eapply h_grant with (k := 2%nat); [exact H1|]. vm_compute. reflexivity. }
  assert (H3 : history ex_env ex_config ex_start ((([] ++ [EvOut ex_p1]) ++ [EvOut ex_p2]) ++ [EvRefused]) ex_s2
                 (([] ++ [ex_p1]) ++ [ex_p2])).
  { eapply h_refuse with (k := 1%nat); [exact H2|]. vm_compute. reflexivity. }
  simpl in H3.
  apply (h_in _ _ _ _ ex_s2 [] ex_p1 [ex_p2] ex_ret ex_args ex_s3 H3).
  - vm_compute. reflexivity.
  - vm_compute. reflexivity.
Qed.

Lemma ex_patches :
  ids (p_active ex_p1) = [0]%Z /\ ids (p_fixed ex_p1) = [1]%Z /\
  ids (p_active ex_p2) = [2; 1]%Z /\ n_active ex_s3 = 2%Z /\
  total_niter 0 ex_history = 128%Z /\ labels_of 0 ex_history = ["patch1"%string].
Proof. vm_compute. repeat split; reflexivity. Qed.

(** ** C06 is false of the code *)
Lemma in_use_refuted_lemma :
  exists e c cat b covs evs s out p j rw,
    env_ok (List.length cat) e /\ history e c (ingest cat b covs) evs s out /\
    In p out /\ In (Z.of_nat j) (ids (p_active p)) /\ src s j = Some rw /\ is_valid rw = 1%Z.
Proof.
  exists ex_env, ex_config, ex_cat, [[]; []; []; []], [[]; []; []; []], ex_history, ex_s3, [ex_p2], ex_p2, 1%nat.
  eexists. split; [exact (line_env_ok ex_xs)|]. split; [exact ex_history_ok|].
  split; [left; reflexivity|]. split; [vm_compute; auto|]. split; vm_compute; reflexivity.
Qed.

(** ** What does hold: not valid until some patch containing the source returns. *)
Inductive quiet (e : env) (c : config) (j : nat) : state -> state -> Prop :=
| q_refl : forall s, quiet e c j s s
| q_grant : forall s s1 k s2 p,
    quiet e c j s s1 -> checkout_region e c s1 k = CoGranted s2 p -> quiet e c j s s2
| q_refuse : forall s s1 k s2,
    quiet e c j s s1 -> checkout_region e c s1 k = CoRefused s2 -> quiet e c j s s2
| q_in : forall s s1 act fx a s2,
    quiet e c j s s1 ->
    (forall r, In r (act ++ fx) -> (0 <= source_index r)%Z /\ source_index r <> Z.of_nat j) ->
    checkin_region c s1 act (Some fx) a = Some s2 -> quiet e c j s s2.

Lemma quiet_valid e c j s s' :
  quiet e c j s s' -> forall rw, src s j = Some rw -> is_valid rw = 0%Z ->
  exists rw', src s' j = Some rw' /\ is_valid rw' = 0%Z.
Proof.
  intros H. induction H; intros rw Hs Hv; eauto.
  - destruct (IHquiet rw Hs Hv) as (rw1 & H1 & Hv1).
    apply checkout_inv in H0 as (? & ? & ? & ? & ai & fi & _ & _ & _ & _ & Hrow & _).
    rewrite Hrow, H1. simpl. eexists. split; [reflexivity|]. simpl. destruct (memn j _); auto.
  - apply checkout_refused in H0. subst. eauto.
  - destruct (IHquiet rw Hs Hv) as (rw1 & H2 & Hv1).
    apply checkin_inv in H1 as (ai & fi & Hai & Hfi & _ & Hother & _).
    assert (Hnp : forall r k, In r (act ++ fx) -> np_index (List.length (sourcecat s1)) (source_index r) = Some k -> k <> j).
    { intros r k Hr Hk Ekj. subst k. destruct (H0 r Hr) as [Hpos Hne]. unfold np_index in Hk.
      destruct ((0 <=? source_index r) && (source_index r <? _))%Z eqn:E1.
      - injection Hk as Hk. lia.
      - destruct ((- _ <=? source_index r) && (source_index r <? 0))%Z eqn:E2; [lia|discriminate]. }
    assert (Hna : ~ In j ai).
    { intros Hj. apply In_nth_error in Hj as (k & Hk).
      destruct (Forall2_nth_error_r _ _ _ _ _ Hai Hk) as (r & Hr & Hx).
      eapply Hnp; eauto. apply in_or_app; left; eapply nth_error_In; eauto. }
    assert (Hnf : ~ In j fi).
    { intros Hj. apply In_nth_error in Hj as (k & Hk).
      destruct (Forall2_nth_error_r _ _ _ _ _ Hfi Hk) as (r & Hr & Hx).
      eapply Hnp; eauto. apply in_or_app; right; eapply nth_error_In; eauto. }
    rewrite Hother, H2 by assumption. simpl. apply memn_nIn in Hnf. rewrite Hnf. eauto.
Qed.

Lemma in_use_lemma e c s k s1 p j s2 :
  (forall i rw, src s i = Some rw -> source_index rw = Z.of_nat i) ->
  checkout_region e c s k = CoGranted s1 p ->
  In (Z.of_nat j) (ids (p_active p) ++ ids (p_fixed p)) ->
  quiet e c j s1 s2 ->
  exists rw, src s2 j = Some rw /\ is_valid rw = 0%Z.
Proof.
  intros Hidx Hco Hin Hq.
  apply checkout_inv in Hco as (? & ? & ? & ? & ai & fi & _ & _ & _ & _ & Hrow & _ & Ha & Hf & _).
  assert (Hidx' : forall j rw, src s1 j = Some rw -> source_index rw = Z.of_nat j).
  { intros i rw Hj. rewrite Hrow in Hj. destruct (src s i) as [rw0|] eqn:E; [|discriminate].
    injection Hj as <-. simpl. eauto. }
  rewrite (fetched_ids _ _ _ Hidx' Ha), (fetched_ids _ _ _ Hidx' Hf), <- map_app in Hin.
  apply in_map_iff in Hin as (i & Ei & Hi). apply Nat2Z.inj in Ei. subst i.
  assert (Hs : exists rw, src s1 j = Some rw /\ is_valid rw = 0%Z).
  { assert (Hlt : src s1 j <> None).
    { apply in_app_or in Hi as [Hi|Hi]; apply In_nth_error in Hi as (m & Hm).
      - unfold fancy_get in Ha. apply mapM_Some in Ha.
        destruct (Forall2_nth_error _ _ _ _ _ Ha Hm) as (y & _ & Hy). unfold src. congruence.
      - unfold fancy_get in Hf. apply mapM_Some in Hf.
        destruct (Forall2_nth_error _ _ _ _ _ Hf Hm) as (y & _ & Hy). unfold src. congruence. }
    rewrite Hrow in *. destruct (src s j); [|simpl in Hlt; congruence].
    eexists. split; [reflexivity|]. simpl. apply memn_In in Hi. now rewrite Hi. }
  destruct Hs as (rw & Hs & Hv). eapply quiet_valid; eauto.
Qed.
