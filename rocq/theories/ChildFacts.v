(** Executions of the parent with its children, and their invariant. *)
From Verif Require Import Np NpFacts DispatchModel DispatchSpec DispatchFacts ChildModel.
From Coq Require Import Permutation Sorted.
Import ListNotations.

Section Executions.
Context {T A : Type}.
Variable answer : T -> option A.
Notation system := (system T A).
Notation handle := (handle T).

(** Any interleaving of the steps of the parent and of its n children.  The lists are what was submitted
    and what was returned by collect, in order. *)
Inductive execution (n : nat) : list handle -> list (handle * A) -> system -> Prop :=
| ex_start : execution n [] [] (start n)
| ex_submit : forall sub rec s task tag s' c,
    execution n sub rec s -> s_closed s = false -> parent_submit s task tag = Some (s', c) ->
    execution n (sub ++ [mkHandle c tag task]) rec s'
| ex_collect : forall sub rec s mode done s' l,
    execution n sub rec s -> s_closed s = false -> mpi_reports (s_queue s) mode done -> parent_collect s mode done = Some (s', l) ->
    execution n sub (rec ++ l) s'
| ex_child : forall sub rec s c s',
    execution n sub rec s -> child_step answer s c = Some s' -> execution n sub rec s'
| ex_close : forall sub rec s s',
    execution n sub rec s -> s_closed s = false -> parent_close s = Some s' -> execution n sub rec s'.
(** k steps of the children alone *)
Inductive child_steps : system -> nat -> system -> Prop :=
| cs_none : forall s, child_steps s 0 s
| cs_more : forall s c s1 k s2, child_step answer s c = Some s1 -> child_steps s1 k s2 -> child_steps s (S k) s2.

Definition at_rest (p : phase T) : Prop := p = Listening \/ p = Freeing.
Definition idle_child (s : system) (c : nat) : Prop := s_down s c = [] /\ s_up s c = [] /\ at_rest (s_child s c).
Definition busy_child (s : system) (h : handle) : Prop :=
  let c := h_child h in
  (s_down s c = [(h_tag h, Some (h_task h))] /\ at_rest (s_child s c) /\ s_up s c = []) \/
  (s_down s c = [] /\ s_child s c = Working (h_tag h) (h_task h) /\ s_up s c = []) \/
  (exists a, s_down s c = [] /\ at_rest (s_child s c) /\ s_up s c = [(h_tag h, a)] /\ answer (h_task h) = Some a) \/
  (s_down s c = [] /\ s_child s c = Crashed /\ s_up s c = [] /\ answer (h_task h) = None).
Definition killed_child (s : system) (c : nat) : Prop :=
  s_up s c = [] /\ ((s_down s c = [(0, None)] /\ at_rest (s_child s c)) \/ (s_down s c = [] /\ s_child s c = Stopped)).
Definition other (s : system) (c : nat) : Prop := s_down s c = [] /\ s_up s c = [] /\ s_child s c = Listening.

Definition Inv (n : nat) (sub : list handle) (rec : list (handle * A)) (s : system) : Prop :=
  qok (s_queue s) /\ n_children (s_queue s) = n /\
  (forall c, ~ (1 <= c <= n) -> other s c) /\
  (s_closed s = false -> (forall c, In c (idle (s_queue s)) -> idle_child s c) /\
                         (forall h, In h (irecv_handles (s_queue s)) -> busy_child s h)) /\
  (s_closed s = true -> irecv_handles (s_queue s) = [] /\ forall c, 1 <= c <= n -> killed_child s c) /\
  Permutation sub (map fst rec ++ irecv_handles (s_queue s)) /\
  Forall (fun ha => answer (h_task (fst ha)) = Some (snd ha)) rec.

Lemma setf_same {B} (f : nat -> B) c v : setf f c v c = v.
Proof. unfold setf. now rewrite Nat.eqb_refl. Qed.
Lemma setf_other {B} (f : nat -> B) c v x : x <> c -> setf f c v x = f x.
Proof. intros H. unfold setf. now rewrite (proj2 (Nat.eqb_neq x c) H). Qed.

Lemma qok_nodup (q : queue T) : qok q -> NoDup (idle q ++ busy q).
Proof. intros [_ Hp]. eapply Permutation_NoDup; [symmetry; exact Hp|apply seq_NoDup]. Qed.
Lemma qok_range (q : queue T) c : qok q -> (In c (idle q) \/ In c (busy q) <-> 1 <= c <= n_children q).
Proof.
  intros [_ Hp]. rewrite <- in_app_iff. split; intros H.
  - apply (Permutation_in _ Hp), in_seq in H. lia.
  - apply (Permutation_in _ (Permutation_sym Hp)), in_seq. lia.
Qed.

Lemma take_one tag tag' (a b : A) r : take tag [(tag', a)] = Some (b, r) -> tag = tag' /\ a = b /\ r = [].
Proof. simpl. destruct (Nat.eqb_spec tag' tag); [intros [= <- <-]; auto|discriminate]. Qed.
Lemma take_all_spec (hs : list handle) : forall (up : nat -> list (nat * A)) l up',
  NoDup (map h_child hs) ->
  (forall h, In h hs -> up (h_child h) = [] \/ exists a, up (h_child h) = [(h_tag h, a)] /\ answer (h_task h) = Some a) ->
  take_all hs up = Some (l, up') ->
  List.length l = List.length hs /\ Forall (fun ha => answer (h_task (fst ha)) = Some (snd ha)) (combine hs l) /\
  (forall h, In h hs -> up' (h_child h) = [] /\ up (h_child h) <> []) /\
  (forall c, ~ In c (map h_child hs) -> up' c = up c).
Proof.
  induction hs as [|h t IH]; intros up l up' Hnd Hup H; simpl in H.
  - injection H as <- <-. simpl. repeat split; auto; contradiction.
  - destruct (take (h_tag h) (up (h_child h))) as [[a r]|] eqn:E; [|discriminate].
    destruct (take_all t (setf up (h_child h) r)) as [[l1 up1]|] eqn:E1; [|discriminate].
    injection H as <- <-. simpl in Hnd. inversion Hnd as [|x y Hni Hnd']; subst.
    assert (Ha : up (h_child h) = [(h_tag h, a)] /\ answer (h_task h) = Some a /\ r = []).
    { destruct (Hup h (or_introl eq_refl)) as [K|(b & K & K')]; rewrite K in E; [discriminate|].
      apply take_one in E as (_ & -> & ->). auto. }
    destruct Ha as (Ha & Haa & ->).
    assert (Hne : forall h', In h' t -> h_child h' <> h_child h).
    { intros h' Hi K. apply Hni. rewrite <- K. now apply in_map. }
    destruct (IH _ _ _ Hnd' (fun h' Hi => ltac:(rewrite setf_other by auto; apply Hup; simpl; auto)) E1)
      as (L & F & P & Q).
    split; [simpl; lia|]. split; [constructor; auto|]. split.
    + intros h' [<-|Hi].
      * rewrite Q by auto. rewrite setf_same. split; [reflexivity|]. rewrite Ha. discriminate.
      * destruct (P h' Hi) as (P1 & P2). rewrite setf_other in P2 by auto. auto.
    + intros c Hc. simpl in Hc. rewrite Q by auto. apply setf_other. intros ->. auto.
Qed.
Lemma take_all_total (hs : list handle) : forall (up : nat -> list (nat * A)), NoDup (map h_child hs) ->
  (forall h, In h hs -> exists a, up (h_child h) = [(h_tag h, a)]) -> exists l up', take_all hs up = Some (l, up').
Proof.
  induction hs as [|h t IH]; intros up Hnd Hup; simpl; [eauto|].
  simpl in Hnd. inversion Hnd as [|x y Hni Hnd']; subst.
  destruct (Hup h (or_introl eq_refl)) as (a & ->). simpl. rewrite Nat.eqb_refl.
  destruct (IH (setf up (h_child h) []) Hnd') as (l & up' & ->); [|eauto].
  intros h' Hi. rewrite setf_other; [apply Hup; simpl; auto|].
  intros K. apply Hni. rewrite <- K. now apply in_map.
Qed.

Lemma kill_all_spec l : forall (down : nat -> list (nat * option T)), NoDup l ->
  forall c, kill_all l down c = if in_dec Nat.eq_dec c l then down c ++ [(0, None)] else down c.
Proof.
  induction l as [|x t IH]; intros down Hnd c; [reflexivity|].
  inversion Hnd as [|x' y Hni Hnd']; subst. unfold kill_all. simpl fold_left. fold (kill_all t (setf down x (down x ++ [(0, None)]))).
  rewrite (IH _ Hnd' c). destruct (in_dec Nat.eq_dec c (x :: t)) as [Hi|Hn].
  - destruct (in_dec Nat.eq_dec c t) as [Ht|Ht].
    + rewrite setf_other; [reflexivity|]. intros ->. auto.
    + destruct Hi as [->|Hi]; [now rewrite setf_same|contradiction].
  - destruct (in_dec Nat.eq_dec c t) as [Ht|Ht]; [exfalso; apply Hn; now right|].
    apply setf_other. intros ->. apply Hn. now left.
Qed.

Lemma handle_child_range (q : queue T) h : qok q -> In h (irecv_handles q) -> 1 <= h_child h <= n_children q.
Proof.
  intros Hq Hi. apply qok_range; auto. right. destruct Hq as [-> _]. now apply in_map.
Qed.
Lemma handle_unique (q : queue T) h h' : qok q -> In h (irecv_handles q) -> In h' (irecv_handles q) -> h_child h = h_child h' -> h = h'.
Proof.
  intros Hq Hi Hi' E. pose proof (qok_nodup q Hq) as Hn. apply NoDup_app_iff in Hn as (_ & Hn & _).
  destruct Hq as [Hb _]. rewrite Hb in Hn. clear Hb. induction (irecv_handles q) as [|x t IH]; [contradiction|].
  simpl in Hn. inversion Hn as [|y z Hni Hn']; subst.
  destruct Hi as [<-|Hi], Hi' as [<-|Hi']; auto.
  - exfalso. apply Hni. rewrite E. now apply in_map.
  - exfalso. apply Hni. rewrite <- E. now apply in_map.
Qed.

(** A step of one child leaves the others alone *)
Lemma child_step_local s c s' : child_step answer s c = Some s' ->
  s_queue s' = s_queue s /\ s_closed s' = s_closed s /\
  forall x, x <> c -> s_down s' x = s_down s x /\ s_child s' x = s_child s x /\ s_up s' x = s_up s x.
Proof.
  unfold child_step. intros H.
  destruct (s_child s c); [destruct (s_down s c) as [|[tag m] r]| destruct (answer task) | | |]; try discriminate;
    injection H as <-; simpl; repeat split; auto; intros; now rewrite ?setf_other.
Qed.
Lemma child_step_idle s c s' : child_step answer s c = Some s' -> idle_child s c -> idle_child s' c.
Proof.
  unfold child_step. intros H (D & U & [P|P]); rewrite P in H; [rewrite D in H; discriminate|].
  injection H as <-. unfold idle_child. simpl. rewrite setf_same. unfold at_rest. auto.
Qed.
Lemma child_step_busy s h s' : child_step answer s (h_child h) = Some s' -> busy_child s h -> busy_child s' h.
Proof.
  unfold child_step, busy_child. cbv zeta. intros H [(D & [P|P] & U)|[(D & P & U)|[(a & D & [P|P] & U & K)|(D & P & U & K)]]]; rewrite P in H.
  - rewrite D in H. injection H as <-. right; left. simpl. rewrite !setf_same. auto.
  - injection H as <-. left. simpl. rewrite setf_same. unfold at_rest. auto.
  - destruct (answer (h_task h)) as [a|] eqn:E; injection H as <-.
    + right; right; left. exists a. simpl. rewrite !setf_same, U. unfold at_rest. auto.
    + right; right; right. simpl. rewrite !setf_same. auto.
  - rewrite D in H. discriminate.
  - injection H as <-. right; right; left. exists a. simpl. rewrite setf_same. unfold at_rest. auto.
  - discriminate.
Qed.
Lemma child_step_killed s c s' : child_step answer s c = Some s' -> killed_child s c -> killed_child s' c.
Proof.
  unfold child_step, killed_child. intros H (U & [(D & [P|P])|(D & P)]); rewrite P in H.
  - rewrite D in H. injection H as <-. simpl. rewrite !setf_same. auto.
  - injection H as <-. simpl. rewrite setf_same. unfold at_rest. auto.
  - discriminate.
Qed.
Lemma child_step_other s c : other s c -> child_step answer s c = None.
Proof. unfold child_step. intros (D & _ & ->). now rewrite D. Qed.

Lemma Inv_child n sub rec s c s' : Inv n sub rec s -> child_step answer s c = Some s' -> Inv n sub rec s'.
Proof.
  intros (I1 & I2 & I3 & I4 & I5 & I6 & I7) H. destruct (child_step_local _ _ _ H) as (Eq & Ec & Hloc).
  unfold Inv. rewrite Eq, Ec. split; auto. split; auto. split; [|split; [|split; [|split; auto]]].
  - intros x Hx. destruct (Nat.eq_dec x c) as [->|Hn].
    + exfalso. rewrite (child_step_other s c (I3 c Hx)) in H. discriminate.
    + destruct (Hloc x Hn) as (D & P & U). unfold other. rewrite D, P, U. now apply I3.
  - intros E. destruct (I4 E) as (Ia & Ib). split.
    + intros x Hx. destruct (Nat.eq_dec x c) as [->|Hn]; [eapply child_step_idle; eauto|].
      destruct (Hloc x Hn) as (D & P & U). unfold idle_child. rewrite D, P, U. now apply Ia.
    + intros h Hh. destruct (Nat.eq_dec (h_child h) c) as [<-|Hn]; [eapply child_step_busy; eauto|].
      destruct (Hloc _ Hn) as (D & P & U). unfold busy_child. cbv zeta. rewrite D, P, U. exact (Ib h Hh).
  - intros E. destruct (I5 E) as (Ia & Ib). split; auto.
    intros x Hx. destruct (Nat.eq_dec x c) as [->|Hn]; [eapply child_step_killed; eauto|].
    destruct (Hloc x Hn) as (D & P & U). unfold killed_child. rewrite D, P, U. now apply Ib.
Qed.

Lemma Inv_submit n sub rec s task tag s' c : Inv n sub rec s -> s_closed s = false -> parent_submit s task tag = Some (s', c) ->
  Inv n (sub ++ [mkHandle c tag task]) rec s' /\ In c (idle (s_queue s)).
Proof.
  intros (I1 & I2 & I3 & I4 & I5 & I6 & I7) Hcl H. unfold parent_submit in H.
  destruct (submit (s_queue s) task tag) as [[q c']|] eqn:E; [|discriminate]. injection H as <- <-.
  destruct (proj2 (submit_spec _ task tag I1) _ _ E) as (K1 & (rest & K2 & K3) & K4 & K5).
  destruct (I4 Hcl) as (Ia & Ib).
  assert (Hci : In c' (idle (s_queue s))) by (rewrite K2; simpl; auto).
  split; [|exact Hci]. pose proof (qok_nodup _ K1) as Hnd.
  assert (Hnr : ~ In c' rest).
  { rewrite K3 in Hnd. intros K. apply NoDup_app_iff in Hnd as (_ & _ & Hd). apply (Hd c' K).
    destruct K1 as [-> _]. rewrite K4, map_app, in_app_iff. simpl. auto. }
  assert (Hnb : ~ In c' (map h_child (irecv_handles (s_queue s)))).
  { apply NoDup_app_iff in Hnd as (_ & Hb & _). destruct K1 as [Eb _]. rewrite Eb, K4, map_app in Hb.
    apply NoDup_app_iff in Hb as (_ & _ & Hd). intros K. apply (Hd c' K). simpl. auto. }
  unfold Inv; simpl. split; auto. split; [congruence|]. split; [|split; [|split; [|split]]]; auto.
  - intros x Hx. destruct (I3 x Hx) as (D & U & P). unfold other; simpl. rewrite setf_other; auto.
    intros ->. apply Hx. rewrite <- I2. apply (qok_range _ _ I1). auto.
  - intros _. split.
    + intros x Hx. rewrite K3 in Hx. assert (Hn : x <> c') by (intros ->; auto).
      unfold idle_child; simpl. rewrite setf_other by auto. apply Ia. rewrite K2. simpl. auto.
    + intros h Hh. rewrite K4 in Hh. apply in_app_iff in Hh as [Hh|[<-|[]]].
      * assert (Hn : h_child h <> c') by (intros E'; apply Hnb; rewrite <- E'; now apply in_map).
        unfold busy_child; simpl. rewrite setf_other by auto. exact (Ib h Hh).
      * left. simpl. rewrite setf_same. destruct (Ia c' Hci) as (D & U & P). rewrite D. auto.
  - congruence.
  - rewrite K4, app_assoc. now apply Permutation_app_tail.
Qed.

Lemma busy_up s h : busy_child s h -> s_up s (h_child h) = [] \/ exists a, s_up s (h_child h) = [(h_tag h, a)] /\ answer (h_task h) = Some a.
Proof. intros [(_ & _ & U)|[(_ & _ & U)|[(a & _ & _ & U & K)|(_ & _ & U & _)]]]; eauto. Qed.

Lemma collect_case (q : queue T) mode done q' hs : qok q -> mpi_reports q mode done -> collect q mode done = Some (q', hs) ->
  Permutation (hs ++ irecv_handles q') (irecv_handles q) /\ qok q' /\ n_children q' = n_children q /\
  (forall c, In c (idle q') <-> In c (idle q) \/ In c (map h_child hs)) /\
  fancy_get (irecv_handles q) (reported q mode done) = Some hs.
Proof.
  intros Hq Hm H. destruct (list_eq_nil_dec (irecv_handles q)) as [E|E].
  - rewrite (collect_empty _ _ _ E) in H. destruct mode; try discriminate. injection H as <- <-. rewrite E.
    repeat split; auto; try apply Hq; try tauto. intros [K|[]]; auto.
    unfold reported. now rewrite E.
  - destruct (collect_spec q mode done Hq Hm E) as (q1 & r1 & fr & K1 & K2 & K3 & K4 & K5 & K6 & K7).
    rewrite K1 in H. injection H as <- <-. split; auto. split; auto. split; auto. split; auto.
    intros c. rewrite K5, in_app_iff. split; (intros [K|K]; [auto|right]).
    + eapply Permutation_in; eauto.
    + eapply Permutation_in; [symmetry; exact K6|auto].
Qed.

Lemma Inv_collect n sub rec s mode done s' l : Inv n sub rec s -> s_closed s = false -> mpi_reports (s_queue s) mode done ->
  parent_collect s mode done = Some (s', l) -> Inv n sub (rec ++ l) s'.
Proof.
  intros (I1 & I2 & I3 & I4 & I5 & I6 & I7) Hcl Hm H. unfold parent_collect in H.
  destruct (collect (s_queue s) mode done) as [[q hs]|] eqn:E; [|discriminate].
  destruct (take_all hs (s_up s)) as [[la up]|] eqn:Et; [|discriminate]. injection H as <- <-.
  destruct (collect_case _ _ _ _ _ I1 Hm E) as (K1 & K2 & K3 & K4 & _). destruct (I4 Hcl) as (Ia & Ib).
  assert (Hin : forall h, In h hs \/ In h (irecv_handles q) <-> In h (irecv_handles (s_queue s))).
  { intros h. rewrite <- in_app_iff. split; intros K; [eapply Permutation_in|eapply Permutation_in; [symmetry|]]; eauto. }
  assert (Hnd : NoDup (map h_child hs ++ map h_child (irecv_handles q))).
  { rewrite <- map_app. eapply Permutation_NoDup; [apply Permutation_map; symmetry; exact K1|].
    pose proof (qok_nodup _ I1) as Hn. apply NoDup_app_iff in Hn as (_ & Hn & _). destruct I1 as [Eb _]. now rewrite <- Eb. }
  apply NoDup_app_iff in Hnd as (Hnd1 & _ & Hdis).
  destruct (take_all_spec hs _ _ _ Hnd1 (fun h Hh => busy_up _ _ (Ib h (proj1 (Hin h) (or_introl Hh)))) Et) as (L & F & P & Q).
  unfold Inv; simpl. split; auto. split; [congruence|]. split; [|split; [|split; [|split]]].
  - intros x Hx. destruct (I3 x Hx) as (D & U & Pp). unfold other; simpl. rewrite Q; auto.
    intros K. apply in_map_iff in K as (h & <- & Hh). apply Hx. rewrite <- I2.
    apply handle_child_range; auto. apply Hin. auto.
  - intros _. split.
    + intros x Hx. apply K4 in Hx as [Hx|Hx].
      * destruct (Ia x Hx) as (D & U & Pp). unfold idle_child; simpl. split; auto. split; auto.
        rewrite Q; auto. intros K. pose proof (qok_nodup _ I1) as Hn. apply NoDup_app_iff in Hn as (_ & _ & Hd).
        apply (Hd x Hx). destruct I1 as [-> _]. apply in_map_iff in K as (h & <- & Hh). apply in_map. apply Hin. auto.
      * apply in_map_iff in Hx as (h & <- & Hh). destruct (P h Hh) as (P1 & P2).
        assert (Hb : busy_child s h) by (apply Ib, Hin; auto).
        unfold idle_child; simpl. rewrite P1.
        destruct Hb as [(_ & _ & U)|[(_ & _ & U)|[(a & D & R & U & _)|(_ & _ & U & _)]]]; try congruence. auto.
    + intros h Hh. assert (Hb : busy_child s h) by (apply Ib, Hin; auto).
      unfold busy_child; simpl. rewrite Q; [exact Hb|]. intros K. apply (Hdis _ K). now apply in_map.
  - congruence.
  - rewrite map_app, <- app_assoc. rewrite I6. apply Permutation_app_head. rewrite <- K1.
    apply Permutation_app_tail. clear -L. revert la L. induction hs as [|h t IH]; intros [|a la] L; simpl in *; try discriminate; auto.
  - apply Forall_app. auto.
Qed.

Lemma Inv_close n sub rec s s' : Inv n sub rec s -> s_closed s = false -> parent_close s = Some s' -> Inv n sub rec s'.
Proof.
  intros (I1 & I2 & I3 & I4 & I5 & I6 & I7) Hcl H. unfold parent_close in H.
  destruct (closeout (s_queue s)) as [l|] eqn:E; [|discriminate]. injection H as <-.
  destruct (closeout_spec _ I1) as (C1 & C2). destruct (I4 Hcl) as (Ia & Ib).
  assert (Hh : irecv_handles (s_queue s) = []).
  { destruct (list_eq_nil_dec (irecv_handles (s_queue s))) as [K|K]; auto. rewrite (C2 K) in E. discriminate. }
  rewrite (C1 Hh) in E. injection E as <-. rewrite I2 in *.
  unfold Inv; simpl. split; auto. split; auto. split; [|split; [|split; [|split]]]; auto.
  - intros c Hc. destruct (I3 c Hc) as (D & U & P). unfold other; simpl. split; auto.
    rewrite kill_all_spec by apply seq_NoDup. destruct (in_dec Nat.eq_dec c (seq 1 n)) as [K|K]; auto.
    exfalso. apply in_seq in K. lia.
  - discriminate.
  - intros _. split; auto. intros c Hc. assert (Hi : In c (idle (s_queue s))).
    { rewrite <- I2 in Hc. apply (qok_range _ _ I1) in Hc as [K|K]; auto. exfalso. destruct I1 as [Eb _].
      rewrite Eb, Hh in K. contradiction. }
    destruct (Ia c Hi) as (D & U & P). unfold killed_child; simpl. split; auto. left.
    rewrite kill_all_spec by apply seq_NoDup. destruct (in_dec Nat.eq_dec c (seq 1 n)) as [K|K].
    + now rewrite D.
    + exfalso. apply K. apply in_seq. lia.
Qed.

Lemma execution_inv n sub rec s : execution n sub rec s -> Inv n sub rec s.
Proof.
  intros H. induction H.
  - unfold Inv, start; simpl. split. { split; simpl; auto. now rewrite app_nil_r. }
    split; auto. split. { intros; unfold other; auto. }
    split. { intros _. split; [|contradiction]. intros c _. unfold idle_child, at_rest; simpl. auto. }
    split; [discriminate|]. split; auto.
  - eapply Inv_submit; eauto.
  - eapply Inv_collect; eauto.
  - eapply Inv_child; eauto.
  - eapply Inv_close; eauto.
Qed.
Lemma execution_steps n sub rec s k s' : execution n sub rec s -> child_steps s k s' -> execution n sub rec s'.
Proof. intros H Hs. induction Hs; auto. apply IHHs. eapply ex_child; eauto. Qed.

(** ** How long the children can go on *)
Definition weight (s : system) (c : nat) : nat :=
  3 * List.length (s_down s c) + match s_child s c with Working _ _ => 2 | Freeing => 1 | _ => 0 end.
Definition total (n : nat) (s : system) : nat := list_sum (map (weight s) (seq 1 n)).

Lemma weight_step s c s' : child_step answer s c = Some s' -> S (weight s' c) <= weight s c.
Proof.
  unfold child_step, weight. destruct (s_child s c) as [| | | |] eqn:P.
  - destruct (s_down s c) as [|[tag m] r] eqn:D; intros [= <-]; simpl. rewrite !setf_same. destruct m; lia.
  - destruct (answer task); intros [= <-]; simpl; rewrite !setf_same; lia.
  - intros [= <-]; simpl. rewrite setf_same. lia.
  - discriminate.
  - discriminate.
Qed.
Lemma list_sum_le (f g : nat -> nat) l : (forall x, In x l -> f x <= g x) -> list_sum (map f l) <= list_sum (map g l).
Proof.
  induction l as [|x t IH]; intros H; simpl; auto. pose proof (H x (or_introl eq_refl)).
  pose proof (IH (fun y Hy => H y (or_intror Hy))). unfold list_sum in *; cbn [fold_right] in *. lia.
Qed.
Lemma total_step n s c s' : (forall x, ~ (1 <= x <= n) -> other s x) -> child_step answer s c = Some s' -> S (total n s') <= total n s.
Proof.
  intros Ho H. destruct (child_step_local _ _ _ H) as (_ & _ & Hl). pose proof (weight_step _ _ _ H) as Hw.
  assert (Hc : 1 <= c <= n).
  { destruct (Nat.le_gt_cases 1 c), (Nat.le_gt_cases c n); try lia;
      exfalso; rewrite (child_step_other s c) in H; try discriminate; apply Ho; lia. }
  unfold total. assert (E : seq 1 n = seq 1 (c - 1) ++ [c] ++ seq (S c) (n - c)).
  { replace n with ((c - 1) + (1 + (n - c))) at 1 by lia. rewrite seq_app. f_equal.
    replace (1 + (c - 1)) with c by lia. reflexivity. }
  rewrite E, !map_app, !list_sum_app. simpl map.
  assert (Hother : forall l, (forall x, In x l -> x <> c) -> list_sum (map (weight s') l) <= list_sum (map (weight s) l)).
  { intros l Hn. apply list_sum_le. intros x Hx. unfold weight. destruct (Hl x (Hn x Hx)) as (-> & -> & _). lia. }
  pose proof (Hother (seq 1 (c - 1)) ltac:(intros x Hx; apply in_seq in Hx; lia)).
  pose proof (Hother (seq (S c) (n - c)) ltac:(intros x Hx; apply in_seq in Hx; lia)).
  unfold list_sum at 2 5. cbn [fold_right]. lia.
Qed.
Lemma weight_bound n sub rec s c : Inv n sub rec s -> 1 <= c <= n -> weight s c <= 4.
Proof.
  intros (I1 & I2 & I3 & I4 & I5 & I6 & I7) Hc. unfold weight.
  destruct (s_closed s) eqn:Ecl.
  - destruct (I5 eq_refl) as (_ & K). destruct (K c Hc) as (_ & [(-> & [->| ->])|(-> & ->)]); simpl; lia.
  - destruct (I4 eq_refl) as (Ia & Ib). rewrite <- I2 in Hc. apply (qok_range _ _ I1) in Hc as [Hi|Hi].
    + destruct (Ia c Hi) as (-> & _ & [->| ->]); simpl; lia.
    + destruct I1 as [Eb _]. rewrite Eb in Hi. apply in_map_iff in Hi as (h & <- & Hh).
      destruct (Ib h Hh) as [(-> & [->| ->] & _)|[(-> & -> & _)|[(a & -> & [->| ->] & _)|(-> & -> & _)]]]; simpl; lia.
Qed.
Lemma child_steps_bound n sub rec s k s' : execution n sub rec s -> child_steps s k s' -> k <= 4 * n.
Proof.
  intros H Hs. assert (Hk : k + total n s' <= total n s).
  { induction Hs; [lia|].
    pose proof (total_step n s c s1 (proj1 (proj2 (proj2 (execution_inv _ _ _ _ H)))) H0).
    assert (execution n sub rec s1) by (eapply ex_child; eauto). specialize (IHHs H2). lia. }
  assert (Hb : total n s <= 4 * n).
  { unfold total. transitivity (list_sum (map (fun _ => 4) (seq 1 n))).
    - apply list_sum_le. intros c Hc. apply in_seq in Hc. eapply weight_bound; [eapply execution_inv; eauto|lia].
    - clear. enough (E : forall m, list_sum (map (fun _ : nat => 4) (seq m n)) = 4 * n) by now rewrite E.
      induction n as [|n IH]; intros m; [reflexivity|].
      change (seq m (S n)) with (m :: seq (S m) n). cbn [map]. specialize (IH (S m)). unfold list_sum in *; cbn [fold_right] in *. lia. }
  lia.
Qed.
End Executions.
