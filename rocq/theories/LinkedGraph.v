(** Graph facts behind the friends-of-friends growth (C08, C09): generic in the
    neighbour function. *)
From Verif Require Import Np NpFacts LinkedModel.
From Coq Require Import Relations.

Section Grow.
Context (n : nat) (ov : nat -> option (list nat)).
Context (Hov : forall s, s < n -> exists l, ov s = Some l /\ NoDup l /\ forall t, In t l -> t < n).

Definition edge (s t : nat) : Prop := exists l, ov s = Some l /\ In t l.
Definition reach := clos_refl_trans nat edge.

Lemma edge_lt s t : s < n -> edge s t -> t < n.
Proof. intros Hs (l & Hl & Ht). destruct (Hov s Hs) as (l' & Hl' & _ & H). rewrite Hl in Hl'. injection Hl' as <-. auto. Qed.
Lemma reach_lt s t : s < n -> reach s t -> t < n.
Proof. intros Hs H. apply clos_rt_rt1n in H. induction H; auto. apply IHclos_refl_trans_1n. eapply edge_lt; eauto. Qed.

Lemma collect_leaves_spec seeds : forall leaves,
  (forall s, In s seeds -> s < n) -> NoDup leaves ->
  exists l, collect_leaves ov seeds leaves = Some l /\ NoDup l /\
    forall x, In x l <-> In x leaves \/ exists s, In s seeds /\ edge s x.
Proof.
  induction seeds as [|s t IH]; intros leaves Hlt Hnd; simpl.
  - exists leaves. split; auto. split; auto. intros x. split; auto. intros [H|(s & [] & _)]; auto.
  - destruct (Hov s) as (br & Hbr & Hbnd & Hblt); [apply Hlt; simpl; auto|]. rewrite Hbr.
    set (nb := filter _ br).
    assert (Hnb : forall x, In x nb <-> In x br /\ ~ In x leaves).
    { intros x. unfold nb. rewrite filter_In, negb_true_iff, memn_nIn. tauto. }
    destruct (IH (leaves ++ nb)) as (l & Hl & Hlnd & Hlin).
    + intros; apply Hlt; simpl; auto.
    + apply NoDup_app_iff. split; auto. split; [apply NoDup_filter; auto|].
      intros x Hx Hx'. apply Hnb in Hx'. tauto.
    + exists l. split; auto. split; auto. intros x. rewrite Hlin, in_app_iff, Hnb.
      destruct (in_dec Nat.eq_dec x leaves) as [Hin|Hni]; [tauto|].
      split.
      * intros [[H|[H _]]|(s' & Hs' & He)]; [auto| |].
        -- right. exists s. split; auto. exists br. auto.
        -- right. exists s'. auto.
      * intros [H|(s' & [<-|Hs'] & He)]; [auto| |].
        -- left. right. split; auto. destruct He as (l' & Hl' & Hx). rewrite Hbr in Hl'. injection Hl' as <-. auto.
        -- right. eauto.
Qed.

Lemma NoDup_lt_length l : NoDup l -> (forall x, In x l -> x < n) -> List.length l <= n.
Proof.
  intros Hnd Hlt. replace n with (List.length (seq 0 n)) by apply seq_length.
  apply NoDup_incl_length; auto. intros x Hx. apply in_seq. specialize (Hlt x Hx). lia.
Qed.

Lemma grow_loop_spec index : index < n -> forall fuel seeds members,
  NoDup (members ++ seeds) -> (forall x, In x (members ++ seeds) -> reach index x) ->
  (forall m t, In m members -> edge m t -> In t (members ++ seeds)) ->
  seeds <> [] -> n < fuel + List.length members ->
  exists res, grow_loop ov fuel seeds members = Some res /\ NoDup res /\
    (exists rest, res = members ++ seeds ++ rest) /\
    (forall x, In x res -> reach index x) /\ (forall m t, In m res -> edge m t -> In t res).
Proof.
  intros Hidx. induction fuel as [|fuel IH]; intros seeds members Hnd Hr Hcl Hne Hf.
  - exfalso. assert (List.length members <= n).
    { apply NoDup_lt_length; [now apply NoDup_app_iff in Hnd|].
      intros x Hx. eapply reach_lt; eauto. apply Hr, in_or_app; auto. }
    lia.
  - simpl. assert (Hslt : forall s, In s seeds -> s < n).
    { intros s Hs. eapply reach_lt; eauto. apply Hr, in_or_app; auto. }
    destruct (collect_leaves_spec seeds [] Hslt (NoDup_nil _)) as (l & Hl & Hlnd & Hlin).
    rewrite Hl. set (lv := filter _ l).
    assert (Hlv : forall x, In x lv <-> In x l /\ ~ In x (members ++ seeds)).
    { intros x. unfold lv. rewrite filter_In, negb_true_iff, memn_nIn. tauto. }
    assert (Hlvnd : NoDup lv) by (apply NoDup_filter; auto).
    assert (Hnd2 : NoDup ((members ++ seeds) ++ lv)).
    { apply NoDup_app_iff. split; auto. split; auto. intros x Hx Hx'. apply Hlv in Hx'. tauto. }
    assert (Hr2 : forall x, In x ((members ++ seeds) ++ lv) -> reach index x).
    { intros x Hx. apply in_app_or in Hx as [Hx|Hx]; auto. apply Hlv in Hx as [Hx _].
      apply Hlin in Hx as [[]|(s & Hs & He)]. eapply rt_trans; [apply Hr, in_or_app; right; exact Hs|].
      now apply rt_step. }
    assert (Hcl2 : forall m t, In m (members ++ seeds) -> edge m t -> In t ((members ++ seeds) ++ lv)).
    { intros m t Hm He. apply in_or_app. apply in_app_or in Hm as [Hm|Hm].
      - left. eapply Hcl; eauto.
      - destruct (in_dec Nat.eq_dec t (members ++ seeds)) as [|Hn]; auto. right. apply Hlv. split; auto.
        apply Hlin. right. eauto. }
    destruct lv as [|x0 lv'] eqn:Elv.
    + exists (members ++ seeds). rewrite app_nil_r in *. split; auto. split; auto.
      split; [exists []; now rewrite app_nil_r|]. split; auto.
    + destruct (IH (x0 :: lv') (members ++ seeds) Hnd2 Hr2 Hcl2) as (res & H1 & H2 & (rest & H3) & H4 & H5).
      * discriminate.
      * rewrite app_length. destruct seeds; [congruence|]. simpl. lia.
      * exists res. split; auto. split; auto. split; [|split; auto].
        exists ((x0 :: lv') ++ rest). rewrite H3. now rewrite <- !app_assoc.
Qed.

Lemma grow_spec index : index < n ->
  exists res, grow_loop ov (S n) [index] [] = Some res /\ NoDup res /\
    (exists rest, res = index :: rest) /\
    (forall x, In x res <-> reach index x).
Proof.
  intros Hidx.
  destruct (grow_loop_spec index Hidx (S n) [index] []) as (res & H1 & H2 & (rest & H3) & H4 & H5).
  - simpl. constructor; auto. constructor.
  - simpl. intros x [<-|[]]. apply rt_refl.
  - contradiction.
  - discriminate.
  - simpl. lia.
  - exists res. split; auto. split; auto. split; [exists rest; auto|].
    intros x. split; auto. intros Hx.
    assert (Hi : In index res) by (rewrite H3; simpl; auto).
    assert (Hgen : forall a b, clos_refl_trans_1n nat edge a b -> In a res -> In b res).
    { intros a b Hab. induction Hab as [|a c b He Hab IH]; intros Ha; eauto. }
    eapply Hgen; eauto. now apply clos_rt_rt1n.
Qed.

End Grow.

(** ** Groups *)
Section Groups.
Context (n : nat) (grow : nat -> option (list nat)) (E : nat -> nat -> Prop).
Context (Erefl : forall i, E i i) (Esym : forall i j, E i j -> E j i)
        (Etrans : forall i j k, E i j -> E j k -> E i k).
Context (Hgrow : forall i, i < n -> exists l, grow i = Some l /\ NoDup l /\
           forall x, In x l <-> E i x).
Context (Elt : forall i j, i < n -> E i j -> j < n).

Definition gnth (g : list Z) (i : nat) : Z := nth i g (-1)%Z.

Lemma put_const_in {A} (v : A) inds : forall l j d,
  In j inds -> j < List.length l -> nth j (fancy_put l inds (map (fun _ => v) inds)) d = v.
Proof.
  induction inds as [|i inds IH]; intros l j d Hj Hlt; [contradiction|]. simpl.
  destruct (in_dec Nat.eq_dec j inds) as [Hin|Hn].
  - apply IH; auto. now rewrite upd_length.
  - destruct Hj as [->|]; [|tauto].
    assert (Ho : forall inds (l vals : list A) j, ~ In j inds -> nth_error (fancy_put l inds vals) j = nth_error l j).
    { clear. induction inds as [|i inds IH]; intros l [|v vs] j Hj; simpl; auto.
      simpl in Hj. rewrite IH by tauto. rewrite nth_error_upd.
      destruct (Nat.eqb_spec i j); auto. subst; tauto. }
    apply nth_error_nth. rewrite Ho by assumption.
    rewrite nth_error_upd, Nat.eqb_refl. destruct (Nat.ltb_spec j (List.length l)); [auto|lia].
Qed.
Lemma put_const_out {A} (v : A) inds l j d :
  ~ In j inds -> nth j (fancy_put l inds (map (fun _ => v) inds)) d = nth j l d.
Proof.
  revert l. induction inds as [|i inds IH]; intros l Hj; simpl in *; auto.
  rewrite IH by tauto.
  assert (Hne : i <> j) by tauto. clear -Hne. revert i j Hne.
  induction l as [|h t IH]; intros [|i] [|j] Hne; simpl; auto; try congruence.
Qed.
Lemma put_const_len {A} (v : A) inds : forall l, List.length (fancy_put l inds (map (fun _ => v) inds)) = List.length l.
Proof. induction inds as [|i inds IH]; intros l; simpl; auto. rewrite IH. apply upd_length. Qed.

Record GInv (k : nat) (gid : list Z) (gind : Z) : Prop := {
  gi_len : List.length gid = n;
  gi_pos : (0 <= gind)%Z;
  gi_done : forall i, i < k -> (0 <= gnth gid i)%Z;
  gi_range : forall i, i < n -> (gnth gid i = -1 \/ 0 <= gnth gid i < gind)%Z;
  gi_class : forall i j, i < n -> j < n -> (0 <= gnth gid i)%Z -> E i j -> gnth gid j = gnth gid i;
  gi_same : forall i j, i < n -> j < n -> (0 <= gnth gid i)%Z -> gnth gid i = gnth gid j -> E i j;
  gi_used : forall g, (0 <= g < gind)%Z -> exists i, i < n /\ gnth gid i = g
}.

Lemma group_loop_spec todo : forall k gid gind,
  GInv k gid gind -> todo = seq k (n - k) -> k <= n ->
  exists g G, group_loop grow todo gid gind = Some g /\ GInv n g G.
Proof.
  induction todo as [|i todo IH]; intros k gid gind HI Ht Hk.
  - simpl. exists gid, gind. split; auto.
    assert (k = n). { destruct (n - k) eqn:Ek; [lia|discriminate]. } subst. auto.
  - assert (Hkn : k < n). { destruct (n - k) eqn:Ek; [discriminate|lia]. }
    assert (Hsub : n - k = S (n - S k)) by lia. rewrite Hsub in Ht. simpl in Ht. injection Ht as -> Ht.
    simpl. fold (gnth gid k). destruct (Z.leb_spec 0 (gnth gid k)) as [Hge|Hlt].
    + apply (IH (S k)); auto. destruct HI. split; auto.
      intros j Hj. destruct (Nat.eq_dec j k) as [->|]; auto. apply gi_done0. lia.
    + destruct (Hgrow k Hkn) as (l & Hl & Hnd & Hin). rewrite Hl.
      assert (Hneg : gnth gid k = (-1)%Z) by (destruct (gi_range _ _ _ HI k Hkn); lia).
      assert (Hnew : forall j, In j l -> j < n -> gnth (fancy_put gid l (map (fun _ => gind) l)) j = gind).
      { intros j Hj Hjn. apply put_const_in; auto. rewrite (gi_len _ _ _ HI). auto. }
      assert (Hold : forall j, ~ In j l -> gnth (fancy_put gid l (map (fun _ => gind) l)) j = gnth gid j).
      { intros j Hj. now apply put_const_out. }
      assert (Hlt' : forall j, In j l -> j < n) by (intros j Hj; eapply Elt; eauto; now apply Hin).
      assert (Hunset : forall j, In j l -> (gnth gid j < 0)%Z).
      { intros j Hj. destruct (Z.lt_ge_cases (gnth gid j) 0) as [|Hge']; auto.
        apply Hin in Hj. assert (gnth gid k = gnth gid j); [|lia].
        eapply (gi_class _ _ _ HI); auto. eapply Elt; eauto. }
      pose proof (gi_pos _ _ _ HI) as Hgp.
      apply (IH (S k)); auto.
      split.
      * rewrite put_const_len. apply HI.
      * lia.
      * intros j Hj. destruct (in_dec Nat.eq_dec j l) as [Hjl|Hjl].
        -- rewrite Hnew; auto.
        -- rewrite Hold by auto. destruct (Nat.eq_dec j k) as [->|]; [exfalso; apply Hjl, Hin, Erefl|].
           apply HI. lia.
      * intros j Hj. destruct (in_dec Nat.eq_dec j l) as [Hjl|Hjl].
        -- rewrite Hnew; auto. lia.
        -- rewrite Hold by auto. destruct (gi_range _ _ _ HI j Hj); lia.
      * intros a b Ha Hb Hga Hab. destruct (in_dec Nat.eq_dec a l) as [Hal|Hal].
        -- assert (In b l) by (apply Hin; apply Hin in Hal; eauto). now rewrite !Hnew.
        -- assert (Hbl : ~ In b l).
           { intros Hb'. apply Hal, Hin. apply Hin in Hb'. eauto. }
           rewrite Hold in Hga by auto. rewrite !Hold by auto. now apply (gi_class _ _ _ HI).
      * intros a b Ha Hb Hga Hab. destruct (in_dec Nat.eq_dec a l) as [Hal|Hal], (in_dec Nat.eq_dec b l) as [Hbl|Hbl].
        -- apply Hin in Hal, Hbl. eauto.
        -- rewrite Hnew, Hold in Hab by auto. destruct (gi_range _ _ _ HI b Hb); lia.
        -- rewrite (Hold a Hal), (Hnew b Hbl Hb) in Hab. destruct (gi_range _ _ _ HI a Ha); lia.
        -- rewrite Hold in Hga by auto. rewrite !Hold in Hab by auto. now apply (gi_same _ _ _ HI).
      * intros g Hg. destruct (Z.eq_dec g gind) as [->|].
        -- exists k. split; auto. apply Hnew; auto. apply Hin, Erefl.
        -- destruct (gi_used _ _ _ HI g) as (i & Hi & Hgi); [lia|]. exists i. split; auto.
           rewrite Hold; auto. intros Hil. apply Hunset in Hil. lia.
Qed.

Lemma groups_spec :
  exists g G, group_loop grow (seq 0 n) (map (fun _ => (-1)%Z) (seq 0 n)) 0%Z = Some g /\
    List.length g = n /\
    (forall i j, i < n -> j < n -> (gnth g i = gnth g j <-> E i j)) /\
    (forall z, (0 <= z < G)%Z <-> exists i, i < n /\ gnth g i = z).
Proof.
  assert (Hn1 : forall i, gnth (map (fun _ => (-1)%Z) (seq 0 n)) i = (-1)%Z).
  { intros i. unfold gnth. generalize (seq 0 n) as l. intros l. revert i.
    induction l as [|x l IH]; intros [|i]; simpl; auto. }
  destruct (group_loop_spec (seq 0 n) 0 (map (fun _ => (-1)%Z) (seq 0 n)) 0%Z) as (g & G & Hg & HI).
  - split.
    + now rewrite map_length, seq_length.
    + lia.
    + lia.
    + intros i _. left. apply Hn1.
    + intros i j _ _ H. rewrite Hn1 in H. lia.
    + intros i j _ _ H. rewrite Hn1 in H. lia.
    + lia.
  - now rewrite Nat.sub_0_r.
  - lia.
  - exists g, G. split; auto. split; [apply HI|]. split.
    + intros i j Hi Hj. pose proof (gi_done _ _ _ HI i Hi). split.
      * intros He. eapply (gi_same _ _ _ HI); eauto.
      * intros He. symmetry. eapply (gi_class _ _ _ HI); eauto.
    + intros z. split.
      * intros Hz. now apply (gi_used _ _ _ HI).
      * intros (i & Hi & <-). pose proof (gi_done _ _ _ HI i Hi). destruct (gi_range _ _ _ HI i Hi); lia.
Qed.
End Groups.
