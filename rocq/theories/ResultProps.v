(** C55: results saved to a file and loaded again. *)
From Verif Require Import Np NpFacts ResultModel ResultFacts.
Open Scope nat_scope.

Section Props.
  Context {N B : Type}.
  Local Notation value := (value N B).
  Local Notation attributes := (attributes N B).

  (** An attribute and what is found in its place after loading: the same array, number or
      text; lists become arrays; str objects in arrays become bytes. *)
  Inductive same_data : value -> value -> Prop :=
  | same_blob : forall d b, same_data (Arr d (Blob b)) (Arr d (Blob b))
  | same_bytes : forall d l, same_data (Arr d (Bytes l)) (Arr d (Bytes l))
  | same_encoded : forall d l, same_data (Arr d (Strs l)) (Arr d (Bytes l))
  | same_number : forall x, same_data (Number x) (Number x)
  | same_text : forall s, same_data (Text s) (Text s)
  | same_texts : forall l, same_data (TextList l) (Arr [List.length l] (Strs l))
  | same_list : forall d b, same_data (ListOf d b) (Arr d (Blob b)).

  Lemma attr_same : forall room v w, attr_of room v = Some w -> same_data v w.
  Proof.
    intros room [dims c|x|s|l|dims b|r d ra| |] w; cbn [attr_of].
    - destruct c; cbn; intros H; try discriminate; assert (E : w = _) by (symmetry; injection H as H; exact H); subst w; constructor.
    - intros H. assert (E : w = Number x) by congruence. subst w. constructor.
    - intros H. assert (E : w = Text s) by congruence. subst w. constructor.
    - destruct (16 * List.length l <=? room); [|discriminate]. intros H. assert (E : w = Arr [List.length l] (Strs l)) by congruence. subst w. constructor.
    - destruct (8 * size dims <=? room); [|discriminate]. intros H. assert (E : w = Arr dims (Blob b)) by congruence. subst w. constructor.
    - discriminate.
    - discriminate.
    - discriminate.
  Qed.

  Definition dimensioned (o : attributes) : Prop := forall k d c, getattr o k = Some (Arr d c) -> d <> [].

  Lemma dump_file : forall room name (o : attributes) f r, dump_to_h5 room name o = (Some f, r) -> dump_loop room o (mkH5 [] []) [] = (f, r) /\ has_slash name = true.
  Proof.
    intros room name o f r H. unfold dump_to_h5 in H. destruct (has_slash name); [|discriminate]. destruct (dump_loop room o (mkH5 [] []) []) as [f' r']. split; congruence.
  Qed.

  (** Every attribute of a saved result is found again with its data, or its name is among
      the returned messages; nothing else is found, and no message is about an attribute
      that was saved. *)
  Theorem C55_saved : forall room name (o : attributes) f msgs, NoDup (map fst o) -> dimensioned o ->
    dump_to_h5 room name o = (Some f, Done msgs) ->
    exists o', read_from_h5 [] f = Some o' /\
      (forall k v, getattr o k = Some v -> (exists w, getattr o' k = Some w /\ same_data v w) \/ (getattr o' k = None /\ In k msgs)) /\
      (forall k w, getattr o' k = Some w -> exists v, getattr o k = Some v /\ same_data v w) /\
      (forall k, In k msgs -> getattr o' k = None /\ In k (map fst o)).
  Proof.
    intros room name o f msgs ND Hd H. apply dump_file in H as [H _]. destruct (read_saved _ _ _ _ ND Hd H) as (o' & R & _ & G & M).
    exists o'. split; [exact R|]. split; [|split].
    - intros k v Hv. specialize (G k). rewrite Hv in G. destruct (attr_of room v) as [w|] eqn:E; [left|right].
      + exists w. split; [exact G|]. exact (attr_same _ _ _ E).
      + split; [exact G|]. apply M. exists v. auto.
    - intros k w Hw. specialize (G k). rewrite Hw in G. destruct (getattr o k) as [v|]; [|discriminate]. exists v. split; [reflexivity|]. apply (attr_same room). congruence.
    - intros k Hk. apply M in Hk as (v & Hv & E). specialize (G k). rewrite Hv, E in G. split; [exact G|]. apply getattr_in in Hv. apply (in_map fst) in Hv. exact Hv.
  Qed.

  (** Arrays of numbers, rows or bytes, numbers and text are never lost or changed. *)
  Theorem C55_kept : forall room name (o : attributes) f msgs, NoDup (map fst o) -> dimensioned o ->
    dump_to_h5 room name o = (Some f, Done msgs) ->
    exists o', read_from_h5 [] f = Some o' /\
      (forall k d b, getattr o k = Some (Arr d (Blob b)) -> getattr o' k = Some (Arr d (Blob b))) /\
      (forall k d l, getattr o k = Some (Arr d (Bytes l)) -> getattr o' k = Some (Arr d (Bytes l))) /\
      (forall k x, getattr o k = Some (Number x) -> getattr o' k = Some (Number x)) /\
      (forall k s, getattr o k = Some (Text s) -> getattr o' k = Some (Text s)) /\
      (forall k d b, getattr o k = Some (ListOf d b) -> 8 * size d <= room -> getattr o' k = Some (Arr d (Blob b))).
  Proof.
    intros room name o f msgs ND Hd H. apply dump_file in H as [H _]. destruct (read_saved _ _ _ _ ND Hd H) as (o' & R & _ & G & _).
    exists o'. split; [exact R|]. repeat split; intros; rewrite G; rewrite H0; try reflexivity. cbn [attr_of]. apply Nat.leb_le in H1. rewrite H1. reflexivity.
  Qed.

  (** When no message is returned, every attribute is found. *)
  Theorem C55_complete : forall room name (o : attributes) f, NoDup (map fst o) -> dimensioned o ->
    dump_to_h5 room name o = (Some f, Done []) ->
    exists o', read_from_h5 [] f = Some o' /\ forall k, (exists v, getattr o k = Some v) <-> (exists w, getattr o' k = Some w).
  Proof.
    intros room name o f ND Hd H. destruct (C55_saved _ _ _ _ _ ND Hd H) as (o' & R & A & C & _). exists o'. split; [exact R|]. intros k. split.
    - intros (v & Hv). destruct (A k v Hv) as [(w & Hw & _)|(_ & [])]. eauto.
    - intros (w & Hw). destruct (C k w Hw) as (v & Hv & _). eauto.
  Qed.

  (** An attribute that is None, as fixed, big and patchID may be, is not there after
      loading; write_to_disk drops the message that says so. *)
  Theorem C55_none_refuted : forall room name (o : attributes) f msgs k, NoDup (map fst o) -> dimensioned o ->
    getattr o k = Some Nothing -> dump_to_h5 room name o = (Some f, Done msgs) ->
    In k msgs /\ write_to_disk room name o None = Some f /\ exists o', read_from_h5 [] f = Some o' /\ getattr o' k = None.
  Proof.
    intros room name o f msgs k ND Hd Hk H. split; [|split].
    - apply dump_file in H as [H _]. destruct (read_saved _ _ _ _ ND Hd H) as (o' & _ & _ & _ & M). apply M. exists Nothing. auto.
    - unfold write_to_disk. rewrite H. reflexivity.
    - apply dump_file in H as [H _]. destruct (read_saved _ _ _ _ ND Hd H) as (o' & R & _ & G & _). exists o'. split; [exact R|]. rewrite G, Hk. reflexivity.
  Qed.

  (** A list of matrices larger than an attribute may be is lost in the same way. *)
  Theorem C55_large_list_refuted : forall room name (o : attributes) f msgs k d b, NoDup (map fst o) -> dimensioned o ->
    getattr o k = Some (ListOf d b) -> room < 8 * size d -> dump_to_h5 room name o = (Some f, Done msgs) ->
    write_to_disk room name o None = Some f /\ exists o', read_from_h5 [] f = Some o' /\ getattr o' k = None.
  Proof.
    intros room name o f msgs k d b ND Hd Hk Hs H. split; [unfold write_to_disk; rewrite H; reflexivity|].
    apply dump_file in H as [H _]. destruct (read_saved _ _ _ _ ND Hd H) as (o' & R & _ & G & _). exists o'. split; [exact R|]. rewrite G, Hk. cbn [attr_of].
    apply Nat.leb_gt in Hs. rewrite Hs. reflexivity.
  Qed.

  (** An array of fixed-width text makes the save raise, and what comes after it is not in
      the file that is left behind. *)
  Theorem C55_text_array_refuted : forall room name (pre : attributes) k d l (post : attributes), has_slash name = true ->
    forallb (fun kv => savable (snd kv)) pre = true -> NoDup (map fst (pre ++ (k, Arr d (Texts l)) :: post)) ->
    exists f, dump_to_h5 room name (pre ++ (k, Arr d (Texts l)) :: post) = (Some f, Raised k) /\
      forall j, In j (map fst ((k, Arr d (Texts l)) :: post)) -> getattr (sets f) j = None /\ getattr (attrs f) j = None.
  Proof.
    intros room name pre k d l post Hn Hp ND. unfold dump_to_h5. rewrite Hn. rewrite dump_loop_raised by exact Hp. cbn [app sets attrs].
    eexists. split; [reflexivity|]. cbn [sets attrs]. intros j Hj. rewrite map_app in ND. apply NoDup_app_iff in ND as (_ & _ & D).
    assert (Hj' : ~ In j (map fst pre)) by (intros I; exact (D j I Hj)).
    split; apply getattr_none; intros I; apply Hj'; [apply sets_keys | apply (attrs_keys room)]; exact I.
  Qed.

  (** An array without dimensions is saved, and then the file cannot be loaded. *)
  Theorem C55_scalar_array_refuted : forall cc room name (o : attributes) f msgs k b kwargs, NoDup (map fst o) -> getattr o k = Some (Arr [] (Blob b)) ->
    dump_to_h5 room name o = (Some f, Done msgs) -> load cc f kwargs = None.
  Proof.
    intros cc room name o f msgs k b kwargs ND Hk H. apply dump_file in H as [H _]. pose proof (done_savable _ _ _ _ _ _ H) as S. rewrite dump_loop_done in H by exact S.
    cbn [app sets attrs] in H. assert (Ef : f = mkH5 (sets_of o) (attrs_of room o)) by congruence. subst f. unfold load, read_from_h5. cbn [sets attrs].
    assert (G : getattr (sets_of o) k = Some ([], Blob b)) by (rewrite sets_get by exact ND; rewrite Hk; reflexivity). apply getattr_in in G.
    clear H.     replace (mapM read_set (sets_of o)) with (@None (list (string * value))); [reflexivity|]. symmetry.
    induction (sets_of o) as [|[k' s] t IH]; [destruct G|]. cbn [mapM]. destruct G as [E|G].
    - assert (Es : s = ([], Blob b)) by congruence. subst s. reflexivity.
    - rewrite (IH G). destruct (read_set (k', s)); reflexivity.
  Qed.

  (** A file name without a directory is refused, whatever the result. *)
  Theorem C55_bare_name_refuted : forall room name (o : attributes), has_slash name = false -> dump_to_h5 room name o = (None, NoDirectory).
  Proof. intros room name o H. unfold dump_to_h5. rewrite H. reflexivity. Qed.
End Props.
Print Assumptions C55_saved.
Print Assumptions C55_kept.
Print Assumptions C55_complete.
Print Assumptions C55_none_refuted.
Print Assumptions C55_large_list_refuted.
Print Assumptions C55_text_array_refuted.
Print Assumptions C55_scalar_array_refuted.
Print Assumptions C55_bare_name_refuted.
