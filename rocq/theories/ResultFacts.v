(** Lemmas about saving and loading results. *)
From Verif Require Import Np NpFacts ResultModel.
Open Scope nat_scope.

Section Attr.
  Context {A : Type}.
  Implicit Types o new : list (string * A).

  Lemma getattr_setattr : forall o k v j, getattr (setattr o k v) j = if String.eqb k j then Some v else getattr o j.
  Proof.
    intros o. induction o as [|[k' v'] t IH]; intros k v j; cbn [setattr getattr]; [reflexivity|].
    destruct (String.eqb_spec k' k) as [E|E]; cbn [getattr].
    - subst k'. destruct (String.eqb_spec k j); reflexivity.
    - rewrite IH. destruct (String.eqb_spec k' j) as [E'|E']; [|reflexivity]. subst k'.
      destruct (String.eqb_spec k j); [congruence|reflexivity].
  Qed.
  Lemma getattr_same : forall o k v, getattr (setattr o k v) k = Some v.
  Proof. intros. rewrite getattr_setattr, String.eqb_refl. reflexivity. Qed.
  Lemma getattr_other : forall o k v j, k <> j -> getattr (setattr o k v) j = getattr o j.
  Proof. intros o k v j H. rewrite getattr_setattr. apply String.eqb_neq in H. rewrite H. reflexivity. Qed.

  Lemma getattr_none : forall o k, getattr o k = None <-> ~ In k (map fst o).
  Proof.
    induction o as [|[k' v'] t IH]; intros k; cbn; [tauto|]. destruct (String.eqb_spec k' k) as [E|E].
    - split; [discriminate|]. intros H. exfalso. apply H. left; exact E.
    - rewrite IH. split; intros H; [intros [H'|H']; [congruence|exact (H H')] | intros H'; apply H; right; exact H'].
  Qed.
  Lemma getattr_in : forall o k v, getattr o k = Some v -> In (k, v) o.
  Proof.
    induction o as [|[k' v'] t IH]; intros k v; cbn; [discriminate|]. destruct (String.eqb_spec k' k) as [E|E]; intros H.
    - left. congruence.
    - right. apply IH. exact H.
  Qed.
  Lemma in_getattr : forall o k v, NoDup (map fst o) -> In (k, v) o -> getattr o k = Some v.
  Proof.
    induction o as [|[k' v'] t IH]; intros k v ND H; [destruct H|]. cbn in *. inversion ND as [|? ? H1 H2]; subst.
    destruct H as [E|H].
    - injection E as -> ->. rewrite String.eqb_refl. reflexivity.
    - destruct (String.eqb_spec k' k) as [E|E]; [|apply IH; assumption]. subst k'. exfalso. apply H1. apply (in_map fst) in H. exact H.
  Qed.
  Lemma getattr_app : forall o new k, getattr (o ++ new) k = match getattr o k with Some v => Some v | None => getattr new k end.
  Proof. induction o as [|[k' v'] t IH]; intros new k; cbn; [reflexivity|]. destruct (String.eqb k' k); [reflexivity|apply IH]. Qed.

  Lemma getattr_setall : forall new o k, NoDup (map fst new) -> getattr (setall o new) k = match getattr new k with Some v => Some v | None => getattr o k end.
  Proof.
    induction new as [|[k' v'] t IH]; intros o k ND; [reflexivity|]. cbn in ND. inversion ND as [|? ? H1 H2]; subst.
    unfold setall in *. cbn [fold_left fst snd getattr]. rewrite IH by exact H2. destruct (String.eqb_spec k' k) as [E|E].
    - subst k'. apply getattr_none in H1. rewrite H1. apply getattr_same.
    - destruct (getattr t k); [reflexivity|]. apply getattr_other. exact E.
  Qed.
  Lemma keys_setattr : forall o k v, NoDup (map fst o) -> NoDup (map fst (setattr o k v)).
  Proof.
    induction o as [|[k' v'] t IH]; intros k v ND; cbn; [constructor; [tauto|constructor]|]. cbn in ND. inversion ND as [|? ? H1 H2]; subst.
    destruct (String.eqb_spec k' k) as [E|E]; cbn; [exact ND|]. constructor; [|apply IH; exact H2].
    intros H. apply H1. assert (G : getattr (setattr t k v) k' <> None) by (rewrite getattr_none; tauto).
    rewrite getattr_other in G by congruence. rewrite getattr_none in G. destruct (in_dec string_dec k' (map fst t)); [assumption|tauto].
  Qed.
  Lemma keys_setall : forall new o, NoDup (map fst o) -> NoDup (map fst (setall o new)).
  Proof. unfold setall. induction new as [|[k v] t IH]; intros o ND; cbn; [exact ND|]. apply IH. apply keys_setattr. exact ND. Qed.
End Attr.

Section Facts.
  Context {N B : Type}.
  Local Notation value := (value N B).
  Local Notation attributes := (attributes N B).

  (** What ends where *)
  Fixpoint sets_of (o : attributes) : list (string * (list nat * content B)) :=
    match o with
    | [] => []
    | (k, Arr dims c) :: t => match set_of c with Some c' => (k, (dims, c')) :: sets_of t | None => sets_of t end
    | _ :: t => sets_of t
    end.
  Definition not_array (v : value) : bool := match v with Arr _ _ => false | _ => true end.
  Fixpoint attrs_of (room : nat) (o : attributes) : attributes :=
    match o with
    | [] => []
    | (k, v) :: t => if not_array v then match attr_of room v with Some w => (k, w) :: attrs_of room t | None => attrs_of room t end else attrs_of room t
    end.
  Fixpoint lost_of (room : nat) (o : attributes) : list string :=
    match o with
    | [] => []
    | (k, v) :: t => if not_array v then match attr_of room v with Some w => lost_of room t | None => k :: lost_of room t end else lost_of room t
    end.
  Definition savable (v : value) : bool := match v with Arr _ (Texts _) => false | _ => true end.

  Lemma set_of_none : forall c : content B, set_of c = None -> exists l, c = Texts l.
  Proof. intros [b|l|l|l]; cbn; try discriminate. eauto. Qed.

  Lemma dump_loop_done : forall room (o : attributes) f msgs, forallb (fun kv => savable (snd kv)) o = true ->
    dump_loop room o f msgs = (mkH5 (sets f ++ sets_of o) (attrs f ++ attrs_of room o), Done (msgs ++ lost_of room o)).
  Proof.
    intros room o. induction o as [|[k v] t IH]; intros f msgs H; cbn in H.
    - cbn. rewrite !app_nil_r. destruct f; reflexivity.
    - apply andb_true_iff in H as [Hv Ht]. cbn [dump_loop sets_of attrs_of lost_of].
      destruct v as [dims c|x|s|l|dims b|r d ra| |]; cbn [not_array].
      + destruct c; cbn [set_of savable snd] in *; try discriminate; rewrite IH by exact Ht; cbn [sets attrs]; rewrite <- app_assoc; reflexivity.
      + cbn [attr_of]. rewrite IH by exact Ht. cbn [sets attrs]. rewrite <- app_assoc. reflexivity.
      + cbn [attr_of]. rewrite IH by exact Ht. cbn [sets attrs]. rewrite <- app_assoc. reflexivity.
      + destruct (attr_of room (TextList l)); rewrite IH by exact Ht; cbn [sets attrs]; rewrite <- app_assoc; reflexivity.
      + destruct (attr_of room (ListOf dims b)); rewrite IH by exact Ht; cbn [sets attrs]; rewrite <- app_assoc; reflexivity.
      + cbn [attr_of]. rewrite IH by exact Ht. cbn [sets attrs]. rewrite <- app_assoc. reflexivity.
      + cbn [attr_of]. rewrite IH by exact Ht. cbn [sets attrs]. rewrite <- app_assoc. reflexivity.
      + cbn [attr_of]. rewrite IH by exact Ht. cbn [sets attrs]. rewrite <- app_assoc. reflexivity.
  Qed.

  Lemma dump_loop_raised : forall room (pre : attributes) k dims l (post : attributes) f msgs, forallb (fun kv => savable (snd kv)) pre = true ->
    dump_loop room (pre ++ (k, Arr dims (Texts l)) :: post) f msgs = (mkH5 (sets f ++ sets_of pre) (attrs f ++ attrs_of room pre), Raised k).
  Proof.
    intros room pre. induction pre as [|[k' v] t IH]; intros k dims l post f msgs H; cbn in H.
    - cbn. rewrite !app_nil_r. destruct f; reflexivity.
    - apply andb_true_iff in H as [Hv Ht]. cbn [app dump_loop sets_of attrs_of lost_of].
      destruct v as [ds c|x|s|l'|ds b|r d ra| |]; cbn [not_array].
      + destruct c; cbn [set_of savable snd] in *; try discriminate; rewrite IH by exact Ht; cbn [sets attrs]; rewrite <- app_assoc; reflexivity.
      + cbn [attr_of]. rewrite IH by exact Ht. cbn [sets attrs]. rewrite <- app_assoc. reflexivity.
      + cbn [attr_of]. rewrite IH by exact Ht. cbn [sets attrs]. rewrite <- app_assoc. reflexivity.
      + destruct (attr_of room (TextList l')); rewrite IH by exact Ht; cbn [sets attrs]; try rewrite <- app_assoc; reflexivity.
      + destruct (attr_of room (ListOf ds b)); rewrite IH by exact Ht; cbn [sets attrs]; try rewrite <- app_assoc; reflexivity.
      + cbn [attr_of]. rewrite IH by exact Ht. reflexivity.
      + cbn [attr_of]. rewrite IH by exact Ht. reflexivity.
      + cbn [attr_of]. rewrite IH by exact Ht. reflexivity.
  Qed.

  (** A completed save has no array of fixed-width text *)
  Lemma done_savable : forall room (o : attributes) f msgs f' m, dump_loop room o f msgs = (f', Done m) -> forallb (fun kv => savable (snd kv)) o = true.
  Proof.
    intros room o. induction o as [|[k v] t IH]; intros f msgs f' m H; [reflexivity|]. cbn [dump_loop forallb snd] in *.
    destruct v as [dims c|x|s|l|dims b|r d ra| |]; cbn [savable andb].
    - destruct c; cbn [set_of] in H; try discriminate; cbn [andb]; exact (IH _ _ _ _ H).
    - exact (IH _ _ _ _ H).
    - exact (IH _ _ _ _ H).
    - destruct (attr_of room (TextList l)); exact (IH _ _ _ _ H).
    - destruct (attr_of room (ListOf dims b)); exact (IH _ _ _ _ H).
    - exact (IH _ _ _ _ H).
    - exact (IH _ _ _ _ H).
    - exact (IH _ _ _ _ H).
  Qed.

  Lemma sets_keys : forall (o : attributes) k, In k (map fst (sets_of o)) -> In k (map fst o).
  Proof.
    induction o as [|[k' v] t IH]; intros k H; [destruct H|]. cbn [sets_of] in H. cbn.
    destruct v as [dims c|x|s|l|dims b|r d ra| |]; try (right; apply IH; exact H).
    destruct (set_of c); cbn in H; [destruct H as [H|H]; [left; exact H|]|]; right; apply IH; exact H.
  Qed.
  Lemma attrs_keys : forall room (o : attributes) k, In k (map fst (attrs_of room o)) -> In k (map fst o).
  Proof.
    intros room. induction o as [|[k' v] t IH]; intros k H; [destruct H|]. cbn [attrs_of] in H. cbn.
    destruct (not_array v); [|right; apply IH; exact H]. destruct (attr_of room v); cbn in H; [destruct H as [H|H]; [left; exact H|]|]; right; apply IH; exact H.
  Qed.
  Lemma sets_nodup : forall o : attributes, NoDup (map fst o) -> NoDup (map fst (sets_of o)).
  Proof.
    induction o as [|[k' v] t IH]; intros ND; [constructor|]. cbn in ND. inversion ND as [|? ? H1 H2]; subst. cbn [sets_of].
    destruct v as [dims c|x|s|l|dims b|r d ra| |]; try (apply IH; exact H2).
    destruct (set_of c); [|apply IH; exact H2]. cbn. constructor; [|apply IH; exact H2]. intros H. apply H1. apply sets_keys. exact H.
  Qed.
  Lemma attrs_nodup : forall room (o : attributes), NoDup (map fst o) -> NoDup (map fst (attrs_of room o)).
  Proof.
    intros room. induction o as [|[k' v] t IH]; intros ND; [constructor|]. cbn in ND. inversion ND as [|? ? H1 H2]; subst. cbn [attrs_of].
    destruct (not_array v); [|apply IH; exact H2]. destruct (attr_of room v); [|apply IH; exact H2].
    cbn. constructor; [|apply IH; exact H2]. intros H. apply H1. apply attrs_keys in H. exact H.
  Qed.

  Lemma sets_get : forall (o : attributes) k, NoDup (map fst o) ->
    getattr (sets_of o) k = match getattr o k with Some (Arr dims c) => option_map (pair dims) (set_of c) | _ => None end.
  Proof.
    induction o as [|[k' v] t IH]; intros k ND; [reflexivity|]. cbn in ND. inversion ND as [|? ? H1 H2]; subst. cbn [sets_of getattr].
    assert (Z : k' = k -> getattr (sets_of t) k = None). { intros ->. apply getattr_none. intros H. apply H1. apply sets_keys. exact H. }
    destruct v as [dims c|x|s|l|dims b|r d ra| |]; try (destruct (String.eqb_spec k' k) as [E|E]; [exact (Z E)|apply IH; exact H2]).
    destruct (set_of c) as [c'|] eqn:EC; cbn [getattr]; destruct (String.eqb_spec k' k) as [E|E]; try (apply IH; exact H2); rewrite EC; [reflexivity|exact (Z E)].
  Qed.
  Lemma attrs_get : forall room (o : attributes) k, NoDup (map fst o) ->
    getattr (attrs_of room o) k = match getattr o k with Some v => if not_array v then attr_of room v else None | None => None end.
  Proof.
    intros room. induction o as [|[k' v] t IH]; intros k ND; [reflexivity|]. cbn in ND. inversion ND as [|? ? H1 H2]; subst. cbn [attrs_of getattr].
    assert (Z : k' = k -> getattr (attrs_of room t) k = None). { intros ->. apply getattr_none. intros H. apply H1. apply (attrs_keys room). exact H. }
    destruct (not_array v) eqn:E1; [|destruct (String.eqb_spec k' k) as [E|E]; [rewrite E1; exact (Z E)|apply IH; exact H2]].
    destruct (attr_of room v) as [w|] eqn:E2; cbn [getattr]; destruct (String.eqb_spec k' k) as [E|E]; try (apply IH; exact H2); [rewrite E1, E2; reflexivity|rewrite E1, E2; exact (Z E)].
  Qed.
  Lemma lost_in : forall room (o : attributes) k, In k (lost_of room o) <-> exists v, In (k, v) o /\ not_array v = true /\ attr_of room v = None.
  Proof.
    intros room. induction o as [|[k' v] t IH]; intros k; cbn [lost_of].
    - split; [intros []|intros (v & [] & _)].
    - destruct (not_array v) eqn:E1; [destruct (attr_of room v) as [w|] eqn:E2|].
      + rewrite IH. split; [intros (v' & H & H'); exists v'; split; [right|]; assumption|].
        intros (v' & [E|H] & H1 & H2); [congruence|]. exists v'. auto.
      + cbn [In]. rewrite IH. split.
        * intros [E|(v' & H & H')]; [exists v; split; [left; congruence|auto]|exists v'; split; [right; assumption|assumption]].
        * intros (v' & [E|H] & H'); [left; congruence|right; exists v'; auto].
      + rewrite IH. split; [intros (v' & H & H'); exists v'; split; [right|]; assumption|].
        intros (v' & [E|H] & H1 & H2); [congruence|]. exists v'. auto.
  Qed.

  Lemma read_sets : forall (l : list (string * (list nat * content B))), (forall k d c, In (k, (d, c)) l -> d <> []) ->
    mapM (read_set (N:=N)) l = Some (map (fun s => (fst s, Arr (fst (snd s)) (snd (snd s)))) l).
  Proof.
    induction l as [|[k [d c]] t IH]; intros H; [reflexivity|]. cbn [mapM map]. rewrite IH; [|intros k' d' c' H'; apply (H k' d' c'); right; exact H'].
    unfold read_set. cbn [fst snd]. destruct d; [exfalso; apply (H k [] c); [left; reflexivity|reflexivity]|reflexivity].
  Qed.
  Lemma read_sets_get : forall (l : list (string * (list nat * content B))) k,
    getattr (map (fun s => (fst s, Arr (N:=N) (fst (snd s)) (snd (snd s)))) l) k = option_map (fun s => Arr (fst s) (snd s)) (getattr l k).
  Proof. induction l as [|[k' [d c]] t IH]; intros k; cbn; [reflexivity|]. destruct (String.eqb k' k); [reflexivity|apply IH]. Qed.
  Lemma sets_in : forall (o : attributes) k d c, In (k, (d, c)) (sets_of o) -> exists c', In (k, Arr d c') o.
  Proof.
    induction o as [|[k' v] t IH]; intros k d c H; [destruct H|]. cbn [sets_of] in H.
    assert (R : In (k, (d, c)) (sets_of t) -> exists c', In (k, Arr d c') ((k', v) :: t)). { intros H'. destruct (IH _ _ _ H') as (c' & I). exists c'. right. exact I. }
    destruct v as [dims c0|x|s|l|dims b|r d0 ra| |]; try (exact (R H)).
    destruct (set_of c0); [|exact (R H)]. destruct H as [E|H]; [|exact (R H)]. exists c0. left. congruence.
  Qed.

  (** The main fact: saving then reading attribute by attribute *)
  Lemma read_saved : forall room (o : attributes) f msgs, NoDup (map fst o) -> (forall k d c, getattr o k = Some (Arr d c) -> d <> []) ->
    dump_loop room o (mkH5 [] []) [] = (f, Done msgs) ->
    exists o', read_from_h5 [] f = Some o' /\ NoDup (map fst o') /\
      (forall k, getattr o' k = match getattr o k with Some v => attr_of room v | None => None end) /\
      (forall k, In k msgs <-> exists v, getattr o k = Some v /\ attr_of room v = None).
  Proof.
    intros room o f msgs ND Hd H. pose proof (done_savable _ _ _ _ _ _ H) as S. rewrite dump_loop_done in H by exact S. cbn [app sets attrs] in H.
    assert (Ef : f = mkH5 (sets_of o) (attrs_of room o)) by congruence. assert (Em : msgs = lost_of room o) by congruence. clear H. subst f msgs.
    unfold read_from_h5. cbn [sets attrs]. rewrite read_sets.
    2:{ intros k d c I. destruct (sets_in _ _ _ _ I) as (c' & I'). apply (Hd k d c'). apply in_getattr; assumption. }
    eexists. split; [reflexivity|]. split; [apply keys_setall, keys_setall; constructor|]. split.
    - intros k. rewrite !getattr_setall.
      2:{ rewrite map_map. cbn [fst]. apply sets_nodup. exact ND. }
      2:{ apply attrs_nodup. exact ND. }
      rewrite read_sets_get, attrs_get, sets_get by exact ND. destruct (getattr o k) as [v|]; [|reflexivity].
      destruct v as [dims c|x|s|l|dims b|r d ra| |]; cbn [not_array attr_of option_map]; try reflexivity.
      + destruct (set_of c); reflexivity.
      + destruct (16 * List.length l <=? room); reflexivity.
      + destruct (8 * size dims <=? room); reflexivity.
    - intros k. rewrite lost_in. split.
      + intros (v & I & _ & Hv). exists v. split; [apply in_getattr; assumption|exact Hv].
      + intros (v & G & Hv). exists v. split; [apply getattr_in; exact G|]. split; [|exact Hv]. apply getattr_in in G.
        destruct v as [dims c|x|s|l|dims b|r d ra| |]; try reflexivity. exfalso. rewrite forallb_forall in S. specialize (S _ G). cbn in *. destruct c; cbn in *; discriminate.
  Qed.

  Lemma setattr_getattr_eq : forall (o o' : attributes) k v, (forall j, getattr o j = getattr o' j) -> forall j, getattr (setattr o k v) j = getattr (setattr o' k v) j.
  Proof. intros o o' k v H j. rewrite !getattr_setattr. rewrite H. reflexivity. Qed.
End Facts.
