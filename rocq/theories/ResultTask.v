(** C55: from a filled result to the loaded one. *)
From Verif Require Import Np NpFacts ResultModel ResultFacts ResultProps ResultLoad.
Open Scope nat_scope.

Section Task.
  Context {N B : Type}.
  Local Notation value := (value N B).
  Local Notation attributes := (attributes N B).
  Context (chaincat_of : value -> list string -> value -> value -> list string -> option value).

  Ltac attr := repeat (rewrite getattr_setattr; cbn [String.eqb Ascii.eqb Bool.eqb]).

  Lemma dim_setattr : forall (o : attributes) k v, dimensioned o -> (forall d c, v = Arr d c -> d <> []) -> dimensioned (setattr o k v).
  Proof.
    intros o k v Ho Hv j d c H. rewrite getattr_setattr in H. destruct (String.eqb k j); [apply (Hv d c); congruence|exact (Ho _ _ _ H)].
  Qed.
  Lemma dim_arr : forall a : list nat * B, fst a <> [] -> forall d c, (arr a : value) = Arr d c -> d <> [].
  Proof. intros a Ha d c E. unfold arr in E. congruence. Qed.
  Lemma dim_bytes : forall l d c, (bytes_of l : value) = Arr d c -> d <> [].
  Proof. intros l d c E. unfold bytes_of in E. injection E as <- _. discriminate. Qed.
  Lemma dim_or_none : forall a : option (list nat * B), (forall x, a = Some x -> fst x <> []) -> forall d c, (or_none a : value) = Arr d c -> d <> [].
  Proof. intros [a|] Ha d c E; unfold or_none in E; [apply (dim_arr a (Ha a eq_refl) d c); exact E|discriminate]. Qed.

  (** A fit in a circular region, filled and written by a child: whoever loads the file has
      the bands and shapes by name, the region, the active sources, the exposures, the chain,
      the chain catalog and the final catalog of the fit, and the configuration.  Nothing on
      the way adds the precision matrices that flux_unc_linear (C54) looks for. *)
  Theorem C55_task : forall room name num sample_cat (o0 : attributes) chain active fixed big bounds patchID p ra dec radius config o f,
    NoDup (map fst o0) -> dimensioned o0 -> getattr o0 "chain" = Some (arr chain) ->
    fst active <> [] -> (forall x, fixed = Some x -> fst x <> []) -> (forall x, big = Some x -> fst x <> []) -> (forall x, bounds = Some x -> fst x <> []) -> fst (refcoord p) <> [] ->
    (forall c bs a r ss v, chaincat_of c bs a r ss = Some v -> exists d b, v = arr (d, b) /\ d <> []) ->
    (forall c a v, sample_cat c a = Some v -> exists d b, v = arr (d, b) /\ d <> []) ->
    fill chaincat_of num sample_cat o0 (circle_dict ra dec radius) active fixed big bounds patchID p = Some o ->
    write_to_disk room name o config = Some f ->
    exists l cc fin, load chaincat_of f [] = Some l /\
      getattr l "bands" = Some (TextList (bandlist p)) /\ getattr l "shape_cols" = Some (TextList (shape_cols p)) /\
      getattr l "region" = Some (Circle (Number ra) (Number dec) (Number radius)) /\
      getattr l "active" = Some (arr active) /\ getattr l "exposures" = Some (bytes_of (epaths p)) /\ getattr l "chain" = Some (arr chain) /\
      chaincat_of (arr chain) (bandlist p) (arr active) (arr (refcoord p)) (shape_cols p) = Some cc /\ getattr l "chaincat" = Some cc /\
      sample_cat cc (arr active) = Some fin /\ getattr l "final" = Some fin /\
      getattr l "fixed" = option_map arr fixed /\ getattr l "big" = option_map arr big /\ getattr l "patchID" = option_map Number patchID /\
      (forall c, config = Some c -> getattr l "config" = Some (Text c)) /\ (forall b, bounds = Some b -> getattr l "bounds" = Some (arr b)) /\
      (getattr o0 "precisions" = None -> getattr l "precisions" = None).
  Proof.
    intros room name num sample_cat o0 chain active fixed big bounds patchID p ra dec radius config o f ND Hd Hc Da Df Db Dbo Dr HC HS HF HW.
    unfold fill in HF. unfold setall, circle_dict in HF. cbn [fold_left fst snd] in HF.
    match type of HF with context [getattr ?x "chain"] => set (o1 := x) in HF end.
    assert (E1 : getattr o1 "chain" = Some (arr chain)) by (unfold o1; attr; exact Hc). rewrite E1 in HF.
    assert (N1 : NoDup (map fst o1)) by (unfold o1; repeat apply keys_setattr; exact ND).
    assert (D1 : dimensioned o1).
    { unfold o1. repeat apply dim_setattr; try exact Hd; try (intros d c E; discriminate E); try (apply dim_bytes); try (apply dim_arr; assumption); try (apply dim_or_none; assumption).
      intros d c E. destruct patchID; discriminate E. }
    destruct (chaincat_of (arr chain) (bandlist p) (arr active) (arr (refcoord p)) (shape_cols p)) as [cc|] eqn:Ecc; [|discriminate]. cbn [option_map] in HF.
    destruct (HC _ _ _ _ _ _ Ecc) as (dc & bc & Ec & Hdc).
    set (o2 := match bounds with Some b => setattr (setattr o1 "chaincat" cc) "bounds" (arr b) | None => setattr o1 "chaincat" cc end) in HF.
    assert (N2 : NoDup (map fst o2)) by (unfold o2; destruct bounds; repeat (first [exact N1 | apply keys_setattr])).
    assert (Dcc : dimensioned (setattr o1 "chaincat" cc)) by (apply dim_setattr; [exact D1|]; subst cc; apply dim_arr; exact Hdc).
    assert (D2 : dimensioned o2) by (unfold o2; destruct bounds as [b|]; [apply dim_setattr; [exact Dcc|]; apply dim_arr; apply Dbo; reflexivity|exact Dcc]).
    assert (E2 : getattr o2 "chaincat" = Some cc) by (unfold o2; destruct bounds; attr; reflexivity). rewrite E2 in HF.
    destruct (sample_cat cc (arr active)) as [fin|] eqn:Efin; [|discriminate]. destruct (HS _ _ _ Efin) as (df & bf & Ef & Hdf). cbn [option_map] in HF.
    assert (Eo : o = setattr o2 "final" fin) by congruence. clear HF. subst o.
    set (o3 := match config with Some c => setattr (setattr o2 "final" fin) "config" (Text c) | None => setattr o2 "final" fin end).
    assert (N3 : NoDup (map fst o3)) by (unfold o3; destruct config; repeat (first [exact N2 | apply keys_setattr])).
    assert (Dfi : dimensioned (setattr o2 "final" fin)) by (apply dim_setattr; [exact D2|]; subst fin; apply dim_arr; exact Hdf).
    assert (D3 : dimensioned o3) by (unfold o3; destruct config; [apply dim_setattr; [exact Dfi|discriminate]|exact Dfi]).
    unfold write_to_disk in HW. fold o3 in HW. destruct (dump_to_h5 room name o3) as [[f'|] [msgs|kk|]] eqn:HD; try discriminate. assert (f' = f) by congruence. subst f'. clear HW.
    assert (X : forall k, k <> "config"%string -> k <> "final"%string -> k <> "bounds"%string -> k <> "chaincat"%string -> getattr o3 k = getattr o1 k).
    { intros k K1 K2 K3 K4. unfold o3, o2. destruct config; destruct bounds; rewrite ?getattr_other by congruence; reflexivity. }
    assert (B1 : getattr o3 "bandlist" = Some (bytes_of (bandlist p))) by (rewrite X by discriminate; unfold o1; attr; reflexivity).
    assert (B2 : getattr o3 "shapenames" = Some (bytes_of (shape_cols p))) by (rewrite X by discriminate; unfold o1; attr; reflexivity).
    assert (B3 : getattr o3 "ra" = Some (Number ra)) by (rewrite X by discriminate; unfold o1; attr; reflexivity).
    assert (B4 : getattr o3 "dec" = Some (Number dec)) by (rewrite X by discriminate; unfold o1; attr; reflexivity).
    assert (B5 : getattr o3 "radius" = Some (Number radius)) by (rewrite X by discriminate; unfold o1; attr; reflexivity).
    destruct (C55_loaded chaincat_of _ _ _ _ _ _ _ _ _ _ [] N3 D3 (NoDup_nil _) HD B1 B2 B3 B4 B5) as (o' & l & R & L & G). cbn [getattr] in G.
    pose proof (dump_file _ _ _ _ _ HD) as [HD' _]. destruct (read_saved _ _ _ _ N3 D3 HD') as (o'' & R' & _ & G' & _). assert (o'' = o') by congruence. subst o''.
    assert (Y : forall k v, k <> "bands"%string -> k <> "shape_cols"%string -> k <> "region"%string -> getattr o3 k = Some v -> plain v -> getattr l k = Some v).
    { intros k v K1 K2 K3 Hk Pv. rewrite G. apply String.eqb_neq in K1, K2, K3. rewrite K1, K2, K3. rewrite G', Hk. rewrite (plain_kept room v Pv). reflexivity. }
    assert (Z : forall k, k <> "bands"%string -> k <> "shape_cols"%string -> k <> "region"%string -> k <> "chaincat"%string -> getattr o3 k = Some Nothing -> getattr l k = None).
    { intros k K1 K2 K3 K4 Hk. rewrite G. apply String.eqb_neq in K1, K2, K3, K4. rewrite K1, K2, K3, K4. rewrite G', Hk. reflexivity. }
    exists l, cc, fin. split; [exact L|]. split; [rewrite G; reflexivity|]. split; [rewrite G; reflexivity|]. split; [rewrite G; reflexivity|].
    split; [apply Y; try discriminate; [rewrite X by discriminate; unfold o1; attr; reflexivity|exact I]|].
    split; [apply Y; try discriminate; [rewrite X by discriminate; unfold o1; attr; reflexivity|exact I]|].
    split; [apply Y; try discriminate; [rewrite X by discriminate; exact E1|exact I]|].
    split; [reflexivity|].
    split; [apply Y; try discriminate; [unfold o3; destruct config; attr; exact E2|subst cc; exact I]|].
    split; [exact Efin|].
    split; [apply Y; try discriminate; [unfold o3; destruct config; attr; reflexivity|subst fin; exact I]|].
    assert (F1 : getattr o3 "fixed" = Some (or_none fixed)) by (rewrite X by discriminate; unfold o1; attr; reflexivity).
    assert (F2 : getattr o3 "big" = Some (or_none big)) by (rewrite X by discriminate; unfold o1; attr; reflexivity).
    assert (F3 : getattr o3 "patchID" = Some (match patchID with Some i => Number i | None => Nothing end)) by (rewrite X by discriminate; unfold o1; attr; reflexivity).
    split; [destruct fixed as [a|]; [apply Y; try discriminate; [exact F1|exact I]|apply Z; try discriminate; exact F1]|].
    split; [destruct big as [a|]; [apply Y; try discriminate; [exact F2|exact I]|apply Z; try discriminate; exact F2]|].
    split; [destruct patchID as [a|]; [apply Y; try discriminate; [exact F3|exact I]|apply Z; try discriminate; exact F3]|].
    split; [|split].
    - intros c ->. apply Y; try discriminate; [unfold o3; attr; reflexivity|exact I].
    - intros b ->. apply Y; try discriminate; [unfold o3, o2; destruct config; attr; reflexivity|exact I].
    - intros HP. rewrite G. cbn [String.eqb Ascii.eqb Bool.eqb]. rewrite G', X by discriminate. unfold o1. attr. rewrite HP. reflexivity.
  Qed.

  (** The load of a list of names, other than those rebuilt, changes again when saved again:
      text, then an array of text, then an array of bytes. *)
  Theorem C55_names_refuted : forall room name (l : list string), has_slash name = true -> 16 * List.length l <= room ->
    let o := [("names"%string, TextList l)] : attributes in
    exists f o1 f' o2, dump_to_h5 room name o = (Some f, Done []) /\ load chaincat_of f [] = Some o1 /\ dump_to_h5 room name o1 = (Some f', Done []) /\ load chaincat_of f' [] = Some o2 /\
      getattr o1 "names" = Some (Arr [List.length l] (Strs l)) /\ getattr o2 "names" = Some (Arr [List.length l] (Bytes l)).
  Proof.
    intros room name l Hn Hl o. apply Nat.leb_le in Hl. unfold o, dump_to_h5. rewrite Hn. cbn [dump_loop attr_of]. rewrite Hl.
    do 4 eexists. split; [reflexivity|]. split; [reflexivity|]. split; [reflexivity|]. split; [reflexivity|]. split; reflexivity.
  Qed.
End Task.
Print Assumptions C55_task.
Print Assumptions C55_names_refuted.
