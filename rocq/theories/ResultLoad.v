(** C55: what a loaded result offers. *)
From Verif Require Import Np NpFacts ResultModel ResultFacts ResultProps.
Open Scope nat_scope.

Section Load.
  Context {N B : Type}.
  Local Notation value := (value N B).
  Local Notation attributes := (attributes N B).
  Context (chaincat_of : value -> list string -> value -> value -> list string -> option value).

  Ltac attr := repeat (rewrite getattr_setattr; cbn [String.eqb Ascii.eqb Bool.eqb]).

  (** A saved result with band names, shape names and a circular region: after loading, the
      names are text, the region is that circle, the chain catalog is the saved one or is
      made from the saved chain, and every other attribute is as in the file.  Keyword
      arguments win over all of it. *)
  Theorem C55_loaded : forall room name (o : attributes) f msgs bands shapes ra dec radius kwargs, NoDup (map fst o) -> dimensioned o -> NoDup (map fst kwargs) ->
    dump_to_h5 room name o = (Some f, Done msgs) ->
    getattr o "bandlist" = Some (bytes_of bands) -> getattr o "shapenames" = Some (bytes_of shapes) ->
    getattr o "ra" = Some (Number ra) -> getattr o "dec" = Some (Number dec) -> getattr o "radius" = Some (Number radius) ->
    exists o' l, read_from_h5 [] f = Some o' /\ load chaincat_of f kwargs = Some l /\
      forall k, getattr l k =
        match getattr kwargs k with
        | Some v => Some v
        | None =>
          if String.eqb k "bands" then Some (TextList bands) else if String.eqb k "shape_cols" then Some (TextList shapes)
          else if String.eqb k "region" then Some (Circle (Number ra) (Number dec) (Number radius))
          else match getattr o' k with
               | Some v => Some v
               | None => if String.eqb k "chaincat" then
                           match getattr o' "chain", getattr o' "active", getattr o' "reference_coordinates" with
                           | Some chain, Some active, Some ref => chaincat_of chain bands active ref shapes
                           | _, _, _ => None
                           end
                         else None
               end
        end.
  Proof.
    intros room name o f msgs bands shapes ra dec radius kwargs ND Hd NK H Hb Hs H1 H2 H3. apply dump_file in H as [H _]. destruct (read_saved _ _ _ _ ND Hd H) as (o' & R & _ & G & _).
    pose proof (G "bandlist"%string) as Gb. rewrite Hb in Gb. cbn in Gb. pose proof (G "shapenames"%string) as Gs. rewrite Hs in Gs. cbn in Gs.
    pose proof (G "ra"%string) as G1. rewrite H1 in G1. cbn in G1. pose proof (G "dec"%string) as G2. rewrite H2 in G2. cbn in G2. pose proof (G "radius"%string) as G3. rewrite H3 in G3. cbn in G3.
    exists o'. unfold load. rewrite R. eexists. split; [reflexivity|]. split; [reflexivity|].
    intros k. rewrite getattr_setall by exact NK. destruct (getattr kwargs k); [reflexivity|].
    unfold reconstruct. rewrite Gb. cbn [decode]. attr. rewrite Gs. cbn [decode]. attr. rewrite G1, G2, G3. attr.
    rewrite !(String.eqb_sym k).
    destruct (getattr o' "chaincat") as [cc|] eqn:EC.
    - rewrite !getattr_setattr. destruct (String.eqb_spec "region" k) as [E|E].
      + subst k. reflexivity.
      + destruct (String.eqb_spec "shape_cols" k) as [E'|E']; [subst k; reflexivity|]. destruct (String.eqb "bands" k); [reflexivity|].
        destruct (getattr o' k) as [v|] eqn:EK; [reflexivity|]. destruct (String.eqb_spec "chaincat" k) as [E2|E2]; [|reflexivity]. subst k. congruence.
    - assert (X : forall oo, (forall j, getattr oo j = if String.eqb j "chaincat" then match getattr o' "chain", getattr o' "active", getattr o' "reference_coordinates" with Some chain, Some active, Some ref => chaincat_of chain bands active ref shapes | _, _, _ => None end else getattr (setattr (setattr (setattr o' "bands" (TextList bands)) "shape_cols" (TextList shapes)) "region" (Circle (Number ra) (Number dec) (Number radius))) j) ->
        getattr oo k = (if String.eqb "bands" k then Some (TextList bands) else if String.eqb "shape_cols" k then Some (TextList shapes) else if String.eqb "region" k then Some (Circle (Number ra) (Number dec) (Number radius)) else match getattr o' k with Some v => Some v | None => if String.eqb "chaincat" k then match getattr o' "chain", getattr o' "active", getattr o' "reference_coordinates" with Some chain, Some active, Some ref => chaincat_of chain bands active ref shapes | _, _, _ => None end else None end)).
      { intros oo Ho. rewrite Ho. rewrite (String.eqb_sym k). destruct (String.eqb_spec "chaincat" k) as [E|E].
        - subst k. rewrite EC. reflexivity.
        - rewrite !getattr_setattr. destruct (String.eqb_spec "region" k) as [E1|E1]; [subst k; reflexivity|].
          destruct (String.eqb_spec "shape_cols" k) as [E'|E']; [subst k; reflexivity|]. destruct (String.eqb "bands" k); [reflexivity|]. destruct (getattr o' k); reflexivity. }
      assert (NC : getattr (setattr (setattr (setattr o' "bands" (TextList bands)) "shape_cols" (TextList shapes)) "region" (Circle (Number ra) (Number dec) (Number radius))) "chaincat" = None) by (attr; exact EC).
      apply X. intros j. rewrite (String.eqb_sym j).
      destruct (getattr o' "chain") as [ch|]; [destruct (getattr o' "active") as [ac|]; [destruct (getattr o' "reference_coordinates") as [rf|]; [destruct (chaincat_of ch bands ac rf shapes) as [cc|]|]|]|].
      + rewrite getattr_setattr. destruct (String.eqb_spec "chaincat" j); reflexivity.
      + destruct (String.eqb_spec "chaincat" j) as [E|E]; [subst j; exact NC|reflexivity].
      + destruct (String.eqb_spec "chaincat" j) as [E|E]; [subst j; exact NC|reflexivity].
      + destruct (String.eqb_spec "chaincat" j) as [E|E]; [subst j; exact NC|reflexivity].
      + destruct (String.eqb_spec "chaincat" j) as [E|E]; [subst j; exact NC|reflexivity].
  Qed.

  (** A rectangular region has no centre: the loaded result has the band names, but no
      region, and its chain catalog is not made though all it is made from is there. *)
  Theorem C55_rectangle_refuted : forall room name (o : attributes) f msgs bands shapes chain active ref cat, NoDup (map fst o) -> dimensioned o ->
    dump_to_h5 room name o = (Some f, Done msgs) ->
    getattr o "bandlist" = Some (bytes_of bands) -> getattr o "shapenames" = Some (bytes_of shapes) ->
    getattr o "ra" = None -> getattr o "region" = None -> getattr o "chaincat" = None ->
    getattr o "chain" = Some (arr chain) -> getattr o "active" = Some (arr active) -> getattr o "reference_coordinates" = Some (arr ref) ->
    chaincat_of (arr chain) bands (arr active) (arr ref) shapes = Some cat ->
    exists l, load chaincat_of f [] = Some l /\ getattr l "bands" = Some (TextList bands) /\ getattr l "region" = None /\ getattr l "chaincat" = None /\
      getattr l "chain" = Some (arr chain) /\ getattr l "active" = Some (arr active) /\ getattr l "reference_coordinates" = Some (arr ref).
  Proof.
    intros room name o f msgs bands shapes chain active ref cat ND Hd H Hb Hs H1 H2 H3 H4 H5 H6 _. apply dump_file in H as [H _]. destruct (read_saved _ _ _ _ ND Hd H) as (o' & R & _ & G & _).
    unfold load. rewrite R. eexists. split; [reflexivity|]. unfold setall. cbn [fold_left]. unfold reconstruct.
    rewrite (G "bandlist"%string), Hb. cbn [attr_of bytes_of set_of option_map decode]. attr. rewrite (G "shapenames"%string), Hs. cbn [attr_of bytes_of set_of option_map decode]. attr.
    rewrite (G "ra"%string), H1. attr. rewrite !G, H2, H3, H4, H5, H6. cbn [attr_of arr set_of option_map]. repeat split.
  Qed.

  (** ** Saving a loaded result *)
  (** A value that comes back as it went *)
  Definition plain (v : value) : Prop :=
    match v with Arr _ (Blob _) | Arr _ (Bytes _) | Number _ | Text _ => True | _ => False end.
  Lemma plain_kept : forall room v, plain v -> attr_of room v = Some v.
  Proof. clear chaincat_of. intros room [d c|x|s|l|d b|r d a| |]; cbn; try tauto. destruct c; cbn; tauto. Qed.
  Lemma attr_plain : forall room v w, (forall l, v <> TextList l) -> attr_of room v = Some w -> plain w.
  Proof.
    intros room [d c|x|s|l|d b|r d a| |] w T; cbn [attr_of]; try discriminate.
    - destruct c; cbn; intros E; try discriminate; assert (Ew : w = _) by (symmetry; injection E as E; exact E); subst w; exact I.
    - intros E. assert (Ew : w = Number x) by congruence. subst w. exact I.
    - intros E. assert (Ew : w = Text s) by congruence. subst w. exact I.
    - exfalso. exact (T l eq_refl).
    - destruct (8 * size d <=? room); [|discriminate]. intros E. assert (Ew : w = Arr d (Blob b)) by congruence. subst w. exact I.
  Qed.
  Lemma reconstruct_nodup : forall o : attributes, NoDup (map fst o) -> NoDup (map fst (reconstruct chaincat_of o)).
  Proof.
    intros o ND. unfold reconstruct. destruct (decode (getattr o "bandlist")) as [bs|]; [|exact ND]. destruct (decode _) as [ss|]; [|apply keys_setattr; exact ND].
    destruct (getattr _ "ra") as [r|]; [destruct (getattr _ "dec") as [d|]; [destruct (getattr _ "radius") as [a|]|]|]; try (repeat apply keys_setattr; exact ND).
    destruct (getattr _ "chaincat"); [repeat apply keys_setattr; exact ND|].
    destruct (getattr _ "chain") as [ch|]; [destruct (getattr _ "active") as [ac|]; [destruct (getattr _ "reference_coordinates") as [rf|]|]|]; try (repeat apply keys_setattr; exact ND).
    destruct (chaincat_of ch bs ac rf ss); repeat apply keys_setattr; exact ND.
  Qed.
  Lemma lost_keys : forall room (o : attributes) k, In k (lost_of room o) -> In k (map fst o).
  Proof. intros room o k H. apply lost_in in H as (v & I & _). apply (in_map fst) in I. exact I. Qed.
  Lemma lost_nodup : forall room (o : attributes), NoDup (map fst o) -> NoDup (lost_of room o).
  Proof.
    intros room. induction o as [|[k v] t IH]; intros ND; [constructor|]. cbn in ND. inversion ND as [|? ? N1 N2]; subst. cbn [lost_of].
    destruct (not_array v); [|apply IH; exact N2]. destruct (attr_of room v); [apply IH; exact N2|]. constructor; [|apply IH; exact N2]. intros I. apply N1. apply (lost_keys room). exact I.
  Qed.
  Lemma singleton_by : forall (l : list string) a, NoDup l -> (forall k, In k l <-> k = a) -> l = [a].
  Proof.
    intros l a ND H. destruct l as [|x t]; [exfalso; apply (proj2 (H a)); reflexivity|]. assert (x = a) by (apply H; left; reflexivity). subst x.
    destruct t as [|y t]; [reflexivity|]. assert (y = a) by (apply H; right; left; reflexivity). subst y. inversion ND as [|? ? N1 _]. exfalso. apply N1. left. reflexivity.
  Qed.

  (** Loading, saving the loaded object and loading again changes nothing: only the region
      is reported as not saved, and it is there again. *)
  Theorem C55_again : forall room name (o : attributes) f msgs bands shapes ra dec radius, NoDup (map fst o) -> dimensioned o ->
    (forall k l, getattr o k <> Some (TextList l)) -> (forall k d b, getattr o k = Some (ListOf d b) -> d <> []) ->
    (forall c bs a r ss v, chaincat_of c bs a r ss = Some v -> exists d b, v = arr (d, b) /\ d <> []) ->
    dump_to_h5 room name o = (Some f, Done msgs) ->
    getattr o "bandlist" = Some (bytes_of bands) -> getattr o "shapenames" = Some (bytes_of shapes) ->
    getattr o "ra" = Some (Number ra) -> getattr o "dec" = Some (Number dec) -> getattr o "radius" = Some (Number radius) ->
    16 * List.length bands <= room -> 16 * List.length shapes <= room ->
    exists l, load chaincat_of f [] = Some l /\
      exists f' l', dump_to_h5 room name l = (Some f', Done ["region"%string]) /\ load chaincat_of f' [] = Some l' /\
        forall k, getattr l' k = getattr l k.
  Proof.
    intros room name o f msgs bands shapes ra dec radius ND Hd HT HL HC H Hb Hs H1 H2 H3 Lb Ls.
    destruct (C55_loaded _ _ _ _ _ _ _ _ _ _ [] ND Hd (NoDup_nil _) H Hb Hs H1 H2 H3) as (o' & l & R & L & G).
    pose proof (dump_file _ _ _ _ _ H) as [H' Hn]. destruct (read_saved _ _ _ _ ND Hd H') as (o1 & R1 & ND1 & G1 & _). assert (o1 = o') by congruence. subst o1.
    exists l. split; [exact L|].
    assert (P : forall k v, getattr o' k = Some v -> plain v /\ forall d c, v = Arr d c -> d <> []).
    { intros k v Hv. pose proof (G1 k) as Gk. rewrite Hv in Gk. destruct (getattr o k) as [u|] eqn:Eu; [|discriminate]. split.
      - apply (attr_plain room u); [|congruence]. intros t ->. exact (HT _ _ Eu).
      - intros d c ->. destruct u as [d' c'|x|s|t|d' b|r d' a| |]; cbn [attr_of] in Gk; try discriminate.
        + destruct (set_of c'); [|discriminate]. assert (Ed : d = d') by (cbn in Gk; congruence). subst d'. exact (Hd _ _ _ Eu).
        + exfalso. exact (HT _ _ Eu).
        + destruct (8 * size d' <=? room); [|discriminate]. assert (Ed : d = d') by congruence. subst d'. exact (HL _ _ _ Eu). }
    assert (NL : NoDup (map fst l)). { unfold load in L. rewrite R in L. assert (El : l = setall (reconstruct chaincat_of o') []) by congruence. subst l. apply keys_setall, reconstruct_nodup. exact ND1. }
    (* the values of the loaded object *)
    assert (Q : forall k v, getattr l k = Some v -> k <> "bands"%string -> k <> "shape_cols"%string -> k <> "region"%string -> plain v /\ forall d c, v = Arr d c -> d <> []).
    { intros k v Hv K1 K2 K3. rewrite G in Hv. cbn [getattr] in Hv. apply String.eqb_neq in K1, K2, K3. rewrite K1, K2, K3 in Hv.
      destruct (getattr o' k) as [u|] eqn:Eu; [assert (u = v) by congruence; subst u; exact (P _ _ Eu)|].
      destruct (String.eqb k "chaincat"); [|discriminate].
      destruct (getattr o' "chain") as [ch|]; [|discriminate]. destruct (getattr o' "active") as [ac|]; [|discriminate]. destruct (getattr o' "reference_coordinates") as [rf|]; [|discriminate].
      destruct (HC _ _ _ _ _ _ Hv) as (d & b & -> & Hd'). split; [exact I|]. intros d0 c0 E. unfold arr in E. cbn [fst snd] in E. assert (Ed : d = d0) by congruence. subst d0. exact Hd'. }
    assert (Gba : getattr l "bands" = Some (TextList bands)) by (rewrite G; reflexivity).
    assert (Gsh : getattr l "shape_cols" = Some (TextList shapes)) by (rewrite G; reflexivity).
    assert (Gre : getattr l "region" = Some (Circle (Number ra) (Number dec) (Number radius))) by (rewrite G; reflexivity).
    assert (Hdl : dimensioned l).
    { intros k d c Hk. destruct (string_dec k "bands") as [->|K1]; [congruence|]. destruct (string_dec k "shape_cols") as [->|K2]; [congruence|]. destruct (string_dec k "region") as [->|K3]; [congruence|].
      destruct (Q _ _ Hk K1 K2 K3) as [_ D]. exact (D _ _ eq_refl). }
    assert (SV : forallb (fun kv => savable (snd kv)) l = true).
    { apply forallb_forall. intros [k v] I. cbn [snd]. apply in_getattr in I; [|exact NL].
      destruct (string_dec k "bands") as [->|K1]; [rewrite Gba in I; assert (Ev : v = TextList bands) by congruence; subst v; reflexivity|].
      destruct (string_dec k "shape_cols") as [->|K2]; [rewrite Gsh in I; assert (Ev : v = TextList shapes) by congruence; subst v; reflexivity|].
      destruct (string_dec k "region") as [->|K3]; [rewrite Gre in I; assert (Ev : v = Circle (Number ra) (Number dec) (Number radius)) by congruence; subst v; reflexivity|].
      destruct (Q _ _ I K1 K2 K3) as [Pv _]. destruct v as [d c|x|s|t|d b|r d a| |]; try reflexivity. destruct c; try reflexivity. destruct Pv. }
    assert (D2 : dump_to_h5 room name l = (Some (mkH5 (sets_of l) (attrs_of room l)), Done ["region"%string])).
    { unfold dump_to_h5. rewrite Hn. rewrite dump_loop_done by exact SV. cbn [app sets attrs]. do 2 f_equal. apply singleton_by; [apply lost_nodup; exact NL|].
      intros k. rewrite lost_in. split.
      - intros (v & I & _ & E). apply in_getattr in I; [|exact NL]. destruct (string_dec k "region") as [K3|K3]; [exact K3|exfalso].
        destruct (string_dec k "bands") as [->|K1]. { rewrite Gba in I. assert (Ev : v = TextList bands) by congruence. subst v. cbn [attr_of] in E. apply Nat.leb_le in Lb. rewrite Lb in E. discriminate. }
        destruct (string_dec k "shape_cols") as [->|K2]. { rewrite Gsh in I. assert (Ev : v = TextList shapes) by congruence. subst v. cbn [attr_of] in E. apply Nat.leb_le in Ls. rewrite Ls in E. discriminate. }
        destruct (Q _ _ I K1 K2 K3) as [Pv _]. rewrite (plain_kept room v Pv) in E. discriminate.
      - intros ->. eexists. split; [apply getattr_in; exact Gre|]. split; reflexivity. }
    assert (Gl : forall k, k <> "bands"%string -> k <> "shape_cols"%string -> k <> "region"%string -> k <> "chaincat"%string -> getattr l k = getattr o' k).
    { intros k K1 K2 K3 K4. rewrite G. cbn [getattr]. apply String.eqb_neq in K1, K2, K3, K4. rewrite K1, K2, K3, K4. destruct (getattr o' k); reflexivity. }
    assert (B1 : getattr l "bandlist" = Some (bytes_of bands)) by (rewrite Gl, G1, Hb by discriminate; reflexivity).
    assert (B2 : getattr l "shapenames" = Some (bytes_of shapes)) by (rewrite Gl, G1, Hs by discriminate; reflexivity).
    assert (B3 : getattr l "ra" = Some (Number ra)) by (rewrite Gl, G1, H1 by discriminate; reflexivity).
    assert (B4 : getattr l "dec" = Some (Number dec)) by (rewrite Gl, G1, H2 by discriminate; reflexivity).
    assert (B5 : getattr l "radius" = Some (Number radius)) by (rewrite Gl, G1, H3 by discriminate; reflexivity).
    destruct (C55_loaded _ _ _ _ _ _ _ _ _ _ [] NL Hdl (NoDup_nil _) D2 B1 B2 B3 B4 B5) as (r2 & l' & R2 & L2 & G2).
    exists (mkH5 (sets_of l) (attrs_of room l)), l'. split; [exact D2|]. split; [exact L2|].
    pose proof (dump_file _ _ _ _ _ D2) as [D2' _]. destruct (read_saved _ _ _ _ NL Hdl D2') as (r2' & R2' & _ & G3 & _). assert (r2' = r2) by congruence. subst r2'.
    assert (S2 : forall k, k <> "bands"%string -> k <> "shape_cols"%string -> k <> "region"%string -> getattr r2 k = getattr l k).
    { intros k K1 K2 K3. rewrite G3. destruct (getattr l k) as [v|] eqn:Ev; [|reflexivity]. destruct (Q _ _ Ev K1 K2 K3) as [Pv _]. apply plain_kept. exact Pv. }
    intros k. rewrite G2, G. cbn [getattr].
    destruct (String.eqb_spec k "bands") as [K1|K1]; [reflexivity|]. destruct (String.eqb_spec k "shape_cols") as [K2|K2]; [reflexivity|]. destruct (String.eqb_spec k "region") as [K3|K3]; [reflexivity|].
    rewrite (S2 k K1 K2 K3), !S2 by discriminate. rewrite (Gl "chain"%string), (Gl "active"%string), (Gl "reference_coordinates"%string) by discriminate.
    destruct (getattr l k) as [v|] eqn:Ev.
    - rewrite G in Ev. cbn [getattr] in Ev. apply String.eqb_neq in K1, K2, K3. rewrite K1, K2, K3 in Ev. symmetry. exact Ev.
    - rewrite G in Ev. cbn [getattr] in Ev. apply String.eqb_neq in K1, K2, K3. rewrite K1, K2, K3 in Ev. destruct (getattr o' k); [discriminate|]. reflexivity.
  Qed.
End Load.
Print Assumptions C55_loaded.
Print Assumptions C55_rectangle_refuted.
Print Assumptions C55_again.
