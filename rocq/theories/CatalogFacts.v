(** Proofs behind C57. *)
From Coq Require DecimalString DecimalPos DecimalZ DecimalFacts.
From Coq Require Import Ascii.
From Verif Require Import Np NpFacts SceneModel SceneSpec SceneFacts CatalogModel.

Lemma has_dup_NoDup l : has_dup l = false <-> NoDup l.
Proof.
  induction l as [|a l IH]; cbn; [split; auto; constructor|]. rewrite orb_false_iff, IH. split.
  - intros [H1 H2]. constructor; auto. intros Hin. assert (existsb (String.eqb a) l = true) by (apply existsb_exists; exists a; split; auto; apply String.eqb_refl). congruence.
  - intros H. inversion H as [|? ? H1 H2]; subst. split; auto. destruct (existsb (String.eqb a) l) eqn:E; auto. apply existsb_exists in E. destruct E as (x & Hx & Ex). apply String.eqb_eq in Ex. subst. contradiction.
Qed.

Lemma enumerate_nth {A} (l : list A) i a : In (i, a) (enumerate l) -> nth_error l i = Some a.
Proof.
  unfold enumerate. assert (G : forall k, In (i, a) (combine (seq k (List.length l)) l) -> k <= i /\ nth_error l (i - k) = Some a).
  { induction l as [|b l IH]; cbn; [easy|]. intros k [H|H]; [injection H as -> ->; rewrite Nat.sub_diag; auto|].
    apply IH in H. destruct H as (H1 & H2). split; [lia|]. replace (i - k) with (S (i - S k)) by lia. exact H2. }
  intros H. apply G in H. rewrite Nat.sub_0_r in H. tauto.
Qed.
Lemma nth_enumerate {A} (l : list A) i a : nth_error l i = Some a -> In (i, a) (enumerate l).
Proof.
  unfold enumerate. assert (G : forall k j, nth_error l j = Some a -> In (k + j, a) (combine (seq k (List.length l)) l)).
  { induction l as [|b l IH]; intros k [|j] H; cbn in *; try easy.
    - injection H as ->. rewrite Nat.add_0_r. now left.
    - right. replace (k + S j) with (S k + j) by lia. now apply IH. }
  intros H. apply (G 0) in H. exact H.
Qed.
Lemma snd_enumerate {A} (l : list A) : map snd (enumerate l) = l.
Proof. unfold enumerate. generalize 0. induction l as [|a l IH]; intros k; cbn; auto. now rewrite IH. Qed.
Lemma enumerate_length {A} (l : list A) : List.length (enumerate l) = List.length l.
Proof. unfold enumerate. rewrite combine_length, seq_length. lia. Qed.
Lemma nth_error_enumerate {A} (l : list A) i : nth_error (enumerate l) i = option_map (pair i) (nth_error l i).
Proof.
  unfold enumerate. assert (G : forall k j, nth_error (combine (seq k (List.length l)) l) j = option_map (pair (k + j)) (nth_error l j)).
  { induction l as [|a l IH]; intros k [|j]; cbn; auto; [now rewrite Nat.add_0_r|]. rewrite IH. now replace (S k + j) with (k + S j) by lia. }
  apply G.
Qed.

Section F.
Context {V : Type} (zero one : V) (rnd : V -> V) (ofnat : nat -> V) (qf paf : V -> V -> V).

(** a row given by a function of its columns *)
Definition rowof (cols : list string) (f : string -> V) : srow V := map (fun c => (c, f c)) cols.
Definition over (f : string -> V) (c : string) (v : V) : string -> V := fun d => if String.eqb c d then v else f d.

Lemma col_rowof cols f c : In c cols -> col (rowof cols f) c = Some (f c).
Proof. induction cols as [|a cols IH]; cbn; [easy|]. intros H. destruct (String.eqb c a) eqn:E; [apply String.eqb_eq in E; congruence|]. apply IH. destruct H as [->|H]; auto. rewrite String.eqb_refl in E. discriminate. Qed.
Lemma col_rowof_none cols f c : ~ In c cols -> col (rowof cols f) c = None.
Proof. induction cols as [|a cols IH]; cbn; auto. intros H. destruct (String.eqb c a) eqn:E; [apply String.eqb_eq in E; subst; tauto|]. tauto. Qed.
Lemma rowof_ext cols f g : (forall c, In c cols -> f c = g c) -> rowof cols f = rowof cols g.
Proof. intros H. apply map_ext_in. intros c Hc. now rewrite H. Qed.
Lemma put_rowof cols f c v : NoDup cols -> put_col (rowof cols f) c v = rowof cols (over f c v).
Proof.
  induction cols as [|a cols IH]; cbn; auto. intros N. inversion N as [|? ? Ha N']; subst. unfold over at 1. destruct (String.eqb c a) eqn:E.
  - apply String.eqb_eq in E. subst. f_equal. apply rowof_ext. intros d Hd. unfold over. destruct (String.eqb_spec a d); auto. subst. contradiction.
  - f_equal. now apply IH.
Qed.
Lemma store_rowof cols f c v : NoDup cols -> In c cols -> store rnd (Some (rowof cols f)) c (Some v) = Some (rowof cols (over f c (rnd v))).
Proof. intros N H. cbn. rewrite col_rowof by auto. now rewrite put_rowof. Qed.

(** storing a list of columns *)
Lemma fold_store {A} (key : A -> string) (val : A -> option V) (w : A -> V) cols : NoDup cols -> forall l f,
  (forall a, In a l -> In (key a) cols /\ val a = Some (w a)) ->
  exists g, fold_left (fun r a => store rnd r (key a) (val a)) l (Some (rowof cols f)) = Some (rowof cols g) /\
    (forall c, ~ In c (map key l) -> g c = f c) /\
    (NoDup (map key l) -> forall a, In a l -> g (key a) = rnd (w a)).
Proof.
  intros N. induction l as [|a l IH]; intros f H.
  - exists f. repeat split; auto. easy.
  - destruct (H a (or_introl eq_refl)) as (Hk & Hv). cbn [fold_left]. rewrite Hv, store_rowof by auto.
    destruct (IH (over f (key a) (rnd (w a)))) as (g & Hg & Ho & Hi); [intros; apply H; now right|].
    exists g. split; [exact Hg|]. split.
    + intros c Hc. cbn in Hc. rewrite Ho by tauto. unfold over. destruct (String.eqb_spec (key a) c); auto. tauto.
    + intros Nk a' [->|Ha']; cbn in Nk; inversion Nk as [|? ? H1 H2]; subst.
      * rewrite Ho by auto. unfold over. now rewrite String.eqb_refl.
      * now apply Hi.
Qed.
Lemma fold_store_extra s cols : NoDup cols -> forall extra f, (forall c, In c extra -> In c cols) ->
  exists g, fold_left (store_extra rnd ofnat qf paf s) extra (Some (rowof cols f)) = Some (rowof cols g) /\
    (forall c, ~ In c extra -> g c = f c) /\
    (NoDup extra -> forall c, In c extra -> g c = match getattr ofnat qf paf s c with Some v => rnd v | None => f c end).
Proof.
  intros N. induction extra as [|a extra IH]; intros f H.
  - exists f. repeat split; auto. easy.
  - cbn [fold_left].
    assert (E : exists f1, store_extra rnd ofnat qf paf s (Some (rowof cols f)) a = Some (rowof cols f1) /\
       f1 a = (match getattr ofnat qf paf s a with Some v => rnd v | None => f a end) /\ forall c, c <> a -> f1 c = f c).
    { unfold store_extra. destruct (getattr ofnat qf paf s a) as [v|].
      - exists (over f a (rnd v)). rewrite store_rowof by (auto; apply H; now left). unfold over. rewrite String.eqb_refl. repeat split; auto. intros c Hc. destruct (String.eqb_spec a c); congruence.
      - exists f. auto. }
    destruct E as (f1 & E1 & E2 & E3). rewrite E1. destruct (IH f1) as (g & Hg & Ho & Hi); [intros; apply H; now right|].
    exists g. split; [exact Hg|]. split.
    + intros c Hc. cbn in Hc. rewrite Ho by tauto. apply E3. intros ->. tauto.
    + intros Nk c Hc. inversion Nk as [|? ? H1 H2]; subst. destruct Hc as [->|Hc].
      * rewrite Ho by auto. exact E2.
      * rewrite Hi by auto. destruct (getattr ofnat qf paf s c); auto. apply E3. intros ->. contradiction.
Qed.

(** the shape columns as attributes *)
Definition shown (s : csource V) : list V :=
  match s_kind (base s) with
  | ShearNS => [s_ra (base s); s_dec (base s); qf (s_ep (base s)) (s_ec (base s)); paf (s_ep (base s)) (s_ec (base s))]
  | _ => described_by (base s)
  end.
Lemma shape_attrs s : mapM (getattr ofnat qf paf s) (SHAPE_COLS (s_kind (base s))) = Some (shown s).
Proof. unfold shown, described_by. destruct (s_kind (base s)) eqn:E; cbn; rewrite ?E; reflexivity. Qed.
Lemma shape_attr s c : In c (SHAPE_COLS (s_kind (base s))) -> exists v, getattr ofnat qf paf s c = Some v.
Proof. unfold getattr. destruct (s_kind (base s)); cbn; intros H; repeat (destruct H as [<-|H]; [cbn; eauto|]); destruct H. Qed.
Lemma id_attr s : getattr ofnat qf paf s "id" = Some (ofnat (c_id s)).
Proof. reflexivity. Qed.

Lemma to_row_spec s extra : well_made (base s) -> NoDup (cat_cols s extra) ->
  exists row, to_catalog_row zero rnd ofnat qf paf extra s = Some row /\
    map fst row = cat_cols s extra /\
    col row "id" = Some (rnd (ofnat (c_id s))) /\
    mapM (col row) (filternames (base s)) = Some (map rnd (flux (base s))) /\
    mapM (col row) (SHAPE_COLS (s_kind (base s))) = Some (map rnd (shown s)) /\
    (forall c, In c extra -> col row c = Some (match getattr ofnat qf paf s c with Some v => rnd v | None => zero end)).
Proof.
  intros W N. set (cols := cat_cols s extra) in *. set (SH := SHAPE_COLS (s_kind (base s))) in *.
  assert (ND := N). unfold cols, cat_cols in ND. cbn [app] in ND. fold SH in ND. rewrite NoDup_cons_iff in ND. destruct ND as (Nid & ND).
  apply NoDup_app_iff in ND. destruct ND as (Nb & Nse & Dbs). apply NoDup_app_iff in Nse. destruct Nse as (Ns & Ne & Dse).
  assert (Ish : forall c, In c SH -> In c cols) by (intros; unfold cols, cat_cols; fold SH; cbn; rewrite !in_app_iff; tauto).
  assert (Ib : forall c, In c (filternames (base s)) -> In c cols) by (intros; unfold cols, cat_cols; fold SH; cbn; rewrite !in_app_iff; tauto).
  assert (Ie : forall c, In c extra -> In c cols) by (intros; unfold cols, cat_cols; fold SH; cbn; rewrite !in_app_iff; tauto).
  assert (Iid : In "id"%string cols) by (unfold cols, cat_cols; cbn; tauto).
  assert (Hid : forall c, In c (filternames (base s)) \/ In c SH \/ In c extra -> c <> "id"%string).
  { intros c Hc ->. apply Nid. rewrite !in_app_iff. tauto. }
  assert (Wa : exists wa, forall c, In c (SH ++ ["id"%string]) -> getattr ofnat qf paf s c = Some (wa c)).
  { exists (fun c => match getattr ofnat qf paf s c with Some v => v | None => zero end). intros c Hc. apply in_app_or in Hc. destruct Hc as [Hc|[<-|[]]]; [|reflexivity].
    destruct (shape_attr s c Hc) as (v & ->). reflexivity. }
  destruct Wa as (wa & Hwa).
  destruct (fold_store (fun p => p) (getattr ofnat qf paf s) wa cols N (SH ++ ["id"%string]) (fun _ => zero)) as (f1 & E1 & O1 & I1).
  { intros a Ha. split; [|now apply Hwa]. apply in_app_or in Ha. destruct Ha as [Ha|[<-|[]]]; auto. }
  rewrite map_id in O1, I1.
  assert (N1 : NoDup (SH ++ ["id"%string])).
  { apply NoDup_app_iff. repeat split; auto; [repeat constructor; easy|]. intros x Hx [<-|[]]. apply (Hid "id"%string); auto. }
  destruct (fold_store snd (fun ib : nat * string => nth_error (flux (base s)) (fst ib)) (fun ib => nth (fst ib) (flux (base s)) zero) cols N (enumerate (filternames (base s))) f1) as (f2 & E2 & O2 & I2).
  { intros (i, b) Hib. apply enumerate_nth in Hib. cbn. split; [apply Ib; eapply nth_error_In; eauto|]. apply nth_error_nth'. rewrite W. apply nth_error_Some. congruence. }
  rewrite snd_enumerate in O2, I2.
  destruct (fold_store_extra s cols N extra f2 Ie) as (f3 & E3 & O3 & I3).
  exists (rowof cols f3). assert (Hrow : to_catalog_row zero rnd ofnat qf paf extra s = Some (rowof cols f3)).
  { unfold to_catalog_row. cbv zeta. fold cols. rewrite (proj2 (has_dup_NoDup cols) N). fold SH. change (@Some (list (string * V)) (map (fun c => (c, zero)) cols)) with (@Some (srow V) (rowof cols (fun _ => zero))). rewrite E1. rewrite E2. exact E3. }
  split; [exact Hrow|]. split; [unfold rowof; rewrite map_map; apply map_id|].
  assert (V1 : forall c, In c SH \/ c = "id"%string -> f3 c = rnd (wa c)).
  { intros c Hc. rewrite O3. 2:{ intros H. destruct Hc as [Hc| ->]; [eapply Dse; eauto|]. apply (Hid "id"%string); auto. }
    rewrite O2. 2:{ intros H. destruct Hc as [Hc| ->]; [eapply Dbs; eauto; apply in_app_iff; auto|]. apply (Hid "id"%string); auto. }
    apply I1; auto. apply in_app_iff. destruct Hc as [Hc| ->]; auto. right. now left. }
  split; [rewrite col_rowof by auto; rewrite V1 by auto; assert (A := Hwa "id"%string ltac:(apply in_app_iff; right; now left)); rewrite id_attr in A; congruence|].
  split.
  { assert (Hv : forall k b, nth_error (filternames (base s)) k = Some b -> f3 b = rnd (nth k (flux (base s)) zero)).
    { intros k b Hb. assert (Hin := nth_error_In _ _ Hb). rewrite O3 by (intros H; eapply Dbs; eauto; apply in_app_iff; auto).
      apply nth_enumerate in Hb. exact (I2 Nb _ Hb). }
    clear -W Hv Ib. clearbody cols. unfold well_made in W. revert Hv Ib W. generalize (flux (base s)) (filternames (base s)). intros fl bs. revert fl.
    induction bs as [|b bs IH]; intros [|v fl] Hv Ib W; try discriminate; auto.
    cbn. rewrite col_rowof by (apply Ib; now left). rewrite (IH fl); [|intros k b' Hb; exact (Hv (S k) b' Hb)|intros; apply Ib; now right|cbn in W; congruence].
    now rewrite (Hv 0 b eq_refl). }
  split.
  { assert (A := shape_attrs s). fold SH in A. revert A V1 Ish Hwa. clear. clearbody cols. generalize (shown s). generalize SH. intros l. induction l as [|c l IH]; intros w A V1 Ish Hwa; cbn in *; [injection A as <-; reflexivity|].
    rewrite (Hwa c) in A by auto. destruct (mapM (getattr ofnat qf paf s) l) as [t|] eqn:Et; [|discriminate]. injection A as <-. cbn. rewrite col_rowof by auto. rewrite V1 by auto.
    rewrite (IH t); auto. intros x Hx. apply V1. tauto. }
  intros c Hc. rewrite col_rowof by auto. rewrite I3 by auto. f_equal. destruct (getattr ofnat qf paf s c); auto.
  rewrite O2 by (intros H; eapply Dbs; eauto; apply in_app_iff; auto). rewrite O1; auto.
  intros H. apply in_app_or in H. destruct H as [H|[<-|[]]]; [eapply Dse; eauto|]. apply (Hid "id"%string); auto.
Qed.
Lemma to_row_dup s extra : ~ NoDup (cat_cols s extra) -> to_catalog_row zero rnd ofnat qf paf extra s = None.
Proof. intros H. unfold to_catalog_row. destruct (has_dup (cat_cols s extra)) eqn:E; auto. apply has_dup_NoDup in E. contradiction. Qed.
End F.

Section From.
Context {V : Type} (zero one : V) (rnd : V -> V) (ofnat : nat -> V) (qf paf : V -> V -> V).

(** names of attributes that are not free for extra columns *)
Definition reserved : list string := ["ra"; "dec"; "sersic"; "rhalf"; "q"; "pa"; "ep"; "ec"; "id"]%string.
Lemma getattr_free (s : csource V) c : ~ In c reserved -> getattr ofnat qf paf s c = col (others s) c.
Proof. intros H. unfold getattr. cbn in H. repeat match goal with |- context [String.eqb c ?x] => destruct (String.eqb_spec c x); [subst; tauto|] end. reflexivity. Qed.
Lemma setattr_free (s : csource V) c v : ~ In c reserved -> setattr s c v = Some (mkC (base s) (c_id s) ((c, v) :: others s)).
Proof. intros H. unfold setattr. cbn in H. repeat match goal with |- context [String.eqb c ?x] => destruct (String.eqb_spec c x); [subst; tauto|] end. reflexivity. Qed.

Lemma set_extras (row : srow V) extra : (forall c, In c extra -> ~ In c reserved /\ col row c <> None) -> forall s,
  exists s', fold_left (set_from row) extra (Some s) = Some s' /\ base s' = base s /\
    (forall c, In c extra -> col (others s') c = col row c) /\
    (forall c, ~ In c extra -> col (others s') c = col (others s) c).
Proof.
  induction extra as [|a extra IH]; intros H s; [exists s; repeat split; auto; easy|].
  destruct (H a (or_introl eq_refl)) as (Hr & Hc). destruct (col row a) as [v|] eqn:Ev; [|congruence].
  cbn [fold_left]. unfold set_from at 2. rewrite Ev, setattr_free by auto.
  destruct (IH (fun c Hc => H c (or_intror Hc)) (mkC (base s) (c_id s) ((a, v) :: others s))) as (s' & E & Eb & Ei & Eo).
  exists s'. split; [exact E|]. split; [exact Eb|]. split.
  - intros c [<-|Hin]; [|auto]. destruct (in_dec string_dec a extra) as [Hin|Hin]; [auto|]. rewrite Eo by auto. cbn. now rewrite String.eqb_refl.
  - intros c Hn. cbn in Hn. rewrite Eo by tauto. cbn. destruct (String.eqb_spec c a); auto. subst. tauto.
Qed.

(** classes that can be read from a catalog *)
Definition readable (k : kind) : bool := match k with Galaxy | GalaxyNS | Shear => true | _ => false end.
Lemma shapes_set k bands (row : srow V) sh : readable k = true -> mapM (col row) (SHAPE_COLS k) = Some sh ->
  exists s1 s0, construct zero one k bands = Some s0 /\ fold_left (set_from row) (SHAPE_COLS k) (Some s0) = Some s1 /\
    s_kind (base s1) = k /\ filternames (base s1) = bands /\ described_by (base s1) = sh /\ fixed (base s1) = false /\ others s1 = [].
Proof.
  intros R H. destruct k; try discriminate; cbn in H;
  repeat match type of H with context [col row ?c] => let E := fresh "E" in destruct (col row c) eqn:E; [|discriminate] end;
  assert (Es : sh = _) by (symmetry; injection H as H; exact H); subst sh;
  (eexists; eexists; split; [reflexivity|]); cbn [SHAPE_COLS fold_left]; unfold set_from;
  repeat match goal with E : col row ?c = Some _ |- _ => rewrite E; clear E end;
  cbn; repeat split; reflexivity.
Qed.
Lemma construct_kind k bands s : construct zero one k bands = Some s -> s_kind (base s) = k.
Proof. destruct k; cbn; intros [= <-]; reflexivity. Qed.
Lemma described_flux (s : source V) fl : described_by (set_flux s fl) = described_by s.
Proof. unfold described_by. cbn. reflexivity. Qed.
Lemma from_row_spec k bands (row : srow V) extra fl sh : readable k = true -> mapM (col row) (SHAPE_COLS k) = Some sh ->
  mapM (col row) bands = Some fl -> (forall c, In c extra -> ~ In c reserved /\ col row c <> None) ->
  exists s0 s, construct zero one k bands = Some s0 /\ from_catalog_row row extra s0 = Some s /\
    s_kind (base s) = k /\ filternames (base s) = bands /\ flux (base s) = fl /\ described_by (base s) = sh /\ fixed (base s) = false /\
    (forall c, In c extra -> getattr ofnat qf paf s c = col row c) /\ (forall c, ~ In c extra -> col (others s) c = None).
Proof.
  intros R Hs Hf He. destruct (shapes_set k bands row sh R Hs) as (s1 & s0 & C0 & F1 & K1 & B1 & D1 & X1 & O1).
  destruct (set_extras row extra He s1) as (s2 & F2 & Eb & Ei & Eo).
  exists s0, (with_base s2 (set_flux (base s2) fl)). split; [exact C0|]. split.
  { unfold from_catalog_row. rewrite (construct_kind _ _ _ C0), fold_left_app, F1, F2, Eb, B1, Hf. reflexivity. }
  cbn. rewrite Eb. split; [exact K1|]. split; [exact B1|]. split; [reflexivity|]. split; [now rewrite described_flux|]. split; [exact X1|]. split.
  - intros c Hc. rewrite getattr_free by (apply He; auto). cbn. auto.
  - intros c Hc. rewrite Eo by auto. now rewrite O1.
Qed.

(** rows with the same columns and values are the same *)
Lemma row_ext (r r' : srow V) : map fst r = map fst r' -> NoDup (map fst r) -> (forall c, In c (map fst r) -> col r c = col r' c) -> r = r'.
Proof.
  revert r'. induction r as [|(c, v) r IH]; intros [|(c', v') r'] H N E; try discriminate; auto.
  cbn in H. injection H as <- H. cbn in N. inversion N as [|? ? N1 N2]; subst.
  assert (Ev := E c (or_introl eq_refl)). cbn in Ev. rewrite String.eqb_refl in Ev. injection Ev as <-. f_equal. apply IH; auto.
  intros d Hd. assert (Ed := E d (or_intror Hd)). cbn in Ed. destruct (String.eqb_spec d c); auto. subst. contradiction.
Qed.
Lemma mapM_col_eq (r r' : srow V) l v : mapM (col r) l = Some v -> mapM (col r') l = Some v -> forall c, In c l -> col r c = col r' c.
Proof.
  revert v. induction l as [|a l IH]; cbn; intros v H H' c Hc; [easy|].
  destruct (col r a) eqn:E1, (mapM (col r) l) as [t|] eqn:E2; try discriminate. destruct (col r' a) eqn:E3, (mapM (col r') l) as [t'|] eqn:E4; try discriminate.
  injection H as <-. injection H' as -> ->. destruct Hc as [<-|Hc]; [congruence|]. eapply IH; eauto.
Qed.
End From.

(** ** Names *)
Fixpoint has_us (s : string) : bool :=
  match s with EmptyString => false | String c t => (Ascii.eqb c "_" || has_us t)%bool end.
Lemma has_us_app s t : has_us (s ++ t) = (has_us s || has_us t)%bool.
Proof. induction s; cbn; auto. rewrite IHs. now rewrite orb_assoc. Qed.
Lemma split_us a b d e : has_us d = false -> has_us e = false -> (a ++ "_" ++ d)%string = (b ++ "_" ++ e)%string -> a = b /\ d = e.
Proof.
  intros Hd He. revert b. induction a as [|c a IH]; intros [|c' b] H; cbn in H.
  - injection H as ->. auto.
  - injection H as <- H. exfalso. subst d. rewrite has_us_app in Hd. apply orb_false_iff in Hd. destruct Hd as [_ Hd]. discriminate.
  - injection H as -> H. exfalso. subst e. rewrite has_us_app in He. apply orb_false_iff in He. destruct He as [_ He]. discriminate.
  - injection H as -> H. apply IH in H. destruct H as (-> & ->). auto.
Qed.
Lemma uint_no_us u : has_us (DecimalString.NilEmpty.string_of_uint u) = false.
Proof. induction u; cbn; auto. Qed.
Lemma text_no_us n : has_us (text n) = false.
Proof.
  unfold text, DecimalString.NilZero.string_of_int. assert (G : forall u, has_us (DecimalString.NilZero.string_of_uint u) = false).
  { intros u. unfold DecimalString.NilZero.string_of_uint. destruct u; auto; apply uint_no_us. }
  destruct (Z.to_int (Z.of_nat n)) as [u|u]; [apply G|]. cbn. apply G.
Qed.
Lemma text_inj m n : text m = text n -> m = n.
Proof.
  unfold text. intros H. assert (G : forall k, DecimalString.NilZero.int_of_string (DecimalString.NilZero.string_of_int (Z.to_int (Z.of_nat k))) = Some (Z.to_int (Z.of_nat k))).
  { intros k. apply DecimalString.NilZero.isi. - unfold Z.to_int. destruct (Z.of_nat k) as [|p|p] eqn:E; try discriminate; intros H'; injection H' as H'.
      + assert (X := DecimalPos.Unsigned.to_uint_nonnil p). congruence.
    - unfold Z.to_int. destruct (Z.of_nat k) as [|p|p] eqn:E; try discriminate. intros _. lia. }
  assert (E := G m). rewrite H, G in E. injection E as E. apply (f_equal Z.of_int) in E. rewrite !DecimalZ.of_to in E. lia.
Qed.
