(** C57: catalogs and names of a scene identify its sources and parameters. *)
From Coq Require Import Reals Lra.
From Flocq Require Import Core.
From Verif Require Import Np NpFacts SceneModel SceneSpec SceneFacts CatalogModel CatalogFacts.
Open Scope nat_scope.

(** ** Writing *)
(** What a row says about a source: its columns in order and their values. *)
Definition row_shows {V} (zero : V) (rnd : V -> V) (ofnat : nat -> V) (qf paf : V -> V -> V) (extra : list string) (s : csource V) (row : srow V) : Prop :=
  map fst row = ("id"%string :: filternames (base s)) ++ SHAPE_COLS (s_kind (base s)) ++ extra /\
  col row "id" = Some (rnd (ofnat (c_id s))) /\
  mapM (col row) (filternames (base s)) = Some (map rnd (flux (base s))) /\
  mapM (col row) (SHAPE_COLS (s_kind (base s))) =
    Some (map rnd (match s_kind (base s) with
                   | ShearNS => [s_ra (base s); s_dec (base s); qf (s_ep (base s)) (s_ec (base s)); paf (s_ep (base s)) (s_ec (base s))]
                   | _ => described_by (base s) end)) /\
  forall c, In c extra -> col row c = Some (match getattr ofnat qf paf s c with Some v => rnd v | None => zero end).
(** A source whose columns have distinct names *)
Definition distinct_columns {V} (extra : list string) (s : csource V) : Prop :=
  NoDup (("id"%string :: filternames (base s)) ++ SHAPE_COLS (s_kind (base s)) ++ extra).

Lemma rows_exist {V} (zero : V) rnd ofnat qf paf extra sc :
  (forall s, In s sc -> well_made (base s) /\ distinct_columns extra s) ->
  exists rows, mapM (to_catalog_row zero rnd ofnat qf paf extra) sc = Some rows /\ List.length rows = List.length sc /\
    forall i s, nth_error sc i = Some s -> exists row, nth_error rows i = Some row /\ row_shows zero rnd ofnat qf paf extra s row.
Proof.
  induction sc as [|s sc IH]; intros H; [exists []; repeat split; auto; intros [|i] s H'; discriminate|].
  destruct (H s (or_introl eq_refl)) as (W & D). destruct (to_row_spec zero rnd ofnat qf paf s extra W D) as (row & E & S1 & S2 & S3 & S4 & S5).
  destruct IH as (rows & Er & El & Es); [intros; apply H; now right|].
  exists (row :: rows). cbn. rewrite E, Er. split; [reflexivity|]. split; [now rewrite El|].
  intros [|i] s' Hs; cbn in *; [|now apply Es]. injection Hs as <-. exists row. split; [reflexivity|]. repeat split; auto.
Qed.

(** A scene whose columns have distinct names is written with one row per source,
    in order; the rows form one table when all sources have the same columns, and
    a list otherwise.  When names clash the scene cannot be written. *)
Theorem C57_written : forall V (zero : V) rnd ofnat qf paf extra sc, sc <> [] ->
  (forall s, In s sc -> well_made (base s)) ->
  ((forall s, In s sc -> distinct_columns extra s) ->
   exists rows, List.length rows = List.length sc /\
     (forall i s, nth_error sc i = Some s -> exists row, nth_error rows i = Some row /\ row_shows zero rnd ofnat qf paf extra s row) /\
     (((forall s s', In s sc -> In s' sc -> s_kind (base s) = s_kind (base s') /\ filternames (base s) = filternames (base s')) ->
       to_catalog zero rnd ofnat qf paf extra sc = Some (Table rows)) /\
      (to_catalog zero rnd ofnat qf paf extra sc = Some (Table rows) \/ to_catalog zero rnd ofnat qf paf extra sc = Some (Pieces rows)))) /\
  ((exists s, In s sc /\ ~ distinct_columns extra s) -> to_catalog zero rnd ofnat qf paf extra sc = None).
Proof.
  intros V zero rnd ofnat qf paf extra sc Hne HW. split.
  - intros HD. destruct (rows_exist zero rnd ofnat qf paf extra sc) as (rows & E & El & Es); [auto|].
    exists rows. split; [exact El|]. split; [exact Es|]. unfold to_catalog. rewrite E.
    destruct sc as [|s0 sc]; [congruence|]. destruct rows as [|r rows]; [discriminate|]. split.
    + intros Hu. assert (F : forallb (same_cols r) rows = true); [|now rewrite F]. apply forallb_forall. intros x Hx.
      apply In_nth_error in Hx. destruct Hx as (i & Hi). assert (Hl : S i < List.length (s0 :: sc)) by (rewrite <- El; apply nth_error_Some; cbn; congruence).
      apply nth_error_Some in Hl. destruct (nth_error (s0 :: sc) (S i)) as [s|] eqn:Hs; [|congruence].
      destruct (Es _ _ Hs) as (row & Hr & (C & _)). cbn in Hr. assert (row = x) by congruence. subst row.
      destruct (Es 0 s0 eq_refl) as (row & Hr0 & (C0 & _)). cbn in Hr0. assert (row = r) by congruence. subst row.
      unfold same_cols. destruct (list_eq_dec string_dec (map fst r) (map fst x)) as [|n]; auto. exfalso. apply n. rewrite C, C0.
      destruct (Hu s0 s) as (-> & ->); auto; [now left|eapply nth_error_In; eauto].
    + destruct (forallb (same_cols r) rows); auto.
  - intros (s & Hs & Hd). unfold to_catalog. assert (E : mapM (to_catalog_row zero rnd ofnat qf paf extra) sc = None); [|now rewrite E].
    clear Hne HW. induction sc as [|a sc IH]; [easy|]. cbn. destruct Hs as [->|Hs].
    + rewrite to_row_dup by exact Hd. reflexivity.
    + rewrite IH by auto. destruct (to_catalog_row zero rnd ofnat qf paf extra a); reflexivity.
Qed.

(** ** Reading back *)
Lemma mapM_all {A B} (f : A -> option B) (P : A -> B -> Prop) l : (forall a, In a l -> exists b, f a = Some b /\ P a b) ->
  exists r, mapM f l = Some r /\ List.length r = List.length l /\ forall i a, nth_error l i = Some a -> exists b, nth_error r i = Some b /\ f a = Some b /\ P a b.
Proof.
  induction l as [|a l IH]; intros H; [exists []; repeat split; auto; intros [|i] a Ha; discriminate|].
  destruct (H a (or_introl eq_refl)) as (b & E & Hp). destruct IH as (r & Er & El & Es); [intros; apply H; now right|].
  exists (b :: r). cbn. rewrite E, Er. split; [reflexivity|]. split; [now rewrite El|]. intros [|i] a' Ha; cbn in *; [|auto]. injection Ha as <-. eauto.
Qed.
Lemma identify_nth {V} (sc : list (csource V)) i s : nth_error sc i = Some s -> nth_error (identify sc) i = Some (mkC (base s) i (others s)).
Proof. intros H. unfold identify. rewrite nth_error_map, nth_error_enumerate, H. reflexivity. Qed.
Lemma identify_length {V} (sc : list (csource V)) : List.length (identify sc) = List.length sc.
Proof. unfold identify. now rewrite map_length, enumerate_length. Qed.

(** A scene of galaxies of one class with the same filters: the catalog gives the
    scene back up to the precision of the catalog, numbered in order.  The mark
    for fixed sources is not kept. *)
Definition one_class {V} (k : kind) (bands extra : list string) (sc : list (csource V)) : Prop :=
  (k = Galaxy \/ k = GalaxyNS \/ k = Shear) /\ sc <> [] /\
  (forall s, In s sc -> s_kind (base s) = k /\ filternames (base s) = bands /\ well_made (base s)) /\
  NoDup (("id"%string :: bands) ++ SHAPE_COLS k ++ extra) /\
  (forall c, In c extra -> ~ In c ["ra"; "dec"; "sersic"; "rhalf"; "q"; "pa"; "ep"; "ec"; "id"]%string).
Definition restored {V} (zero : V) (rnd : V -> V) (ofnat : nat -> V) qf paf (extra : list string) (i : nat) (s s' : csource V) : Prop :=
  s_kind (base s') = s_kind (base s) /\ filternames (base s') = filternames (base s) /\
  flux (base s') = map rnd (flux (base s)) /\ described_by (base s') = map rnd (described_by (base s)) /\
  c_id s' = i /\ fixed (base s') = false /\
  forall c, In c extra -> getattr ofnat qf paf s' c = Some (match getattr ofnat qf paf s c with Some v => rnd v | None => zero end).

Lemma round_trip {V} (zero one : V) rnd ofnat qf paf k bands extra sc : one_class k bands extra sc ->
  exists rows sc', to_catalog zero rnd ofnat qf paf extra sc = Some (Table rows) /\
    from_catalog zero one k bands extra rows = Some sc' /\ List.length sc' = List.length sc /\
    forall i s, nth_error sc i = Some s -> exists s' row, nth_error sc' i = Some s' /\ nth_error rows i = Some row /\
      row_shows zero rnd ofnat qf paf extra s row /\ restored zero rnd ofnat qf paf extra i s s'.
Proof.
  intros (K & Hne & Hs & N & Hx). assert (R : readable k = true) by (destruct K as [->|[->| ->]]; reflexivity).
  destruct (C57_written V zero rnd ofnat qf paf extra sc Hne) as (W & _); [intros s Hin; apply Hs; auto|].
  destruct W as (rows & El & Es & Ht & _).
  { intros s Hin. destruct (Hs s Hin) as (E1 & E2 & _). unfold distinct_columns. rewrite E1, E2. exact N. }
  exists rows.
  assert (Hr : forall row, In row rows -> exists s, In s sc /\ row_shows zero rnd ofnat qf paf extra s row).
  { intros row Hin. apply In_nth_error in Hin. destruct Hin as (i & Hi). assert (Hl : i < List.length sc) by (rewrite <- El; apply nth_error_Some; congruence).
    apply nth_error_Some in Hl. destruct (nth_error sc i) as [s|] eqn:E; [|congruence]. destruct (Es i s E) as (row' & Hr & Sh). exists s. split; [eapply nth_error_In; eauto|]. congruence. }
  set (read := fun row => match construct zero one k bands with Some s => from_catalog_row row extra s | None => None end).
  destruct (mapM_all read (fun row s' => forall s, In s sc -> row_shows zero rnd ofnat qf paf extra s row -> forall i, restored zero rnd ofnat qf paf extra i s (mkC (base s') i (others s'))) rows) as (out & Eo & Eol & Eos).
  { intros row Hin. destruct (Hr row Hin) as (s & Hsin & Sh). destruct (Hs s Hsin) as (E1 & E2 & _).
    assert (Sh' := Sh). destruct Sh' as (Hcols & _ & Hfl & Hsh & Hex). rewrite E1 in Hsh. rewrite E2 in Hfl.
    destruct (from_row_spec zero one rnd ofnat qf paf k bands row extra _ _ R Hsh Hfl) as (s0 & s' & C0 & F & Kk & Kb & Kf & Kd & Kx & Kg & _).
    { intros c Hc. split; [now apply Hx|]. rewrite Hex by auto. discriminate. }
    exists s'. split; [unfold read; rewrite C0; exact F|]. intros s2 Hs2 Sh2 i. destruct (Hs s2 Hs2) as (E3 & E4 & _).
    destruct Sh2 as (_ & _ & Hfl2 & Hsh2 & Hex2). rewrite E3 in Hsh2. rewrite E4 in Hfl2. unfold restored. cbn.
    split; [congruence|]. split; [congruence|]. split; [congruence|]. split.
    { assert (Hk : forall (T : Type) (a b : T), match k with ShearNS => a | _ => b end = b) by (intros; destruct K as [->|[->| ->]]; reflexivity). rewrite Kd. rewrite Hk in Hsh, Hsh2 |- *. congruence. }
    split; [reflexivity|]. split; [exact Kx|]. intros c Hc. rewrite <- Hex2 by auto. rewrite <- (Kg c Hc).
    unfold getattr. cbn. assert (Hres := Hx c Hc). cbn in Hres.
    repeat match goal with |- context [String.eqb c ?x] => destruct (String.eqb_spec c x); [subst; tauto|] end. reflexivity. }
  exists (identify out). split; [|split; [|split]].
  - apply Ht. intros s s' H1 H2. destruct (Hs s H1) as (-> & -> & _). destruct (Hs s' H2) as (-> & -> & _). auto.
  - unfold from_catalog. fold read. rewrite Eo. reflexivity.
  - rewrite identify_length. congruence.
  - intros i s Hi. destruct (Es i s Hi) as (row & Hrow & Sh). destruct (Eos i row Hrow) as (s' & Hs' & _ & P).
    exists (mkC (base s') i (others s')), row. split; [now apply identify_nth|]. split; [exact Hrow|]. split; [exact Sh|]. apply P; auto. eapply nth_error_In; eauto.
Qed.
Theorem C57_round_trip_partial : forall V (zero one : V) rnd ofnat qf paf k bands extra sc, one_class k bands extra sc ->
  exists rows sc', to_catalog zero rnd ofnat qf paf extra sc = Some (Table rows) /\
    from_catalog zero one k bands extra rows = Some sc' /\ List.length sc' = List.length sc /\
    forall i s, nth_error sc i = Some s -> exists s', nth_error sc' i = Some s' /\ restored zero rnd ofnat qf paf extra i s s'.
Proof.
  intros V zero one rnd ofnat qf paf k bands extra sc H. destruct (round_trip zero one rnd ofnat qf paf k bands extra sc H) as (rows & sc' & H1 & H2 & H3 & H4).
  exists rows, sc'. repeat split; auto. intros i s Hi. destruct (H4 i s Hi) as (s' & row & ? & _ & _ & ?). eauto.
Qed.

(** Writing the rebuilt scene again gives the same catalog. *)
Theorem C57_stable : forall V (zero one : V) rnd ofnat qf paf k bands extra sc rows sc', one_class k bands extra sc ->
  (forall v, rnd (rnd v) = rnd v) -> rnd zero = zero -> (forall i s, nth_error sc i = Some s -> c_id s = i) ->
  to_catalog zero rnd ofnat qf paf extra sc = Some (Table rows) -> from_catalog zero one k bands extra rows = Some sc' ->
  to_catalog zero rnd ofnat qf paf extra sc' = Some (Table rows).
Proof.
  intros V zero one rnd ofnat qf paf k bands extra sc rows sc' H Hid Hz Hpos Et Ef.
  destruct (round_trip zero one rnd ofnat qf paf k bands extra sc H) as (rows1 & sc1 & H1 & H2 & H3 & H4).
  assert (rows1 = rows) by congruence. subst rows1. assert (sc1 = sc') by congruence. subst sc1.
  destruct H as (K & Hne & Hs & N & Hx).
  assert (Hback : forall s', In s' sc' -> exists i s, nth_error sc i = Some s /\ nth_error sc' i = Some s' /\ restored zero rnd ofnat qf paf extra i s s').
  { intros s' Hin. apply In_nth_error in Hin. destruct Hin as (i & Hi). assert (Hl : i < List.length sc) by (rewrite <- H3; apply nth_error_Some; congruence).
    apply nth_error_Some in Hl. destruct (nth_error sc i) as [s|] eqn:E; [|congruence]. destruct (H4 i s E) as (s2 & _ & Hs2 & _ & _ & Hr). exists i, s. assert (s2 = s') by congruence. subst. auto. }
  assert (Hone : one_class k bands extra sc').
  { split; [exact K|]. split; [destruct sc, sc'; cbn in *; congruence|]. split; [|split; assumption].
    intros s' Hin. destruct (Hback s' Hin) as (i & s & Hi & _ & (R1 & R2 & R3 & _)). destruct (Hs s (nth_error_In _ _ Hi)) as (S1 & S2 & S3).
    split; [congruence|]. split; [congruence|]. unfold well_made. rewrite R3, map_length, R2. exact S3. }
  destruct (round_trip zero one rnd ofnat qf paf k bands extra sc' Hone) as (rows2 & sc2 & G1 & _ & G3 & G4).
  rewrite G1. do 2 f_equal. assert (Lr : List.length rows = List.length sc /\ List.length rows2 = List.length sc').
  { assert (L : forall scx r, to_catalog zero rnd ofnat qf paf extra scx = Some (Table r) -> List.length r = List.length scx).
    { intros scx r. unfold to_catalog. destruct (mapM (to_catalog_row zero rnd ofnat qf paf extra) scx) as [[|a t]|] eqn:E; try discriminate. apply mapM_length in E. destruct (forallb (same_cols a) t); intros Eq; [injection Eq as <-; exact E|discriminate Eq]. }
    split; apply L; assumption. }
  apply nth_error_ext. intros i. destruct (nth_error sc i) as [s|] eqn:E.
  2:{ apply nth_error_None in E. transitivity (@None (srow V)); [|symmetry]; apply nth_error_None; lia. }
  destruct (H4 i s E) as (s' & row & E' & Hrow & Sh & R). destruct (G4 i s' E') as (s'' & row2 & _ & Hrow2 & Sh2 & _).
  rewrite Hrow, Hrow2. f_equal. destruct (Hs s (nth_error_In _ _ E)) as (S1 & S2 & S3).
  destruct Sh as (A1 & A2 & A3 & A4 & A5). destruct Sh2 as (B1 & B2 & B3 & B4 & B5). destruct R as (R1 & R2 & R3 & R4 & R5 & R6 & R7).
  assert (Hmm : forall l, map rnd (map rnd l) = map rnd l) by (intros; rewrite map_map; apply map_ext; auto).
  rewrite R1, R2 in B1. rewrite R2, R3, Hmm in B3. rewrite R1, R4 in B4. rewrite S1 in A1, A4, B1, B4.
  assert (Hk : forall (T : Type) (a b : T), match k with ShearNS => a | _ => b end = b) by (intros; destruct K as [->|[->| ->]]; reflexivity).
  rewrite Hk in A4, B4. rewrite Hmm in B4. apply row_ext; [congruence| |].
  - rewrite B1, S2. exact N.
  - intros c Hc. rewrite B1 in Hc. apply in_app_or in Hc. destruct Hc as [[<-|Hc]|Hc]; [| |apply in_app_or in Hc; destruct Hc as [Hc|Hc]].
    + rewrite A2, B2, R5, (Hpos i s E). reflexivity.
    + exact (mapM_col_eq row2 row _ _ B3 A3 c Hc).
    + exact (mapM_col_eq row2 row _ _ B4 A4 c Hc).
    + rewrite A5, B5, R7 by auto. f_equal. destruct (getattr ofnat qf paf s c); auto.
Qed.

(** Values the catalog can hold exactly come back exactly. *)
Theorem C57_exact : forall V (zero one : V) rnd ofnat qf paf k bands extra sc, one_class k bands extra sc ->
  (forall s v, In s sc -> In v (flux (base s) ++ described_by (base s)) -> rnd v = v) ->
  exists rows sc', to_catalog zero rnd ofnat qf paf extra sc = Some (Table rows) /\
    from_catalog zero one k bands extra rows = Some sc' /\
    get_all_source_params (map (@base V) sc') false = get_all_source_params (map (@base V) sc) false.
Proof.
  intros V zero one rnd ofnat qf paf k bands extra sc H Hv. destruct (C57_round_trip_partial V zero one rnd ofnat qf paf k bands extra sc H) as (rows & sc' & H1 & H2 & H3 & H4).
  exists rows, sc'. split; [exact H1|]. split; [exact H2|].
  assert (E : map (fun s : csource V => flux (base s) ++ described_by (base s)) sc' = map (fun s => flux (base s) ++ described_by (base s)) sc).
  { apply nth_error_ext. intros i. rewrite !nth_error_map. destruct (nth_error sc i) as [s|] eqn:Ei.
    2:{ apply nth_error_None in Ei. rewrite (proj2 (nth_error_None sc' i)) by lia. reflexivity. }
    destruct (H4 i s Ei) as (s' & E' & (_ & _ & R3 & R4 & _)). rewrite E'. cbn. rewrite R3, R4. f_equal.
    assert (Hm : forall l, incl l (flux (base s) ++ described_by (base s)) -> map rnd l = l).
    { intros l Hl. rewrite <- (map_id l) at 2. apply map_ext_in. intros v Hv'. apply (Hv s); [eapply nth_error_In; eauto|auto]. }
    rewrite !Hm; auto; [apply incl_appr|apply incl_appl]; apply incl_refl. }
  assert (G : forall l : list (csource V), l <> [] -> get_all_source_params (map (@base V) l) false = Some (concat (map (fun s => flux (base s) ++ described_by (base s)) l))).
  { intros l Hl. unfold get_all_source_params. destruct l as [|a l]; [congruence|]. cbn [map].
    assert (M : forall m : list (csource V), mapM (fun s => get_param_vector s None) (map (@base V) m) = Some (map (fun s => flux (base s) ++ described_by (base s)) m)).
    { induction m as [|b m IH]; auto. cbn [map mapM]. rewrite get_params_all, IH. reflexivity. }
    change (base a :: map (@base V) l) with (map (@base V) (a :: l)). rewrite M. reflexivity. }
  destruct H as (_ & Hne & _). rewrite !G, E; auto. destruct sc, sc'; cbn in *; congruence.
Qed.
