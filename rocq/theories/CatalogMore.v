(** C57, continued: what is lost, single precision, and the names of parameters. *)
From Coq Require Import Reals Lra.
From Flocq Require Import Core.
From Verif Require Import Np NpFacts SceneModel SceneSpec SceneFacts CatalogModel CatalogFacts CatalogProps.
Open Scope nat_scope.

(** ** What is not kept *)
(** Stars and simple galaxies cannot be built from any catalog with a row, nor can
    conformal shear galaxies with a fixed profile. *)
Theorem C57_class_refuted : forall V (zero one : V) k bands extra rows, rows <> [] ->
  k = Star \/ k = SimpleGalaxy \/ k = BaseSource \/ k = ShearNS -> from_catalog zero one k bands extra rows = None.
Proof.
  intros V zero one k bands extra [|r rows] Hne Hk; [congruence|]. unfold from_catalog. cbn [mapM].
  assert (E : match construct zero one k bands with Some s => from_catalog_row r extra s | None => None end = None); [|now rewrite E].
  destruct Hk as [->|[->|[->| ->]]]; try reflexivity. cbn [construct]. unfold from_catalog_row. cbn [base s_kind]. rewrite fold_left_app. cbn [SHAPE_COLS fold_left].
  assert (F : forall l, fold_left (set_from r) l None = @None (csource V)) by (induction l; auto).
  unfold set_from at 5 4 3 2. destruct (col r "ra"); [|now cbn; rewrite F]. cbn. destruct (col r "dec"); [|now rewrite F]. cbn. destruct (col r "q"); cbn; now rewrite F.
Qed.

Definition gal (id : nat) (f : list nat) (fx : bool) : csource nat :=
  mkC (mkSource Galaxy ["A"; "B"]%string f 1 2 3 4 5 6 0 0 fx) id [("unc"%string, 9)].
Definition idf (a b : nat) : nat := a.
Notation write := (to_catalog 0 (fun v => v) (fun n => n) idf idf).
(** Non-vacuity of C57_written, C57_round_trip_partial, C57_stable and C57_exact *)
Example C57_case : one_class Galaxy ["A"; "B"]%string ["unc"; "nope"]%string [gal 0 [10; 11] false; gal 1 [12; 13] true] /\
  exists rows sc', write ["unc"; "nope"]%string [gal 0 [10; 11] false; gal 1 [12; 13] true] = Some (Table rows) /\
    from_catalog 0 1 Galaxy ["A"; "B"]%string ["unc"; "nope"]%string rows = Some sc' /\
    map (fun s => (flux (base s), c_id s, fixed (base s), others s)) sc' =
      [([10; 11], 0, false, [("nope"%string, 0); ("unc"%string, 9)]); ([12; 13], 1, false, [("nope"%string, 0); ("unc"%string, 9)])].
Proof.
  split.
  - split; [auto|]. split; [discriminate|]. split; [intros s [<-|[<-|[]]]; repeat split; reflexivity|]. split.
    + apply has_dup_NoDup. reflexivity.
    + cbn. intros c [<-|[<-|[]]] H; repeat (destruct H as [H|H]; [discriminate H|]); exact H.
  - do 2 eexists. split; [vm_compute; reflexivity|]. split; vm_compute; reflexivity.
Qed.
(** A scene of two classes is written as pieces. *)
Example C57_pieces_case : exists r1 r2, write [] [gal 0 [10; 11] false; mkC (mkSource Star ["A"; "B"]%string [1; 2] 1 2 3 4 5 6 0 0 false) 1 []] = Some (Pieces [r1; r2]).
Proof. do 2 eexists. vm_compute. reflexivity. Qed.

(** A source that was held fixed is free in the rebuilt scene, and a column asked
    for under a name the sources do not have is filled with zeros, not refused. *)
Theorem C57_lost_refuted : exists (sc : list (csource nat)) rows sc',
  write ["nope"%string] sc = Some (Table rows) /\ from_catalog 0 1 Galaxy ["A"; "B"]%string [] rows = Some sc' /\
  active_sources (map (@base nat) sc) <> active_sources (map (@base nat) sc') /\
  (forall s, In s sc -> getattr (fun n => n) idf idf s "nope" = None) /\
  (forall r, In r rows -> col r "nope" = Some 0).
Proof.
  exists [gal 0 [10; 11] true]. do 2 eexists. split; [vm_compute; reflexivity|]. split; [vm_compute; reflexivity|]. split; [cbn; discriminate|]. split.
  - intros s [<-|[]]. reflexivity.
  - intros r [<-|[]]. reflexivity.
Qed.

(** ** Single precision *)
Definition fexp32 := FLT_exp (-149) 24.
Definition rnd32 (x : R) : R := round radix2 fexp32 ZnearestE x.
Definition float64 (x : R) : Prop := generic_format radix2 (FLT_exp (-1074) 53) x.
Local Instance prec24 : Prec_gt_0 24 := eq_refl.
Local Instance prec53 : Prec_gt_0 53 := eq_refl.

Lemma rnd32_idem x : rnd32 (rnd32 x) = rnd32 x.
Proof. unfold rnd32. apply round_generic; [typeclasses eauto|]. apply generic_format_round; typeclasses eauto. Qed.
Lemma rnd32_0 : rnd32 0 = 0%R.
Proof. unfold rnd32. apply round_0. typeclasses eauto. Qed.
Lemma rnd32_int m : (Z.abs m <= 2 ^ 24)%Z -> rnd32 (IZR m) = IZR m.
Proof.
  intros H. unfold rnd32. apply round_generic; [typeclasses eauto|]. destruct (Z.eq_dec (Z.abs m) (2 ^ 24)) as [E|E].
  - assert (Hm : (m = 2 ^ 24 \/ m = - 2 ^ 24)%Z) by lia. change (2 ^ 24)%Z with (radix2 ^ 24)%Z in Hm.
    assert (F : generic_format radix2 fexp32 (bpow radix2 24)) by (apply generic_format_bpow; unfold fexp32, FLT_exp; lia).
    destruct Hm as [->| ->]; [|rewrite opp_IZR; apply generic_format_opp]; rewrite (IZR_Zpower radix2) by lia; exact F.
  - apply generic_format_FLT. exists (Float radix2 m 0); cbn; try lia. unfold F2R. cbn. lra.
Qed.

(** Positions: a coordinate in degrees comes back within 0.055 arcsec, and no
    better: some double precision right ascension moves by more than 0.027 arcsec.
    Catalogs written twice do not move further. *)
Open Scope R_scope.
Theorem C57_position_error : forall x, Rabs x <= 360 -> Rabs (rnd32 x - x) * 3600 <= 0.055 /\ rnd32 (rnd32 x) = rnd32 x.
Proof.
  intros x Hx. split; [|apply rnd32_idem]. destruct (Req_dec x 0) as [->|Hn]; [rewrite rnd32_0, Rminus_0_r, Rabs_R0; lra|].
  assert (E : Rabs (rnd32 x - x) <= / 2 * ulp radix2 fexp32 x) by (apply error_le_half_ulp; typeclasses eauto).
  assert (U : ulp radix2 fexp32 x <= bpow radix2 (-15)).
  { rewrite ulp_neq_0 by auto. apply bpow_le. unfold cexp, fexp32, FLT_exp.
    assert (M : (mag radix2 x <= 9)%Z). { apply mag_le_bpow; auto. apply Rle_lt_trans with (1 := Hx). change (bpow radix2 9) with 512. lra. } lia. }
  change (bpow radix2 (-15)) with (/ 32768) in U. lra.
Qed.
Theorem C57_position_refuted : exists x, float64 x /\ 0 <= x <= 360 /\ Rabs (rnd32 x - x) * 3600 > 0.027.
Proof.
  exists (IZR 19660801 * bpow radix2 (-17)). change (bpow radix2 (-17)) with (/ 131072). split.
  { replace (IZR 19660801 * / 131072) with (F2R (Float radix2 19660801 (-17))) by (unfold F2R; cbn; lra). apply generic_format_FLT. exists (Float radix2 19660801 (-17)); cbn; auto; lia. }
  split; [lra|]. set (x := IZR 19660801 * / 131072).
  assert (E : exists m, rnd32 x = IZR m * / 65536).
  { unfold rnd32, round, scaled_mantissa, cexp. replace (mag radix2 x : Z) with 8%Z.
    2:{ symmetry. apply mag_unique. unfold x. rewrite Rabs_pos_eq by lra. change (bpow radix2 (8 - 1)) with 128. change (bpow radix2 8) with 256. lra. }
    change (fexp32 8) with (-16)%Z. eexists. unfold F2R. cbn [Fnum Fexp]. change (bpow radix2 (-16)) with (/ 65536). reflexivity. }
  destruct E as (m & ->). unfold x. clear x.
  assert (H : (2 * m - 19660801 <= -1 \/ 1 <= 2 * m - 19660801)%Z) by lia.
  destruct H as [H|H]; apply IZR_le in H; rewrite minus_IZR, mult_IZR in H.
  - rewrite Rabs_left1; lra.
  - rewrite Rabs_pos_eq; lra.
Qed.
(** Numbers of sources in the catalog are exact up to 2^24 and not beyond. *)
Theorem C57_ids : (forall n, (Z.of_nat n <= 2 ^ 24)%Z -> rnd32 (INR n) = INR n) /\
  exists m, (m = 2 ^ 24 + 1)%Z /\ rnd32 (IZR m) = rnd32 (IZR (m - 1)).
Proof.
  split.
  - intros n Hn. rewrite INR_IZR_INZ. apply rnd32_int. lia.
  - exists (2 ^ 24 + 1)%Z. split; [reflexivity|]. replace (2 ^ 24 + 1 - 1)%Z with (2 ^ 24)%Z by lia. rewrite (rnd32_int (2 ^ 24)) by lia.
    unfold rnd32, round, scaled_mantissa, cexp. replace (mag radix2 (IZR (2 ^ 24 + 1)) : Z) with 25%Z.
    2:{ symmetry. apply mag_unique. rewrite Rabs_pos_eq by (apply IZR_le; lia). change (25 - 1)%Z with 24%Z. rewrite <- !(IZR_Zpower radix2) by lia. split; [apply IZR_le|apply IZR_lt]; vm_compute; congruence. }
    change (fexp32 25) with 1%Z. replace (ZnearestE (IZR (2 ^ 24 + 1) * bpow radix2 (- (1)))) with (2 ^ 23)%Z.
    + unfold F2R. cbn [Fnum Fexp]. change (bpow radix2 1) with 2. rewrite <- mult_IZR. reflexivity.
    + change (bpow radix2 (- (1))) with (/ 2). replace (IZR (2 ^ 24 + 1) * / 2) with (IZR (2 ^ 23) + / 2) by (replace (2 ^ 24 + 1)%Z with (2 * 2 ^ 23 + 1)%Z by reflexivity; rewrite plus_IZR, mult_IZR; lra).
      set (h := (2 ^ 23)%Z). assert (Ev : Z.even h = true) by reflexivity. clearbody h.
      symmetry. unfold Znearest. assert (Ef : Zfloor (IZR h + / 2) = h) by (apply Zfloor_imp; rewrite plus_IZR; lra). rewrite Ef. replace (IZR h + / 2 - IZR h) with (/ 2) by ring.
      rewrite Rcompare_Eq by reflexivity. rewrite Ev. reflexivity.
Qed.
Close Scope R_scope.

(** ** Names *)
(** What the entries behind the fluxes are called *)
Definition called (k : kind) : list string :=
  match k with
  | Star => ["ra"; "dec"]
  | GalaxyNS | SimpleGalaxy => ["ra"; "dec"; "q"; "pa"]
  | ShearNS => ["ra"; "dec"; "ep"; "ec"]
  | Shear => ["ra"; "dec"; "ep"; "ec"; "n"; "r"]
  | Galaxy => ["ra"; "dec"; "q"; "pa"; "sersic"; "rhalf"]
  | BaseSource => ["ra"; "dec"; "q"; "pa"; "rhalf"; "sersic"]
  end%string.
Lemma name_parts_called {V} (s : csource V) : name_parts s = filternames (base s) ++ called (s_kind (base s)).
Proof. unfold name_parts, called. destruct (s_kind (base s)); reflexivity. Qed.
Lemma called_length {V} (s : source V) : List.length (called (s_kind s)) = List.length (described_by s).
Proof. unfold called, described_by. destruct (s_kind s); reflexivity. Qed.

(** The names of a scene's parameters (numbered as Scene does) are all different,
    as long as each source's filters are, and are not called like a parameter. *)
Theorem C57_names_distinct : forall V (sc : list (csource V)) names, parameter_names (identify sc) = Some names ->
  (forall s, In s sc -> NoDup (filternames (base s)) /\
     forall f, In f (filternames (base s)) -> ~ In f ["ra"; "dec"; "q"; "pa"; "sersic"; "rhalf"; "ep"; "ec"; "n"; "r"]%string) ->
  NoDup names.
Proof.
  intros V sc names E H. unfold parameter_names in E.
  assert (Hn : names = concat (map source_names (identify sc))) by (destruct (identify sc); [discriminate|injection E as <-; reflexivity]). subst names. clear E.
  unfold identify. rewrite map_map.
  assert (G : forall l, (forall p, In p l -> In (snd p) sc) -> NoDup (map fst l) ->
    NoDup (concat (map (fun x : nat * csource V => source_names (mkC (base (snd x)) (fst x) (others (snd x)))) l))).
  { induction l as [|(i, s) l IH]; intros Hl N; cbn; [constructor|]. cbn in N. inversion N as [|? ? N1 N2]; subst. apply NoDup_app_iff. split; [|split].
    - unfold source_names. cbn. destruct (H s (Hl (i, s) (or_introl eq_refl))) as (H1 & H2). rewrite name_parts_called. cbn.
      assert (D : NoDup (filternames (base s) ++ called (s_kind (base s)))).
      { apply NoDup_app_iff. split; [exact H1|]. split; [apply has_dup_NoDup; destruct (s_kind (base s)); reflexivity|]. intros x Hx Hc. apply (H2 x Hx).
        revert Hc. destruct (s_kind (base s)); cbn; tauto. }
      revert D. generalize (filternames (base s) ++ called (s_kind (base s))). induction l0 as [|a l0 IH0]; cbn; intros D; constructor; inversion D as [|? ? D1 D2]; subst; auto.
      intros Hin. apply in_map_iff in Hin. destruct Hin as (b & Eb & Hb). apply (split_us b a) in Eb; try apply text_no_us. destruct Eb as (-> & _). contradiction.
    - apply IH; auto. intros p Hp. apply Hl. now right.
    - intros x Hx Hy. apply in_concat in Hy. destruct Hy as (m & Hm & Hxm). apply in_map_iff in Hm. destruct Hm as ((j, s') & <- & Hj).
      unfold source_names in Hx, Hxm. cbn in Hx, Hxm. apply in_map_iff in Hx. apply in_map_iff in Hxm. destruct Hx as (a & Ea & _). destruct Hxm as (b & Eb & _).
      rewrite <- Eb in Ea. apply split_us in Ea; try apply text_no_us. destruct Ea as (_ & Ea). apply text_inj in Ea. subst. apply N1. apply in_map_iff. exists (j, s'). auto. }
  apply G.
  - intros (i, s) Hp. apply enumerate_nth in Hp. eapply nth_error_In; eauto.
  - unfold enumerate. assert (M : forall k, map fst (combine (seq k (List.length sc)) sc) = seq k (List.length sc)) by (clear; induction sc; intros k; cbn; auto; now rewrite IHsc). rewrite M. apply seq_NoDup.
Qed.

(** The names name the entries of the vector of all sources' parameters: the k-th
    entry of the i-th source is called after its filter or parameter and i. *)
Definition place {V} (sc : list (csource V)) (i : nat) : nat :=
  list_sum (map (fun s => List.length (filternames (base s)) + List.length (described_by (base s))) (firstn i sc)).
Lemma concat_nth {A B} (f : A -> list B) (len : A -> nat) : forall l i a k, (forall x, In x l -> List.length (f x) = len x) -> nth_error l i = Some a -> k < len a ->
  nth_error (concat (map f l)) (list_sum (map len (firstn i l)) + k) = nth_error (f a) k.
Proof.
  induction l as [|b l IH]; intros [|i] a k Hl Hi Hk; try discriminate; cbn in *.
  - injection Hi as ->. apply nth_error_app1. rewrite Hl; auto.
  - rewrite nth_error_app2; rewrite (Hl b) by auto; [|lia]. fold (list_sum (map len (firstn i l))). replace (len b + list_sum (map len (firstn i l)) + k - len b) with (list_sum (map len (firstn i l)) + k) by lia. apply IH; auto.
Qed.
Theorem C57_names_aligned : forall V (sc : list (csource V)), sc <> [] -> (forall s, In s sc -> well_made (base s)) ->
  exists names theta, parameter_names (identify sc) = Some names /\ get_all_source_params (map (@base V) (identify sc)) false = Some theta /\
    List.length names = List.length theta /\
    forall i s k v, nth_error sc i = Some s -> nth_error (flux (base s) ++ described_by (base s)) k = Some v ->
      nth_error theta (place sc i + k) = Some v /\
      exists part, nth_error (filternames (base s) ++ called (s_kind (base s))) k = Some part /\
        nth_error names (place sc i + k) = Some (part ++ "_" ++ text i)%string.
Proof.
  intros V sc Hne HW. set (idt := identify sc).
  assert (Hb : map (@base V) idt = map (@base V) sc).
  { unfold idt, identify. rewrite map_map. cbn. transitivity (map (@base V) (map snd (enumerate sc))); [now rewrite map_map|now rewrite snd_enumerate]. }
  assert (Hne' : idt <> []) by (intros E; apply (f_equal (@List.length (csource V))) in E; unfold idt in E; rewrite identify_length in E; destruct sc; cbn in E; congruence).
  exists (concat (map source_names idt)), (concat (map (fun s => flux s ++ described_by s) (map (@base V) sc))).
  split; [unfold parameter_names; destruct idt; congruence|]. split.
  { rewrite Hb. unfold get_all_source_params. destruct sc as [|a l]; [congruence|]. cbn [map].
    assert (M : forall m : list (source V), mapM (fun s => get_param_vector s None) m = Some (map (fun s => flux s ++ described_by s) m)).
    { induction m as [|b m IH]; auto. cbn [map mapM]. rewrite get_params_all, IH. reflexivity. }
    change (base a :: map (@base V) l) with (map (@base V) (a :: l)). rewrite M. reflexivity. }
  set (len := fun s : csource V => List.length (filternames (base s)) + List.length (described_by (base s))).
  assert (Hplace : forall i, place sc i = list_sum (map len (firstn i idt))).
  { intros i. unfold place. f_equal. transitivity (map (fun b => List.length (filternames b) + List.length (described_by b)) (firstn i (map (@base V) sc))); [now rewrite firstn_map, map_map|]. rewrite <- Hb, firstn_map, map_map. reflexivity. }
  assert (Lnames : forall s, List.length (source_names s) = len s) by (intros s; unfold source_names; rewrite map_length, name_parts_called, app_length; unfold len; now rewrite (called_length (base s))).
  split.
  { assert (L : forall l : list (csource V), (forall s, In s l -> well_made (base s)) -> List.length (concat (map source_names l)) = List.length (concat (map (fun s => flux s ++ described_by s) (map (@base V) l)))).
    { induction l as [|s l IH]; intros Hl; auto. cbn. rewrite !app_length, IH by (intros; apply Hl; now right). rewrite Lnames. unfold len. rewrite <- (Hl s (or_introl eq_refl)). lia. }
    rewrite <- Hb. apply L. intros s Hs. unfold idt, identify in Hs. apply in_map_iff in Hs. destruct Hs as ((i, s') & <- & Hin). cbn. apply HW. apply enumerate_nth in Hin. eapply nth_error_In; eauto. }
  intros i s k v Hi Hk. assert (Hkl : k < len s).
  { assert (k < List.length (flux (base s) ++ described_by (base s))) by (apply nth_error_Some; congruence). rewrite app_length in H. unfold len. rewrite <- (HW s); [exact H|eapply nth_error_In; eauto]. }
  split.
  - assert (E : place sc i = list_sum (map (fun b => List.length (filternames b) + List.length (described_by b)) (firstn i (map (@base V) sc)))) by (unfold place; now rewrite firstn_map, map_map).
    rewrite E. rewrite (concat_nth (fun s => flux s ++ described_by s) (fun b : source V => List.length (filternames b) + List.length (described_by b)) (map (@base V) sc) i (base s) k); auto.
    + intros b Hin. apply in_map_iff in Hin. destruct Hin as (x & <- & Hx). rewrite app_length. now rewrite (HW x Hx).
    + rewrite nth_error_map, Hi. reflexivity.
  - rewrite Hplace. assert (Hid := identify_nth sc i s Hi). fold idt in Hid.
    rewrite (concat_nth source_names len idt i _ k (fun x _ => Lnames x) Hid Hkl). unfold source_names. rewrite nth_error_map, name_parts_called. cbn [base c_id].
    assert (Hp : k < List.length (filternames (base s) ++ called (s_kind (base s)))) by (rewrite app_length, (called_length (base s)); exact Hkl).
    apply nth_error_Some in Hp. destruct (nth_error (filternames (base s) ++ called (s_kind (base s))) k) as [part|]; [|congruence]. exists part. auto.
Qed.
(** They do not name the entries of the vector a fit uses, which leaves out fixed
    sources: there are more names than entries, and the first name is not the
    name of the first entry. *)
Theorem C57_names_fit_refuted : exists (sc : list (csource nat)) names theta, identify sc = sc /\
  parameter_names sc = Some names /\ get_all_source_params (map (@base nat) sc) true = Some theta /\
  List.length names > List.length theta /\ nth_error names 0 = Some "A_0"%string /\ nth_error theta 0 = Some 12 /\
  nth_error (concat (map (fun s => flux (base s)) sc)) 0 = Some 10.
Proof.
  exists [gal 0 [10; 11] true; gal 1 [12; 13] false]. do 2 eexists. split; [reflexivity|]. split; [vm_compute; reflexivity|]. split; [vm_compute; reflexivity|]. split; [cbn; lia|]. repeat split; reflexivity.
Qed.
Example C57_names_case : parameter_names (identify [gal 7 [10; 11] true; mkC (mkSource Shear ["A_1"]%string [12] 1 2 3 4 5 6 7 8 false) 9 []]) =
  Some ["A_0"; "B_0"; "ra_0"; "dec_0"; "q_0"; "pa_0"; "sersic_0"; "rhalf_0"; "A_1_1"; "ra_1"; "dec_1"; "ep_1"; "ec_1"; "n_1"; "r_1"]%string.
Proof. vm_compute. reflexivity. Qed.

Print Assumptions C57_written.
Print Assumptions C57_round_trip_partial.
Print Assumptions C57_stable.
Print Assumptions C57_exact.
Print Assumptions C57_class_refuted.
Print Assumptions C57_lost_refuted.
Print Assumptions C57_position_error.
Print Assumptions C57_position_refuted.
Print Assumptions C57_ids.
Print Assumptions C57_names_distinct.
Print Assumptions C57_names_aligned.
Print Assumptions C57_names_fit_refuted.
