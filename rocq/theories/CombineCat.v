(** C40: the plotting image, the catalog of samples, and sources in several patches. *)
From Verif Require Import Np NpFacts CombineModel CombineProps.
Open Scope nat_scope.

(** ** populate_image *)
Lemma zmin_spec l m : zmin l = Some m -> In m l /\ forall x, In x l -> (m <= x)%Z.
Proof.
  destruct l as [|a l]; [discriminate|]. cbn [zmin]. intros E. injection E as <-. revert a. induction l as [|b l IH]; intros a; cbn [fold_left].
  - split; [left; auto|]. intros x [<-|[]]. lia.
  - destruct (IH (Z.min a b)) as [H1 H2]. split.
    + destruct H1 as [H1|H1]; [rewrite <- H1; destruct (Z.min_spec a b) as [[_ ->]|[_ ->]]; simpl; auto|simpl; auto].
    + intros x [<-|[<-|Hx]]; [specialize (H2 _ (or_introl eq_refl)); lia|specialize (H2 _ (or_introl eq_refl)); lia|apply H2; simpl; auto].
Qed.
Lemma zmax_spec l m : zmax l = Some m -> In m l /\ forall x, In x l -> (x <= m)%Z.
Proof.
  destruct l as [|a l]; [discriminate|]. cbn [zmax]. intros E. injection E as <-. revert a. induction l as [|b l IH]; intros a; cbn [fold_left].
  - split; [left; auto|]. intros x [<-|[]]. lia.
  - destruct (IH (Z.max a b)) as [H1 H2]. split.
    + destruct H1 as [H1|H1]; [rewrite <- H1; destruct (Z.max_spec a b) as [[_ ->]|[_ ->]]; simpl; auto|simpl; auto].
    + intros x [<-|[<-|Hx]]; [specialize (H2 _ (or_introl eq_refl)); lia|specialize (H2 _ (or_introl eq_refl)); lia|apply H2; simpl; auto].
Qed.
Lemma pix_of_nonneg m x : (m <= x)%Z -> pix_of m x = (x - m)%Z.
Proof.
  intros H. unfold pix_of. rewrite Z.quot_div_nonneg by lia. symmetry. apply (Z.div_unique _ 2 _ 1); lia.
Qed.
Definition kept {V} (w : Z * Z * V) : bool := ((0 <=? fst (fst w)) && (0 <=? snd (fst w)))%Z.
Lemma last_from_filter {V} (ws : list (Z * Z * V)) x y : (0 <= x)%Z -> (0 <= y)%Z -> forall acc, last_from pt_eqb acc (filter kept ws) (x, y) = last_from pt_eqb acc ws (x, y).
Proof.
  intros Hx Hy. induction ws as [|[[a b] v] ws IH]; intros acc; [reflexivity|]. cbn [filter]. destruct (kept (a, b, v)) eqn:E; unfold last_from in *; cbn [fold_left]; rewrite IH; auto.
  cbn [fst snd]. destruct (pt_eqb (a, b) (x, y)) eqn:E'; auto. apply pt_eqb_eq in E'. injection E' as -> ->. unfold kept in E. cbn [fst snd] in E. destruct (Z.leb_spec 0 x), (Z.leb_spec 0 y); try lia; discriminate.
Qed.
Lemma last_from_shift {V} x0 y0 i j (g : list (Z * Z * V)) : (forall w, In w g -> (x0 <= fst (fst w))%Z /\ (y0 <= snd (fst w))%Z) ->
  forall acc, last_from pt_eqb acc (map (fun w => (pix_of x0 (fst (fst w)), pix_of y0 (snd (fst w)), snd w)) g) (i, j) = last_from pt_eqb acc g (x0 + i, y0 + j)%Z.
Proof.
  induction g as [|[[a b] v] g IH]; intros H acc; [reflexivity|]. unfold last_from in *. cbn [map fold_left]. rewrite IH by (intros; apply H; simpl; auto). destruct (H _ (or_introl eq_refl)) as [Ha Hb]. cbn [fst snd] in *. rewrite !pix_of_nonneg by auto. unfold pt_eqb. cbn [fst snd].
  replace (a - x0 =? i)%Z with (a =? x0 + i)%Z by (destruct (Z.eqb_spec a (x0 + i)), (Z.eqb_spec (a - x0) i); auto; lia). replace (b - y0 =? j)%Z with (b =? y0 + j)%Z by (destruct (Z.eqb_spec b (y0 + j)), (Z.eqb_spec (b - y0) j); auto; lia). reflexivity.
Qed.
(** The image covers exactly the range of the pixels that are not padding; each cell has the last value
    listed for its pixel, or NaN, and padding is left out. *)
Theorem C40_populate : forall V (ws : list (Z * Z * V)), (exists x y v, In (x, y, v) ws /\ 0 <= x /\ 0 <= y)%Z ->
  exists im x0 y0 x1 y1, populate_image ws = Some (im, (2 * x0 - 1, 2 * y0 - 1)%Z, (2 * x1 + 1, 2 * y1 + 1)%Z) /\
    (Z.of_nat (nx im) = x1 - x0 + 1 /\ Z.of_nat (ny im) = y1 - y0 + 1)%Z /\
    (forall x y v, In (x, y, v) ws -> 0 <= x -> 0 <= y -> x0 <= x <= x1 /\ y0 <= y <= y1)%Z /\
    (0 <= x0 /\ 0 <= y0)%Z /\
    forall i j r, i < nx im -> j < ny im -> latest ws (x0 + Z.of_nat i, y0 + Z.of_nat j)%Z r -> cell im i j = Some r.
Proof.
  intros V ws (x & y & v & Hin & Hx & Hy). unfold populate_image. change (fun w : Z * Z * V => ((0 <=? fst (fst w)) && (0 <=? snd (fst w)))%Z) with (@kept V). set (g := filter kept ws).
  assert (Hg : In (x, y, v) g). { apply filter_In. split; auto. unfold kept. cbn [fst snd]. apply andb_true_intro. split; apply Z.leb_le; auto. }
  assert (NE : forall h : Z * Z * V -> Z, map h g <> []) by (intros h E; destruct g; [contradiction|discriminate]).
  destruct (zmin (map (fun w => fst (fst w)) g)) as [x0|] eqn:Ex0; [|exfalso; destruct (map (fun w => fst (fst w)) g) eqn:E; [eapply NE; eauto|discriminate]].
  destruct (zmin (map (fun w => snd (fst w)) g)) as [y0|] eqn:Ey0; [|exfalso; destruct (map (fun w => snd (fst w)) g) eqn:E; [eapply NE; eauto|discriminate]].
  destruct (zmax (map (fun w => fst (fst w)) g)) as [x1|] eqn:Ex1; [|exfalso; destruct (map (fun w => fst (fst w)) g) eqn:E; [eapply NE; eauto|discriminate]].
  destruct (zmax (map (fun w => snd (fst w)) g)) as [y1|] eqn:Ey1; [|exfalso; destruct (map (fun w => snd (fst w)) g) eqn:E; [eapply NE; eauto|discriminate]].
  apply zmin_spec in Ex0, Ey0. apply zmax_spec in Ex1, Ey1. destruct Ex0 as [Ix0 Mx0], Ey0 as [Iy0 My0], Ex1 as [Ix1 Mx1], Ey1 as [Iy1 My1].
  assert (R : forall w, In w g -> (x0 <= fst (fst w) <= x1 /\ y0 <= snd (fst w) <= y1)%Z).
  { intros w Hw. pose proof (in_map (fun w : Z * Z * V => fst (fst w)) g w Hw) as F1. pose proof (in_map (fun w : Z * Z * V => snd (fst w)) g w Hw) as F2. cbn beta in *. split; split; auto. }
  assert (P : (0 <= x0 /\ 0 <= y0)%Z). { apply in_map_iff in Ix0. destruct Ix0 as (w & <- & Hw). apply in_map_iff in Iy0. destruct Iy0 as (w' & <- & Hw'). apply filter_In in Hw, Hw'. destruct Hw as [_ Hw], Hw' as [_ Hw']. unfold kept in *. apply andb_prop in Hw, Hw'. destruct Hw as [Hw _], Hw' as [_ Hw']. apply Z.leb_le in Hw, Hw'. auto. }
  cbn [fst snd]. assert (Rx := R _ Hg). cbn [fst snd] in Rx.
  assert (Sx : Z.quot (2 * x1 + 1 - (2 * x0 - 1)) 2 = (x1 - x0 + 1)%Z). { rewrite Z.quot_div_nonneg by lia. symmetry. apply (Z.div_unique _ 2 _ 0); lia. }
  assert (Sy : Z.quot (2 * y1 + 1 - (2 * y0 - 1)) 2 = (y1 - y0 + 1)%Z). { rewrite Z.quot_div_nonneg by lia. symmetry. apply (Z.div_unique _ 2 _ 0); lia. }
  rewrite Sx, Sy. set (s := (Z.to_nat (x1 - x0 + 1), Z.to_nat (y1 - y0 + 1))). destruct (@nan_image_spec V s) as (W & Sh & C).
  destruct (writes_spec (map (fun w => (pix_of x0 (fst (fst w)), pix_of y0 (snd (fst w)), snd w)) g) (nan_image s) W) as (im & E & _ & Sh' & C').
  { intros a b u Hu. apply in_map_iff in Hu. destruct Hu as (w & Ew & Hw). injection Ew as <- <- <-. specialize (R w Hw). rewrite Sh, !pix_of_nonneg by lia. unfold fits_in, s. cbn [fst snd]. lia. }
  rewrite E. cbn [option_map]. exists im, x0, y0, x1, y1. split; auto. rewrite Sh in Sh'. unfold shape_of, s in Sh'. injection Sh' as Hnx Hny. rewrite Hnx, Hny. split; [lia|]. split; [|split; auto].
  - intros a b u Hu Ha Hb. apply (R (a, b, u)). apply filter_In. split; auto. unfold kept. cbn [fst snd]. apply andb_true_intro. split; apply Z.leb_le; auto.
  - intros i j r Hi Hj L. rewrite C' by (unfold s; cbn [nan_image nx ny fst snd]; lia). rewrite last_from_shift by (intros w Hw; specialize (R w Hw); lia). unfold g. rewrite last_from_filter by lia. rewrite (last_from_latest pt_eqb pt_eqb_eq _ _ _ L). destruct r; [reflexivity|]. apply C; unfold s; cbn [fst snd]; assumption.
Qed.

(** ** postsample_catalog *)
Lemma put_rows_spec {A} (inds : list Z) : forall (vs col : list A), List.length inds = List.length vs -> NoDup inds -> (forall i, In i inds -> 0 <= i < Z.of_nat (List.length col))%Z ->
  exists col', put_rows col inds vs = Some col' /\ List.length col' = List.length col /\
    (forall j i v, nth_error inds j = Some (Z.of_nat i) -> nth_error vs j = Some v -> nth_error col' i = Some v) /\
    (forall i, ~ In (Z.of_nat i) inds -> nth_error col' i = nth_error col i).
Proof.
  intros vs col L. unfold put_rows. rewrite L, Nat.eqb_refl. revert vs col L. induction inds as [|a inds IH]; intros [|v vs] col L ND R; try discriminate.
  - exists col. simpl. split; auto. split; auto. split; auto. intros [|j] i u H; discriminate.
  - inversion ND; subst. cbn [combine fold_left fst snd]. pose proof (R a (or_introl eq_refl)) as Ra. assert (Ea : np_index (List.length col) a = Some (Z.to_nat a)) by (rewrite <- (Z2Nat.id a) at 1 by lia; apply np_index_nat; lia). rewrite Ea.
    destruct (IH vs (upd (Z.to_nat a) v col)) as (col' & E & Lc & P1 & P2); [simpl in L; lia|auto|intros i Hi; rewrite upd_length; apply R; simpl; auto|].
    exists col'. split; auto. split; [now rewrite Lc, upd_length|]. split.
    + intros [|j] i u Hj Hv; cbn [nth_error] in *; [|eapply P1; eauto]. injection Hj as Hj. injection Hv as <-. subst a. rewrite P2 by auto. rewrite Nat2Z.id, nth_error_upd, Nat.eqb_refl. destruct (Nat.ltb_spec i (List.length col)); [reflexivity|lia].
    + intros i Hi. rewrite P2 by (intros X; apply Hi; simpl; auto). rewrite nth_error_upd. destruct (Nat.eqb_spec (Z.to_nat a) i) as [E'|N]; auto. exfalso. apply Hi. left. lia.
Qed.
(** A samples file in order: distinct source indices within the catalog, as many ids and chains as
    sources, chains of at least [n] draws, all the parameters *)
Definition good_samples (rows n : nat) (params : list string) (s : samples) : Prop :=
  NoDup (s_inds s) /\ (forall i, In i (s_inds s) -> 0 <= i < Z.of_nat rows)%Z /\ List.length (s_ids s) = List.length (s_inds s) /\
  n <= List.length (s_lnp s) /\
  forall c, In c params -> exists chains, column (s_cols s) c = Some chains /\ List.length chains = List.length (s_inds s) /\ forall r, In r chains -> n <= List.length r.
(** Row [i] of the catalog *)
Definition row_is (cat : catalog) (params : list string) (i : nat) (id src pid : Z) (wall : Q) (lnp : list Q) (chain : string -> list Q) : Prop :=
  nth_error (c_id cat) i = Some id /\ nth_error (c_source cat) i = Some src /\ nth_error (c_patch cat) i = Some pid /\
  nth_error (c_wall cat) i = Some wall /\ nth_error (c_lnp cat) i = Some lnp /\
  forall c, In c params -> exists col, column (c_cols cat) c = Some col /\ nth_error col i = Some (chain c).
Definition sized (rows : nat) (cat : catalog) : Prop :=
  List.length (c_id cat) = rows /\ List.length (c_source cat) = rows /\ List.length (c_patch cat) = rows /\ List.length (c_wall cat) = rows /\ List.length (c_lnp cat) = rows /\
  forall c col, In (c, col) (c_cols cat) -> List.length col = rows.
(** The last [n] draws of a chain *)
Definition tail_of {A} (n : nat) (l : list A) : list A := skipn (List.length l - n) l.
Lemma last_n_tail {A} n (l : list A) : 0 < n -> last_n n l = tail_of n l.
Proof. intros H. unfold last_n. destruct (Nat.eqb_spec n 0); [lia|reflexivity]. Qed.
Lemma tail_length {A} n (l : list A) : n <= List.length l -> List.length (tail_of n l) = n.
Proof. intros H. unfold tail_of. rewrite skipn_length. lia. Qed.
Lemma add_patch_spec rows n cat p s params : 0 < n -> sized rows cat -> map fst (c_cols cat) = params -> good_samples rows n params s ->
  exists cat', add_patch n cat p s = Some cat' /\ sized rows cat' /\ map fst (c_cols cat') = params /\
    (forall i j id, nth_error (s_inds s) j = Some (Z.of_nat i) -> nth_error (s_ids s) j = Some id ->
       row_is cat' params i id (Z.of_nat i) p (s_wall s) (tail_of n (s_lnp s)) (fun c => match column (s_cols s) c with Some ch => tail_of n (nth j ch []) | None => [] end)) /\
    (forall i id src pid w l ch, ~ In (Z.of_nat i) (s_inds s) -> row_is cat params i id src pid w l ch -> row_is cat' params i id src pid w l ch).
Proof.
  intros Hn (L1 & L2 & L3 & L4 & L5 & L6) Hp (ND & R & Li & Ll & Hc). unfold add_patch. rewrite !last_n_tail by auto. rewrite tail_length, Nat.eqb_refl by auto.
  assert (Rep : forall {A} (a : A) k j, j < k -> nth_error (repeat a k) j = Some a) by (clear; intros A a; induction k as [|k IH]; intros [|j] H; simpl; try lia; auto; apply IH; lia).
  destruct (put_rows_spec (s_inds s) (s_ids s) (c_id cat)) as (id' & E1 & M1 & P1 & Q1); [auto|auto|now rewrite L1|].
  destruct (put_rows_spec (s_inds s) (repeat p (List.length (s_inds s))) (c_patch cat)) as (pid' & E2 & M2 & P2 & Q2); [now rewrite repeat_length|auto|now rewrite L3|].
  destruct (put_rows_spec (s_inds s) (s_inds s) (c_source cat)) as (src' & E3 & M3 & P3 & Q3); [auto|auto|now rewrite L2|].
  destruct (put_rows_spec (s_inds s) (repeat (s_wall s) (List.length (s_inds s))) (c_wall cat)) as (w' & E4 & M4 & P4 & Q4); [now rewrite repeat_length|auto|now rewrite L4|].
  destruct (put_rows_spec (s_inds s) (repeat (tail_of n (s_lnp s)) (List.length (s_inds s))) (c_lnp cat)) as (l' & E5 & M5 & P5 & Q5); [now rewrite repeat_length|auto|now rewrite L5|].
  rewrite E1, E2, E3, E4, E5.
  set (f := fun cv : string * list (list Q) => match column (s_cols s) (fst cv) with Some rws => let rws := map (last_n n) rws in if fits n rws then option_map (pair (fst cv)) (put_rows (snd cv) (s_inds s) rws) else None | None => None end).
  assert (Hcol : forall cs, (forall c col, In (c, col) cs -> In c params /\ List.length col = rows) -> exists cs', mapM f cs = Some cs' /\ map fst cs' = map fst cs /\ (forall c col, In (c, col) cs' -> List.length col = rows) /\
     forall c col, column cs c = Some col -> exists col', column cs' c = Some col' /\
       (forall i j, nth_error (s_inds s) j = Some (Z.of_nat i) -> nth_error col' i = Some (match column (s_cols s) c with Some ch => tail_of n (nth j ch []) | None => [] end)) /\
       (forall i, ~ In (Z.of_nat i) (s_inds s) -> nth_error col' i = nth_error col i)).
  { induction cs as [|[c col] cs IH]; intros H; [exists []; split; [reflexivity|split; [reflexivity|split; [intros ? ? []|discriminate]]]|]. destruct (H c col (or_introl eq_refl)) as [Hin Hlen]. destruct IH as (cs' & Em & Ek & Hl & Hcs); [intros; apply H; simpl; auto|].
    destruct (Hc c Hin) as (chains & Ec & Lc & Hr). assert (Ef : exists col', f (c, col) = Some (c, col') /\ List.length col' = List.length col /\ (forall j i v, nth_error (s_inds s) j = Some (Z.of_nat i) -> nth_error (map (tail_of n) chains) j = Some v -> nth_error col' i = Some v) /\ (forall i, ~ In (Z.of_nat i) (s_inds s) -> nth_error col' i = nth_error col i)).
    { unfold f. cbn [fst snd]. rewrite Ec. cbv zeta. replace (map (last_n n) chains) with (map (tail_of n) chains) by (apply map_ext; intros; symmetry; now apply last_n_tail). assert (Ft : fits n (map (tail_of n) chains) = true). { unfold fits. apply forallb_forall. intros r Hr'. apply in_map_iff in Hr'. destruct Hr' as (r0 & <- & Hr0). apply Nat.eqb_eq, tail_length. auto. }
      rewrite Ft. destruct (put_rows_spec (s_inds s) (map (tail_of n) chains) col) as (col' & E & M & P & Q); [rewrite map_length; lia|auto|now rewrite Hlen|]. exists col'. rewrite E. auto. }
    destruct Ef as (col' & Ef & Ml & P & Q). exists ((c, col') :: cs'). cbn [mapM]. rewrite Ef, Em. split; auto. split; [cbn; now f_equal|]. split; [intros d k [E|Hk]; [injection E as <- <-; congruence|eauto]|].
    intros d k. cbn [column]. destruct (String.eqb_spec c d) as [<-|N]; [|apply Hcs]. intros E. injection E as <-. exists col'. split; auto. split; auto. intros i j Hj. rewrite Ec. apply (P j); auto. rewrite nth_error_map. assert (Hjl : j < List.length chains) by (rewrite Lc; apply nth_error_Some; congruence). rewrite (nth_error_nth' chains [] Hjl). reflexivity. }
  destruct (Hcol (c_cols cat)) as (cs' & Em & Ek & Hl & Hcs). { intros c col Hin. split; [rewrite <- Hp; apply in_map_iff; exists (c, col); auto|eauto]. }
  rewrite Em. eexists. split; [reflexivity|]. split; [repeat split; cbn; try congruence; auto|]. split; [cbn; congruence|].
  assert (Colex : forall c, In c params -> exists col, column (c_cols cat) c = Some col). { rewrite <- Hp. clear. induction (c_cols cat) as [|[d v] t IH]; simpl; [contradiction|]. intros c [->|H]; [rewrite String.eqb_refl; eauto|]. destruct (String.eqb d c); eauto. }
  split.
  - intros i j id Hj Hid. assert (Hjl : j < List.length (s_inds s)) by (apply nth_error_Some; congruence). unfold row_is. cbn [c_id c_source c_patch c_wall c_lnp c_cols].
    split; [eauto|]. split; [eauto|]. split; [eapply P2; eauto|]. split; [eapply P4; eauto|]. split; [eapply P5; eauto|]. intros c Hin. destruct (Colex c Hin) as (col & Ecol). destruct (Hcs c col Ecol) as (col' & E & Hw & _). exists col'. split; auto.
  - intros i id src pid w l ch Hi (R1 & R2 & R3 & R4 & R5 & R6). unfold row_is. cbn [c_id c_source c_patch c_wall c_lnp c_cols]. rewrite Q1, Q2, Q3, Q4, Q5 by auto. repeat split; auto. intros c Hin. destruct (R6 c Hin) as (col & Ecol & En). destruct (Hcs c col Ecol) as (col' & E & _ & Hw). exists col'. split; auto. now rewrite Hw.
Qed.
Lemma add_all rows n params read : 0 < n -> forall ps cat, sized rows cat -> map fst (c_cols cat) = params -> (forall p, In p ps -> exists s, read p = Some s /\ good_samples rows n params s) ->
  exists cat', fold_left (fun o p => match o, read p with Some cat, Some s => add_patch n cat p s | _, _ => None end) ps (Some cat) = Some cat' /\ sized rows cat' /\ map fst (c_cols cat') = params /\
    forall i id src pid w l ch, (forall p s, In p ps -> read p = Some s -> ~ In (Z.of_nat i) (s_inds s)) -> row_is cat params i id src pid w l ch -> row_is cat' params i id src pid w l ch.
Proof.
  intros Hn. induction ps as [|p ps IH]; intros cat S M H; [exists cat; simpl; auto|]. destruct (H p (or_introl eq_refl)) as (s & Es & G). destruct (add_patch_spec rows n cat p s params Hn S M G) as (cat1 & E1 & S1 & M1 & _ & K1).
  destruct (IH cat1 S1 M1) as (cat2 & E2 & S2 & M2 & K2); [intros; apply H; simpl; auto|]. exists cat2. cbn [fold_left]. rewrite Es, E1. split; auto. split; auto. split; auto. intros i id src pid w l ch Hi Hr. apply K2; [intros; eapply Hi; simpl; eauto|]. apply K1; auto. eapply Hi; simpl; eauto.
Qed.
Lemma empty_sized rows n params : sized rows (empty_catalog rows n params) /\ map fst (c_cols (empty_catalog rows n params)) = params /\
  forall i, i < rows -> row_is (empty_catalog rows n params) params i (-1) 0 0 0 (repeat 0%Q n) (fun _ => repeat 0%Q n).
Proof.
  assert (Rep : forall {A} (a : A) k j, j < k -> nth_error (repeat a k) j = Some a) by (clear; intros A a; induction k as [|k IH]; intros [|j] H; simpl; try lia; auto; apply IH; lia).
  unfold empty_catalog, sized, row_is. cbn [c_id c_source c_patch c_wall c_lnp c_cols]. rewrite !repeat_length. split; [repeat split; auto; intros c col H; apply in_map_iff in H; destruct H as (d & E & _); injection E as <- <-; apply repeat_length|]. split; [rewrite map_map; cbn; apply map_id|].
  intros i Hi. rewrite !Rep by auto. repeat split; auto. intros c Hc. exists (repeat (repeat 0%Q n) rows). split; [|now apply Rep]. induction params as [|d ps IH]; [contradiction|]. cbn [map column]. destruct (String.eqb_spec d c); auto. destruct Hc as [Hc|Hc]; [contradiction|auto].
Qed.
(** For every run whose samples files are in order: the row of a source is that of the last
    patch in the log in which it was active, its id, wall time, and the last draws of its
    chains; the row of a source that was never active has id -1 and zeros. *)
Theorem C40_catalog : forall read plog rows p0 s0 rest, plog = p0 :: rest -> read p0 = Some s0 -> 0 < s_n s0 ->
  (forall p, In p plog -> exists s, read p = Some s /\ good_samples rows (s_n s0) (map fst (s_cols s0)) s) ->
  exists cat, postsample_catalog read plog rows None = Some cat /\ List.length (c_id cat) = rows /\
    (forall pre p post s i j id, plog = (pre ++ p :: post)%list -> read p = Some s -> nth_error (s_inds s) j = Some (Z.of_nat i) -> nth_error (s_ids s) j = Some id ->
       (forall q t, In q post -> read q = Some t -> ~ In (Z.of_nat i) (s_inds t)) ->
       row_is cat (map fst (s_cols s0)) i id (Z.of_nat i) p (s_wall s) (tail_of (s_n s0) (s_lnp s))
         (fun c => match column (s_cols s) c with Some ch => tail_of (s_n s0) (nth j ch []) | None => [] end)) /\
    (forall i, i < rows -> (forall p s, In p plog -> read p = Some s -> ~ In (Z.of_nat i) (s_inds s)) ->
       row_is cat (map fst (s_cols s0)) i (-1) 0 0 0 (repeat 0%Q (s_n s0)) (fun _ => repeat 0%Q (s_n s0))).
Proof.
  intros read plog rows p0 s0 rest Ep E0 Hn H. unfold postsample_catalog, postsample. rewrite Ep, E0. rewrite <- Ep. set (params := map fst (s_cols s0)) in *. destruct (empty_sized rows (s_n s0) params) as (S0 & M0 & R0).
  destruct (add_all rows (s_n s0) params read Hn plog _ S0 M0 H) as (cat & E & S & M & K). exists cat. split; auto. split; [apply S|]. split; [|intros i Hi Hno; apply K; auto].
  intros pre p post s i j id Epl Es Hj Hid Hpost. destruct (add_all rows (s_n s0) params read Hn pre _ S0 M0) as (c1 & E1 & S1 & M1 & _); [intros q Hq; apply H; rewrite Epl; apply in_or_app; auto|].
  assert (Hp : In p plog) by (rewrite Epl; apply in_or_app; simpl; auto). destruct (H p Hp) as (s' & Es' & G). assert (s' = s) by congruence. subst s'. destruct (add_patch_spec rows (s_n s0) c1 p s params Hn S1 M1 G) as (c2 & E2 & S2 & M2 & W2 & _).
  destruct (add_all rows (s_n s0) params read Hn post c2 S2 M2) as (c3 & E3 & _ & _ & K3); [intros q Hq; apply H; rewrite Epl; apply in_or_app; simpl; auto|].
  assert (Ec : c3 = cat). { rewrite Epl, fold_left_app, E1 in E. cbn [fold_left] in E. rewrite Es, E2, E3 in E. now injection E. }
  rewrite <- Ec. apply K3; auto.
Qed.
(** Given an explicit list of patches, the catalog has one row per patch, not per source: a
    source whose index is not below the number of patches makes the call fail. *)
Theorem C40_patches_argument_refuted : forall read plog n p s i, read p = Some s -> s_inds s = [Z.of_nat i] -> 0 < i ->
  postsample_catalog read plog n (Some [p]) = None.
Proof.
  intros read plog n p s i E Ei Hi. unfold postsample_catalog, postsample. cbn [List.length]. rewrite E. cbn [fold_left]. rewrite E. unfold add_patch. rewrite Ei. cbn [empty_catalog c_id]. unfold put_rows at 1. destruct (List.length [Z.of_nat i] =? List.length (s_ids s)); [|reflexivity].
  destruct (s_ids s) as [|a l]; cbn [combine fold_left fst snd]; unfold put_rows at 1; cbn [List.length repeat Nat.eqb combine fold_left fst snd c_patch empty_catalog]; (assert (X : np_index 1 (Z.of_nat i) = None); [unfold np_index; destruct (Z.ltb_spec (Z.of_nat i) (Z.of_nat 1)); [lia|]; rewrite andb_false_r; destruct (Z.ltb_spec (Z.of_nat i) 0); [lia|]; now rewrite andb_false_r|]); rewrite X; try reflexivity; destruct (combine [] l); reflexivity.
Qed.

(** ** find_multipatch *)
Lemma index_of_spec l x a : index_of l x = Some a -> nth_error l a = Some x.
Proof. revert a. induction l as [|y l IH]; intros a; simpl; [discriminate|]. destruct (Z.eqb_spec y x) as [->|N]; [intros E; injection E as <-; reflexivity|]. destruct (index_of l x); [|discriminate]. intros E. injection E as <-. now apply IH. Qed.
Lemma index_of_in l x : In x l -> index_of l x <> None.
Proof. induction l as [|y l IH]; simpl; [contradiction|]. intros H. destruct (Z.eqb_spec y x); [discriminate|]. destruct H as [H|H]; [contradiction|]. specialize (IH H). destruct (index_of l x); [discriminate|contradiction]. Qed.
(** When the log lists the patches 0, 1, 2, ... in order, the chains returned for a source
    are those of the patches it was in, its own row in each. *)
Theorem C40_multipatch_partial : forall read plog sid pids, (forall i p, nth_error plog i = Some p -> p = Z.of_nat i) ->
  (forall p, In p plog -> exists s, read p = Some s) -> (forall p, In p pids -> In p plog /\ forall s, read p = Some s -> In sid (s_inds s)) ->
  exists r, multipatch read plog sid pids = Some r /\ Forall2 (fun p pa => fst pa = p /\ exists s a, read p = Some s /\ snd pa = Z.of_nat a /\ nth_error (s_inds s) a = Some sid) pids r.
Proof.
  intros read plog sid pids Hlog Hread Hin. unfold multipatch. assert (Ess : exists ss, mapM read plog = Some ss). { clear - Hread. induction plog as [|p l IH]; [exists []; reflexivity|]. destruct (Hread p (or_introl eq_refl)) as (s & E). destruct IH as (ss & E'); [intros; apply Hread; simpl; auto|]. exists (s :: ss). simpl. now rewrite E, E'. }
  destruct Ess as (ss & Ess). rewrite Ess. pose proof (mapM_length _ _ _ Ess) as Lss. apply mapM_Some in Ess.
  assert (Nth : forall i p, nth_error plog i = Some p -> exists s, nth_error ss i = Some s /\ read p = Some s). { clear - Ess. induction Ess as [|p s l ss E _ IH]; intros [|i] q H; try discriminate; [injection H as <-; exists s; auto|apply IH; exact H]. }
  induction pids as [|p pids IH]; [exists []; split; [reflexivity|constructor]|]. destruct IH as (r & Er & Fr); [intros; apply Hin; simpl; auto|]. destruct (Hin p (or_introl eq_refl)) as [Hp Hs]. apply In_nth_error in Hp. destruct Hp as (i & Hi). pose proof (Hlog i p Hi) as ->. destruct (Nth i _ Hi) as (s & Hsi & Es). specialize (Hs s Es).
  assert (Hlt : i < List.length ss) by (apply nth_error_Some; congruence). destruct (index_of (s_inds s) sid) as [a|] eqn:Ea; [|exfalso; exact (index_of_in _ _ Hs Ea)].
  exists ((Z.of_nat i, Z.of_nat a) :: r). cbn [mapM]. rewrite np_index_nat, Hsi, Hi, Ea by auto. rewrite Er. split; auto. constructor; auto. cbn [fst snd]. split; auto. exists s, a. repeat split; auto. now apply index_of_spec.
Qed.
(** When the log is in another order, as it is whenever patches are checked in out of order, the chain of another patch is
    returned: here patch 1 was logged before patch 0, and both have the source. *)
Theorem C40_multipatch_refuted : forall read s0 s1 sid, read 0%Z = Some s0 -> read 1%Z = Some s1 -> s_inds s0 = [sid] -> s_inds s1 = [sid] ->
  multipatch read [1; 0]%Z sid [1; 0]%Z = Some [(0, 0); (1, 0)]%Z.
Proof.
  intros read s0 s1 sid E0 E1 H0 H1. unfold multipatch. cbn [mapM]. rewrite E0, E1. cbn [List.length]. change (np_index 2 1) with (Some 1). change (np_index 2 0) with (Some 0). cbn [nth_error]. rewrite H0, H1. cbn [index_of]. now rewrite Z.eqb_refl.
Qed.

(** ** Cases *)
Definition pixels_case : list (list (exposure Z)) :=
  [[mkExp "a"%string [0; 1]%Z [0; 1]%Z [10; 11]%Z; mkExp "b"%string [2]%Z [0]%Z [20]%Z]; [mkExp "a"%string [1; 2]%Z [1; 2]%Z [31; 32]%Z]].
Example C40_images_case : sizes (fun _ => None) (3, 3) (fun _ => (3, 3)) (map ename (concat pixels_case)) /\ (forall x, In x (concat pixels_case) -> good_exp (fun _ => (3, 3)) x) /\
  option_map (fun ims => option_map (fun im => (cell im 1 1, cell im 0 0, cell im 0 1)) (look ims "a"%string)) (fill_patches (fun _ => None) (3, 3) [] pixels_case) = Some (Some (Some (Some 31%Z), Some (Some 10%Z), Some None)).
Proof.
  split; [right; auto|]. split; [|reflexivity]. intros x Hx. cbn in Hx. destruct Hx as [<-|[<-|[<-|[]]]]; (split; [reflexivity|]; split; [reflexivity|]); cbn; intros px py v H; repeat (destruct H as [H|H]; [injection H as <- <- <-; unfold fits_in; cbn; lia|]); contradiction.
Qed.
Definition samples_a : samples := mkSamples 2 [0; 2]%Z [100; 102]%Z 5 [1; 2; 3]%Q [("F"%string, [[1; 2; 3]; [4; 5; 6]]%Q)].
Definition samples_b : samples := mkSamples 2 [2]%Z [102]%Z 7 [8; 9]%Q [("F"%string, [[7; 8]]%Q)].
Definition read_case (p : Z) : option samples := if (p =? 4)%Z then Some samples_a else if (p =? 1)%Z then Some samples_b else None.
Example C40_catalog_case : (forall p, In p [4; 1]%Z -> exists s, read_case p = Some s /\ good_samples 3 2 ["F"%string] s) /\
  option_map (fun c => (c_id c, c_patch c, c_cols c)) (postsample_catalog read_case [4; 1]%Z 3 None) = Some ([100; -1; 102]%Z, [4; 0; 1]%Z, [("F"%string, [[2; 3]; [0; 0]; [7; 8]]%Q)]).
Proof.
  split; [|reflexivity]. intros p [<-|[<-|[]]]; eexists; (split; [reflexivity|]); (split; [repeat constructor; simpl; intuition discriminate|]); (split; [cbn; intros i H; intuition; subst; lia|]); (split; [reflexivity|]); (split; [cbn; lia|]); intros c [<-|[]]; eexists; (split; [reflexivity|]); (split; [reflexivity|]); cbn; intros r H; intuition; subst; cbn; lia.
Qed.
Print Assumptions C40_images_partial.
Print Assumptions C40_padding_refuted.
Print Assumptions C40_leaked_shape_refuted.
Print Assumptions C40_shared_default_refuted.
Print Assumptions C40_populate.
Print Assumptions C40_catalog.
Print Assumptions C40_patches_argument_refuted.
Print Assumptions C40_multipatch_partial.
Print Assumptions C40_multipatch_refuted.
