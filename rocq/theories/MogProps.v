(** C60: the amplitudes of a galaxy are those of the mixture table. *)
From Coquelicot Require Import Coquelicot.
From Coq Require Import Reals Lra Lia List Sorting.Sorted.
From Verif Require Import Np NpFacts ChainFacts MogModel MogFacts.
Import ListNotations.
Open Scope R_scope.

(** What is asked of RectBivariateSpline with s=0: it passes through its data, and its value is a
    combination of the data with weights that do not depend on them and add up to one. *)
Definition shaped (ng rg : list R) (z : list (list R)) : Prop :=
  List.length z = List.length ng /\ forall row, In row z -> List.length row = List.length rg.
Definition at2 (z : list (list R)) (i j : nat) : R := nth j (nth i z []) 0.
Definition interpolates (rect : list R -> list R -> list (list R) -> option spline) : Prop :=
  forall ng rg z s, StronglySorted Rlt ng -> StronglySorted Rlt rg -> shaped ng rg z -> rect ng rg z = Some s ->
  forall i j n r, nth_error ng i = Some n -> nth_error rg j = Some r -> s_val s n r = at2 z i j.
Definition weights := list R -> list R -> R -> R -> nat -> nat -> R.
Definition sum2 (nn nr : nat) (f : nat -> nat -> R) : R := rsum (map (fun i => rsum (map (fun j => f i j) (seq 0 nr))) (seq 0 nn)).
Definition weighted (rect : list R -> list R -> list (list R) -> option spline) (B : weights) : Prop :=
  forall ng rg z s, StronglySorted Rlt ng -> StronglySorted Rlt rg -> shaped ng rg z -> rect ng rg z = Some s ->
  forall n r, s_val s n r = sum2 (List.length ng) (List.length rg) (fun i j => at2 z i j * B ng rg n r i j)
           /\ sum2 (List.length ng) (List.length rg) (B ng rg n r) = 1.

Definition amp_of (rnd : R -> R) (fit : R -> R -> list R) (k : nat) (n r : R) : R := nth k (map rnd (norm_amps (fit n r))) 0.

Lemma rows_n : forall rnd fit ng rg, map t_n (fit_profiles rnd fit ng rg) = map rnd (map fst (list_prod ng rg)).
Proof. intros; unfold fit_profiles; rewrite !map_map; reflexivity. Qed.
Lemma rows_r : forall rnd fit ng rg, map t_r (fit_profiles rnd fit ng rg) = map rnd (map snd (list_prod ng rg)).
Proof. intros; unfold fit_profiles; rewrite !map_map; reflexivity. Qed.
Lemma rows_amp : forall rnd fit ng rg k,
  map (fun t => nth k (t_amps t) 0) (fit_profiles rnd fit ng rg) = map (fun p => amp_of rnd fit k (fst p) (snd p)) (list_prod ng rg).
Proof. intros; unfold fit_profiles; rewrite map_map; reflexivity. Qed.
Lemma in_rows_n : forall rnd fit ng rg, rg <> [] -> forall x, In x (map t_n (fit_profiles rnd fit ng rg)) <-> In x (map rnd ng).
Proof.
  intros rnd fit ng rg Hr x. rewrite rows_n, !in_map_iff. split; intros [y [E H]]; exists y; (split; [assumption|]); now apply (list_prod_fst ng rg Hr).
Qed.
Lemma in_rows_r : forall rnd fit ng rg, ng <> [] -> forall x, In x (map t_r (fit_profiles rnd fit ng rg)) <-> In x (map rnd rg).
Proof.
  intros rnd fit ng rg Hr x. rewrite rows_r, !in_map_iff. split; intros [y [E H]]; exists y; (split; [assumption|]); now apply (list_prod_snd ng rg Hr).
Qed.
Lemma reshaped : forall rnd fit ng rg k,
  reshape (List.length ng) (List.length rg) (map (fun t => nth k (t_amps t) 0) (fit_profiles rnd fit ng rg))
  = Some (map (fun n => map (fun r => amp_of rnd fit k n r) rg) ng).
Proof.
  intros. rewrite rows_amp. unfold reshape. rewrite map_length, list_prod_length, Nat.eqb_refl.
  rewrite (rows_of_prod (fun p => amp_of rnd fit k (fst p) (snd p))). reflexivity.
Qed.
Lemma unique_rows_n : forall rnd fit ng rg m, rg <> [] -> StronglySorted Rlt m -> (forall x, In x (map rnd ng) <-> In x m) ->
  unique (map t_n (fit_profiles rnd fit ng rg)) = m.
Proof. intros. apply unique_of; [assumption|]. intros; rewrite in_rows_n by assumption; auto. Qed.
Lemma unique_rows_r : forall rnd fit ng rg m, ng <> [] -> StronglySorted Rlt m -> (forall x, In x (map rnd rg) <-> In x m) ->
  unique (map t_r (fit_profiles rnd fit ng rg)) = m.
Proof. intros. apply unique_of; [assumption|]. intros; rewrite in_rows_r by assumption; auto. Qed.

(** The splines of a galaxy: one per amplitude, made of the table in the order it was written, labelled
    by the sorted grids *)
Lemma galaxy_splines : forall rnd fit rect ng rg mn mr radii ngauss g,
  ng <> [] -> rg <> [] ->
  StronglySorted Rlt mn -> (forall x, In x (map rnd ng) <-> In x mn) -> List.length mn = List.length ng ->
  StronglySorted Rlt mr -> (forall x, In x (map rnd rg) <-> In x mr) -> List.length mr = List.length rg ->
  initialize_splines rect (fit_profiles rnd fit ng rg) radii ngauss = Some g ->
  List.length (g_splines g) = ngauss /\ g_radii g = radii /\
  forall k s, nth_error (g_splines g) k = Some s -> rect mn mr (map (fun n => map (fun r => amp_of rnd fit k n r) rg) ng) = Some s.
Proof.
  intros rnd fit rect ng rg mn mr radii ngauss g Hn Hr Sn In_n Ln Sr In_r Lr H. unfold initialize_splines in H.
  rewrite (unique_rows_n rnd fit ng rg mn), (unique_rows_r rnd fit ng rg mr), Ln, Lr in H by assumption.
  destruct (mapM _ (seq 0 ngauss)) as [ss|] eqn:E; [|discriminate].
  destruct (lmin (map t_n _)); [|discriminate]. destruct (lmax (map t_n _)); [|discriminate].
  destruct (lmin (map t_r _)); [|discriminate]. destruct (lmax (map t_r _)); [|discriminate].
  injection H as <-. cbn [g_splines g_radii].
  pose proof (mapM_nth _ _ _ E) as [L N]. rewrite seq_length in L. split; [congruence|]. split; [reflexivity|].
  intros k s Hk. assert (k < ngauss)%nat by (assert (Q : nth_error ss k <> None) by congruence; apply nth_error_Some in Q; lia).
  specialize (N k).
  assert (Q : nth_error (seq 0 ngauss) k = Some k).
  { rewrite (nth_error_nth' _ 0%nat) by (rewrite seq_length; assumption). rewrite seq_nth by assumption. reflexivity. }
  rewrite Q in N. destruct (N _ eq_refl) as [y [Hy2 Hy1]]. rewrite reshaped in Hy1. rewrite Hk in Hy2. congruence.
Qed.

Lemma shaped_map : forall (f : R -> R -> R) mn mr ng rg, List.length mn = List.length ng -> List.length mr = List.length rg ->
  shaped mn mr (map (fun n => map (f n) rg) ng).
Proof.
  intros f mn mr ng rg Ln Lr. split; [rewrite map_length; congruence|]. intros row H. apply in_map_iff in H; destruct H as [n [<- _]].
  rewrite map_length; congruence.
Qed.
Lemma at2_map : forall (f : R -> R -> R) ng rg i j n r, nth_error ng i = Some n -> nth_error rg j = Some r ->
  at2 (map (fun n => map (f n) rg) ng) i j = f n r.
Proof.
  intros. unfold at2. apply nth_error_nth. rewrite (nth_error_nth (map (fun n => map (f n) rg) ng) i [] (x := map (f n) rg)).
  - rewrite nth_error_map, H0. reflexivity.
  - rewrite nth_error_map, H. reflexivity.
Qed.
Lemma spline_values : forall g sersic rhalf, fst (g_nrange g) <= sersic -> 0 <= rhalf ->
  amplitudes g sersic rhalf = map (fun s => s_val s sersic rhalf) (g_splines g).
Proof. intros; unfold amplitudes. destruct (Rlt_dec sersic _); [lra|]. destruct (Rlt_dec rhalf 0); [lra|reflexivity]. Qed.

Lemma fold_min : forall l a, fold_left Rmin l a <= a /\ (forall x, In x l -> fold_left Rmin l a <= x) /\ (fold_left Rmin l a = a \/ In (fold_left Rmin l a) l).
Proof.
  induction l as [|b l IH]; intros a; cbn; [split; [lra|split; [tauto|now left]]|].
  destruct (IH (Rmin a b)) as [H1 [H2 H3]]. pose proof (Rmin_l a b). pose proof (Rmin_r a b). split; [lra|split].
  - intros x [<-|Hx]; [lra|auto].
  - destruct H3 as [H3|H3]; [|tauto]. rewrite H3. unfold Rmin; destruct (Rle_dec a b); auto.
Qed.
Lemma lmin_spec : forall l m, lmin l = Some m -> In m l /\ forall x, In x l -> m <= x.
Proof.
  intros [|a l] m H; [discriminate|]. injection H as <-. destruct (fold_min l a) as [H1 [H2 H3]]. split.
  - destruct H3 as [H3|H3]; [left; congruence|now right].
  - intros x [<-|Hx]; auto.
Qed.
Lemma nrange_min : forall rnd fit rect ng rg radii ngauss g, rg <> [] ->
  initialize_splines rect (fit_profiles rnd fit ng rg) radii ngauss = Some g ->
  In (fst (g_nrange g)) (map rnd ng) /\ forall n, In n ng -> fst (g_nrange g) <= rnd n.
Proof.
  intros rnd fit rect ng rg radii ngauss g Hr H. unfold initialize_splines in H.
  destruct (mapM _ (seq 0 ngauss)) as [ss|] eqn:E; [|discriminate].
  destruct (lmin (map t_n _)) as [m|] eqn:M; [|discriminate]. destruct (lmax (map t_n _)); [|discriminate].
  destruct (lmin (map t_r _)); [|discriminate]. destruct (lmax (map t_r _)); [|discriminate].
  injection H as <-. cbn [g_nrange fst]. apply lmin_spec in M. destruct M as [M1 M2]. split.
  - now apply (in_rows_n rnd fit ng rg Hr).
  - intros n Hn. apply M2. apply (in_rows_n rnd fit ng rg Hr). now apply in_map.
Qed.

(** C60_table: with grids strictly increasing as stored, a galaxy with the Sersic index and half-light
    radius of a row of the table has the amplitudes of the fit for that index and radius. *)
Theorem C60_table : forall rnd fit rect ng rg radii ngauss g i j n r,
  interpolates rect ->
  StronglySorted Rlt (map rnd ng) -> StronglySorted Rlt (map rnd rg) ->
  (forall n r, List.length (fit n r) = ngauss) ->
  initialize_splines rect (fit_profiles rnd fit ng rg) radii ngauss = Some g ->
  nth_error ng i = Some n -> nth_error rg j = Some r -> 0 <= rnd r ->
  amplitudes g (rnd n) (rnd r) = map (fun a => rnd (a / rsum (map exp (fit n r)))) (map exp (fit n r)).
Proof.
  intros rnd fit rect ng rg radii ngauss g i j n r I Sn Sr L H Hi Hj Hp.
  assert (In n ng) by (eapply nth_error_In; eassumption). assert (In r rg) by (eapply nth_error_In; eassumption).
  assert (Nn : ng <> []) by (intros ->; contradiction). assert (Nr : rg <> []) by (intros ->; contradiction).
  destruct (nrange_min _ _ _ _ _ _ _ _ Nr H) as [_ Hmin].
  rewrite spline_values by auto.
  destruct (galaxy_splines _ _ _ _ _ (map rnd ng) (map rnd rg) _ _ _ Nn Nr Sn (fun x => iff_refl _) (map_length _ _) Sr (fun x => iff_refl _) (map_length _ _) H) as [L1 [_ K]].
  rewrite <- (map_map (fun a => a / _) rnd). change (map (fun a => a / rsum (map exp (fit n r))) (map exp (fit n r))) with (norm_amps (fit n r)).
  apply (nth_ext _ _ 0 0).
  - rewrite !map_length, norm_amps_length, L1, L. reflexivity.
  - intros k Hk. rewrite map_length in Hk.
    destruct (nth_error (g_splines g) k) as [s|] eqn:Es; [|apply nth_error_None in Es; lia].
    rewrite (nth_error_nth (map _ (g_splines g)) k 0 (x := s_val s (rnd n) (rnd r))) by (rewrite nth_error_map, Es; reflexivity).
    rewrite (I _ _ _ _ Sn Sr (shaped_map (amp_of rnd fit k) _ _ ng rg (map_length _ _) (map_length _ _)) (K _ _ Es) i j); [|rewrite nth_error_map, Hi; reflexivity|rewrite nth_error_map, Hj; reflexivity].
    rewrite (at2_map _ _ _ _ _ n r Hi Hj). reflexivity.
Qed.

(** The amplitudes of a grid written downwards belong to other galaxies: with radii from large to small
    the amplitudes at the j-th smallest radius are those fitted for the j-th largest. *)
Theorem C60_descending_refuted : forall rnd fit rect ng rg radii ngauss g i j n r r',
  interpolates rect ->
  StronglySorted Rlt (map rnd ng) -> StronglySorted Rlt (map rnd rg) ->
  (forall n r, List.length (fit n r) = ngauss) ->
  initialize_splines rect (fit_profiles rnd fit ng (rev rg)) radii ngauss = Some g ->
  nth_error ng i = Some n -> nth_error rg j = Some r -> nth_error (rev rg) j = Some r' -> 0 <= rnd r ->
  amplitudes g (rnd n) (rnd r) = map rnd (norm_amps (fit n r')).
Proof.
  intros rnd fit rect ng rg radii ngauss g i j n r r' I Sn Sr L H Hi Hj Hj' Hp.
  assert (In n ng) by (eapply nth_error_In; eassumption). assert (In r' (rev rg)) by (eapply nth_error_In; eassumption).
  assert (Nn : ng <> []) by (intros ->; contradiction). assert (Nr : rev rg <> []) by (intros E; rewrite E in *; contradiction).
  destruct (nrange_min _ _ _ _ _ _ _ _ Nr H) as [_ Hmin].
  rewrite spline_values by auto.
  assert (Q : forall x, In x (map rnd (rev rg)) <-> In x (map rnd rg)) by (intros x; rewrite map_rev, <- in_rev; reflexivity).
  assert (Lr : List.length (map rnd rg) = List.length (rev rg)) by (rewrite map_length, rev_length; reflexivity).
  destruct (galaxy_splines _ _ _ _ _ (map rnd ng) (map rnd rg) _ _ _ Nn Nr Sn (fun x => iff_refl _) (map_length _ _) Sr Q Lr H) as [L1 [_ K]].
  apply (nth_ext _ _ 0 0).
  - rewrite !map_length, norm_amps_length, L1, L. reflexivity.
  - intros k Hk. rewrite map_length in Hk.
    destruct (nth_error (g_splines g) k) as [s|] eqn:Es; [|apply nth_error_None in Es; lia].
    rewrite (nth_error_nth (map _ (g_splines g)) k 0 (x := s_val s (rnd n) (rnd r))) by (rewrite nth_error_map, Es; reflexivity).
    rewrite (I _ _ _ _ Sn Sr (shaped_map (amp_of rnd fit k) _ _ ng (rev rg) (map_length _ _) Lr) (K _ _ Es) i j); [|rewrite nth_error_map, Hi; reflexivity|rewrite nth_error_map, Hj; reflexivity].
    rewrite (at2_map _ _ _ _ _ n r' Hi Hj'). reflexivity.
Qed.

(** A table with a repeated index or radius (possibly only after rounding) gives no galaxy at all. *)
Theorem C60_repeated : forall rnd fit rect ng rg radii ngauss,
  ng <> [] -> rg <> [] -> (0 < ngauss)%nat ->
  ~ NoDup (map rnd ng) \/ ~ NoDup (map rnd rg) ->
  initialize_splines rect (fit_profiles rnd fit ng rg) radii ngauss = None.
Proof.
  intros rnd fit rect ng rg radii ngauss Hn Hr Hg D.
  assert (In1 : incl (map t_n (fit_profiles rnd fit ng rg)) (map rnd ng)) by (intros x; now apply in_rows_n).
  assert (In2 : incl (map t_r (fit_profiles rnd fit ng rg)) (map rnd rg)) by (intros x; now apply in_rows_r).
  pose proof (unique_length_le _ _ In1) as L1. pose proof (unique_length_le _ _ In2) as L2.
  assert (N : (List.length (unique (map t_n (fit_profiles rnd fit ng rg))) * List.length (unique (map t_r (fit_profiles rnd fit ng rg))) < List.length ng * List.length rg)%nat).
  { assert (0 < List.length ng)%nat by (destruct ng; [congruence|cbn; lia]). assert (0 < List.length rg)%nat by (destruct rg; [congruence|cbn; lia]).
    rewrite map_length in L1, L2. destruct D as [D|D].
    - pose proof (unique_length_lt _ _ In1 D) as L; rewrite map_length in L. nia.
    - pose proof (unique_length_lt _ _ In2 D) as L; rewrite map_length in L. nia. }
  unfold initialize_splines. destruct ngauss as [|m]; [lia|]. cbn [seq mapM].
  unfold reshape at 1. rewrite map_length. unfold fit_profiles at 1. rewrite map_length, list_prod_length.
  destruct (Nat.eqb_spec (List.length ng * List.length rg) (List.length (unique (map t_n (fit_profiles rnd fit ng rg))) * List.length (unique (map t_r (fit_profiles rnd fit ng rg))))); [lia|reflexivity].
Qed.

(** ** Total flux *)
Lemma sum2_le : forall nn nr f g, (forall i j, (i < nn)%nat -> (j < nr)%nat -> f i j <= g i j) -> sum2 nn nr f <= sum2 nn nr g.
Proof.
  intros; unfold sum2. apply rsum_le; intros i Hi. apply rsum_le; intros j Hj. rewrite in_seq in *. apply H; lia.
Qed.
Lemma sum2_ext : forall nn nr f g, (forall i j, (i < nn)%nat -> (j < nr)%nat -> f i j = g i j) -> sum2 nn nr f = sum2 nn nr g.
Proof.
  intros; unfold sum2. apply rsum_ext_in; intros i Hi. apply rsum_ext_in; intros j Hj. rewrite in_seq in *. apply H; lia.
Qed.
Lemma sum2_plus : forall nn nr f g, sum2 nn nr (fun i j => f i j + g i j) = sum2 nn nr f + sum2 nn nr g.
Proof.
  intros; unfold sum2. rewrite <- rsum_map_plus. apply rsum_ext_in; intros. apply rsum_map_plus.
Qed.
Lemma sum2_mult : forall nn nr c f, sum2 nn nr (fun i j => c * f i j) = c * sum2 nn nr f.
Proof.
  intros; unfold sum2. rewrite <- rsum_map_mult. apply rsum_ext_in; intros. apply rsum_map_mult.
Qed.
Lemma sum2_abs : forall nn nr f, Rabs (sum2 nn nr f) <= sum2 nn nr (fun i j => Rabs (f i j)).
Proof.
  intros; unfold sum2. eapply Rle_trans; [apply rsum_abs|]. apply rsum_le; intros. apply rsum_abs.
Qed.
Lemma sum2_swap : forall nn nr (f : nat -> nat -> nat -> R) l,
  rsum (map (fun k => sum2 nn nr (f k)) l) = sum2 nn nr (fun i j => rsum (map (fun k => f k i j) l)).
Proof.
  intros; unfold sum2. rewrite rsum_swap. apply rsum_ext_in; intros. rewrite rsum_swap. reflexivity.
Qed.
Lemma rsum_unit : forall k n, (k < n)%nat -> rsum (unit_at k n) = 1.
Proof.
  intros k n H. unfold unit_at. replace n with (k + S (n - k - 1))%nat by lia. rewrite seq_app, map_app, rsum_app. cbn [seq map].
  rewrite (rsum_all_zero (map _ (seq 0 k))).
  - cbn [rsum fold_right]. replace (Nat.eqb (0 + k) k) with true by (symmetry; apply Nat.eqb_eq; lia).
    fold (rsum (map (fun i => if Nat.eqb i k then 1 else 0) (seq (S (0 + k)) (n - k - 1)))).
    rewrite (rsum_all_zero (map _ (seq (S _) _))); [lra|].
    intros x Hx. apply in_map_iff in Hx; destruct Hx as [i [<- Hi]]. apply in_seq in Hi. destruct (Nat.eqb_spec i k); [lia|reflexivity].
  - intros x Hx. apply in_map_iff in Hx; destruct Hx as [i [<- Hi]]. apply in_seq in Hi. destruct (Nat.eqb_spec i k); [lia|reflexivity].
Qed.
Lemma argmin_from_spec : forall l best v i all,
  (best < i)%nat -> nth_error all best = Some v -> (forall j x, (j < i)%nat -> nth_error all j = Some x -> v <= x) ->
  (forall j x, (j < best)%nat -> nth_error all j = Some x -> v < x) ->
  (forall j, nth_error all (i + j) = nth_error l j) ->
  let k := argmin_from best v i l in
  exists w, nth_error all k = Some w /\ (forall j x, nth_error all j = Some x -> w <= x) /\ (forall j x, (j < k)%nat -> nth_error all j = Some x -> w < x).
Proof.
  induction l as [|a l IH]; intros best v i all Hb Hv Hmin Hfirst Hrest; cbn [argmin_from]; cbv zeta.
  - exists v. split; [assumption|]. split; [|assumption]. intros j x Hx. destruct (Nat.lt_ge_cases j i); [eauto|].
    replace j with (i + (j - i))%nat in Hx by lia. rewrite Hrest in Hx. destruct (j - i)%nat; discriminate.
  - assert (Ha : nth_error all i = Some a) by (rewrite <- (Nat.add_0_r i), Hrest; reflexivity).
    assert (Hr : forall j, nth_error all (S i + j) = nth_error l j) by (intros j; replace (S i + j)%nat with (i + S j)%nat by lia; rewrite Hrest; reflexivity).
    destruct (Rlt_dec a v).
    + apply (IH i a (S i) all); [lia|assumption| | |assumption].
      * intros j x Hj Hx. destruct (Nat.eq_dec j i); [subst; rewrite Ha in Hx; injection Hx as <-; lra|].
        assert (v <= x) by (apply (Hmin j); [lia|assumption]). lra.
      * intros j x Hj Hx. assert (v <= x) by (apply (Hmin j); [lia|assumption]). lra.
    + apply (IH best v (S i) all); [lia|assumption| |assumption|assumption].
      intros j x Hj Hx. destruct (Nat.eq_dec j i); [subst; rewrite Ha in Hx; injection Hx as <-; lra|]. apply (Hmin j); [lia|assumption].
Qed.
Lemma argmin_spec : forall l, l <> [] ->
  exists w, nth_error l (argmin l) = Some w /\ (forall j x, nth_error l j = Some x -> w <= x) /\ (forall j x, (j < argmin l)%nat -> nth_error l j = Some x -> w < x).
Proof.
  intros [|a l] H; [congruence|]. cbn [argmin]. apply (argmin_from_spec l 0 a 1 (a :: l)); [lia|reflexivity| | |reflexivity].
  - intros j x Hj Hx. replace j with 0%nat in Hx by lia. injection Hx as <-. lra.
  - intros j x Hj; lia.
Qed.
Lemma argmin_lt : forall l, l <> [] -> (argmin l < List.length l)%nat.
Proof. intros l H. destruct (argmin_spec l H) as [w [E _]]. apply nth_error_Some; congruence. Qed.

(** C60_total: whatever the Sersic index and radius, the amplitudes of a galaxy add up to one, to the
    precision with which the rows of the table do, times the sum of the weights of the interpolation. *)
Theorem C60_total : forall rnd fit rect B ng rg radii ngauss g e sersic rhalf,
  weighted rect B -> 0 <= e -> (0 < ngauss)%nat ->
  StronglySorted Rlt (map rnd ng) -> StronglySorted Rlt (map rnd rg) -> ng <> [] -> rg <> [] -> radii <> [] ->
  (forall n r, List.length (fit n r) = ngauss) ->
  (forall n r, In n ng -> In r rg -> Rabs (rsum (map rnd (norm_amps (fit n r))) - 1) <= e) ->
  initialize_splines rect (fit_profiles rnd fit ng rg) radii ngauss = Some g ->
  Rabs (rsum (amplitudes g sersic rhalf) - 1)
  <= e * sum2 (List.length ng) (List.length rg) (fun i j => Rabs (B (map rnd ng) (map rnd rg) sersic rhalf i j)).
Proof.
  intros rnd fit rect B ng rg radii ngauss g e sersic rhalf W He Hg Sn Sr Nn Nr Nd L T H.
  destruct (galaxy_splines _ _ _ _ _ (map rnd ng) (map rnd rg) _ _ _ Nn Nr Sn (fun x => iff_refl _) (map_length _ _) Sr (fun x => iff_refl _) (map_length _ _) H) as [L1 [G K]].
  assert (P : 0 <= e * sum2 (List.length ng) (List.length rg) (fun i j => Rabs (B (map rnd ng) (map rnd rg) sersic rhalf i j))).
  { apply Rmult_le_pos; [assumption|]. unfold sum2. apply rsum_nonneg; intros x Hx. apply in_map_iff in Hx; destruct Hx as [i [<- _]].
    apply rsum_nonneg; intros x Hx. apply in_map_iff in Hx; destruct Hx as [j [<- _]]. apply Rabs_pos. }
  unfold amplitudes. rewrite G.
  assert (Hd : (0 < List.length radii)%nat) by (destruct radii; [congruence|cbn; lia]).
  destruct (Rlt_dec sersic (fst (g_nrange g))).
  - rewrite rsum_unit; [rewrite Rminus_diag_eq, Rabs_R0 by reflexivity; assumption|].
    rewrite <- (map_length (fun r => Rabs (rhalf - r)) radii). apply argmin_lt. destruct radii; [congruence|discriminate].
  - destruct (Rlt_dec rhalf 0).
    + rewrite rsum_unit by assumption. rewrite Rminus_diag_eq, Rabs_R0 by reflexivity; assumption.
    + clear n n0.
      set (z := fun k => map (fun n => map (fun r => amp_of rnd fit k n r) rg) ng).
      set (b := B (map rnd ng) (map rnd rg) sersic rhalf).
      assert (V : map (fun s => s_val s sersic rhalf) (g_splines g) = map (fun k => sum2 (List.length ng) (List.length rg) (fun i j => at2 (z k) i j * b i j)) (seq 0 ngauss)).
      { apply (nth_ext _ _ 0 0); [rewrite !map_length, seq_length; assumption|]. intros k Hk. rewrite map_length in Hk.
        destruct (nth_error (g_splines g) k) as [s|] eqn:Es; [|apply nth_error_None in Es; lia].
        rewrite (nth_error_nth (map _ (g_splines g)) k 0 (x := s_val s sersic rhalf)) by (rewrite nth_error_map, Es; reflexivity).
        destruct (W _ _ _ _ Sn Sr (shaped_map (amp_of rnd fit k) _ _ ng rg (map_length _ _) (map_length _ _)) (K _ _ Es) sersic rhalf) as [V _].
        rewrite V, !map_length. symmetry. apply nth_error_nth. rewrite nth_error_map.
        rewrite (nth_error_nth' _ 0%nat) by (rewrite seq_length; lia). rewrite seq_nth by lia. reflexivity. }
      assert (One : sum2 (List.length ng) (List.length rg) b = 1).
      { destruct (g_splines g) as [|s t] eqn:Eg.
        - cbn in L1; lia.
        - destruct (W _ _ _ _ Sn Sr (shaped_map (amp_of rnd fit 0%nat) _ _ ng rg (map_length _ _) (map_length _ _)) (K 0%nat s eq_refl) sersic rhalf) as [_ V1].
          rewrite !map_length in V1. exact V1. }
      rewrite V, sum2_swap.
      rewrite <- One at 1.
      replace (sum2 (List.length ng) (List.length rg) (fun i j => rsum (map (fun k => at2 (z k) i j * b i j) (seq 0 ngauss))) - sum2 (List.length ng) (List.length rg) b)
        with (sum2 (List.length ng) (List.length rg) (fun i j => (rsum (map (fun k => at2 (z k) i j) (seq 0 ngauss)) - 1) * b i j)).
      * eapply Rle_trans; [apply sum2_abs|]. rewrite <- sum2_mult. apply sum2_le; intros i j Hi Hj. rewrite Rabs_mult.
        apply Rmult_le_compat_r; [apply Rabs_pos|].
        destruct (nth_error ng i) as [n|] eqn:En; [|apply nth_error_None in En; lia].
        destruct (nth_error rg j) as [r|] eqn:Er; [|apply nth_error_None in Er; lia].
        rewrite (rsum_ext_in _ (fun k => nth k (map rnd (norm_amps (fit n r))) 0)) by (intros k _; exact (at2_map (amp_of rnd fit k) _ _ _ _ n r En Er)).
        replace ngauss with (List.length (map rnd (norm_amps (fit n r)))) by (rewrite map_length, norm_amps_length; apply L).
        rewrite map_nth_all. apply T; eapply nth_error_In; eassumption.
      * unfold Rminus. rewrite (sum2_ext _ _ (fun i j => (_ + _) * _) (fun i j => rsum (map (fun k => at2 (z k) i j * b i j) (seq 0 ngauss)) + -1 * b i j)).
        -- rewrite sum2_plus, sum2_mult. lra.
        -- intros i j _ _. rewrite (rsum_ext_in (fun k => at2 (z k) i j * b i j) (fun k => b i j * at2 (z k) i j)) by (intros; lra). rewrite rsum_map_mult. lra.
Qed.

(** ** Outside the table *)
(** Below the smallest index all the flux is in the gaussian whose radius is nearest to the half-light
    radius, the first of several equally near. *)
Theorem C60_below : forall g sersic rhalf, g_radii g <> [] -> sersic < fst (g_nrange g) ->
  exists k rad, nth_error (g_radii g) k = Some rad
  /\ (forall j r, nth_error (g_radii g) j = Some r -> Rabs (rhalf - rad) <= Rabs (rhalf - r))
  /\ (forall j r, (j < k)%nat -> nth_error (g_radii g) j = Some r -> Rabs (rhalf - rad) < Rabs (rhalf - r))
  /\ List.length (amplitudes g sersic rhalf) = List.length (g_radii g)
  /\ forall j, (j < List.length (g_radii g))%nat -> nth_error (amplitudes g sersic rhalf) j = Some (if Nat.eq_dec j k then 1 else 0).
Proof.
  intros g sersic rhalf N H. unfold amplitudes. destruct (Rlt_dec sersic _) as [_|]; [|lra].
  set (f := fun r => Rabs (rhalf - r)).
  assert (N' : map f (g_radii g) <> []) by (destruct (g_radii g); [congruence|discriminate]).
  destruct (argmin_spec _ N') as [w [E1 [E2 E3]]]. set (k := argmin (map f (g_radii g))) in *. clearbody k.
  rewrite nth_error_map in E1. destruct (nth_error (g_radii g) k) as [rad|] eqn:Ek; [|discriminate]. injection E1 as <-.
  exists k, rad. split; [assumption|]. split; [|split; [|split]].
  - intros j r Hj. apply (E2 j). rewrite nth_error_map, Hj. reflexivity.
  - intros j r Hk Hj. apply (E3 j _ Hk). rewrite nth_error_map, Hj. reflexivity.
  - unfold unit_at; rewrite map_length, seq_length; reflexivity.
  - intros j Hj. unfold unit_at. rewrite nth_error_map, (nth_error_nth' _ 0%nat) by (rewrite seq_length; assumption).
    rewrite seq_nth by assumption. cbn. destruct (Nat.eqb_spec j k), (Nat.eq_dec j k); congruence.
Qed.

(** Crossing the smallest index of the table the amplitudes jump: just below, one amplitude is exactly
    one; on the first row each is strictly between zero and one, provided rounding keeps them so. *)
Theorem C60_jump_refuted : forall rnd fit rect ng rg radii ngauss g n j r,
  interpolates rect ->
  StronglySorted Rlt (map rnd (n :: ng)) -> StronglySorted Rlt (map rnd rg) ->
  (forall n r, List.length (fit n r) = ngauss) -> (2 <= ngauss)%nat -> List.length radii = ngauss ->
  (forall a, 0 < a < 1 -> rnd a < 1) ->
  initialize_splines rect (fit_profiles rnd fit (n :: ng) rg) radii ngauss = Some g ->
  nth_error rg j = Some r -> 0 <= rnd r ->
  (forall a, In a (amplitudes g (rnd n) (rnd r)) -> a < 1)
  /\ forall sersic, sersic < rnd n -> In 1 (amplitudes g sersic (rnd r)).
Proof.
  intros rnd fit rect ng rg radii ngauss g n j r I Sn Sr L Hg Lr Hrnd H Hj Hp. split.
  - rewrite (C60_table rnd fit rect (n :: ng) rg radii ngauss g 0 j n r I Sn Sr L H eq_refl Hj Hp).
    rewrite <- (map_map (fun a => a / _) rnd). change (map (fun a => a / rsum (map exp (fit n r))) (map exp (fit n r))) with (norm_amps (fit n r)).
    intros a Ha. apply in_map_iff in Ha; destruct Ha as [b [<- Hb]]. apply Hrnd. apply (norm_amps_range (fit n r)); [rewrite L; assumption|assumption].
  - intros sersic Hs.
    assert (Nr : rg <> []) by (intros ->; destruct j; discriminate).
    destruct (nrange_min _ _ _ _ _ _ _ _ Nr H) as [Hin Hmin].
    assert (M : fst (g_nrange g) = rnd n).
    { apply Rle_antisym; [apply Hmin; now left|]. cbn [map] in Sn, Hin. inversion Sn as [|? ? _ F]; subst. rewrite Forall_forall in F.
      destruct Hin as [->|Hin]; [lra|]. specialize (F _ Hin); lra. }
    destruct (galaxy_splines _ _ _ _ _ (map rnd (n :: ng)) (map rnd rg) _ _ _ (fun E => nil_cons (eq_sym E)) Nr Sn (fun x => iff_refl _) (map_length _ _) Sr (fun x => iff_refl _) (map_length _ _) H) as [_ [G _]].
    destruct (C60_below g sersic (rnd r)) as [k [rad [K1 [_ [_ [_ K2]]]]]]; [rewrite G; destruct radii; [cbn in Lr; lia|discriminate]|rewrite M; assumption|].
    assert (Kl : (k < List.length (g_radii g))%nat) by (apply nth_error_Some; congruence).
    apply (nth_error_In _ k). rewrite (K2 k Kl). destruct (Nat.eq_dec k k); congruence.
Qed.

(** ** Derivatives *)
(** A spline evaluated as fitpack does: outside its range at the nearest point inside, value and
    derivatives alike; inside the derivatives are those of the value *)
Definition clamp (lo hi x : R) : R := Rmax lo (Rmin hi x).
Definition fitpack (s : spline) (nr rr : R * R) : Prop :=
  (forall n r, s_val s n r = s_val s (clamp (fst nr) (snd nr) n) (clamp (fst rr) (snd rr) r)
            /\ s_dn s n r = s_dn s (clamp (fst nr) (snd nr) n) (clamp (fst rr) (snd rr) r)
            /\ s_dr s n r = s_dr s (clamp (fst nr) (snd nr) n) (clamp (fst rr) (snd rr) r))
  /\ (forall n r, fst nr < n < snd nr -> fst rr <= r <= snd rr -> is_derive (fun n => s_val s n r) n (s_dn s n r))
  /\ (forall n r, fst nr <= n <= snd nr -> fst rr < r < snd rr -> is_derive (fun r => s_val s n r) r (s_dr s n r)).

(** Within the table the derivatives handed to the sampler are those of the amplitudes. *)
Theorem C60_gradient : forall g sersic rhalf k s,
  (forall s, In s (g_splines g) -> fitpack s (g_nrange g) (g_rrange g)) ->
  fst (g_nrange g) < sersic < snd (g_nrange g) -> fst (g_rrange g) < rhalf < snd (g_rrange g) -> 0 < rhalf ->
  nth_error (g_splines g) k = Some s ->
  is_derive (fun n => nth k (amplitudes g n rhalf) 0) sersic (nth k (damplitude s_dn g sersic rhalf) 0)
  /\ is_derive (fun r => nth k (amplitudes g sersic r) 0) rhalf (nth k (damplitude s_dr g sersic rhalf) 0).
Proof.
  intros g sersic rhalf k s F Hn Hr Hp Hk. destruct (F s) as [_ [Dn Dr]]; [eapply nth_error_In; eassumption|].
  assert (V : forall n r, fst (g_nrange g) <= n -> 0 <= r -> nth k (amplitudes g n r) 0 = s_val s n r).
  { intros n r H1 H2. rewrite spline_values by assumption. apply nth_error_nth. rewrite nth_error_map, Hk. reflexivity. }
  assert (D : forall part, nth k (damplitude part g sersic rhalf) 0 = part s sersic rhalf).
  { intros part. unfold damplitude. destruct (Rlt_dec sersic _); [lra|]. destruct (Rlt_dec rhalf 0); [lra|].
    apply nth_error_nth. rewrite nth_error_map, Hk. reflexivity. }
  rewrite !D. split.
  - apply (is_derive_ext_loc (fun n => s_val s n rhalf)); [|apply Dn; lra].
    assert (P : 0 < sersic - fst (g_nrange g)) by lra. exists (mkposreal _ P). intros n Hb. symmetry. apply V; [|lra].
    change (Rabs (n - sersic) < sersic - fst (g_nrange g)) in Hb. apply Rabs_def2 in Hb; lra.
  - apply (is_derive_ext_loc (fun r => s_val s sersic r)); [|apply Dr; lra].
    exists (mkposreal _ Hp). intros r Hb. symmetry. apply V; [lra|].
    change (Rabs (r - rhalf) < rhalf) in Hb. apply Rabs_def2 in Hb; lra.
Qed.

(** Beyond the largest radius the amplitudes no longer change with the radius, but the derivative handed
    out is still the slope at the edge of the table: wrong wherever that slope is not zero. *)
Theorem C60_edge_refuted : forall g sersic rhalf k s,
  (forall s, In s (g_splines g) -> fitpack s (g_nrange g) (g_rrange g)) ->
  fst (g_nrange g) <= sersic <= snd (g_nrange g) -> fst (g_rrange g) <= snd (g_rrange g) -> 0 <= snd (g_rrange g) < rhalf ->
  nth_error (g_splines g) k = Some s ->
  is_derive (fun r => nth k (amplitudes g sersic r) 0) rhalf 0
  /\ nth k (damplitude s_dr g sersic rhalf) 0 = s_dr s sersic (snd (g_rrange g)).
Proof.
  intros g sersic rhalf k s F Hn H0 Hr Hk. destruct (F s) as [C _]; [eapply nth_error_In; eassumption|].
  assert (Cn : clamp (fst (g_nrange g)) (snd (g_nrange g)) sersic = sersic).
  { unfold clamp. rewrite Rmin_right by lra. apply Rmax_right; lra. }
  assert (Cr : forall r, snd (g_rrange g) <= r -> clamp (fst (g_rrange g)) (snd (g_rrange g)) r = snd (g_rrange g)).
  { intros r H. unfold clamp. rewrite Rmin_left by lra. apply Rmax_right; lra. }
  split.
  - apply (is_derive_ext_loc (fun _ => s_val s sersic (snd (g_rrange g)))); [|apply @is_derive_const].
    assert (P : 0 < rhalf - snd (g_rrange g)) by lra. exists (mkposreal _ P). intros r Hb.
    change (Rabs (r - rhalf) < rhalf - snd (g_rrange g)) in Hb. apply Rabs_def2 in Hb.
    rewrite spline_values by lra. symmetry. apply nth_error_nth. rewrite nth_error_map, Hk. cbn [option_map]. f_equal.
    rewrite (proj1 (C sersic r)), Cn, Cr by lra. reflexivity.
  - unfold damplitude. destruct (Rlt_dec sersic _); [lra|]. destruct (Rlt_dec rhalf 0); [lra|].
    apply nth_error_nth. rewrite nth_error_map, Hk. cbn [option_map]. f_equal.
    rewrite (proj2 (proj2 (C sersic rhalf))), Cn, Cr by lra. reflexivity.
Qed.

Print Assumptions C60_table.
Print Assumptions C60_descending_refuted.
Print Assumptions C60_repeated.
Print Assumptions C60_total.
Print Assumptions C60_below.
Print Assumptions C60_jump_refuted.
Print Assumptions C60_gradient.
Print Assumptions C60_edge_refuted.
