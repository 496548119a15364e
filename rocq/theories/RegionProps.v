(** C31: the polygon tests. *)
From Verif Require Import Np NpFacts KernelSum StoreModel RegionModel RegionFacts RegionSat.
From Coq Require Import Reals Lra Psatz.
Open Scope R_scope.

(** The overlap test never denies an overlap: whatever the vertex lists, if it answers
    False no point is in both hulls. *)
Theorem C31_disjoint : forall a b, a <> [] -> b <> [] -> polygons_overlap a b = Some false -> forall q, ~ (hull a q /\ hull b q).
Proof.
  intros a b Ha Hb H q [Qa Qb]. apply (proj1 (overlap_spec a b Ha Hb)) in H. destruct H as (e & _ & Hs). set (n := normal e) in *.
  destruct a as [|a0 a]; [easy|]. destruct b as [|b0 b]; [easy|].
  destruct Hs as [Hs|Hs].
  - assert (B : project n q < project n q); [|lra]. apply (hull_project (a0 :: a) n (project n q)); auto. intros p Hp.
    assert (Hb' : list_min (project n b0) (map (project n) (b0 :: b)) <= project n q) by (apply (hull_between (b0 :: b)); auto; intros r Hr; apply list_min_le; now apply in_map).
    eapply Rlt_le_trans; [|exact Hb'].
    destruct (list_min_in (project n b0) (map (project n) (b0 :: b))) as [E|E]; [rewrite E; apply Hs; simpl; auto|]. apply in_map_iff in E. destruct E as (r & <- & Hr). now apply Hs.
  - assert (B : project n q < project n q); [|lra]. apply (hull_project (b0 :: b) n (project n q)); auto. intros p Hp.
    assert (Hb' : list_min (project n a0) (map (project n) (a0 :: a)) <= project n q) by (apply (hull_between (a0 :: a)); auto; intros r Hr; apply list_min_le; now apply in_map).
    eapply Rlt_le_trans; [|exact Hb'].
    destruct (list_min_in (project n a0) (map (project n) (a0 :: a))) as [E|E]; [rewrite E; apply Hs; simpl; auto|]. apply in_map_iff in E. destruct E as (r & <- & Hr). now apply Hs.
Qed.
Lemma overlap_total a b : a <> [] -> b <> [] -> polygons_overlap a b = Some true \/ polygons_overlap a b = Some false.
Proof. intros Ha Hb. destruct a; [easy|]. destruct b; [easy|]. unfold polygons_overlap. destruct (existsb _ _); auto. destruct (existsb _ _); auto. Qed.
(** For convex polygons, each in either order, it is exact. *)
Theorem C31_convex_exact : forall o1 o2 a b, strictly_convex o1 a -> strictly_convex o2 b ->
  (polygons_overlap a b = Some true <-> exists q, hull a q /\ hull b q) /\ (polygons_overlap a b = Some false <-> forall q, ~ (hull a q /\ hull b q)).
Proof.
  intros o1 o2 a b Ca Cb. assert (Ha : a <> []) by (destruct Ca as (_ & L & _); destruct a; [simpl in L; lia|discriminate]).
  assert (Hb : b <> []) by (destruct Cb as (_ & L & _); destruct b; [simpl in L; lia|discriminate]).
  assert (T : polygons_overlap a b = Some true -> exists q, hull a q /\ hull b q).
  { intros H. pose proof (proj1 (proj2 (overlap_spec a b Ha Hb)) H) as H'. destruct (separating_axis o1 o2 a b) as (q & Q1 & Q2); auto; try (apply Ca); try (apply Cb); try now apply strictly_is_convex.
    exists q. split; eapply region_hull; eauto. }
  pose proof (C31_disjoint a b Ha Hb) as F. split; (split; [auto|]).
  - intros (q & Hq). destruct (overlap_total a b Ha Hb) as [E|E]; auto. destruct (F E q Hq).
  - intros Hn. destruct (overlap_total a b Ha Hb) as [E|E]; auto. destruct (T E) as (q & Hq). destruct (Hn q Hq).
Qed.

(** Axis-aligned rectangles with non-empty interior *)
Definition in_rectangle (r : R * R * (R * R)) (q : point) : Prop :=
  fst (fst r) <= fst q <= snd (fst r) /\ fst (snd r) <= snd q <= snd (snd r).
Definition rectangle_box (x0 x1 y0 y1 : R) : list point := [(x0, y0); (x1, y0); (x1, y1); (x0, y1)].
Lemma rectangle_convex x0 x1 y0 y1 : x0 < x1 -> y0 < y1 -> strictly_convex 1 (rectangle_box x0 x1 y0 y1).
Proof.
  intros Hx Hy. split; [left; reflexivity|]. split; [simpl; lia|]. intros i j e p He Hp N1 N2. cbn [rectangle_box List.length] in N2.
  assert (Hi : (i < 4)%nat) by (change 4%nat with (List.length (edges (rectangle_box x0 x1 y0 y1))); apply nth_error_Some; congruence).
  assert (Hj : (j < 4)%nat) by (change 4%nat with (List.length (rectangle_box x0 x1 y0 y1)); apply nth_error_Some; congruence).
  destruct i as [|[|[|[|i]]]]; try lia; destruct j as [|[|[|[|j]]]]; try lia; cbn in N1, N2; try (exfalso; lia);
    cbn in He, Hp; injection He as <-; injection Hp as <-; unfold side; cbn [fst snd]; nra.
Qed.
Lemma rectangle_hull x0 x1 y0 y1 q : x0 < x1 -> y0 < y1 -> (hull (rectangle_box x0 x1 y0 y1) q <-> in_rectangle ((x0, x1), (y0, y1)) q).
Proof.
  intros Hx Hy. pose proof (rectangle_convex x0 x1 y0 y1 Hx Hy) as C. split.
  - intros H. pose proof (hull_region 1 _ q (strictly_is_convex _ _ C) H) as Hr. unfold in_region in Hr. cbn [rectangle_box edges combine app] in Hr.
    pose proof (Hr _ (or_introl eq_refl)) as R1. pose proof (Hr _ (or_intror (or_introl eq_refl))) as R2. pose proof (Hr _ (or_intror (or_intror (or_introl eq_refl)))) as R3. pose proof (Hr _ (or_intror (or_intror (or_intror (or_introl eq_refl))))) as R4.
    unfold side in *. cbn [fst snd] in *. unfold in_rectangle. cbn [fst snd]. nra.
  - intros [H1 H2]. cbn [fst snd] in H1, H2. apply (region_hull 1); auto. intros e He. cbn [rectangle_box edges combine app] in He. unfold side.
    destruct He as [<-|[<-|[<-|[<-|[]]]]]; cbn [fst snd]; nra.
Qed.
Theorem C31_rectangles : forall xa0 xa1 ya0 ya1 xb0 xb1 yb0 yb1 a b, xa0 < xa1 -> ya0 < ya1 -> xb0 < xb1 -> yb0 < yb1 ->
  bounding_box (Rectangular xa0 xa1 ya0 ya1) = Some a -> bounding_box (Rectangular xb0 xb1 yb0 yb1) = Some b ->
  (polygons_overlap a b = Some true <-> exists q, in_rectangle ((xa0, xa1), (ya0, ya1)) q /\ in_rectangle ((xb0, xb1), (yb0, yb1)) q) /\
  (polygons_overlap a b = Some false <-> (xa1 < xb0 \/ xb1 < xa0 \/ ya1 < yb0 \/ yb1 < ya0)).
Proof.
  intros xa0 xa1 ya0 ya1 xb0 xb1 yb0 yb1 a b H1 H2 H3 H4 Ea Eb. injection Ea as <-. injection Eb as <-.
  destruct (C31_convex_exact 1 1 _ _ (rectangle_convex _ _ _ _ H1 H2) (rectangle_convex _ _ _ _ H3 H4)) as [T F]. unfold rectangle_box in T, F. split.
  - rewrite T. split; intros (q & Qa & Qb); exists q; [split; apply rectangle_hull; auto|]. split; [apply (rectangle_hull xa0 xa1 ya0 ya1)|apply (rectangle_hull xb0 xb1 yb0 yb1)]; auto.
  - rewrite F. split.
    + intros Hn. destruct (Rlt_dec xa1 xb0); [auto|]. destruct (Rlt_dec xb1 xa0); [auto|]. destruct (Rlt_dec ya1 yb0); [auto|]. destruct (Rlt_dec yb1 ya0); [auto|]. exfalso.
      apply (Hn (Rmax xa0 xb0, Rmax ya0 yb0)). pose proof (Rmax_l xa0 xb0). pose proof (Rmax_r xa0 xb0). pose proof (Rmax_l ya0 yb0). pose proof (Rmax_r ya0 yb0).
      assert (Rmax xa0 xb0 <= xa1 /\ Rmax xa0 xb0 <= xb1 /\ Rmax ya0 yb0 <= ya1 /\ Rmax ya0 yb0 <= yb1) by (unfold Rmax; destruct (Rle_dec xa0 xb0), (Rle_dec ya0 yb0); lra).
      split; [apply (rectangle_hull xa0 xa1 ya0 ya1)|apply (rectangle_hull xb0 xb1 yb0 yb1)]; auto; unfold in_rectangle; cbn [fst snd]; lra.
    + intros H q [Qa Qb]. apply (rectangle_hull xa0 xa1 ya0 ya1) in Qa; auto. apply (rectangle_hull xb0 xb1 yb0 yb1) in Qb; auto. unfold in_rectangle in Qa, Qb. cbn [fst snd] in Qa, Qb. lra.
Qed.

(** The containment test: on a polygon of positive area it reports exactly the points
    strictly to the left of every edge; on one of negative area those strictly to the right. *)
Theorem C31_contains_ccw : forall poly q, 0 < area2 poly -> (polygon_contains poly q = Some true <-> forall e, In e (edges poly) -> 0 < side q e).
Proof.
  intros poly q HA. assert (Hp : poly <> []) by (intros ->; unfold area2, sumR in HA; simpl in HA; lra).
  destruct (contains_spec poly q Hp) as (v & Hv & Hiff). rewrite Hv. rewrite <- (sides_sum poly q) in HA. destruct (sum_pos_ex _ _ HA) as (e0 & He0 & Hs0). split.
  - intros E e He. assert (v = true) by congruence. subst v. destruct (proj1 Hiff eq_refl) as (s & Hs). apply sign_pos. rewrite (Hs e He), <- (Hs e0 He0). now apply sign_pos.
  - intros H. f_equal. apply Hiff. exists 1%Z. intros e He. apply sign_pos. auto.
Qed.
Theorem C31_contains_cw : forall poly q, area2 poly < 0 -> (polygon_contains poly q = Some true <-> forall e, In e (edges poly) -> side q e < 0).
Proof.
  intros poly q HA. assert (Hp : poly <> []) by (intros ->; unfold area2, sumR in HA; simpl in HA; lra).
  destruct (contains_spec poly q Hp) as (v & Hv & Hiff). rewrite Hv. rewrite <- (sides_sum poly q) in HA. destruct (sum_neg_ex _ _ HA) as (e0 & He0 & Hs0). split.
  - intros E e He. assert (v = true) by congruence. subst v. destruct (proj1 Hiff eq_refl) as (s & Hs). apply sign_neg. rewrite (Hs e He), <- (Hs e0 He0). now apply sign_neg.
  - intros H. f_equal. apply Hiff. exists (-1)%Z. intros e He. apply sign_neg. auto.
Qed.
Lemma strictly_area o poly : strictly_convex o poly -> 0 < o * area2 poly.
Proof.
  intros C. destruct poly as [|p0 [|p1 [|p2 l]]]; try (destruct C as (_ & L & _); simpl in L; lia). rewrite <- (sides_sum _ p2), <- sumR_scal.
  pose proof (strictly_is_convex _ _ C) as Cv. destruct C as (O & L & H).
  change (edges (p0 :: p1 :: p2 :: l)) with ((p0, p1) :: combine (p1 :: p2 :: l) ((p2 :: l) ++ [p0])). rewrite sumR_cons.
  assert (H0 : 0 < o * side p2 (p0, p1)) by (apply (H 0%nat 2%nat (p0, p1) p2); auto; rewrite Nat.mod_small; simpl; lia).
  assert (Hn : 0 <= sumR (fun e => o * side p2 e) (combine (p1 :: p2 :: l) ((p2 :: l) ++ [p0]))); [|lra].
  assert (G : forall es, (forall e, In e es -> 0 <= o * side p2 e) -> 0 <= sumR (fun e => o * side p2 e) es).
  { induction es as [|e es IH]; intros He; [unfold sumR; simpl; lra|]. rewrite sumR_cons. pose proof (He e (or_introl eq_refl)). pose proof (IH (fun e He' => He e (or_intror He'))). lra. }
  apply G. intros e He. apply Cv; [now right|simpl; auto].
Qed.
(** On a convex polygon in either order it reports only points of the hull, and exactly
    those that are not on the line of an edge. *)
Theorem C31_contains_hull : forall o poly q, strictly_convex o poly ->
  (polygon_contains poly q = Some true <-> hull poly q /\ forall e, In e (edges poly) -> side q e <> 0).
Proof.
  intros o poly q C. pose proof (strictly_area o poly C) as HA. pose proof (strictly_is_convex _ _ C) as Cv. assert (O := proj1 C). split.
  - intros H. destruct O as [-> | ->].
    + rewrite (C31_contains_ccw poly q) in H by lra. split; [apply (region_hull 1); auto; intros e He; specialize (H e He); lra|]. intros e He. specialize (H e He). lra.
    + rewrite (C31_contains_cw poly q) in H by lra. split; [apply (region_hull (-1)); auto; intros e He; specialize (H e He); lra|]. intros e He. specialize (H e He). lra.
  - intros [Hh Hn]. pose proof (hull_region o poly q Cv Hh) as Hr. destruct O as [-> | ->].
    + rewrite (C31_contains_ccw poly q) by lra. intros e He. specialize (Hn e He). specialize (Hr e He). lra.
    + rewrite (C31_contains_cw poly q) by lra. intros e He. specialize (Hn e He). specialize (Hr e He). lra.
Qed.
(** A polygon whose vertices coincide contains every point. *)
Theorem C31_degenerate_refuted : forall p n q, polygon_contains (repeat p (S n)) q = Some true.
Proof.
  intros p n q. destruct (contains_spec (repeat p (S n)) q) as (v & -> & Hiff); [discriminate|]. f_equal. apply Hiff. exists 0%Z. intros [u v'] He. apply sign_zero.
  assert (Hall : forall x, In x (repeat p (S n)) -> x = p) by (intros x Hx; eapply repeat_spec; eauto).
  apply In_nth_error in He. destruct He as (i & He). apply edge_nth in He. cbn [fst snd] in He. destruct He as [H1 H2].
  assert (u = p) by (apply Hall; eapply nth_error_In; eauto). assert (v' = p) by (apply Hall; eapply nth_error_In; eauto). subst. unfold side. simpl. ring.
Qed.
Print Assumptions C31_disjoint.
Print Assumptions C31_convex_exact.
Print Assumptions C31_rectangles.
Print Assumptions C31_contains_ccw.
Print Assumptions C31_contains_cw.
Print Assumptions C31_contains_hull.
Print Assumptions C31_degenerate_refuted.

(** ** Cases *)
Definition pentagon : list point := [(0, 0); (4, 0); (6, 3); (3, 6); (-1, 3)].
Example pentagon_convex : strictly_convex 1 pentagon.
Proof.
  split; [left; reflexivity|]. split; [simpl; lia|]. intros i j e p He Hp N1 N2. cbn [pentagon List.length] in N2.
  assert (Hi : (i < 5)%nat) by (change 5%nat with (List.length (edges pentagon)); apply nth_error_Some; congruence).
  assert (Hj : (j < 5)%nat) by (change 5%nat with (List.length pentagon); apply nth_error_Some; congruence).
  destruct i as [|[|[|[|[|i]]]]]; try lia; destruct j as [|[|[|[|[|j]]]]]; try lia; cbn in N1, N2; try (exfalso; lia);
    cbn in He, Hp; injection He as <-; injection Hp as <-; unfold side; cbn [fst snd]; lra.
Qed.
Example C31_inside_case : polygon_contains pentagon (2, 2) = Some true /\ polygon_contains pentagon (5, 0) = Some false.
Proof.
  assert (HA : 0 < area2 pentagon) by (unfold area2; cbn [pentagon edges combine app]; rewrite !sumR_cons; unfold sumR; cbn [fst snd fold_right]; lra). split.
  - apply C31_contains_ccw; auto. intros e He. cbn [pentagon edges combine app] in He. unfold side. destruct He as [<-|[<-|[<-|[<-|[<-|[]]]]]]; cbn [fst snd]; lra.
  - destruct (contains_spec pentagon (5, 0)) as (v & Hv & _); [discriminate|]. rewrite Hv. destruct v; auto. exfalso. rewrite (C31_contains_ccw _ _ HA) in Hv.
    specialize (Hv ((4, 0), (6, 3))). unfold side in Hv. cbn [fst snd] in Hv. assert (0 < (6 - 4) * (0 - 0) - (3 - 0) * (5 - 4)); [|lra]. apply Hv. simpl. auto.
Qed.
(** The pentagon against a rectangle that only touches its corner, and one that does not. *)
Example C31_overlap_case : polygons_overlap pentagon (rectangle_box 6 8 3 4) = Some true /\ polygons_overlap pentagon (rectangle_box 5 7 (-1) 0) = Some false.
Proof.
  split.
  - apply (C31_convex_exact 1 1); [exact pentagon_convex|apply rectangle_convex; lra|]. exists (6, 3). split; apply hull_vertex; simpl; auto.
  - apply (overlap_spec pentagon (rectangle_box 5 7 (-1) 0)); try discriminate. exists ((4, 0), (6, 3)). split; [left; simpl; auto|]. left. intros p q Hp Hq. unfold normal, project. cbn [fst snd].
    simpl in Hp, Hq. destruct Hp as [<-|[<-|[<-|[<-|[<-|[]]]]]], Hq as [<-|[<-|[<-|[<-|[]]]]]; cbn [fst snd]; lra.
Qed.
