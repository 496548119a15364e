(** C42: the exposure searches. *)
From Verif Require Import Np NpFacts KernelSum StoreModel StoreFacts StoreProps RegionModel RegionFacts RegionSat RegionProps.
From Coq Require Import Reals Lra Psatz Rgeom ZArith.
Open Scope R_scope.

(** ** Circles and super-pixels *)
(** Some corner of a square is within half a diagonal of each of its points. *)
Lemma nearest_corner x0 y0 d x y : x0 <= x <= x0 + d -> y0 <= y <= y0 + d ->
  exists c, In c [(x0, y0); (x0 + d, y0); (x0 + d, y0 + d); (x0, y0 + d)] /\ dist_euc x y (fst c) (snd c) <= dist_euc 0 0 (d / 2) (d / 2).
Proof.
  intros Hx Hy. assert (Hd : forall cx cy, Rabs (x - cx) <= d / 2 -> Rabs (y - cy) <= d / 2 -> dist_euc x y cx cy <= dist_euc 0 0 (d / 2) (d / 2)).
  { intros cx cy H1 H2. unfold dist_euc. apply sqrt_le_1_alt. unfold Rsqr.
    assert (E : forall u, Rabs u <= d / 2 -> u * u <= d / 2 * (d / 2)). { intros u Hu. rewrite <- (Rabs_pos_eq (u * u)) by nra. rewrite Rabs_mult. pose proof (Rabs_pos u). nra. }
    pose proof (E _ H1). pose proof (E _ H2). lra. }
  destruct (Rle_dec x (x0 + d / 2)), (Rle_dec y (y0 + d / 2)).
  - exists (x0, y0). split; [simpl; auto|]. apply Hd; simpl; apply Rabs_le; lra.
  - exists (x0, y0 + d). split; [simpl; auto|]. apply Hd; simpl; apply Rabs_le; lra.
  - exists (x0 + d, y0). split; [simpl; auto|]. apply Hd; simpl; apply Rabs_le; lra.
  - exists (x0 + d, y0 + d). split; [simpl; auto|]. apply Hd; simpl; apply Rabs_le; lra.
Qed.
Lemma dist_sq x0 y0 x1 y1 x2 y2 x3 y3 : dist_euc x0 y0 x1 y1 < dist_euc x2 y2 x3 y3 -> (x0 - x1) ^ 2 + (y0 - y1) ^ 2 < (x2 - x3) ^ 2 + (y2 - y3) ^ 2.
Proof.
  unfold dist_euc. intros H. apply sqrt_lt_0_alt in H. unfold Rsqr in H. lra.
Qed.
(** Distance in pixels from the centre of the circle, and its radius in pixels *)
Definition pixel_radius (w : WCS) (ra dec radius : R) : R :=
  dist_euc (fst (world_to_pixel w ra dec)) (snd (world_to_pixel w ra dec)) (fst (world_to_pixel w ra (dec + radius))) (snd (world_to_pixel w ra (dec + radius))).
Definition pixel_distance (w : WCS) (ra dec x y : R) : R := dist_euc x y (fst (world_to_pixel w ra dec)) (snd (world_to_pixel w ra dec)).
Lemma circle_contains w ra dec radius corners : contains (Circular ra dec radius) w corners = true <->
  exists c, In c corners /\ pixel_distance w ra dec (fst c) (snd c) < pixel_radius w ra dec radius.
Proof.
  unfold contains, pixel_distance, pixel_radius. destruct (world_to_pixel w ra dec) as [xc yc]. destruct (world_to_pixel w ra (dec + radius)) as [xr yr]. cbn [fst snd].
  rewrite existsb_exists. split; intros (c & Hc & H); exists c; split; auto.
  - apply Rltb_true in H. unfold dist_euc. apply sqrt_lt_1_alt. split; [apply Rplus_le_le_0_compat; apply Rle_0_sqr|]. unfold Rsqr. lra.
  - apply Rltb_true. apply dist_sq in H. lra.
Qed.

Section Store.
Context (s nx ny : nat).
Hypotheses (D : divides s nx ny) (Sm : small nx ny).
Notation half_diagonal := (dist_euc 0 0 ((INR s - 1) / 2) ((INR s - 1) / 2)).

Lemma selected_in r w i j : In (i, j) (selected s nx ny r w) <-> (i < nx / s)%nat /\ (j < ny / s)%nat /\ exists c, get2 (superpixel_corners s nx ny) i j = Some c /\ contains r w (to_points c) = true.
Proof.
  unfold selected. rewrite where2_in. cbn [fst snd]. split; intros (H1 & H2 & H3); repeat split; auto.
  - destruct (get2 _ i j) as [c|]; [eauto|discriminate].
  - destruct H3 as (c & -> & H). exact H.
Qed.

(** What an exposure must satisfy to be found, for a store whose WCS are loaded *)
Theorem C42_found : forall m r bandlist bbox res, bounding_box r = Some bbox -> store_find_exposures s nx ny m r bandlist = Some res ->
  forall band id w, In (band, id, w) res <-> In band bandlist /\ exists exps, get (wcs m) band = Some exps /\ In (id, w) exps /\
    (exists c, In c bbox /\ 0 < fst (world_to_pixel w (fst c) (snd c)) < INR nx /\ 0 < snd (world_to_pixel w (fst c) (snd c)) < INR ny) /\
    (exists i j c, (i < nx / s)%nat /\ (j < ny / s)%nat /\ get2 (superpixel_corners s nx ny) i j = Some c /\ contains r w (to_points c) = true).
Proof.
  intros m r bandlist bbox res Hb H band id w. unfold store_find_exposures in H. rewrite Hb in H. injection H as <-. rewrite in_flat_map.
  assert (G : forall w, corner_in_image (INR nx) (INR ny) w bbox && negb (match selected s nx ny r w with [] => true | _ => false end) = true <->
    (exists c, In c bbox /\ 0 < fst (world_to_pixel w (fst c) (snd c)) < INR nx /\ 0 < snd (world_to_pixel w (fst c) (snd c)) < INR ny) /\
    (exists i j c, (i < nx / s)%nat /\ (j < ny / s)%nat /\ get2 (superpixel_corners s nx ny) i j = Some c /\ contains r w (to_points c) = true)).
  { intros w'. rewrite andb_true_iff, negb_true_iff. assert (A1 : corner_in_image (INR nx) (INR ny) w' bbox = true <-> exists c, In c bbox /\ 0 < fst (world_to_pixel w' (fst c) (snd c)) < INR nx /\ 0 < snd (world_to_pixel w' (fst c) (snd c)) < INR ny).
    { unfold corner_in_image. rewrite existsb_exists. split; intros (c & Hc & H); exists c; split; auto; destruct (world_to_pixel w' (fst c) (snd c)) as [bx by_]; cbn [fst snd] in *.
      - rewrite !andb_true_iff, !Rltb_true in H. tauto.
      - rewrite !andb_true_iff, !Rltb_true. tauto. }
    assert (A2 : match selected s nx ny r w' with [] => true | _ => false end = false <-> exists i j c, (i < nx / s)%nat /\ (j < ny / s)%nat /\ get2 (superpixel_corners s nx ny) i j = Some c /\ contains r w' (to_points c) = true).
    { destruct (selected s nx ny r w') as [|[i j] l] eqn:E.
      - split; [discriminate|]. intros (i & j & c & H1 & H2 & H3). exfalso. assert (In (i, j) (selected s nx ny r w')) by (apply selected_in; eauto 6). rewrite E in H. destruct H.
      - split; auto. intros _. assert (Hin : In (i, j) (selected s nx ny r w')) by (rewrite E; simpl; auto). apply selected_in in Hin. destruct Hin as (H1 & H2 & c & H3). eauto 8. }
    rewrite A1, A2. reflexivity. }
  split.
  - intros (b & Hbl & Hin). destruct (get (wcs m) b) as [exps|] eqn:Eg; [|destruct Hin]. apply in_map_iff in Hin. destruct Hin as ([i' w'] & E & Hf). cbn [fst snd] in E. injection E as <- <- <-.
    apply filter_In in Hf. destruct Hf as [Hf Hc]. cbn [snd] in Hc. apply G in Hc. split; auto. exists exps. tauto.
  - intros (Hbl & exps & Eg & Hin & Hc). exists band. split; auto. rewrite Eg. apply in_map_iff. exists (id, w). split; auto. apply filter_In. split; auto. cbn [snd]. apply G. exact Hc.
Qed.

(** A circle: a pixel that is inside by more than half the diagonal of a super-pixel has
    its super-pixel selected.  Hence its exposure is found if a corner of the bounding
    box is in the image, and the pixel is read with its data. *)
Lemma circle_pixel w ra dec radius x y : (x < nx)%nat -> (y < ny)%nat ->
  pixel_distance w ra dec (INR x) (INR y) + half_diagonal < pixel_radius w ra dec radius ->
  exists i j k c, entry s nx ny i j k /\ get3 (fst (pixel_coordinates s nx ny)) i j k = Some (Z.of_nat x) /\ get3 (snd (pixel_coordinates s nx ny)) i j k = Some (Z.of_nat y) /\
    get2 (superpixel_corners s nx ny) i j = Some c /\ contains (Circular ra dec radius) w (to_points c) = true.
Proof.
  intros Hx Hy Hd. destruct (C26_each_pixel_once s nx ny (mesh_x nx ny) (mesh_x nx ny) D (mesh_x_rect nx ny) (mesh_x_rect nx ny) Sm x y Hx Hy) as (i & j & k & E & Ex & Ey & _).
  destruct E as (Ei & Ej & Ek). destruct (C26_corners s nx ny (mesh_x nx ny) (mesh_x nx ny) D (mesh_x_rect nx ny) (mesh_x_rect nx ny) Sm i j Ei Ej) as (x0 & y0 & Hc & Hsq).
  destruct (proj1 (Hsq (Z.of_nat x) (Z.of_nat y)) (ex_intro _ k (conj Ek (conj Ex Ey)))) as [Rx Ry].
  do 4 eexists. split; [repeat split; eauto|]. split; [exact Ex|]. split; [exact Ey|]. split; [exact Hc|]. apply circle_contains.
  destruct (nearest_corner (IZR x0) (IZR y0) (INR s - 1) (INR x) (INR y)) as (c & Hin & Hn).
  - rewrite !INR_IZR_INZ. change 1 with (IZR 1). rewrite <- minus_IZR, <- plus_IZR. split; apply IZR_le; lia.
  - rewrite !INR_IZR_INZ. change 1 with (IZR 1). rewrite <- minus_IZR, <- plus_IZR. split; apply IZR_le; lia.
  - exists c. split.
    + unfold to_points. cbn [map fst snd]. rewrite !plus_IZR, !minus_IZR, <- !INR_IZR_INZ. exact Hin.
    + unfold pixel_distance in *. eapply Rle_lt_trans; [apply (triangle _ _ _ _ (INR x) (INR y))|]. rewrite (distance_symm (fst c) (snd c)). lra.
Qed.
Theorem C42_circle_partial : forall {A} (im ierr : list (list A)) m ra dec radius bandlist bbox band exps id w x y,
  rect im nx ny -> rect ierr nx ny -> bounding_box (Circular ra dec radius) = Some bbox -> In band bandlist -> get (wcs m) band = Some exps -> In (id, w) exps ->
  (x < nx)%nat -> (y < ny)%nat -> pixel_distance w ra dec (INR x) (INR y) + half_diagonal < pixel_radius w ra dec radius ->
  (exists c, In c bbox /\ 0 < fst (world_to_pixel w (fst c) (snd c)) < INR nx /\ 0 < snd (world_to_pixel w (fst c) (snd c)) < INR ny) ->
  (exists res, store_find_exposures s nx ny m (Circular ra dec radius) bandlist = Some res /\ In (band, id, w) res) /\
  exists d e xs ys n, find_pixels s nx ny (fun c => contains (Circular ra dec radius) w (to_points c)) (superpixelize s im ierr) = Some (d, e, xs, ys) /\
    nth_error xs n = Some (Z.of_nat x) /\ nth_error ys n = Some (Z.of_nat y) /\ nth_error d n = get2 im x y /\ nth_error e n = get2 ierr x y.
Proof.
  intros A im ierr m ra dec radius bandlist bbox band exps id w x y Rm Re Hb Hbl Eg Hin Hx Hy Hd Hc.
  destruct (circle_pixel w ra dec radius x y Hx Hy Hd) as (i & j & k & c & (Ei & Ej & Ek) & Ex & Ey & Ec & Hcon). split.
  - destruct (store_find_exposures s nx ny m (Circular ra dec radius) bandlist) as [res|] eqn:Es; [|unfold store_find_exposures in Es; rewrite Hb in Es; discriminate].
    exists res. split; auto. apply (C42_found _ _ _ _ _ Hb Es). split; auto. exists exps. split; auto. split; auto. split; auto. exists i, j, c. auto.
  - destruct (C26_region_pixels s nx ny im ierr (fun c => contains (Circular ra dec radius) w (to_points c)) D Sm Rm Re) as (d & e & xs & ys & Hf & L1 & L2 & L3 & Hdat & _ & Hall).
    assert (Hi : In (Z.of_nat x, Z.of_nat y) (combine xs ys)) by (apply Hall; exists i, j, k, c; repeat split; auto).
    apply In_nth_error in Hi. destruct Hi as (n & Hn).
    assert (G : forall {X Y} (a : list X) (b : list Y) n p, nth_error (combine a b) n = Some p -> nth_error a n = Some (fst p) /\ nth_error b n = Some (snd p)).
    { clear. induction a as [|x a IH]; intros [|y b] [|n] p H; simpl in *; try discriminate; [injection H as <-; auto|auto]. }
    apply G in Hn. cbn [fst snd] in Hn. destruct Hn as [N1 N2]. exists d, e, xs, ys, n. destruct (Hdat n x y N1 N2). auto.
Qed.
End Store.

(** The corners are those of the square of pixels. *)
Lemma corners_at s nx ny i j x0 y0 : divides s nx ny -> small nx ny -> (i < nx / s)%nat -> (j < ny / s)%nat ->
  (forall x y : Z, (exists k, (k < s * s)%nat /\ get3 (fst (pixel_coordinates s nx ny)) i j k = Some x /\ get3 (snd (pixel_coordinates s nx ny)) i j k = Some y) <->
              (x0 <= x <= x0 + (Z.of_nat s - 1) /\ y0 <= y <= y0 + (Z.of_nat s - 1))%Z) -> x0 = Z.of_nat (i * s) /\ y0 = Z.of_nat (j * s).
Proof.
  intros D (Sx & Sy) Hi Hj Hsq. assert (Hs := proj1 D).
  assert (T : forall k, (k < s * s)%nat -> get3 (fst (pixel_coordinates s nx ny)) i j k = Some (Z.of_nat (i * s + k / s)) /\ get3 (snd (pixel_coordinates s nx ny)) i j k = Some (Z.of_nat (j * s + k mod s))).
  { intros k Hk. assert (E : entry s nx ny i j k) by (repeat split; auto). destruct (tables_at s nx ny (mesh_x nx ny) (mesh_x nx ny) D (mesh_x_rect nx ny) (mesh_x_rect nx ny) i j k E) as (H1 & H2 & _).
    destruct (entry_range s nx ny i j k Hs E). rewrite int16_id in H1, H2 by lia. auto. }
  destruct (T 0%nat ltac:(nia)) as [T1 T2]. rewrite Nat.div_0_l, Nat.mod_0_l, !Nat.add_0_r in * by lia.
  assert (A := proj1 (Hsq _ _) (ex_intro _ 0%nat (conj (ltac:(nia) : (0 < s * s)%nat) (conj T1 T2)))).
  assert (B : exists k, (k < s * s)%nat /\ get3 (fst (pixel_coordinates s nx ny)) i j k = Some x0 /\ get3 (snd (pixel_coordinates s nx ny)) i j k = Some y0) by (apply Hsq; lia).
  destruct B as (k & Hk & B1 & B2). destruct (T k Hk) as [T3 T4]. rewrite T3 in B1. rewrite T4 in B2. injection B1 as B1. injection B2 as B2. lia.
Qed.

(** ** What the search misses *)
Definition identity_wcs : WCS := mkWCS (fun ra dec => (ra, dec)) (fun x y => (x, y)).
(** A StorePatch opens its metadata without building WCS, and its search looks only at
    the WCS that were built: it finds nothing, whatever the file and the region. *)
Theorem C42_lazy_wcs_refuted : forall h s nx ny r bandlist bbox, bounding_box r = Some bbox ->
  store_find_exposures s nx ny (open_metastore h false) r bandlist = Some [].
Proof.
  intros h s nx ny r bandlist bbox Hb. unfold store_find_exposures. rewrite Hb. f_equal. induction bandlist as [|b l IH]; auto.
Qed.
(** A region whose box surrounds the image: every pixel is in the region, nothing is found. *)
Theorem C42_surrounded_refuted : forall s nx ny band id bandlist, store_find_exposures s nx ny (mkMeta [] [(band, [(id, identity_wcs)])]) (Rectangular (-1) (INR nx + 1) (-1) (INR ny + 1)) bandlist = Some [] /\
  forall x y, (x < nx)%nat -> (y < ny)%nat -> contains (Rectangular (-1) (INR nx + 1) (-1) (INR ny + 1)) identity_wcs [(INR x, INR y)] = true.
Proof.
  intros s nx ny band id bandlist. pose proof (pos_INR nx) as Px. pose proof (pos_INR ny) as Py. split.
  - unfold store_find_exposures. cbn [bounding_box]. f_equal. induction bandlist as [|b l IH]; auto. cbn [flat_map]. rewrite IH. cbn [wcs get]. destruct (string_dec b band); auto. cbn [filter snd].
    assert (E : corner_in_image (INR nx) (INR ny) identity_wcs [(-1, -1); (INR nx + 1, -1); (INR nx + 1, INR ny + 1); (-1, INR ny + 1)] = false); [|rewrite E; reflexivity].
    unfold corner_in_image. cbn [existsb identity_wcs world_to_pixel fst snd].
    assert (F1 : Rltb 0 (-1) = false) by (apply Rltb_false; lra). assert (F2 : Rltb (INR nx + 1) (INR nx) = false) by (apply Rltb_false; lra). rewrite F1, F2. cbn [andb orb]. rewrite !andb_false_r. reflexivity.
  - intros x y Hx Hy. apply lt_INR in Hx, Hy. pose proof (pos_INR x). pose proof (pos_INR y). unfold contains. cbn [existsb identity_wcs pixel_to_world fst snd].
    assert (T1 : Rltb (-1) (INR x) = true) by (apply Rltb_true; lra). assert (T2 : Rltb (INR x) (INR nx + 1) = true) by (apply Rltb_true; lra).
    assert (T3 : Rltb (-1) (INR y) = true) by (apply Rltb_true; lra). assert (T4 : Rltb (INR y) (INR ny + 1) = true) by (apply Rltb_true; lra). rewrite T1, T2, T3, T4. reflexivity.
Qed.
(** A circle within one super-pixel, away from its corners: it contains a pixel, nothing
    is found. *)
Theorem C42_small_circle_refuted : forall s nx ny band id bandlist, divides s nx ny -> small nx ny -> (3 <= s)%nat ->
  store_find_exposures s nx ny (mkMeta [] [(band, [(id, identity_wcs)])]) (Circular 1 1 (1 / 2)) bandlist = Some [] /\
  contains (Circular 1 1 (1 / 2)) identity_wcs [(1, 1)] = true.
Proof.
  intros s nx ny band id bandlist D Sm Hs. split.
  - assert (Hcos : cos (1 * (PI / 180)) <> 0). { pose proof PI_RGT_0. apply Rgt_not_eq. apply cos_gt_0; lra. }
    destruct (store_find_exposures s nx ny (mkMeta [] [(band, [(id, identity_wcs)])]) (Circular 1 1 (1 / 2)) bandlist) as [res|] eqn:E.
    2:{ unfold store_find_exposures, bounding_box in E. destruct (Req_EM_T _ 0); [contradiction|discriminate]. }
    f_equal. destruct res as [|[[b i'] w] res]; auto. exfalso. destruct (bounding_box (Circular 1 1 (1 / 2))) as [bbox|] eqn:Eb; [|unfold bounding_box in Eb; destruct (Req_EM_T _ 0); [contradiction|discriminate]].
    destruct (proj1 (C42_found s nx ny _ _ _ _ _ Eb E b i' w) (or_introl eq_refl)) as (_ & exps & Eg & Hin & _ & i & j & c & Hi & Hj & Hc & Hcon).
    cbn [wcs get] in Eg. destruct (string_dec b band); [|discriminate]. injection Eg as <-. destruct Hin as [Hin|[]]. injection Hin as _ <-.
    destruct (C26_corners s nx ny (mesh_x nx ny) (mesh_x nx ny) D (mesh_x_rect nx ny) (mesh_x_rect nx ny) Sm i j Hi Hj) as (x0 & y0 & Hc' & Hsq). rewrite Hc in Hc'. injection Hc' as ->.
    apply circle_contains in Hcon. destruct Hcon as (p & Hp & Hlt). unfold pixel_distance, pixel_radius in Hlt. cbn [identity_wcs world_to_pixel fst snd] in Hlt. apply dist_sq in Hlt.
    assert (Hz : exists u v : Z, p = (IZR u, IZR v) /\ (u <> 1 \/ v <> 1)%Z).
    { assert (Hx : exists a b, x0 = Z.of_nat (s * a) /\ y0 = Z.of_nat (s * b)).
      { destruct (corners_at s nx ny i j x0 y0 D Sm Hi Hj Hsq) as [-> ->]. exists i, j. split; f_equal; lia. }
      destruct Hx as (a & b' & -> & ->). unfold to_points in Hp. cbn [map fst snd] in Hp. destruct Hp as [<-|[<-|[<-|[<-|[]]]]]; do 2 eexists; (split; [reflexivity|]); left; (assert (a = 0 \/ s <= s * a)%nat by (destruct a; [left; reflexivity|right; nia])); nia. }
    destruct Hz as (u & v & -> & Huv). cbn [fst snd] in Hlt. replace ((1 - 1) ^ 2 + (1 - (1 + 1 / 2)) ^ 2) with (1 / 4) in Hlt by field.
    assert (Habs : forall t, (t <> 1)%Z -> 1 <= (IZR t - 1) ^ 2). { intros t Ht. change 1 with (IZR 1). rewrite <- minus_IZR. replace (IZR (t - 1) ^ 2) with (IZR ((t - 1) * (t - 1))) by (rewrite mult_IZR; ring). apply IZR_le. nia. }
    pose proof (pow2_ge_0 (IZR u - 1)). pose proof (pow2_ge_0 (IZR v - 1)). destruct Huv as [Hu|Hv]; [specialize (Habs u Hu)|specialize (Habs v Hv)]; lra.
  - apply circle_contains. exists (1, 1). split; [simpl; auto|]. unfold pixel_distance, pixel_radius. cbn [identity_wcs world_to_pixel fst snd]. rewrite distance_refl.
    unfold dist_euc. apply sqrt_lt_R0. unfold Rsqr. lra.
Qed.
(** The FITS search also misses a region that crosses the image in a band. *)
Theorem C42_crossing_refuted : forall nx ny y0 y1 x y, 0 < y0 -> y0 < y -> y < y1 -> y1 < ny -> 0 < x < nx ->
  (exists bbox, bounding_box (Rectangular (-1) (nx + 1) y0 y1) = Some bbox /\ fits_check nx ny identity_wcs bbox = false) /\
  contains (Rectangular (-1) (nx + 1) y0 y1) identity_wcs [(x, y)] = true.
Proof.
  intros nx ny y0 y1 x y H1 H2 H3 H4 H5. split.
  - eexists. split; [reflexivity|]. unfold fits_check, corner_in_image, around_image. cbn [existsb map identity_wcs world_to_pixel fst snd].
    assert (F1 : Rltb 0 (-1) = false) by (apply Rltb_false; lra). assert (F2 : Rltb (nx + 1) nx = false) by (apply Rltb_false; lra). rewrite F1, F2.
    assert (F3 : Rltb (list_min y0 [y0; y0; y1; y1]) 0 = false) by (apply Rltb_false; unfold list_min; cbn [fold_right]; repeat apply Rmin_glb; lra). rewrite F3. cbn. rewrite !andb_false_r. reflexivity.
  - unfold contains. cbn [existsb identity_wcs pixel_to_world fst snd].
    assert (T1 : Rltb (-1) x = true) by (apply Rltb_true; lra). assert (T2 : Rltb x (nx + 1) = true) by (apply Rltb_true; lra).
    assert (T3 : Rltb y0 y = true) by (apply Rltb_true; lra). assert (T4 : Rltb y y1 = true) by (apply Rltb_true; lra). rewrite T1, T2, T3, T4. reflexivity.
Qed.
