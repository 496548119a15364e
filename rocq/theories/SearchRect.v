(** C42: rectangles of sky. *)
From Verif Require Import Np NpFacts KernelSum StoreModel StoreFacts StoreProps RegionModel RegionFacts RegionSat RegionProps SearchProps.
From Coq Require Import Reals Lra Psatz Rgeom ZArith.
Open Scope R_scope.

(** Some corner of a square is within half a side of each of its points along both axes *)
Lemma near_corner x0 y0 d x y : x0 <= x <= x0 + d -> y0 <= y <= y0 + d ->
  exists c, In c [(x0, y0); (x0 + d, y0); (x0 + d, y0 + d); (x0, y0 + d)] /\ Rabs (fst c - x) <= d / 2 /\ Rabs (snd c - y) <= d / 2.
Proof.
  intros Hx Hy. destruct (Rle_dec x (x0 + d / 2)), (Rle_dec y (y0 + d / 2)).
  - exists (x0, y0). split; [simpl; auto|]. split; apply Rabs_le; simpl; lra.
  - exists (x0, y0 + d). split; [simpl; auto|]. split; apply Rabs_le; simpl; lra.
  - exists (x0 + d, y0). split; [simpl; auto|]. split; apply Rabs_le; simpl; lra.
  - exists (x0 + d, y0 + d). split; [simpl; auto|]. split; apply Rabs_le; simpl; lra.
Qed.
(** The sky place of (x, y) is inside the rectangle *)
Definition in_rectangle (w : WCS) (ra0 ra1 dec0 dec1 x y : R) : Prop :=
  ra0 < fst (pixel_to_world w x y) < ra1 /\ dec0 < snd (pixel_to_world w x y) < dec1.
Lemma rect_contains w ra0 ra1 dec0 dec1 corners : contains (Rectangular ra0 ra1 dec0 dec1) w corners = true <->
  exists c, In c corners /\ in_rectangle w ra0 ra1 dec0 dec1 (fst c) (snd c).
Proof.
  unfold contains, in_rectangle. rewrite existsb_exists. split; intros (c & Hc & H); exists c; split; auto; destruct (pixel_to_world w (fst c) (snd c)) as [a b]; cbn [fst snd] in *.
  - rewrite !andb_true_iff, !Rltb_true in H. tauto.
  - rewrite !andb_true_iff, !Rltb_true. tauto.
Qed.
Section Rect.
Context (s nx ny : nat).
Hypotheses (D : divides s nx ny) (Sm : small nx ny).
(** The pixel itself, its super-pixel, and what is read of it *)
Lemma rect_pixel w ra0 ra1 dec0 dec1 x y : (x < nx)%nat -> (y < ny)%nat ->
  (forall x' y', Rabs (x' - INR x) <= (INR s - 1) / 2 -> Rabs (y' - INR y) <= (INR s - 1) / 2 -> in_rectangle w ra0 ra1 dec0 dec1 x' y') ->
  exists i j k c, entry s nx ny i j k /\ get3 (fst (pixel_coordinates s nx ny)) i j k = Some (Z.of_nat x) /\ get3 (snd (pixel_coordinates s nx ny)) i j k = Some (Z.of_nat y) /\
    get2 (superpixel_corners s nx ny) i j = Some c /\ contains (Rectangular ra0 ra1 dec0 dec1) w (to_points c) = true.
Proof.
  intros Hx Hy Hd. destruct (C26_each_pixel_once s nx ny (mesh_x nx ny) (mesh_x nx ny) D (mesh_x_rect nx ny) (mesh_x_rect nx ny) Sm x y Hx Hy) as (i & j & k & E & Ex & Ey & _).
  destruct E as (Ei & Ej & Ek). destruct (C26_corners s nx ny (mesh_x nx ny) (mesh_x nx ny) D (mesh_x_rect nx ny) (mesh_x_rect nx ny) Sm i j Ei Ej) as (x0 & y0 & Hc & Hsq).
  destruct (proj1 (Hsq (Z.of_nat x) (Z.of_nat y)) (ex_intro _ k (conj Ek (conj Ex Ey)))) as [Rx Ry].
  do 4 eexists. split; [repeat split; eauto|]. split; [exact Ex|]. split; [exact Ey|]. split; [exact Hc|]. apply rect_contains.
  destruct (near_corner (IZR x0) (IZR y0) (INR s - 1) (INR x) (INR y)) as (c & Hin & H1 & H2).
  - rewrite !INR_IZR_INZ. change 1 with (IZR 1). rewrite <- minus_IZR, <- plus_IZR. split; apply IZR_le; lia.
  - rewrite !INR_IZR_INZ. change 1 with (IZR 1). rewrite <- minus_IZR, <- plus_IZR. split; apply IZR_le; lia.
  - exists c. split; [|apply Hd; assumption].
    unfold to_points. cbn [map fst snd]. rewrite !plus_IZR, !minus_IZR, <- !INR_IZR_INZ. exact Hin.
Qed.
(** A pixel such that the sky within half a super-pixel of it, along both axes, is inside the rectangle: its exposure is
    found if a corner of the rectangle is in the image, and the pixel is read with its data *)
Theorem C42_rectangle_partial : forall {A} (im ierr : list (list A)) m ra0 ra1 dec0 dec1 bandlist band exps id w x y,
  rect im nx ny -> rect ierr nx ny -> In band bandlist -> get (wcs m) band = Some exps -> In (id, w) exps ->
  (x < nx)%nat -> (y < ny)%nat ->
  (forall x' y', Rabs (x' - INR x) <= (INR s - 1) / 2 -> Rabs (y' - INR y) <= (INR s - 1) / 2 -> in_rectangle w ra0 ra1 dec0 dec1 x' y') ->
  (exists ra dec, (ra = ra0 \/ ra = ra1) /\ (dec = dec0 \/ dec = dec1) /\ 0 < fst (world_to_pixel w ra dec) < INR nx /\ 0 < snd (world_to_pixel w ra dec) < INR ny) ->
  (exists res, store_find_exposures s nx ny m (Rectangular ra0 ra1 dec0 dec1) bandlist = Some res /\ In (band, id, w) res) /\
  exists d e xs ys n, find_pixels s nx ny (fun c => contains (Rectangular ra0 ra1 dec0 dec1) w (to_points c)) (superpixelize s im ierr) = Some (d, e, xs, ys) /\
    nth_error xs n = Some (Z.of_nat x) /\ nth_error ys n = Some (Z.of_nat y) /\ nth_error d n = get2 im x y /\ nth_error e n = get2 ierr x y.
Proof.
  intros A im ierr m ra0 ra1 dec0 dec1 bandlist band exps id w x y Rm Re Hbl Eg Hin Hx Hy Hd (ra & dec & Hra & Hdec & Hc).
  destruct (rect_pixel w ra0 ra1 dec0 dec1 x y Hx Hy Hd) as (i & j & k & c & (Ei & Ej & Ek) & Ex & Ey & Ec & Hcon).
  set (r := Rectangular ra0 ra1 dec0 dec1) in *.
  assert (Hb : bounding_box r = Some [(ra0, dec0); (ra1, dec0); (ra1, dec1); (ra0, dec1)]) by reflexivity. split.
  - destruct (store_find_exposures s nx ny m r bandlist) as [res|] eqn:Es; [|unfold store_find_exposures in Es; rewrite Hb in Es; discriminate].
    exists res. split; auto. apply (C42_found s nx ny _ _ _ _ _ Hb Es). split; auto. exists exps. split; auto. split; auto. split; [|exists i, j, c; auto].
    exists (ra, dec). split; [|exact Hc]. destruct Hra as [->| ->], Hdec as [->| ->]; simpl; auto.
  - destruct (C26_region_pixels s nx ny im ierr (fun c => contains r w (to_points c)) D Sm Rm Re) as (d & e & xs & ys & Hf & L1 & L2 & L3 & Hdat & _ & Hall).
    assert (Hi : In (Z.of_nat x, Z.of_nat y) (combine xs ys)) by (apply Hall; exists i, j, k, c; repeat split; auto).
    apply In_nth_error in Hi. destruct Hi as (n & Hn).
    assert (G : forall {X Y} (a : list X) (b : list Y) n p, nth_error (combine a b) n = Some p -> nth_error a n = Some (fst p) /\ nth_error b n = Some (snd p)).
    { clear. induction a as [|x a IH]; intros [|y b] [|n] p H; simpl in *; try discriminate; [injection H as <-; auto|auto]. }
    apply G in Hn. cbn [fst snd] in Hn. destruct Hn as [N1 N2]. exists d, e, xs, ys, n. destruct (Hdat n x y N1 N2). auto.
Qed.
End Rect.
Print Assumptions C42_rectangle_partial.
(** For a WCS under which places within half a super-pixel along both axes are within [m] in ra and dec: the pixels inside the
    rectangle by more than [m] are such *)
Theorem C42_rectangle_margin : forall w s m ra0 ra1 dec0 dec1 x y,
  (forall x' y', Rabs (x' - x) <= (INR s - 1) / 2 -> Rabs (y' - y) <= (INR s - 1) / 2 ->
     Rabs (fst (pixel_to_world w x' y') - fst (pixel_to_world w x y)) <= m /\ Rabs (snd (pixel_to_world w x' y') - snd (pixel_to_world w x y)) <= m) ->
  ra0 + m < fst (pixel_to_world w x y) < ra1 - m -> dec0 + m < snd (pixel_to_world w x y) < dec1 - m ->
  forall x' y', Rabs (x' - x) <= (INR s - 1) / 2 -> Rabs (y' - y) <= (INR s - 1) / 2 -> in_rectangle w ra0 ra1 dec0 dec1 x' y'.
Proof.
  intros w s m ra0 ra1 dec0 dec1 x y L Ha Hd x' y' Hx Hy. destruct (L x' y' Hx Hy) as [L1 L2]. unfold in_rectangle.
  set (a := fst (pixel_to_world w x' y')) in *. set (b := snd (pixel_to_world w x' y')) in *. clearbody a b.
  unfold Rabs in L1, L2. destruct (Rcase_abs (a - _)), (Rcase_abs (b - _)); lra.
Qed.
Print Assumptions C42_rectangle_margin.
(** A rectangle that lies inside one super-pixel, away from its corners, selects nothing, although pixels are in it *)
Theorem C42_small_rectangle_refuted : forall m bandlist, exists x y, (x < 8)%nat /\ (y < 8)%nat /\ in_rectangle identity_wcs (5 / 2) (7 / 2) (5 / 2) (7 / 2) (INR x) (INR y) /\
  selected 8 8 8 (Rectangular (5 / 2) (7 / 2) (5 / 2) (7 / 2)) identity_wcs = [] /\
  forall exps band, (forall b e, get (wcs m) b = Some e -> forall id w, In (id, w) e -> w = identity_wcs) -> get (wcs m) band = Some exps ->
    store_find_exposures 8 8 8 m (Rectangular (5 / 2) (7 / 2) (5 / 2) (7 / 2)) bandlist = Some [].
Proof.
  intros m bandlist. exists 3%nat, 3%nat. split; [lia|]. split; [lia|]. split; [unfold in_rectangle; cbn; lra|].
  assert (Es : selected 8 8 8 (Rectangular (5 / 2) (7 / 2) (5 / 2) (7 / 2)) identity_wcs = []).
  { destruct (selected 8 8 8 _ identity_wcs) as [|[i j] l] eqn:E; [reflexivity|]. exfalso. assert (Hin : In (i, j) ((i, j) :: l)) by (simpl; auto). rewrite <- E in Hin.
    apply selected_in in Hin. destruct Hin as (Hi & Hj & c & Hc & Hcon). change (8 / 8)%nat with 1%nat in Hi, Hj. assert (i = 0 /\ j = 0)%nat as [-> ->] by lia.
    vm_compute in Hc. injection Hc as <-. apply rect_contains in Hcon. destruct Hcon as (p & Hp & H). unfold in_rectangle in H. cbn in Hp, H.
    destruct Hp as [<-|[<-|[<-|[<-|[]]]]]; cbn in H; lra. }
  split; [exact Es|]. intros exps band Hw Hb. unfold store_find_exposures. cbn [bounding_box]. f_equal.
  clear - Hw Es. induction bandlist as [|b t IH]; [reflexivity|]. cbn [flat_map]. rewrite IH, app_nil_r. destruct (get (wcs m) b) as [e|] eqn:Ee; [|reflexivity].
  match goal with |- map ?g (filter ?f e) = [] => enough (Ef : filter f e = []) by now rewrite Ef end.
  specialize (Hw b e Ee). clear Ee. induction e as [|[id w] e IHe]; [reflexivity|]. cbn [filter snd]. rewrite (Hw id w (or_introl eq_refl)), Es. cbn [negb]. rewrite andb_false_r. apply IHe. intros id' w' H. apply (Hw id' w'). now right.
Qed.
Print Assumptions C42_small_rectangle_refuted.
(** An image of 16 by 16 in super-pixels of 8 under a grid of places a tenth of a degree apart, a rectangle over a part of it *)
Definition tenth_wcs : WCS := mkWCS (fun ra dec => (10 * ra, 10 * dec)) (fun x y => (x / 10, y / 10)).
Example C42_rectangle_case : divides 8 16 16 /\ small 16 16 /\
  (forall x' y', Rabs (x' - INR 5) <= (INR 8 - 1) / 2 -> Rabs (y' - INR 6) <= (INR 8 - 1) / 2 -> in_rectangle tenth_wcs (1 / 10) 1 (2 / 10) 1 x' y') /\
  (exists ra dec, (ra = 1 / 10 \/ ra = 1) /\ (dec = 2 / 10 \/ dec = 1) /\ 0 < fst (world_to_pixel tenth_wcs ra dec) < INR 16 /\ 0 < snd (world_to_pixel tenth_wcs ra dec) < INR 16).
Proof.
  split; [repeat split; cbn; lia|]. split; [repeat split; cbn; lia|]. split.
  - apply (C42_rectangle_margin _ 8 (35 / 100)); cbn [tenth_wcs pixel_to_world fst snd INR]; [|lra|lra].
    intros x' y' Hx Hy. unfold Rabs in *. destruct (Rcase_abs (x' - _)), (Rcase_abs (y' - _)), (Rcase_abs (x' / 10 - _)), (Rcase_abs (y' / 10 - _)); lra.
  - exists 1, 1. split; [auto|]. split; [auto|]. cbn [tenth_wcs world_to_pixel fst snd]. split; cbn; lra.
Qed.
