(** C26: super-pixel order is a rearrangement of the image. *)
From Verif Require Import Np NpFacts StoreModel StoreFacts.
From Coq Require Import ZArith.

(** The sizes PixelStore handles: super-pixels of positive side dividing both image sides *)
Definition divides (s nx ny : nat) : Prop := 0 < s /\ nx mod s = 0 /\ ny mod s = 0.
Definition small (nx ny : nat) : Prop := (Z.of_nat nx <= 32768)%Z /\ (Z.of_nat ny <= 32768)%Z.
(** Entry (i, j, k) of the tables *)
Definition entry (s nx ny i j k : nat) : Prop := i < nx / s /\ j < ny / s /\ k < s * s.

Lemma nth_pixels s i j k : 0 < s -> k < s * s -> nth_error (pixels_of s (i, j)) k = Some (i * s + k / s, j * s + k mod s).
Proof.
  intros Hs Hk. pose proof (Nat.mod_upper_bound k s). assert (Hd : k / s < s) by (apply Nat.div_lt_upper_bound; lia).
  pose proof (Nat.div_mod k s ltac:(lia)) as E. rewrite (Nat.mul_comm s) in E. rewrite E at 1. rewrite pixels_of_nth by lia. reflexivity.
Qed.
Lemma entry_range s nx ny i j k : 0 < s -> entry s nx ny i j k -> i * s + k / s < nx /\ j * s + k mod s < ny.
Proof.
  intros Hs (Hi & Hj & Hk). pose proof (nth_pixels s i j k Hs Hk) as Hn. apply nth_error_In in Hn. eapply pixels_in_range; eauto.
Qed.

Section C26.
Context {A : Type} (s nx ny : nat) (im ierr : list (list A)).
Hypotheses (D : divides s nx ny) (Rm : rect im nx ny) (Re : rect ierr nx ny).
Notation xpix := (fst (pixel_coordinates s nx ny)).
Notation ypix := (snd (pixel_coordinates s nx ny)).
Notation stored := (superpixelize s im ierr).

Lemma tables_at i j k : entry s nx ny i j k ->
  get3 xpix i j k = Some (int16 (Z.of_nat (i * s + k / s))) /\ get3 ypix i j k = Some (int16 (Z.of_nat (j * s + k mod s))) /\
  get3 stored i j k = get2 im (i * s + k / s) (j * s + k mod s) /\ get3 stored i j (s * s + k) = get2 ierr (i * s + k / s) (j * s + k mod s).
Proof.
  destruct D as (Hs & _ & _). intros E. destruct E as (Hi & Hj & Hk). pose proof (nth_pixels s i j k Hs Hk) as Hn.
  unfold get3. destruct (coords_get s nx ny i j Hs Hi Hj) as [-> ->]. rewrite (superpixelize_get s nx ny) by auto.
  rewrite !nth_error_map, Hn. cbn [option_map fst snd].
  assert (HI : i * s + s <= nx) by (pose proof (Nat.mul_div_le nx s); nia). assert (HJ : j * s + s <= ny) by (pose proof (Nat.mul_div_le ny s); nia).
  assert (Hb : forall arr : list (list A), rect arr nx ny -> nth_error (block s (i * s) (j * s) arr) k = get2 arr (i * s + k / s) (j * s + k mod s)).
  { intros arr R. pose proof (Nat.mod_upper_bound k s). assert (Hd : k / s < s) by (apply Nat.div_lt_upper_bound; lia).
    pose proof (Nat.div_mod k s ltac:(lia)) as E. rewrite (Nat.mul_comm s) in E. rewrite E at 1. apply (block_nth s nx ny); auto; lia. }
  split; [reflexivity|]. split; [reflexivity|]. split.
  - rewrite nth_error_app1 by (rewrite (block_length s nx ny); auto). now apply Hb.
  - rewrite nth_error_app2 by (rewrite (block_length s nx ny); auto; lia). rewrite (block_length s nx ny) by auto.
    replace (s * s + k - s * s) with k by lia. now apply Hb.
Qed.

(** The coordinate tables name the pixel whose value and inverse error are stored there. *)
Theorem C26_coordinates_match : small nx ny -> forall i j k, entry s nx ny i j k -> exists x y, x < nx /\ y < ny /\
  get3 xpix i j k = Some (Z.of_nat x) /\ get3 ypix i j k = Some (Z.of_nat y) /\
  get3 stored i j k = get2 im x y /\ get3 stored i j (s * s + k) = get2 ierr x y.
Proof.
  intros (Sx & Sy) i j k E. destruct (entry_range s nx ny i j k (proj1 D) E) as (Hx & Hy). destruct (tables_at i j k E) as (H1 & H2 & H3 & H4).
  exists (i * s + k / s), (j * s + k mod s). rewrite int16_id in H1, H2 by lia. auto 10.
Qed.

(** Every pixel is stored exactly once. *)
Theorem C26_each_pixel_once : small nx ny -> forall x y, x < nx -> y < ny ->
  exists i j k, entry s nx ny i j k /\ get3 xpix i j k = Some (Z.of_nat x) /\ get3 ypix i j k = Some (Z.of_nat y) /\
    forall i' j' k', entry s nx ny i' j' k' -> get3 xpix i' j' k' = Some (Z.of_nat x) -> get3 ypix i' j' k' = Some (Z.of_nat y) -> i' = i /\ j' = j /\ k' = k.
Proof.
  intros (Sx & Sy) x y Hx Hy. destruct D as (Hs & Dx & Dy).
  pose proof (Nat.div_mod x s ltac:(lia)) as Ex. pose proof (Nat.div_mod y s ltac:(lia)) as Ey.
  pose proof (Nat.mod_upper_bound x s ltac:(lia)) as Mx. pose proof (Nat.mod_upper_bound y s ltac:(lia)) as My.
  assert (E : entry s nx ny (x / s) (y / s) (x mod s * s + y mod s)).
  { pose proof (Nat.div_mod nx s ltac:(lia)). pose proof (Nat.div_mod ny s ltac:(lia)). repeat split; [apply Nat.div_lt_upper_bound; lia|apply Nat.div_lt_upper_bound; lia|nia]. }
  assert (K1 : (x mod s * s + y mod s) / s = x mod s). { rewrite Nat.div_add_l by lia. rewrite Nat.div_small by lia. lia. }
  assert (K2 : (x mod s * s + y mod s) mod s = y mod s). { rewrite Nat.add_comm, Nat.mod_add by lia. apply Nat.mod_small. lia. }
  exists (x / s), (y / s), (x mod s * s + y mod s). split; [exact E|]. destruct (tables_at _ _ _ E) as (H1 & H2 & _ & _). rewrite K1 in H1. rewrite K2 in H2.
  rewrite int16_id in H1, H2 by lia. rewrite H1, H2. split; [do 2 f_equal; lia|]. split; [do 2 f_equal; lia|].
  intros i' j' k' E' G1 G2. destruct (tables_at _ _ _ E') as (H1' & H2' & _ & _). destruct (entry_range _ _ _ _ _ _ Hs E') as (Rx & Ry).
  rewrite int16_id in H1', H2' by lia. assert (Px : i' * s + k' / s = x) by (apply Nat2Z.inj; congruence). assert (Py : j' * s + k' mod s = y) by (apply Nat2Z.inj; congruence).
  destruct E' as (_ & _ & Hk'). pose proof (Nat.mod_upper_bound k' s ltac:(lia)). assert (Hd : k' / s < s) by (apply Nat.div_lt_upper_bound; lia).
  pose proof (Nat.div_mod k' s ltac:(lia)) as Ek.
  assert (Qx : x / s = i' /\ x mod s = k' / s). { subst x. split; [rewrite Nat.div_add_l by lia; rewrite (Nat.div_small (k' / s)) by lia; lia|]. rewrite Nat.add_comm, Nat.mod_add by lia. apply Nat.mod_small. lia. }
  assert (Qy : y / s = j' /\ y mod s = k' mod s). { subst y. split; [rewrite Nat.div_add_l by lia; rewrite (Nat.div_small (k' mod s)) by lia; lia|]. rewrite Nat.add_comm, Nat.mod_add by lia. apply Nat.mod_small. lia. }
  destruct Qx as [-> ->]. destruct Qy as [-> ->]. split; [reflexivity|]. split; [reflexivity|]. lia.
Qed.

(** The corners of a super-pixel are the corners of the square of its pixels. *)
Theorem C26_corners : small nx ny -> forall i j, i < nx / s -> j < ny / s -> exists x0 y0,
  get2 (superpixel_corners s nx ny) i j = Some [(x0, y0); (x0 + (Z.of_nat s - 1), y0); (x0 + (Z.of_nat s - 1), y0 + (Z.of_nat s - 1)); (x0, y0 + (Z.of_nat s - 1))]%Z /\
  forall x y : Z, (exists k, k < s * s /\ get3 xpix i j k = Some x /\ get3 ypix i j k = Some y) <->
              (x0 <= x <= x0 + (Z.of_nat s - 1) /\ y0 <= y <= y0 + (Z.of_nat s - 1))%Z.
Proof.
  intros (Sx & Sy) i j Hi Hj. destruct D as (Hs & Dx & Dy). exists (Z.of_nat (i * s)), (Z.of_nat (j * s)).
  assert (HI : i * s + s <= nx) by (pose proof (Nat.mul_div_le nx s); nia). assert (HJ : j * s + s <= ny) by (pose proof (Nat.mul_div_le ny s); nia). split.
  - destruct (coords_get s nx ny i j Hs Hi Hj) as [Ex Ey]. unfold superpixel_corners. destruct (pixel_coordinates s nx ny) as [xp yp]. cbn [fst snd] in Ex, Ey.
    assert (Hcomb : forall {X Y} (l : list X) (m : list Y) n a b, nth_error l n = Some a -> nth_error m n = Some b -> nth_error (combine l m) n = Some (a, b)).
    { clear. induction l as [|x l IH]; intros [|y m] [|n] a b H1 H2; simpl in *; try discriminate; try congruence; auto. }
    unfold get2 in *. destruct (nth_error xp i) as [rx|] eqn:Rx; [|discriminate]. destruct (nth_error yp i) as [ry|] eqn:Ry; [|discriminate].
    rewrite nth_error_map, (Hcomb _ _ _ _ _ _ _ Rx Ry). cbn [option_map]. rewrite nth_error_map. cbn [fst snd]. rewrite (Hcomb _ _ _ _ _ _ _ Ex Ey). cbn [option_map fst snd].
    pose proof (nth_pixels s i j 0 Hs ltac:(nia)) as H0. rewrite Nat.div_0_l, Nat.mod_0_l in H0 by lia.
    destruct (pixels_of s (i, j)) as [|p0 ps]; [discriminate|]. simpl in H0. injection H0 as ->. cbn [map fst snd corners_of]. rewrite !int16_id by lia.
    rewrite !Nat.add_0_r. f_equal. repeat (f_equal; try lia).
  - intros x y. split.
    + intros (k & Hk & H1 & H2). assert (E : entry s nx ny i j k) by (repeat split; auto). destruct (tables_at _ _ _ E) as (G1 & G2 & _). destruct (entry_range _ _ _ _ _ _ Hs E).
      rewrite int16_id in G1, G2 by lia. pose proof (Nat.mod_upper_bound k s ltac:(lia)). assert (Hd : k / s < s) by (apply Nat.div_lt_upper_bound; lia).
      assert (x = Z.of_nat (i * s + k / s)) by congruence. assert (y = Z.of_nat (j * s + k mod s)) by congruence. lia.
    + intros ([Hx1 Hx2] & Hy1 & Hy2). set (a := Z.to_nat (x - Z.of_nat (i * s))). set (b := Z.to_nat (y - Z.of_nat (j * s))).
      assert (Ha : a < s) by (unfold a; lia). assert (Hb : b < s) by (unfold b; lia). exists (a * s + b). assert (Hk : a * s + b < s * s) by nia. split; [exact Hk|].
      assert (E : entry s nx ny i j (a * s + b)) by (repeat split; auto). destruct (tables_at _ _ _ E) as (G1 & G2 & _).
      assert (K1 : (a * s + b) / s = a). { rewrite Nat.div_add_l by lia. rewrite Nat.div_small by lia. lia. }
      assert (K2 : (a * s + b) mod s = b). { rewrite Nat.add_comm, Nat.mod_add by lia. apply Nat.mod_small. lia. }
      rewrite K1 in G1. rewrite K2 in G2. rewrite int16_id in G1, G2 by lia. rewrite G1, G2. unfold a, b. split; f_equal; lia.
Qed.
End C26.

(** Coordinates are stored as 16-bit integers: on an image with a side above 32768 the
    tables name the wrong pixel. *)
Theorem C26_large_image_refuted s nx ny : divides s nx ny -> (32768 < Z.of_nat nx)%Z -> 0 < ny ->
  exists i j k x, entry s nx ny i j k /\ get3 (fst (pixel_coordinates s nx ny)) i j k = Some x /\ (x < 0)%Z.
Proof.
  intros D Hx Hy. assert (Hs := proj1 D). set (x := Z.to_nat 32768). assert (Hxn : x < nx) by (unfold x; lia).
  pose proof (Nat.mod_upper_bound x s ltac:(lia)) as Mx. destruct D as (_ & Dx & Dy).
  assert (E : entry s nx ny (x / s) 0 (x mod s * s)).
  { pose proof (Nat.div_mod nx s ltac:(lia)). pose proof (Nat.div_mod x s ltac:(lia)). repeat split; [apply Nat.div_lt_upper_bound; lia|pose proof (Nat.div_mod ny s ltac:(lia)) as Ey; rewrite Dy in Ey; destruct (ny / s); lia|clear -Mx; nia]. }
  exists (x / s), 0, (x mod s * s). exists (int16 32768). split; [exact E|]. split; [|reflexivity].
  destruct (tables_at s nx ny (mesh_x nx ny) (mesh_x nx ny) (conj Hs (conj Dx Dy)) (mesh_x_rect nx ny) (mesh_x_rect nx ny) _ _ _ E) as (H & _).
  rewrite Nat.div_mul in H by lia. rewrite H. assert (Ex : x / s * s + x mod s = x) by (pose proof (Nat.div_mod x s ltac:(lia)); lia).
  rewrite Ex. unfold x. rewrite Z2Nat.id by lia. reflexivity.
Qed.

(** Reading back a region: exactly the pixels of the selected super-pixels, once each,
    with their own data. *)
Section Find.
Context {A : Type} (s nx ny : nat) (im ierr : list (list A)) (contains : list (Z * Z) -> bool).
Hypotheses (D : divides s nx ny) (Sm : small nx ny) (Rm : rect im nx ny) (Re : rect ierr nx ny).
Lemma mapM_map_some {X Y} (f : X -> option Y) (g : X -> Y) l : (forall x, In x l -> f x = Some (g x)) -> mapM f l = Some (map g l).
Proof. induction l as [|x l IH]; intros H; simpl; auto. rewrite H, IH; simpl; auto. intros; apply H; simpl; auto. Qed.
Lemma where2_in n m f p : In p (where2 n m f) <-> fst p < n /\ snd p < m /\ f (fst p) (snd p) = true.
Proof.
  unfold where2. rewrite in_flat_map. split.
  - intros (i & Hi & H). apply in_map_iff in H. destruct H as (j & <- & H). apply filter_In in H. destruct H as [H ?]. apply in_seq in Hi, H. simpl. split; [lia|]. split; [lia|auto].
  - destruct p as [i j]. simpl. intros (Hi & Hj & H). exists i. split; [apply in_seq; lia|]. apply in_map_iff. exists j. split; auto. apply filter_In. split; auto. apply in_seq. lia.
Qed.
Lemma where2_nodup n m f : NoDup (where2 n m f).
Proof.
  unfold where2. apply nodup_flat_map; [apply seq_NoDup| |].
  - intros i _. apply FinFun.Injective_map_NoDup; [|apply NoDup_filter, seq_NoDup]. intros a b E. congruence.
  - intros i j p _ _ H1 H2. apply in_map_iff in H1, H2. destruct H1 as (a & <- & _), H2 as (b & E & _). congruence.
Qed.
Theorem C26_region_pixels : exists d e xs ys,
  find_pixels s nx ny contains (superpixelize s im ierr) = Some (d, e, xs, ys) /\
  List.length e = List.length d /\ List.length xs = List.length d /\ List.length ys = List.length d /\
  (forall n x y, nth_error xs n = Some (Z.of_nat x) -> nth_error ys n = Some (Z.of_nat y) -> nth_error d n = get2 im x y /\ nth_error e n = get2 ierr x y) /\
  NoDup (combine xs ys) /\
  (forall u v, In (u, v) (combine xs ys) <-> exists i j k c, entry s nx ny i j k /\
     get3 (fst (pixel_coordinates s nx ny)) i j k = Some u /\ get3 (snd (pixel_coordinates s nx ny)) i j k = Some v /\
     get2 (superpixel_corners s nx ny) i j = Some c /\ contains c = true).
Proof.
  assert (Hs := proj1 D). destruct Sm as (Sx & Sy). unfold find_pixels. 
  set (corners := superpixel_corners s nx ny). set (inreg := fun i j => match get2 corners i j with Some c => contains c | None => false end).
  set (sel := where2 (nx / s) (ny / s) inreg). destruct (pixel_coordinates s nx ny) as [xpix ypix] eqn:Epc.
  assert (Hsel : forall p, In p sel -> fst p < nx / s /\ snd p < ny / s) by (intros p Hp; apply where2_in in Hp; tauto).
  assert (Hx : forall p, In p sel -> get2 xpix (fst p) (snd p) = Some (map (fun q => Z.of_nat (fst q)) (pixels_of s p)) /\ get2 ypix (fst p) (snd p) = Some (map (fun q => Z.of_nat (snd q)) (pixels_of s p))).
  { intros p Hp. destruct (Hsel p Hp) as [H1 H2]. destruct (coords_get s nx ny (fst p) (snd p) Hs H1 H2) as [G1 G2]. rewrite Epc in G1, G2. cbn [fst snd] in G1, G2. rewrite G1, G2.
    rewrite <- surjective_pairing. split; f_equal; apply map_ext_in; intros [x y] Hq; rewrite (surjective_pairing p) in Hq; apply (pixels_in_range s nx ny) in Hq; auto; cbn [fst snd]; apply int16_id; lia. }
  rewrite (mapM_map_some _ (fun p => block s (fst p * s) (snd p * s) im ++ block s (fst p * s) (snd p * s) ierr)).
  2:{ intros p Hp. destruct (Hsel p Hp). now apply (superpixelize_get s nx ny). }
  rewrite (mapM_map_some _ (fun p => map (fun q => Z.of_nat (fst q)) (pixels_of s p))) by (intros p Hp; apply (Hx p Hp)).
  rewrite (mapM_map_some _ (fun p => map (fun q => Z.of_nat (snd q)) (pixels_of s p))) by (intros p Hp; apply (Hx p Hp)).
  do 4 eexists. split; [reflexivity|].
  set (pix := flat_map (pixels_of s) sel).
  assert (Ex : concat (map (fun p => map (fun q => Z.of_nat (fst q)) (pixels_of s p)) sel) = map (fun q => Z.of_nat (fst q)) pix).
  { unfold pix. clear. induction sel as [|p l IH]; simpl; auto. now rewrite map_app, IH. }
  assert (Ey : concat (map (fun p => map (fun q => Z.of_nat (snd q)) (pixels_of s p)) sel) = map (fun q => Z.of_nat (snd q)) pix).
  { unfold pix. clear. induction sel as [|p l IH]; simpl; auto. now rewrite map_app, IH. }
  assert (Hfit : forall p, In p sel -> fst p * s + s <= nx /\ snd p * s + s <= ny).
  { intros p Hp. destruct (Hsel p Hp). pose proof (Nat.mul_div_le nx s). pose proof (Nat.mul_div_le ny s). nia. }
  assert (Ed : map Some (flat_map (firstn (s * s)) (map (fun p => block s (fst p * s) (snd p * s) im ++ block s (fst p * s) (snd p * s) ierr) sel)) = map (fun q => get2 im (fst q) (snd q)) pix).
  { unfold pix. assert (G : forall l, (forall p, In p l -> In p sel) -> map Some (flat_map (firstn (s * s)) (map (fun p => block s (fst p * s) (snd p * s) im ++ block s (fst p * s) (snd p * s) ierr) l)) = map (fun q => get2 im (fst q) (snd q)) (flat_map (pixels_of s) l)).
    { induction l as [|p l IH]; intros Hl; auto. cbn [map flat_map]. rewrite !map_app, IH by (intros; apply Hl; simpl; auto). f_equal.
      assert (Hp : In p sel) by (apply Hl; simpl; auto). destruct (Hfit p Hp), (Hsel p Hp). rewrite firstn_app, (block_length s nx ny) by auto. rewrite Nat.sub_diag, firstn_O, app_nil_r.
      rewrite firstn_all2 by (rewrite (block_length s nx ny); auto). rewrite (block_pixels s nx ny) by auto. now rewrite <- surjective_pairing. }
    apply G. auto. }
  assert (Ee : map Some (flat_map (skipn (s * s)) (map (fun p => block s (fst p * s) (snd p * s) im ++ block s (fst p * s) (snd p * s) ierr) sel)) = map (fun q => get2 ierr (fst q) (snd q)) pix).
  { unfold pix. assert (G : forall l, (forall p, In p l -> In p sel) -> map Some (flat_map (skipn (s * s)) (map (fun p => block s (fst p * s) (snd p * s) im ++ block s (fst p * s) (snd p * s) ierr) l)) = map (fun q => get2 ierr (fst q) (snd q)) (flat_map (pixels_of s) l)).
    { induction l as [|p l IH]; intros Hl; auto. cbn [map flat_map]. rewrite !map_app, IH by (intros; apply Hl; simpl; auto). f_equal.
      assert (Hp : In p sel) by (apply Hl; simpl; auto). destruct (Hfit p Hp), (Hsel p Hp). rewrite skipn_app, (block_length s nx ny) by auto. rewrite Nat.sub_diag, skipn_O.
      rewrite skipn_all2 by (rewrite (block_length s nx ny); auto). cbn [app]. rewrite (block_pixels s nx ny) by auto. now rewrite <- surjective_pairing. }
    apply G. auto. }
  rewrite Ex, Ey.
  pose proof (f_equal (@List.length _) Ed) as Ld. pose proof (f_equal (@List.length _) Ee) as Le. rewrite !map_length in Ld, Le.
  split; [congruence|]. split; [rewrite map_length; congruence|]. split; [rewrite map_length; congruence|].
  assert (Hc : combine (map (fun q => Z.of_nat (fst q)) pix) (map (fun q => Z.of_nat (snd q)) pix) = map (fun q => (Z.of_nat (fst q), Z.of_nat (snd q))) pix).
  { clear. induction pix as [|q l IH]; simpl; auto. now rewrite IH. }
  split; [|split].
  - intros n x y H1 H2. rewrite nth_error_map in H1, H2. destruct (nth_error pix n) as [q|] eqn:Eq; [|discriminate]. cbn [option_map] in H1, H2.
    assert (Z.of_nat (fst q) = Z.of_nat x) by congruence. assert (Z.of_nat (snd q) = Z.of_nat y) by congruence. assert (fst q = x) by lia. assert (snd q = y) by lia. subst x y.
    pose proof (f_equal (fun l => nth_error l n) Ed) as Fd. pose proof (f_equal (fun l => nth_error l n) Ee) as Fe. cbv beta in Fd, Fe. rewrite !nth_error_map, Eq in Fd, Fe. cbn [option_map] in Fd, Fe.
    split; [destruct (nth_error (flat_map (firstn (s * s)) _) n)|destruct (nth_error (flat_map (skipn (s * s)) _) n)]; cbn [option_map] in *; congruence.
  - rewrite Hc. apply FinFun.Injective_map_NoDup.
    + intros [a b] [c d] E. cbn [fst snd] in E. injection E as E1 E2. f_equal; lia.
    + unfold pix. apply nodup_flat_map; [apply where2_nodup|intros; now apply pixels_of_nodup|].
      intros p q [x y] _ _ H1 H2. apply in_pixels_of in H1, H2; auto. destruct p, q, H1, H2. simpl in *. congruence.
  - intros u v. rewrite Hc, in_map_iff. split.
    + intros ([x y] & E & Hin). cbn [fst snd] in E. injection E as <- <-. unfold pix in Hin. apply in_flat_map in Hin. destruct Hin as (p & Hp & Hin).
      destruct (Hsel p Hp) as (Hi & Hj). apply In_nth_error in Hin. destruct Hin as (k & Hk). assert (Hks : k < s * s) by (rewrite <- (pixels_of_length s p); apply nth_error_Some; congruence).
      destruct (Hx p Hp) as (Gx & Gy). apply where2_in in Hp. destruct Hp as (_ & _ & Hp). unfold inreg in Hp. destruct (get2 corners (fst p) (snd p)) as [c|] eqn:Ec; [|discriminate].
      exists (fst p), (snd p), k, c. split; [repeat split; auto|]. cbn [fst snd]. unfold get3. rewrite Gx, Gy, !nth_error_map, Hk. auto.
    + intros (i & j & k & c & (Hi & Hj & Hk) & H1 & H2 & H3 & H4). cbn [fst snd] in H1, H2.
      assert (Hp : In (i, j) sel). { apply where2_in. cbn [fst snd]. split; auto. split; auto. unfold inreg. now rewrite H3. }
      destruct (Hx _ Hp) as (Gx & Gy). cbn [fst snd] in Gx, Gy. unfold get3 in H1, H2. rewrite Gx in H1. rewrite Gy in H2. rewrite nth_error_map in H1, H2.
      destruct (nth_error (pixels_of s (i, j)) k) as [q|] eqn:Eq; [|discriminate]. cbn [option_map] in *. exists q. split; [congruence|].
      unfold pix. apply in_flat_map. exists (i, j). split; auto. eapply nth_error_In; eauto.
Qed.
End Find.

(** A 4 x 6 image in super-pixels of side 2 *)
Definition case_image : list (list nat) := map (fun i => map (fun j => 10 * i + j) (seq 0 6)) (seq 0 4).
Example C26_case : divides 2 4 6 /\ small 4 6 /\ rect case_image 4 6 /\
  get2 (superpixelize 2 case_image case_image) 1 2 = Some [24; 25; 34; 35; 24; 25; 34; 35] /\
  get2 (fst (pixel_coordinates 2 4 6)) 1 2 = Some [2; 2; 3; 3]%Z /\ get2 (snd (pixel_coordinates 2 4 6)) 1 2 = Some [4; 5; 4; 5]%Z /\
  get2 (superpixel_corners 2 4 6) 1 2 = Some [(2, 4); (3, 4); (3, 5); (2, 5)]%Z.
Proof. split; [repeat split; lia|]. split; [split; simpl; lia|]. split; [split; [reflexivity|repeat constructor]|]. repeat split. Qed.
Print Assumptions C26_coordinates_match.
Print Assumptions C26_each_pixel_once.
Print Assumptions C26_corners.
Print Assumptions C26_large_image_refuted.
Print Assumptions C26_region_pixels.
