From Verif Require Import Np NpFacts StoreModel.
From Coq Require Import ZArith.

Definition rect {A} (im : list (list A)) (nx ny : nat) : Prop := List.length im = nx /\ Forall (fun row => List.length row = ny) im.

Lemma rect_shape {A} (im : list (list A)) nx ny : rect im nx ny -> 0 < nx -> shape im = (nx, ny).
Proof. intros [<- H] Hn. unfold shape. destruct im as [|r im]; [simpl in Hn; lia|]. inversion H; subst. reflexivity. Qed.
Lemma rect_get {A} (im : list (list A)) nx ny x y : rect im nx ny -> x < nx -> y < ny -> exists v, get2 im x y = Some v.
Proof.
  intros [<- H] Hx Hy. unfold get2. destruct (nth_error im x) as [row|] eqn:E; [|apply nth_error_None in E; lia].
  rewrite Forall_forall in H. specialize (H row (nth_error_In _ _ E)). destruct (nth_error row y) eqn:E2; eauto. apply nth_error_None in E2. lia.
Qed.
Lemma rect_map {A B} (f : A -> B) im nx ny : rect im nx ny -> rect (map (map f) im) nx ny.
Proof. intros [H1 H2]. split; [now rewrite map_length|]. apply Forall_map. eapply Forall_impl; [|exact H2]. intros r Hr. now rewrite map_length. Qed.
Lemma get2_map {A B} (f : A -> B) im i j : get2 (map (map f) im) i j = option_map f (get2 im i j).
Proof. unfold get2. rewrite nth_error_map. destruct (nth_error im i); simpl; auto. apply nth_error_map. Qed.

Lemma nth_flat_const {A B} (g : A -> list B) s l : (forall x, In x l -> List.length (g x) = s) -> forall a b, b < s ->
  nth_error (flat_map g l) (a * s + b) = match nth_error l a with Some x => nth_error (g x) b | None => None end.
Proof.
  induction l as [|x l IH]; intros H a b Hb; [cbn [flat_map]; destruct (a * s + b); destruct a; reflexivity|].
  assert (Hx : List.length (g x) = s) by (apply H; simpl; auto). destruct a as [|a]; cbn [flat_map nth_error].
  - rewrite Nat.mul_0_l, Nat.add_0_l. apply nth_error_app1. lia.
  - rewrite nth_error_app2 by lia. replace (S a * s + b - List.length (g x)) with (a * s + b) by lia. apply IH; auto. intros; apply H; simpl; auto.
Qed.
Lemma flat_const_length {A B} (g : A -> list B) s l : (forall x, In x l -> List.length (g x) = s) -> List.length (flat_map g l) = List.length l * s.
Proof. induction l as [|x l IH]; intros H; cbn [flat_map]; auto. rewrite app_length, IH, (H x); simpl; auto. intros; apply H; simpl; auto. Qed.

Lemma in_slice {A} s I (l : list A) x : In x (firstn s (skipn I l)) -> In x l.
Proof. intros H. rewrite <- (firstn_skipn I l). apply in_or_app. right. rewrite <- (firstn_skipn s (skipn I l)). apply in_or_app. now left. Qed.

Section Block.
Context {A : Type}.
Variables (s nx ny I J : nat) (im : list (list A)).
Hypotheses (R : rect im nx ny) (HI : I + s <= nx) (HJ : J + s <= ny).
Lemma slice_row r : In r (firstn s (skipn I im)) -> List.length (firstn s (skipn J r)) = s.
Proof. intros H. apply in_slice in H. destruct R as [_ F]. rewrite Forall_forall in F. specialize (F r H). rewrite firstn_length, skipn_length. lia. Qed.
Lemma block_length : List.length (block s I J im) = s * s.
Proof. unfold block. rewrite (flat_const_length _ s) by apply slice_row. rewrite firstn_length, skipn_length. destruct R as [<- _]. rewrite Nat.min_l by lia. reflexivity. Qed.
Lemma block_nth a b : a < s -> b < s -> nth_error (block s I J im) (a * s + b) = get2 im (I + a) (J + b).
Proof.
  intros Ha Hb. unfold block. rewrite (nth_flat_const _ s) by (auto using slice_row). rewrite nth_error_firstn, nth_error_skipn by auto.
  unfold get2. destruct (nth_error im (I + a)); auto. now rewrite nth_error_firstn, nth_error_skipn.
Qed.
End Block.

(** The pixels of super-pixel (i, j), in storage order *)
Definition pixels_of (s : nat) (p : nat * nat) : list (nat * nat) :=
  flat_map (fun a => map (fun b => (fst p * s + a, snd p * s + b)) (seq 0 s)) (seq 0 s).
Lemma pixels_of_nth s p a b : a < s -> b < s -> nth_error (pixels_of s p) (a * s + b) = Some (fst p * s + a, snd p * s + b).
Proof.
  intros Ha Hb. unfold pixels_of. rewrite (nth_flat_const _ s) by (auto; intros; now rewrite map_length, seq_length).
  rewrite (nth_error_nth' _ 0) by (rewrite seq_length; lia). rewrite seq_nth by lia. rewrite nth_error_map, (nth_error_nth' _ 0) by (rewrite seq_length; lia).
  now rewrite seq_nth by lia.
Qed.
Lemma pixels_of_length s p : List.length (pixels_of s p) = s * s.
Proof. unfold pixels_of. rewrite (flat_const_length _ s); [now rewrite seq_length|]. intros. now rewrite map_length, seq_length. Qed.
Lemma in_pixels_of s p x y : 0 < s -> In (x, y) (pixels_of s p) <-> x / s = fst p /\ y / s = snd p.
Proof.
  intros Hs. unfold pixels_of. rewrite in_flat_map. split.
  - intros (a & Ha & H). apply in_map_iff in H. destruct H as (b & E & Hb). apply in_seq in Ha, Hb. injection E as <- <-.
    split; rewrite Nat.div_add_l by lia; rewrite Nat.div_small by lia; lia.
  - intros [<- <-]. exists (x mod s). pose proof (Nat.div_mod x s). pose proof (Nat.div_mod y s).
    pose proof (Nat.mod_upper_bound x s). pose proof (Nat.mod_upper_bound y s). split; [apply in_seq; lia|]. apply in_map_iff. exists (y mod s).
    split; [f_equal; lia|apply in_seq; lia].
Qed.
Lemma nodup_flat_map {A B} (g : A -> list B) l : NoDup l -> (forall x, In x l -> NoDup (g x)) ->
  (forall x y z, In x l -> In y l -> In z (g x) -> In z (g y) -> x = y) -> NoDup (flat_map g l).
Proof.
  induction l as [|x l IH]; intros ND H1 H2; cbn [flat_map]; [constructor|]. inversion ND; subst.
  assert (Happ : forall u v : list B, NoDup u -> NoDup v -> (forall z, In z u -> ~ In z v) -> NoDup (u ++ v)).
  { induction u as [|w u IHu]; simpl; intros v Hu Hv Hd; auto. inversion Hu; subst. constructor.
    - rewrite in_app_iff. intros [Hin|Hin]; [contradiction|]. eapply Hd; eauto.
    - apply IHu; auto. }
  apply Happ.
  - apply H1. simpl. auto.
  - apply IH; auto; intros; [apply H1; simpl; auto|]. eapply H2; simpl; eauto.
  - intros z Hz Hz2. apply in_flat_map in Hz2. destruct Hz2 as (y & Hy & Hz2). assert (x = y) by (eapply H2; simpl; eauto). subst. contradiction.
Qed.
Lemma pixels_of_nodup s p : 0 < s -> NoDup (pixels_of s p).
Proof.
  intros Hs. unfold pixels_of. apply nodup_flat_map; [apply seq_NoDup| |].
  - intros a _. apply FinFun.Injective_map_NoDup; [|apply seq_NoDup]. intros u v E. injection E as E. lia.
  - intros a b z _ _ Ha Hb. apply in_map_iff in Ha, Hb. destruct Ha as (u & <- & _), Hb as (v & E & _). injection E as E _. lia.
Qed.

(** A block is the image read at the pixels of the super-pixel. *)
Lemma block_pixels {A} s nx ny i j (im : list (list A)) : rect im nx ny -> 0 < s -> i < nx / s -> j < ny / s ->
  map Some (block s (i * s) (j * s) im) = map (fun p => get2 im (fst p) (snd p)) (pixels_of s (i, j)).
Proof.
  intros R Hs Hi Hj. assert (HI : i * s + s <= nx) by (pose proof (Nat.mul_div_le nx s); nia). assert (HJ : j * s + s <= ny) by (pose proof (Nat.mul_div_le ny s); nia).
  apply nth_error_ext. intros k. rewrite !nth_error_map. destruct (Nat.lt_ge_cases k (s * s)) as [Hk|Hk].
  - pose proof (Nat.mod_upper_bound k s). assert (Hd : k / s < s) by (apply Nat.div_lt_upper_bound; lia).
    rewrite (Nat.div_mod k s), (Nat.mul_comm s) by lia. rewrite (block_nth s nx ny) by (auto; lia). rewrite pixels_of_nth by lia. simpl.
    destruct (rect_get im nx ny (i * s + k / s) (j * s + k mod s) R) as (v & ->); try lia. reflexivity.
  - replace (nth_error (block s (i * s) (j * s) im) k) with (@None A) by (symmetry; apply nth_error_None; rewrite (block_length s nx ny) by auto; lia).
    replace (nth_error (pixels_of s (i, j)) k) with (@None (nat * nat)) by (symmetry; apply nth_error_None; rewrite pixels_of_length; lia). reflexivity.
Qed.

Lemma get2_tab {A} (f : nat -> nat -> A) n m i j : get2 (map (fun ii => map (fun jj => f ii jj) (seq 0 m)) (seq 0 n)) i j = if (i <? n) && (j <? m) then Some (f i j) else None.
Proof.
  unfold get2. rewrite nth_error_map. destruct (Nat.ltb_spec i n) as [Hi|Hi].
  - rewrite (nth_error_nth' _ 0) by (rewrite seq_length; lia). rewrite seq_nth by lia. cbn [option_map]. rewrite nth_error_map. destruct (Nat.ltb_spec j m) as [Hj|Hj].
    + rewrite (nth_error_nth' _ 0) by (rewrite seq_length; lia). now rewrite seq_nth by lia.
    + replace (nth_error (seq 0 m) j) with (@None nat) by (symmetry; apply nth_error_None; rewrite seq_length; lia). reflexivity.
  - replace (nth_error (seq 0 n) i) with (@None nat) by (symmetry; apply nth_error_None; rewrite seq_length; lia). reflexivity.
Qed.
Lemma superpixelize_get {A} s nx ny (im ierr : list (list A)) i j : rect im nx ny -> 0 < s -> i < nx / s -> j < ny / s ->
  get2 (superpixelize s im ierr) i j = Some (block s (i * s) (j * s) im ++ block s (i * s) (j * s) ierr).
Proof.
  intros R Hs Hi Hj. assert (Hn : 0 < nx) by (destruct nx; [rewrite Nat.div_0_l in Hi by lia|]; lia).
  unfold superpixelize. rewrite (rect_shape im nx ny R Hn). rewrite get2_tab.
  destruct (Nat.ltb_spec i (nx / s)); [|lia]. destruct (Nat.ltb_spec j (ny / s)); [|lia]. reflexivity.
Qed.
Lemma mesh_x_rect nx ny : rect (mesh_x nx ny) nx ny.
Proof. unfold mesh_x. split; [now rewrite map_length, seq_length|]. apply Forall_map, Forall_forall. intros. now rewrite map_length, seq_length. Qed.
Lemma mesh_y_rect nx ny : rect (mesh_y nx ny) nx ny.
Proof. unfold mesh_y. split; [now rewrite map_length, seq_length|]. apply Forall_map, Forall_forall. intros. now rewrite map_length, seq_length. Qed.
Lemma mesh_x_get nx ny x y : x < nx -> y < ny -> get2 (mesh_x nx ny) x y = Some (Z.of_nat x).
Proof. intros Hx Hy. unfold mesh_x. rewrite (get2_tab (fun i _ => Z.of_nat i)). destruct (Nat.ltb_spec x nx); [|lia]. destruct (Nat.ltb_spec y ny); [|lia]. reflexivity. Qed.
Lemma mesh_y_get nx ny x y : x < nx -> y < ny -> get2 (mesh_y nx ny) x y = Some (Z.of_nat y).
Proof. intros Hx Hy. unfold mesh_y. rewrite (get2_tab (fun _ j => Z.of_nat j)). destruct (Nat.ltb_spec x nx); [|lia]. destruct (Nat.ltb_spec y ny); [|lia]. reflexivity. Qed.

Lemma map_Some_inj {A} (l m : list A) : map Some l = map Some m -> l = m.
Proof. revert m. induction l; destruct m; simpl; intros H; try discriminate; auto. injection H as -> H. f_equal. auto. Qed.
Lemma pixels_in_range s nx ny i j x y : 0 < s -> i < nx / s -> j < ny / s -> In (x, y) (pixels_of s (i, j)) -> x < nx /\ y < ny.
Proof.
  intros Hs Hi Hj H. apply in_pixels_of in H; auto. simpl in H. destruct H as [<- <-].
  pose proof (Nat.mul_div_le nx s). pose proof (Nat.mul_div_le ny s). pose proof (Nat.mul_succ_div_gt x s). pose proof (Nat.mul_succ_div_gt y s).
  split; nia.
Qed.
Lemma coords_block s nx ny i j : 0 < s -> i < nx / s -> j < ny / s ->
  block s (i * s) (j * s) (mesh_x nx ny) = map (fun p => Z.of_nat (fst p)) (pixels_of s (i, j)) /\
  block s (i * s) (j * s) (mesh_y nx ny) = map (fun p => Z.of_nat (snd p)) (pixels_of s (i, j)).
Proof.
  intros Hs Hi Hj. split; apply map_Some_inj; rewrite (block_pixels s nx ny) by (auto using mesh_x_rect, mesh_y_rect); rewrite map_map; apply map_ext_in; intros [x y] H;
    apply (pixels_in_range s nx ny) in H; auto; simpl; [apply mesh_x_get|apply mesh_y_get]; lia.
Qed.
Lemma int16_id z : (0 <= z < 32768)%Z -> int16 z = z.
Proof. intros H. unfold int16. rewrite Z.mod_small by lia. lia. Qed.

Lemma coords_get s nx ny i j : 0 < s -> i < nx / s -> j < ny / s ->
  get2 (fst (pixel_coordinates s nx ny)) i j = Some (map (fun p => int16 (Z.of_nat (fst p))) (pixels_of s (i, j))) /\
  get2 (snd (pixel_coordinates s nx ny)) i j = Some (map (fun p => int16 (Z.of_nat (snd p))) (pixels_of s (i, j))).
Proof.
  intros Hs Hi Hj. unfold pixel_coordinates. cbn [fst snd]. rewrite !get2_map, (superpixelize_get s nx ny) by (auto using mesh_x_rect). cbn [option_map].
  destruct (coords_block s nx ny i j Hs Hi Hj) as [-> ->].
  rewrite firstn_app, skipn_app, !map_length, !pixels_of_length, Nat.sub_diag, firstn_O, skipn_O, app_nil_r.
  rewrite firstn_all2 by (rewrite map_length, pixels_of_length; lia). rewrite skipn_all2 by (rewrite map_length, pixels_of_length; lia).
  cbn [app]. now rewrite !map_map.
Qed.
