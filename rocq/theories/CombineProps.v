(** C40: images and catalogs combined from patches. *)
From Verif Require Import Np NpFacts CombineModel.
Open Scope nat_scope.

(** The value that a list of writes leaves at [k]: that of the last write there, if any. *)
Inductive latest {K V} (ws : list (K * V)) (k : K) : option V -> Prop :=
| latest_none : (forall v, ~ In (k, v) ws) -> latest ws k None
| latest_some pre v post : ws = (pre ++ (k, v) :: post)%list -> (forall w, ~ In (k, w) post) -> latest ws k (Some v).
Definition cell {V} (im : image V) (x y : nat) : option (option V) :=
  match nth_error (cells im) x with Some row => nth_error row y | None => None end.
Definition wf_image {V} (im : image V) : Prop := List.length (cells im) = nx im /\ forall row, In row (cells im) -> List.length row = ny im.
Definition fits_in (shape : nat * nat) (x y : Z) : Prop := (0 <= x < Z.of_nat (fst shape))%Z /\ (0 <= y < Z.of_nat (snd shape))%Z.
Definition shape_of {V} (im : image V) : nat * nat := (nx im, ny im).

(** ** Last writes, computed *)
Definition pt_eqb (a b : Z * Z) : bool := ((fst a =? fst b) && (snd a =? snd b))%Z%bool.
Lemma pt_eqb_eq a b : pt_eqb a b = true <-> a = b.
Proof. destruct a as [a1 a2], b as [b1 b2]. unfold pt_eqb. cbn [fst snd]. rewrite andb_true_iff, !Z.eqb_eq. split; [intros [-> ->]; auto|intros E; injection E; auto]. Qed.
Section Last.
  Context {K V : Type} (eqb : K -> K -> bool) (eqb_eq : forall a b, eqb a b = true <-> a = b).
  Definition last_from (acc : option V) (ws : list (K * V)) (k : K) : option V :=
    fold_left (fun acc w => if eqb (fst w) k then Some (snd w) else acc) ws acc.
  Lemma last_from_none (ws : list (K * V)) k : (forall v, ~ In (k, v) ws) -> forall acc, last_from acc ws k = acc.
  Proof.
    induction ws as [|[j v] ws IH]; intros H acc; [reflexivity|]. unfold last_from in *. cbn [fold_left fst snd]. destruct (eqb j k) eqn:E.
    - apply eqb_eq in E. subst. exfalso. apply (H v). simpl. auto.
    - apply IH. intros w Hw. apply (H w). simpl. auto.
  Qed.
  Lemma last_from_latest (ws : list (K * V)) k r : latest ws k r -> forall acc, last_from acc ws k = match r with Some v => Some v | None => acc end.
  Proof.
    intros [H|pre v post -> H] acc; [now apply last_from_none|]. unfold last_from. rewrite fold_left_app. cbn [fold_left fst snd]. replace (eqb k k) with true by (symmetry; now apply eqb_eq). now apply last_from_none.
  Qed.
  Lemma latest_ex (ws : list (K * V)) k : exists r, latest ws k r.
  Proof.
    induction ws as [|[j v] ws (r & IH)] using rev_ind; [exists None; constructor; auto|]. destruct (eqb j k) eqn:E.
    - apply eqb_eq in E. subst. exists (Some v). apply (latest_some _ _ ws v []); auto.
    - assert (N : j <> k) by (intros X; apply eqb_eq in X; congruence). destruct IH as [H|pre w post -> H].
      + exists None. constructor. intros w Hw. apply in_app_or in Hw. destruct Hw as [Hw|[Hw|[]]]; [exact (H w Hw)|congruence].
      + exists (Some w). apply (latest_some _ _ pre w (post ++ [(j, v)])); [now rewrite <- app_assoc|]. intros u Hu. apply in_app_or in Hu. destruct Hu as [Hu|[Hu|[]]]; [exact (H u Hu)|congruence].
  Qed.
End Last.

(** ** Images *)
Lemma nan_image_spec {V} (s : nat * nat) : wf_image (@nan_image V s) /\ shape_of (@nan_image V s) = s /\ forall x y, x < fst s -> y < snd s -> cell (@nan_image V s) x y = Some None.
Proof.
  unfold nan_image, wf_image, shape_of, cell. cbn [nx ny cells]. split; [split; [apply repeat_length|intros row H; apply repeat_spec in H; subst; apply repeat_length]|]. split; [now destruct s|].
  intros x y Hx Hy. assert (R : forall {A} (a : A) n i, i < n -> nth_error (repeat a n) i = Some a) by (clear; intros A a; induction n as [|n IH]; intros [|i] H; simpl; try lia; auto; apply IH; lia). rewrite R by auto. now apply R.
Qed.
Lemma write1_at {V} (im : image V) x y v a b : wf_image im -> np_index (nx im) x = Some a -> np_index (ny im) y = Some b ->
  exists im', write1 im (x, y, v) = Some im' /\ wf_image im' /\ shape_of im' = shape_of im /\
    forall i j, i < nx im -> j < ny im -> cell im' i j = if ((a =? i) && (b =? j))%bool then Some (Some v) else cell im i j.
Proof.
  intros [L R] Ex Ey. unfold write1. rewrite Ex, Ey. pose proof (np_index_Some _ _ _ Ex) as Ha. pose proof (np_index_Some _ _ _ Ey) as Hb.
  eexists. split; [reflexivity|]. assert (Hr : nth_error (cells im) a = Some (nth a (cells im) [])) by (apply nth_error_nth'; lia). assert (Lr : List.length (nth a (cells im) []) = ny im) by (apply R; eapply nth_error_In; eauto).
  split; [|split; [reflexivity|]].
  - split; cbn [cells nx ny]; [now rewrite upd_length|]. intros row Hrow. apply In_nth_error in Hrow. destruct Hrow as (k & Hk). rewrite nth_error_upd in Hk. destruct (Nat.eqb_spec a k) as [E|N].
    + subst k. destruct (Nat.ltb_spec a (List.length (cells im))); [|lia]. injection Hk as <-. now rewrite upd_length.
    + apply R. eapply nth_error_In; eauto.
  - intros i j Hi Hj. unfold cell. cbn [cells]. rewrite nth_error_upd. destruct (Nat.eqb_spec a i) as [E|N]; [|reflexivity]. subst i. destruct (Nat.ltb_spec a (List.length (cells im))); [|lia]. rewrite Hr, nth_error_upd. cbn [andb]. destruct (Nat.eqb_spec b j) as [E|N]; [|reflexivity].
    subst j. destruct (Nat.ltb_spec b (List.length (nth a (cells im) []))); [reflexivity|lia].
Qed.
Lemma write1_spec {V} (im : image V) x y v : wf_image im -> fits_in (shape_of im) x y ->
  exists im', write1 im (x, y, v) = Some im' /\ wf_image im' /\ shape_of im' = shape_of im /\
    forall i j, i < nx im -> j < ny im -> cell im' i j = if pt_eqb (x, y) (Z.of_nat i, Z.of_nat j) then Some (Some v) else cell im i j.
Proof.
  intros W [Hx Hy]. cbn [shape_of fst snd] in *. assert (Ex : np_index (nx im) x = Some (Z.to_nat x)) by (rewrite <- (Z2Nat.id x) at 1 by lia; apply np_index_nat; lia). assert (Ey : np_index (ny im) y = Some (Z.to_nat y)) by (rewrite <- (Z2Nat.id y) at 1 by lia; apply np_index_nat; lia).
  destruct (write1_at im x y v _ _ W Ex Ey) as (im' & E & W' & S' & C). exists im'. split; auto. split; auto. split; auto. intros i j Hi Hj. rewrite C by auto. unfold pt_eqb. cbn [fst snd].
  replace (Z.to_nat x =? i) with (x =? Z.of_nat i)%Z by (destruct (Z.eqb_spec x (Z.of_nat i)), (Nat.eqb_spec (Z.to_nat x) i); auto; lia). replace (Z.to_nat y =? j) with (y =? Z.of_nat j)%Z by (destruct (Z.eqb_spec y (Z.of_nat j)), (Nat.eqb_spec (Z.to_nat y) j); auto; lia). reflexivity.
Qed.
Lemma writes_spec {V} (ws : list (Z * Z * V)) : forall im, wf_image im -> (forall x y v, In (x, y, v) ws -> fits_in (shape_of im) x y) ->
  exists im', writes im ws = Some im' /\ wf_image im' /\ shape_of im' = shape_of im /\
    forall i j, i < nx im -> j < ny im -> cell im' i j = match last_from pt_eqb None ws (Z.of_nat i, Z.of_nat j) with Some v => Some (Some v) | None => cell im i j end.
Proof.
  induction ws as [|[[x y] v] ws IH]; intros im W H.
  - exists im. unfold writes. simpl. auto.
  - destruct (write1_spec im x y v W (H x y v (or_introl eq_refl))) as (im1 & E1 & W1 & S1 & C1). destruct (IH im1 W1) as (im2 & E2 & W2 & S2 & C2). { intros x' y' v' Hin. rewrite S1. apply (H x' y' v'). simpl. auto. }
    exists im2. split; [unfold writes in *; cbn [fold_left]; now rewrite E1|]. split; auto. split; [congruence|]. unfold shape_of in S1. injection S1 as S1 S1'. intros i j Hi Hj. rewrite C2 by lia. rewrite C1 by auto. unfold last_from. cbn [fold_left fst snd].
    assert (F : forall acc, fold_left (fun (acc : option V) (w : Z * Z * V) => if pt_eqb (fst w) (Z.of_nat i, Z.of_nat j) then Some (snd w) else acc) ws acc = match fold_left (fun (acc : option V) (w : Z * Z * V) => if pt_eqb (fst w) (Z.of_nat i, Z.of_nat j) then Some (snd w) else acc) ws None with Some u => Some u | None => acc end).
    { clear. induction ws as [|w ws IH]; intros acc; [reflexivity|]. cbn [fold_left]. rewrite IH. rewrite (IH (if pt_eqb _ _ then _ else None)). destruct (fold_left _ ws None); auto. destruct (pt_eqb _ _); auto. }
    rewrite (F (if pt_eqb (x, y) _ then Some v else None)). destruct (fold_left _ ws None); auto. destruct (pt_eqb _ _); auto.
Qed.

(** ** fill_images *)
(** All pixels written to exposure [e], in order *)
Definition pixels_of {V} (exps : list (exposure V)) (e : string) : list (Z * Z * V) :=
  flat_map (fun x => if String.eqb (ename x) e then zip3 (exs x) (eys x) (evals x) else []) exps.
Definition good_exp {V} (shape : string -> nat * nat) (x : exposure V) : Prop :=
  List.length (exs x) = List.length (eys x) /\ List.length (exs x) = List.length (evals x) /\
  forall px py v, In (px, py, v) (zip3 (exs x) (eys x) (evals x)) -> fits_in (shape (ename x)) px py.
(** The image sizes: all from headers, or all the size asked for *)
Definition sizes (hdr : string -> option (nat * nat)) (imshape : nat * nat) (shape : string -> nat * nat) (names : list string) : Prop :=
  (forall e, In e names -> hdr e = Some (shape e)) \/ (forall e, In e names -> hdr e = None /\ shape e = imshape).
Lemma look_store {V} (ims : images V) e im f : look (store ims e im) f = if String.eqb e f then Some im else look ims f.
Proof.
  induction ims as [|[g i] t IH]; simpl; auto. destruct (String.eqb_spec g e) as [->|N]; simpl.
  - destruct (String.eqb_spec e f); auto.
  - destruct (String.eqb_spec g f) as [->|N']; auto. destruct (String.eqb_spec e f); congruence.
Qed.
Section Fill.
  Context {V : Type} (hdr : string -> option (nat * nat)) (imshape0 : nat * nat) (shape : string -> nat * nat) (names : list string).
  Hypothesis sz : sizes hdr imshape0 shape names.
  Definition filled (done : list (exposure V)) (ims : images V) : Prop := forall e,
    match look ims e with
    | None => forall x, In x done -> ename x <> e
    | Some im => In e names /\ wf_image im /\ shape_of im = shape e /\
                 forall i j, i < fst (shape e) -> j < snd (shape e) -> cell im i j = Some (last_from pt_eqb None (pixels_of done e) (Z.of_nat i, Z.of_nat j))
    end.
  Definition sane (s : nat * nat) : Prop := (forall e, In e names -> hdr e = Some (shape e)) \/ ((forall e, In e names -> hdr e = None /\ shape e = imshape0) /\ s = imshape0).
  Lemma fill_one_spec done ims s x : filled done ims -> sane s -> In (ename x) names -> good_exp shape x ->
    exists ims' s', fill_one hdr (Some (ims, s)) x = Some (ims', s') /\ filled (done ++ [x]) ims' /\ sane s'.
  Proof using sz.
    intros F S N (L1 & L2 & P). unfold fill_one.
    assert (G : exists ims1 s1 im1, (match look ims (ename x) with Some _ => (ims, s) | None => let i := match hdr (ename x) with Some q => q | None => s end in (store ims (ename x) (nan_image i), i) end) = (ims1, s1) /\ sane s1 /\ look ims1 (ename x) = Some im1 /\ wf_image im1 /\ shape_of im1 = shape (ename x) /\
      (forall i j, i < fst (shape (ename x)) -> j < snd (shape (ename x)) -> cell im1 i j = Some (last_from pt_eqb None (pixels_of done (ename x)) (Z.of_nat i, Z.of_nat j))) /\ (forall e, ename x <> e -> look ims1 e = look ims e)).
    { destruct (look ims (ename x)) as [im|] eqn:E.
      - exists ims, s, im. pose proof (F (ename x)) as Fx. rewrite E in Fx. destruct Fx as (_ & W & Sh & C). auto 10.
      - pose proof (F (ename x)) as Fx. rewrite E in Fx. assert (Es : (match hdr (ename x) with Some q => q | None => s end) = shape (ename x)).
        { destruct S as [S|[S ->]]; [now rewrite (S _ N)|]. destruct (S _ N) as [-> <-]. reflexivity. }
        cbv zeta. rewrite Es. destruct (@nan_image_spec V (shape (ename x))) as (W & Sh & C). exists (store ims (ename x) (nan_image (shape (ename x)))), (shape (ename x)), (nan_image (shape (ename x))). split; auto. split; [destruct S as [S|[S ->]]; [left; exact S|right; split; auto; now apply S]|].
        rewrite look_store, String.eqb_refl. split; auto. split; auto. split; auto. split.
        + intros i j Hi Hj. rewrite C by auto. f_equal. rewrite last_from_none; [reflexivity|apply pt_eqb_eq|]. intros v Hv. unfold pixels_of in Hv. apply in_flat_map in Hv. destruct Hv as (x' & Hx & Hv). specialize (Fx x' Hx). apply String.eqb_neq in Fx. rewrite Fx in Hv. contradiction.
        + intros e Ne. rewrite look_store. apply String.eqb_neq in Ne. now rewrite Ne. }
    destruct G as (ims1 & s1 & im1 & E1 & S1 & Lk & W1 & Sh1 & C1 & O1). cbv zeta in E1. rewrite E1, Lk. unfold assign. rewrite <- L1, <- L2, Nat.eqb_refl. cbn [andb].
    destruct (writes_spec (zip3 (exs x) (eys x) (evals x)) im1 W1) as (im2 & E2 & W2 & Sh2 & C2). { intros px py v Hv. rewrite Sh1. eauto. }
    rewrite E2. exists (store ims1 (ename x) im2), s1. split; auto. split; auto. intros e. rewrite look_store. destruct (String.eqb_spec (ename x) e) as [<-|Ne].
    - split; auto. split; auto. split; [congruence|]. intros i j Hi Hj. assert (Hn : nx im1 = fst (shape (ename x)) /\ ny im1 = snd (shape (ename x))) by (rewrite <- Sh1; auto). destruct Hn as [Hn1 Hn2]. rewrite C2, C1 by lia. unfold pixels_of at 2. rewrite flat_map_app. cbn [flat_map]. rewrite String.eqb_refl, app_nil_r. unfold last_from at 3. rewrite fold_left_app. fold (pixels_of done (ename x)).
      destruct (latest_ex pt_eqb pt_eqb_eq (zip3 (exs x) (eys x) (evals x)) (Z.of_nat i, Z.of_nat j)) as (r & Hr). pose proof (last_from_latest pt_eqb pt_eqb_eq _ _ _ Hr) as Q. rewrite Q. unfold last_from in Q. rewrite Q. destruct r; reflexivity.
    - rewrite O1 by auto. pose proof (F e) as Fe. assert (Px : pixels_of (done ++ [x]) e = pixels_of done e). { unfold pixels_of. rewrite flat_map_app. cbn [flat_map]. apply String.eqb_neq in Ne. rewrite Ne. now rewrite app_nil_r. }
      destruct (look ims e); [rewrite Px; exact Fe|]. intros x' Hx. apply in_app_or in Hx. destruct Hx as [Hx|[<-|[]]]; auto.
  Qed.
  Lemma fill_images_spec exps : forall done ims s, filled done ims -> sane s -> (forall x, In x exps -> In (ename x) names /\ good_exp shape x) ->
    exists ims' s', fold_left (fill_one hdr) exps (Some (ims, s)) = Some (ims', s') /\ filled (done ++ exps) ims'.
  Proof using sz.
    induction exps as [|x exps IH]; intros done ims s F S H; [exists ims, s; rewrite app_nil_r; auto|]. destruct (H x (or_introl eq_refl)) as [N G]. destruct (fill_one_spec done ims s x F S N G) as (ims1 & s1 & E1 & F1 & S1).
    destruct (IH (done ++ [x]) ims1 s1 F1 S1) as (ims2 & s2 & E2 & F2); [intros; apply H; simpl; auto|]. exists ims2, s2. cbn [fold_left]. rewrite E1. split; auto. now rewrite <- app_assoc in F2.
  Qed.
  Lemma fill_patches_spec patches : forall done ims, filled done ims -> (forall p x, In p patches -> In x p -> In (ename x) names /\ good_exp shape x) ->
    exists ims', fill_patches hdr imshape0 ims patches = Some ims' /\ filled (done ++ concat patches) ims'.
  Proof using sz.
    induction patches as [|p patches IH]; intros done ims F H; [exists ims; rewrite app_nil_r; auto|].
    destruct (fill_images_spec p done ims imshape0 F) as (ims1 & s1 & E1 & F1); [destruct sz as [Z1|Z1]; [left; auto|right; auto]|intros x Hx; apply (H p); simpl; auto|].
    destruct (IH (done ++ p) ims1 F1) as (ims2 & E2 & F2); [intros q x Hq Hx; apply (H q); simpl; auto|]. exists ims2. unfold fill_patches, fill_images in *. cbn [fold_left]. rewrite E1. cbn [option_map fst]. split; auto. cbn [concat]. now rewrite app_assoc.
  Qed.
End Fill.
(** For every list of patches, each with any exposures and pixels, whose pixels lie in their
    images: the combined image of each exposure has at every pixel the value from the
    last patch that has the pixel, and NaN where none has it. *)
Theorem C40_images_partial : forall V hdr imshape shape (patches : list (list (exposure V))),
  sizes hdr imshape shape (map ename (concat patches)) ->
  (forall x, In x (concat patches) -> good_exp shape x) ->
  exists ims, fill_patches hdr imshape [] patches = Some ims /\
    forall x, In x (concat patches) -> exists im, look ims (ename x) = Some im /\ (nx im, ny im) = shape (ename x) /\
      forall i j r, i < nx im -> j < ny im -> latest (pixels_of (concat patches) (ename x)) (Z.of_nat i, Z.of_nat j) r -> cell im i j = Some r.
Proof.
  intros V hdr imshape shape patches S G. destruct (fill_patches_spec hdr imshape shape _ S patches [] []) as (ims & E & F).
  - intros e. simpl. auto.
  - intros p x Hp Hx. assert (Hc : In x (concat patches)) by (apply in_concat; eauto). split; auto. now apply in_map.
  - exists ims. split; auto. intros x Hx. specialize (F (ename x)). cbn [app] in F. destruct (look ims (ename x)) as [im|]; [|exfalso; exact (F x Hx eq_refl)]. destruct F as (_ & _ & Sh & C). exists im. split; auto. split; auto. unfold shape_of in Sh. rewrite <- Sh in C. cbn [fst snd] in C.
    intros i j r Hi Hj L. rewrite C by auto. f_equal. rewrite (last_from_latest pt_eqb pt_eqb_eq _ _ _ L). now destruct r.
Qed.
(** A pixel of padding, stored at (-1, -1), is written over the last pixel of the image,
    whatever that pixel held. *)
Lemma minus_one k : np_index (S k) (-1)%Z = Some k.
Proof.
  unfold np_index. replace (0 <=? -1)%Z with false by reflexivity. replace (-1 <? 0)%Z with true by reflexivity. cbn [andb]. destruct (Z.leb_spec (- Z.of_nat (S k)) (-1)); [|lia]. cbn [andb]. f_equal. lia.
Qed.
Theorem C40_padding_refuted : forall V (a pad : V) m n,
  exists ims im, fill_patches (fun _ => None) (S m, S n) [] [[mkExp "e"%string [Z.of_nat m; -1]%Z [Z.of_nat n; -1]%Z [a; pad]]] = Some ims /\
    look ims "e"%string = Some im /\ cell im m n = Some (Some pad).
Proof.
  intros V a pad m n. destruct (@nan_image_spec V (S m, S n)) as (W0 & S0 & _).
  destruct (write1_at (@nan_image V (S m, S n)) (Z.of_nat m) (Z.of_nat n) a m n W0) as (im1 & E1 & W1 & S1 & _); [apply np_index_nat; cbn; lia|apply np_index_nat; cbn; lia|].
  rewrite S0 in S1. unfold shape_of in S1. injection S1 as Sx Sy.
  destruct (write1_at im1 (-1) (-1) pad m n W1) as (im2 & E2 & _ & _ & C2); [rewrite Sx; apply minus_one|rewrite Sy; apply minus_one|].
  exists [("e"%string, im2)], im2. split; [|split; [reflexivity|]].
  - unfold fill_patches, fill_images, fill_one, assign, zip3, writes. cbn [fold_left look store ename String.eqb Ascii.eqb Bool.eqb exs eys evals List.length combine Nat.eqb andb]. rewrite E1, E2. reflexivity.
  - rewrite C2 by lia. now rewrite !Nat.eqb_refl.
Qed.
(** A size taken from one exposure's header is used for the next exposure that has none,
    though the caller asked for a larger one: its pixels do not fit and the call fails. *)
Theorem C40_leaked_shape_refuted : forall V (a b : V) m n hdr, hdr "e1"%string = Some (S m, S m) -> hdr "e2"%string = None -> m < n ->
  fill_images hdr (S n, S n) [] [mkExp "e2"%string [Z.of_nat n] [0%Z] [b]] <> None /\
  fill_images hdr (S n, S n) [] [mkExp "e1"%string [0%Z] [0%Z] [a]; mkExp "e2"%string [Z.of_nat n] [0%Z] [b]] = None.
Proof.
  intros V a b m n hdr H1 H2 Hmn. unfold fill_images, fill_one, assign, zip3, writes. cbn [fold_left look store ename exs eys evals List.length combine Nat.eqb andb]. rewrite H2. split.
  - destruct (write1_at (@nan_image V (S n, S n)) (Z.of_nat n) 0 b n 0) as (im & E & _); [apply nan_image_spec|apply np_index_nat; cbn; lia|apply (np_index_nat (S n) 0); lia|]. cbn [String.eqb Ascii.eqb Bool.eqb]. rewrite E. discriminate.
  - rewrite H1. cbn [String.eqb Ascii.eqb Bool.eqb]. destruct (write1_at (@nan_image V (S m, S m)) 0 0 a 0 0) as (im & E & _); [apply nan_image_spec|apply (np_index_nat (S m) 0); lia|apply (np_index_nat (S m) 0); lia|]. rewrite E. cbn [look store String.eqb Ascii.eqb Bool.eqb].
    unfold write1. cbn [nan_image nx ny fst snd]. assert (E' : np_index (S m) (Z.of_nat n) = None); [|now rewrite E']. unfold np_index. destruct (Z.ltb_spec (Z.of_nat n) (Z.of_nat (S m))); [lia|]. rewrite andb_false_r. destruct (Z.ltb_spec (Z.of_nat n) 0); [lia|]. now rewrite andb_false_r.
Qed.
(** Two runs combined one after the other without passing a dictionary share one: the
    second run's image has the first run's pixel. *)
Theorem C40_shared_default_refuted : forall V (a b : V) hdr, hdr "e"%string = None ->
  exists first second im, fill_default hdr (2, 2) [] [mkExp "e"%string [0%Z] [0%Z] [a]] = Some first /\
    fill_default hdr (2, 2) first [mkExp "e"%string [1%Z] [1%Z] [b]] = Some second /\ look second "e"%string = Some im /\ cell im 0 0 = Some (Some a).
Proof.
  intros V a b hdr E. do 3 eexists. unfold fill_default, fill_images, fill_one, assign, zip3, writes. cbn [fold_left look store ename exs eys evals List.length combine Nat.eqb andb String.eqb Ascii.eqb Bool.eqb]. rewrite E. cbn. repeat split.
Qed.
