(** C56: the images written for a run. *)
From Verif Require Import Np NpFacts CombineModel CombineProps ImagesModel.
From Coq Require Import Ascii.
Open Scope nat_scope.

(** ** File names *)
Lemma last_part_plain s : has_slash s = false -> last_part s = s.
Proof.
  destruct s as [|c t]; simpl; auto. intros H. apply orb_false_iff in H as [H1 H2]. now rewrite H2, H1.
Qed.
Lemma has_slash_app s t : has_slash (s ++ t) = (has_slash s || has_slash t)%bool.
Proof. induction s as [|c s IH]; simpl; auto. now rewrite IH, orb_assoc. Qed.
Lemma last_part_dir dir base : has_slash base = false -> last_part (dir ++ "/" ++ base) = base.
Proof.
  intros H. induction dir as [|c dir IH].
  - cbn [String.append last_part]. rewrite H. reflexivity.
  - change (last_part (String c (dir ++ "/" ++ base)) = base). cbn [last_part].
    assert (E : has_slash (dir ++ "/" ++ base) = true).
    { rewrite has_slash_app. cbn. apply orb_true_r. }
    rewrite E. exact IH.
Qed.
(** [s] has ".fits" somewhere *)
Definition has_ext (s : string) : Prop := exists a b, s = (a ++ ".fits" ++ b)%string.
Lemma prefix_app p s : prefix p s = true <-> exists b, s = (p ++ b)%string.
Proof.
  revert s. induction p as [|c p IH]; intros s.
  - split; [intros _; now exists s|intros _; destruct s; reflexivity].
  - destruct s as [|d s]; cbn [prefix].
    + split; [discriminate|]. intros (b & E). discriminate.
    + destruct (ascii_dec c d) as [->|N].
      * rewrite IH. split; intros (b & E); exists b; [now rewrite E|now injection E].
      * split; [discriminate|]. intros (b & E). injection E as E _. congruence.
Qed.
Lemma strip_plain s : ~ has_ext s -> strip 0 s = s.
Proof.
  induction s as [|c s IH]; intros H; [reflexivity|].
  cbn [strip]. destruct (prefix ".fits" (String c s)) eqn:E.
  - exfalso. apply prefix_app in E as (b & E). apply H. exists ""%string, b. exact E.
  - f_equal. apply IH. intros (a & b & E'). apply H. exists (String c a), b. now rewrite E'.
Qed.
Lemma strip_ext s : ~ has_ext s -> strip 0 (s ++ ".fits") = s.
Proof.
  induction s as [|c s IH]; intros H; [reflexivity|].
  cbn [String.append]. cbn [strip]. destruct (prefix ".fits" (String c (s ++ ".fits"))) eqn:E.
  - exfalso. apply prefix_app in E as (b & E).
    destruct s as [|c1 [|c2 [|c3 [|c4 s]]]]; try (cbn in E; congruence).
    apply H. exists ""%string, s. cbn in E |- *. congruence.
  - f_equal. apply IH. intros (a & b & E'). apply H. exists (String c a), b. now rewrite E'.
Qed.

Lemma out_file_inj root subdir n1 s1 n2 s2 :
  In s1 ["data"; "delta"; "model"; "chi"]%string -> In s2 ["data"; "delta"; "model"; "chi"]%string ->
  out_file root subdir n1 s1 = out_file root subdir n2 s2 -> exp_name n1 = exp_name n2 /\ s1 = s2.
Proof.
  intros H1 H2 E. unfold out_file in E.
  assert (L : forall r a b, (r ++ a)%string = (r ++ b)%string -> a = b).
  { clear. induction r as [|c r IH]; intros a b E; [exact E|]. injection E as E. auto. }
  apply L in E. injection E as E. apply L in E. injection E as E.
  assert (A : forall a b, list_ascii_of_string (a ++ b) = (list_ascii_of_string a ++ list_ascii_of_string b)%list).
  { clear. induction a as [|c a IH]; intros b; simpl; auto. now rewrite IH. }
  assert (R : forall b1 t1 b2 t2, (b1 ++ t1)%string = (b2 ++ t2)%string ->
    (rev (list_ascii_of_string t1) ++ rev (list_ascii_of_string b1) = rev (list_ascii_of_string t2) ++ rev (list_ascii_of_string b2))%list).
  { intros b1 t1 b2 t2 X. rewrite <- !rev_app_distr, <- !A. now rewrite X. }
  apply R in E. clear R L. generalize dependent (exp_name n1). generalize dependent (exp_name n2). intros e2 e1 E.
  assert (J : forall a b, rev (list_ascii_of_string a) = rev (list_ascii_of_string b) -> a = b).
  { clear. intros a b H. apply (f_equal (@rev ascii)) in H. rewrite !rev_involutive in H.
    rewrite <- (string_of_list_ascii_of_string a), <- (string_of_list_ascii_of_string b). now rewrite H. }
  simpl in H1, H2.
  repeat (destruct H1 as [<-|H1]; [repeat (destruct H2 as [<-|H2]; [cbn in E; first [discriminate|split; [apply J; congruence|reflexivity]]|]); contradiction|]).
  contradiction.
Qed.

(** ** Images on disk *)
Lemma on_disk_put d f h g : on_disk (put d f h) g = if String.eqb f g then Some h else on_disk d g.
Proof.
  induction d as [|[k v] t IH]; simpl; auto. destruct (String.eqb_spec k f) as [->|N]; simpl.
  - destruct (String.eqb_spec f g); auto.
  - destruct (String.eqb_spec k g) as [->|N']; auto. destruct (String.eqb_spec f g); congruence.
Qed.

(** The array of a file: [w] wide, [h] high, [v x y] at column x of row y *)
Definition shows (rows : list (list (option Q))) (w h : nat) (v : nat -> nat -> option Q) : Prop :=
  List.length rows = h /\ (forall row, In row rows -> List.length row = w) /\
  forall x y, x < w -> y < h -> exists row, nth_error rows y = Some row /\ nth_error row x = Some (v x y).

Lemma nth_error_map_seq {A} (g : nat -> A) n k : k < n -> nth_error (map g (seq 0 n)) k = Some (g k).
Proof.
  intros H. rewrite nth_error_map. assert (E : nth_error (seq 0 n) k = Some k); [|now rewrite E].
  rewrite (nth_error_nth' _ 0) by now rewrite seq_length. now rewrite seq_nth.
Qed.
Lemma transpose_shows (im : image Q) v : wf_image im ->
  (forall x y, x < nx im -> y < ny im -> cell im x y = Some (v x y)) -> shows (transpose im) (nx im) (ny im) v.
Proof.
  intros [L R] C. unfold transpose. split; [now rewrite map_length, seq_length|]. split.
  - intros row H. apply in_map_iff in H as (j & <- & _). now rewrite map_length, seq_length.
  - intros x y Hx Hy. rewrite nth_error_map_seq by auto. eexists. split; [reflexivity|].
    rewrite nth_error_map_seq by auto. f_equal. specialize (C x y Hx Hy). unfold cell in C.
    destruct (nth_error (cells im) x) as [row|] eqn:E; [|discriminate].
    rewrite (nth_error_nth _ _ [] E). now apply nth_error_nth.
Qed.

Lemma nth_error_combine {A B} (l : list A) (m : list B) k a b :
  nth_error l k = Some a -> nth_error m k = Some b -> nth_error (combine l m) k = Some (a, b).
Proof.
  revert m k. induction l as [|x l IH]; intros [|y m] [|k] H1 H2; simpl in *; try discriminate; [congruence|auto].
Qed.
Lemma pointwise_spec f a b u v : wf_image a -> wf_image b -> shape_of a = shape_of b ->
  (forall x y, x < nx a -> y < ny a -> cell a x y = Some (u x y)) ->
  (forall x y, x < nx a -> y < ny a -> cell b x y = Some (v x y)) ->
  exists c, pointwise f a b = Some c /\ wf_image c /\ shape_of c = shape_of a /\
    forall x y, x < nx a -> y < ny a -> cell c x y = Some (lift2 f (u x y) (v x y)).
Proof.
  intros [La Ra] [Lb Rb] Sh Ca Cb. unfold shape_of in Sh. injection Sh as Sx Sy.
  unfold pointwise. rewrite <- Sx, <- Sy, !Nat.eqb_refl. cbn [andb]. eexists. split; [reflexivity|].
  split; [split; cbn [cells nx ny]|split; [reflexivity|]].
  - rewrite map_length, combine_length, La, Lb, <- Sx. apply Nat.min_id.
  - intros row H. apply in_map_iff in H as ([ra rb] & <- & H). cbn [fst snd]. rewrite map_length, combine_length.
    rewrite (Ra ra) by (eapply in_combine_l; eauto). rewrite (Rb rb) by (eapply in_combine_r; eauto).
    rewrite <- Sy. apply Nat.min_id.
  - intros x y Hx Hy. specialize (Ca x y Hx Hy). specialize (Cb x y Hx Hy). unfold cell in *. cbn [cells].
    destruct (nth_error (cells a) x) as [ra|] eqn:Ea; [|discriminate].
    destruct (nth_error (cells b) x) as [rb|] eqn:Eb; [|discriminate].
    rewrite nth_error_map, (nth_error_combine _ _ _ _ _ Ea Eb). cbn [option_map fst snd].
    now rewrite nth_error_map, (nth_error_combine _ _ _ _ _ Ca Cb).
Qed.

(** ** Filling the three dictionaries *)
Lemma fill_three_spec hdr : forall files d de da ie,
  fill_patches hdr (2048, 2048) (deltas d) (map (map (typed r_resid)) files) = Some de ->
  fill_patches hdr (2048, 2048) (datas d) (map (map (typed r_data)) files) = Some da ->
  fill_patches hdr (2048, 2048) (ierrs d) (map (map (typed r_ierr)) files) = Some ie ->
  fold_left (fill_three hdr) files (Some d) = Some (mkDicts de da ie).
Proof.
  assert (N : forall (V : Type) h s (l : list (list (exposure V))),
    fold_left (fun o p => match o with Some ims => fill_images h s ims p | None => None end) l None = None).
  { clear. induction l as [|p l IH]; simpl; auto. }
  induction files as [|p files IH]; intros d de da ie H1 H2 H3.
  - unfold fill_patches in *. simpl in *. destruct d. simpl in *. congruence.
  - unfold fill_patches in H1, H2, H3. cbn [map fold_left] in H1, H2, H3. cbn [fold_left]. unfold fill_three at 2.
    destruct (fill_images hdr (2048, 2048) (deltas d) _) as [de1|]; [|rewrite N in H1; discriminate].
    destruct (fill_images hdr (2048, 2048) (datas d) _) as [da1|]; [|rewrite N in H2; discriminate].
    destruct (fill_images hdr (2048, 2048) (ierrs d) _) as [ie1|]; [|rewrite N in H3; discriminate].
    now apply (IH (mkDicts de1 da1 ie1)).
Qed.

(** An exposure with all three values at each pixel *)
Definition triple (x : rexp) : exposure (Q * Q * Q) :=
  mkExp (r_name x) (r_xs x) (r_ys x) (combine (combine (r_data x) (r_resid x)) (r_ierr x)).
(** A residual file as the fit writes it: five arrays of one length *)
Definition same_length (x : rexp) : Prop :=
  List.length (r_ys x) = List.length (r_xs x) /\ List.length (r_data x) = List.length (r_xs x) /\
  List.length (r_resid x) = List.length (r_xs x) /\ List.length (r_ierr x) = List.length (r_xs x).

Lemma latest_map {K V W} (f : V -> W) (ws : list (K * V)) k r : latest ws k r ->
  latest (map (fun w => (fst w, f (snd w))) ws) k (option_map f r).
Proof.
  intros [H|pre v post -> H]; cbn [option_map].
  - constructor. intros w Hw. apply in_map_iff in Hw as ([k' v] & E & Hw). injection E as -> <-. exact (H v Hw).
  - rewrite map_app. cbn [map fst snd]. eapply latest_some; [reflexivity|].
    intros w Hw. apply in_map_iff in Hw as ([k' v'] & E & Hw). injection E as -> <-. exact (H v' Hw).
Qed.

Lemma pixels_typed (get : rexp -> list Q) (proj : Q * Q * Q -> Q) (xs : list rexp) e :
  (forall x, In x xs -> map proj (combine (combine (r_data x) (r_resid x)) (r_ierr x)) = get x) ->
  pixels_of (map (typed get) xs) e = map (fun w => (fst w, proj (snd w))) (pixels_of (map triple xs) e).
Proof.
  induction xs as [|x xs IH]; intros H; [reflexivity|]. unfold pixels_of in *. cbn [map flat_map]. rewrite map_app.
  rewrite IH by (intros; apply H; simpl; auto). f_equal. cbn [typed triple ename exs eys evals].
  destruct (String.eqb (r_name x) e); [|reflexivity]. rewrite <- (H x) by (simpl; auto). unfold zip3.
  generalize (combine (r_xs x) (r_ys x)). generalize (combine (combine (r_data x) (r_resid x)) (r_ierr x)).
  clear. intros l m. revert l. induction m as [|a m IH]; intros [|b l]; simpl; auto. now rewrite IH.
Qed.
Lemma triple_proj x : same_length x ->
  map (fun t => fst (fst t)) (combine (combine (r_data x) (r_resid x)) (r_ierr x)) = r_data x /\
  map (fun t => snd (fst t)) (combine (combine (r_data x) (r_resid x)) (r_ierr x)) = r_resid x /\
  map snd (combine (combine (r_data x) (r_resid x)) (r_ierr x)) = r_ierr x.
Proof.
  intros (_ & H1 & H2 & H3). generalize dependent (List.length (r_xs x)). intros n H1 H2 H3.
  generalize dependent (r_ierr x). generalize dependent (r_resid x). generalize dependent (r_data x). clear x.
  induction n as [|n IH]; intros [|a l1] H1 [|b l2] H2 [|c l3] H3; simpl in *; try discriminate; auto.
  injection H1 as H1. injection H2 as H2. injection H3 as H3. destruct (IH l1 H1 l2 H2 l3 H3) as (-> & -> & ->). auto.
Qed.

(** The value left at a pixel of an exposure, with all three parts *)
Definition left_at (xs : list rexp) (e : string) (x y : nat) : option (Q * Q * Q) :=
  last_from pt_eqb None (pixels_of (map triple xs) e) (Z.of_nat x, Z.of_nat y).

Section Files.
Context (hdr : string -> option (nat * nat)) (shape : string -> nat * nat) (files : list (list rexp)).
Let xs := concat files.
Let names := map r_name xs.
Hypothesis Hsz : sizes hdr (2048, 2048) shape names.
Hypothesis Hlen : forall x, In x xs -> same_length x.
Hypothesis Hfit : forall x px py, In x xs -> In (px, py) (combine (r_xs x) (r_ys x)) -> fits_in (shape (r_name x)) px py.

Definition holds_of (ims : images Q) (proj : Q * Q * Q -> Q) : Prop :=
  (forall e, In e names -> exists im, look ims e = Some im /\ wf_image im /\ shape_of im = shape e /\
     forall i j, i < nx im -> j < ny im -> cell im i j = Some (option_map proj (left_at xs e i j))) /\
  (forall e, In e (map fst ims) <-> In e names).

Lemma fill_typed (get : rexp -> list Q) (proj : Q * Q * Q -> Q) :
  (forall x, In x xs -> map proj (combine (combine (r_data x) (r_resid x)) (r_ierr x)) = get x) ->
  exists ims, fill_patches hdr (2048, 2048) [] (map (map (typed get)) files) = Some ims /\ holds_of ims proj.
Proof using Hsz Hlen Hfit.
  intros Hget.
  assert (Hc : concat (map (map (typed get)) files) = map (typed get) xs) by (unfold xs; now rewrite concat_map).
  destruct (fill_patches_spec hdr (2048, 2048) shape names Hsz (map (map (typed get)) files) [] []) as (ims & E & F).
  { intros e. simpl. auto. }
  { intros p x Hp Hx. assert (Hin : In x (map (typed get) xs)) by (rewrite <- Hc; apply in_concat; eauto).
    apply in_map_iff in Hin as (r & <- & Hr). split; [apply in_map_iff; exists r; auto|].
    destruct (Hlen r Hr) as (L1 & L2 & L3 & L4). unfold good_exp, typed. cbn [exs eys evals ename].
    split; [congruence|]. split.
    - rewrite <- (Hget r Hr), map_length, !combine_length, L2, L3, L4. now rewrite !Nat.min_id.
    - intros px py v Hv. apply (Hfit r px py Hr). unfold zip3 in Hv. eapply in_combine_l; eauto. }
  exists ims. split; [exact E|]. cbn [app] in F. rewrite Hc in F. split.
  - intros e He. specialize (F e). apply in_map_iff in He as (r & <- & Hr).
    destruct (look ims (r_name r)) as [im|] eqn:El.
    2:{ exfalso. apply (F (typed get r)); [now apply in_map|reflexivity]. }
    destruct F as (_ & W & Sh & C). exists im. split; auto. split; auto. split; auto.
    unfold shape_of in Sh. rewrite <- Sh in C. cbn [fst snd] in C. intros i j Hi Hj. rewrite C by auto. f_equal.
    rewrite (pixels_typed get proj xs _ Hget). unfold left_at.
    destruct (latest_ex pt_eqb pt_eqb_eq (pixels_of (map triple xs) (r_name r)) (Z.of_nat i, Z.of_nat j)) as (v & Hv).
    rewrite (last_from_latest pt_eqb pt_eqb_eq _ _ _ Hv), (last_from_latest pt_eqb pt_eqb_eq _ _ _ (latest_map proj _ _ _ Hv)).
    now destruct v.
  - intros e. specialize (F e). assert (Hk : In e (map fst ims) <-> look ims e <> None).
    { clear. induction ims as [|[f i] t IH]; simpl; [tauto|]. destruct (String.eqb_spec f e) as [->|N].
      - split; [discriminate|auto].
      - rewrite <- IH. tauto. }
    rewrite Hk. destruct (look ims e) as [im|] eqn:El.
    + split; [intros _; tauto|discriminate].
    + split; [congruence|]. intros He _. apply in_map_iff in He as (r & <- & Hr).
      apply (F (typed get r)); [now apply in_map|reflexivity].
Qed.

(** ** Writing *)
Context (root subdir : string).
Definition has_hdr (n : string) : bool := match hdr n with Some _ => true | None => false end.
Lemma hdr_shape n : In n names -> hdr n = Some (shape n) \/ hdr n = None.
Proof using Hsz. intros H. destruct Hsz as [A|A]; [left; auto|right; now apply A]. Qed.

Lemma write_shown_spec n : In n names -> forall show d,
  (forall s im, In (s, Some im) show -> shape_of im = shape n /\ In s ["data"; "delta"; "model"; "chi"]%string) ->
  NoDup (map fst show) ->
  exists d', write_shown root subdir hdr n d show = Some d' /\
    (forall f, (forall s im, In (s, Some im) show -> out_file root subdir n s <> f) -> on_disk d' f = on_disk d f) /\
    (forall s im, In (s, Some im) show ->
       on_disk d' (out_file root subdir n s) = Some (mkHdu (transpose im) (has_hdr n) (imtype s))).
Proof using Hsz.
  intros Hn. induction show as [|[s [im|]] show IH]; intros d Hs Hnd.
  - exists d. simpl. repeat split; auto. intros s im [].
  - inversion Hnd as [|? ? Hni Hnd']; subst.
    set (d1 := put d (out_file root subdir n s) (mkHdu (transpose im) (has_hdr n) (imtype s))).
    destruct (IH d1) as (d' & E & Hother & Hhere); [intros; apply Hs; simpl; auto|exact Hnd'|].
    assert (E1 : write_one root subdir hdr n d (s, Some im) = Some d1).
    { unfold write_one. cbn [fst snd]. destruct (Hs s im) as [Sh _]; [simpl; auto|]. unfold shape_of in Sh.
      unfold d1, has_hdr. destruct (hdr_shape n Hn) as [H|H]; rewrite H; [|reflexivity].
      rewrite <- Sh, !Nat.eqb_refl. reflexivity. }
    cbn [write_shown]. rewrite E1. exists d'. split; [exact E|]. split.
    + intros f Hf. rewrite Hother by (intros; eapply Hf; simpl; eauto). unfold d1. rewrite on_disk_put.
      assert (Hne : out_file root subdir n s <> f) by (eapply Hf; simpl; auto).
      apply String.eqb_neq in Hne. now rewrite Hne.
    + intros s' im' [Heq|Hin]; [|auto].
      injection Heq as <- <-. rewrite Hother.
      * unfold d1. now rewrite on_disk_put, String.eqb_refl.
      * intros s' im' Hin He. apply out_file_inj in He as [_ ->].
        -- apply Hni. apply in_map_iff. exists (s, Some im'). auto.
        -- eapply Hs. right. eauto.
        -- eapply Hs. left. reflexivity.
  - inversion Hnd as [|? ? Hni Hnd']; subst.
    destruct (IH d) as (d' & E & Hother & Hhere); [intros; apply Hs; simpl; auto|exact Hnd'|].
    exists d'. cbn [write_shown write_one snd]. split; [exact E|]. split.
    + intros f Hf. apply Hother. intros; eapply Hf; simpl; eauto.
    + intros s' im' [Heq|Hin]; [discriminate|auto].
Qed.
End Files.

(** The file [f] has a picture of exposure [n]: as wide and high as the exposure, at column x of row y the
    value [val] of the last pixel written there by the patches, in order, and NaN where there is none. *)
Definition picture (d : disk) (f : string) (xs : list rexp) (n : string) (size : nat * nat) (header : bool) (ty : string)
           (val : Q -> Q -> Q -> Q) : Prop :=
  exists h, on_disk d f = Some h /\ h_header h = header /\ h_imtype h = ty /\
    List.length (h_rows h) = snd size /\ (forall row, In row (h_rows h) -> List.length row = fst size) /\
    forall x y t, x < fst size -> y < snd size -> latest (pixels_of (map triple xs) n) (Z.of_nat x, Z.of_nat y) t ->
      exists row, nth_error (h_rows h) y = Some row /\
        nth_error row x = Some (match t with Some (data, resid, ierr) => Some (val data resid ierr) | None => None end).

Lemma picture_of (d : disk) f xs n size header ty val im : on_disk d f = Some (mkHdu (transpose im) header ty) ->
  wf_image im -> shape_of im = size ->
  (forall i j, i < nx im -> j < ny im -> cell im i j =
     Some (match left_at xs n i j with Some (a, b, c) => Some (val a b c) | None => None end)) ->
  picture d f xs n size header ty val.
Proof.
  intros E W <- C. exists (mkHdu (transpose im) header ty). split; [exact E|]. split; [reflexivity|]. split; [reflexivity|].
  destruct (transpose_shows im (fun i j => match left_at xs n i j with Some (a, b, c) => Some (val a b c) | None => None end) W C) as (K1 & K2 & K3).
  cbn [h_rows shape_of fst snd]. split; [exact K1|]. split; [exact K2|]. intros x y t Hx Hy L.
  destruct (K3 x y Hx Hy) as (row & R1 & R2). exists row. split; auto. rewrite R2. f_equal. unfold left_at.
  rewrite (last_from_latest pt_eqb pt_eqb_eq _ _ _ L). destruct t as [[[a b] c]|]; reflexivity.
Qed.

Lemma write_images_ne root subdir hdr sm sc files d : files <> [] ->
  write_images root subdir hdr sm sc files d =
  match fold_left (fill_three hdr) files (Some (mkDicts [] [] [])) with
  | None => None
  | Some ds => write_all root subdir hdr sm sc ds d (map fst (datas ds))
  end.
Proof. destruct files; [congruence|reflexivity]. Qed.

Section Main.
Context (root subdir : string) (hdr : string -> option (nat * nat)) (shape : string -> nat * nat)
        (sm sc : bool) (files : list (list rexp)).
Let xs := concat files.
Let names := map r_name xs.
Hypothesis Hsz : sizes hdr (2048, 2048) shape names.
Hypothesis Hlen : forall x, In x xs -> same_length x.
Hypothesis Hfit : forall x px py, In x xs -> In (px, py) (combine (r_xs x) (r_ys x)) -> fits_in (shape (r_name x)) px py.
Hypothesis Hinj : forall e1 e2, In e1 names -> In e2 names -> exp_name e1 = exp_name e2 -> e1 = e2.

Definition types : list string := ["data"; "delta"; "model"; "chi"]%string.
(** All pictures of one exposure *)
Definition pictures (d : disk) (n : string) : Prop :=
  let pic s ty val := picture d (out_file root subdir n s) xs n (shape n) (has_hdr hdr n) ty val in
  pic "data"%string "DATA"%string (fun data resid ierr => data) /\
  pic "delta"%string "DELTA"%string (fun data resid ierr => resid) /\
  (sm = true -> pic "model"%string "MODEL"%string (fun data resid ierr => data - resid)%Q) /\
  (sc = true -> pic "chi"%string "CHI"%string (fun data resid ierr => resid * ierr)%Q).

Lemma picture_ext d d' f n size header ty val : on_disk d' f = on_disk d f ->
  picture d f xs n size header ty val -> picture d' f xs n size header ty val.
Proof. intros E (h & H). exists h. now rewrite E. Qed.

Lemma write_exposure_spec ds n d : In n names ->
  holds_of shape files (deltas ds) (fun t => snd (fst t)) ->
  holds_of shape files (datas ds) (fun t => fst (fst t)) ->
  holds_of shape files (ierrs ds) snd ->
  exists d', write_exposure root subdir hdr sm sc ds d n = Some d' /\
    (forall f, (forall s, In s types -> out_file root subdir n s <> f) -> on_disk d' f = on_disk d f) /\
    pictures d' n.
Proof using Hsz.
  intros Hn [HD _] [HA _] [HI _].
  destruct (HD n Hn) as (de & Ede & Wde & Sde & Cde). destruct (HA n Hn) as (da & Eda & Wda & Sda & Cda).
  destruct (HI n Hn) as (ie & Eie & Wie & Sie & Cie). fold xs in Cde, Cda, Cie.
  assert (N1 : nx da = nx de /\ ny da = ny de). { unfold shape_of in *. split; congruence. }
  assert (N2 : nx ie = nx de /\ ny ie = ny de). { unfold shape_of in *. split; congruence. }
  destruct (pointwise_spec Qminus da de (fun i j => option_map (fun t => fst (fst t)) (left_at xs n i j))
              (fun i j => option_map (fun t => snd (fst t)) (left_at xs n i j)) Wda Wde) as (mo & Emo & Wmo & Smo & Cmo).
  { congruence. } { exact Cda. } { destruct N1 as [-> ->]. exact Cde. }
  destruct (pointwise_spec Qmult de ie (fun i j => option_map (fun t => snd (fst t)) (left_at xs n i j))
              (fun i j => option_map snd (left_at xs n i j)) Wde Wie) as (ch & Ech & Wch & Sch & Cch).
  { congruence. } { exact Cde. } { destruct N2 as [<- <-]. exact Cie. }
  set (show := [("data", Some da); ("delta", Some de); ("model", if sm then Some mo else None); ("chi", if sc then Some ch else None)]%string).
  destruct (write_shown_spec hdr shape files Hsz root subdir n Hn show d) as (d' & E & Hother & Hhere).
  { intros s im. unfold show. simpl. intros [H|[H|[H|[H|[]]]]].
    - injection H as <- <-. auto.
    - injection H as <- <-. auto.
    - destruct sm; [injection H as <- <-|discriminate]. split; [congruence|auto].
    - destruct sc; [injection H as <- <-|discriminate]. split; [congruence|auto 6]. }
  { unfold show. simpl. repeat constructor; simpl; intuition discriminate. }
  exists d'. split; [|split].
  - unfold write_exposure. rewrite Eda, Ede, Eie, Emo, Ech. cbn [option_map].
    replace (if sm then Some (Some mo) else Some None) with (Some (if sm then Some mo else None)) by (destruct sm; reflexivity).
    replace (if sc then Some (Some ch) else Some None) with (Some (if sc then Some ch else None)) by (destruct sc; reflexivity).
    exact E.
  - intros f Hf. apply Hother. intros s im Hin. apply Hf. unfold types. unfold show in Hin.
    simpl in Hin. simpl. intuition congruence.
  - unfold pictures. cbv zeta. split; [|split; [|split]].
    + eapply picture_of; [apply (Hhere "data"%string da); simpl; auto|exact Wda|exact Sda|].
      intros i j Hi Hj. rewrite Cda by auto. destruct (left_at xs n i j) as [[[a b] c]|]; reflexivity.
    + eapply picture_of; [apply (Hhere "delta"%string de); simpl; auto|exact Wde|exact Sde|].
      intros i j Hi Hj. rewrite Cde by auto. destruct (left_at xs n i j) as [[[a b] c]|]; reflexivity.
    + intros ->. eapply picture_of; [apply (Hhere "model"%string mo); simpl; auto|exact Wmo|congruence|].
      unfold shape_of in Smo. injection Smo as Sx Sy.
      intros i j Hi Hj. rewrite Cmo by congruence. destruct (left_at xs n i j) as [[[a b] c]|]; reflexivity.
    + intros ->. eapply picture_of; [apply (Hhere "chi"%string ch); simpl; auto|exact Wch|congruence|].
      unfold shape_of in Sch. injection Sch as Sx Sy.
      intros i j Hi Hj. rewrite Cch by congruence. destruct (left_at xs n i j) as [[[a b] c]|]; reflexivity.
Qed.

Lemma write_all_spec ds :
  holds_of shape files (deltas ds) (fun t => snd (fst t)) ->
  holds_of shape files (datas ds) (fun t => fst (fst t)) ->
  holds_of shape files (ierrs ds) snd ->
  forall l d, (forall n, In n l -> In n names) ->
  exists d', write_all root subdir hdr sm sc ds d l = Some d' /\
    (forall f, (forall n s, In n l -> In s types -> out_file root subdir n s <> f) -> on_disk d' f = on_disk d f) /\
    (forall n, In n l -> pictures d' n).
Proof using Hsz Hinj.
  intros HD HA HI. induction l as [|n l IH]; intros d Hl.
  - exists d. simpl. repeat split; auto; contradiction.
  - destruct (write_exposure_spec ds n d) as (d1 & E1 & O1 & P1); auto; [apply Hl; simpl; auto|].
    destruct (IH d1) as (d' & E & O & P); [intros; apply Hl; simpl; auto|].
    cbn [write_all]. rewrite E1. exists d'. split; [exact E|]. split.
    + intros f Hf. rewrite O by (intros; apply Hf; simpl; auto). apply O1. intros; apply Hf; simpl; auto.
    + intros m [->|Hm]; [|auto]. destruct (in_dec String.string_dec m l) as [Hin|Hin]; [auto|].
      assert (K : forall s, In s types -> on_disk d' (out_file root subdir m s) = on_disk d1 (out_file root subdir m s)).
      { intros s Hs. apply O. intros n' s' Hn' Hs' He. apply out_file_inj in He as [He _]; auto.
        apply Hinj in He; [congruence| |]; apply Hl; simpl; auto. }
      destruct P1 as (A & B & C & D). unfold pictures. cbv zeta. split; [|split; [|split]].
      * eapply picture_ext; [apply K; simpl; auto|exact A].
      * eapply picture_ext; [apply K; simpl; auto|exact B].
      * intros Hsm. eapply picture_ext; [apply K; simpl; auto|exact (C Hsm)].
      * intros Hsc. eapply picture_ext; [apply K; simpl; auto|exact (D Hsc)].
Qed.

Lemma write_images_lemma d : files <> [] ->
  exists d', write_images root subdir hdr sm sc files d = Some d' /\
    (forall x, In x xs -> pictures d' (r_name x)) /\
    (forall f, (forall x s, In x xs -> In s types -> out_file root subdir (r_name x) s <> f) -> on_disk d' f = on_disk d f).
Proof using Hsz Hlen Hfit Hinj.
  intros Hne.
  destruct (fill_typed hdr shape files Hsz Hlen Hfit r_resid (fun t => snd (fst t))) as (de & Ede & Hde); [intros x Hx; now apply triple_proj, Hlen|].
  destruct (fill_typed hdr shape files Hsz Hlen Hfit r_data (fun t => fst (fst t))) as (da & Eda & Hda); [intros x Hx; now apply triple_proj, Hlen|].
  destruct (fill_typed hdr shape files Hsz Hlen Hfit r_ierr snd) as (ie & Eie & Hie); [intros x Hx; now apply triple_proj, Hlen|].
  assert (E3 : fold_left (fill_three hdr) files (Some (mkDicts [] [] [])) = Some (mkDicts de da ie))
    by (now apply fill_three_spec).
  destruct (write_all_spec (mkDicts de da ie) Hde Hda Hie (map fst da) d) as (d' & E & O & P).
  { intros n Hn. now apply (proj2 Hda). }
  exists d'. split; [|split].
  - rewrite write_images_ne by exact Hne. rewrite E3. exact E.
  - intros x Hx. apply P. apply (proj2 Hda). fold xs. now apply in_map.
  - intros f Hf. apply O. intros n s Hn Hs. apply (proj2 Hda) in Hn. fold xs in Hn.
    apply in_map_iff in Hn as (x & <- & Hx). auto.
Qed.
End Main.

(** For every run: if the exposures have different base names, writing the images succeeds, and every exposure of
    every patch has its data and residual image, its model image (data minus residual) and its chi image
    (residual over uncertainty) when asked for, all of them of the exposure's size, all from the same patch at
    every pixel, with the exposure's header if there is one; no other file is touched. *)
Theorem C56_images_partial : forall root subdir hdr shape sm sc files d,
  files <> [] -> sizes hdr (2048, 2048) shape (map r_name (concat files)) ->
  (forall x, In x (concat files) -> same_length x) ->
  (forall x px py, In x (concat files) -> In (px, py) (combine (r_xs x) (r_ys x)) -> fits_in (shape (r_name x)) px py) ->
  (forall e1 e2, In e1 (map r_name (concat files)) -> In e2 (map r_name (concat files)) -> exp_name e1 = exp_name e2 -> e1 = e2) ->
  exists d', write_images root subdir hdr sm sc files d = Some d' /\
    (forall x, In x (concat files) ->
       let n := r_name x in
       let pic s ty val := picture d' (out_file root subdir n s) (concat files) n (shape n) (has_hdr hdr n) ty val in
       pic "data"%string "DATA"%string (fun data resid ierr => data) /\
       pic "delta"%string "DELTA"%string (fun data resid ierr => resid) /\
       (sm = true -> pic "model"%string "MODEL"%string (fun data resid ierr => data - resid)%Q) /\
       (sc = true -> pic "chi"%string "CHI"%string (fun data resid ierr => resid * ierr)%Q)) /\
    (forall f, (forall x s, In x (concat files) -> In s ["data"; "delta"; "model"; "chi"]%string -> out_file root subdir (r_name x) s <> f) ->
       on_disk d' f = on_disk d f).
Proof.
  intros root subdir hdr shape sm sc files d Hne Hsz Hlen Hfit Hinj.
  exact (write_images_lemma root subdir hdr shape sm sc files Hsz Hlen Hfit Hinj d Hne).
Qed.
Print Assumptions C56_images_partial.

(** The names: an exposure dir/base.fits, or dir/base, gives base_data.fits and so on. *)
Theorem C56_names : forall root subdir dir base s, has_slash base = false -> ~ has_ext base ->
  out_file root subdir (dir ++ "/" ++ base ++ ".fits") s = (root ++ "/" ++ subdir ++ "/" ++ base ++ "_" ++ s ++ ".fits")%string /\
  out_file root subdir (dir ++ "/" ++ base) s = (root ++ "/" ++ subdir ++ "/" ++ base ++ "_" ++ s ++ ".fits")%string /\
  out_file root subdir base s = (root ++ "/" ++ subdir ++ "/" ++ base ++ "_" ++ s ++ ".fits")%string.
Proof.
  intros root subdir dir base s H1 H2. unfold out_file, exp_name.
  rewrite !last_part_dir, last_part_plain, strip_ext, strip_plain; auto.
  rewrite has_slash_app, H1. reflexivity.
Qed.
Print Assumptions C56_names.
