(** C27: storing an exposure.  C28: the S/N cap.  C46: storing it again. *)
From Verif Require Import Np NpFacts StoreModel StoreFacts StoreProps.
From Coq Require Import ZArith Reals Lra.
From Flocq Require Import Core.Core IEEE754.BinarySingleNaN.
Close Scope R_scope.
Open Scope nat_scope.

Section Add.
Context (prec emax prec' emax' : Z) (Hp : FLX.Prec_gt_0 prec) (He : Prec_lt_emax prec emax)
        (Hp' : FLX.Prec_gt_0 prec') (He' : Prec_lt_emax prec' emax').
Notation F := (binary_float prec emax).
Notation G := (binary_float prec' emax').
Notation pixel := (pixel prec emax).
Notation options := (options prec emax).
Notation cast := (cast prec emax prec' emax' Hp' He').
Notation zeroF := (fzero prec emax).
Notation zeroG := (fzero prec' emax').

(** What the caller's pixel means *)
Definition net_value (o : options) (p : pixel) : F :=
  if o_bkg _ _ o then Bminus (prec_gt_0_:=Hp) (prec_lt_emax_:=He) mode_NE (p_im _ _ p) (p_bkg _ _ p) else p_im _ _ p.
Definition flagged (o : options) (p : pixel) : Prop :=
  match o_mask _ _ o with
  | NoMask => False
  | BoolMask => p_flag _ _ p <> 0%Z /\ (o_bitmask _ _ o = 0%Z \/ Z.odd (o_bitmask _ _ o) = true)
  | IntMask => Z.land (p_flag _ _ p) (o_bitmask _ _ o) <> 0%Z
  end.
Definition usable (o : options) (p : pixel) : Prop :=
  is_finite (p_ierr _ _ p) = true /\ Bleb zeroF (p_ierr _ _ p) = true /\ is_finite (net_value o p) = true /\ ~ flagged o p.
(** The mask is boolean or comes with a bit selection. *)
Definition proper_mask (o : options) : Prop := o_mask _ _ o = IntMask -> o_bitmask _ _ o <> 0%Z.
(** The reciprocal calibration factor is a positive float, zero or infinity *)
Definition proper_cal (o : options) : Prop :=
  match o_fluxcal _ _ o with Some (_, inv) => is_nan inv = false /\ Bsign inv = false | None => True end.
Definition is_zero {p e} (x : binary_float p e) : Prop := match x with B754_zero _ => True | _ => False end.
Definition scaled (o : options) (v i : F) : G * G :=
  match o_fluxcal _ _ o with
  | Some (c, inv) => (cast (Bmult (prec_gt_0_:=Hp) (prec_lt_emax_:=He) mode_NE v c), cast (Bmult (prec_gt_0_:=Hp) (prec_lt_emax_:=He) mode_NE i inv))
  | None => (cast v, cast i)
  end.

Lemma nonneg_sign {p e} (x : binary_float p e) : is_finite x = true -> Bsign x = false -> Bleb (fzero p e) x = true.
Proof. destruct x as [s|s| |s m ex Hx]; simpl; try discriminate; intros _ H; subst; reflexivity. Qed.
Lemma nonneg_cases {p e} (x : binary_float p e) : is_finite x = true -> Bleb (fzero p e) x = true -> is_zero x \/ Bsign x = false.
Proof. destruct x as [s|s| |s m ex Hx]; simpl; try discriminate; intros _ H; auto. destruct s; auto. Qed.
Lemma zero_nonneg {p e} (x : binary_float p e) : is_zero x -> Bleb (fzero p e) x = true.
Proof. destruct x as [s|s| |s m ex Hx]; simpl; try easy. Qed.
Lemma cast_finite x : is_finite (cast x) = true -> is_finite x = true.
Proof. destruct x; simpl; auto. Qed.
Lemma cast_zero x : is_zero x -> is_zero (cast x).
Proof. destruct x; simpl; tauto. Qed.
Lemma cast_sign x : is_finite (cast x) = true -> Bsign x = false -> Bsign (cast x) = false.
Proof.
  destruct x as [s|s| |s m ex Hx]; intros Hf Hs; auto. simpl in Hs. subst s.
  pose proof (binary_normalize_correct prec' emax' Hp' He' mode_NE (Zpos m) ex false) as H. cbv zeta in H.
  change (cast (B754_finite false m ex Hx)) with (binary_normalize prec' emax' Hp' He' mode_NE (Zpos m) ex false) in *.
  assert (Hpos : (0 < F2R (Float radix2 (Zpos m) ex))%R) by (apply F2R_gt_0; reflexivity).
  destruct (Rlt_bool _ _).
  - destruct H as (_ & _ & H). rewrite Rcompare_Gt in H by exact Hpos. exact H.
  - rewrite Rlt_bool_false in H by (apply Rlt_le; exact Hpos). 
    destruct (binary_normalize prec' emax' Hp' He' mode_NE (Zpos m) ex false); simpl in *; try discriminate; congruence.
Qed.
Lemma mult_zero m (x y : F) : is_finite (Bmult (prec_gt_0_:=Hp) (prec_lt_emax_:=He) m x y) = true -> is_zero x -> is_zero (Bmult (prec_gt_0_:=Hp) (prec_lt_emax_:=He) m x y).
Proof. destruct x; simpl; try easy. destruct y; simpl; easy. Qed.
Lemma mult_sign (x y : F) : is_finite (Bmult (prec_gt_0_:=Hp) (prec_lt_emax_:=He) mode_NE x y) = true -> Bsign x = false -> Bsign y = false -> Bsign (Bmult (prec_gt_0_:=Hp) (prec_lt_emax_:=He) mode_NE x y) = false.
Proof.
  intros Hf Hx Hy. pose proof (Bmult_correct prec emax Hp He mode_NE x y) as H. destruct (Rlt_bool _ _).
  - destruct H as (_ & _ & H). rewrite Hx, Hy in H. apply H. destruct (Bmult mode_NE x y); simpl in *; try discriminate; reflexivity.
  - destruct (Bmult mode_NE x y); simpl in *; try discriminate; congruence.
Qed.

Lemma flag_set_spec o p : proper_mask o -> flag_set prec emax o p = true <-> flagged o p.
Proof.
  intros Hm. unfold flag_set, flagged, mask_value, proper_mask in *. destruct (o_mask _ _ o).
  - destruct (Z.eqb_spec (o_bitmask _ _ o) 0); simpl; split; easy.
  - destruct (Z.eqb_spec (p_flag _ _ p) 0) as [E|E].
    + rewrite E. destruct (Z.eqb_spec (o_bitmask _ _ o) 0); simpl; split; try easy; tauto.
    + destruct (Z.eqb_spec (o_bitmask _ _ o) 0) as [B|B]; [simpl; tauto|].
      assert (Hl : Z.land 1 (o_bitmask _ _ o) = Z.b2z (Z.odd (o_bitmask _ _ o))).
      { rewrite Z.land_comm. change 1%Z with (Z.ones 1). rewrite Z.land_ones by lia. change (2 ^ 1)%Z with 2%Z. rewrite Zmod_odd. destruct (Z.odd _); reflexivity. }
      rewrite Hl. destruct (Z.odd (o_bitmask _ _ o)); simpl; split; try easy; try tauto.
  - specialize (Hm eq_refl). destruct (Z.eqb_spec (o_bitmask _ _ o) 0); [contradiction|].
    destruct (Z.eqb_spec (Z.land (p_flag _ _ p) (o_bitmask _ _ o)) 0); simpl; split; try easy.
Qed.

(** One pixel through the pipeline *)
Definition one_pixel (o : options) (p : pixel) : pixel :=
  let q := subtract prec emax Hp He o p in
  calibrate prec emax Hp He o (apply_mask prec emax (unusable prec emax q || flag_set prec emax o q) q).
Lemma processed_proper o im : proper_mask o -> processed prec emax Hp He o im = Some (map (map (one_pixel o)) im).
Proof.
  intros Hm. unfold processed, proper_mask in *.
  assert (E : mask_pixels prec emax o (map (map (subtract prec emax Hp He o)) im) =
    Some (map (map (fun p => apply_mask prec emax (unusable prec emax p || flag_set prec emax o p) p)) (map (map (subtract prec emax Hp He o)) im))).
  { unfold mask_pixels. destruct (o_mask prec emax o); auto. destruct (Z.eqb_spec (o_bitmask prec emax o) 0); auto. now specialize (Hm eq_refl). }
  rewrite E. f_equal. rewrite map_map, map_map. apply map_ext. intros r. rewrite !map_map. reflexivity.
Qed.

Lemma one_pixel_spec o p : proper_mask o -> proper_cal o ->
  let q := one_pixel o p in
  is_finite (cast (p_ierr _ _ q)) = true ->
  Bleb zeroG (cast (p_ierr _ _ q)) = true /\ (~ usable o p -> is_zero (cast (p_ierr _ _ q))) /\
  (usable o p -> (cast (p_im _ _ q), cast (p_ierr _ _ q)) = scaled o (net_value o p) (p_ierr _ _ p)).
Proof.
  intros Hm Hc q Hfin.
  set (u := subtract prec emax Hp He o p) in *.
  assert (Uim : p_im _ _ u = net_value o p) by (unfold u, subtract, net_value; destruct (o_bkg _ _ o); reflexivity).
  assert (Uie : p_ierr _ _ u = p_ierr _ _ p) by (unfold u, subtract; destruct (o_bkg _ _ o); reflexivity).
  assert (Ufl : p_flag _ _ u = p_flag _ _ p) by (unfold u, subtract; destruct (o_bkg _ _ o); reflexivity).
  assert (Hmask : unusable prec emax u || flag_set prec emax o u = true <-> ~ usable o p).
  { rewrite Bool.orb_true_iff. rewrite (flag_set_spec o u Hm). unfold unusable. rewrite Uim, Uie.
    assert (Hfl : flagged o u <-> flagged o p) by (unfold flagged; rewrite Ufl; tauto). rewrite Hfl. unfold usable.
    destruct (is_finite (p_ierr _ _ p)), (is_finite (net_value o p)), (Bleb zeroF (p_ierr _ _ p)); cbn [negb andb]; split; intros H; try (left; reflexivity); try (intros (? & ? & ? & ?); try discriminate).
    - destruct H as [H|H]; [discriminate|contradiction].
    - right. apply Classical_Prop.NNPP. intros Hn. apply H. repeat split; auto. }
  set (m := unusable prec emax u || flag_set prec emax o u) in *.
  assert (Hz : ~ usable o p -> is_zero (cast (p_ierr _ _ q))).
  { intros Hn. apply Hmask in Hn. apply cast_zero. unfold q, one_pixel in *. fold u in Hfin |- *. fold m in Hfin |- *. rewrite Hn in Hfin |- *. unfold apply_mask, calibrate in *. cbn [p_im p_ierr p_bkg p_flag andb] in *.
    destruct (is_finite (p_bkg _ _ u)); destruct (o_fluxcal _ _ o) as [[c inv]|]; cbn [p_ierr] in *; try exact I; apply cast_finite in Hfin; apply mult_zero; auto; exact I. }
  assert (Hu : usable o p -> p_im _ _ q = match o_fluxcal _ _ o with Some (c, _) => Bmult (prec_gt_0_:=Hp) (prec_lt_emax_:=He) mode_NE (net_value o p) c | None => net_value o p end /\
                        p_ierr _ _ q = match o_fluxcal _ _ o with Some (_, inv) => Bmult (prec_gt_0_:=Hp) (prec_lt_emax_:=He) mode_NE (p_ierr _ _ p) inv | None => p_ierr _ _ p end).
  { intros Hus. assert (Em : m = false). { destruct m; auto. exfalso. now apply Hmask. }
    unfold q, one_pixel. fold u m. rewrite Em. unfold apply_mask, calibrate. cbn [andb]. destruct (o_fluxcal _ _ o) as [[c inv]|]; cbn [p_im p_ierr]; rewrite Uim, Uie; auto. }
  split; [|split; [exact Hz|]].
  - destruct (Classical_Prop.classic (usable o p)) as [Hus|Hus]; [|now apply zero_nonneg, Hz].
    destruct (Hu Hus) as [_ Hie]. destruct Hus as (Hf1 & Hge & _). destruct (nonneg_cases _ Hf1 Hge) as [H0|Hs].
    + apply zero_nonneg, cast_zero. apply cast_finite in Hfin. rewrite Hie in *. destruct (o_fluxcal _ _ o) as [[c inv]|]; auto. now apply mult_zero.
    + apply nonneg_sign; auto. apply cast_sign; auto. apply cast_finite in Hfin. rewrite Hie in *. unfold proper_cal in Hc. destruct (o_fluxcal _ _ o) as [[c inv]|]; auto. apply mult_sign; tauto.
  - intros Hus. destruct (Hu Hus) as [-> ->]. unfold scaled. destruct (o_fluxcal _ _ o) as [[c inv]|]; reflexivity.
Qed.

Lemma forallb_get3 {A} (f : A -> bool) arr i j k x : forallb (forallb (forallb f)) arr = true -> get3 arr i j k = Some x -> f x = true.
Proof.
  intros H E. unfold get3, get2 in E. destruct (nth_error arr i) as [r|] eqn:E1; [|discriminate]. destruct (nth_error r j) as [c|] eqn:E2; [|discriminate].
  rewrite forallb_forall in H. specialize (H r (nth_error_In _ _ E1)). rewrite forallb_forall in H. specialize (H c (nth_error_In _ _ E2)). rewrite forallb_forall in H.
  exact (H x (nth_error_In _ _ E)).
Qed.

(** Every pixel of an accepted image is stored, at the place the coordinate tables say,
    finite and with non-negative inverse error; the inverse error is zero when the input
    is not usable, and a usable pixel keeps its net calibrated value and scaled inverse
    error.  Missing: integer masks without a bit selection, see C27_integer_mask_refuted. *)
Theorem C27_stored_pixels_partial s nx ny o im sp im' : 0 < s -> rect im nx ny -> small nx ny -> proper_mask o -> proper_cal o ->
  add_exposure prec emax prec' emax' Hp He Hp' He' s (nx, ny) o im = Some (sp, im') ->
  forall x y p, get2 im x y = Some p -> exists i j k d e, entry s nx ny i j k /\
    get3 (fst (pixel_coordinates s nx ny)) i j k = Some (Z.of_nat x) /\ get3 (snd (pixel_coordinates s nx ny)) i j k = Some (Z.of_nat y) /\
    get3 sp i j k = Some d /\ get3 sp i j (s * s + k) = Some e /\
    is_finite d = true /\ is_finite e = true /\ Bleb zeroG e = true /\
    (~ usable o p -> is_zero e) /\ (usable o p -> (d, e) = scaled o (net_value o p) (p_ierr _ _ p)).
Proof.
  intros Hs R Sm Hm Hc Hadd x y p Hxy. unfold add_exposure in Hadd. rewrite processed_proper in Hadd by auto.
  assert (Hx : x < nx /\ y < ny).
  { unfold get2 in Hxy. destruct (nth_error im x) as [r|] eqn:E1; [|discriminate]. destruct R as [<- Hr]. split; [apply nth_error_Some; congruence|].
    rewrite Forall_forall in Hr. rewrite <- (Hr r (nth_error_In _ _ E1)). apply nth_error_Some. congruence. }
  destruct Hx as [Hx Hy]. set (im1 := map (map (one_pixel o)) im) in *. assert (R1 : rect im1 nx ny) by (unfold im1; now apply rect_map).
  rewrite (rect_shape im1 nx ny R1) in Hadd by lia. cbn [fst snd] in Hadd.
  destruct (Nat.eqb_spec (nx mod s) 0) as [Dx|Dx]; [|discriminate]. destruct (Nat.eqb_spec (ny mod s) 0) as [Dy|Dy]; [|discriminate]. rewrite !Nat.eqb_refl in Hadd. cbn [andb] in Hadd.
  destruct (forallb _ _) eqn:Hf; [|discriminate]. injection Hadd as <- _.
  set (A1 := map (map (fun p => cast (p_im prec emax p))) im1) in *. set (A2 := map (map (fun p => cast (p_ierr prec emax p))) im1) in *.
  assert (D : divides s nx ny) by (repeat split; auto). assert (RA1 : rect A1 nx ny) by now apply rect_map. assert (RA2 : rect A2 nx ny) by now apply rect_map.
  destruct (C26_each_pixel_once s nx ny A1 A2 D RA1 RA2 Sm x y Hx Hy) as (i & j & k & E & H1 & H2 & _).
  destruct (C26_coordinates_match s nx ny A1 A2 D RA1 RA2 Sm i j k E) as (x' & y' & _ & _ & H1' & H2' & H3 & H4).
  assert (x' = x) by (apply Nat2Z.inj; congruence). assert (y' = y) by (apply Nat2Z.inj; congruence). subst x' y'.
  unfold A1 in H3. unfold A2 in H4. unfold im1 in H3, H4. rewrite !get2_map, Hxy in H3, H4. cbn [option_map] in H3, H4.
  exists i, j, k. do 2 eexists. split; [exact E|]. split; [exact H1|]. split; [exact H2|]. split; [exact H3|]. split; [exact H4|].
  pose proof (forallb_get3 _ _ _ _ _ _ Hf H3) as F1. pose proof (forallb_get3 _ _ _ _ _ _ Hf H4) as F2. split; [exact F1|]. split; [exact F2|].
  exact (one_pixel_spec o p Hm Hc F2).
Qed.

(** An exposure is refused only for its size or because a value overflows. *)
Theorem C27_refusal s nx ny o im : 0 < s -> 0 < nx -> rect im nx ny -> proper_mask o ->
  add_exposure prec emax prec' emax' Hp He Hp' He' s (nx, ny) o im = None ->
  ~ divides s nx ny \/ exists x y p, get2 im x y = Some p /\
     (is_finite (cast (p_im _ _ (one_pixel o p))) = false \/ is_finite (cast (p_ierr _ _ (one_pixel o p))) = false).
Proof.
  intros Hs Hn R Hm Hadd. unfold add_exposure in Hadd. rewrite processed_proper in Hadd by auto. set (im1 := map (map (one_pixel o)) im) in *.
  assert (R1 : rect im1 nx ny) by (unfold im1; now apply rect_map). rewrite (rect_shape im1 nx ny R1) in Hadd by lia. cbn [fst snd] in Hadd. rewrite !Nat.eqb_refl in Hadd. cbn [andb] in Hadd.
  destruct (Nat.eqb_spec (nx mod s) 0) as [Dx|Dx]; [|left; intros (? & ? & ?); contradiction].
  destruct (Nat.eqb_spec (ny mod s) 0) as [Dy|Dy]; [|left; intros (? & ? & ?); contradiction]. cbn [andb] in Hadd.
  destruct (forallb _ _) eqn:Hf; [discriminate|]. right.
  set (bad := fun q : pixel => negb (is_finite (cast (p_im _ _ q))) || negb (is_finite (cast (p_ierr _ _ q)))).
  destruct (existsb (existsb bad) im1) eqn:Eb.
  - apply existsb_exists in Eb. destruct Eb as (r & Hr & Eb). apply existsb_exists in Eb. destruct Eb as (q & Hq & Eb).
    unfold im1 in Hr. apply in_map_iff in Hr. destruct Hr as (r0 & <- & Hr0). apply in_map_iff in Hq. destruct Hq as (p & <- & Hp0).
    apply In_nth_error in Hr0. destruct Hr0 as (x & Hx). apply In_nth_error in Hp0. destruct Hp0 as (y & Hy). exists x, y, p. split; [unfold get2; now rewrite Hx|].
    unfold bad in Eb. apply Bool.orb_true_iff in Eb. rewrite !Bool.negb_true_iff in Eb. exact Eb.
  - exfalso. enough (Ht : true = false) by discriminate. rewrite <- Hf. symmetry.
    assert (Hall : forall r q, In r im1 -> In q r -> bad q = false).
    { intros r q Hr Hq. destruct (bad q) eqn:Ebq; auto. rewrite <- Eb. symmetry. apply existsb_exists. exists r. split; auto. apply existsb_exists. eauto. }
    assert (Hblk : forall (f : pixel -> G) I J, (forall q, bad q = false -> is_finite (f q) = true) -> forallb is_finite (block s I J (map (map f) im1)) = true).
    { intros f I J Hfq. apply forallb_forall. intros v Hv. unfold block in Hv. apply in_flat_map in Hv. destruct Hv as (r & Hr & Hv). apply in_slice in Hr. apply in_slice in Hv.
      apply in_map_iff in Hr. destruct Hr as (r0 & <- & Hr0). apply in_map_iff in Hv. destruct Hv as (q & <- & Hq). apply Hfq. eapply Hall; eauto. }
    unfold superpixelize. rewrite (rect_shape _ nx ny) by (auto using rect_map). apply forallb_forall. intros row Hrow. apply in_map_iff in Hrow. destruct Hrow as (ii & <- & _).
    apply forallb_forall. intros c Hcc. apply in_map_iff in Hcc. destruct Hcc as (jj & <- & _). rewrite forallb_app. apply Bool.andb_true_iff.
    split; apply Hblk; intros q; unfold bad; destruct (is_finite (cast (p_im _ _ q))), (is_finite (cast (p_ierr _ _ q))); simpl; auto; discriminate.
Qed.
End Add.

(** With one format and no calibration nothing overflows: any image of the right size is
    accepted, whatever special values it holds. *)
Section Same.
Context (prec emax : Z) (Hp : FLX.Prec_gt_0 prec) (He : Prec_lt_emax prec emax).
Lemma cast_same x : is_finite x = true -> is_finite (cast prec emax prec emax Hp He x) = true.
Proof.
  destruct x as [s|s| |s m ex Hx]; auto. intros _. 
  pose proof (binary_normalize_correct prec emax Hp He mode_NE (cond_Zopp s (Zpos m)) ex s) as H. cbv zeta in H.
  change (cast prec emax prec emax Hp He (B754_finite s m ex Hx)) with (binary_normalize prec emax Hp He mode_NE (cond_Zopp s (Zpos m)) ex s).
  pose proof (generic_format_B2R prec emax (B754_finite s m ex Hx)) as Hg. pose proof (abs_B2R_lt_emax prec emax (B754_finite s m ex Hx)) as Ha. cbn [B2R] in Hg, Ha.
  rewrite round_generic in H by (try exact Hg; apply valid_rnd_round_mode). rewrite Rlt_bool_true in H by exact Ha. apply H.
Qed.
Theorem C27_accepts_any_values s nx ny o im : divides s nx ny -> 0 < nx -> rect im nx ny -> proper_mask prec emax o -> o_fluxcal _ _ o = None ->
  exists r, add_exposure prec emax prec emax Hp He Hp He s (nx, ny) o im = Some r.
Proof.
  intros D Hn R Hm Hc. destruct (add_exposure _ _ _ _ _ _ _ _ s (nx, ny) o im) as [r|] eqn:E; [eauto|]. exfalso.
  apply C27_refusal in E; auto; [|apply D]. destruct E as [E|(x & y & p & _ & E)]; [contradiction|].
  assert (H : is_finite (p_im _ _ (one_pixel prec emax Hp He o p)) = true /\ is_finite (p_ierr _ _ (one_pixel prec emax Hp He o p)) = true).
  { unfold one_pixel, calibrate. rewrite Hc. set (u := subtract prec emax Hp He o p). unfold apply_mask, unusable. 
    destruct (is_finite (p_ierr _ _ u)) eqn:E1, (is_finite (p_im _ _ u)) eqn:E2, (Bleb (fzero prec emax) (p_ierr _ _ u)), (flag_set prec emax o u), (is_finite (p_bkg _ _ u)) eqn:E3;
      cbn [negb andb orb p_im p_ierr p_bkg is_finite]; rewrite ?E3; cbn [p_im p_ierr]; auto. }
  destruct H as [H1 H2]. apply cast_same in H1, H2. destruct E; congruence.
Qed.
End Same.

(** 32-bit floats *)
Module F32.
Definition Hp : FLX.Prec_gt_0 24 := eq_refl.
Definition He : Prec_lt_emax 24 128 := eq_refl.
Definition f32 := binary_float 24 128.
Definition one : f32 := Bone (prec_gt_0_:=Hp) (prec_lt_emax_:=He).
Definition two : f32 := Bplus (prec_gt_0_:=Hp) (prec_lt_emax_:=He) mode_NE one one.
Definition half : f32 := Bdiv (prec_gt_0_:=Hp) (prec_lt_emax_:=He) mode_NE one two.
Definition zero : f32 := B754_zero false.
Notation px := (mkPixel 24 128).
Notation opts := (mkOptions 24 128).
Definition add := add_exposure 24 128 24 128 Hp He Hp He.
End F32.
Import F32.

(** A 2 x 2 image with a NaN value, an infinite inverse error and a flagged pixel *)
Definition case_im : list (list (pixel 24 128)) :=
  [[px two one one 0%Z; px B754_nan one one 0%Z]; [px two (B754_infinity false) one 0%Z; px two two one 4%Z]].
Example C27_case : rect case_im 2 2 /\ small 2 2 /\ divides 2 2 2 /\ proper_mask 24 128 (opts true IntMask 4%Z (Some (two, half))) /\ proper_cal 24 128 (opts true IntMask 4%Z (Some (two, half))) /\
  usable 24 128 Hp He (opts true IntMask 4%Z (Some (two, half))) (px two one one 0%Z) /\
  ~ usable 24 128 Hp He (opts true IntMask 4%Z (Some (two, half))) (px two two one 4%Z) /\
  option_map (fun r => map (map (map (fun v => B2SF v))) (fst r)) (add 2 (2, 2) (opts true IntMask 4%Z (Some (two, half))) case_im)
  = Some [[map (fun v => B2SF v) [two; two; two; two; half; zero; zero; zero]]].
Proof.
  split; [split; [reflexivity|repeat constructor]|]. split; [split; simpl; lia|]. split; [repeat split; lia|]. split; [intros _; discriminate|]. split; [split; vm_compute; reflexivity|].
  split; [repeat split; try (vm_compute; reflexivity); intros H; vm_compute in H; congruence|]. split; [intros (_ & _ & _ & H); apply H; vm_compute; discriminate|].
  vm_compute. reflexivity.
Qed.

(** An integer mask without a bit selection is combined with [|] into an integer array,
    and numpy then clears whole rows: here the flagged pixel (2, 2) keeps its inverse
    error while the unflagged rows 0 and 1 lose theirs. *)
Definition int_im : list (list (pixel 24 128)) :=
  map (fun i => map (fun j => px one one zero (if (i =? 2) && (j =? 2) then 1%Z else 0%Z)) (seq 0 3)) (seq 0 3).
Theorem C27_integer_mask_refuted : exists sp im',
  add 3 (3, 3) (opts false IntMask 0%Z None) int_im = Some (sp, im') /\ get2 int_im 2 2 = Some (px one one zero 1%Z) /\ get2 int_im 0 0 = Some (px one one zero 0%Z) /\
  get3 (fst (pixel_coordinates 3 3 3)) 0 0 8 = Some 2%Z /\ get3 (snd (pixel_coordinates 3 3 3)) 0 0 8 = Some 2%Z /\
  option_map (fun v => B2SF v) (get3 sp 0 0 (9 + 8)) = Some (B2SF one) /\
  get3 (fst (pixel_coordinates 3 3 3)) 0 0 0 = Some 0%Z /\ get3 (snd (pixel_coordinates 3 3 3)) 0 0 0 = Some 0%Z /\
  option_map (fun v => B2SF v) (get3 sp 0 0 (9 + 0)) = Some (B2SF zero).
Proof.
  assert (E2 : option_map (fun r => map (map (map (fun v => B2SF v))) (fst r)) (add 3 (3, 3) (opts false IntMask 0%Z None) int_im) =
     Some [[repeat (B2SF zero) 6 ++ repeat (B2SF one) 3 ++ repeat (B2SF zero) 6 ++ repeat (B2SF one) 3]]).
  { vm_compute. reflexivity. }
  destruct (add 3 (3, 3) (opts false IntMask 0%Z None) int_im) as [[sp im']|]; [|discriminate].
  exists sp, im'. split; [reflexivity|]. cbn [option_map fst] in E2.
  assert (E3 : map (map (map (fun v => B2SF v))) sp = [[repeat (B2SF zero) 6 ++ repeat (B2SF one) 3 ++ repeat (B2SF zero) 6 ++ repeat (B2SF one) 3]]) by congruence. clear E2.
  assert (Hg : forall k, option_map (fun v => B2SF v) (get3 sp 0 0 k) = get3 [[repeat (B2SF zero) 6 ++ repeat (B2SF one) 3 ++ repeat (B2SF zero) 6 ++ repeat (B2SF one) 3]] 0 0 k).
  { intros k. rewrite <- E3. unfold get3. rewrite get2_map. destruct (get2 sp 0 0); auto. cbn [option_map]. symmetry. apply nth_error_map. }
  rewrite !Hg. repeat split.
Qed.
