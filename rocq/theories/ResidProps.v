(** C49: what is written of a patch is what is read back. *)
From Verif Require Import Np NpFacts PackModel PackFacts CombineModel CombineProps CombineCat ResidModel.
Open Scope nat_scope.

Section Resid.
  Context {V Mt : Type}.
  Implicit Types (f : file V Mt) (p : patch V Mt).

  Lemma key_eqb_iff a b : key_eqb a b = true <-> a = b.
  Proof.
    destruct a as [a1 a2], b as [b1 b2]. unfold key_eqb; cbn. rewrite andb_true_iff, !String.eqb_eq.
    split; [intros [-> ->]; reflexivity|intro H; inversion H; auto].
  Qed.

  Lemma find_cons (l : list ((string * string) * dataset V Mt)) k k' d :
    find_set ((k', d) :: l) k = if key_eqb k' k then Some d else find_set l k.
  Proof. reflexivity. Qed.

  Lemma need_group_sets f g : f_sets (need_group f g) = f_sets f /\ f_epaths (need_group f g) = f_epaths f /\
    f_ebands (need_group f g) = f_ebands f /\ f_ref (need_group f g) = f_ref f.
  Proof. unfold need_group. destruct (existsb _ _); auto. Qed.

  Lemma fold_groups l : forall f, f_sets (fold_left need_group l f) = f_sets f /\ f_epaths (fold_left need_group l f) = f_epaths f /\
    f_ebands (fold_left need_group l f) = f_ebands f /\ f_ref (fold_left need_group l f) = f_ref f.
  Proof.
    induction l as [|g l IH]; intro f; cbn; [auto|]. destruct (IH (need_group f g)) as (A & B & C & D).
    destruct (need_group_sets f g) as (A' & B' & C' & D'). repeat split; congruence.
  Qed.

  (** make_imset on fresh names and distinct paths *)
  Lemma imset_spec name : forall paths arrs f, NoDup paths -> List.length paths <= List.length arrs ->
    (forall e, In e paths -> find_set (f_sets f) (e, name) = None) ->
    exists f', make_imset f paths name arrs = Some f' /\
      (forall k e d, nth_error paths k = Some e -> nth_error arrs k = Some d -> find_set (f_sets f') (e, name) = Some d) /\
      (forall e n, n <> name \/ ~ In e paths -> find_set (f_sets f') (e, n) = find_set (f_sets f) (e, n)) /\
      f_epaths f' = f_epaths f /\ f_ebands f' = f_ebands f /\ f_ref f' = f_ref f.
  Proof.
    induction paths as [|e t IH]; intros arrs f ND L Fr; cbn [make_imset].
    - exists f. repeat split; auto. intros k e d H. now destruct k.
    - destruct arrs as [|d ds]; [cbn in L; lia|]. cbn in L.
      inversion ND as [|? ? NI ND']; subst.
      destruct (need_group_sets f e) as (A & B & C & D).
      unfold create_dataset. rewrite A, Fr by (now left). cbn [f_sets f_epaths f_ebands f_ref].
      match goal with |- context [make_imset ?g t name ds] => set (f1 := g) end.
      destruct (IH ds f1 ND' ltac:(lia)) as (f' & E & P1 & P2 & P3 & P4 & P5).
      { intros e' I. unfold f1. cbn [f_sets]. rewrite find_cons.
        destruct (key_eqb (e, name) (e', name)) eqn:K.
        - apply key_eqb_iff in K. inversion K; subst. contradiction.
        - rewrite ?A. apply Fr. now right. }
      exists f'. split; [exact E|]. split; [|split; [|unfold f1 in *; cbn in *; repeat split; congruence]].
      + intros k e' d' H1 H2. destruct k as [|k]; cbn in H1, H2.
        * inversion H1; inversion H2; subst. rewrite P2 by (now right). unfold f1. cbn [f_sets]. rewrite find_cons.
          now rewrite (proj2 (key_eqb_iff _ _) eq_refl).
        * eauto.
      + intros e' n H. rewrite P2 by (destruct H as [H|H]; [now left|right; intro; apply H; now right]).
        unfold f1. cbn [f_sets]. rewrite find_cons. destruct (key_eqb (e, name) (e', n)) eqn:K; [|now rewrite ?A].
        apply key_eqb_iff in K. inversion K; subst. destruct H as [H|H]; [congruence|]. elim H. now left.
  Qed.

  Lemma imset_short name : forall paths arrs f, List.length arrs < List.length paths -> make_imset (V := V) (Mt := Mt) f paths name arrs = None.
  Proof.
    induction paths as [|e t IH]; intros arrs f L; cbn in *; [lia|].
    destruct arrs as [|d ds]; [reflexivity|]. cbn in L. apply IH. lia.
  Qed.
End Resid.

(** A patch made of exposures: one entry per exposure in every list, and the flat arrays are the
    arrays of the exposures one after the other. *)
Record exp_pixels (V Mt : Type) := mkEP {
  x_path : string; x_data : list V; x_x : list Z; x_y : list Z; x_ierr : list V; x_resid : list V;
  x_D : Mt; x_CW : Mt; x_crpix : Mt; x_crval : Mt }.
Arguments mkEP {V Mt}. Arguments x_path {V Mt}. Arguments x_data {V Mt}. Arguments x_x {V Mt}. Arguments x_y {V Mt}.
Arguments x_ierr {V Mt}. Arguments x_resid {V Mt}. Arguments x_D {V Mt}. Arguments x_CW {V Mt}. Arguments x_crpix {V Mt}. Arguments x_crval {V Mt}.

Definition made_of {V Mt} (p : patch V Mt) (xs : list (exp_pixels V Mt)) : Prop :=
  p_epaths p = map x_path xs /\ p_exposure_N p = map (fun x => List.length (x_data x)) xs /\
  p_data p = concat (map x_data xs) /\ p_xpix p = concat (map x_x xs) /\ p_ypix p = concat (map x_y xs) /\
  p_ierr p = concat (map x_ierr xs) /\
  p_D p = map x_D xs /\ p_CW p = map x_CW xs /\ p_crpix p = map x_crpix xs /\ p_crval p = map x_crval xs /\
  Forall (fun x => List.length (x_x x) = List.length (x_data x) /\ List.length (x_y x) = List.length (x_data x) /\
                   List.length (x_ierr x) = List.length (x_data x) /\ List.length (x_resid x) = List.length (x_data x)) xs.

Lemma split_made {V Mt A} (p : patch V Mt) (xs : list (exp_pixels V Mt)) (g : exp_pixels V Mt -> list A) :
  xs <> [] -> made_of p xs -> Forall (fun x => List.length (g x) = List.length (x_data x)) xs ->
  split_attr p (concat (map g xs)) = map g xs.
Proof.
  intros N M F. unfold split_attr. apply split_sizes; [intro Z; destruct xs; [congruence|discriminate]|].
  destruct M as (_ & -> & _). rewrite map_map. apply map_ext_in. intros x I. rewrite Forall_forall in F. symmetry. now apply F.
Qed.

Ltac step_imset H f' E P1 P2 P3 P4 P5 :=
  match goal with |- context [make_imset ?f ?paths ?name ?arrs] =>
    destruct (imset_spec name paths arrs f H) as (f' & E & P1 & P2 & P3 & P4 & P5)
  end.

(** ** Round trip *)
Theorem C49_round_trip : forall V Mt (p : patch V Mt) xs,
  made_of p xs -> xs <> [] -> NoDup (p_epaths p) ->
  exists f, write_residuals p (Some (map x_resid xs)) = Some f /\
    f_epaths f = p_epaths p /\ f_ebands f = p_bands p /\ f_ref f = p_ref p /\
    forall x, In x xs ->
      read f (x_path x) "data" = Some (Pixels (x_data x)) /\
      read f (x_path x) "xpix" = Some (Coords (x_x x)) /\
      read f (x_path x) "ypix" = Some (Coords (x_y x)) /\
      read f (x_path x) "ierr" = Some (Pixels (x_ierr x)) /\
      read f (x_path x) "residual" = Some (Pixels (x_resid x)) /\
      read f (x_path x) "D" = Some (Meta (x_D x)) /\
      read f (x_path x) "CW" = Some (Meta (x_CW x)) /\
      read f (x_path x) "crpix" = Some (Meta (x_crpix x)) /\
      read f (x_path x) "crval" = Some (Meta (x_crval x)).
Proof.
  intros V Mt p xs M N ND. pose proof M as (Me & MN & Md & Mx & My & Mi & MD & MC & Mp & Mv & ML).
  assert (F1 : Forall (fun x => List.length (x_x x) = List.length (x_data x)) xs) by (eapply Forall_impl; [|exact ML]; cbn; tauto).
  assert (F2 : Forall (fun x => List.length (x_y x) = List.length (x_data x)) xs) by (eapply Forall_impl; [|exact ML]; cbn; tauto).
  assert (F3 : Forall (fun x => List.length (x_ierr x) = List.length (x_data x)) xs) by (eapply Forall_impl; [|exact ML]; cbn; tauto).
  assert (F0 : Forall (fun x : exp_pixels V Mt => List.length (x_data x) = List.length (x_data x)) xs) by (apply Forall_forall; auto).
  unfold write_residuals.
  rewrite Md, Mx, My, Mi, MD, MC, Mp, Mv.
  rewrite (split_made p xs x_data N M F0), (split_made p xs x_x N M F1), (split_made p xs x_y N M F2), (split_made p xs x_ierr N M F3).
  rewrite !map_map.
  set (f0 := fold_left need_group (p_bandlist p) _).
  destruct (fold_groups (p_bandlist p) (mkFile (V := V) (Mt := Mt) (p_epaths p) (p_bands p) (p_ref p) [] [])) as (G1 & G2 & G3 & G4).
  fold f0 in G1, G2, G3, G4. cbn in G1, G2, G3, G4.
  assert (LE : forall T (g : exp_pixels V Mt -> T), List.length (p_epaths p) <= List.length (map g xs)) by (intros; rewrite Me, !map_length; auto).
  (* the nine calls *)
  destruct (imset_spec "residual" (p_epaths p) (map (fun x => Pixels (Mt := Mt) (x_resid x)) xs) f0 ND (LE _ _)) as (f1 & E1 & A1 & B1 & H1 & I1 & J1).
  { intros; now rewrite G1. }
  destruct (imset_spec "data" (p_epaths p) (map (fun x => Pixels (Mt := Mt) (x_data x)) xs) f1 ND (LE _ _)) as (f2 & E2 & A2 & B2 & H2 & I2 & J2).
  { intros. rewrite B1 by (left; discriminate). now rewrite G1. }
  destruct (imset_spec "xpix" (p_epaths p) (map (fun x => Coords (V := V) (Mt := Mt) (x_x x)) xs) f2 ND (LE _ _)) as (f3 & E3 & A3 & B3 & H3 & I3 & J3).
  { intros. rewrite B2, B1 by (left; discriminate). now rewrite G1. }
  destruct (imset_spec "ypix" (p_epaths p) (map (fun x => Coords (V := V) (Mt := Mt) (x_y x)) xs) f3 ND (LE _ _)) as (f4 & E4 & A4 & B4 & H4 & I4 & J4).
  { intros. rewrite B3, B2, B1 by (left; discriminate). now rewrite G1. }
  destruct (imset_spec "ierr" (p_epaths p) (map (fun x => Pixels (Mt := Mt) (x_ierr x)) xs) f4 ND (LE _ _)) as (f5 & E5 & A5 & B5 & H5 & I5 & J5).
  { intros. rewrite B4, B3, B2, B1 by (left; discriminate). now rewrite G1. }
  destruct (imset_spec "D" (p_epaths p) (map (fun x => Meta (V := V) (x_D x)) xs) f5 ND (LE _ _)) as (f6 & E6 & A6 & B6 & H6 & I6 & J6).
  { intros. rewrite B5, B4, B3, B2, B1 by (left; discriminate). now rewrite G1. }
  destruct (imset_spec "CW" (p_epaths p) (map (fun x => Meta (V := V) (x_CW x)) xs) f6 ND (LE _ _)) as (f7 & E7 & A7 & B7 & H7 & I7 & J7).
  { intros. rewrite B6, B5, B4, B3, B2, B1 by (left; discriminate). now rewrite G1. }
  destruct (imset_spec "crpix" (p_epaths p) (map (fun x => Meta (V := V) (x_crpix x)) xs) f7 ND (LE _ _)) as (f8 & E8 & A8 & B8 & H8 & I8 & J8).
  { intros. rewrite B7, B6, B5, B4, B3, B2, B1 by (left; discriminate). now rewrite G1. }
  destruct (imset_spec "crval" (p_epaths p) (map (fun x => Meta (V := V) (x_crval x)) xs) f8 ND (LE _ _)) as (f9 & E9 & A9 & B9 & H9 & I9 & J9).
  { intros. rewrite B8, B7, B6, B5, B4, B3, B2, B1 by (left; discriminate). now rewrite G1. }
  exists f9. split.
  { rewrite E1. cbn [bind]. rewrite E2. cbn [bind]. rewrite E3. cbn [bind]. rewrite E4. cbn [bind]. rewrite E5. cbn [bind].
    rewrite E6. cbn [bind]. rewrite E7. cbn [bind]. rewrite E8. cbn [bind]. exact E9. }
  split; [congruence|]. split; [congruence|]. split; [congruence|].
  intros x I. destruct (In_nth_error _ _ I) as (k & K).
  assert (KP : nth_error (p_epaths p) k = Some (x_path x)) by (rewrite Me, nth_error_map, K; reflexivity).
  assert (KG : forall T (g : exp_pixels V Mt -> T), nth_error (map g xs) k = Some (g x)) by (intros; rewrite nth_error_map, K; reflexivity).
  unfold read.
  repeat split.
  - rewrite B9, B8, B7, B6, B5, B4, B3 by (left; discriminate). eapply A2; [exact KP|apply KG].
  - rewrite B9, B8, B7, B6, B5, B4 by (left; discriminate). eapply A3; [exact KP|apply KG].
  - rewrite B9, B8, B7, B6, B5 by (left; discriminate). eapply A4; [exact KP|apply KG].
  - rewrite B9, B8, B7, B6 by (left; discriminate). eapply A5; [exact KP|apply KG].
  - rewrite B9, B8, B7, B6, B5, B4, B3, B2 by (left; discriminate). eapply A1; [exact KP|apply KG].
  - rewrite B9, B8, B7 by (left; discriminate). eapply A6; [exact KP|apply KG].
  - rewrite B9, B8 by (left; discriminate). eapply A7; [exact KP|apply KG].
  - rewrite B9 by (left; discriminate). eapply A8; [exact KP|apply KG].
  - eapply A9; [exact KP|apply KG].
Qed.

(** ** The images made from the file *)
Lemma zip3_nth {V} (xs ys : list Z) (vs : list V) : forall i x y v,
  nth_error xs i = Some x -> nth_error ys i = Some y -> nth_error vs i = Some v -> In (x, y, v) (zip3 xs ys vs).
Proof.
  unfold zip3. revert ys vs; induction xs as [|a xs IH]; intros ys vs i x y v; [now destruct i|].
  destruct ys as [|b ys]; [now destruct i|]. destruct vs as [|c vs]; [now destruct i|].
  destruct i as [|i]; cbn; intros A B C.
  - inversion A; inversion B; inversion C; subst. now left.
  - right. eauto.
Qed.
Lemma zip3_in {V} (xs ys : list Z) (vs : list V) : forall x y v, In (x, y, v) (zip3 xs ys vs) ->
  exists i, nth_error xs i = Some x /\ nth_error ys i = Some y /\ nth_error vs i = Some v.
Proof.
  unfold zip3. revert ys vs; induction xs as [|a xs IH]; intros ys vs x y v; cbn; [easy|].
  destruct ys as [|b ys]; cbn; [easy|]. destruct vs as [|c vs]; cbn; [easy|].
  intros [H|H].
  - inversion H; subst. now exists 0.
  - destruct (IH _ _ _ _ _ H) as (i & A). now exists (S i).
Qed.

Definition distinct_pixels {V Mt} (x : exp_pixels V Mt) : Prop :=
  forall i j a b, nth_error (x_x x) i = Some a -> nth_error (x_y x) i = Some b ->
    nth_error (x_x x) j = Some a -> nth_error (x_y x) j = Some b -> (0 <= a)%Z -> (0 <= b)%Z -> i = j.

Lemma zip3_split {V} (xs ys : list Z) (vs : list V) : forall pre q post, zip3 xs ys vs = (pre ++ q :: post)%list ->
  let '(x, y, v) := q in
  nth_error xs (List.length pre) = Some x /\ nth_error ys (List.length pre) = Some y /\ nth_error vs (List.length pre) = Some v /\
  forall x' y' v', In (x', y', v') post -> exists i, List.length pre < i /\ nth_error xs i = Some x' /\ nth_error ys i = Some y' /\ nth_error vs i = Some v'.
Proof.
  unfold zip3. revert ys vs; induction xs as [|a xs IH]; intros ys vs pre q post; cbn; [now destruct pre|].
  destruct ys as [|b ys]; cbn; [now destruct pre|]. destruct vs as [|c vs]; cbn; [now destruct pre|].
  destruct pre as [|r pre]; cbn; intro E; inversion E; subst.
  - repeat split; auto. intros x' y' v' I. destruct (zip3_in xs ys vs x' y' v' I) as (i & A). exists (S i). cbn. split; [lia|auto].
  - specialize (IH ys vs pre q post H1). destruct q as [[x y] v]. destruct IH as (A & B & C & D). repeat split; auto.
    intros x' y' v' I. destruct (D x' y' v' I) as (i & L & X). exists (S i). cbn. split; [lia|auto].
Qed.

(** The image of an exposure has each pixel's value at that pixel's place and NaN elsewhere;
    padding, which has negative coordinates, is left out. *)
Theorem C49_images : forall V Mt (p : patch V Mt) xs f value (get : exp_pixels V Mt -> list V),
  made_of p xs -> xs <> [] -> NoDup (p_epaths p) ->
  write_residuals p (Some (map x_resid xs)) = Some f ->
  (value, get) = ("data"%string, x_data) \/ (value, get) = ("residual"%string, x_resid) \/ (value, get) = ("ierr"%string, x_ierr) ->
  forall k x, nth_error xs k = Some x -> distinct_pixels x ->
    (exists i a b, nth_error (x_x x) i = Some a /\ nth_error (x_y x) i = Some b /\ 0 <= a /\ 0 <= b)%Z ->
  exists im x0 y0 x1 y1, make_exp f k value = Some (im, (2 * x0 - 1, 2 * y0 - 1)%Z, (2 * x1 + 1, 2 * y1 + 1)%Z) /\
    (0 <= x0 /\ 0 <= y0)%Z /\
    (forall i a b v, nth_error (x_x x) i = Some a -> nth_error (x_y x) i = Some b -> nth_error (get x) i = Some v ->
       (0 <= a)%Z -> (0 <= b)%Z -> cell im (Z.to_nat (a - x0)) (Z.to_nat (b - y0)) = Some (Some v)) /\
    (forall i j, i < nx im -> j < ny im ->
       (forall n, ~ (nth_error (x_x x) n = Some (x0 + Z.of_nat i)%Z /\ nth_error (x_y x) n = Some (y0 + Z.of_nat j)%Z)) ->
       cell im i j = Some None).
Proof.
  intros V Mt p xs f value get M N ND W VG k x K DP (i0 & a0 & b0 & HA & HB & PA & PB).
  destruct (C49_round_trip V Mt p xs M N ND) as (f' & W' & FE & _ & _ & R).
  rewrite W in W'. inversion W'; subst f'. clear W'.
  assert (I : In x xs) by (eapply nth_error_In; eauto).
  destruct (R x I) as (R1 & R2 & R3 & R4 & R5 & _).
  destruct M as (Me & _ & _ & _ & _ & _ & _ & _ & _ & _ & ML). rewrite Forall_forall in ML. destruct (ML x I) as (L1 & L2 & L3 & L4).
  assert (RV : read f (x_path x) value = Some (Pixels (get x)) /\ List.length (get x) = List.length (x_data x)).
  { destruct VG as [E|[E|E]]; inversion E; subst; auto. }
  destruct RV as (RV & LV).
  assert (ME : make_exp f k value = populate_image (zip3 (x_x x) (x_y x) (get x))).
  { unfold make_exp. rewrite FE, Me, nth_error_map, K. cbn [option_map bind]. rewrite R2, R3, RV.
    rewrite L1, L2, LV, !Nat.eqb_refl. reflexivity. }
  assert (EV : exists v0, nth_error (get x) i0 = Some v0).
  { destruct (nth_error (get x) i0) eqn:E; [eauto|]. apply nth_error_None in E.
    assert (i0 < List.length (x_x x)) by (apply nth_error_Some; congruence). lia. }
  destruct EV as (v0 & EV).
  destruct (C40_populate V (zip3 (x_x x) (x_y x) (get x))) as (im & x0 & y0 & x1 & y1 & PI & (SX & SY) & RG & (X0 & Y0) & C).
  { exists a0, b0, v0. split; [|auto]. eapply zip3_nth; eauto. }
  exists im, x0, y0, x1, y1. rewrite ME. split; [exact PI|]. split; [auto|]. split.
  - intros i a b v Ha Hb Hv Pa Pb. pose proof (zip3_nth _ _ _ _ _ _ _ Ha Hb Hv) as Iz.
    destruct (RG a b v Iz Pa Pb) as (Q1 & Q2).
    apply C; [lia|lia|]. rewrite !Z2Nat.id by lia. replace (x0 + (a - x0))%Z with a by lia. replace (y0 + (b - y0))%Z with b by lia.
    destruct (in_split _ _ Iz) as (pre & post & E). apply latest_some with pre post; [exact E|].
    intros w Iw. pose proof (zip3_split _ _ _ _ _ _ E) as (Z1 & Z2 & Z3 & Z4).
    destruct (Z4 a b w Iw) as (j & Lj & J1 & J2 & _).
    assert (List.length pre = j) by (eapply DP; eauto). lia.
  - intros i j Hi Hj Nn. apply C; auto. apply latest_none. intros v Iv. apply zip3_in in Iv. destruct Iv as (n & A & B & _). now apply (Nn n).
Qed.

(** ** A list of residuals that is too short is an error *)
Theorem C49_too_few_residuals : forall V Mt (p : patch V Mt) resid, List.length resid < List.length (p_epaths p) ->
  write_residuals p (Some resid) = None.
Proof. intros V Mt p resid L. unfold write_residuals. rewrite imset_short; [reflexivity|]. now rewrite map_length. Qed.

(** ** Exposures with the same path *)
(** If an image is listed twice, the pixels of the second exposure are lost without an error, and
    reading the second exposure gives the first. *)
Definition twin (p1 p2 : Z) : list (exp_pixels Z Z) :=
  [mkEP "a.fits" [10; 11] [0; 1] [0; 0] [1; 1] [p1; p1] 0 0 0 0; mkEP "a.fits" [20] [5] [7] [1] [p2] 1 1 1 1]%Z.
Definition twin_patch : patch Z Z :=
  mkPatch ["a.fits"; "a.fits"]%string ["b"; "b"]%string ["b"]%string (0, 0)%Z [2; 1] [10; 11; 20]%Z [0; 1; 5]%Z [0; 0; 7]%Z [1; 1; 1]%Z [0; 1]%Z [0; 1]%Z [0; 1]%Z [0; 1]%Z.

Theorem C49_duplicate_refuted : exists (p : patch Z Z) xs f x,
  made_of p xs /\ nth_error xs 1 = Some x /\ write_residuals p (Some (map x_resid xs)) = Some f /\
  read f (x_path x) "data" <> Some (Pixels (x_data x)) /\
  make_exp f 1 "data" = make_exp f 0 "data" /\ make_exp f 1 "data" <> None.
Proof.
  exists twin_patch, (twin 3 4)%Z. eexists. eexists. split; [|split; [reflexivity|split; [vm_compute; reflexivity|]]].
  - unfold made_of. repeat (split; [reflexivity|]). repeat constructor.
  - split; [vm_compute; discriminate|]. split; [vm_compute; reflexivity|vm_compute; discriminate].
Qed.

(** ** The hypotheses are met *)
Definition pair_patch : patch Z Z :=
  mkPatch ["b/e1"; "c/e2"]%string ["b"; "c"]%string ["b"; "c"]%string (0, 0)%Z [3; 1] [10; 11; 0; 20]%Z [4; 5; -1; 5]%Z [2; 2; -1; 7]%Z [1; 1; 0; 1]%Z [0; 1]%Z [0; 1]%Z [0; 1]%Z [0; 1]%Z.
Definition pair_pixels : list (exp_pixels Z Z) :=
  [mkEP "b/e1" [10; 11; 0] [4; 5; -1] [2; 2; -1] [1; 1; 0] [3; 4; 0] 0 0 0 0; mkEP "c/e2" [20] [5] [7] [1] [8] 1 1 1 1]%Z.
Example pair_made : made_of pair_patch pair_pixels /\ NoDup (p_epaths pair_patch).
Proof. split; [unfold made_of; repeat (split; [reflexivity|]); repeat constructor|]. repeat constructor; cbn; intuition discriminate. Qed.
Example pair_distinct : distinct_pixels (nth 0 pair_pixels (mkEP "" [] [] [] [] [] 0 0 0 0)%Z).
Proof.
  intros i j a b. cbn. destruct i as [|[|[|[|i]]]], j as [|[|[|[|j]]]]; cbn; intros A B C D Pa Pb; try discriminate; auto;
    inversion A; inversion C; subst; try discriminate; try lia.
Qed.
Example pair_image : option_map (fun r => cells (fst (fst r))) (match write_residuals pair_patch (Some (map x_resid pair_pixels)) with Some f => make_exp f 0 "residual" | None => None end)
  = Some [[Some 3%Z]; [Some 4%Z]].
Proof. vm_compute. reflexivity. Qed.

Print Assumptions C49_round_trip.
Print Assumptions C49_images.
Print Assumptions C49_too_few_residuals.
Print Assumptions C49_duplicate_refuted.
