(** C71: mock images show the sources of the scene where, as large and as bright as the catalog says. *)
From Coq Require Import Reals Arith List String Ascii Bool Lra Lia Psatz.
From Verif Require Import WcsModel StampModel StampProps Ds9Props MockModel.
Import ListNotations.
Open Scope R_scope.

Definition total (l : list R) : R := fold_right Rplus 0 l.

(** ** Lists *)
Lemma all_of_nth {A B} (f : A -> option B) : forall l l', all_of f l = Some l' ->
  List.length l' = List.length l /\ forall i a, nth_error l i = Some a -> exists b, nth_error l' i = Some b /\ f a = Some b.
Proof.
  induction l as [|x l IH]; intros l' H; cbn [all_of] in H.
  - injection H as <-. split; [reflexivity|]. intros [|i] a Ha; discriminate.
  - destruct (f x) as [b|] eqn:Ef; [|discriminate]. destruct (all_of f l) as [bs|] eqn:El; [|discriminate]. injection H as <-.
    destruct (IH bs eq_refl) as [L N]. split; [cbn; now rewrite L|]. intros [|i] a Ha; cbn [nth_error] in *; [injection Ha as <-; eauto|auto].
Qed.
Lemma nth_error_seq n i : (i < n)%nat -> nth_error (seq 0 n) i = Some i.
Proof. intros H. rewrite (nth_error_nth' _ 0%nat), seq_nth by (rewrite ?seq_length; lia). reflexivity. Qed.
Lemma nth_map_seq (f : nat -> R) n i : (i < n)%nat -> nth i (map f (seq 0 n)) 0 = f i.
Proof. intros H. apply nth_error_nth. now rewrite nth_error_map, nth_error_seq. Qed.
Lemma fill_spec n g l : fill n g = Some l -> List.length l = n /\
  match g with Num v => forall i, (i < n)%nat -> nth i l 0 = v
             | Nums [v] => forall i, (i < n)%nat -> nth i l 0 = v
             | Nums l0 => l = l0 end.
Proof.
  assert (R1 : forall (v : R) i, (i < n)%nat -> nth i (repeat v n) 0 = v).
  { intros v i Hi. rewrite (nth_indep _ 0 v) by now rewrite repeat_length. apply nth_repeat. }
  destruct g as [v|l0]; cbn [fill]; intros H.
  - injection H as <-. split; [apply repeat_length|apply R1].
  - destruct (Nat.eqb_spec (List.length l0) n) as [E|E].
    + injection H as <-. split; [assumption|]. destruct l0 as [|v [|w l0]]; try reflexivity.
      intros i Hi. cbn in E. assert (i = 0%nat) by lia. now subst i.
    + destruct l0 as [|v [|w l0]]; try discriminate. injection H as <-. split; [apply repeat_length|apply R1].
Qed.
(** What a parameter says about source i *)
Definition value_for (g : given) (i : nat) : option R :=
  match g with Num v => Some v | Nums [v] => Some v | Nums l => nth_error l i end.
Lemma fill_value n g l i : fill n g = Some l -> (i < n)%nat -> value_for g i = Some (nth i l 0).
Proof.
  intros H Hi. destruct (fill_spec _ _ _ H) as [L S]. destruct g as [v|l0]; cbn [value_for].
  - now rewrite S.
  - destruct l0 as [|v [|w l0]]; [subst l|now rewrite S|subst l]; apply nth_error_nth'; lia.
Qed.

(** ** Stamps *)
Lemma inv_scaled k : k <> 0 -> inv (mscal (/ k) eye) = Some (mscal k eye).
Proof.
  intros Hk. rewrite (inv_mscal (/ k) eye eye); [|now apply Rinv_neq_0_compat|].
  - now rewrite Rinv_inv.
  - unfold inv, det, eye. cbn [m00 m01 m10 m11]. destruct (Req_EM_T (1 * 1 - 0 * 0) 0); [lra|]. f_equal. unfold mscal. cbn [m00 m01 m10 m11]. f_equal; field.
Qed.
Lemma made_stamp band scale nx ny d : made (ms_stamp (make_stamp band scale nx ny d)).
Proof.
  unfold made, make_stamp. cbn [ms_stamp ps_nx ps_ny ps_values ps_ierr]. repeat split; try apply repeat_length.
  intros row Hr. apply repeat_spec in Hr. subst. apply repeat_length.
Qed.
Lemma fits_defined ra0 s : made s -> det (ps_scale s) <> 0 -> exists f s', to_fits ra0 s = Some (f, s').
Proof.
  intros [_ He] Hd. assert (exists si, inv (ps_scale s) = Some si) as [si Esi].
  { unfold inv. destruct (Req_EM_T (det (ps_scale s)) 0); [contradiction|eauto]. }
  unfold to_fits. rewrite (wcs_closed ra0 s si Esi). cbn [ps_nx ps_ny ps_ierr]. destruct (existsb _ _); [|eauto].
  destruct (reshape_spec _ _ _ He) as (e & -> & _). eauto.
Qed.
(** Pixels of the wanted size with columns to the east and rows to the north, and the middle of the image moved by the
    dither at the reference pixel; every pixel is zero *)
Theorem C71_stamp ra0 band scale nx ny dx dy : scale <> 0 ->
  let s := make_stamp band scale nx ny (V dx dy) in
  ms_band s = band /\ ps_nx (ms_stamp s) = nx /\ ps_ny (ms_stamp s) = ny /\
  (forall x y, (x < nx)%nat -> (y < ny)%nat -> entry (ps_values (ms_stamp s)) x y = Some 0) /\
  exists f s', to_fits ra0 (ms_stamp s) = Some (f, s') /\
    h_pc (f_header f) = M (scale / 3600) 0 0 (scale / 3600) /\ h_crval (f_header f) = V 53 (-27) /\
    h_crpix (f_header f) = V ((INR nx + 1) / 2 + dx) ((INR ny + 1) / 2 + dy).
Proof.
  intros Hs s. split; [reflexivity|]. split; [reflexivity|]. split; [reflexivity|]. split.
  { intros x y Hx Hy. unfold entry, s, make_stamp. cbn [ms_stamp ps_values]. rewrite (nth_error_nth' _ []) by now rewrite repeat_length.
    rewrite (nth_indep _ [] (repeat 0 ny)) by now rewrite repeat_length. rewrite nth_repeat, (nth_error_nth' _ 0) by now rewrite repeat_length. now rewrite nth_repeat. }
  assert (Esi : inv (ps_scale (ms_stamp s)) = Some (mscal scale eye)) by now apply inv_scaled.
  unfold to_fits. rewrite (wcs_closed ra0 _ _ Esi). cbn [ps_ierr ps_nx ps_ny].
  assert (Z : existsb nonzero (ps_ierr (ms_stamp s)) = false).
  { unfold s, make_stamp. cbn [ms_stamp ps_ierr]. destruct (existsb nonzero _) eqn:X; [|reflexivity]. apply existsb_exists in X. destruct X as (e & I & N).
    apply repeat_spec in I. subst e. unfold nonzero in N. destruct (Req_EM_T 0 0); [discriminate|lra]. }
  rewrite Z. do 2 eexists. split; [reflexivity|]. cbn [f_header h_pc h_crval h_crpix]. split; [|split].
  - unfold mscal, eye. cbn [m00 m01 m10 m11]. f_equal; field.
  - reflexivity.
  - unfold s, make_stamp, vadd. cbn [ms_stamp ps_astro s_crpix v0 v1]. f_equal; field.
Qed.
Print Assumptions C71_stamp.

(** ** Scenes *)
Lemma rows_nth n bands ra dec rh se q pa fl i : (i < n)%nat ->
  nth_error (rows_of n bands ra dec rh se q pa fl) i =
  Some (mkRow i (nth i ra 0) (nth i dec 0) (nth i rh 0) (nth i se 0) (nth i q 0) (nth i pa 0) (map (fun b => (b, nth i fl 0)) bands)).
Proof. intros H. unfold rows_of. now rewrite nth_error_map, nth_error_seq. Qed.
Lemma flux_found bands v b : In b bands -> forall r, r_flux r = map (fun b => (b, v)) bands -> flux_in r b = Some v.
Proof.
  intros H r E. unfold flux_in. rewrite E. clear E. induction bands as [|c bands IH]; [contradiction|]. cbn [map find fst].
  destruct (String.eqb_spec c b); [reflexivity|]. destruct H as [H|H]; [contradiction|auto].
Qed.
Lemma flux_in_in row b fl : flux_in row b = Some fl -> In (b, fl) (r_flux row).
Proof. unfold flux_in. destruct (find _ (r_flux row)) as [[c v]|] eqn:E; [|discriminate]. apply find_some in E. destruct E as [E1 E2]. cbn [fst] in E2. apply String.eqb_eq in E2. subst c. cbn [snd]. congruence. Qed.
Lemma flux_in_only row b fl : NoDup (map fst (r_flux row)) -> In (b, fl) (r_flux row) -> flux_in row b = Some fl.
Proof.
  unfold flux_in. induction (r_flux row) as [|[c v] l IH]; intros N H; [destruct H|]. cbn [map fst] in N. inversion N as [|? ? N1 N2]; subst. cbn [find fst]. destruct (String.eqb_spec c b) as [->|Hn].
  - destruct H as [H|H]; [injection H as ->; reflexivity|]. exfalso. apply N1. apply in_map_iff. exists (b, fl). auto.
  - destruct H as [H|H]; [congruence|auto].
Qed.
Lemma flux_in_defined row b : In b (map fst (r_flux row)) -> flux_in row b <> None.
Proof.
  unfold flux_in. induction (r_flux row) as [|[c v] l IH]; intros H; [destruct H|]. cbn [find fst]. destruct (String.eqb_spec c b); [discriminate|]. destruct H as [H|H]; [contradiction|auto].
Qed.
Lemma rows_in n bands ra dec rh se q pa fl i row : nth_error (rows_of n bands ra dec rh se q pa fl) i = Some row -> (i < n)%nat.
Proof.
  intros H. assert (K : nth_error (rows_of n bands ra dec rh se q pa fl) i <> None) by congruence. apply nth_error_Some in K. unfold rows_of in K. now rewrite map_length, seq_length in K.
Qed.

(** There is a source for every radius, at least the wanted number; each has the values given for it (or for all), its
    flux in the band of every stamp; the first is in the middle of the first stamp and number i is i times its own
    radius times the fraction to the north of it, at the same right ascension *)
Theorem C71_scene ra0 p2w stamps nsource frac rhalf sersic flux q pa scene :
  make_scene ra0 p2w stamps nsource frac None rhalf sersic flux q pa = Some scene ->
  exists s f s', nth_error stamps 0 = Some s /\ to_fits ra0 (ms_stamp s) = Some (f, s') /\
  List.length scene = Nat.max (List.length (atleast_1d rhalf)) nsource /\
  forall i row, nth_error scene i = Some row ->
    let w := p2w (f_header f) (V ((INR (ps_nx (ms_stamp s)) - 1) / 2) ((INR (ps_ny (ms_stamp s)) - 1) / 2)) in
    r_id row = i /\ value_for rhalf i = Some (r_rhalf row) /\ value_for sersic i = Some (r_sersic row) /\
    value_for q i = Some (r_q row) /\ value_for pa i = Some (r_pa row) /\
    (forall t, In t stamps -> exists v, (forall w, In (ms_band t, w) (r_flux row) <-> w = v) /\ value_for flux i = Some v) /\
    r_ra row = v0 w /\ (r_dec row - v1 w) * 3600 = INR i * r_rhalf row * frac.
Proof.
  intros H. unfold make_scene in H. set (n := Nat.max _ nsource) in *.
  destruct (fill n rhalf) as [rh|] eqn:E1; [|discriminate]. destruct (fill n sersic) as [se|] eqn:E2; [|discriminate].
  destruct (fill n q) as [q'|] eqn:E3; [|discriminate]. destruct (fill n pa) as [pa'|] eqn:E4; [|discriminate].
  destruct stamps as [|s stamps]; [cbn in H; discriminate|].
  assert (B : exists b bs, bands_of (s :: stamps) = b :: bs).
  { destruct (bands_of (s :: stamps)) eqn:X; [|eauto]. exfalso. assert (K : In (ms_band s) (bands_of (s :: stamps))) by (apply nodup_In; now left). rewrite X in K. exact K. }
  destruct B as (b & bs & B). rewrite B in H. rewrite <- B in H.
  destruct (fill n flux) as [fl|] eqn:E5; [|discriminate].
  destruct (to_fits ra0 (ms_stamp s)) as [[f s']|] eqn:Ef; [|discriminate]. injection H as <-.
  exists s, f, s'. split; [reflexivity|]. split; [exact Ef|]. split; [unfold rows_of; now rewrite map_length, seq_length|].
  intros i row Hi w. assert (Hn : (i < n)%nat) by exact (rows_in _ _ _ _ _ _ _ _ _ _ _ Hi).
  rewrite rows_nth in Hi by assumption. injection Hi as <-. cbn [r_id r_rhalf r_sersic r_q r_pa r_flux r_ra r_dec].
  split; [reflexivity|]. repeat (split; [now apply (fill_value n)|]). split.
  { intros t Ht. exists (nth i fl 0). split; [|now apply (fill_value n)]. intros w'. split.
    - intros K. apply in_map_iff in K. destruct K as (c & K & _). congruence.
    - intros ->. apply in_map_iff. exists (ms_band t). split; [reflexivity|]. apply nodup_In. now apply in_map. }
  split.
  - fold w. rewrite (nth_indep _ 0 (v0 w)) by now rewrite repeat_length. now rewrite nth_repeat.
  - fold w. rewrite nth_map_seq by assumption. field.
Qed.
Print Assumptions C71_scene.

(** A list of values is taken only when it has one entry or one for every source *)
Theorem C71_scene_raises ra0 p2w stamps nsource frac radec rhalf sersic flux q pa l :
  let n := Nat.max (List.length (atleast_1d rhalf)) nsource in
  List.length l <> 1%nat -> List.length l <> n -> stamps <> [] ->
  In (Nums l) [rhalf; sersic; flux; q; pa] -> make_scene ra0 p2w stamps nsource frac radec rhalf sersic flux q pa = None.
Proof.
  intros n L1 Ln Hs HI. assert (F : fill n (Nums l) = None).
  { cbn [fill]. destruct (Nat.eqb_spec (List.length l) n); [contradiction|]. destruct l as [|v [|w l]]; try reflexivity. cbn in L1. lia. }
  assert (B : exists b bs, bands_of stamps = b :: bs).
  { destruct stamps as [|s stamps]; [contradiction|]. destruct (bands_of (s :: stamps)) eqn:X; [|eauto]. exfalso.
    assert (K : In (ms_band s) (bands_of (s :: stamps))) by (apply nodup_In; now left). rewrite X in K. exact K. }
  destruct B as (b & bs & B). unfold make_scene. fold n. rewrite B.
  destruct HI as [E|[E|[E|[E|[E|[]]]]]]; rewrite E, F; try reflexivity;
    destruct (fill n rhalf); try reflexivity; destruct (fill n sersic); try reflexivity; destruct (fill n q); try reflexivity; destruct (fill n pa); reflexivity.
Qed.
Print Assumptions C71_scene_raises.

(** With positions given, they are the sources' *)
Theorem C71_scene_given ra0 p2w stamps nsource frac ra dec rhalf sersic flux q pa scene :
  make_scene ra0 p2w stamps nsource frac (Some (ra, dec)) rhalf sersic flux q pa = Some scene ->
  exists d, dec = Some d /\ List.length scene = Nat.max (List.length (atleast_1d rhalf)) nsource /\
  forall i row, nth_error scene i = Some row ->
    r_id row = i /\ value_for ra i = Some (r_ra row) /\ value_for d i = Some (r_dec row) /\ value_for rhalf i = Some (r_rhalf row) /\
    value_for sersic i = Some (r_sersic row) /\ value_for q i = Some (r_q row) /\ value_for pa i = Some (r_pa row).
Proof.
  intros H. unfold make_scene in H. set (n := Nat.max _ nsource) in *.
  destruct (fill n rhalf) as [rh|] eqn:E1; [|discriminate]. destruct (fill n sersic) as [se|] eqn:E2; [|discriminate].
  destruct (fill n q) as [q'|] eqn:E3; [|discriminate]. destruct (fill n pa) as [pa'|] eqn:E4; [|discriminate].
  destruct (match bands_of stamps with [] => Some [] | _ => fill n flux end) as [fl|] eqn:E5; [|discriminate].
  destruct dec as [d|]; [|discriminate]. destruct (fill n ra) as [a|] eqn:E6; [|discriminate]. destruct (fill n d) as [de|] eqn:E7; [|discriminate].
  injection H as <-. exists d. split; [reflexivity|]. split; [unfold rows_of; now rewrite map_length, seq_length|].
  intros i row Hi. assert (Hn : (i < n)%nat) by exact (rows_in _ _ _ _ _ _ _ _ _ _ _ Hi).
  rewrite rows_nth in Hi by assumption. injection Hi as <-. cbn [r_id r_rhalf r_sersic r_q r_pa r_flux r_ra r_dec].
  split; [reflexivity|]. repeat (split; [now apply (fill_value n)|]). now apply (fill_value n).
Qed.
Print Assumptions C71_scene_given.

(** Sources of different sizes can fall onto one another *)
Theorem C71_spacing_refuted ra0 p2w s frac r0 r f s' : to_fits ra0 (ms_stamp s) = Some (f, s') ->
  exists scene a b, make_scene ra0 p2w [s] 1 frac None (Nums [r0; 2 * r; r]) (Num 1) (Num 1) (Num (9 / 10)) (Num (PI / 2)) = Some scene /\
  nth_error scene 1 = Some a /\ nth_error scene 2 = Some b /\ r_ra a = r_ra b /\ r_dec a = r_dec b.
Proof.
  intros Ef. unfold make_scene. cbn [atleast_1d List.length Nat.max fill Nat.eqb bands_of map nodup in_dec]. rewrite Ef.
  do 3 eexists. split; [reflexivity|]. split; [reflexivity|]. split; [reflexivity|]. cbn [r_ra r_dec nth repeat map seq]. split; [reflexivity|].
  cbn [INR]. f_equal. field.
Qed.
Print Assumptions C71_spacing_refuted.

(** ** Images *)
(** The shape: before the PSF, the brightness at an offset is the profile's at the elliptical radius of the offset; the
    shear keeps areas *)
Lemma shear_inverse q beta g : shear_of (q ^ 2) beta = Some g -> q <> 0 /\ det (shear_matrix g) = 1 /\
  exists B, inv (shear_matrix g) = Some B /\ forall X Y, v0 (mv B (V X Y)) ^ 2 + v1 (mv B (V X Y)) ^ 2 = (q * along beta X Y) ^ 2 + (across beta X Y / q) ^ 2.
Proof.
  intros H. unfold shear_of in H. destruct (Rle_dec (q ^ 2) 0) as [|P]; [discriminate|]. destruct (Rlt_dec 1 (q ^ 2)) as [|P1]; [discriminate|].
  assert (Eg : g = ((1 - q ^ 2) / (1 + q ^ 2) * cos (2 * beta), (1 - q ^ 2) / (1 + q ^ 2) * sin (2 * beta))).
  { change (Some ((1 - q ^ 2) / (1 + q ^ 2) * cos (2 * beta), (1 - q ^ 2) / (1 + q ^ 2) * sin (2 * beta)) = Some g) in H. congruence. }
  subst g. clear H. assert (Hq : q <> 0) by (intros ->; apply P; nra). split; [exact Hq|].
  set (c := cos beta). set (n := sin beta). assert (T : n ^ 2 + c ^ 2 = 1) by apply trig.
  assert (C2 : cos (2 * beta) = c ^ 2 - n ^ 2) by (rewrite cos_2a; unfold c, n; ring).
  assert (S2 : sin (2 * beta) = 2 * n * c) by (rewrite sin_2a; unfold c, n; ring).
  rewrite C2, S2. set (g := (1 - q ^ 2) / (1 + q ^ 2)).
  assert (Q : 0 < 1 + q ^ 2) by nra.
  assert (G : 1 - (g * (c ^ 2 - n ^ 2) * (g * (c ^ 2 - n ^ 2)) + g * (2 * n * c) * (g * (2 * n * c))) = (2 * q / (1 + q ^ 2)) ^ 2).
  { transitivity (1 - g ^ 2 * (n ^ 2 + c ^ 2) ^ 2); [ring|]. rewrite T. unfold g. field. lra. }
  unfold shear_matrix. cbv beta iota zeta. fold g. rewrite G.
  set (r := sqrt ((2 * q / (1 + q ^ 2)) ^ 2)). assert (R2 : r ^ 2 = (2 * q / (1 + q ^ 2)) ^ 2) by (unfold r; rewrite pow2_sqrt; [reflexivity|nra]).
  assert (Hr : r <> 0). { intros E. rewrite E in R2. assert (2 * q / (1 + q ^ 2) <> 0). { unfold Rdiv. apply Rmult_integral_contrapositive_currified; [lra|apply Rinv_neq_0_compat; lra]. } pose proof (pow_nonzero _ 2 H). lra. }
  assert (D : det (mscal (/ r) (M (1 + g * (c ^ 2 - n ^ 2)) (g * (2 * n * c)) (g * (2 * n * c)) (1 - g * (c ^ 2 - n ^ 2)))) = 1).
  { unfold det, mscal. cbn [m00 m01 m10 m11]. transitivity ((1 - (g * (c ^ 2 - n ^ 2) * (g * (c ^ 2 - n ^ 2)) + g * (2 * n * c) * (g * (2 * n * c)))) / r ^ 2); [field; exact Hr|]. rewrite G, <- R2. field. exact Hr. }
  split; [exact D|]. unfold inv. rewrite D. destruct (Req_EM_T 1 0); [lra|]. eexists. split; [reflexivity|]. intros X Y.
  unfold mv, mscal. cbn [m00 m01 m10 m11 v0 v1]. unfold along, across. fold c n.
  assert (I2 : (/ r) ^ 2 = ((1 + q ^ 2) / (2 * q)) ^ 2). { rewrite pow_inv, R2. field. repeat split; try exact Hq; lra. }
  set (g1 := g * (c ^ 2 - n ^ 2)). set (g2 := g * (2 * n * c)).
  transitivity ((/ r) ^ 2 * (((1 - g1) * X - g2 * Y) ^ 2 + ((1 + g1) * Y - g2 * X) ^ 2)); [field; exact Hr|]. rewrite I2.
  transitivity (((1 + q ^ 2) / (2 * q)) ^ 2 * ((1 - g) ^ 2 * (c * X + n * Y) ^ 2 + (1 + g) ^ 2 * (- n * X + c * Y) ^ 2)).
  { f_equal. transitivity (((n ^ 2 + c ^ 2) * X - g1 * X - g2 * Y) ^ 2 + ((n ^ 2 + c ^ 2) * Y + g1 * Y - g2 * X) ^ 2); [rewrite T; ring|].
    transitivity ((n ^ 2 + c ^ 2) * ((1 - g) ^ 2 * (c * X + n * Y) ^ 2 + (1 + g) ^ 2 * (- n * X + c * Y) ^ 2)); [unfold g1, g2; ring|rewrite T; ring]. }
  replace (1 - g) with (2 * q ^ 2 / (1 + q ^ 2)) by (unfold g; field; lra). replace (1 + g) with (2 / (1 + q ^ 2)) by (unfold g; field; lra).
  field. split; [exact Hq|lra].
Qed.
Theorem C71_shape profile row fl obj : object_of profile row fl = Some obj ->
  r_q row <> 0 /\ forall X Y rad, 0 <= rad -> contour (r_q row) (r_pa row) rad X Y -> obj X Y = profile (r_sersic row) (r_rhalf row) fl rad.
Proof.
  unfold object_of. destruct (Req_EM_T (r_q row) 1) as [E|E].
  - intros H. injection H as <-. split; [lra|]. intros X Y rad Hr Hc. unfold contour in Hc. rewrite E in Hc. unfold sersic_object. f_equal.
    apply sqrt_lem_1; [nra|exact Hr|]. unfold along, across in Hc. pose proof (trig (r_pa row)) as T.
    transitivity (rad ^ 2); [ring|]. rewrite <- Hc. transitivity ((sin (r_pa row) ^ 2 + cos (r_pa row) ^ 2) * (X * X + Y * Y)); [field|rewrite T; ring].
  - destruct (shear_of (r_q row ^ 2) (r_pa row)) as [g|] eqn:Eg; [|discriminate]. destruct (shear_inverse _ _ _ Eg) as (Hq & _ & B & EB & HB).
    unfold sheared. rewrite EB. intros H. injection H as <-. split; [exact Hq|]. intros X Y rad Hr Hc. unfold sersic_object. f_equal.
    specialize (HB X Y). unfold mv in HB. cbn [v0 v1] in HB. apply sqrt_lem_1; [nra|exact Hr|].
    transitivity (rad ^ 2); [ring|]. unfold contour in Hc. rewrite <- Hc, <- HB. ring.
Qed.
Print Assumptions C71_shape.
(** An area of the profile keeps its size, and with it its light *)
Theorem C71_area q beta g : shear_of (q ^ 2) beta = Some g -> det (shear_matrix g) = 1.
Proof. intros H. now destruct (shear_inverse _ _ _ H) as (_ & D & _). Qed.
Print Assumptions C71_area.

Lemma add_object_shape draw k nx ny off obj im : shaped ny nx (add_object draw k nx ny off obj im).
Proof.
  unfold add_object. split; [now rewrite map_length, seq_length|]. intros row Hr. apply in_map_iff in Hr. destruct Hr as (y & <- & _). now rewrite map_length, seq_length.
Qed.
Definition centre_of (off : v2) (nx ny : nat) : v2 := V ((INR nx - 1) / 2 + v0 off) ((INR ny - 1) / 2 + v1 off).
Lemma add_object_entry draw k nx ny off obj im x y v : (x < nx)%nat -> (y < ny)%nat -> shaped ny nx im -> entry im y x = Some v ->
  entry (add_object draw k nx ny off obj im) y x = Some (v + draw k obj ((INR x - v0 (centre_of off nx ny)) * k) ((INR y - v1 (centre_of off nx ny)) * k)).
Proof.
  intros Hx Hy [L Sh] Hv. unfold add_object, entry. rewrite nth_error_map, nth_error_seq by assumption. cbn [option_map].
  rewrite nth_error_map, nth_error_seq by assumption. cbn [option_map]. do 2 f_equal.
  unfold entry in Hv. destruct (nth_error im y) as [row|] eqn:Er; [|discriminate].
  rewrite (nth_error_nth _ _ [] Er). exact (nth_error_nth _ _ 0 Hv).
Qed.
(** What is drawn for a row: a place and an object *)
Definition drawn profile w2p h nx ny band (row : mrow) (o : v2 * (R -> R -> R)) : Prop :=
  fst o = centre_of (offset_of w2p h nx ny row) nx ny /\ exists fl, flux_in row band = Some fl /\ object_of profile row fl = Some (snd o).
Lemma draw_all_spec profile draw w2p h k nx ny band : forall scene image im, shaped ny nx image ->
  draw_all profile draw w2p h k nx ny band scene image = Some im -> shaped ny nx im /\
  exists objs, Forall2 (drawn profile w2p h nx ny band) scene objs /\ forall x y v, (x < nx)%nat -> (y < ny)%nat -> entry image y x = Some v ->
    entry im y x = Some (v + total (map (fun o => draw k (snd o) ((INR x - v0 (fst o)) * k) ((INR y - v1 (fst o)) * k)) objs)).
Proof.
  induction scene as [|row rest IH]; intros image im Hi H; cbn [draw_all] in H.
  - injection H as <-. split; [assumption|]. exists []. split; [constructor|]. intros. cbn. now rewrite Rplus_0_r.
  - destruct (flux_in row band) as [fl|] eqn:Ef; [|discriminate]. destruct (object_of profile row fl) as [obj|] eqn:Eo; [|discriminate].
    set (off := offset_of w2p h nx ny row) in *.
    destruct (IH _ _ (add_object_shape draw k nx ny off obj image) H) as (Sh & objs & F & E). split; [exact Sh|].
    exists ((centre_of off nx ny, obj) :: objs). split.
    { constructor; [|exact F]. split; [reflexivity|]. exists fl. auto. }
    intros x y v Hx Hy Hv. rewrite (E x y _ Hx Hy (add_object_entry draw k nx ny off obj image x y v Hx Hy Hi Hv)). cbn [map total fold_right fst snd]. f_equal. unfold total. ring.
Qed.
(** Value of a pixel: the sum, over the sources of the scene, of what the renderer gives at the offset (in arcsec) of the
    pixel from the source, whose place in the image is that of its sky position to a hundredth of a pixel, and exactly
    that unless it is within a hundredth of a pixel of the middle; the object has the source's profile on the
    source's contours *)
Theorem C71_image ra0 profile draw w2p scene s im f s' : made (ms_stamp s) ->
  to_fits ra0 (ms_stamp s) = Some (f, s') -> galsim_model ra0 profile draw w2p scene s = Some im ->
  let nx := ps_nx (ms_stamp s) in let ny := ps_ny (ms_stamp s) in let D := ps_scale (ms_stamp s) in
  let k := 1 / sqrt (Rabs (m00 D * m11 D - m01 D * m10 D)) in
  shaped nx ny im /\ exists objs : list (v2 * (R -> R -> R)),
  Forall2 (fun row o =>
    let p := w2p (f_header f) (V (r_ra row) (r_dec row)) in
    (v0 (fst o) - v0 p) ^ 2 + (v1 (fst o) - v1 p) ^ 2 <= (1 / 100) ^ 2 /\
    ((1 / 100) ^ 2 < (v0 p - (INR nx - 1) / 2) ^ 2 + (v1 p - (INR ny - 1) / 2) ^ 2 -> fst o = p) /\
    exists fl, In (ms_band s, fl) (r_flux row) /\
      forall X Y rad, 0 <= rad -> contour (r_q row) (r_pa row) rad X Y -> snd o X Y = profile (r_sersic row) (r_rhalf row) fl rad) scene objs /\
  forall x y, (x < nx)%nat -> (y < ny)%nat ->
    entry im x y = Some (total (map (fun o => draw k (snd o) ((INR x - v0 (fst o)) * k) ((INR y - v1 (fst o)) * k)) objs)).
Proof.
  intros Hm Ef H nx ny D k. unfold galsim_model in H. rewrite Ef in H. fold nx ny in H.
  destruct (C62_written ra0 _ _ _ Hm Ef) as (_ & _ & _ & _ & _ & _ & _ & _ & _ & _ & _ & _ & Es & _). rewrite Es in H. fold D in H.
  change (pixel_size D) with k in H. destruct (draw_all _ _ _ _ _ _ _ _ _ _) as [image|] eqn:Ed; [|discriminate]. injection H as <-.
  assert (Z : shaped ny nx (repeat (repeat 0 nx) ny)).
  { split; [apply repeat_length|]. intros row Hr. apply repeat_spec in Hr. subst. apply repeat_length. }
  assert (Z0 : forall x y, (x < nx)%nat -> (y < ny)%nat -> entry (repeat (repeat 0 nx) ny) y x = Some 0).
  { intros x y Hx Hy. unfold entry. rewrite (nth_error_nth' _ []) by now rewrite repeat_length.
    rewrite (nth_indep _ [] (repeat 0 nx)) by now rewrite repeat_length. rewrite nth_repeat, (nth_error_nth' _ 0) by now rewrite repeat_length. now rewrite nth_repeat. }
  destruct (draw_all_spec _ _ _ _ _ _ _ _ _ _ _ Z Ed) as (Sh & objs & F & E). destruct (transposed_spec _ _ _ Sh) as [T1 T2].
  split; [exact T1|]. exists objs. split.
  - clear - F. induction F as [|row o scene objs (Ho & fl & Hf & Ho2) F IH]; constructor; [|exact IH]. clear IH. cbv zeta. rewrite Ho. unfold offset_of.
    set (p := w2p (f_header f) (V (r_ra row) (r_dec row))). set (dx := v0 p - (INR nx - 1) / 2). set (dy := v1 p - (INR ny - 1) / 2).
    assert (Q : 0 <= dx * dx + dy * dy) by nra.
    split; [|split; [|exists fl; split; [exact (flux_in_in _ _ _ Hf)|apply (C71_shape _ _ _ _ Ho2)]]].
    + destruct (Rlt_dec (1 / 100) (sqrt (dx * dx + dy * dy))) as [L|L]; unfold centre_of; cbn [v0 v1].
      * unfold dx, dy. match goal with |- ?a <= _ => replace a with 0 by ring end. nra.
      * pose proof (sqrt_pos (dx * dx + dy * dy)). pose proof (sqrt_sqrt _ Q). unfold dx, dy in *. nra.
    + intros L. destruct (Rlt_dec (1 / 100) (sqrt (dx * dx + dy * dy))) as [L1|L1]; unfold centre_of; cbn [v0 v1].
      * unfold dx, dy. destruct p as [a b]. cbn [v0 v1]. f_equal; ring.
      * exfalso. pose proof (sqrt_pos (dx * dx + dy * dy)). pose proof (sqrt_sqrt _ Q). unfold dx, dy in *. nra.
  - intros x y Hx Hy. rewrite T2 by assumption. rewrite (E x y 0 Hx Hy (Z0 x y Hx Hy)). f_equal. ring.
Qed.
Print Assumptions C71_image.

(** An image is made whenever the stamp has a scale, each source has the band of the stamp and its axis ratio is not
    above one; a source with a larger one raises *)
Theorem C71_image_defined ra0 profile draw w2p scene s : made (ms_stamp s) -> det (ps_scale (ms_stamp s)) <> 0 ->
  (forall row, In row scene -> In (ms_band s) (map fst (r_flux row))) ->
  (galsim_model ra0 profile draw w2p scene s <> None <-> forall row, In row scene -> r_q row <> 0 /\ -1 <= r_q row <= 1).
Proof.
  intros Hm Hd Hb. destruct (fits_defined ra0 _ Hm Hd) as (f & s' & Ef). unfold galsim_model. rewrite Ef.
  set (k := pixel_size _). set (nx := ps_nx _). set (ny := ps_ny _). set (h := f_header f). generalize (repeat (repeat 0 nx) ny) as image.
  assert (O : forall row fl, object_of profile row fl <> None <-> r_q row <> 0 /\ -1 <= r_q row <= 1).
  { intros row fl. unfold object_of. destruct (Req_EM_T (r_q row) 1) as [E|E]; [split; [lra|congruence]|].
    destruct (shear_of (r_q row ^ 2) (r_pa row)) as [g|] eqn:Eg.
    - destruct (shear_inverse _ _ _ Eg) as (Hq & _ & B & EB & _). unfold sheared. rewrite EB. split; [intros _|congruence]. split; [exact Hq|].
      unfold shear_of in Eg. destruct (Rle_dec (r_q row ^ 2) 0); [discriminate|]. destruct (Rlt_dec 1 (r_q row ^ 2)); [discriminate|]. nra.
    - split; [congruence|]. intros [Hq B]. exfalso. unfold shear_of in Eg. destruct (Rle_dec (r_q row ^ 2) 0) as [L|L].
      + apply Hq. assert (r_q row ^ 2 = 0) by nra. nra.
      + destruct (Rlt_dec 1 (r_q row ^ 2)); [nra|discriminate]. }
  induction scene as [|row rest IH]; intros image; cbn [draw_all]; [split; [intros _ ? []|congruence]|].
  destruct (flux_in row (ms_band s)) as [fl|] eqn:Efl; [|exfalso; exact (flux_in_defined _ _ (Hb row (or_introl eq_refl)) Efl)].
  specialize (O row fl). destruct (object_of profile row fl) as [obj|].
  - assert (r_q row <> 0 /\ -1 <= r_q row <= 1) by (apply O; congruence).
    rewrite (IH (fun r Hr => Hb r (or_intror Hr))). split; [intros K r [<-|Hr]; auto|intros K r Hr; apply K; now right].
  - split; [congruence|]. intros K. exfalso. apply (proj2 O); [apply K; now left|reflexivity].
Qed.
Print Assumptions C71_image_defined.

(** The first source of a scene made for a stamp is drawn in the middle of the stamp *)
Theorem C71_centre ra0 p2w w2p stamps nsource frac rhalf sersic flux q pa scene s f s' row :
  (forall h p, w2p h (p2w h p) = p) ->
  make_scene ra0 p2w (s :: stamps) nsource frac None rhalf sersic flux q pa = Some scene -> nth_error scene 0 = Some row ->
  to_fits ra0 (ms_stamp s) = Some (f, s') ->
  let p := w2p (f_header f) (V (r_ra row) (r_dec row)) in
  v0 p = (INR (ps_nx (ms_stamp s)) - 1) / 2 /\ v1 p = (INR (ps_ny (ms_stamp s)) - 1) / 2 /\
  offset_of w2p (f_header f) (ps_nx (ms_stamp s)) (ps_ny (ms_stamp s)) row = V 0 0.
Proof.
  intros W H Hr Ef p. destruct (C71_scene _ _ _ _ _ _ _ _ _ _ _ H) as (s0 & f0 & s0' & E0 & Ef0 & _ & K). injection E0 as <-. rewrite Ef in Ef0. injection Ef0 as <- <-.
  destruct (K 0%nat row Hr) as (_ & _ & _ & _ & _ & _ & Ra & De). set (c := V ((INR (ps_nx (ms_stamp s)) - 1) / 2) ((INR (ps_ny (ms_stamp s)) - 1) / 2)) in *.
  assert (P : p = c). { unfold p. rewrite Ra. replace (r_dec row) with (v1 (p2w (f_header f) c)) by (cbn [INR] in De; lra). destruct (p2w (f_header f) c) as [a b] eqn:Ew. cbn [v0 v1]. rewrite <- Ew. apply W. }
  rewrite P. unfold c. cbn [v0 v1]. split; [reflexivity|]. split; [reflexivity|].
  unfold offset_of. fold p. rewrite P. unfold c. cbn [v0 v1]. destruct (Rlt_dec _ _) as [L|L]; [|reflexivity]. f_equal; ring.
Qed.
Print Assumptions C71_centre.

(** On a stamp whose columns run to the west the image is mirrored: the end of the long axis of any source not
    symmetric about the meridian is drawn with the brightness of a larger radius *)
Theorem C71_flipped_refuted q pa k rad : 0 < q < 1 -> sin (2 * pa) <> 0 -> 0 < k -> 0 < rad ->
  let D := M (- k) 0 0 k in exists dE dN, contour q pa rad dE dN /\
  let p := mv D (V dE dN) in forall rad', contour q pa rad' (pixel_size D * v0 p) (pixel_size D * v1 p) -> rad < Rabs rad'.
Proof.
  intros Hq Hs Hk Hr D. exists (rad / q * cos pa), (rad / q * sin pa). pose proof (trig pa) as T.
  assert (S2 : sin (2 * pa) = 2 * sin pa * cos pa) by apply sin_2a. set (c := cos pa) in *. set (n := sin pa) in *.
  split. { unfold contour, along, across. fold c n. transitivity (rad ^ 2 * (n ^ 2 + c ^ 2) ^ 2); [field; lra|rewrite T; ring]. }
  intros p rad' Hc. assert (PS : pixel_size D = / k).
  { unfold pixel_size, D, det. cbn [m00 m01 m10 m11]. replace (- k * k - 0 * 0) with (- (k * k)) by ring. rewrite Rabs_Ropp, Rabs_pos_eq by nra. rewrite sqrt_square by lra. field. lra. }
  rewrite PS in Hc. unfold p, D, mv in Hc. cbn [m00 m01 m10 m11 v0 v1] in Hc.
  replace (/ k * (- k * (rad / q * c) + 0 * (rad / q * n))) with (- (rad / q * c)) in Hc by (field; lra).
  replace (/ k * (0 * (rad / q * c) + k * (rad / q * n))) with (rad / q * n) in Hc by (field; lra).
  unfold contour, along, across in Hc. fold c n in Hc.
  assert (E : rad' ^ 2 = rad ^ 2 + rad ^ 2 * (2 * n * c) ^ 2 * (1 - q ^ 4) / q ^ 4).
  { rewrite <- Hc. transitivity (rad ^ 2 * (n ^ 2 + c ^ 2) ^ 2 + rad ^ 2 * (2 * n * c) ^ 2 * (1 - q ^ 4) / q ^ 4); [field; lra|rewrite T; ring]. }
  assert (P : 0 < rad ^ 2 * (2 * n * c) ^ 2 * (1 - q ^ 4) / q ^ 4).
  { assert (P1 : 0 < rad ^ 2) by (apply pow_lt; lra). assert (P4 : 0 < q ^ 4) by (apply pow_lt; lra).
    assert (P2 : 0 < (2 * n * c) ^ 2). { rewrite S2 in Hs. replace ((2 * n * c) ^ 2) with (Rsqr (2 * n * c)) by (unfold Rsqr; ring). now apply Rsqr_pos_lt. }
    assert (P3 : 0 < 1 - q ^ 4). { assert (q ^ 2 < 1) by nra. assert (0 < (1 - q ^ 2) * (1 + q ^ 2)) by (apply Rmult_lt_0_compat; nra). lra. }
    apply Rdiv_lt_0_compat; [|exact P4]. apply Rmult_lt_0_compat; [now apply Rmult_lt_0_compat|exact P3]. }
  apply Rsqr_incrst_0; [|lra|apply Rabs_pos]. rewrite <- Rsqr_abs. unfold Rsqr. nra.
Qed.
Print Assumptions C71_flipped_refuted.

(** ** The PSF *)
(** The new group has for every radius bin and every dispersion a round Gaussian of unit amplitude whose dispersion, in
    arcsec, is that of the Gaussian the images are convolved with; the other groups stay *)
Theorem C71_psfstore file band sigma nradii file' : make_psfstore file band sigma nradii = Some file' ->
  (forall p, In p file -> In p file') /\
  exists g, file' = (file ++ [(upper band, g)])%list /\ ~ In (upper band) (map fst file) /\
  List.length (g_rows g) = g_per_source g /\ g_per_source g = (nradii * List.length (atleast_1d sigma))%nat /\
  forall k j s scale, (k < nradii)%nat -> nth_error (atleast_1d sigma) j = Some s ->
  exists r, nth_error (g_rows g) (k * List.length (atleast_1d sigma) + j) = Some r /\
    p_bin r = k /\ p_amp r = 1 /\ p_xcen r = 0 /\ p_ycen r = 0 /\ p_cxy r = 0 /\
    p_cxx r * scale ^ 2 = galsim_sigma scale s ^ 2 /\ p_cyy r * scale ^ 2 = galsim_sigma scale s ^ 2.
Proof.
  unfold make_psfstore. destruct (existsb _ file) eqn:X; [discriminate|]. intros H. injection H as <-.
  split; [intros p Hp; apply in_or_app; now left|]. eexists. split; [reflexivity|]. split.
  { intros I. apply in_map_iff in I. destruct I as (p & Ep & Ip). assert (existsb (fun g => String.eqb (fst g) (upper band)) file = true); [|congruence].
    apply existsb_exists. exists p. split; [exact Ip|]. now apply String.eqb_eq. }
  cbn [g_rows g_per_source]. set (l := atleast_1d sigma). set (row := fun k => map (fun s => mkPsf 1 0 0 (s ^ 2) (s ^ 2) 0 k) l).
  assert (Sh : forall r, In r (map row (seq 0 nradii)) -> List.length r = List.length l).
  { intros r Hr. apply in_map_iff in Hr. destruct Hr as (k & <- & _). unfold row. now rewrite map_length. }
  split; [|split; [reflexivity|]].
  - change (List.length (flat (map row (seq 0 nradii))) = (nradii * List.length l)%nat). apply flat_length. split; [now rewrite map_length, seq_length|exact Sh].
  - intros k j s scale Hk Hj. assert (Lj : (j < List.length l)%nat) by (apply nth_error_Some; fold l in Hj; congruence).
    exists (mkPsf 1 0 0 (s ^ 2) (s ^ 2) 0 k). split.
    { change (nth_error (flat (map row (seq 0 nradii))) (k * List.length l + j) = Some (mkPsf 1 0 0 (s ^ 2) (s ^ 2) 0 k)).
      rewrite (flat_nth (List.length l) _ Sh k j Lj). unfold entry. rewrite nth_error_map, nth_error_seq by assumption. cbn [option_map]. unfold row. rewrite nth_error_map. fold l in Hj. now rewrite Hj. }
    cbn [p_bin p_amp p_xcen p_ycen p_cxx p_cyy p_cxy]. unfold galsim_sigma. repeat split; ring.
Qed.
Print Assumptions C71_psfstore.
(** A band is stored once, whatever the case of its letters *)
Theorem C71_psfstore_twice file band band' sigma sigma' nradii nradii' file' : make_psfstore file band sigma nradii = Some file' ->
  upper band' = upper band -> make_psfstore file' band' sigma' nradii' = None.
Proof.
  intros H E. destruct (C71_psfstore _ _ _ _ _ H) as (_ & g & -> & _). unfold make_psfstore. rewrite E, existsb_app. cbn [existsb fst]. rewrite String.eqb_refl. now rewrite orb_true_r.
Qed.
Print Assumptions C71_psfstore_twice.
(** With several dispersions the amplitudes of a radius bin add up to their number: the PSF is normalised for one *)
Theorem C71_psf_sum_refuted file band sigma nradii file' g k : make_psfstore file band sigma nradii = Some file' ->
  In (upper band, g) file' -> (k < nradii)%nat ->
  total (map p_amp (filter (fun r => Nat.eqb (p_bin r) k) (g_rows g))) = INR (List.length (atleast_1d sigma)).
Proof.
  intros H I Hk. unfold make_psfstore in H. destruct (existsb _ file) eqn:X; [discriminate|]. injection H as <-.
  apply in_app_or in I. destruct I as [I|[I|[]]].
  { exfalso. assert (existsb (fun g => String.eqb (fst g) (upper band)) file = true); [|congruence]. apply existsb_exists. eexists. split; [exact I|]. apply String.eqb_refl. }
  injection I as <-. cbn [g_rows]. unfold psf_pars. set (l := atleast_1d sigma).
  assert (One : forall m, total (map p_amp (filter (fun r => Nat.eqb (p_bin r) k) (map (fun s => mkPsf 1 0 0 (s ^ 2) (s ^ 2) 0 m) l))) = if Nat.eqb m k then INR (List.length l) else 0).
  { intros m. clear X. induction l as [|s l IH]; cbn [map filter List.length].
    - now destruct (Nat.eqb m k).
    - cbn [p_bin]. destruct (Nat.eqb m k); [|exact IH]. rewrite S_INR. cbn [map total fold_right p_amp]. unfold total in IH. rewrite IH. ring. }
  assert (App : forall a b : list R, total (a ++ b) = total a + total b).
  { intros a b. unfold total. rewrite fold_right_app. induction a as [|v a IH]; cbn [fold_right]; [lra|]. rewrite IH. lra. }
  assert (Gen : forall n m, total (map p_amp (filter (fun r => Nat.eqb (p_bin r) k) (List.concat (map (fun k => map (fun s => mkPsf 1 0 0 (s ^ 2) (s ^ 2) 0 k) l) (seq m n))))) =
    if (m <=? k)%nat && (k <? m + n)%nat then INR (List.length l) else 0).
  { induction n as [|n IH]; intros m; cbn [seq map List.concat].
    - destruct (Nat.leb_spec m k); destruct (Nat.ltb_spec k (m + 0)); try lia; reflexivity.
    - rewrite filter_app, map_app, App, One, IH. destruct (Nat.eqb_spec m k); destruct (Nat.leb_spec m k); destruct (Nat.leb_spec (S m) k); destruct (Nat.ltb_spec k (S m + n)); destruct (Nat.ltb_spec k (m + S n)); try lia; cbn [andb]; ring. }
  rewrite Gen. cbn [Nat.leb]. destruct (Nat.ltb_spec k (0 + nradii)); [reflexivity|lia].
Qed.
Print Assumptions C71_psf_sum_refuted.

(** ** Noise *)
(** Half the light of the first source is snr times the noise of the pixels within its half-light radius, in every band *)
Theorem C71_noise scene row scales bands snr l : nth_error scene 0 = Some row ->
  compute_noise_level scene scales bands snr = Some l -> 0 < snr -> 0 < r_rhalf row -> List.length scales = List.length bands ->
  List.length l = List.length bands /\
  forall i band scale fl, nth_error bands i = Some band -> nth_error scales i = Some scale -> 0 < scale -> NoDup (map fst (r_flux row)) -> In (band, fl) (r_flux row) ->
  exists sigma, nth_error l i = Some sigma /\
    let npix := PI * (r_rhalf row) ^ 2 / scale ^ 2 in
    fl / 2 = snr * (sigma * sqrt npix) /\ (0 <= fl -> 0 <= sigma).
Proof.
  intros H0 H Hs Hr L. destruct scene as [|row' scene]; [discriminate|]. injection H0 as ->. cbn [compute_noise_level] in H.
  destruct (all_of (flux_in row) bands) as [fls|] eqn:Ea; [|discriminate]. destruct (all_of_nth _ _ _ Ea) as [La Na].
  assert (F : fill (List.length bands) (Nums scales) = Some scales) by (cbn [fill]; now rewrite L, Nat.eqb_refl).
  rewrite F in H. injection H as <-. split; [rewrite map_length, combine_length; lia|].
  intros i band scale fl Hb Hsc P Hnd Hin. pose proof (flux_in_only _ _ _ Hnd Hin) as Hf. destruct (Na i band Hb) as (fl' & Hn & Hf'). rewrite Hf in Hf'. injection Hf' as <-.
  assert (C : nth_error (combine fls scales) i = Some (fl, scale)).
  { clear - Hn Hsc. revert scales i Hn Hsc. induction fls as [|a fls IH]; intros [|b scales] [|i] Hn Hsc; try discriminate; cbn in *; [congruence|auto]. }
  eexists. split; [rewrite nth_error_map, C; reflexivity|]. intros npix. cbn [fst snd].
  assert (PI0 := PI_RGT_0). assert (N : 0 < npix).
  { unfold npix. apply Rdiv_lt_0_compat; [apply Rmult_lt_0_compat; [lra|apply pow_lt; lra]|apply pow_lt; lra]. }
  replace (PI * (r_rhalf row / scale * (r_rhalf row / scale * 1))) with npix by (unfold npix; field; lra). pose proof (sqrt_lt_R0 _ N) as Sq.
  split; [field; lra|]. intros Hfl. unfold Rdiv. repeat apply Rmult_le_pos; try lra; left; apply Rinv_0_lt_compat; lra.
Qed.
Print Assumptions C71_noise.

(** ** Files *)
Lemma combine_nth {A B} (l : list A) : forall (l' : list B) i a b, nth_error l i = Some a -> nth_error l' i = Some b -> nth_error (combine l l') i = Some (a, b).
Proof. induction l as [|x l IH]; intros [|y l'] [|i] a b Ha Hb; try discriminate; cbn in *; [congruence|auto]. Qed.
Lemma in_range {A} nx ny (a : list (list A)) x y : shaped nx ny a -> (x < nx)%nat -> (y < ny)%nat -> exists row v, nth_error a x = Some row /\ nth_error row y = Some v /\ entry a x y = Some v.
Proof.
  intros [L H] Hx Hy. destruct (nth_error a x) as [row|] eqn:E; [|apply nth_error_None in E; lia]. specialize (H row (nth_error_In _ _ E)).
  destruct (nth_error row y) as [v|] eqn:E2; [|apply nth_error_None in E2; lia]. exists row, v. unfold entry. rewrite E. auto.
Qed.
Lemma plus_shaped nx ny a im noise : shaped nx ny im -> shaped nx ny noise ->
  shaped nx ny (plus_noise a im noise) /\ forall x y v e, (x < nx)%nat -> (y < ny)%nat -> entry im x y = Some v -> entry noise x y = Some e ->
    entry (plus_noise a im noise) x y = Some (if a then v + e else v).
Proof.
  intros H1 H2. unfold plus_noise. destruct a; [|split; [exact H1|auto]]. destruct H1 as [L1 R1]. destruct H2 as [L2 R2]. split.
  - split; [rewrite map_length, combine_length; lia|]. intros row Hr. apply in_map_iff in Hr. destruct Hr as ((r1 & r2) & <- & Hr). cbn [fst snd]. rewrite map_length, combine_length.
    rewrite (R1 r1 (in_combine_l _ _ _ _ Hr)), (R2 r2 (in_combine_r _ _ _ _ Hr)). lia.
  - intros x y v e Hx Hy Hv He. unfold entry in *. destruct (nth_error im x) as [r1|] eqn:E1; [|discriminate]. destruct (nth_error noise x) as [r2|] eqn:E2; [|discriminate].
    rewrite nth_error_map, (combine_nth _ _ _ _ _ E1 E2). cbn [option_map fst snd]. now rewrite nth_error_map, (combine_nth _ _ _ _ _ Hv He).
Qed.
(** A file of a mock image has, at row y and column x, the pixel [x, y] with its noise (if wanted), the
    uncertainty and the noise, and the catalog *)
Theorem C71_file ra0 s im noise sigma bands add scene : made (ms_stamp s) -> det (ps_scale (ms_stamp s)) <> 0 ->
  let nx := ps_nx (ms_stamp s) in let ny := ps_ny (ms_stamp s) in
  shaped nx ny im -> shaped nx ny noise ->
  exists f s' sci err noi, to_fits ra0 (ms_stamp s) = Some (f, s') /\
    write_pair ra0 s im noise sigma bands add scene =
      Some [Primary; Image "SCI" sci (f_header f); Image "ERR" err (f_header f); Image "NOISE" noi (f_header f); Table scene (String.concat "," bands)] /\
    shaped ny nx sci /\ shaped ny nx err /\ shaped ny nx noi /\
    forall x y v e, (x < nx)%nat -> (y < ny)%nat -> entry im x y = Some v -> entry noise x y = Some e ->
      entry sci y x = Some (if add then v + e else v) /\ entry err y x = Some sigma /\ entry noi y x = Some e.
Proof.
  intros Hm Hd nx ny Hi Hn. destruct (fits_defined ra0 _ Hm Hd) as (f & s' & Ef). exists f, s'. unfold write_pair. rewrite Ef. do 3 eexists. split; [reflexivity|]. split; [reflexivity|].
  fold nx ny. destruct (plus_shaped nx ny add im noise Hi Hn) as [P1 P2].
  assert (U : shaped nx ny (map (map (fun _ : R => sigma)) im)).
  { destruct Hi as [L Hi]. split; [now rewrite map_length|]. intros row Hr. apply in_map_iff in Hr. destruct Hr as (r & <- & Hr). rewrite map_length. auto. }
  destruct (transposed_spec _ _ _ P1) as [A1 A2]. destruct (transposed_spec _ _ _ U) as [B1 B2]. destruct (transposed_spec _ _ _ Hn) as [C1 C2].
  split; [exact A1|]. split; [exact B1|]. split; [exact C1|]. intros x y v e Hx Hy Hv He. rewrite A2, B2, C2 by assumption. split; [now apply P2|]. split; [|exact He].
  unfold entry in *. rewrite nth_error_map. destruct (nth_error im x) as [r|]; [|discriminate]. cbn [option_map]. rewrite nth_error_map, Hv. reflexivity.
Qed.
Print Assumptions C71_file.

(** Dithered images cannot be written: the stamps have no uncertainties, so to_fits makes no second image *)
Theorem C71_dithers_refuted ra0 band scale nx ny dither im noise sigma bands add scene :
  write_dither ra0 (make_stamp band scale nx ny dither) im noise sigma bands add scene = None.
Proof.
  unfold write_dither. destruct (to_fits ra0 (ms_stamp (make_stamp band scale nx ny dither))) as [[f s']|] eqn:Ef; [|reflexivity].
  destruct (C62_written ra0 _ _ _ (made_stamp _ _ _ _ _) Ef) as (_ & _ & _ & _ & _ & _ & _ & N & _). rewrite N; [reflexivity|].
  intros e He. unfold make_stamp in He. cbn [ms_stamp ps_ierr] in He. now apply repeat_spec in He.
Qed.
Print Assumptions C71_dithers_refuted.

(** Importing everything the module offers raises *)
Theorem C71_star_import_refuted : star_import defined_names all_names = None /\
  forall names, (forall n, In n names -> In n all_names /\ n <> "make_psf_store"%string /\ n <> "write_to_disk"%string) -> star_import defined_names names = Some names.
Proof.
  split; [vm_compute; reflexivity|]. intros names. unfold star_import. induction names as [|n names IH]; intros H; [reflexivity|]. cbn [all_of].
  assert (I : In n defined_names).
  { destruct (H n (or_introl eq_refl)) as (I & N1 & N2). unfold all_names in I. unfold defined_names. cbn in *.
    destruct I as [I|[I|[I|[I|[I|[I|[I|[I|[]]]]]]]]]; subst; try contradiction; tauto. }
  destruct (in_dec string_dec n defined_names); [|contradiction]. rewrite IH; [reflexivity|]. intros m Hm. apply H. now right.
Qed.
Print Assumptions C71_star_import_refuted.
