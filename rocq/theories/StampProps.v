(** C62: pixels of a stamp and the FITS file it is written to. *)
From Coq Require Import Reals Arith List Bool Lia Lra.
From Verif Require Import Np NpFacts WcsModel WcsProps StampModel.
Import ListNotations.
Open Scope R_scope.

Definition shaped {A} (nx ny : nat) (a : list (list A)) : Prop := List.length a = nx /\ forall row, In row a -> List.length row = ny.
Definition entry {A} (a : list (list A)) (i j : nat) : option A := match nth_error a i with Some row => nth_error row j | None => None end.

Lemma flat_nth {A} ny (a : list (list A)) : (forall row, In row a -> List.length row = ny) -> forall i j, (j < ny)%nat -> nth_error (flat a) (i * ny + j) = entry a i j.
Proof.
  unfold flat, entry. induction a as [|row a IH]; intros H i j Hj; cbn [concat].
  - destruct i; [|cbn [nth_error]]; destruct (_ + _)%nat; reflexivity.
  - assert (L : List.length row = ny) by (apply H; now left). destruct i as [|i]; cbn [nth_error].
    + rewrite nth_error_app1 by lia. now rewrite Nat.mul_0_l.
    + rewrite nth_error_app2 by nia. replace (S i * ny + j - List.length row)%nat with (i * ny + j)%nat by nia. apply IH; auto. intros; apply H; now right.
Qed.
Lemma flat_length {A} nx ny (a : list (list A)) : shaped nx ny a -> List.length (flat a) = (nx * ny)%nat.
Proof.
  intros [L H]. subst nx. unfold flat. induction a as [|row a IH]; [reflexivity|]. cbn [concat List.length]. rewrite app_length, IH by (intros; apply H; now right). rewrite (H row) by now left. lia.
Qed.
Lemma reshape_spec {A} nx ny (l : list A) : List.length l = (nx * ny)%nat -> exists m, reshape nx ny l = Some m /\ shaped nx ny m /\
  forall i j, (i < nx)%nat -> (j < ny)%nat -> entry m i j = nth_error l (i * ny + j).
Proof.
  intros L. unfold reshape. rewrite (proj2 (Nat.eqb_eq _ _) L). eexists. split; [reflexivity|]. split; [split|].
  - now rewrite map_length, seq_length.
  - intros row H. apply in_map_iff in H. destruct H as (i & <- & Hi). apply in_seq in Hi. rewrite firstn_length, skipn_length, L. nia.
  - intros i j Hi Hj. unfold entry. rewrite nth_error_map, (nth_error_nth' (seq 0 nx) 0%nat), seq_nth by (rewrite ?seq_length; lia). cbn [option_map Nat.add].
    rewrite nth_error_firstn, nth_error_skipn by lia. reflexivity.
Qed.
Lemma column_nth {A} j ny (a : list (list A)) : (forall row, In row a -> List.length row = ny) -> (j < ny)%nat ->
  List.length (column j a) = List.length a /\ forall i, nth_error (column j a) i = entry a i j.
Proof.
  intros H Hj. unfold column, entry. induction a as [|row a IH]; cbn [flat_map].
  - split; [reflexivity|]. intros [|i]; reflexivity.
  - destruct (nth_error row j) as [v|] eqn:E; [|apply nth_error_None in E; rewrite (H row) in E by (now left); lia].
    destruct IH as [L N]; [intros; apply H; now right|]. cbn [app List.length]. split; [now rewrite L|]. intros [|i]; cbn [nth_error]; [now symmetry|apply N].
Qed.
Lemma transposed_spec {A} nx ny (a : list (list A)) : shaped nx ny a -> shaped ny nx (transposed ny a) /\ forall i j, (i < nx)%nat -> (j < ny)%nat -> entry (transposed ny a) j i = entry a i j.
Proof.
  intros [L H]. unfold transposed. split; [split|].
  - now rewrite map_length, seq_length.
  - intros row Hr. apply in_map_iff in Hr. destruct Hr as (j & <- & Hj). apply in_seq in Hj. rewrite <- L. apply (column_nth j ny); [assumption|lia].
  - intros i j Hi Hj. unfold entry at 1. rewrite nth_error_map, (nth_error_nth' (seq 0 ny) 0%nat), seq_nth by (rewrite ?seq_length; lia). cbn [option_map Nat.add].
    now apply (column_nth j ny).
Qed.

(** The pixel at place i*ny + j of the flat arrays has x = i, y = j and the value at [i, j] *)
Theorem C62_grid nx ny (values : list (list R)) : shaped nx ny values ->
  List.length (flat (xpix nx ny)) = (nx * ny)%nat /\ List.length (flat (ypix nx ny)) = (nx * ny)%nat /\ List.length (flat values) = (nx * ny)%nat /\
  forall i j, (i < nx)%nat -> (j < ny)%nat ->
    nth_error (flat (xpix nx ny)) (i * ny + j) = Some i /\ nth_error (flat (ypix nx ny)) (i * ny + j) = Some j /\
    nth_error (flat values) (i * ny + j) = entry values i j /\ entry values i j <> None.
Proof.
  intros Hv.
  assert (Hx : shaped nx ny (xpix nx ny)).
  { unfold xpix, grid, meshgrid. cbn [fst snd]. split; [now rewrite map_length, seq_length|]. intros row H. apply in_map_iff in H. destruct H as (i & <- & _). now rewrite map_length, seq_length. }
  assert (Hy : shaped nx ny (ypix nx ny)).
  { unfold ypix, grid, meshgrid. cbn [fst snd]. split; [now rewrite map_length, seq_length|]. intros row H. apply in_map_iff in H. destruct H as (i & <- & _). now rewrite seq_length. }
  split; [now apply flat_length|]. split; [now apply flat_length|]. split; [now apply flat_length|]. intros i j Hi Hj.
  rewrite (flat_nth ny _ (proj2 Hx) i j Hj), (flat_nth ny _ (proj2 Hy) i j Hj), (flat_nth ny _ (proj2 Hv) i j Hj).
  assert (Si : nth_error (seq 0 nx) i = Some i) by (rewrite (nth_error_nth' _ 0%nat), seq_nth by (rewrite ?seq_length; lia); reflexivity).
  assert (Sj : nth_error (seq 0 ny) j = Some j) by (rewrite (nth_error_nth' _ 0%nat), seq_nth by (rewrite ?seq_length; lia); reflexivity).
  unfold entry at 1 2, xpix, ypix, grid, meshgrid. cbn [fst snd]. rewrite !nth_error_map, Si. cbn [option_map]. rewrite nth_error_map, Sj. cbn [option_map].
  split; [reflexivity|]. split; [reflexivity|]. split; [reflexivity|].
  unfold entry. destruct Hv as [L H]. destruct (nth_error values i) as [row|] eqn:E; [|apply nth_error_None in E; lia].
  intros N. apply nth_error_None in N. rewrite (H row (nth_error_In _ _ E)) in N. lia.
Qed.

Definition made (s : pstamp) : Prop := shaped (ps_nx s) (ps_ny s) (ps_values s) /\ List.length (ps_ierr s) = (ps_nx s * ps_ny s)%nat.
Lemma inv_mscal k A B : k <> 0 -> inv A = Some B -> inv (mscal k A) = Some (mscal (/ k) B).
Proof.
  intros Hk H. unfold inv in *. destruct A as [a b c d]. unfold det, mscal in *. cbn [m00 m01 m10 m11] in *.
  destruct (Req_EM_T (a * d - b * c) 0) as [|N]; [discriminate|]. injection H as <-. cbn [m00 m01 m10 m11].
  destruct (Req_EM_T (k * a * (k * d) - k * b * (k * c)) 0) as [E|N2].
  - exfalso. apply N. apply (Rmult_eq_reg_l (k * k)); [lra|]. now apply Rmult_integral_contrapositive.
  - f_equal. f_equal; field; auto.
Qed.
Lemma inv_inv A B : inv A = Some B -> inv B = Some A.
Proof.
  intros H. unfold inv in H. destruct A as [a b c d]. unfold det, mscal in H. cbn [m00 m01 m10 m11] in H.
  destruct (Req_EM_T (a * d - b * c) 0) as [|N]; [discriminate|]. injection H as <-. unfold inv, det, mscal. cbn [m00 m01 m10 m11].
  assert (E : / (a * d - b * c) * d * (/ (a * d - b * c) * a) - / (a * d - b * c) * - b * (/ (a * d - b * c) * - c) = / (a * d - b * c)) by (field; exact N).
  rewrite E. destruct (Req_EM_T (/ (a * d - b * c)) 0) as [E0|_]; [exfalso; exact (Rinv_neq_0_compat _ N E0)|]. f_equal. f_equal; field; exact N.
Qed.
(** wcs_of in closed form *)
Definition below_left (s : pstamp) (si : m2) : v2 := mv (mscal (/ 3600) si) (V (-1) (-1)).
Definition new_dpix (s : pstamp) (si : m2) : m2 := mm (mscal 3600 (ps_scale s)) (M (cos (deg2rad (tan_dec (v1 (s_crval (ps_astro s))) (below_left s si)))) 0 0 1).
Lemma wcs_closed ra s si : inv (ps_scale s) = Some si ->
  wcs_of ra s = Some (mkHeader (vadd (s_crpix (ps_astro s)) (V 1 1)) (s_crval (ps_astro s)) (mscal (/ 3600) si),
    mkPs (ps_nx s) (ps_ny s) (ps_values s) (ps_ierr s) (ps_scale s) {| dpix_dsky := new_dpix s si; s_crval := s_crval (ps_astro s); s_crpix := s_crpix (ps_astro s) |}).
Proof.
  intros H. unfold wcs_of. rewrite H. unfold scale_at_sky. cbn [has_distortion orb pixel_scale_matrix].
  assert (K : inv (mscal 3600 (mscal (/ 3600) si)) = Some (ps_scale s)).
  { replace (mscal 3600 (mscal (/ 3600) si)) with si; [now apply inv_inv|]. destruct si as [a b c d]. unfold mscal. cbn [m00 m01 m10 m11]. f_equal; field. }
  rewrite K. do 3 f_equal. unfold new_dpix, below_left, world. cbn [v1 h_pc h_crpix h_crval].
  replace (vsub (s_crpix (ps_astro s)) (vadd (s_crpix (ps_astro s)) (V 1 1))) with (V (-1) (-1)); [reflexivity|].
  destruct (s_crpix (ps_astro s)) as [x y]. unfold vsub, vadd. cbn [v0 v1]. f_equal; ring.
Qed.
Lemma wcs_inv ra s h s' : wcs_of ra s = Some (h, s') -> exists si, inv (ps_scale s) = Some si.
Proof. unfold wcs_of. destruct (inv (ps_scale s)); [eauto|discriminate]. Qed.

(** The file has at row y and column x the pixel [x, y], the reference pixel counted from one, degrees per pixel
    inverse to the scale, and the uncertainty of each pixel unless all inverse errors are zero *)
Theorem C62_written ra s f s' : made s -> to_fits ra s = Some (f, s') ->
  shaped (ps_ny s) (ps_nx s) (f_image f) /\
  (forall x y, (x < ps_nx s)%nat -> (y < ps_ny s)%nat -> entry (f_image f) y x = entry (ps_values s) x y) /\
  v0 (h_crpix (f_header f)) = v0 (s_crpix (ps_astro s)) + 1 /\ v1 (h_crpix (f_header f)) = v1 (s_crpix (ps_astro s)) + 1 /\
  h_crval (f_header f) = s_crval (ps_astro s) /\ (forall u, mv (ps_scale s) (mv (mscal 3600 (h_pc (f_header f))) u) = u) /\
  ((exists e, In e (ps_ierr s) /\ e <> 0) -> exists u, f_uncertainty f = Some u /\ shaped (ps_ny s) (ps_nx s) u /\
     forall x y e, (x < ps_nx s)%nat -> (y < ps_ny s)%nat -> nth_error (ps_ierr s) (x * ps_ny s + y) = Some e ->
       (e <> 0 -> entry u y x = Some (Some (1 / e))) /\ (e = 0 -> entry u y x = Some None)) /\
  ((forall e, In e (ps_ierr s) -> e = 0) -> f_uncertainty f = None) /\
  ps_nx s' = ps_nx s /\ ps_ny s' = ps_ny s /\ ps_values s' = ps_values s /\ ps_ierr s' = ps_ierr s /\ ps_scale s' = ps_scale s /\
  s_crval (ps_astro s') = s_crval (ps_astro s) /\ s_crpix (ps_astro s') = s_crpix (ps_astro s).
Proof.
  intros [Hv He] H. unfold to_fits in H. destruct (wcs_of ra s) as [[h s1]|] eqn:Ew; [|discriminate].
  destruct (wcs_inv _ _ _ _ Ew) as [si Esi]. rewrite (wcs_closed ra s si Esi) in Ew. injection Ew as <- <-. cbn [ps_ierr ps_nx ps_ny] in H.
  destruct (transposed_spec _ _ _ Hv) as [T1 T2].
  destruct (reshape_spec (ps_nx s) (ps_ny s) (ps_ierr s) He) as (e & Ee & Se & Ne). rewrite Ee in H.
  assert (G : f_image f = transposed (ps_ny s) (ps_values s) /\ f_header f = mkHeader (vadd (s_crpix (ps_astro s)) (V 1 1)) (s_crval (ps_astro s)) (mscal (/ 3600) si) /\
    f_uncertainty f = (if existsb nonzero (ps_ierr s) then Some (map (map recip) (transposed (ps_ny s) e)) else None) /\
    s' = mkPs (ps_nx s) (ps_ny s) (ps_values s) (ps_ierr s) (ps_scale s) {| dpix_dsky := new_dpix s si; s_crval := s_crval (ps_astro s); s_crpix := s_crpix (ps_astro s) |}).
  { destruct (existsb nonzero (ps_ierr s)); injection H as <- <-; repeat split. }
  destruct G as (-> & -> & -> & ->). clear H. cbn [h_crpix h_crval h_pc ps_nx ps_ny ps_values ps_ierr ps_scale ps_astro s_crval s_crpix].
  split; [assumption|]. split; [intros; now apply T2|]. split; [reflexivity|]. split; [reflexivity|]. split; [reflexivity|]. split.
  { intros u. replace (mscal 3600 (mscal (/ 3600) si)) with si; [now apply inv_right|]. destruct si as [a b c d]. unfold mscal. cbn [m00 m01 m10 m11]. f_equal; field. }
  split; [|split; [|repeat split]].
  - intros (e0 & I0 & N0). assert (X : existsb nonzero (ps_ierr s) = true).
    { apply existsb_exists. exists e0. split; [assumption|]. unfold nonzero. destruct (Req_EM_T e0 0); [congruence|reflexivity]. }
    rewrite X. destruct (transposed_spec _ _ _ Se) as [U1 U2]. eexists. split; [reflexivity|]. split.
    { destruct U1 as [L U1]. split; [now rewrite map_length|]. intros row Hr. apply in_map_iff in Hr. destruct Hr as (r & <- & Hr). rewrite map_length. auto. }
    intros x y v Hx Hy Hxy. specialize (U2 x y Hx Hy). rewrite Ne, Hxy in U2 by assumption.
    assert (R : entry (map (map recip) (transposed (ps_ny s) e)) y x = Some (recip v)).
    { unfold entry in *. rewrite nth_error_map. destruct (nth_error (transposed (ps_ny s) e) y) as [row|]; [|discriminate]. cbn [option_map]. now rewrite nth_error_map, U2. }
    rewrite R. unfold recip. split; intros; destruct (Req_EM_T v 0); try contradiction; reflexivity.
  - intros Z. assert (X : existsb nonzero (ps_ierr s) = false).
    { destruct (existsb nonzero (ps_ierr s)) eqn:X; [|reflexivity]. apply existsb_exists in X. destruct X as (e0 & I0 & N0). unfold nonzero in N0. destruct (Req_EM_T e0 0); [discriminate|]. exfalso. auto. }
    now rewrite X.
Qed.
Theorem C62_writable ra s : made s -> (to_fits ra s <> None <-> det (ps_scale s) <> 0).
Proof.
  intros [Hv He]. unfold to_fits. destruct (reshape_spec (ps_nx s) (ps_ny s) (ps_ierr s) He) as (e & Ee & _). split.
  - intros H N. apply H. unfold wcs_of, inv. destruct (Req_EM_T (det (ps_scale s)) 0); [reflexivity|contradiction].
  - intros N. destruct (inv_defined _ N) as [si Esi]. rewrite (wcs_closed ra s si Esi). cbn [ps_ierr ps_nx ps_ny]. destruct (existsb nonzero (ps_ierr s)); [rewrite Ee|]; discriminate.
Qed.

(** Writing replaces the conversion of positions: by that of the scale with the cosine of the declination one
    pixel before the reference pixel *)
Lemma written_astro ra s f s' : to_fits ra s = Some (f, s') -> exists si, inv (ps_scale s) = Some si /\ dpix_dsky (ps_astro s') = new_dpix s si /\
   ps_scale s' = ps_scale s /\ s_crval (ps_astro s') = s_crval (ps_astro s) /\ s_crpix (ps_astro s') = s_crpix (ps_astro s).
Proof.
  intros H. unfold to_fits in H. destruct (wcs_of ra s) as [[h s1]|] eqn:Ew; [|discriminate]. destruct (wcs_inv _ _ _ _ Ew) as [si Esi].
  rewrite (wcs_closed ra s si Esi) in Ew. injection Ew as <- <-. exists si. split; [assumption|]. cbn [ps_ierr ps_nx ps_ny] in H.
  destruct (existsb nonzero (ps_ierr s)); [destruct (reshape (ps_nx s) (ps_ny s) (ps_ierr s)); [|discriminate]|]; injection H as <- <-; repeat split.
Qed.
Lemma vext u w : u = w <-> v0 u = v0 w /\ v1 u = v1 w.
Proof. destruct u, w; cbn; split; [intros H; injection H; auto|intros [-> ->]; reflexivity]. Qed.
Lemma m2ext A B : A = B <-> m00 A = m00 B /\ m01 A = m01 B /\ m10 A = m10 B /\ m11 A = m11 B.
Proof. destruct A, B; cbn; split; [intros H; injection H; auto|intros (-> & -> & -> & ->); reflexivity]. Qed.

(** A stamp on the equator with the conversion its scale asks for: writing it moves every position off the
    meridian of the reference, unless the pixel before is on the equator too *)
Theorem C62_moved_refuted ra s f s' : to_fits ra s = Some (f, s') -> v1 (s_crval (ps_astro s)) = 0 -> dpix_dsky (ps_astro s) = mscal 3600 (ps_scale s) ->
  m10 (h_pc (f_header f)) + m11 (h_pc (f_header f)) <> 0 ->
  forall sky, v0 sky <> v0 (s_crval (ps_astro s)) -> stamp_sky_to_pix (ps_astro s') sky <> stamp_sky_to_pix (ps_astro s) sky.
Proof.
  intros H Hd Hc He sky Hs E. destruct (written_astro _ _ _ _ H) as (si & Esi & Edp & _ & Ecv & Ecp).
  assert (Hh : h_pc (f_header f) = mscal (/ 3600) si).
  { unfold to_fits in H. rewrite (wcs_closed ra s si Esi) in H. cbn [ps_ierr ps_nx ps_ny] in H.
    destruct (existsb nonzero (ps_ierr s)); [destruct (reshape (ps_nx s) (ps_ny s) (ps_ierr s)); [|discriminate]|]; injection H as <- _; reflexivity. }
  rewrite Hh in He. set (c := cos (deg2rad (tan_dec (v1 (s_crval (ps_astro s))) (below_left s si)))).
  assert (Ec : c <> 1).
  { unfold c, tan_dec. rewrite Hd. set (xi := deg2rad (v0 (below_left s si))). set (eta := deg2rad (v1 (below_left s si))).
    assert (N : eta <> 0).
    { unfold eta, below_left, mv, deg2rad. cbn [v0 v1]. intros Z. apply He. pose proof PI_RGT_0.
      assert (Z1 : (m10 (mscal (/ 3600) si) * -1 + m11 (mscal (/ 3600) si) * -1) = 0) by (apply (Rmult_eq_reg_r (PI / 180)); [lra|apply Rgt_not_eq; lra]). lra. }
    assert (Dz : deg2rad 0 = 0) by (unfold deg2rad; lra). rewrite Dz. rewrite sin_0, cos_0.
    set (q := sqrt (1 + xi * xi + eta * eta)).
    assert (P : 0 < 1 + xi * xi + eta * eta) by (pose proof (Rle_0_sqr xi); pose proof (Rle_0_sqr eta); unfold Rsqr in *; lra).
    assert (Q : 0 < q) by now apply sqrt_lt_R0.
    assert (QQ : q * q = 1 + xi * xi + eta * eta) by (apply sqrt_sqrt; lra).
    set (x := (0 + eta * 1) / q).
    assert (Xq : x * q = eta) by (unfold x; field; lra).
    assert (X2 : x * x < 1). { apply (Rmult_lt_reg_r (q * q)); [nra|]. replace (x * x * (q * q)) with ((x * q) * (x * q)) by ring. rewrite Xq, QQ. pose proof (Rle_0_sqr xi). unfold Rsqr in *. lra. }
    assert (X0 : 0 < x * x). { assert (x <> 0) by (intros Z; apply N; rewrite <- Xq, Z; ring). pose proof (Rsqr_pos_lt x H0). unfold Rsqr in *. lra. }
    assert (XB : -1 <= x <= 1) by nra.
    replace (deg2rad (asin x * 180 / PI)) with (asin x) by (unfold deg2rad; field; apply PI_neq0).
    rewrite cos_asin by assumption. unfold Rsqr. intros S1. apply (f_equal (fun t => t * t)) in S1. rewrite sqrt_sqrt in S1 by lra. lra. }
  assert (Nd : det (ps_scale s) <> 0) by (unfold inv in Esi; destruct (Req_EM_T (det (ps_scale s)) 0); [discriminate|assumption]).
  unfold stamp_sky_to_pix in E. rewrite Ecv, Ecp, Edp, Hc in E. unfold new_dpix in E. fold c in E.
  destruct (ps_scale s) as [a b g d]. destruct (s_crval (ps_astro s)) as [r0 d0], (s_crpix (ps_astro s)) as [px py], sky as [r1 d1].
  apply vext in E. unfold vadd, mv, vsub, mm, mscal in E. cbn [v0 v1 m00 m01 m10 m11] in *. unfold det in Nd. cbn [m00 m01 m10 m11] in Nd.
  destruct E as [E0 E1].
  assert (A0 : a * ((c - 1) * (r1 - r0)) = 0) by lra. assert (G0 : g * ((c - 1) * (r1 - r0)) = 0) by lra.
  assert (K : (c - 1) * (r1 - r0) <> 0) by (apply Rmult_integral_contrapositive; split; lra).
  apply Nd. apply Rmult_integral in A0. apply Rmult_integral in G0. destruct A0 as [->|]; [|contradiction]. destruct G0 as [->|]; [|contradiction]. ring.
Qed.
(** A new stamp, with the conversions of the class, has them 3600 times as steep in declination afterwards *)
Theorem C62_new_refuted ra s f s' : to_fits ra s = Some (f, s') -> ps_scale s = eye -> dpix_dsky (ps_astro s) = eye ->
  forall sky, v0 sky = v0 (s_crval (ps_astro s)) ->
    v1 (stamp_sky_to_pix (ps_astro s') sky) - v1 (s_crpix (ps_astro s)) = 3600 * (v1 (stamp_sky_to_pix (ps_astro s) sky) - v1 (s_crpix (ps_astro s))).
Proof.
  intros H Hs Hd sky Hr. destruct (written_astro _ _ _ _ H) as (si & Esi & Edp & _ & Ecv & Ecp). unfold stamp_sky_to_pix. rewrite Ecv, Ecp, Edp, Hd. unfold new_dpix. rewrite Hs.
  unfold vadd, mv, vsub, mm, mscal, eye. cbn [v0 v1 m00 m01 m10 m11]. rewrite Hr. ring.
Qed.
(** Once written, writing again changes nothing *)
Theorem C62_again ra s f s' f2 s2 : made s -> to_fits ra s = Some (f, s') -> to_fits ra s' = Some (f2, s2) -> s2 = s' /\ f2 = f.
Proof.
  intros M0 H H2. unfold to_fits in H. destruct (wcs_of ra s) as [[h s1]|] eqn:Ew; [|discriminate]. destruct (wcs_inv _ _ _ _ Ew) as [si Esi].
  rewrite (wcs_closed ra s si Esi) in Ew. injection Ew as <- <-. cbn [ps_ierr ps_nx ps_ny] in H.
  assert (E' : s' = mkPs (ps_nx s) (ps_ny s) (ps_values s) (ps_ierr s) (ps_scale s) {| dpix_dsky := new_dpix s si; s_crval := s_crval (ps_astro s); s_crpix := s_crpix (ps_astro s) |}).
  { destruct (existsb nonzero (ps_ierr s)); [destruct (reshape (ps_nx s) (ps_ny s) (ps_ierr s)); [|discriminate]|]; injection H as <- <-; reflexivity. }
  unfold to_fits in H2. rewrite (wcs_closed ra s' si) in H2 by (rewrite E'; exact Esi). rewrite E' in H2. cbn [ps_ierr ps_nx ps_ny ps_values ps_astro ps_scale s_crval s_crpix] in H2.
  change (new_dpix _ si) with (new_dpix s si) in H2. rewrite E' in H |- *.
  destruct (existsb nonzero (ps_ierr s)); [destruct (reshape (ps_nx s) (ps_ny s) (ps_ierr s)); [|discriminate]|]; injection H as <-; injection H2 as <- <-; split; reflexivity.
Qed.
