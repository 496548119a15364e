(** C48: local astrometry. *)
From Coq Require Import Reals List Lra Lia.
From Coquelicot Require Import Coquelicot.
From Verif Require Import WcsModel.
Import ListNotations.
Open Scope R_scope.

(** An affine world coordinate system: pixel steps [J] degrees, and the two
    conversions invert each other. *)
Definition affine (w : wcs) (J : m2) : Prop :=
  det J <> 0 /\ (forall p q, vsub (pixel_to_world w q) (pixel_to_world w p) = mv J (vsub q p)) /\
  (forall s, pixel_to_world w (world_to_pixel w s) = s) /\ (forall p, world_to_pixel w (pixel_to_world w p) = p).

Ltac crunch := unfold mv, mm, mscal, mT, eye, det, vadd, vsub in *; cbn [v0 v1 m00 m01 m10 m11] in *.

Lemma v2_eq u w : v0 u = v0 w -> v1 u = v1 w -> u = w.
Proof. destruct u, w; cbn; intros -> ->; reflexivity. Qed.

Lemma inv_left A B : inv A = Some B -> forall u, mv B (mv A u) = u.
Proof.
  unfold inv. destruct (Req_EM_T (det A) 0) as [|N]; [discriminate|]. intro E; inversion E; subst; clear E.
  intro u. destruct A as [a b c d], u as [x y]; crunch. f_equal; field; exact N.
Qed.
Lemma inv_right A B : inv A = Some B -> forall u, mv A (mv B u) = u.
Proof.
  unfold inv. destruct (Req_EM_T (det A) 0) as [|N]; [discriminate|]. intro E; inversion E; subst; clear E.
  intro u. destruct A as [a b c d], u as [x y]; crunch. f_equal; field; exact N.
Qed.
Lemma inv_defined A : det A <> 0 -> exists B, inv A = Some B.
Proof. intro N. unfold inv. destruct (Req_EM_T (det A) 0); [congruence|eauto]. Qed.

(** ** Exact on an affine system, whatever the step *)
Theorem C48_linear_exact : forall w J sky dpix,
  affine w J -> has_distortion w = true -> dpix <> 0 ->
  exists CW D, scale_at_sky sky w dpix false = Some (CW, D) /\
    forall s1 s2, vsub (world_to_pixel w s2) (world_to_pixel w s1) = mv CW (vsub s2 s1).
Proof.
  intros w J sky dpix (N & A & R1 & R2) HD DP. unfold scale_at_sky. rewrite HD. cbn [orb].
  set (p0 := world_to_pixel w sky).
  assert (E1 : vsub (pixel_to_world w (vadd p0 (V dpix 0))) sky = V (m00 J * dpix) (m10 J * dpix)).
  { rewrite <- (R1 sky) at 1. rewrite A. fold p0. destruct p0, J; crunch. f_equal; ring. }
  assert (E2 : vsub (pixel_to_world w (vadd p0 (V 0 dpix))) sky = V (m01 J * dpix) (m11 J * dpix)).
  { rewrite <- (R1 sky) at 1. rewrite A. fold p0. destruct p0, J; crunch. f_equal; ring. }
  rewrite E1, E2. cbn [v0 v1]. unfold solve, inv.
  set (St := M (m00 J * dpix) (m10 J * dpix) (m01 J * dpix) (m11 J * dpix)).
  assert (DS : det St = det J * (dpix * dpix)) by (unfold St, det; cbn; ring).
  assert (DN : det St <> 0).
  { rewrite DS. repeat apply Rmult_integral_contrapositive_currified; auto. }
  destruct (Req_EM_T (det St) 0) as [Z|_]; [congruence|].
  eexists; eexists; split; [reflexivity|].
  intros s1 s2. rewrite <- (R1 s1) at 2. rewrite <- (R1 s2) at 2. rewrite A.
  set (d := vsub (world_to_pixel w s2) (world_to_pixel w s1)).
  rewrite DS. unfold St in *. destruct J as [a b c e], d as [x y]; crunch.
  f_equal; field; split; auto; intro Z; apply N; lra.
Qed.

(** ** The scale matrix is the same map in seconds of arc on the sky *)
Theorem C48_scale_in_arcsec : forall sky w dpix approx CW D,
  scale_at_sky sky w dpix approx = Some (CW, D) -> cos (v1 sky * PI / 180) <> 0 ->
  forall dra ddec, mv CW (V dra ddec) = mv D (V (3600 * (dra * cos (v1 sky * PI / 180))) (3600 * ddec)).
Proof.
  intros sky w dpix approx CW D E C dra ddec. unfold scale_at_sky in E.
  change (deg2rad (v1 sky)) with (v1 sky * PI / 180) in E.
  set (k := cos (v1 sky * PI / 180)) in *.
  destruct (has_distortion w || approx)%bool.
  - destruct (solve _ _) as [X|]; [|discriminate]. inversion E; subst. destruct X as [a b c d]. crunch. f_equal; field; exact C.
  - destruct (inv _) as [X|]; [|discriminate]. inversion E; subst. destruct D as [a b c d]. crunch. f_equal; ring.
Qed.

(** ** The step goes to zero: the inverse of the Jacobian *)
Section Limit.
  Variables (w : wcs) (sky : v2) (J : m2).
  Let p0 := world_to_pixel w sky.
  Hypothesis distorted : has_distortion w = true.
  Hypothesis consistent : pixel_to_world w p0 = sky.
  Hypothesis regular : det J <> 0.
  Hypothesis D00 : is_derive (fun t => v0 (pixel_to_world w (V t (v1 p0)))) (v0 p0) (m00 J).
  Hypothesis D10 : is_derive (fun t => v1 (pixel_to_world w (V t (v1 p0)))) (v0 p0) (m10 J).
  Hypothesis D01 : is_derive (fun t => v0 (pixel_to_world w (V (v0 p0) t))) (v1 p0) (m01 J).
  Hypothesis D11 : is_derive (fun t => v1 (pixel_to_world w (V (v0 p0) t))) (v1 p0) (m11 J).

  Lemma quotient_limit f x l : is_derive f x l -> is_lim (fun h => (f (x + h) - f x) / h) 0 l.
  Proof.
    intro H. apply is_derive_Reals in H. apply is_lim_spec. intros eps.
    destruct (H (pos eps) (cond_pos eps)) as (d & Hd). exists d. intros h Hb Hn.
    apply Hd; auto. unfold ball in Hb; cbn in Hb. unfold AbsRing_ball in Hb; cbn in Hb.
    unfold abs, minus, plus, opp in Hb; cbn in Hb. now rewrite Ropp_0, Rplus_0_r in Hb.
  Qed.

  (** The entries of the difference quotient of pixel_to_world. *)
  Let q00 h := (v0 (pixel_to_world w (V (v0 p0 + h) (v1 p0))) - v0 sky) / h.
  Let q10 h := (v1 (pixel_to_world w (V (v0 p0 + h) (v1 p0))) - v1 sky) / h.
  Let q01 h := (v0 (pixel_to_world w (V (v0 p0) (v1 p0 + h))) - v0 sky) / h.
  Let q11 h := (v1 (pixel_to_world w (V (v0 p0) (v1 p0 + h))) - v1 sky) / h.

  Lemma p0_eta : V (v0 p0) (v1 p0) = p0.
  Proof. now destruct p0. Qed.

  Lemma l00 : is_lim q00 0 (m00 J).
  Proof.
    pose proof (quotient_limit (fun t => v0 (pixel_to_world w (V t (v1 p0)))) _ _ D00) as H. cbv beta in H.
    rewrite p0_eta, consistent in H. exact H.
  Qed.
  Lemma l10 : is_lim q10 0 (m10 J).
  Proof.
    pose proof (quotient_limit (fun t => v1 (pixel_to_world w (V t (v1 p0)))) _ _ D10) as H. cbv beta in H.
    rewrite p0_eta, consistent in H. exact H.
  Qed.
  Lemma l01 : is_lim q01 0 (m01 J).
  Proof.
    pose proof (quotient_limit (fun t => v0 (pixel_to_world w (V (v0 p0) t))) _ _ D01) as H. cbv beta in H.
    rewrite p0_eta, consistent in H. exact H.
  Qed.
  Lemma l11 : is_lim q11 0 (m11 J).
  Proof.
    pose proof (quotient_limit (fun t => v1 (pixel_to_world w (V (v0 p0) t))) _ _ D11) as H. cbv beta in H.
    rewrite p0_eta, consistent in H. exact H.
  Qed.

  Let dq h := q00 h * q11 h - q01 h * q10 h.

  Lemma lmult f g a b : is_lim f 0 (Finite a) -> is_lim g 0 (Finite b) -> is_lim (fun h => f h * g h) 0 (Finite (a * b)).
  Proof. intros F G. apply (is_lim_mult f g 0 a b); cbn; auto. Qed.

  Lemma ldq : is_lim dq 0 (det J).
  Proof.
    unfold dq, det. apply (is_lim_minus _ _ 0 (m00 J * m11 J) (m01 J * m10 J)).
    - apply lmult; [apply l00|apply l11].
    - apply lmult; [apply l01|apply l10].
    - reflexivity.
  Qed.

  Lemma ldiv f a : is_lim f 0 (Finite a) -> is_lim (fun h => f h / dq h) 0 (Finite (a / det J)).
  Proof.
    intro F. apply (is_lim_div f dq 0 a (det J)); auto using ldq.
    - intro Z. inversion Z. contradiction.
    - reflexivity.
  Qed.

  Lemma value h : h <> 0 -> dq h <> 0 ->
    exists D, scale_at_sky sky w h false =
      Some (M (q11 h / dq h) (- q01 h / dq h) (- q10 h / dq h) (q00 h / dq h), D).
  Proof.
    intros H0 Hd. unfold scale_at_sky. rewrite distorted. cbn [orb]. fold p0.
    replace (vadd p0 (V h 0)) with (V (v0 p0 + h) (v1 p0)) by (unfold vadd; cbn; f_equal; ring).
    replace (vadd p0 (V 0 h)) with (V (v0 p0) (v1 p0 + h)) by (unfold vadd; cbn; f_equal; ring).
    set (s1 := pixel_to_world w (V (v0 p0 + h) (v1 p0))). set (s2 := pixel_to_world w (V (v0 p0) (v1 p0 + h))).
    unfold solve, inv. cbn [vsub v0 v1].
    assert (E : det (M (v0 s1 - v0 sky) (v1 s1 - v1 sky) (v0 s2 - v0 sky) (v1 s2 - v1 sky)) = dq h * (h * h)).
    { unfold det, dq, q00, q01, q10, q11; cbn. fold s1 s2. field. exact H0. }
    destruct (Req_EM_T _ 0) as [Z|_].
    - exfalso. rewrite E in Z. apply Rmult_integral in Z. destruct Z as [Z|Z]; [auto|].
      apply Rmult_integral in Z. tauto.
    - rewrite E. eexists. f_equal. f_equal. clear E. crunch.
      assert (Q00 : v0 s1 - v0 sky = q00 h * h) by (unfold q00; fold s1; field; exact H0).
      assert (Q10 : v1 s1 - v1 sky = q10 h * h) by (unfold q10; fold s1; field; exact H0).
      assert (Q01 : v0 s2 - v0 sky = q01 h * h) by (unfold q01; fold s2; field; exact H0).
      assert (Q11 : v1 s2 - v1 sky = q11 h * h) by (unfold q11; fold s2; field; exact H0).
      rewrite Q00, Q10, Q01, Q11. f_equal; field; auto.
  Qed.

  (** Entry of the CW matrix for step [h] (zero where it raises). *)
  Definition CW_entry (e : m2 -> R) (h : R) : R :=
    match scale_at_sky sky w h false with Some (CW, _) => e CW | None => 0 end.

  Lemma near (e : m2 -> R) (f : R -> R) (a : R) :
    (forall h, e (M (q11 h / dq h) (- q01 h / dq h) (- q10 h / dq h) (q00 h / dq h)) = f h / dq h) ->
    is_lim f 0 (Finite a) -> is_lim (CW_entry e) 0 (Finite (a / det J)).
  Proof.
    intros E F. apply is_lim_ext_loc with (fun h => f h / dq h); [|now apply ldiv].
    assert (L := ldq). apply is_lim_spec in L.
    assert (P : 0 < Rabs (det J)) by (now apply Rabs_pos_lt).
    destruct (L (mkposreal _ P)) as (d & Hd). exists d. intros h Hb Hn.
    specialize (Hd h Hb Hn). cbn in Hd.
    assert (N : dq h <> 0).
    { intro Z. rewrite Z in Hd. rewrite Rminus_0_l, Rabs_Ropp in Hd. lra. }
    destruct (value h Hn N) as (D & V). unfold CW_entry. rewrite V. symmetry. apply E.
  Qed.
End Limit.

Theorem C48_limit : forall w sky J,
  let p0 := world_to_pixel w sky in
  has_distortion w = true -> pixel_to_world w p0 = sky -> det J <> 0 ->
  is_derive (fun t => v0 (pixel_to_world w (V t (v1 p0)))) (v0 p0) (m00 J) ->
  is_derive (fun t => v1 (pixel_to_world w (V t (v1 p0)))) (v0 p0) (m10 J) ->
  is_derive (fun t => v0 (pixel_to_world w (V (v0 p0) t))) (v1 p0) (m01 J) ->
  is_derive (fun t => v1 (pixel_to_world w (V (v0 p0) t))) (v1 p0) (m11 J) ->
  exists K, (forall u, mv K (mv J u) = u /\ mv J (mv K u) = u) /\
    (exists d : posreal, forall h, Rabs h < d -> h <> 0 -> exists r, scale_at_sky sky w h false = Some r) /\
    is_lim (CW_entry w sky m00) 0 (m00 K) /\ is_lim (CW_entry w sky m01) 0 (m01 K) /\
    is_lim (CW_entry w sky m10) 0 (m10 K) /\ is_lim (CW_entry w sky m11) 0 (m11 K).
Proof.
  intros w sky J p0 HD C N A B E F.
  exists (M (m11 J / det J) (- m01 J / det J) (- m10 J / det J) (m00 J / det J)).
  split.
  { intro u. destruct u as [x y], J as [a b c d]. crunch. split; f_equal; field; auto. }
  split.
  { assert (L := ldq w sky J C A B E F). apply is_lim_spec in L.
    assert (P : 0 < Rabs (det J)) by (now apply Rabs_pos_lt).
    destruct (L (mkposreal _ P)) as (d & Hd). exists d. intros h Hb Hn.
    assert (Hb' : ball 0 d h).
    { unfold ball; cbn. unfold AbsRing_ball, abs, minus, plus, opp; cbn. now rewrite Ropp_0, Rplus_0_r. }
    specialize (Hd h Hb' Hn). cbn in Hd.
    edestruct (value w sky HD h Hn) as (D & V); [|eexists; exact V].
    intro Z. rewrite Z in Hd. rewrite Rminus_0_l, Rabs_Ropp in Hd. lra. }
  cbn [m00 m01 m10 m11].
  split; [|split; [|split]].
  - eapply (near w sky J HD C N A B E F m00); [reflexivity|]. now apply l11.
  - eapply (near w sky J HD C N A B E F m01); [reflexivity|]. apply (is_lim_opp _ 0 (m01 J)). now apply l01.
  - eapply (near w sky J HD C N A B E F m10); [reflexivity|]. apply (is_lim_opp _ 0 (m10 J)). now apply l10.
  - eapply (near w sky J HD C N A B E F m11); [reflexivity|]. now apply l00.
Qed.

(** ** The two ways of computing the matrices agree *)
Theorem C48_branches_agree : forall w J sky dpix,
  affine w J -> has_distortion w = false -> dpix <> 0 ->
  let k := cos (v1 sky * PI / 180) in k <> 0 ->
  (* the pixel scale matrix is the Jacobian with true angles along right ascension *)
  pixel_scale_matrix w = M (k * m00 J) (k * m01 J) (m10 J) (m11 J) ->
  scale_at_sky sky w dpix true = scale_at_sky sky w dpix false /\ scale_at_sky sky w dpix false <> None.
Proof.
  intros w J sky dpix (N & A & R1 & R2) HD DP k K P. unfold scale_at_sky. rewrite HD, P. cbn [orb].
  change (deg2rad (v1 sky)) with (v1 sky * PI / 180). fold k.
  set (p0 := world_to_pixel w sky).
  assert (E1 : vsub (pixel_to_world w (vadd p0 (V dpix 0))) sky = V (m00 J * dpix) (m10 J * dpix)).
  { rewrite <- (R1 sky) at 1. rewrite A. fold p0. destruct p0, J; crunch. f_equal; ring. }
  assert (E2 : vsub (pixel_to_world w (vadd p0 (V 0 dpix))) sky = V (m01 J * dpix) (m11 J * dpix)).
  { rewrite <- (R1 sky) at 1. rewrite A. fold p0. destruct p0, J; crunch. f_equal; ring. }
  rewrite E1, E2. cbn [v0 v1]. unfold solve, inv.
  destruct J as [a b c e]. cbn [m00 m01 m10 m11] in *.
  assert (D1 : det (M (a * dpix) (c * dpix) (b * dpix) (e * dpix)) = (a * e - b * c) * (dpix * dpix)) by (unfold det; cbn; ring).
  assert (D2 : det (mscal 3600 (M (k * a) (k * b) c e)) = 3600 * 3600 * k * (a * e - b * c)) by (unfold det; cbn; ring).
  assert (N' : a * e - b * c <> 0) by exact N.
  destruct (Req_EM_T (det (M (a * dpix) (c * dpix) (b * dpix) (e * dpix))) 0) as [Z|_].
  { exfalso. rewrite D1 in Z. revert Z. repeat apply Rmult_integral_contrapositive_currified; auto. }
  destruct (Req_EM_T (det (mscal 3600 (M (k * a) (k * b) c e))) 0) as [Z|_].
  { exfalso. rewrite D2 in Z. revert Z. repeat apply Rmult_integral_contrapositive_currified; auto; lra. }
  split; [|discriminate].
  rewrite D1, D2. unfold mscal, mm, mT, eye; cbn [m00 m01 m10 m11].
  f_equal. f_equal; f_equal; field; repeat split; auto.
Qed.

(** ** Right ascension wraps around *)
(** The image of a patch of sky across right ascension zero: one degree per pixel,
    right ascension decreasing along x and reported in [0, 360). *)
Definition wrap_wcs : wcs := {|
  world_to_pixel s := V (if Rlt_dec 180 (v0 s) then 360 - v0 s else - v0 s) (v1 s);
  pixel_to_world p := V (if Rlt_dec 0 (v0 p) then 360 - v0 p else - v0 p) (v1 p);
  has_distortion := true; pixel_scale_matrix := M (-1) 0 0 1 |}.

Theorem C48_ra_wrap_refuted : exists w sky CW D,
  (* positions convert back and forth *)
  (forall s, 0 <= v0 s < 360 -> pixel_to_world w (world_to_pixel w s) = s) /\
  (forall p, -180 <= v0 p < 180 -> world_to_pixel w (pixel_to_world w p) = p) /\
  (* up to whole turns a step of one pixel along x is a step of minus one degree *)
  (forall p, exists turns, pixel_to_world w p = V (- v0 p + 360 * IZR turns) (v1 p)) /\
  scale_at_sky sky w 1 false = Some (CW, D) /\
  (* but the local matrix is off by a factor of 359 and by its sign *)
  mv CW (V (-1) 0) = V (- (1 / 359)) 0.
Proof.
  exists wrap_wcs, (V 0 0), (M (1 / 359) 0 0 1), (mscal (1 / 3600) (mm (M (1 / 359) 0 0 1) (M (/ cos (deg2rad 0)) 0 0 1))).
  split; [|split; [|split; [|split]]].
  - intros [a b]; cbn. intro H. destruct (Rlt_dec 180 a); destruct (Rlt_dec 0 _); f_equal; lra.
  - intros [a b]; cbn. intro H. destruct (Rlt_dec 0 a); destruct (Rlt_dec 180 _); f_equal; lra.
  - intros [a b]; cbn. destruct (Rlt_dec 0 a); [exists 1%Z|exists 0%Z]; f_equal; lra.
  - unfold scale_at_sky. cbn [wrap_wcs has_distortion orb world_to_pixel pixel_to_world vadd vsub v0 v1].
    destruct (Rlt_dec 180 0); [lra|].
    destruct (Rlt_dec 0 (- 0 + 1)); [|lra]. destruct (Rlt_dec 0 (- 0 + 0)); [lra|].
    unfold solve, inv.
    match goal with |- context [det ?A] => set (S := A) end.
    assert (DS : det S = 359) by (unfold S, det; cbn; lra).
    destruct (Req_EM_T (det S) 0); [lra|]. rewrite DS.
    assert (X : mT (mm (mscal (/ 359) (M (m11 S) (- m01 S) (- m10 S) (m00 S))) (mscal 1 eye)) = M (1 / 359) 0 0 1).
    { unfold S, mT, mm, mscal, eye; cbn. f_equal; field. }
    rewrite X. reflexivity.
  - unfold mv; cbn. f_equal; lra.
Qed.

(** ** What a patch stores *)
Lemma pack_one_inv w ref src a : pack_one w ref src = Some a ->
  crval_of a = src /\ crpix_of a = world_to_pixel w (vadd src ref) /\
  exists D, scale_at_sky (vadd src ref) w 1 false = Some (CW_of a, D) /\ D_of a = D.
Proof.
  unfold pack_one. destruct (scale_at_sky (vadd src ref) w 1 false) as [(CW, D)|]; [|discriminate].
  intro E; inversion E; subst. cbn. split; [destruct src, ref; crunch; f_equal; ring|]. split; [reflexivity|]. exists D. auto.
Qed.

(** At the position it was packed for, a source is drawn where the coordinate
    system puts it, whatever the coordinate system. *)
Theorem C48_packed_position : forall w ref src a, pack_one w ref src = Some a ->
  kernel_pixel a src = world_to_pixel w (vadd src ref).
Proof.
  intros w ref src a E. apply pack_one_inv in E. destruct E as (C & P & _). unfold kernel_pixel. rewrite C, P.
  destruct src as [x y], (world_to_pixel w _) as [u v], (CW_of a) as [m n o p]. crunch. f_equal; ring.
Qed.

(** On an affine system a moved source is drawn where the coordinate system puts
    it too. *)
Theorem C48_moved_position : forall w J ref src a, affine w J -> has_distortion w = true ->
  pack_one w ref src = Some a -> forall q, kernel_pixel a q = world_to_pixel w (vadd q ref).
Proof.
  intros w J ref src a A HD E q. apply pack_one_inv in E. destruct E as (C & P & D & SC & _).
  destruct (C48_linear_exact w J (vadd src ref) 1 A HD ltac:(lra)) as (CW & D' & SC' & X).
  rewrite SC in SC'. injection SC' as S1 S2. rewrite <- S1 in X. unfold kernel_pixel. rewrite C, P.
  specialize (X (vadd src ref) (vadd q ref)).
  replace (vsub (vadd q ref) (vadd src ref)) with (vsub q src) in X by (destruct q, src, ref; crunch; f_equal; ring).
  rewrite <- X. destruct (world_to_pixel w (vadd q ref)), (world_to_pixel w (vadd src ref)); crunch. f_equal; ring.
Qed.

Lemma pack_sources_F2 w ref srcs l : pack_sources w ref srcs = Some l -> Forall2 (fun s a => pack_one w ref s = Some a) srcs l.
Proof.
  revert l; induction srcs as [|s t IH]; cbn; intros l E; [inversion E; constructor|].
  destruct (pack_one w ref s) eqn:P; [|discriminate]. destruct (pack_sources w ref t); [|discriminate].
  inversion E; subst. constructor; auto.
Qed.

Lemma apply_one_kernel a ref sky : apply_one a ref sky = kernel_pixel a (vsub sky ref).
Proof. unfold apply_one, kernel_pixel. f_equal. f_equal. destruct sky, ref, (crval_of a); crunch. f_equal; ring. Qed.

(** Reading positions back from a stored patch: the positions of the fitted
    sources, in order, come back where the coordinate system puts them. *)
Theorem C48_stored_sources : forall w ref srcs exps,
  pack_sources w ref srcs = Some exps ->
  sky_to_pix exps ref (map (fun s => vadd s ref) srcs) = Some (map (fun s => world_to_pixel w (vadd s ref)) srcs).
Proof.
  intros w ref srcs exps E. apply pack_sources_F2 in E. unfold sky_to_pix.
  assert (L : length exps = length (map (fun s => vadd s ref) srcs)).
  { rewrite map_length. symmetry. induction E; cbn; congruence. }
  rewrite (proj2 (Nat.eqb_eq _ _) L). f_equal. clear L.
  induction E as [|s a srcs exps P E IH]; cbn [map combine]; [reflexivity|].
  rewrite IH. f_equal. cbn [fst snd]. rewrite apply_one_kernel.
  replace (vsub (vadd s ref) ref) with s by (destruct s, ref; crunch; f_equal; ring).
  now apply C48_packed_position.
Qed.

(** On an affine system any number of any positions comes back right. *)
Theorem C48_stored_affine : forall w J ref srcs exps skies,
  affine w J -> has_distortion w = true -> pack_sources w ref srcs = Some exps -> srcs <> [] ->
  sky_to_pix exps ref skies = Some (map (world_to_pixel w) skies).
Proof.
  intros w J ref srcs exps skies A HD E N. apply pack_sources_F2 in E.
  assert (K : forall a, In a exps -> forall sky, apply_one a ref sky = world_to_pixel w sky).
  { intros a I sky. assert (X : exists s, pack_one w ref s = Some a).
    { clear N. induction E; cbn in I; [easy|]. destruct I as [<-|I]; eauto. }
    destruct X as (s & X). rewrite apply_one_kernel, (C48_moved_position w J ref s a A HD X).
    f_equal. destruct sky, ref; crunch; f_equal; ring. }
  unfold sky_to_pix. destruct (Nat.eqb (length exps) (length skies)) eqn:L.
  - f_equal. apply Nat.eqb_eq in L. clear E N. revert skies L. induction exps as [|a exps IH]; intros [|s skies] L; cbn in *; try discriminate; auto.
    rewrite IH; auto. f_equal. apply K. now left.
  - destruct E; [congruence|]. f_equal. apply map_ext. intro sky. apply K. now left.
Qed.

(** Otherwise a different number of positions uses the first source's matrix for
    all, and even the position of another fitted source comes back wrong. *)
Definition bent_wcs : wcs := {|
  world_to_pixel s := V (v0 s - v1 s ^ 2) (v1 s);
  pixel_to_world p := V (v0 p + v1 p ^ 2) (v1 p);
  has_distortion := true; pixel_scale_matrix := eye |}.

Theorem C48_first_source_refuted : exists w ref srcs exps s,
  (forall u, pixel_to_world w (world_to_pixel w u) = u) /\ (forall u, world_to_pixel w (pixel_to_world w u) = u) /\
  pack_sources w ref srcs = Some exps /\ In s srcs /\
  exists pix, sky_to_pix exps ref [vadd s ref] = Some [pix] /\ pix <> world_to_pixel w (vadd s ref).
Proof.
  assert (P : forall s, pack_one bent_wcs (V 0 0) s <> None).
  { intro s. unfold pack_one, scale_at_sky. cbn [bent_wcs has_distortion orb world_to_pixel pixel_to_world vadd vsub v0 v1].
    unfold solve, inv. match goal with |- context [det ?A] => set (S := A) end.
    assert (DS : det S = 1) by (unfold S, det; cbn; ring).
    destruct (Req_EM_T (det S) 0); [lra|]. discriminate. }
  destruct (pack_one bent_wcs (V 0 0) (V 0 0)) as [a1|] eqn:E1; [|now elim (P (V 0 0))].
  destruct (pack_one bent_wcs (V 0 0) (V 4 2)) as [a2|] eqn:E2; [|now elim (P (V 4 2))].
  exists bent_wcs, (V 0 0), [V 0 0; V 4 2], [a1; a2], (V 4 2).
  split; [intros [a b]; cbn; f_equal; ring|]. split; [intros [a b]; cbn; f_equal; ring|].
  split; [cbn [pack_sources]; now rewrite E1, E2|]. split; [right; left; reflexivity|].
  eexists. split; [reflexivity|].
  apply pack_one_inv in E1. destruct E1 as (C & Q & D & SC & _).
  rewrite apply_one_kernel. unfold kernel_pixel. rewrite C, Q.
  assert (CW : CW_of a1 = M 1 (-1) 0 1).
  { unfold scale_at_sky in SC. cbn [bent_wcs has_distortion orb world_to_pixel pixel_to_world vadd vsub v0 v1] in SC.
    unfold solve, inv in SC. match type of SC with context [det ?A] => set (S := A) in SC end.
    assert (DS : det S = 1) by (unfold S, det; cbn; ring).
    destruct (Req_EM_T (det S) 0); [lra|]. rewrite DS in SC. inversion SC.
    unfold S, mT, mm, mscal, eye; cbn. f_equal; field. }
  rewrite CW. cbn. intro Z. inversion Z. lra.
Qed.

(** ** Stamps *)
Theorem C48_stamp_round_trip : forall s, det (dpix_dsky s) <> 0 ->
  (forall sky, stamp_pix_to_sky s (stamp_sky_to_pix s sky) = Some sky) /\
  (forall pix sky, stamp_pix_to_sky s pix = Some sky -> stamp_sky_to_pix s sky = pix) /\
  (forall pix, stamp_pix_to_sky s pix <> None) /\
  stamp_sky_to_pix s (s_crval s) = s_crpix s.
Proof.
  intros s N. destruct (inv_defined _ N) as (B & E). unfold stamp_pix_to_sky, stamp_sky_to_pix. rewrite E.
  split; [|split; [|split]].
  - intro sky. f_equal.
    replace (vsub (vadd (mv (dpix_dsky s) (vsub sky (s_crval s))) (s_crpix s)) (s_crpix s)) with (mv (dpix_dsky s) (vsub sky (s_crval s)))
      by (destruct (mv (dpix_dsky s) (vsub sky (s_crval s))), (s_crpix s); crunch; f_equal; ring).
    rewrite (inv_left _ _ E). destruct sky, (s_crval s); crunch; f_equal; ring.
  - intros pix sky H. inversion H; subst.
    replace (vsub (vadd (mv B (vsub pix (s_crpix s))) (s_crval s)) (s_crval s)) with (mv B (vsub pix (s_crpix s)))
      by (destruct (mv B (vsub pix (s_crpix s))), (s_crval s); crunch; f_equal; ring).
    rewrite (inv_right _ _ E). destruct pix, (s_crpix s); crunch; f_equal; ring.
  - discriminate.
  - destruct (s_crval s), (s_crpix s), (dpix_dsky s); crunch; f_equal; ring.
Qed.

(** ** The hypotheses are met *)
Definition tilted : wcs := {|
  world_to_pixel s := V ((3 * v0 s - v1 s) / 7 + 10) ((v0 s + 2 * v1 s) / 7 - 4);
  pixel_to_world p := V (2 * (v0 p - 10) + (v1 p + 4)) (- (v0 p - 10) + 3 * (v1 p + 4));
  has_distortion := true; pixel_scale_matrix := eye |}.

Example tilted_affine : affine tilted (M 2 1 (-1) 3).
Proof.
  split; [unfold det; cbn; lra|]. split; [|split].
  - intros [a b] [c d]. unfold vsub, mv; cbn. f_equal; ring.
  - intros [a b]. cbn. f_equal; field.
  - intros [a b]. cbn. f_equal; field.
Qed.

Example bent_derivatives :
  let p0 := world_to_pixel bent_wcs (V 4 2) in
  is_derive (fun t => v0 (pixel_to_world bent_wcs (V (v0 p0) t))) (v1 p0) 4 /\ det (M 1 4 0 1) <> 0.
Proof.
  cbn. split; [|unfold det; cbn; lra].
  auto_derive; [exact I|]. ring.
Qed.

Print Assumptions C48_linear_exact.
Print Assumptions C48_scale_in_arcsec.
Print Assumptions C48_limit.
Print Assumptions C48_branches_agree.
Print Assumptions C48_ra_wrap_refuted.
Print Assumptions C48_packed_position.
Print Assumptions C48_moved_position.
Print Assumptions C48_stored_sources.
Print Assumptions C48_stored_affine.
Print Assumptions C48_first_source_refuted.
Print Assumptions C48_stamp_round_trip.
