(** Cases of C71: two galaxies on a stamp of 64 by 48 pixels of 0.03 arcsec, the plane as the sky. *)
From Coq Require Import Reals Arith List String Bool Lra Lia.
From Verif Require Import WcsModel StampModel StampProps Ds9Props MockModel MockProps.
Import ListNotations.
Open Scope R_scope.

Definition ra1 (a b : v2) : R := v0 a + v0 b.
Definition p2w1 (h : header) (p : v2) : v2 := p.
Definition w2p1 (h : header) (p : v2) : v2 := p.
Definition st1 : mstamp := make_stamp "CLEAR" (3 / 100) 64 48 (V 0 0).
Definition scene1 : option (list mrow) :=
  make_scene ra1 p2w1 [st1] 1 (3 / 2) None (Nums [1 / 5; 1 / 5]) (Nums [2]) (Num 1) (Num (9 / 10)) (Num (PI / 2)).
Lemma det1 : det (ps_scale (ms_stamp st1)) <> 0.
Proof. unfold st1, make_stamp, det, mscal, eye. cbn [ms_stamp ps_scale m00 m01 m10 m11]. lra. Qed.
Example fits1 : exists f s', to_fits ra1 (ms_stamp st1) = Some (f, s').
Proof. apply fits_defined; [apply made_stamp|apply det1]. Qed.
Example scene1_made : exists scene, scene1 = Some scene /\ List.length scene = 2%nat.
Proof.
  destruct fits1 as (f & s' & E). unfold scene1, make_scene. cbn [atleast_1d List.length Nat.max fill Nat.eqb]. 
  change (bands_of [st1]) with ["CLEAR"%string]. cbn iota. rewrite E. eexists. split; [reflexivity|]. unfold rows_of. now rewrite map_length, seq_length.
Qed.
(** C71_scene, C71_centre: the second galaxy is 0.3 arcsec north of the first *)
Example scene1_places : forall scene a b, scene1 = Some scene -> nth_error scene 0 = Some a -> nth_error scene 1 = Some b ->
  r_ra b = r_ra a /\ (r_dec b - r_dec a) * 3600 = 3 / 10 /\ (forall v, In ("CLEAR"%string, v) (r_flux b) <-> v = 1).
Proof.
  intros scene a b H Ha Hb. destruct (C71_scene _ _ _ _ _ _ _ _ _ _ _ H) as (s & f & s' & _ & _ & _ & K).
  destruct (K 0%nat a Ha) as (_ & _ & _ & _ & _ & _ & Ra & Da). destruct (K 1%nat b Hb) as (_ & Rh & _ & _ & _ & Fl & Rb & Db).
  cbn [value_for nth_error] in Rh. injection Rh as Rh. rewrite <- Rh in Db. cbn [INR] in Da, Db. split; [congruence|]. split; [lra|].
  destruct (Fl st1 (or_introl eq_refl)) as (v & Hv & Ev). cbn [value_for] in Ev. injection Ev as <-. exact Hv.
Qed.
(** C71_image: the image exists *)
Example image1 : forall scene profile draw, scene1 = Some scene -> exists im, galsim_model ra1 profile draw w2p1 scene st1 = Some im.
Proof.
  intros scene profile draw H. destruct (C71_scene _ _ _ _ _ _ _ _ _ _ _ H) as (s & f & s' & _ & _ & _ & K).
  assert (N : galsim_model ra1 profile draw w2p1 scene st1 <> None).
  { apply C71_image_defined; [apply made_stamp|apply det1| |]; intros row Hr; apply In_nth_error in Hr; destruct Hr as [i Hi]; destruct (K i row Hi) as (_ & _ & _ & Q & _ & Fl & _).
    - destruct (Fl st1 (or_introl eq_refl)) as (v & Hv & _). apply in_map_iff. exists (ms_band st1, v). split; [reflexivity|]. apply Hv. reflexivity.
    - cbn [value_for] in Q. injection Q as Q. lra. }
  destruct (galsim_model _ _ _ _ _ _); [eauto|contradiction].
Qed.
(** C71_shape: a galaxy of axis ratio 0.81, its long axis to the north: 0.9 arcsec away across it the brightness is the
    profile's at one arcsec *)
Example shape1 : forall profile, exists obj, object_of profile (mkRow 0 0 0 (1 / 5) 2 (9 / 10) (PI / 2) []) 1 = Some obj /\
  obj (9 / 10) 0 = profile 2 (1 / 5) 1 1 /\ contour (9 / 10) (PI / 2) 1 (9 / 10) 0.
Proof.
  intros profile. set (row := mkRow 0 0 0 (1 / 5) 2 (9 / 10) (PI / 2) []).
  assert (C : contour (9 / 10) (PI / 2) 1 (9 / 10) 0) by (unfold contour, along, across; rewrite sin_PI2, cos_PI2; field).
  assert (N : exists obj, object_of profile row 1 = Some obj).
  { unfold object_of, row. cbn [r_q r_pa]. destruct (Req_EM_T (9 / 10) 1); [lra|]. destruct (shear_of ((9 / 10) ^ 2) (PI / 2)) as [g|] eqn:Eg.
    - destruct (shear_inverse _ _ _ Eg) as (_ & _ & B & EB & _). unfold sheared. rewrite EB. eauto.
    - exfalso. unfold shear_of in Eg. destruct (Rle_dec ((9 / 10) ^ 2) 0); [lra|]. destruct (Rlt_dec 1 ((9 / 10) ^ 2)); [lra|discriminate]. }
  destruct N as [obj E]. exists obj. split; [exact E|]. split; [|exact C]. apply (proj2 (C71_shape _ _ _ _ E)); [lra|exact C].
Qed.
(** C71_scene_raises: two indices for three radii *)
Example raises1 : make_scene ra1 p2w1 [st1] 1 1 None (Nums [1; 2; 3]) (Nums [1; 4]) (Num 1) (Num 1) (Num 0) = None.
Proof. apply (C71_scene_raises _ _ _ _ _ _ _ _ _ _ _ [1; 4]); cbn; try lia; [discriminate|tauto]. Qed.
(** C71_scene_given *)
Example given1 : exists scene, make_scene ra1 p2w1 [st1] 2 1 (Some (Nums [53; 54], Some (Num (-27)))) (Num 1) (Num 1) (Num 1) (Num 1) (Num 0) = Some scene /\ List.length scene = 2%nat.
Proof. unfold make_scene. cbn [atleast_1d List.length Nat.max fill Nat.eqb]. change (bands_of [st1]) with ["CLEAR"%string]. cbn iota. eexists. split; reflexivity. Qed.
(** C71_noise: a signal to noise of 50 *)
Example noise1 : exists sigma, compute_noise_level [mkRow 0 0 0 (1 / 5) 2 (9 / 10) 0 [("CLEAR"%string, 1)]] [3 / 100] ["CLEAR"%string] 50 = Some [sigma] /\ 0 < sigma.
Proof.
  eexists. split; [reflexivity|]. cbn [r_rhalf fst snd]. assert (0 < sqrt (PI * (1 / 5 / (3 / 100)) ^ 2)) by (apply sqrt_lt_R0; pose proof PI_RGT_0; nra).
  apply Rdiv_lt_0_compat; lra.
Qed.
(** C71_psfstore, C71_psfstore_twice, C71_psf_sum_refuted: two dispersions, nine bins *)
Example psf1 : exists file, make_psfstore [("F090W"%string, mkGroup [] 0)] "clear" (Nums [1; 3]) 9 = Some file /\
  make_psfstore file "CLEAR" (Num 2) 9 = None /\
  exists g, In ("CLEAR"%string, g) file /\ total (map p_amp (filter (fun r => Nat.eqb (p_bin r) 4) (g_rows g))) = 2.
Proof.
  assert (M : exists file, make_psfstore [("F090W"%string, mkGroup [] 0)] "clear" (Nums [1; 3]) 9 = Some file) by (eexists; reflexivity).
  destruct M as [file M]. exists file. split; [exact M|]. split; [now apply (C71_psfstore_twice _ _ _ _ _ _ _ _ M)|].
  destruct (C71_psfstore _ _ _ _ _ M) as (_ & g & E & _). exists g. assert (I : In ("CLEAR"%string, g) file) by (rewrite E; apply in_or_app; right; left; reflexivity).
  split; [exact I|]. rewrite (C71_psf_sum_refuted _ _ _ _ _ g 4 M I) by lia. cbn. lra.
Qed.
(** C71_flipped_refuted: a galaxy at 45 degrees *)
Example flipped1 : exists dE dN, contour (1 / 2) (PI / 4) 1 dE dN /\ ~ contour (1 / 2) (PI / 4) 1 (pixel_size (M (-30) 0 0 30) * v0 (mv (M (-30) 0 0 30) (V dE dN))) (pixel_size (M (-30) 0 0 30) * v1 (mv (M (-30) 0 0 30) (V dE dN))).
Proof.
  assert (S2 : sin (2 * (PI / 4)) <> 0) by (replace (2 * (PI / 4)) with (PI / 2) by field; rewrite sin_PI2; lra).
  destruct (C71_flipped_refuted (1 / 2) (PI / 4) 30 1 ltac:(lra) S2 ltac:(lra) ltac:(lra)) as (dE & dN & C & N). exists dE, dN. split; [exact C|].
  replace (-30) with (Ropp 30) by lra. intros K. specialize (N 1 K). rewrite Rabs_R1 in N. lra.
Qed.
(** C71_file *)
Example file1 : exists l, write_pair ra1 (make_stamp "CLEAR" 1 1 2 (V 0 0)) [[5; 6]] [[1; -1]] 1 ["CLEAR"%string] true [] = Some l /\ List.length l = 5%nat.
Proof.
  assert (D : det (ps_scale (ms_stamp (make_stamp "CLEAR" 1 1 2 (V 0 0)))) <> 0) by (unfold make_stamp, det, mscal, eye; cbn [ms_stamp ps_scale m00 m01 m10 m11]; lra).
  assert (S1 : forall a b : R, shaped 1 2 [[a; b]]) by (intros a b; split; [reflexivity|]; intros row [<-|[]]; reflexivity).
  destruct (C71_file ra1 _ [[5; 6]] [[1; -1]] 1 ["CLEAR"%string] true [] (made_stamp _ _ _ _ _) D (S1 _ _) (S1 _ _)) as (f & s' & a & b & c & _ & E & _).
  eexists. split; [exact E|reflexivity].
Qed.
