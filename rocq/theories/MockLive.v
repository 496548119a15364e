(** C71: when a scene, a file of PSFs and the noise levels are made at all. *)
From Coq Require Import Reals Arith List String Bool Lra Lia.
From Verif Require Import WcsModel StampModel StampProps Ds9Props MockModel MockProps MockCase.
Import ListNotations.
Open Scope R_scope.

(** Given for n sources: one number, or a list of one or of n *)
Definition suits (n : nat) (g : given) : Prop := forall l, g = Nums l -> List.length l = 1%nat \/ List.length l = n.
Lemma fill_suits n g : (exists l, fill n g = Some l) <-> suits n g.
Proof.
  unfold suits. destruct g as [v|l]; cbn [fill].
  - split; [discriminate|eauto].
  - destruct (Nat.eqb_spec (List.length l) n) as [E|E].
    + split; [intros _ l0 H; injection H as <-; auto|eauto].
    + split.
      * intros (l' & H) l0 H0. injection H0 as <-. destruct l as [|v [|w l]]; try discriminate. now left.
      * intros H. destruct (H l eq_refl) as [H1|H1]; [|congruence]. destruct l as [|v [|w l]]; try discriminate. eauto.
Qed.
(** A scene is made if, and only if, every parameter is given once or once per source. *)
Theorem C71_scene_made ra0 p2w s stamps nsource frac rhalf sersic flux q pa : made (ms_stamp s) -> det (ps_scale (ms_stamp s)) <> 0 ->
  let n := Nat.max (List.length (atleast_1d rhalf)) nsource in
  (exists scene, make_scene ra0 p2w (s :: stamps) nsource frac None rhalf sersic flux q pa = Some scene) <->
  forall g, In g [rhalf; sersic; flux; q; pa] -> suits n g.
Proof.
  intros Hm Hd n. destruct (fits_defined ra0 _ Hm Hd) as (f & s' & Ef). unfold make_scene. fold n.
  assert (B : exists b l, bands_of (s :: stamps) = b :: l) by
    (destruct (bands_of (s :: stamps)) eqn:X; [exfalso; assert (K : In (ms_band s) (bands_of (s :: stamps))) by (apply nodup_In; now left); rewrite X in K; exact K|eauto]). destruct B as (b & l & Eb). rewrite Eb, Ef. split.
  - intros (scene & H) g Hg. apply fill_suits.
    destruct (fill n rhalf) eqn:E1; [|discriminate]. destruct (fill n sersic) eqn:E2; [|discriminate]. destruct (fill n q) eqn:E3; [|discriminate].
    destruct (fill n pa) eqn:E4; [|discriminate]. destruct (fill n flux) eqn:E5; [|discriminate].
    destruct Hg as [<-|[<-|[<-|[<-|[<-|[]]]]]]; eauto.
  - intros H. assert (K : forall g, In g [rhalf; sersic; flux; q; pa] -> exists l, fill n g = Some l) by (intros g Hg; now apply fill_suits, H).
    destruct (K rhalf) as (l1 & ->); [cbn; tauto|]. destruct (K sersic) as (l2 & ->); [cbn; tauto|]. destruct (K flux) as (l3 & ->); [cbn; tauto|].
    destruct (K q) as (l4 & ->); [cbn; tauto|]. destruct (K pa) as (l5 & ->); [cbn; tauto|]. eauto.
Qed.
Print Assumptions C71_scene_made.
(** A PSF is added to a file if, and only if, the file has none of that band, in either case of letters. *)
Theorem C71_psfstore_made file band sigma nradii :
  (exists file', make_psfstore file band sigma nradii = Some file') <-> ~ In (upper band) (map fst file).
Proof.
  unfold make_psfstore. destruct (existsb _ file) eqn:E.
  - split; [intros (f & H); discriminate|]. intros H. exfalso. apply H. apply existsb_exists in E. destruct E as (g & Hg & Eg). apply String.eqb_eq in Eg. rewrite <- Eg. now apply in_map.
  - split; [|eauto]. intros _ H. apply in_map_iff in H. destruct H as (g & Eg & Hg).
    assert (existsb (fun g => String.eqb (fst g) (upper band)) file = true) by (apply existsb_exists; exists g; split; [assumption|now apply String.eqb_eq]). congruence.
Qed.
Print Assumptions C71_psfstore_made.
(** With a flux in every band there are noise levels, one per band; one scale stands for all bands. *)
Theorem C71_noise_made row scene scales bands snr : (forall b, In b bands -> In b (map fst (r_flux row))) ->
  (List.length scales = List.length bands -> exists l, compute_noise_level (row :: scene) scales bands snr = Some l) /\
  forall scale, compute_noise_level (row :: scene) [scale] bands snr = compute_noise_level (row :: scene) (repeat scale (List.length bands)) bands snr.
Proof.
  intros H. assert (A : exists fl, all_of (flux_in row) bands = Some fl).
  { induction bands as [|b bands IH]; [cbn; eauto|]. destruct IH as (fl & E); [intros b' Hb; apply H; now right|].
    pose proof (flux_in_defined row b (H b (or_introl eq_refl))) as D. destruct (flux_in row b) as [v|] eqn:Eb; [|contradiction].
    cbn [all_of]. rewrite Eb, E. eauto. }
  destruct A as (fl & E). cbn [compute_noise_level]. rewrite E. split.
  - intros L. cbn [fill]. rewrite L, Nat.eqb_refl. eauto.
  - intros scale. cbn [fill]. rewrite repeat_length, Nat.eqb_refl. cbn [List.length].
    destruct (Nat.eqb_spec 1 (List.length bands)) as [L|L]; [rewrite <- L; reflexivity|reflexivity].
Qed.
Print Assumptions C71_noise_made.

(** Two sizes and one of everything else make a scene of two; two sizes and three Sersic indices make none. *)
Example C71_scene_made_case :
  (exists scene, make_scene ra1 p2w1 [st1] 1 1 None (Nums [1; 2]) (Nums [4]) (Num 1) (Num 1) (Num 0) = Some scene) /\
  ~ exists scene, make_scene ra1 p2w1 [st1] 1 1 None (Nums [1; 2]) (Nums [4; 4; 4]) (Num 1) (Num 1) (Num 0) = Some scene.
Proof.
  assert (Hd : det (ps_scale (ms_stamp st1)) <> 0).
  { unfold st1, make_stamp, det. cbn [ms_stamp ps_scale mscal eye m00 m01 m10 m11]. lra. }
  split.
  - apply C71_scene_made; [apply made_stamp|exact Hd|]. intros g Hg l Hl. subst g. destruct Hg as [Hg|[Hg|[Hg|[Hg|[Hg|[]]]]]]; try discriminate; injection Hg as <-; [now right|now left].
  - intros K0. pose proof (proj1 (C71_scene_made _ _ _ _ _ _ _ _ _ _ _ (made_stamp _ _ _ _ _) Hd) K0) as K. destruct (K (Nums [4; 4; 4]) ltac:(cbn; tauto) _ eq_refl) as [F|F]; discriminate F.
Qed.
Example C71_psfstore_made_case : ~ exists file', make_psfstore [("F090W"%string, mkGroup [] 0)] "f090w" (Num 2) 9 = Some file'.
Proof. intros K. apply C71_psfstore_made in K. apply K. now left. Qed.
Example C71_noise_made_case : exists l, compute_noise_level [mkRow 0 0 0 (1 / 5) 2 (9 / 10) 0 [("A"%string, 1); ("B"%string, 2)]] [3 / 100] ["B"; "A"]%string 50 = Some l /\ List.length l = 2%nat.
Proof.
  set (row := mkRow 0 0 0 (1 / 5) 2 (9 / 10) 0 [("A"%string, 1); ("B"%string, 2)]).
  assert (Hb : forall b, In b ["B"; "A"]%string -> In b (map fst (r_flux row))) by (cbn; tauto).
  destruct (C71_noise_made row [] (repeat (3 / 100) 2) ["B"; "A"]%string 50 Hb) as [K1 K2]. destruct (K1 eq_refl) as (l & E).
  exists l. split; [rewrite K2; exact E|]. apply (C71_noise _ row) in E; [exact (proj1 E)|reflexivity|lra|cbn; lra|reflexivity].
Qed.
