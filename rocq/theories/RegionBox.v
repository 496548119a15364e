(** C42: the box of a circular region is the smallest one that holds the circle. *)
From Verif Require Import Np StoreModel RegionModel.
From Coq Require Import Reals Lra.
Open Scope R_scope.

(** Squared angular distance from (ra, dec), in degrees, to first order. *)
Definition sky_distance2 (ra dec ra' dec' : R) : R := ((ra' - ra) * cos (dec * (PI / 180))) ^ 2 + (dec' - dec) ^ 2.
Definition in_box (a0 a1 d0 d1 : R) (p : point) : Prop := a0 <= fst p <= a1 /\ d0 <= snd p <= d1.

Theorem C42_bounding_box : forall ra dec radius, -90 < dec < 90 -> 0 <= radius ->
  exists box, bounding_box (Circular ra dec radius) = Some box /\
  forall a0 a1 d0 d1,
    (forall ra' dec', sky_distance2 ra dec ra' dec' <= radius ^ 2 -> in_box a0 a1 d0 d1 (ra', dec')) <->
    (forall p, In p box -> in_box a0 a1 d0 d1 p).
Proof.
  intros ra dec radius Hd Hr. set (c := cos (dec * (PI / 180))).
  assert (Hc : 0 < c). { pose proof PI_RGT_0. apply cos_gt_0; nra. }
  unfold bounding_box. fold c. destruct (Req_EM_T c 0) as [E|_]; [lra|].
  eexists. split; [reflexivity|]. intros a0 a1 d0 d1. unfold sky_distance2, in_box. fold c.
  set (w := radius / c). assert (Ew : w * c = radius) by (unfold w; field; lra).
  assert (Hw : 0 <= w) by (unfold w; apply Rmult_le_pos; [|left; apply Rinv_0_lt_compat]; lra).
  split.
  - intros H.
    pose proof (H (ra - w) dec) as H1. pose proof (H (ra + w) dec) as H2.
    pose proof (H ra (dec - radius)) as H3. pose proof (H ra (dec + radius)) as H4. cbn [fst snd] in *.
    specialize (H1 ltac:(replace ((ra - w - ra) * c) with (- (w * c)) by ring; rewrite Ew; nra)).
    specialize (H2 ltac:(replace ((ra + w - ra) * c) with (w * c) by ring; rewrite Ew; nra)).
    specialize (H3 ltac:(nra)). specialize (H4 ltac:(nra)).
    intros p [<-|[<-|[<-|[<-|[]]]]]; cbn [fst snd]; lra.
  - intros H ra' dec' D.
    pose proof (H _ (or_introl eq_refl)) as H1. pose proof (H _ (or_intror (or_intror (or_introl eq_refl)))) as H2.
    cbn [fst snd] in *.
    assert (Y : - radius <= dec' - dec <= radius).
    { assert ((dec' - dec) ^ 2 <= radius ^ 2) by (pose proof (pow2_ge_0 ((ra' - ra) * c)); lra). nra. }
    assert (X : - radius <= (ra' - ra) * c <= radius).
    { assert (((ra' - ra) * c) ^ 2 <= radius ^ 2) by (pose proof (pow2_ge_0 (dec' - dec)); lra). nra. }
    rewrite <- Ew in X. assert (- w <= ra' - ra <= w) by (split; apply Rmult_le_reg_r with c; lra). lra.
Qed.
Print Assumptions C42_bounding_box.
(** At declination 60 the box is twice as wide as it is high. *)
Example box_60 : bounding_box (Circular 10 60 1) = Some [(8, 59); (12, 59); (12, 61); (8, 61)].
Proof.
  unfold bounding_box. replace (60 * (PI / 180)) with (PI / 3) by field. rewrite cos_PI3.
  destruct (Req_EM_T (1 / 2) 0); [lra|]. repeat f_equal; lra.
Qed.
