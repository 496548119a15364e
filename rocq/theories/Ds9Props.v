(** C68: sources handed to and taken from other tools keep their place, size, shape and
    orientation. *)
From Coq Require Import Reals List String Bool Lra Lia Psatz.
From Verif Require Import Np KernelModel SlowModel Ds9Model.
Import ListNotations.
Open Scope R_scope.

(** ** What is drawn and what is fitted *)
(** The outline of an EllipseSkyRegion: offsets in arcsec to the east and to the north of
    its centre. Its width and height are full axes; the axis of the width points from the
    longitude axis (seen on the sky: to the west) [e_angle] degrees towards the north. *)
Definition outline (e : ellipse_region) (dE dN : R) : Prop :=
  let t := e_angle e * (PI / 180) in
  exists s, dE = - (e_width e / 2 * cos s * cos t - e_height e / 2 * sin s * sin t) /\
            dN = e_width e / 2 * cos s * sin t + e_height e / 2 * sin s * cos t.
(** Elliptical radius of an offset for the parameters q and pa of a source *)
Definition along (pa dE dN : R) := cos pa * dE + sin pa * dN.
Definition across (pa dE dN : R) := - sin pa * dE + cos pa * dN.
Definition contour (q pa r dE dN : R) : Prop := (q * along pa dE dN) ^ 2 + (across pa dE dN / q) ^ 2 = r ^ 2.

Lemma trig t : sin t ^ 2 + cos t ^ 2 = 1.
Proof. pose proof (sin2_cos2 t) as H. unfold Rsqr in H. lra. Qed.
Lemma polar u v r : 0 < r -> u ^ 2 + v ^ 2 = r ^ 2 -> exists s, u = r * cos s /\ v = r * sin s.
Proof.
  intros Hr H. set (x := u / r). set (y := v / r).
  assert (E : x ^ 2 + y ^ 2 = 1). { unfold x, y. replace ((u / r) ^ 2 + (v / r) ^ 2) with ((u ^ 2 + v ^ 2) / r ^ 2) by (field; lra). rewrite H. field. lra. }
  assert (Ux : u = r * x) by (unfold x; field; lra). assert (Vy : v = r * y) by (unfold y; field; lra).
  assert (B : -1 <= x <= 1) by nra. assert (S1 : sin (acos x) = sqrt (1 - x²)) by now apply sin_acos.
  assert (C1 : cos (acos x) = x) by now apply cos_acos. assert (Y : y ^ 2 = 1 - x²) by (unfold Rsqr; lra).
  destruct (Rle_dec 0 y) as [P|P].
  - exists (acos x). rewrite C1, S1, <- Y, sqrt_pow2 by auto. auto.
  - exists (- acos x). rewrite cos_neg, sin_neg, C1, S1, <- Y. replace (y ^ 2) with ((- y) ^ 2) by ring. rewrite sqrt_pow2 by lra. split; [auto|]. rewrite Vy. ring.
Qed.

(** The Gaussians of a source are constant on its contours: at the sky offset (dE, dN) the
    quadratic form of every image Gaussian (without PSF) is the squared elliptical radius
    over the squared radius of the Gaussian, on every stamp. *)
Theorem C68_isophotes : forall s st r am al mean dE dN,
  ss_q s <> 0 -> r <> 0 -> v11 (scale st) * v22 (scale st) - v12 (scale st) * v21 (scale st) <> 0 ->
  let g := slow_gaussian s st r am (al, mean, M22 0 0 0 0) in
  let dx := v11 (scale st) * dE + v12 (scale st) * dN in
  let dy := v21 (scale st) * dE + v22 (scale st) * dN in
  forall rad, contour (ss_q s) (ss_pa s) rad dE dN ->
  dx * (g_fxx g * dx + g_fxy g * dy) + dy * (g_fyy g * dy + g_fxy g * dx) = (rad / r) ^ 2.
Proof.
  intros s st r am al mean dE dN Hq Hr Hd g dx dy rad Hc. unfold contour, along, across in Hc.
  set (c := cos (ss_pa s)) in *. set (n := sin (ss_pa s)) in *.
  assert (T1 : n ^ 2 + c ^ 2 = 1) by apply trig.
  set (q := ss_q s) in *. set (D := scale st) in *.
  set (u := q * (c * dE + n * dN)) in *. set (v := (- n * dE + c * dN) / q) in *.
  set (t11 := (v11 D * c + v12 D * n) * (1 / q)). set (t12 := (- v11 D * n + v12 D * c) * q).
  set (t21 := (v21 D * c + v22 D * n) * (1 / q)). set (t22 := (- v21 D * n + v22 D * c) * q).
  assert (ET : slow_T s st = M22 t11 t12 t21 t22).
  { unfold slow_T, dot_dot, rotation_matrix, scale_matrix, t11, t12, t21, t22. fold q c n D. cbn [v11 v12 v21 v22]. f_equal; ring. }
  assert (dt : t11 * t22 - t12 * t21 = v11 D * v22 D - v12 D * v21 D).
  { transitivity ((v11 D * v22 D - v12 D * v21 D) * (n ^ 2 + c ^ 2)); [unfold t11, t12, t21, t22; field; auto|rewrite T1; ring]. }
  assert (Ex : dx = t11 * u + t12 * v).
  { transitivity ((v11 D * dE + v12 D * dN) * (n ^ 2 + c ^ 2)); [rewrite T1; unfold dx; ring|]. unfold t11, t12, u, v. field. auto. }
  assert (Ey : dy = t21 * u + t22 * v).
  { transitivity ((v21 D * dE + v22 D * dN) * (n ^ 2 + c ^ 2)); [rewrite T1; unfold dy; ring|]. unfold t21, t22, u, v. field. auto. }
  replace ((rad / r) ^ 2) with (rad ^ 2 / r ^ 2) by (field; auto). rewrite <- Hc.
  unfold g, slow_gaussian. cbv zeta. rewrite ET. rewrite Ex, Ey. clearbody t11 t12 t21 t22 u v.
  unfold matmul_matmul, dot2, covariance, transpose, mplus, fast_inv. cbn [v11 v12 v21 v22 g_fxx g_fxy g_fyy].
  assert (Hdt : t11 * t22 - t12 * t21 <> 0) by congruence.
  set (d := t11 * t22 - t12 * t21) in *.
  match goal with |- context [?a / ?b] => lazymatch b with r ^ 2 => fail | _ => replace b with (r ^ 4 * d ^ 2) by (unfold d; ring) end end.
  assert (r ^ 4 * d ^ 2 <> 0) by (apply Rmult_integral_contrapositive_currified; apply pow_nonzero; auto).
  apply (Rmult_eq_reg_r (r ^ 4 * d ^ 2)); [|auto].
  transitivity (r ^ 2 * d ^ 2 * (u ^ 2 + v ^ 2)); [unfold d in *; field; auto|field; auto].
Qed.
Print Assumptions C68_isophotes.

(** ** The regions of a catalog *)
Lemma regions_spec el roi : forall cat i rs, regions_from el roi i cat = Some rs ->
  List.length rs = List.length cat /\ forall k row, nth_error cat k = Some row ->
    exists rad e, nth_error roi (i + k) = Some rad /\ nth_error rs k = Some e /\ region_of el rad row = Some e.
Proof.
  induction cat as [|c cat IH]; intros i rs H; cbn [regions_from] in H.
  - injection H as <-. split; auto. intros [|k] row; discriminate.
  - destruct (nth_error roi i) as [rad|] eqn:Er; [|discriminate]. destruct (region_of el rad c) as [e|] eqn:Ee; [|discriminate].
    destruct (regions_from el roi (S i) cat) as [rs'|] eqn:E; [|discriminate]. injection H as <-. destruct (IH _ _ E) as (L & N). split; [cbn; auto|].
    intros [|k] row Hk.
    + injection Hk as <-. exists rad, e. rewrite Nat.add_0_r. auto.
    + destruct (N k row Hk) as (rad' & e' & A & B & C). exists rad', e'. replace (i + S k)%nat with (S i + k)%nat by lia. auto.
Qed.
Lemma regions_total el roi : forall cat i, (i + List.length cat <= List.length roi)%nat -> (el = true -> Forall (fun r => c_q r <> 0) cat) ->
  exists rs, regions_from el roi i cat = Some rs.
Proof.
  induction cat as [|c cat IH]; intros i L Q; cbn [regions_from]; [eauto|]. cbn in L.
  destruct (nth_error roi i) as [rad|] eqn:E; [|apply nth_error_None in E; lia].
  unfold region_of. cbv zeta. destruct (Req_EM_T (if el then c_q c else 1) 0) as [Z|Z].
  - destruct el; [|lra]. specialize (Q eq_refl). inversion Q; congruence.
  - destruct (IH (S i)) as (rs & ->); [lia| |cbn; eauto]. intros He. specialize (Q He). now inversion Q.
Qed.
Lemma annotate_spec ids cols : forall rs i out, annotate_from ids cols i rs = Some out ->
  List.length out = List.length rs /\ forall k e, nth_error rs k = Some e -> exists e', nth_error out k = Some e' /\ annotate1 ids cols (i + k) e = Some e'.
Proof.
  induction rs as [|r rs IH]; intros i out H; cbn [annotate_from] in H.
  - injection H as <-. split; auto. intros [|k] e; discriminate.
  - destruct (annotate1 ids cols i r) as [r'|] eqn:E; [|discriminate]. destruct (annotate_from ids cols (S i) rs) as [o|] eqn:Eo; [|discriminate].
    injection H as <-. destruct (IH _ _ Eo) as (L & N). split; [cbn; auto|]. intros [|k] e Hk.
    + injection Hk as <-. exists r'. rewrite Nat.add_0_r. auto.
    + destruct (N k e Hk) as (e' & A & B). exists e'. replace (i + S k)%nat with (S i + k)%nat by lia. auto.
Qed.
Lemma annotate_total ids cols : forall rs i,
  (forall l, ids = Some l -> (i + List.length rs <= List.length l)%nat) -> (forall l, cols = Some l -> (i + List.length rs <= List.length l)%nat) ->
  exists out, annotate_from ids cols i rs = Some out.
Proof.
  induction rs as [|r rs IH]; intros i A B; cbn [annotate_from]; [eauto|]. cbn in A, B.
  assert (E : exists r', annotate1 ids cols i r = Some r').
  { unfold annotate1. destruct ids as [l|].
    - specialize (A l eq_refl). destruct (nth_error l i) eqn:E1; [|apply nth_error_None in E1; lia]. cbn. destruct cols as [m|]; [|eauto].
      specialize (B m eq_refl). destruct (nth_error m i) eqn:E2; [|apply nth_error_None in E2; lia]. eauto.
    - destruct cols as [m|]; [|eauto]. specialize (B m eq_refl). destruct (nth_error m i) eqn:E2; [|apply nth_error_None in E2; lia]. eauto. }
  destruct E as (r' & ->). destruct (IH (S i)) as (o & ->); [intros l H; specialize (A l H); lia|intros l H; specialize (B l H); lia|cbn; eauto].
Qed.

(** One region per row, in order, at the row's position, labelled with its id if asked;
    the axes have the radius as geometric mean and the square of q as ratio. *)
Theorem C68_regions : forall cat roi el showid rs, cat_to_regions cat roi el showid = Some rs ->
  List.length rs = List.length cat /\
  forall k row, nth_error cat k = Some row -> exists rad e,
    (match roi with Some l => nth_error l k = Some rad | None => rad = c_roi row end) /\ nth_error rs k = Some e /\
    e_ra e = c_ra row /\ e_dec e = c_dec row /\ e_text e = (if showid then Some (c_id row) else None) /\
    e_width e * e_height e = rad ^ 2 /\
    (if el then e_height e = c_q row ^ 2 * e_width e /\ (0 < rad -> 0 < c_q row -> 0 < e_width e) /\ e_angle e = 90 - c_pa row * (180 / PI)
     else e_width e = rad /\ e_height e = rad).
Proof.
  intros cat roi el showid rs H. unfold cat_to_regions in H. cbv zeta in H.
  set (l := match roi with Some l => l | None => map c_roi cat end) in *.
  destruct (regions_from el l 0 cat) as [rs0|] eqn:E; [|discriminate]. destruct (regions_spec _ _ _ _ _ E) as (L & N).
  assert (A : List.length rs = List.length rs0 /\ forall k e, nth_error rs0 k = Some e -> exists e', nth_error rs k = Some e' /\
     e_ra e' = e_ra e /\ e_dec e' = e_dec e /\ e_width e' = e_width e /\ e_height e' = e_height e /\ e_angle e' = e_angle e /\
     e_text e' = (if showid then nth_error (map c_id cat) k else e_text e)).
  { destruct showid.
    - destruct (annotate_spec _ _ _ _ _ H) as (L' & N'). split; auto. intros k e Hk. destruct (N' k e Hk) as (e' & P & Q). exists e'. split; [auto|].
      unfold annotate1 in Q. cbn [Nat.add] in Q. destruct (nth_error (map c_id cat) k); [|discriminate]. cbn in Q. injection Q as <-. cbn. repeat split.
    - injection H as ->. split; auto. intros k e Hk. exists e. auto 10. }
  destruct A as (L' & A). split; [congruence|]. intros k row Hk. destruct (N k row Hk) as (rad & e & P & Q & S1). cbn [Nat.add] in P.
  destruct (A k e Q) as (e' & P' & A1 & A2 & A3 & A4 & A5 & A6). exists rad, e'. split.
  { unfold l in P. destruct roi as [r|]; [auto|]. rewrite nth_error_map, Hk in P. cbn in P. congruence. }
  split; [auto|]. rewrite A1, A2, A3, A4, A5, A6. unfold region_of in S1. cbv zeta in S1. destruct (Req_EM_T (if el then c_q row else 1) 0) as [|Z]; [discriminate|].
  injection S1 as <-. cbn [e_ra e_dec e_width e_height e_angle e_text].
  split; [auto|]. split; [auto|]. split. { destruct showid; [|auto]. rewrite nth_error_map, Hk. reflexivity. }
  split; [field; auto|]. destruct el; [split; [field; auto|split; [intros; now apply Rdiv_lt_0_compat|auto]]|split; field].
Qed.
Print Assumptions C68_regions.

(** It fails only for want of radii or on an axis ratio of zero. *)
Theorem C68_regions_defined : forall cat roi el showid,
  (forall l, roi = Some l -> (List.length cat <= List.length l)%nat) -> (el = true -> Forall (fun r => c_q r <> 0) cat) ->
  exists rs, cat_to_regions cat roi el showid = Some rs.
Proof.
  intros cat roi el showid L Q. unfold cat_to_regions. cbv zeta. set (l := match roi with Some l => l | None => map c_roi cat end).
  assert (Hl : (0 + List.length cat <= List.length l)%nat) by (unfold l; destruct roi; [auto|rewrite map_length; auto]).
  destruct (regions_total el l cat 0 Hl Q) as (rs & E). rewrite E. destruct showid; [|eauto].
  apply annotate_total; intros m H; [|discriminate]. injection H as <-. rewrite map_length. destruct (regions_spec _ _ _ _ _ E). lia.
Qed.
Print Assumptions C68_regions_defined.

(** Labels and colours go to the region of the same number; too few of them raise. *)
Theorem C68_annotate : forall rs ids cols,
  ((exists l, ids = Some l /\ (List.length l < List.length rs)%nat) \/ (exists l, cols = Some l /\ (List.length l < List.length rs)%nat) ->
     annotate_regions rs ids cols = None) /\
  forall out, annotate_regions rs ids cols = Some out -> List.length out = List.length rs /\
    forall k e, nth_error rs k = Some e -> exists e', nth_error out k = Some e' /\
      (e_ra e', e_dec e', e_width e', e_height e', e_angle e') = (e_ra e, e_dec e, e_width e, e_height e, e_angle e) /\
      e_text e' = (match ids with Some l => nth_error l k | None => e_text e end) /\
      e_color e' = (match cols with Some l => nth_error l k | None => Some "green"%string end).
Proof.
  intros rs ids cols. split.
  - intros H. destruct (annotate_regions rs ids cols) as [out|] eqn:E; [|auto]. exfalso. destruct (annotate_spec _ _ _ _ _ E) as (L & N).
    destruct H as [(l & -> & Hl)|(l & -> & Hl)].
    + destruct (nth_error rs (List.length l)) as [e|] eqn:Ee; [|apply nth_error_None in Ee; lia]. destruct (N _ _ Ee) as (e' & _ & Q).
      unfold annotate1 in Q. cbn [Nat.add] in Q. assert (Z : nth_error l (List.length l) = None) by now apply nth_error_None. rewrite Z in Q. discriminate.
    + destruct (nth_error rs (List.length l)) as [e|] eqn:Ee; [|apply nth_error_None in Ee; lia]. destruct (N _ _ Ee) as (e' & _ & Q).
      unfold annotate1 in Q. cbn [Nat.add] in Q. assert (Z : nth_error l (List.length l) = None) by now apply nth_error_None. rewrite Z in Q.
      destruct ids as [m|]; [destruct (nth_error m (List.length l))|]; discriminate.
  - intros out E. destruct (annotate_spec _ _ _ _ _ E) as (L & N). split; auto. intros k e Hk. destruct (N k e Hk) as (e' & P & Q). exists e'. split; auto.
    unfold annotate1 in Q. cbn [Nat.add] in Q. destruct ids as [l|].
    + destruct (nth_error l k); [|discriminate]. cbn in Q. destruct cols as [m|]; [destruct (nth_error m k); [|discriminate]|]; injection Q as <-; auto.
    + destruct cols as [m|]; [destruct (nth_error m k); [|discriminate]|]; injection Q as <-; auto.
Qed.
Print Assumptions C68_annotate.

(** ** Size and orientation of what is drawn *)
Lemma ninety : forall pa, (90 - pa * (180 / PI)) * (PI / 180) = PI / 2 - pa.
Proof. intros pa. field. apply PI_neq0. Qed.
(** The outline of a source is its contour at the given radius, turned by a right angle and
    at half the size. *)
Theorem C68_outline : forall cat roi showid rs k row rad e dE dN, cat_to_regions cat (Some roi) true showid = Some rs ->
  nth_error cat k = Some row -> nth_error roi k = Some rad -> nth_error rs k = Some e -> 0 < c_q row -> 0 < rad ->
  (outline e dE dN <-> contour (c_q row) (c_pa row) rad (2 * dN) (- 2 * dE)).
Proof.
  intros cat roi showid rs k row rad e dE dN H Hk Hr He Hq Hrad.
  destruct (C68_regions _ _ _ _ _ H) as (_ & N). destruct (N k row Hk) as (rad' & e' & P & Q & _ & _ & _ & W & R1 & Pw & A).
  assert (rad' = rad) by congruence. assert (e' = e) by congruence. subst rad' e'. clear N P Q. specialize (Pw Hrad Hq).
  unfold outline. cbv zeta. rewrite A, ninety, cos_shift, sin_shift.
  unfold contour, along, across. set (c := cos (c_pa row)). set (n := sin (c_pa row)). assert (T1 : n ^ 2 + c ^ 2 = 1) by apply trig.
  set (q := c_q row) in *. set (w := e_width e) in *. set (h := e_height e) in *.
  assert (W2 : (q * w) ^ 2 = rad ^ 2) by (rewrite <- W, R1; ring).
  split.
  - intros (s & -> & ->). pose proof (trig s) as Ts. rewrite R1.
    replace (q * (c * (2 * (w / 2 * cos s * c + q ^ 2 * w / 2 * sin s * n)) + n * (-2 * - (w / 2 * cos s * n - q ^ 2 * w / 2 * sin s * c)))) with (q * w * cos s * (n ^ 2 + c ^ 2)) by field.
    replace ((- n * (2 * (w / 2 * cos s * c + q ^ 2 * w / 2 * sin s * n)) + c * (-2 * - (w / 2 * cos s * n - q ^ 2 * w / 2 * sin s * c))) / q) with (- (q * w * sin s * (n ^ 2 + c ^ 2))) by (field; lra).
    rewrite T1. transitivity ((q * w) ^ 2 * (sin s ^ 2 + cos s ^ 2)); [ring|]. rewrite Ts, W2. ring.
  - intros Hc. assert (Ew : q * w = rad). { apply Rsqr_inj; [nra|lra|]. unfold Rsqr. lra. }
    destruct (polar _ _ _ Hrad Hc) as (s & Hu & Hv). exists (- s). rewrite cos_neg, sin_neg, R1.
    set (u := c * (2 * dN) + n * (-2 * dE)) in *. set (v := - n * (2 * dN) + c * (-2 * dE)) in *.
    assert (U : u = w * cos s). { apply (Rmult_eq_reg_l q); [|lra]. rewrite Hu, <- Ew. ring. }
    assert (V : v = q ^ 2 * w * sin s). { replace v with (v / q * q) by (field; lra). rewrite Hv, <- Ew. ring. }
    split.
    * transitivity (- (u * n + v * c) / 2 * 1); [|rewrite U, V; field]. rewrite Rmult_1_r. transitivity (dE * (n ^ 2 + c ^ 2)); [rewrite T1; ring|unfold u, v; field].
    * transitivity ((u * c - v * n) / 2 * 1); [|rewrite U, V; field]. rewrite Rmult_1_r. transitivity (dN * (n ^ 2 + c ^ 2)); [rewrite T1; ring|unfold u, v; field].
Qed.
Print Assumptions C68_outline.

(** So no source is drawn at its size, and no elongated one along its axis whatever the size. *)
Lemma drawn_points cat roi showid rs k row rad e c : cat_to_regions cat (Some roi) true showid = Some rs ->
  nth_error cat k = Some row -> nth_error roi k = Some rad -> nth_error rs k = Some e -> 0 < c_q row -> 0 < rad -> 0 < c ->
  (forall dE dN, outline e dE dN -> contour (c_q row) (c_pa row) rad (c * dE) (c * dN)) -> c = 2 * c_q row ^ 2 /\ c * c_q row ^ 2 = 2.
Proof.
  intros H Hk Hr He Hq Hrad Hc A. set (q := c_q row) in *. set (pa := c_pa row) in *. assert (T1 := trig pa).
  assert (P1 := A (- (rad / (2 * q)) * sin pa) (rad / (2 * q) * cos pa)). assert (P2 := A (rad * q / 2 * cos pa) (rad * q / 2 * sin pa)).
  rewrite (C68_outline _ _ _ _ _ _ _ _ _ _ H Hk Hr He Hq Hrad) in P1. rewrite (C68_outline _ _ _ _ _ _ _ _ _ _ H Hk Hr He Hq Hrad) in P2. fold q pa in P1, P2. unfold contour, along, across in P1, P2.
  match type of P1 with ?x = _ -> ?y = _ => assert (E1 : x = rad ^ 2 * (sin pa ^ 2 + cos pa ^ 2) ^ 2) by (field; lra); assert (E2 : y = (c * rad / (2 * q ^ 2)) ^ 2 * (sin pa ^ 2 + cos pa ^ 2) ^ 2) by (field; lra) end.
  match type of P2 with ?x = _ -> ?y = _ => assert (E3 : x = rad ^ 2 * (sin pa ^ 2 + cos pa ^ 2) ^ 2) by (field; lra); assert (E4 : y = (c * rad * q ^ 2 / 2) ^ 2 * (sin pa ^ 2 + cos pa ^ 2) ^ 2) by (field; lra) end.
  rewrite E1, E2 in P1. rewrite E3, E4 in P2. rewrite T1 in P1, P2. specialize (P1 ltac:(ring)). specialize (P2 ltac:(ring)).
  assert (0 < q ^ 2) by nra.
  assert (F1 : c * rad / (2 * q ^ 2) = rad). { apply Rsqr_inj; [|lra|unfold Rsqr; lra]. apply Rlt_le, Rdiv_lt_0_compat; nra. }
  assert (F2 : c * rad * q ^ 2 / 2 = rad). { apply Rsqr_inj; [|lra|unfold Rsqr; lra]. apply Rlt_le, Rdiv_lt_0_compat; [|lra]. apply Rmult_lt_0_compat; nra. }
  split; apply (Rmult_eq_reg_r rad); try lra.
  apply (Rmult_eq_compat_r (2 * q ^ 2)) in F1. replace (c * rad / (2 * q ^ 2) * (2 * q ^ 2)) with (c * rad) in F1 by (field; lra). lra.
Qed.
Theorem C68_size_refuted : forall cat roi showid rs k row rad e, cat_to_regions cat (Some roi) true showid = Some rs ->
  nth_error cat k = Some row -> nth_error roi k = Some rad -> nth_error rs k = Some e -> 0 < c_q row -> 0 < rad ->
  ~ (forall dE dN, outline e dE dN -> contour (c_q row) (c_pa row) rad dE dN).
Proof.
  intros cat roi showid rs k row rad e H Hk Hr He Hq Hrad A.
  destruct (drawn_points _ _ _ _ _ _ _ _ 1 H Hk Hr He Hq Hrad Rlt_0_1) as (E1 & E2); [|nra].
  intros dE dN O. rewrite !Rmult_1_l. auto.
Qed.
Print Assumptions C68_size_refuted.
Theorem C68_turned_refuted : forall cat roi showid rs k row rad e c, cat_to_regions cat (Some roi) true showid = Some rs ->
  nth_error cat k = Some row -> nth_error roi k = Some rad -> nth_error rs k = Some e -> 0 < c_q row -> c_q row <> 1 -> 0 < rad -> 0 < c ->
  ~ (forall dE dN, outline e dE dN -> contour (c_q row) (c_pa row) rad (c * dE) (c * dN)).
Proof.
  intros cat roi showid rs k row rad e c H Hk Hr He Hq Hq1 Hrad Hc A. destruct (drawn_points _ _ _ _ _ _ _ _ c H Hk Hr He Hq Hrad Hc A) as (E1 & E2).
  assert (c_q row ^ 2 * c_q row ^ 2 = 1) by nra. assert (c_q row ^ 2 = 1) by nra. apply Hq1. nra.
Qed.
Print Assumptions C68_turned_refuted.

(** ** The axes of a source and the documented columns *)
(** The farthest point of a contour lies at pa from east to north, at the radius over q; the
    nearest at the radius times q: the ratio of the axes is the square of q. *)
Theorem C68_axes : forall q pa r, 0 < q < 1 -> 0 < r ->
  contour q pa r (r / q * cos pa) (r / q * sin pa) /\ contour q pa r (- (r * q) * sin pa) (r * q * cos pa) /\
  forall dE dN, contour q pa r dE dN -> (r * q) ^ 2 <= dE ^ 2 + dN ^ 2 <= (r / q) ^ 2 /\
    (dE ^ 2 + dN ^ 2 = (r / q) ^ 2 -> (dE = r / q * cos pa /\ dN = r / q * sin pa) \/ (dE = - (r / q * cos pa) /\ dN = - (r / q * sin pa))).
Proof.
  intros q pa r Hq Hr. assert (T1 := trig pa). unfold contour.
  split; [|split].
  - transitivity (r ^ 2 * (sin pa ^ 2 + cos pa ^ 2) ^ 2); [unfold along, across; field; lra|rewrite T1; ring].
  - transitivity (r ^ 2 * (sin pa ^ 2 + cos pa ^ 2) ^ 2); [unfold along, across; field; lra|rewrite T1; ring].
  - intros dE dN Hc. set (u := along pa dE dN) in *. set (v := across pa dE dN) in *.
    assert (E1 : dE ^ 2 + dN ^ 2 = u ^ 2 + v ^ 2).
    { transitivity ((dE ^ 2 + dN ^ 2) * (sin pa ^ 2 + cos pa ^ 2)); [rewrite T1; ring|]. unfold u, v, along, across. ring. }
    assert (q2 : 0 < q ^ 2 < 1) by nra.
    assert (Hc2 : q ^ 4 * u ^ 2 + v ^ 2 = r ^ 2 * q ^ 2). { rewrite <- Hc. field. lra. }
    assert (Hq4 : 0 < q ^ 4 < 1). { replace (q ^ 4) with (q ^ 2 * q ^ 2) by ring. nra. }
    assert (R2 : (r / q) ^ 2 * q ^ 4 = r ^ 2 * q ^ 2) by (field; lra).
    assert (Up : u ^ 2 + v ^ 2 <= (r / q) ^ 2). { apply (Rmult_le_reg_r (q ^ 4)); [lra|]. rewrite R2, <- Hc2. nra. }
    rewrite E1. split; [split; [nra|exact Up]|]. intros Eq.
    assert (V0 : v = 0). { assert (v ^ 2 * (1 - q ^ 4) = 0) by nra. assert (v ^ 2 = 0) by nra. nra. }
    assert (U0 : u = r / q \/ u = - (r / q)). { assert ((u - r / q) * (u + r / q) = 0) by (rewrite V0 in Eq; lra). apply Rmult_integral in H as [|]; [left|right]; lra. }
    assert (B1 : dE = u * cos pa - v * sin pa). { transitivity (dE * (sin pa ^ 2 + cos pa ^ 2)); [rewrite T1; ring|]. unfold u, v, along, across. ring. }
    assert (B2 : dN = u * sin pa + v * cos pa). { transitivity (dN * (sin pa ^ 2 + cos pa ^ 2)); [rewrite T1; ring|]. unfold u, v, along, across. ring. }
    rewrite B1, B2, V0. destruct U0 as [-> | ->]; [left|right]; split; ring.
Qed.
Print Assumptions C68_axes.
(** docs/inputs.rst 113-115 ask for q as b/a and pa from north to east. With these the end of
    the major axis, and the ratio of the axes, are right only at 45 degrees, or for circles. *)
Theorem C68_documented_refuted : forall q pa r, 0 < q < 1 -> 0 < r ->
  (contour q pa r (r / q * sin pa) (r / q * cos pa) <-> sin pa ^ 2 = cos pa ^ 2) /\
  forall a b, contour q pa r (a * cos pa) (a * sin pa) -> contour q pa r (- b * sin pa) (b * cos pa) -> 0 < a -> 0 < b -> b / a <> q.
Proof.
  intros q pa r Hq Hr. assert (T1 := trig pa). split.
  - unfold contour. set (c := cos pa) in *. set (n := sin pa) in *.
    assert (E : (q * along pa (r / q * n) (r / q * c)) ^ 2 + (across pa (r / q * n) (r / q * c) / q) ^ 2 = r ^ 2 * (4 * n ^ 2 * c ^ 2 + (n ^ 2 - c ^ 2) ^ 2 / q ^ 4)).
    { unfold along, across. fold c n. field. lra. }
    rewrite E. assert (K : (n ^ 2 - c ^ 2) ^ 2 + 4 * n ^ 2 * c ^ 2 = 1) by (transitivity ((n ^ 2 + c ^ 2) ^ 2); [ring|rewrite T1; ring]).
    assert (q4 : 0 < q ^ 4 < 1). { assert (0 < q ^ 2 < 1) by nra. replace (q ^ 4) with (q ^ 2 * q ^ 2) by ring. nra. }
    set (x := (n ^ 2 - c ^ 2) ^ 2) in *. split.
    + intros H. assert (H1 : 4 * n ^ 2 * c ^ 2 + x / q ^ 4 = 1). { apply (Rmult_eq_reg_l (r ^ 2)); [lra|nra]. }
      assert (H2 : x / q ^ 4 = x) by lra. assert (H3 : x = x * q ^ 4). { rewrite <- H2 at 2. field. lra. }
      assert (x = 0) by nra. unfold x in H0. assert (n ^ 2 - c ^ 2 = 0) by nra. lra.
    + intros H. assert (x = 0) by (unfold x; rewrite H; ring). rewrite H0 in *. replace (0 / q ^ 4) with 0 by (field; lra). replace (4 * n ^ 2 * c ^ 2) with 1 by lra. ring.
  - intros a b Ha Hb Pa Pb. unfold contour in *.
    assert (E1 : (q * a) ^ 2 = r ^ 2). { rewrite <- Ha. transitivity ((q * a) ^ 2 * (sin pa ^ 2 + cos pa ^ 2) ^ 2); [rewrite T1; ring|unfold along, across; field; lra]. }
    assert (E2 : (b / q) ^ 2 = r ^ 2). { rewrite <- Hb. transitivity ((b / q) ^ 2 * (sin pa ^ 2 + cos pa ^ 2) ^ 2); [rewrite T1; ring|unfold along, across; field; lra]. }
    assert (F1 : q * a = r) by (apply Rsqr_inj; [nra|lra|unfold Rsqr; lra]).
    assert (F2 : b / q = r) by (apply Rsqr_inj; [apply Rlt_le, Rdiv_lt_0_compat; lra|lra|unfold Rsqr; lra]).
    intros E. assert (b = q * a) by (rewrite <- E; field; lra). assert (b = r * q) by (rewrite <- F2; field; lra). nra.
Qed.
Print Assumptions C68_documented_refuted.

(** ** write_sourcereg *)
Lemma string_length_app a b : String.length (a ++ b) = (String.length a + String.length b)%nat.
Proof. induction a; cbn; auto. Qed.
(** It raises on every run, leaving a directory but no regions. *)
Theorem C68_sourcereg_refuted : forall root slist showid outs radii,
  fst (write_sourcereg postprocess_names root slist showid outs radii) = None /\
  forall p rs, ~ In (WriteRegions p rs) (snd (write_sourcereg postprocess_names root slist showid outs radii)).
Proof.
  intros root slist showid [|cat outs] radii; (split; [reflexivity|]); intros p rs; [intros []|]. cbn. intros [H|[]]. discriminate.
Qed.
Print Assumptions C68_sourcereg_refuted.
(** With the name in place it would draw every source at its half-light radius, or where
    there is one at its isophotal radius, with labels, but not in the image directory. *)
Theorem C68_place_refuted : forall names root slist showid cat outs radii rs ops, In "cat_to_reg"%string names ->
  write_sourcereg names root slist showid (cat :: outs) radii = (Some rs, ops) ->
  ops = [MakeDir (root ++ "/image"); WriteRegions slist rs] /\ slist <> (root ++ "/image/" ++ slist)%string /\
  forall k row, nth_error cat k = Some row -> exists e rad, nth_error rs k = Some e /\ e_width e * e_height e = rad ^ 2 /\ e_text e = Some (c_id row) /\
    (radii = None -> rad = c_rhalf row) /\
    (forall l, radii = Some l -> (nth_error l k = Some (Some rad) \/ (nth_error l k = Some None /\ rad = c_rhalf row))).
Proof.
  intros names root slist showid cat outs radii rs ops Hin H. unfold write_sourcereg in H. cbv zeta in H.
  assert (B : bound names "cat_to_reg" = true). { apply existsb_exists. exists "cat_to_reg"%string. split; [auto|apply String.eqb_refl]. }
  rewrite B in H. set (roi := match radii with Some l => _ | None => _ end) in H.
  destruct (cat_to_regions cat (Some roi) true true) as [rs'|] eqn:E; [|discriminate]. injection H as -> <-.
  split; [reflexivity|]. split.
  { intros C. apply (f_equal String.length) in C. revert C. rewrite string_length_app. cbn. lia. }
  destruct (C68_regions _ _ _ _ _ E) as (_ & N). intros k row Hk. destruct (N k row Hk) as (rad & e & P & Q & _ & _ & T & W & _). exists e, rad.
  split; [auto|]. split; [auto|]. split; [auto|]. unfold roi in P. split.
  - intros ->. rewrite nth_error_map, Hk in P. cbn in P. congruence.
  - intros l ->. rewrite nth_error_map in P. destruct (nth_error (combine l cat) k) as [[o r]|] eqn:Ec; [|discriminate].
    cbn in P. assert (nth_error l k = Some o /\ nth_error cat k = Some r) as (L1 & L2).
    { clear -Ec. revert l k Ec. induction cat as [|c cat IH]; intros [|x l] [|k] Ec; try discriminate; cbn in Ec |- *; [split; congruence|auto]. }
    rewrite L1. destruct o as [x|]; [left; congruence|right]. split; [auto|]. congruence.
Qed.
Print Assumptions C68_place_refuted.

(** ** Tables of the JADES survey *)
(** The measured ellipse: semi-axes A and B, the long one at PA from north to east *)
Definition measured (pixscale : R) (t : jrow) (dE dN : R) : Prop :=
  let p := j_PA t * (PI / 180) in
  ((sin p * dE + cos p * dN) / (j_A t * pixscale)) ^ 2 + ((cos p * dE - sin p * dN) / (j_B t * pixscale)) ^ 2 = 1.
(** The converted row stands for the measured ellipse enlarged by A/B, with q above one; and
    no table is ever converted. *)
Theorem C68_jades_refuted : forall pixscale t dE dN, 0 < pixscale -> 0 < j_B t -> j_B t < j_A t ->
  let row := rectified pixscale t in
  (contour (c_q row) (c_pa row) (c_rhalf row) (j_A t / j_B t * dE) (j_A t / j_B t * dN) <-> measured pixscale t dE dN) /\
  (measured pixscale t dE dN -> ~ contour (c_q row) (c_pa row) (c_rhalf row) dE dN) /\
  1 < c_q row /\ forall table, rectify_jades catalog_names pixscale table = None.
Proof.
  intros ps t dE dN Hps HB HA row. unfold row, rectified. cbv zeta. cbn [c_q c_pa c_rhalf].
  set (A := j_A t) in *. set (B := j_B t) in *. set (p := j_PA t * (PI / 180)).
  assert (HAB : 1 < A / B) by (apply (Rmult_lt_reg_r B); [lra|]; replace (A / B * B) with A by (field; lra); lra).
  set (q := sqrt (A / B)) in *. assert (q2 : q ^ 2 = A / B) by (unfold q; apply pow2_sqrt; lra). assert (q1 : 1 < q). { unfold q. rewrite <- sqrt_1. apply sqrt_lt_1; lra. }
  assert (G : forall k, (q * along (PI - p) (k * dE) (k * dN)) ^ 2 + (across (PI - p) (k * dE) (k * dN) / q) ^ 2 =
     (A * q * ps) ^ 2 * (k / (A / B)) ^ 2 * (((sin p * dE + cos p * dN) / (A * ps)) ^ 2 + ((cos p * dE - sin p * dN) / (B * ps)) ^ 2)).
  { intros k. unfold along, across. rewrite Rtrigo_facts.cos_pi_minus, Rtrigo_facts.sin_pi_minus.
    set (c := cos p). set (n := sin p).
    transitivity (q ^ 2 * (k * (c * dE - n * dN)) ^ 2 + (k * (n * dE + c * dN)) ^ 2 / q ^ 2); [field; lra|].
    transitivity (A ^ 2 * q ^ 2 * ps ^ 2 * (k / (A / B)) ^ 2 * (((n * dE + c * dN) / (A * ps)) ^ 2 + ((c * dE - n * dN) / (B * ps)) ^ 2)); [|ring].
    rewrite q2. field. repeat split; lra. }
  assert (Pos : 0 < (A * q * ps) ^ 2). { apply pow_lt. apply Rmult_lt_0_compat; [apply Rmult_lt_0_compat|]; lra. }
  split; [|split; [|split; [exact q1|reflexivity]]].
  - unfold contour, measured. cbv zeta. fold A B p. rewrite G. replace (A / B / (A / B)) with 1 by (field; lra). split; intros H.
    + apply (Rmult_eq_reg_l ((A * q * ps) ^ 2)); [|lra]. lra.
    + rewrite H. ring.
  - unfold contour, measured. cbv zeta. fold A B p. intros M H. assert (G1 := G 1). rewrite !Rmult_1_l in G1. rewrite G1, M in H.
    assert (K : (1 / (A / B)) ^ 2 = 1). { apply (Rmult_eq_reg_l ((A * q * ps) ^ 2)); lra. }
    assert (0 < 1 / (A / B) < 1). { split; [apply Rdiv_lt_0_compat; lra|]. apply (Rmult_lt_reg_r (A / B)); [lra|]. replace (1 / (A / B) * (A / B)) with 1 by (field; lra). lra. }
    nra.
Qed.
Print Assumptions C68_jades_refuted.

(** ** Cases *)
Definition two : list crow := [mkRow "12" 53 (-27) (/ 2) 1 (/ 5) 2; mkRow "7" 54 (-28) 1 0 1 3].
Example C68_regions_case : exists rs e, cat_to_regions two None true true = Some rs /\ nth_error rs 0 = Some e /\
  e_width e = 4 /\ e_height e = 1 /\ e_text e = Some "12"%string /\ e_color e = Some "green"%string.
Proof.
  eexists. eexists. split.
  { unfold cat_to_regions, two. cbn [map c_roi c_id regions_from nth_error]. unfold region_of. cbv zeta. cbn [c_q c_pa c_ra c_dec c_roi c_id].
    destruct (Req_EM_T (/ 2) 0) as [|_]; [lra|]. destruct (Req_EM_T 1 0) as [|_]; [lra|]. reflexivity. }
  split; [reflexivity|]. cbn. repeat split; field.
Qed.
Example C68_place_case : exists rs ops, write_sourcereg ("cat_to_reg"%string :: postprocess_names) "run" "sources.reg" false [two] (Some [Some 1; None]) = (Some rs, ops) /\ List.length rs = 2%nat.
Proof.
  unfold write_sourcereg. change (bound _ _) with true. cbv iota zeta.
  match goal with |- context [cat_to_regions ?c ?r true true] => destruct (C68_regions_defined c r true true) as (rs & E) end.
  { intros l H. injection H as <-. cbn. lia. }
  { intros _. repeat constructor; cbn; lra. }
  rewrite E. eexists. eexists. split; [reflexivity|]. destruct (C68_regions _ _ _ _ _ E) as (L & _). exact L.
Qed.
Example C68_annotate_case : annotate_regions [mkEll 0 0 1 1 0 None None; mkEll 1 1 1 1 0 None None] (Some ["a"; "b"]%string) (Some ["red"]%string) = None /\
  exists out, annotate_regions [mkEll 0 0 1 1 0 None None; mkEll 1 1 1 1 0 None None] (Some ["a"; "b"]%string) (Some ["red"; "blue"; "x"]%string) = Some out.
Proof. split; [reflexivity|]. eexists. reflexivity. Qed.
Example C68_jades_case : measured 1 (mkJ "1" 0 0 2 1 0) 0 2 /\ c_rhalf (rectified 1 (mkJ "1" 0 0 2 1 0)) = 2 * sqrt 2.
Proof.
  split.
  - unfold measured. cbn [j_PA j_A j_B]. rewrite Rmult_0_l, sin_0, cos_0. field.
  - unfold rectified. cbn. replace (2 / 1) with 2 by field. ring.
Qed.
