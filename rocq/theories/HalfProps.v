(** C69: the half-light radius measured for a fitted scene holds half of its light. *)
From Coq Require Import Reals List String Bool Arith Lra Lia Psatz Permutation Sorted.
From Verif Require Import Np KernelModel KernelSum SlowModel QuantModel QuantFacts QuantProps HalfModel HalfFacts.
Import ListNotations.
Open Scope R_scope.

(** ** Light and distance *)
Definition light (xy : list (R * R)) (im : list R) (f : R * R -> R) : R := fold_right Rplus 0 (map (fun pv => f (fst pv) * snd pv) (combine xy im)).
Definition centre (xy : list (R * R)) (im : list R) : R * R :=
  (light xy im fst / light xy im (fun _ => 1), light xy im snd / light xy im (fun _ => 1)).
Definition dist (c p : R * R) : R := sqrt ((fst p - fst c) ^ 2 + (snd p - snd c) ^ 2).
(** The light of the pixels nearer to the centre than [r], and not farther than [r] *)
Definition light_inside (xy : list (R * R)) (im : list R) (r : R) : R := light xy im (fun p => if Rlt_dec (dist (centre xy im) p) r then 1 else 0).
Definition light_within (xy : list (R * R)) (im : list R) (r : R) : R := light xy im (fun p => if Rle_dec (dist (centre xy im) p) r then 1 else 0).

Lemma light_sum xy im f : light xy im f = sumR (fun pv => f (fst pv) * snd pv) (combine xy im).
Proof. unfold light. induction (combine xy im) as [|pv l IH]; [reflexivity|]. cbn [map fold_right]. now rewrite sumR_cons, IH. Qed.
Lemma light_total xy im : List.length im = List.length xy -> light xy im (fun _ => 1) = sum_list im.
Proof.
  rewrite light_sum, sum_list_sumR. revert im. induction xy as [|p xy IH]; intros [|v im] L; try discriminate; [reflexivity|].
  cbn [combine]. rewrite !sumR_cons, IH by (cbn in L; lia). cbn [fst snd]. ring.
Qed.
Lemma weigh_light (f : R * R -> R) xy im : weigh (map f xy) im = light xy im f.
Proof.
  unfold weigh, light, sum_list. revert im. induction xy as [|p xy IH]; intros [|v im]; try reflexivity. cbn [map combine fold_right fst snd]. now rewrite IH.
Qed.
Lemma half_closed argsort xy im : List.length im = List.length xy ->
  half_radius argsort xy im = if Req_EM_T (sum_list im) 0 then None else
    let r := map (dist (centre xy im)) xy in
    interp (1 / 2) (combine (map (fun v => v / sum_list im) (cumsum_from 0 (map snd (pairs r im (argsort r))))) (map fst (pairs r im (argsort r)))).
Proof.
  intros L. unfold half_radius. cbv zeta. destruct (Req_EM_T (sum_list im) 0); [reflexivity|].
  rewrite !pairs_fst, !pairs_snd. unfold centre, dist. cbn [fst snd]. rewrite !weigh_light, light_total by exact L. reflexivity.
Qed.
Lemma combine_map_l {A B C} (f : A -> B) (l : list A) (m : list C) : combine (map f l) m = map (fun p => (f (fst p), snd p)) (combine l m).
Proof. revert m. induction l as [|a l IH]; intros [|c m]; try reflexivity. cbn. now rewrite IH. Qed.

Lemma combine_total : forall (r im : list R), List.length im = List.length r -> sumR snd (combine r im) = sum_list im.
Proof.
  induction r as [|a r IH]; intros [|v im] L; try discriminate; [reflexivity|]. rewrite sum_list_sumR.
  cbn [combine]. rewrite !sumR_cons, IH by (cbn in L; lia). rewrite sum_list_sumR. reflexivity.
Qed.

(** Half of the light is nearer than the radius, up to the next pixel: the pixels strictly
    nearer hold at most half, and together with the next ones outwards they hold more than
    half; the radius lies among the distances of the pixels. *)
Theorem C69_half : forall argsort xy im rho, List.length im = List.length xy -> Forall (fun v => 0 <= v) im ->
  argsorts argsort (map (dist (centre xy im)) xy) -> half_radius argsort xy im = Some rho ->
  light_inside xy im rho <= light xy im (fun _ => 1) / 2 /\
  exists p p', In p xy /\ In p' xy /\ dist (centre xy im) p' <= rho <= dist (centre xy im) p /\
    light xy im (fun _ => 1) / 2 < light_within xy im (dist (centre xy im) p) /\
    forall o, In o xy -> ~ (rho < dist (centre xy im) o < dist (centre xy im) p).
Proof.
  intros argsort xy im rho L Hp [HP HS] H. rewrite (half_closed _ _ _ L) in H. rewrite (light_total _ _ L).
  destruct (Req_EM_T (sum_list im) 0) as [|Nz]; [discriminate|]. cbv zeta in H.
  set (c := centre xy im) in *. set (r := map (dist c) xy) in *. assert (Lr : List.length im = List.length r) by (unfold r; rewrite map_length; exact L).
  set (M := pairs r im (argsort r)) in *. assert (PM : Permutation M (combine r im)) by now apply pairs_perm.
  assert (SM : StronglySorted nearer M) by now apply pairs_sorted.
  assert (FC : Forall (fun p : R * R => 0 <= snd p) (combine r im)).
  { apply Forall_forall. intros [a v] Hin. rewrite Forall_forall in Hp. apply Hp. eapply in_combine_r. exact Hin. }
  assert (FM : Forall (fun p : R * R => 0 <= snd p) M). { rewrite Forall_forall in *. intros p Hin. apply FC. eapply Permutation_in; [exact PM|exact Hin]. }
  assert (TM : sumR snd M = sum_list im).
  { rewrite (sumR_perm snd _ _ PM). now apply combine_total. }
  assert (Tp : 0 < sum_list im). { pose proof (sum_nonneg snd M FM). lra. }
  destruct (interp_half M (sum_list im) (1 / 2) rho Tp ltac:(lra) FM SM TM H) as (A & b & B & EM & K & Kb & KA & K0).
  assert (Conv : forall f : R -> R, light xy im (fun p => f (dist c p)) = sumR (fun p => f (fst p) * snd p) M).
  { intros f. rewrite (sumR_perm _ _ _ PM). unfold r. rewrite combine_map_l, sumR_map, light_sum. reflexivity. }
  assert (SB : Forall (fun p => fst b <= fst p) (b :: B)).
  { rewrite EM in SM. clear - SM. induction A as [|a A IH]; [|inversion SM; auto]. inversion SM; subst. constructor; [lra|exact H2]. }
  assert (In1 : light_inside xy im rho <= sum_list im / 2).
  { unfold light_inside. fold c. rewrite (Conv (fun d => if Rlt_dec d rho then 1 else 0)), EM, sumR_app.
    assert (Z : sumR (fun p : R * R => (if Rlt_dec (fst p) rho then 1 else 0) * snd p) (b :: B) = 0).
    { apply sumR_zero. intros a Ha. rewrite Forall_forall in SB. specialize (SB a Ha). destruct (Rlt_dec (fst a) rho); [lra|ring]. }
    rewrite Z, Rplus_0_r. apply Rle_trans with (sumR snd A); [|lra]. apply sum_mono. apply Forall_forall. intros a Ha.
    assert (0 <= snd a). { rewrite Forall_forall in FM. apply FM. rewrite EM. apply in_or_app; auto. } destruct (Rlt_dec (fst a) rho); lra. }
  split; [exact In1|].
  assert (In2 : forall a, In a M -> exists p, In p xy /\ dist c p = fst a).
  { intros a Ha. apply (Permutation_in _ PM) in Ha. destruct a as [d v]. apply in_combine_l in Ha. unfold r in Ha. apply in_map_iff in Ha as (p & <- & Hin). eauto. }
  destruct (In2 b) as (p & Hin & Ep); [rewrite EM; apply in_or_app; cbn; auto|].
  assert (Ex : exists a, In a M /\ fst a <= rho).
  { destruct A as [|a A]; [exists b; split; [rewrite EM; cbn; auto|rewrite (K0 eq_refl); lra]|]. exists a. split; [rewrite EM; cbn; auto|]. now inversion KA. }
  destruct Ex as (a & Ha & Hle). destruct (In2 a Ha) as (p' & Hin' & Ep').
  exists p, p'. split; [exact Hin|]. split; [exact Hin'|]. split; [rewrite Ep, Ep'; lra|]. split.
  - unfold light_within. fold c. rewrite Ep, (Conv (fun d => if Rle_dec d (fst b) then 1 else 0)), EM, sumR_app, sumR_cons.
    assert (ZA : sumR (fun p : R * R => (if Rle_dec (fst p) (fst b) then 1 else 0) * snd p) A = sumR snd A).
    { apply sumR_ext. intros x Hx. rewrite Forall_forall in KA. specialize (KA x Hx). destruct (Rle_dec (fst x) (fst b)); [ring|lra]. }
    assert (ZB : 0 <= sumR (fun p : R * R => (if Rle_dec (fst p) (fst b) then 1 else 0) * snd p) B).
    { apply sum_nonneg. apply Forall_forall. intros x Hx. assert (0 <= snd x). { rewrite Forall_forall in FM. apply FM. rewrite EM. apply in_or_app; cbn; auto. } destruct (Rle_dec (fst x) (fst b)); lra. }
    rewrite ZA. destruct (Rle_dec (fst b) (fst b)); lra.
  - intros o Ho Hlt. rewrite Ep in Hlt.
    assert (exists x, In x M /\ fst x = dist c o) as (x & Hx & Ex).
    { destruct (In_nth xy o (0, 0) Ho) as (k & Hk & Ek). exists (nth k r 0, nth k im 0). split.
      - eapply Permutation_in; [apply Permutation_sym, PM|]. rewrite <- combine_nth by auto. apply nth_In. rewrite combine_length. unfold r in *. rewrite map_length in *. lia.
      - cbn. unfold r. rewrite (nth_indep _ 0 (dist c (0, 0))) by (rewrite map_length; lia). rewrite map_nth. now rewrite Ek. }
    rewrite EM in Hx. apply in_app_or in Hx as [Hx|Hx].
    + rewrite Forall_forall in KA. specialize (KA x Hx). lra.
    + rewrite Forall_forall in SB. specialize (SB x Hx). lra.
Qed.
Print Assumptions C69_half.

(** There is an answer for every image with light in it. *)
Theorem C69_half_defined : forall argsort xy im, List.length im = List.length xy -> argsorts argsort (map (dist (centre xy im)) xy) ->
  light xy im (fun _ => 1) <> 0 -> exists rho, half_radius argsort xy im = Some rho.
Proof.
  intros argsort xy im L [HP _] N. rewrite (light_total _ _ L) in N. rewrite (half_closed _ _ _ L). destruct (Req_EM_T (sum_list im) 0); [contradiction|]. cbv zeta.
  set (r := map (dist (centre xy im)) xy) in *. assert (E : (0 < List.length (argsort r))%nat).
  { rewrite (Permutation_length HP), seq_length. unfold r. rewrite map_length, <- L. destruct im; [exfalso; apply N; reflexivity|cbn; lia]. }
  destruct (argsort r) as [|i oo]; [cbn in E; lia|]. cbn [pairs map cumsum_from combine fst snd]. apply interp_some.
Qed.
Print Assumptions C69_half_defined.

(** It does not depend on the unit of flux, nor on where the stamp lies. *)
Lemma light_scale xy im c f : light xy (map (fun v => c * v) im) f = c * light xy im f.
Proof.
  unfold light. revert im. induction xy as [|p xy IH]; intros [|v im]; cbn [map combine fold_right]; try ring. cbn [fst snd]. rewrite IH. ring.
Qed.
Lemma sum_list_scale c im : sum_list (map (fun v => c * v) im) = c * sum_list im.
Proof. unfold sum_list. induction im as [|v im IH]; cbn [map fold_right]; [ring|]. rewrite IH. ring. Qed.
Lemma cumsum_scale c l : forall a, cumsum_from (c * a) (map (fun v => c * v) l) = map (fun v => c * v) (cumsum_from a l).
Proof. induction l as [|x l IH]; intros a; cbn [map cumsum_from]; [reflexivity|]. rewrite <- Rmult_plus_distr_l, IH. reflexivity. Qed.
Theorem C69_units : forall argsort xy im c, List.length im = List.length xy -> c <> 0 ->
  half_radius argsort xy (map (fun v => c * v) im) = half_radius argsort xy im.
Proof.
  intros argsort xy im c L Hc. rewrite !half_closed by (rewrite ?map_length; exact L). rewrite sum_list_scale.
  assert (EC : centre xy (map (fun v => c * v) im) = centre xy im).
  { unfold centre. rewrite !light_scale. rewrite (light_total _ _ L). destruct (Req_dec (sum_list im) 0) as [Z|Z]; [rewrite Z, !Rmult_0_r; unfold Rdiv; rewrite Rinv_0; f_equal; ring|f_equal; field; auto]. }
  destruct (Req_EM_T (sum_list im) 0) as [Z|Z]; destruct (Req_EM_T (c * sum_list im) 0) as [Z'|Z']; try reflexivity.
  - exfalso. apply Z'. rewrite Z. ring.
  - exfalso. apply Rmult_integral in Z' as [|]; auto.
  - cbv zeta. rewrite EC. set (r := map (dist (centre xy im)) xy). f_equal. rewrite !pairs_fst, !pairs_snd.
    assert (ET : take (map (fun v => c * v) im) (argsort r) = map (fun v => c * v) (take im (argsort r))).
    { unfold take. rewrite map_map. apply map_ext. intros i. rewrite <- (Rmult_0_r c) at 1. apply (map_nth (fun v => c * v)). }
    rewrite ET. f_equal. replace 0 with (c * 0) at 1 by ring. rewrite cumsum_scale, map_map. apply map_ext. intros v. field. auto.
Qed.
Print Assumptions C69_units.
Theorem C69_place : forall argsort xy im a b, List.length im = List.length xy ->
  half_radius argsort (map (fun p => (fst p + a, snd p + b)) xy) im = half_radius argsort xy im.
Proof.
  intros argsort xy im a b L. rewrite !half_closed by (rewrite ?map_length; exact L). destruct (Req_EM_T (sum_list im) 0) as [|N]; [reflexivity|]. cbv zeta.
  assert (E : map (dist (centre (map (fun p => (fst p + a, snd p + b)) xy) im)) (map (fun p => (fst p + a, snd p + b)) xy) = map (dist (centre xy im)) xy).
  { rewrite map_map. apply map_ext. intros p. unfold dist. cbn [fst snd].
    assert (G : forall f, light (map (fun p => (fst p + a, snd p + b)) xy) im f = light xy im (fun p => f (fst p + a, snd p + b))).
    { intros f. rewrite !light_sum, combine_map_l, sumR_map. reflexivity. }
    assert (T : light xy im (fun _ => 1) = sum_list im) by now apply light_total.
    assert (Gx : light xy im (fun p => fst p + a) = light xy im fst + a * sum_list im).
    { rewrite <- T, !light_sum, <- sumR_scal, <- sumR_plus. apply sumR_ext. intros; ring. }
    assert (Gy : light xy im (fun p => snd p + b) = light xy im snd + b * sum_list im).
    { rewrite <- T, !light_sum, <- sumR_scal, <- sumR_plus. apply sumR_ext. intros; ring. }
    unfold centre. cbn [fst snd]. rewrite !G. cbn [fst snd]. rewrite Gx, Gy, T.
    replace (fst p + a - (light xy im fst + a * sum_list im) / sum_list im) with (fst p - light xy im fst / sum_list im) by (field; auto).
    replace (snd p + b - (light xy im snd + b * sum_list im) / sum_list im) with (snd p - light xy im snd / sum_list im) by (field; auto). reflexivity. }
  rewrite E. reflexivity.
Qed.
Print Assumptions C69_place.

(** ** Rendering *)
Section Rendering.
Context (radii : list R) (amps dan dar : R -> R -> list R).
Notation gal := (galaxy radii amps dan dar).
Notation model := (forcepho_slow_model radii amps dan dar).

Lemma map_combine_self {A} (f : A -> R) (g : A -> R) l : map (fun p => fst p + snd p) (combine (map f l) (map g l)) = map (fun a => f a + g a) l.
Proof. induction l as [|a l IH]; cbn; [reflexivity|]. now rewrite IH. Qed.
Lemma render_all_sum cv band : forall cat f, cv_filter cv = band \/ cat = [] -> Forall (fun row => gal row band <> None) cat ->
  exists scene, render_all radii amps dan dar cv band cat (map f (grid (cv_nx cv) (cv_ny cv))) =
    Some (map (fun p => f p + sumR (fun g => fst (slow_render g (cv_stamp cv) (fst p) (snd p))) scene) (grid (cv_nx cv) (cv_ny cv)), scene) /\
    Forall2 (fun row g => gal row band = Some g) cat scene.
Proof.
  induction cat as [|row cat IH]; intros f Hb Hg; cbn [render_all].
  - exists []. split; [|constructor]. do 2 f_equal. apply map_ext. intros p. rewrite sumR_nil. ring.
  - inversion Hg as [|? ? G1 G2]; subst. destruct (gal row band) as [g|] eqn:Eg; [|congruence]. destruct Hb as [Hb|]; [|discriminate].
    unfold render. rewrite Hb, String.eqb_refl. rewrite map_combine_self.
    destruct (IH (fun p => f p + fst (slow_render g (cv_stamp cv) (fst p) (snd p))) (or_introl Hb) G2) as (scene & -> & F2).
    exists (g :: scene). split; [|constructor; auto]. do 2 f_equal. apply map_ext. intros p. rewrite sumR_cons. ring.
Qed.
Lemma grid_length nx ny : List.length (grid nx ny) = (nx * ny)%nat.
Proof.
  unfold grid. enough (G : forall s, List.length (flat_map (fun i => map (fun j => (INR i, INR j)) (seq 0 ny)) (seq s nx)) = (nx * ny)%nat) by apply G.
  induction nx as [|n IH]; intros s; [reflexivity|]. cbn [seq flat_map]. rewrite app_length, map_length, seq_length, IH. lia.
Qed.
Lemma repeat_map {A} (l : list A) : repeat 0 (List.length l) = map (fun _ => 0) l.
Proof. induction l; cbn; congruence. Qed.

(** The image is the sum of the sources of the catalog, in the order of the grid. *)
Theorem C69_image : forall cat cv band psf, cv_filter cv = band \/ cat = [] -> Forall (fun row => exists v, In (band, v) (f_flux row)) cat ->
  exists scene, fst (model cat cv band psf) =
    Some (map (fun p => sumR (fun g => fst (slow_render g (with_psf (cv_stamp cv) (match psf with Some f => f | None => plain_psf end)) (fst p) (snd p))) scene) (grid (cv_nx cv) (cv_ny cv)), scene) /\
    Forall2 (fun row g => (ss_ra g, ss_dec g, ss_q g, ss_pa g) = (f_ra row, f_dec row, f_q row, f_pa row) /\ In (band, ss_flux g) (f_flux row) /\
      ss_amplitudes g = amps (f_sersic row) (f_rhalf row) /\ ss_radii g = radii) cat scene.
Proof.
  intros cat cv band psf Hb Hf. unfold forcepho_slow_model. cbv zeta. cbn [fst cv_nx cv_ny set_psf].
  assert (Hg : Forall (fun row => gal row band <> None) cat).
  { eapply Forall_impl; [|exact Hf]. intros row (v & Hv). unfold galaxy. destruct (find _ _) as [[n w]|] eqn:E; [discriminate|].
    intros _. pose proof (find_none _ _ E _ Hv) as N. cbn in N. rewrite String.eqb_refl in N. discriminate. }
  rewrite <- (grid_length (cv_nx cv) (cv_ny cv)), repeat_map.
  set (cv' := mkCanvas (cv_nx cv) (cv_ny cv) (cv_filter cv) (with_psf (cv_stamp cv) match psf with Some p => p | None => plain_psf end)).
  destruct (render_all_sum cv' band cat (fun _ => 0) Hb Hg) as (scene & E & F2). exists scene. split.
  - etransitivity; [exact E|]. do 2 f_equal. apply map_ext. intros p. rewrite Rplus_0_l. reflexivity.
  - clear - F2. induction F2 as [|row g cat scene H F2 IH]; constructor; auto. unfold galaxy in H. destruct (find _ _) as [[n w]|] eqn:E; [|discriminate].
    injection H as <-. apply find_some in E as (E1 & E2). cbn in E2. apply String.eqb_eq in E2. subst n. cbn. auto.
Qed.

(** A stamp of another band cannot be used, whatever the catalog has for the band asked for. *)
Theorem C69_band_refuted : forall row cat cv band psf, cv_filter cv <> band -> fst (model (row :: cat) cv band psf) = None.
Proof.
  intros row cat cv band psf H. unfold forcepho_slow_model. cbv zeta. cbn [fst render_all]. destruct (galaxy _ _ _ _ row band) as [g|]; [|reflexivity].
  unfold render. cbn [cv_filter set_psf]. apply String.eqb_neq in H. now rewrite H.
Qed.
(** The stamp does not keep its PSF, whether or not there is an answer. *)
Theorem C69_stamp_refuted : forall cat cv band psf,
  st_psf (cv_stamp (snd (model cat cv band psf))) = (match psf with Some p => p | None => [(1, (0, 0), M22 1 0 0 1)] end) /\
  (st_psf (cv_stamp cv) <> st_psf (cv_stamp (snd (model cat cv band psf))) -> snd (model cat cv band psf) <> cv).
Proof. intros cat cv band psf. split; [reflexivity|]. intros H E. apply H. now rewrite E. Qed.

(** With the plain PSF nothing is negative. *)
Lemma plain_gaussian s st r am : 0 <= ss_flux s * photocounts st * am -> forall jac x y,
  let g := slow_gaussian s st r am (1, (0, 0), M22 1 0 0 1) in
  0 <= fst (compute_gaussian (mkSG (g_amp g) (g_xcen g) (g_ycen g) (g_fxx g) (g_fxy g) (g_fyy g) jac) x y).
Proof.
  intros Ha jac x y g. unfold compute_gaussian. cbn [fst g_amp g_xcen g_ycen g_fxx g_fxy g_fyy].
  set (T := slow_T s st).
  set (s11 := (r ^ 2) * (v11 T ^ 2 + v12 T ^ 2)). set (s22 := (r ^ 2) * (v21 T ^ 2 + v22 T ^ 2)). set (b := (r ^ 2) * (v11 T * v21 T + v12 T * v22 T)).
  assert (P11 : 0 <= s11) by (unfold s11; apply Rmult_le_pos; nra). assert (P22 : 0 <= s22) by (unfold s22; apply Rmult_le_pos; nra).
  assert (Det : 0 <= s11 * s22 - b ^ 2). { unfold s11, s22, b. replace (r ^ 2 * (v11 T ^ 2 + v12 T ^ 2) * (r ^ 2 * (v21 T ^ 2 + v22 T ^ 2)) - (r ^ 2 * (v11 T * v21 T + v12 T * v22 T)) ^ 2) with ((r ^ 2 * (v11 T * v22 T - v12 T * v21 T)) ^ 2) by ring. apply pow2_ge_0. }
  set (d := (1 + s11) * (1 + s22) - b ^ 2). assert (D1 : 1 + s11 + s22 <= d) by (unfold d; lra). assert (D0 : 0 < d) by lra.
  assert (Fx : g_fxx g = (1 + s22) / d /\ g_fyy g = (1 + s11) / d).
  { unfold g, slow_gaussian. cbv zeta. fold T. unfold matmul_matmul, dot2, covariance, transpose, mplus, fast_inv. cbn [v11 v12 v21 v22 g_fxx g_fyy].
    split; f_equal; unfold d, s11, s22, b; ring. }
  destruct Fx as [Fx Fy].
  assert (Tr : g_fxx g + g_fyy g <= 2).
  { rewrite Fx, Fy. apply (Rmult_le_reg_r d); [lra|]. replace (((1 + s22) / d + (1 + s11) / d) * d) with (2 + s11 + s22) by (field; lra). lra. }
  assert (Am : 0 <= g_amp g).
  { unfold g, slow_gaussian. cbv zeta. cbn [g_amp]. unfold Rdiv. apply Rmult_le_pos; [apply Rmult_le_pos; [lra|apply sqrt_pos]|].
    apply Rlt_le, Rinv_0_lt_compat. pose proof PI_RGT_0. lra. }
  set (G := exp _). assert (HG : 0 < G) by apply exp_pos.
  match goal with |- 0 <= _ * _ * ?h * _ => assert (HH : 0 <= h) end.
  { match goal with |- 0 <= 1 + (?u * ?u + ?v * ?v - _ - _) / 24 => pose proof (Rle_0_sqr u) as Q1; pose proof (Rle_0_sqr v) as Q2; unfold Rsqr in Q1, Q2; lra end. }
  rewrite Rmult_1_r. apply Rmult_le_pos; [|exact HH]. apply Rmult_le_pos; [exact Am|lra].
Qed.
Lemma gig_sum gs x y : fst (compute_gig gs x y) = sumR (fun g => fst (compute_gaussian g x y)) gs.
Proof.
  unfold compute_gig. assert (G : forall acc, fst (fold_left (fun acc g => let out := compute_gaussian g x y in (fst acc + fst out, row_add (snd acc) (matvec (derivs g) (snd out)))) gs acc) = fst acc + sumR (fun g => fst (compute_gaussian g x y)) gs).
  { induction gs as [|g gs IH]; intros acc; cbn [fold_left]; [rewrite sumR_nil; ring|]. rewrite IH, sumR_cons. cbn [fst]. ring. }
  rewrite G. cbn. ring.
Qed.
Theorem C69_positive : forall s st x y, 0 <= ss_flux s * photocounts st -> Forall (fun a => 0 <= a) (ss_amplitudes s) ->
  0 <= fst (slow_render s (with_psf st plain_psf) x y).
Proof.
  intros s st x y Hf Ha. unfold slow_render. rewrite gig_sum. apply sum_nonneg. apply Forall_forall. intros g Hg.
  unfold convert_to_gaussians in Hg. apply in_flat_map in Hg as ([[[r am] dn] dr] & Hc & Hg). cbn [st_psf with_psf plain_psf map] in Hg. destruct Hg as [<-|[]].
  apply plain_gaussian. cbn [photocounts with_psf]. unfold slow_components in Hc. apply in_combine_l in Hc. apply in_combine_l in Hc. apply in_combine_r in Hc.
  rewrite Forall_forall in Ha. specialize (Ha am Hc). now apply Rmult_le_pos.
Qed.

(** ** The radii of a chain *)
Lemma set_psf_again cv : set_psf (set_psf cv None) None = set_psf cv None.
Proof. reflexivity. Qed.
Lemma model_set cat cv band : model cat (set_psf cv None) band None = model cat cv band None.
Proof. unfold forcepho_slow_model. cbv zeta. now rewrite set_psf_again. Qed.
Lemma loop_spec argsort samples band sources : forall inds cv out cv', rhalf_loop radii amps dan dar argsort samples cv band sources inds = (Some out, cv') ->
  List.length out = List.length inds /\ forall k i o, nth_error inds k = Some i -> nth_error out k = Some o ->
    exists cat im scene, nth_error samples i = Some cat /\ fst (model (sources cat) cv band None) = Some (im, scene) /\ o = half_radius argsort (grid (cv_nx cv) (cv_ny cv)) im.
Proof.
  induction inds as [|i inds IH]; intros cv out cv' H; cbn [rhalf_loop] in H.
  - injection H as <- _. split; [reflexivity|]. intros [|k]; discriminate.
  - destruct (nth_error samples i) as [cat|] eqn:Ec; [|discriminate].
    destruct (model (sources cat) cv band None) as [ans cv1] eqn:Em. destruct ans as [[im scene]|]; [|discriminate].
    assert (E1 : cv1 = set_psf cv None) by (unfold forcepho_slow_model in Em; congruence). subst cv1.
    destruct (rhalf_loop _ _ _ _ _ _ _ _ _ inds) as [rest cv2] eqn:Er. destruct rest as [rest|]; [|discriminate]. cbn in H. injection H as <- _.
    destruct (IH _ _ _ Er) as (L & N). split; [cbn; lia|]. intros [|k] j o Hj Ho.
    + injection Hj as <-. injection Ho as <-. exists cat, im, scene. rewrite Em. auto.
    + destruct (N k j o Hj Ho) as (cat' & im' & scene' & A & B & C). rewrite model_set in B. exists cat', im', scene'. auto.
Qed.
Lemma range_spec start stop step : (0 < step)%nat -> (start <= stop)%nat -> forall k, (nth_error (range start stop step) k = Some (start + k * step)%nat /\ (start + k * step < stop)%nat) \/
  (nth_error (range start stop step) k = None /\ (stop <= start + k * step)%nat).
Proof.
  intros Hs Hle k. unfold range. set (n := ((stop - start + (step - 1)) / step)%nat).
  assert (D := Nat.div_mod (stop - start + (step - 1)) step ltac:(lia)). assert (M := Nat.mod_upper_bound (stop - start + (step - 1)) step ltac:(lia)). fold n in D.
  rewrite nth_error_map. destruct (Nat.lt_ge_cases k n) as [C|C].
  - left. split; [|nia]. assert (E : nth_error (seq 0 n) k = Some k). { rewrite (nth_error_nth' _ O) by (rewrite seq_length; exact C). now rewrite seq_nth. } rewrite E. reflexivity.
  - right. split; [|nia]. assert (E : nth_error (seq 0 n) k = None) by (apply nth_error_None; rewrite seq_length; exact C). now rewrite E.
Qed.
(** One radius for every [step]th of the kept samples, the first kept one included, each that
    of the image of the selected sources at that sample. *)
Theorem C69_radii : forall argsort samples n_sample cv band sources step out cv', (n_sample <= List.length samples)%nat ->
  combined_rhalf radii amps dan dar argsort samples n_sample cv band sources step = (Some out, cv') ->
  forall k, let i := (List.length samples - n_sample + k * step)%nat in
    ((i < List.length samples)%nat <-> (k < List.length out)%nat) /\
    forall o, nth_error out k = Some o -> exists cat im scene, nth_error samples i = Some cat /\
      fst (model (sources cat) cv band None) = Some (im, scene) /\ o = half_radius argsort (grid (cv_nx cv) (cv_ny cv)) im.
Proof.
  intros argsort samples n_sample cv band sources step out cv' Hn H k i. unfold combined_rhalf in H. destruct step as [|step']; [discriminate|]. set (step := S step') in *.
  destruct (loop_spec _ _ _ _ _ _ _ _ H) as (L & N).
  destruct (range_spec (List.length samples - n_sample) (List.length samples) step ltac:(unfold step; lia) ltac:(lia) k) as [[E B]|[E B]]; fold i in E, B.
  - assert (K : (k < List.length out)%nat). { rewrite L. apply nth_error_Some. rewrite E. discriminate. } split; [tauto|]. intros o Ho. exact (N k i o E Ho).
  - assert (K : ~ (k < List.length out)%nat). { rewrite L. intros C. apply nth_error_Some in C. congruence. } split; [lia|]. intros o Ho. exfalso. apply K. apply nth_error_Some. congruence.
Qed.

Lemma render_all_galaxies cv band : forall l im0 im scene, render_all radii amps dan dar cv band l im0 = Some (im, scene) -> Forall (fun row => gal row band <> None) l.
Proof.
  induction l as [|row l IH]; intros im0 im scene H; constructor; cbn [render_all] in H.
  - destruct (gal row band); discriminate.
  - destruct (gal row band); [|discriminate]. destruct (render _ _ _); [|discriminate]. destruct (render_all _ _ _ _ _ _ _ _) as [[? ?]|] eqn:E; [|discriminate]. eapply IH. exact E.
Qed.
(** From the chain to the radius: for sources of no negative flux and amplitudes, every
    radius reported holds half of the light of the rendered sample. *)
Theorem C69_chain_half : forall argsort samples n_sample cv band sources step out cv' k rho, (n_sample <= List.length samples)%nat ->
  combined_rhalf radii amps dan dar argsort samples n_sample cv band sources step = (Some out, cv') -> nth_error out k = Some (Some rho) ->
  (forall r, argsorts argsort r) -> 0 <= photocounts (cv_stamp cv) -> (forall n r, Forall (fun a => 0 <= a) (amps n r)) ->
  (forall cat row v, In cat samples -> In row (sources cat) -> In (band, v) (f_flux row) -> 0 <= v) ->
  exists im scene, let xy := grid (cv_nx cv) (cv_ny cv) in
    im = map (fun p => sumR (fun g => fst (slow_render g (with_psf (cv_stamp cv) plain_psf) (fst p) (snd p))) scene) xy /\
    light_inside xy im rho <= light xy im (fun _ => 1) / 2 /\
    exists p, In p xy /\ rho <= dist (centre xy im) p /\ light xy im (fun _ => 1) / 2 < light_within xy im (dist (centre xy im) p) /\
      forall o, In o xy -> ~ (rho < dist (centre xy im) o < dist (centre xy im) p).
Proof.
  intros argsort samples n_sample cv band sources step out cv' k rho Hn H Hk HS Hp Ha Hf.
  destruct (C69_radii _ _ _ _ _ _ _ _ _ Hn H k) as (_ & N). cbv zeta in N. destruct (N _ Hk) as (cat & im & scene & Hc & Hm & Ho). clear N.
  assert (Hin : In cat samples) by (eapply nth_error_In; exact Hc).
  assert (Rend : render_all radii amps dan dar (set_psf cv None) band (sources cat) (repeat 0 (cv_nx cv * cv_ny cv)) = Some (im, scene)) by exact Hm.
  assert (Hb : cv_filter (set_psf cv None) = band \/ sources cat = []).
  { destruct (sources cat) as [|row l] eqn:E; [auto|]. left. destruct (string_dec (cv_filter cv) band) as [|D]; [auto|]. rewrite (C69_band_refuted row l cv band None D) in Hm. discriminate. }
  assert (Hg : Forall (fun row => gal row band <> None) (sources cat)).
  { eapply render_all_galaxies. exact Rend. }
  rewrite <- (grid_length (cv_nx cv) (cv_ny cv)), repeat_map in Rend.
  destruct (render_all_sum (set_psf cv None) band (sources cat) (fun _ => 0) Hb Hg) as (scene' & E & F2). cbn [cv_nx cv_ny set_psf] in E. rewrite E in Rend.
  injection Rend as Ei Es. subst scene'. exists im, scene. set (xy := grid (cv_nx cv) (cv_ny cv)) in *. cbv zeta.
  assert (Eim : im = map (fun p => sumR (fun g => fst (slow_render g (with_psf (cv_stamp cv) plain_psf) (fst p) (snd p))) scene) xy).
  { rewrite <- Ei. apply map_ext. intros p. rewrite Rplus_0_l. reflexivity. }
  split; [exact Eim|].
  assert (Lim : List.length im = List.length xy) by (rewrite Eim, map_length; reflexivity).
  assert (Pos : Forall (fun v => 0 <= v) im).
  { rewrite Eim. apply Forall_forall. intros v Hv. apply in_map_iff in Hv as (p & <- & _). apply sum_nonneg. clear - F2 Hf Hp Ha Hin.
    assert (Hf' : forall row v, In row (sources cat) -> In (band, v) (f_flux row) -> 0 <= v) by (intros row v; apply Hf; auto). clear Hf.
    induction F2 as [|row g l sc G F2 IH]; constructor.
    - unfold galaxy in G. destruct (find _ _) as [[n w]|] eqn:Ef; [|discriminate]. apply find_some in Ef as (Ef & En). cbn in En. apply String.eqb_eq in En. subst n.
      injection G as <-. apply C69_positive; cbn [ss_flux ss_amplitudes]; [|apply Ha]. apply Rmult_le_pos; [|exact Hp]. apply (Hf' row w); cbn; auto.
    - apply IH. intros row' v' Hi. apply Hf'. cbn; auto. }
  destruct (C69_half argsort xy im rho Lim Pos (HS _) (eq_sym Ho)) as (A & p & p' & B1 & _ & B2 & B3 & B4).
  split; [exact A|]. exists p. split; [exact B1|]. split; [lra|]. split; [exact B3|exact B4].
Qed.
End Rendering.
Print Assumptions C69_image.
Print Assumptions C69_band_refuted.
Print Assumptions C69_stamp_refuted.
Print Assumptions C69_positive.
Print Assumptions C69_radii.
Print Assumptions C69_chain_half.
