(** C62: model images. *)
From Coq Require Import Reals Arith List Bool Lia Lra ZArith.
From Verif Require Import Np NpFacts ChainFacts KernelModel KernelSum SlowModel SceneModel PlanModel PlanFacts StampModel StampProps StampImage.
Import ListNotations.
Open Scope R_scope.

Lemma combine_flat_map {A B C} (f : A -> list B) (g : A -> list C) l : (forall a, List.length (f a) = List.length (g a)) ->
  combine (flat_map f l) (flat_map g l) = flat_map (fun a => combine (f a) (g a)) l.
Proof.
  intros H. induction l as [|a l IH]; [reflexivity|]. cbn [flat_map]. rewrite <- IH. clear IH. specialize (H a). revert H. generalize (f a) (g a).
  induction l0 as [|x l0 IH]; intros [|y l1] H; cbn in H; try discriminate; [reflexivity|]. cbn. f_equal. apply IH. now injection H.
Qed.
Lemma pixels_closed nx ny : stamp_pixels nx ny = flat_map (fun i => map (fun j => mkPix (INR i) (INR j) 0 0) (seq 0 ny)) (seq 0 nx).
Proof.
  unfold stamp_pixels, xpix, ypix, grid, meshgrid, flat. cbn [fst snd]. rewrite <- !flat_map_concat_map.
  rewrite combine_flat_map by (intros; now rewrite map_length). rewrite !flat_map_concat_map, concat_map, map_map. f_equal. apply map_ext. intros i.
  generalize (seq 0 ny). induction l as [|j l IH]; [reflexivity|]. cbn. now rewrite IH.
Qed.
Lemma pixels_length nx ny : List.length (stamp_pixels nx ny) = (nx * ny)%nat.
Proof.
  unfold stamp_pixels. destruct (C62_grid nx ny (map (fun _ => map (fun _ => 0) (seq 0 ny)) (seq 0 nx))) as (L1 & L2 & _).
  { split; [now rewrite map_length, seq_length|]. intros row H. apply in_map_iff in H. destruct H as (i & <- & _). now rewrite map_length, seq_length. }
  rewrite map_length, combine_length, L1, L2. apply Nat.min_id.
Qed.
Lemma pixels_nth nx ny i j : (i < nx)%nat -> (j < ny)%nat -> nth_error (stamp_pixels nx ny) (i * ny + j) = Some (mkPix (INR i) (INR j) 0 0).
Proof.
  intros Hi Hj. rewrite pixels_closed, flat_map_concat_map. change (@concat spixel) with (@flat spixel). rewrite (flat_nth ny) by (assumption || (intros row H; apply in_map_iff in H; destruct H as (k & <- & _); now rewrite map_length, seq_length)).
  unfold entry. rewrite nth_error_map, (nth_error_nth' (seq 0 nx) 0%nat), seq_nth by (rewrite ?seq_length; lia). cbn [option_map Nat.add].
  rewrite nth_error_map, (nth_error_nth' (seq 0 ny) 0%nat), seq_nth by (rewrite ?seq_length; lia). reflexivity.
Qed.
Lemma rows_app {A} lo hi (a b : list A) : exists lo' hi', rows lo hi (a ++ b) = rows lo hi a ++ rows lo' hi' b.
Proof.
  unfold rows. rewrite skipn_app, firstn_app. exists (lo - List.length a)%nat, (lo - List.length a + (hi - lo - List.length (skipn lo a)))%nat. do 2 f_equal. lia.
Qed.
Lemma rows_map {A B} (f : A -> B) lo hi l : rows lo hi (map f l) = map f (rows lo hi l).
Proof. unfold rows. now rewrite skipn_map, firstn_map. Qed.
Lemma rows_all {A} hi (l : list A) : (List.length l <= hi)%nat -> rows 0 hi l = l.
Proof. intros H. unfold rows. cbn [skipn]. apply firstn_all2. lia. Qed.
Lemma sum_at px active fixed lo hi k q : nth_error px k = Some q ->
  total (map (fun row => nth k row 0) (rows lo hi (residuals px active fixed))) = - sumR (fun gs => fst (at_pixel gs q)) (rows lo hi active).
Proof.
  intros Hk. unfold residuals.
  destruct (rows_app lo hi (map (fun gs => map (work_residual gs) px) active) (map (fun _ : gig => map (fun _ => 0) px) fixed)) as (lo' & hi' & ->).
  rewrite !rows_map, map_app, !map_map, total_app.
  rewrite (map_ext (fun x : gig => nth k (map (fun _ => 0) px) 0) (fun _ => 0)) by (intros; clear; revert k; induction px as [|a px IH]; intros [|k]; cbn; auto).
  rewrite total_zeros, total_sumR.
  rewrite (sumR_ext _ (fun gs => -1 * fst (at_pixel gs q))).
  - rewrite sumR_scal. ring.
  - intros gs _. rewrite (nth_error_nth (map (work_residual gs) px) k 0 (x := work_residual gs q)) by (now rewrite nth_error_map, Hk). rewrite work_residual_closed. ring.
Qed.
Lemma sum_rows_nth n m k : (k < n)%nat -> nth_error (sum_rows n m) k = Some (total (map (fun row => nth k row 0) m)).
Proof. intros H. unfold sum_rows. rewrite nth_error_map, (nth_error_nth' (seq 0 n) 0%nat), seq_nth by (rewrite ?seq_length; lia). reflexivity. Qed.

(** The image of any selection of the planned sources *)
Lemma image_at nx ny active fixed gi lo hi im grad : make_image nx ny active fixed gi lo hi = Some (im, grad) ->
  shaped nx ny im /\ forall i j, (i < nx)%nat -> (j < ny)%nat ->
    entry im i j = Some (sumR (fun gs => fst (compute_gig gs (INR i) (INR j))) (rows lo hi active)).
Proof.
  intros H. unfold make_image in H.
  set (v := map Ropp (sum_rows (nx * ny) (rows lo hi (residuals (stamp_pixels nx ny) active fixed)))) in *.
  assert (L : List.length v = (nx * ny)%nat) by (unfold v, sum_rows; now rewrite !map_length, seq_length).
  destruct (reshape_spec nx ny v L) as (m & Em & Sm & Nm). rewrite Em in H.
  destruct (mapM _ gi) as [g|]; [|discriminate]. injection H as <- <-. split; [assumption|]. intros i j Hi Hj. rewrite Nm by assumption.
  unfold v. rewrite nth_error_map, sum_rows_nth by nia. cbn [option_map]. f_equal.
  rewrite (sum_at _ _ _ _ _ _ _ (pixels_nth nx ny i j Hi Hj)). apply Ropp_involutive.
Qed.

Section Scene.
Context (gal_radii : list R) (amps dan dar : R -> R -> list R) (simple_radii : list R) (qf paf : R -> R -> R).
Notation slow_of := (slow_of gal_radii amps dan dar simple_radii qf paf).
Notation plan_sources := (plan_sources gal_radii amps dan dar simple_radii qf paf).
Notation plan_loop := (plan_loop gal_radii amps dan dar simple_radii qf paf).
Notation scene_image := (scene_image gal_radii amps dan dar simple_radii qf paf).

(** Sources that count as active and as fixed on the stamp *)
Definition is_active (p : plan) (s : source R) : bool := (1 <? coverage p s)%Z.
Definition is_fixed (p : plan) (s : source R) : bool := (coverage p s =? 1)%Z.
Fixpoint indices (i : nat) (l : list (source R)) : list nat := match l with [] => [] | s :: l => grad_indices i s ++ indices (S i) l end.
Lemma loop_closed p scene : forall rest j i act fx ti gi, plan_loop p scene j i rest = Some (act, fx, ti, gi) ->
  exists ss, List.Forall2 (fun s x => slow_of s (pl_filter p) = Some x) (filter (is_active p) rest) ss /\ act = map (fun x => convert_to_gaussians x (pl_stamp p)) ss /\
    gi = indices i (filter (is_active p) rest) /\ List.length fx = List.length (filter (is_fixed p) rest).
Proof.
  induction rest as [|s rest IH]; intros j i act fx ti gi H; cbn [PlanModel.plan_loop] in H.
  - injection H as <- <- _ <-. exists []. repeat split. constructor.
  - cbn [filter]. destruct (Z.leb_spec (coverage p s) 0) as [C|C].
    + assert (A : is_active p s = false) by (unfold is_active; apply Z.ltb_ge; lia). assert (X : is_fixed p s = false) by (unfold is_fixed; apply Z.eqb_neq; lia). rewrite A, X. now apply (IH _ _ _ _ _ _ H).
    + destruct (slow_of s (pl_filter p)) as [x|] eqn:Ex; [|discriminate]. destruct (Z.eqb_spec (coverage p s) 1) as [C1|C1].
      * assert (A : is_active p s = false) by (unfold is_active; apply Z.ltb_ge; lia). assert (X : is_fixed p s = true) by (unfold is_fixed; apply Z.eqb_eq; lia). rewrite A, X. destruct (plan_loop p scene (S j) i rest) as [[[[a f] t] g]|] eqn:E; [|discriminate]. injection H as <- <- <- <-.
        destruct (IH _ _ _ _ _ _ E) as (ss & F & Ea & Eg & Lf). exists ss. repeat split; auto. cbn [List.length]. now rewrite Lf.
      * assert (A : is_active p s = true) by (unfold is_active; apply Z.ltb_lt; lia). assert (X : is_fixed p s = false) by (unfold is_fixed; apply Z.eqb_neq; lia). rewrite A, X. destruct (param_indices scene j (pl_filter p)); [|discriminate].
        destruct (plan_loop p scene (S j) (S i) rest) as [[[[a f] t] g]|] eqn:E; [|discriminate]. injection H as <- <- _ <-.
        destruct (IH _ _ _ _ _ _ E) as (ss & F & Ea & Eg & Lf). exists (x :: ss). split; [now constructor|]. split; [cbn [map]; now rewrite Ea|]. split; [cbn [indices]; now rewrite Eg|assumption].
Qed.
Lemma sources_closed p scene act fx ti gi : plan_sources p scene = Some (act, fx, ti, gi) ->
  exists ss, List.Forall2 (fun s x => slow_of s (pl_filter p) = Some x) (filter (is_active p) scene) ss /\ act = map (fun x => convert_to_gaussians x (pl_stamp p)) ss /\
    gi = indices 0 (filter (is_active p) scene) /\ List.length fx = List.length (filter (is_fixed p) scene).
Proof.
  unfold PlanModel.plan_sources. destruct (plan_loop p scene 0 0 scene) as [[[[a f] t] g]|] eqn:E; [|discriminate]. destruct (nodupb t); [|discriminate].
  intros H. injection H as <- <- <- <-. exact (loop_closed p scene _ _ _ _ _ _ _ E).
Qed.
Lemma forall2_len {A B} (P : A -> B -> Prop) l m : List.Forall2 P l m -> List.length l = List.length m.
Proof. induction 1; cbn; auto. Qed.
Lemma grad_len i s : grad_indices i s = seq (i * 7) (3 + nshape (s_kind s)).
Proof. unfold grad_indices, NDERIV, npos. generalize (i * 7)%nat. intros n. destruct (s_kind s); reflexivity. Qed.
Lemma nshape_le k : (3 + nshape k <= 7)%nat. Proof. destruct k; cbn; lia. Qed.
Lemma mapM_app {A B} (f : A -> option B) a b : mapM f (a ++ b) = match mapM f a, mapM f b with Some x, Some y => Some (x ++ y) | _, _ => None end.
Proof.
  induction a as [|x a IH]; cbn [mapM app]; [now destruct (mapM f b)|]. destruct (f x); [|reflexivity]. rewrite IH. destruct (mapM f a); [|reflexivity]. now destruct (mapM f b).
Qed.
(** Rows of the gradients of the active sources, in flat order of the pixels *)
Definition source_rows (nx ny : nat) (st : stamp) (s : source R) (x : slow_source) : list (list R) :=
  map (fun k => flat_map (fun i => map (fun j => nth k (snd (slow_render x st (INR i) (INR j))) 0) (seq 0 ny)) (seq 0 nx)) (seq 0 (3 + nshape (s_kind s))).
Lemma row_closed nx ny st x k : map (fun q => nth k (work_gradients (convert_to_gaussians x st) q) 0) (stamp_pixels nx ny)
  = flat_map (fun i => map (fun j => nth k (snd (slow_render x st (INR i) (INR j))) 0) (seq 0 ny)) (seq 0 nx).
Proof.
  rewrite pixels_closed, !flat_map_concat_map, concat_map, map_map. f_equal. apply map_ext. intros i. rewrite map_map. apply map_ext. intros j.
  rewrite work_gradients_closed. reflexivity.
Qed.
Lemma gradient_closed nx ny st : forall act ss pre, List.length act = List.length ss ->
  mapM (nth_error (gradient_rows (stamp_pixels nx ny) (pre ++ map (fun x => convert_to_gaussians x st) ss))) (indices (List.length pre) act)
  = Some (flat_map (fun sx => source_rows nx ny st (fst sx) (snd sx)) (combine act ss)).
Proof.
  induction act as [|s act IH]; intros [|x ss] pre L; cbn in L; try discriminate; [reflexivity|]. cbn [indices map combine flat_map fst snd]. rewrite mapM_app.
  specialize (IH ss (pre ++ [convert_to_gaussians x st]) ltac:(now injection L)). rewrite <- app_assoc, app_length in IH. cbn [app List.length] in IH. rewrite Nat.add_1_r in IH. rewrite IH.
  assert (E : mapM (nth_error (gradient_rows (stamp_pixels nx ny) (pre ++ convert_to_gaussians x st :: map (fun x => convert_to_gaussians x st) ss))) (grad_indices (List.length pre) s)
    = Some (source_rows nx ny st s x)).
  { rewrite grad_len. unfold gradient_rows. rewrite flat_map_app. cbn [flat_map].
    set (B := map (fun k => map (fun q => nth k (work_gradients (convert_to_gaussians x st) q) 0) (stamp_pixels nx ny)) (seq 0 NDERIV)).
    set (P := flat_map _ pre). set (Q := flat_map _ (map _ ss)).
    assert (LP : List.length P = (List.length pre * 7)%nat).
    { unfold P. clear. induction pre as [|g pre IH]; [reflexivity|]. cbn [flat_map List.length]. rewrite app_length, map_length, seq_length, IH. unfold NDERIV. lia. }
    unfold source_rows. pose proof (nshape_le (s_kind s)) as Ln. rewrite <- LP.
    assert (G : forall m k, (k + m <= 7)%nat -> mapM (nth_error (P ++ B ++ Q)) (seq (List.length P + k) m)
        = Some (map (fun k => flat_map (fun i => map (fun j => nth k (snd (slow_render x st (INR i) (INR j))) 0) (seq 0 ny)) (seq 0 nx)) (seq k m))).
    { induction m as [|m IHm]; intros k Hk; [reflexivity|]. cbn [seq mapM map].
      rewrite nth_error_app2, nth_error_app1 by (unfold B; rewrite ?map_length, ?seq_length; unfold NDERIV; lia). replace (List.length P + k - List.length P)%nat with k by lia.
      unfold B at 1. rewrite nth_error_map, (nth_error_nth' (seq 0 NDERIV) 0%nat), seq_nth by (rewrite ?seq_length; unfold NDERIV; lia). cbn [option_map Nat.add]. rewrite row_closed.
      rewrite <- Nat.add_succ_r. rewrite IHm by lia. reflexivity. }
    rewrite <- (Nat.add_0_r (List.length P)) at 1. rewrite (Nat.add_0_r (List.length P)). rewrite <- (G (3 + nshape (s_kind s))%nat 0%nat) by lia. now rewrite Nat.add_0_r. }
  now rewrite E.
Qed.

(** The image with all sources selected is the sum over the active sources of their light at the pixel with
    x = i and y = j, and the gradients are those of each active source, parameter by parameter *)
Theorem C62_image p nx ny scene hi act fx ti gi : plan_sources p scene = Some (act, fx, ti, gi) -> (List.length scene <= hi)%nat ->
  exists im ss, scene_image p nx ny scene 0 hi = Some (im, flat_map (fun sx => source_rows nx ny (pl_stamp p) (fst sx) (snd sx)) (combine (filter (fun s => (1 <? coverage p s)%Z) scene) ss)) /\
    List.Forall2 (fun s x => slow_of s (pl_filter p) = Some x) (filter (fun s => (1 <? coverage p s)%Z) scene) ss /\ shaped nx ny im /\
    forall i j, (i < nx)%nat -> (j < ny)%nat -> entry im i j = Some (sumR (fun x => fst (slow_render x (pl_stamp p) (INR i) (INR j))) ss).
Proof.
  intros H Hh. destruct (sources_closed _ _ _ _ _ _ H) as (ss & F & Ea & Eg & Lf). unfold StampImage.scene_image. rewrite H.
  change (fun s => (1 <? coverage p s)%Z) with (is_active p).
  assert (La : (List.length act <= hi)%nat).
  { rewrite Ea, map_length, <- (forall2_len _ _ _ F). pose proof (filter_length_le (is_active p) scene). lia. }
  set (v := map Ropp (sum_rows (nx * ny) (rows 0 hi (residuals (stamp_pixels nx ny) act fx)))).
  assert (L : List.length v = (nx * ny)%nat) by (unfold v, sum_rows; now rewrite !map_length, seq_length).
  destruct (reshape_spec nx ny v L) as (m & Em & Sm & _).
  assert (K : make_image nx ny act fx gi 0 hi = Some (m, flat_map (fun sx => source_rows nx ny (pl_stamp p) (fst sx) (snd sx)) (combine (filter (is_active p) scene) ss))).
  { unfold make_image. fold v. rewrite Em, (rows_all hi act La), Ea, Eg.
    pose proof (gradient_closed nx ny (pl_stamp p) (filter (is_active p) scene) ss [] (forall2_len _ _ _ F)) as G. cbn [app List.length] in G. now rewrite G. }
  exists m, ss. split; [exact K|]. split; [assumption|]. destruct (image_at _ _ _ _ _ _ _ _ _ K) as [S1 N1]. split; [assumption|]. intros i j Hi Hj. rewrite N1 by assumption.
  rewrite (rows_all hi act La), Ea, sumR_map. reflexivity.
Qed.
(** Fixed sources are left out of the image *)
Theorem C62_fixed_refuted p nx ny scene hi act fx ti gi : plan_sources p scene = Some (act, fx, ti, gi) -> (List.length scene <= hi)%nat ->
  make_image nx ny act fx gi 0 hi = make_image nx ny act [] gi 0 hi.
Proof.
  intros H Hh. unfold make_image.
  assert (E : sum_rows (nx * ny) (rows 0 hi (residuals (stamp_pixels nx ny) act fx)) = sum_rows (nx * ny) (rows 0 hi (residuals (stamp_pixels nx ny) act []))).
  { unfold sum_rows. apply map_ext_in. intros k Hk. apply in_seq in Hk.
    destruct (nth_error (stamp_pixels nx ny) k) as [q|] eqn:E; [|apply nth_error_None in E; rewrite pixels_length in E; lia].
    now rewrite !(sum_at _ _ _ _ _ _ _ E). }
  now rewrite E.
Qed.
(** Selecting fewer than all active sources raises: the indices of the gradients are still those of all *)
Lemma last_index : forall act i s, In (i + List.length act)%nat (map (fun n => n / 7)%nat (indices i (act ++ [s]))).
Proof.
  induction act as [|a act IH]; intros i s; cbn [app indices].
  - rewrite app_nil_r, grad_len. cbn [List.length]. rewrite Nat.add_0_r. apply in_map_iff. exists (i * 7)%nat. split; [now apply Nat.div_mul|]. apply in_seq. lia.
  - rewrite map_app. apply in_or_app. right. cbn [List.length]. rewrite Nat.add_succ_r. apply (IH (S i)).
Qed.
Theorem C62_selection_refuted p nx ny scene lo hi act fx ti gi : plan_sources p scene = Some (act, fx, ti, gi) ->
  (List.length (rows lo hi act) < List.length act)%nat -> scene_image p nx ny scene lo hi = None.
Proof.
  intros H Hl. destruct (sources_closed _ _ _ _ _ _ H) as (ss & F & Ea & Eg & Lf). unfold StampImage.scene_image. rewrite H.
  assert (Ls : List.length (filter (is_active p) scene) = List.length act) by (rewrite Ea, map_length; eapply forall2_len; eauto).
  set (A := filter (is_active p) scene) in *. clearbody A.
  destruct (@exists_last _ A) as (A0 & s & EA); [intros ->; cbn in Ls; lia|]. rewrite EA, app_length in Ls. cbn [List.length] in Ls.
  pose proof (last_index A0 0 s) as I. rewrite <- EA in I. apply in_map_iff in I. destruct I as (n & En & In_). rewrite <- Eg in In_. cbn [Nat.add] in En.
  assert (LG : List.length (gradient_rows (stamp_pixels nx ny) (rows lo hi act)) = (List.length (rows lo hi act) * 7)%nat).
  { unfold gradient_rows. generalize (rows lo hi act). induction l as [|g l IH]; [reflexivity|]. cbn [flat_map List.length]. rewrite app_length, map_length, seq_length, IH. unfold NDERIV. lia. }
  assert (N : nth_error (gradient_rows (stamp_pixels nx ny) (rows lo hi act)) n = None).
  { apply nth_error_None. rewrite LG. pose proof (Nat.mul_div_le n 7 ltac:(lia)). lia. }
  assert (M : mapM (nth_error (gradient_rows (stamp_pixels nx ny) (rows lo hi act))) gi = None).
  { clear - N In_. induction gi as [|a gi IH]; [contradiction|]. cbn [mapM]. destruct In_ as [->|I]; [now rewrite N|]. rewrite (IH I). now destruct (nth_error _ a). }
  unfold make_image. rewrite M. now destruct (reshape _ _ _).
Qed.
End Scene.

(** The image of the work plan is the negative of that image *)
Theorem C62_sign_refuted nx ny active fixed gi lo hi im grad : make_image nx ny active fixed gi lo hi = Some (im, grad) ->
  exists im', plan_image nx ny active fixed lo hi = Some im' /\ shaped nx ny im' /\
    forall i j v, (i < nx)%nat -> (j < ny)%nat -> entry im i j = Some v -> entry im' i j = Some (- v).
Proof.
  intros H. destruct (image_at _ _ _ _ _ _ _ _ _ H) as [_ N]. unfold plan_image.
  set (v := sum_rows (nx * ny) (rows lo hi (residuals (stamp_pixels nx ny) active fixed))).
  assert (L : List.length v = (nx * ny)%nat) by (unfold v, sum_rows; now rewrite !map_length, seq_length).
  destruct (reshape_spec nx ny v L) as (m & Em & Sm & Nm). exists m. split; [assumption|]. split; [assumption|]. intros i j w Hi Hj Hw.
  rewrite N in Hw by assumption. injection Hw as <-. rewrite Nm by assumption. unfold v. rewrite sum_rows_nth by nia.
  rewrite (sum_at _ _ _ _ _ _ _ (pixels_nth nx ny i j Hi Hj)). reflexivity.
Qed.
