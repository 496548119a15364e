(** C62: cases that meet the hypotheses. *)
From Coq Require Import Reals Arith List Bool Lia Lra ZArith.
From Verif Require Import Np NpFacts KernelModel KernelSum SlowModel SceneModel PlanModel PlanProps PlanCase StampModel StampProps StampImage StampShow.
From Verif Require WcsModel.
Import ListNotations.
Open Scope R_scope.

(** A stamp of two by three pixels on the equator, one arcsecond per pixel *)
Definition small : pstamp := mkPs 2 3 [[1; 2; 3]; [4; 5; 6]] [1; 0; 2; 0; 0; 0] WcsModel.eye
  {| WcsModel.dpix_dsky := WcsModel.mscal 3600 WcsModel.eye; WcsModel.s_crval := WcsModel.V 10 0; WcsModel.s_crpix := WcsModel.V 1 1 |}.
Lemma small_made : made small.
Proof. split; [split; [reflexivity|]|reflexivity]. intros row [<-|[<-|[]]]; reflexivity. Qed.
Example small_grid : nth_error (flat (xpix 2 3)) 4 = Some 1%nat /\ nth_error (flat (ypix 2 3)) 4 = Some 1%nat /\ nth_error (flat (ps_values small)) 4 = Some 5.
Proof. destruct (C62_grid 2 3 (ps_values small) (proj1 small_made)) as (_ & _ & _ & H). specialize (H 1%nat 1%nat ltac:(lia) ltac:(lia)). cbn in H |- *. tauto. Qed.
Lemma small_det : WcsModel.det (ps_scale small) <> 0. Proof. cbv [small ps_scale WcsModel.det WcsModel.eye WcsModel.m00 WcsModel.m01 WcsModel.m10 WcsModel.m11]. lra. Qed.
Example small_file : exists f s', to_fits (fun _ _ => 0) small = Some (f, s') /\ entry (f_image f) 2 1 = Some 6 /\
  (exists u, f_uncertainty f = Some u /\ entry u 2 0 = Some (Some (1 / 2)) /\ entry u 1 0 = Some None).
Proof.
  pose proof (proj2 (C62_writable (fun _ _ => 0) small small_made) small_det) as D. destruct (to_fits (fun _ _ => 0) small) as [[f s']|] eqn:E; [|congruence].
  exists f, s'. split; [reflexivity|]. destruct (C62_written _ _ _ _ small_made E) as (_ & I & _ & _ & _ & _ & U & _).
  split; [rewrite (I 1%nat 2%nat) by (cbn; lia); reflexivity|].
  destruct U as (u & Eu & _ & Nu); [exists 1; split; [cbn; auto|lra]|]. exists u. split; [assumption|]. split.
  - apply (Nu 0%nat 2%nat 2); try (cbn; lia); [reflexivity|lra].
  - apply (Nu 0%nat 1%nat 0); try (cbn; lia); reflexivity.
Qed.
Example small_moved : exists f s', to_fits (fun _ _ => 0) small = Some (f, s') /\
  forall sky, WcsModel.v0 sky <> 10 -> WcsModel.stamp_sky_to_pix (ps_astro s') sky <> WcsModel.stamp_sky_to_pix (ps_astro small) sky.
Proof.
  pose proof (proj2 (C62_writable (fun _ _ => 0) small small_made) small_det) as D. destruct (to_fits (fun _ _ => 0) small) as [[f s']|] eqn:E; [|congruence].
  exists f, s'. split; [reflexivity|]. apply (C62_moved_refuted _ _ _ _ E); [reflexivity|reflexivity|].
  destruct (C62_written _ _ _ _ small_made E) as (_ & _ & _ & _ & _ & P & _). pose proof (P (WcsModel.V 1 1)) as P1.
  destruct (h_pc (f_header f)) as [a b c d]. cbv [WcsModel.mv small ps_scale WcsModel.eye WcsModel.mscal WcsModel.m00 WcsModel.m01 WcsModel.m10 WcsModel.m11 WcsModel.v0 WcsModel.v1] in *.
  injection P1 as P1 P2. lra.
Qed.

(** Two stars on a stamp: both in the image, one selected raises *)
Lemma two_planned : exists act fx ti gi, plan_sources [] no_tables no_tables no_tables [] (fun _ _ => 1) (fun _ _ => 0) (a_plan false 2) two_stars = Some (act, fx, ti, gi) /\ List.length act = 2%nat.
Proof.
  match goal with |- context [plan_sources ?a ?b ?c ?d ?e ?f ?g ?p ?s] =>
    let r := eval cbv -[Rplus Rmult Ropp Rminus Rdiv Rinv IZR convert_to_gaussians INR] in (plan_sources a b c d e f g p s) in
    change (plan_sources a b c d e f g p s) with r end.
  do 4 eexists. split; reflexivity.
Qed.
Example two_image : exists im grad, scene_image [] no_tables no_tables no_tables [] (fun _ _ => 1) (fun _ _ => 0) (a_plan false 2) 4 5 two_stars 0 2 = Some (im, grad) /\ shaped 4 5 im.
Proof.
  destruct two_planned as (act & fx & ti & gi & E & _). destruct (C62_image _ _ _ _ _ _ _ (a_plan false 2) 4 5 two_stars 2 act fx ti gi E) as (im & ss & H & _ & S1 & _); [cbn; lia|].
  eauto.
Qed.
Example one_of_two : scene_image [] no_tables no_tables no_tables [] (fun _ _ => 1) (fun _ _ => 0) (a_plan false 2) 4 5 two_stars 1 2 = None.
Proof.
  destruct two_planned as (act & fx & ti & gi & E & L). apply (C62_selection_refuted _ _ _ _ _ _ _ (a_plan false 2) 4 5 two_stars 1 2 act fx ti gi E).
  unfold rows. rewrite firstn_length, skipn_length. lia.
Qed.

Print Assumptions C62_grid. Print Assumptions C62_written. Print Assumptions C62_writable. Print Assumptions C62_moved_refuted. Print Assumptions C62_new_refuted.
Print Assumptions C62_again. Print Assumptions C62_image. Print Assumptions C62_fixed_refuted. Print Assumptions C62_selection_refuted. Print Assumptions C62_sign_refuted.
