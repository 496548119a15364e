(** Concrete cases for C76. *)
From Verif Require Import Np.
From Coq Require Import Reals Lra Lia Psatz.
From Verif Require Import QuantModel ShearModel FrameModel FrameProps.
Import ListNotations.
Open Scope R_scope.

(** A tree that looks at every point *)
Definition all_ball (pts : list (R * R)) (c : R * R) (r : R) : list nat :=
  filter (fun k => match nth_error pts k with Some p => if Rle_dec (flat c p) r then true else false | None => false end) (seq 0 (List.length pts)).
Example all_ball_spec : ball_spec all_ball.
Proof.
  intros pts c r k. unfold all_ball. rewrite filter_In, in_seq. split.
  - intros [_ H]. destruct (nth_error pts k) as [p|]; [|discriminate]. destruct (Rle_dec (flat c p) r); [eauto|discriminate].
  - intros (p & E & L). assert (k < List.length pts)%nat by (apply nth_error_Some; congruence). split; [lia|]. rewrite E. destruct (Rle_dec (flat c p) r); [reflexivity|contradiction].
Qed.
(** Along the equator separations are differences of right ascension *)
Lemma equator a b : Rabs (a - b) <= 180 -> angle (a, 0) (b, 0) = rad (Rabs (a - b)).
Proof.
  intros H. pose proof PI_RGT_0. unfold angle, dot. cbn [fst snd]. replace (rad 0) with 0 by (unfold rad; field). rewrite sin_0, cos_0. replace (0 * 0 + 1 * 1 * cos (rad a - rad b)) with (cos (rad a - rad b)) by ring.
  replace (cos (rad a - rad b)) with (cos (rad (Rabs (a - b)))). { apply acos_cos. unfold rad. pose proof (Rabs_pos (a - b)). split; [apply Rmult_le_pos; nra|nra]. }
  unfold Rabs, rad. destruct (Rcase_abs (a - b)); [rewrite <- cos_neg|]; f_equal; field.
Qed.
(** Three sources on the equator, a tenth of a degree apart: the frame is about the middle one *)
Definition trio := [(10, 0); (101 / 10, 0); (102 / 10, 0)].
Definition trio_frame := (101 / 10, 0).
Lemma trio_median : median (map fst trio) = Some (101 / 10) /\ median (map snd trio) = Some 0.
Proof.
  unfold median, trio. cbn [map fst snd List.length sort insert].
  repeat match goal with |- context [Rle_dec ?a ?b] => destruct (Rle_dec a b) as [?|?]; [|exfalso; lra]; cbn [insert] end.
  change ((3 - 1) / 2)%nat with 1%nat. change (3 / 2)%nat with 1%nat. cbn [nth]. split; f_equal; field.
Qed.
Example trio_ingest : exists s, ingest trio f_init = Some s /\ f_frame s = Some trio_frame /\ f_cat s = trio.
Proof.
  unfold ingest, scene_coordinates, f_init, sky_to_scene. cbn [f_coords f_frame f_tree f_cat]. rewrite sky_coords_valid by (intros p [<-|[<-|[<-|[]]]]; unfold valid; cbn; lra). unfold scene_frame. cbn [f_coords f_frame f_tree f_cat]. rewrite (proj1 trio_median), (proj2 trio_median), sky_coord_valid by (unfold valid; cbn; lra). eexists. split; [reflexivity|]. split; reflexivity.
Qed.
Lemma trio_angle x p : Rabs (x - 101 / 10) <= 1 -> p = (x, 0) \/ In p trio -> angle trio_frame p <= 1 / 10.
Proof.
  intros Hx Hp. pose proof PI_4. pose proof PI_RGT_0. assert (G : forall y, Rabs (y - 101 / 10) <= 1 -> angle trio_frame (y, 0) <= 1 / 10). { intros y Hy. unfold trio_frame. rewrite Rabs_minus_sym in Hy. rewrite equator by lra. unfold rad. pose proof (Rabs_pos (101 / 10 - y)). nra. }
  destruct Hp as [->|[<-|[<-|[<-|[]]]]]; apply G; [exact Hx|..]; unfold Rabs; destruct (Rcase_abs _); lra.
Qed.
(** A search within 400 arcsec of a place 0.05 degrees (180 arcsec) west of the first source finds it and not the last *)
Example trio_search : exists s inds, ingest trio f_init = Some s /\ search all_ball s (995 / 100, 0) 400 = Some (inds, s) /\ In 0%nat inds /\ ~ In 2%nat inds.
Proof.
  destruct trio_ingest as (s & Ei & Ef & _). destruct (C76_search all_ball trio s [] s (995 / 100, 0) 400 (1 / 10) all_ball_spec Ei eq_refl) as (inds & E & A); [unfold valid; cbn; lra|lra| |].
  - intros c p Hc Hp. rewrite Ef in Hc. injection Hc as <-. apply (trio_angle (995 / 100)); [unfold Rabs; destruct (Rcase_abs _); lra|exact Hp].
  - exists s, inds. split; [exact Ei|]. split; [exact E|]. pose proof PI_RGT_0. assert (Ar : forall x, arcsec (rad x) = x * 3600) by (intros x; unfold arcsec, rad; field; lra). split.
    + apply (A 0%nat _ eq_refl). rewrite equator, Ar; unfold Rabs; destruct (Rcase_abs _); lra.
    + intros Hin. apply (A 2%nat _ eq_refl) in Hin. rewrite equator, Ar in Hin; unfold Rabs in *; destruct (Rcase_abs _); lra.
Qed.
(** The second source written back a degree away is not found there *)
Example trio_moved : exists s, ingest trio f_init = Some s /\ forall inds s1, search all_ball (write_back [(1%nat, (111 / 10, 0))] s) (111 / 10, 0) 100 = Some (inds, s1) -> ~ In 1%nat inds.
Proof.
  destruct trio_ingest as (s & Ei & Ef & _). exists s. split; [exact Ei|]. intros inds s1. pose proof PI_RGT_0. assert (Ar : forall x, arcsec (rad x) = x * 3600) by (intros x; unfold arcsec, rad; field; lra).
  apply (C76_moved_refuted all_ball trio s 1 (101 / 10, 0) (111 / 10, 0) 100 (1 / 10) inds s1 all_ball_spec Ei eq_refl); [unfold valid; cbn; lra|lra| |].
  - intros c p Hc Hp. rewrite Ef in Hc. injection Hc as <-. apply (trio_angle (111 / 10)); [unfold Rabs; destruct (Rcase_abs _); lra|exact Hp].
  - rewrite equator, Ar; unfold Rabs; destruct (Rcase_abs _); lra.
Qed.
(** A history: a place is asked for, a source moves, the coordinates are read *)
Example trio_history : exists s s1, ingest trio f_init = Some s /\ run [OpAsk [(10, 1)]; OpMove [(0%nat, (11, 0))]; OpCoords] s = Some s1 /\ f_cat s1 = [(11, 0); (101 / 10, 0); (102 / 10, 0)].
Proof.
  destruct trio_ingest as (s & Ei & Ef & Ec). destruct (C76_cached trio s [] s Ei eq_refl) as (c & Hc & _ & _ & Hco & _). exists s. cbn [run apply_op].
  assert (E : exists xy, sky_to_scene s [(10, 1)] = Some (xy, s)). { unfold sky_to_scene. rewrite sky_coords_valid by (intros p [<-|[]]; unfold valid; cbn; lra). unfold scene_frame. rewrite Ef. eauto. }
  destruct E as (xy & ->). cbn [option_map snd]. assert (E2 : scene_coordinates (write_back [(0%nat, (11, 0))] s) = Some (map (fun p => secs (offset c p)) trio, write_back [(0%nat, (11, 0))] s)).
  { assert (Hs : exists z, f_coords s = Some z). { revert Ei. unfold ingest, scene_coordinates, f_init. cbn [f_coords]. destruct (sky_to_scene _ _) as [[z1 s2]|]; [|discriminate]. intros Ei. exists z1. assert (K : forall a b : fstate, Some a = Some b -> f_coords b = f_coords a) by (intros a b Z; congruence). exact (K _ _ Ei). }
    destruct Hs as (z & Hz). unfold scene_coordinates in *. cbn [write_back f_coords]. rewrite Hz in *. assert (z = map (fun p => secs (offset c p)) trio) by congruence. subst z. reflexivity. }
  rewrite E2. eexists. split; [exact Ei|]. split; [reflexivity|]. cbn [write_back f_cat fold_left fst snd]. rewrite Ec. reflexivity.
Qed.
Example wrap_case : (0 < 1 / 10 <= 1) /\ (-30 <= -27 <= 30). Proof. lra. Qed.
