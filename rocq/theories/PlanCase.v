(** C51: the two ways lnlike_multi fails, and a scene that meets the hypotheses. *)
From Coquelicot Require Import Coquelicot.
From Verif Require Import Np NpFacts KernelModel KernelJac KernelSum SlowModel SlowProps SlowGrad SceneModel SceneSpec SceneFacts
  PlanModel PlanFacts PlanScene PlanGrad PlanProps.
From Coq Require Import Reals Lra.
Open Scope R_scope.

Definition no_tables (_ _ : R) : list R := [].
Definition a_star (fl ra dec : R) (fx : bool) : source R := mkSource Star ["F"%string] [fl] ra dec 1 0 0 0 0 0 fx.
Definition a_plan (fast : bool) (c : Z) : plan := mkPlan fast [mkPix 0 0 1 2] "F" unit_stamp (fun _ => c).
Let multi := lnlike_multi [] no_tables no_tables no_tables [] (fun _ _ => 1) (fun _ _ => 0).

(** A fixed source in front of an active one: the indices point behind the end of
    the parameter vector and lnlike_multi raises. *)
Theorem C51_fixed_scene_refuted : exists sc Theta plans,
  Forall well_made sc /\ (exists s, In s sc /\ fixed s = false) /\ List.length Theta = SceneSpec.total sc /\
  (forall p s, In p plans -> coverage p s = 2%Z) /\ multi None Theta sc plans = None.
Proof.
  exists [a_star 1 0 0 true; a_star 1 0 0 false], [1; 0; 0], [a_plan false 2].
  split; [repeat constructor|]. split; [exists (a_star 1 0 0 false); simpl; auto|]. split; [reflexivity|]. split; [intros p s [<-|[]]; reflexivity|].
  unfold multi, lnlike_multi. 
  let r := eval cbv -[Rplus Rmult Ropp Rminus Rdiv Rinv IZR] in (set_all_source_params [a_star 1 0 0 true; a_star 1 0 0 false] [1; 0; 0]) in
  change (set_all_source_params [a_star 1 0 0 true; a_star 1 0 0 false] [1; 0; 0]) with r.
  cbv beta iota. cbn [lnlike_plans]. 
  match goal with |- match plan_sources ?a ?b ?c ?d ?e ?f ?g ?p ?s with _ => _ end = _ =>
    let r := eval cbv -[Rplus Rmult Ropp Rminus Rdiv Rinv IZR convert_to_gaussians INR] in (plan_sources a b c d e f g p s) in
    change (plan_sources a b c d e f g p s) with r end.
  cbv beta iota. unfold plan_lnlike. cbn [pl_fast a_plan]. rewrite work_closed. cbv beta iota. cbn [map concat]. unfold plan_gradient. cbn [map seq app mapM nth_error]. reflexivity.
Qed.
Print Assumptions C51_fixed_scene_refuted.

(** The class dictionary WorkPlan.compute_keywords is shared: after a FastWorkPlan
    without active sources, a WorkPlan raises; in the other order both work. *)
Ltac run :=
  unfold multi, lnlike_multi;
  match goal with |- context [set_all_source_params ?a ?b] =>
    let r := eval cbv -[Rplus Rmult Ropp Rminus Rdiv Rinv IZR] in (set_all_source_params a b) in
    change (set_all_source_params a b) with r end;
  cbv beta iota; cbn [lnlike_plans].
Ltac plan_step :=
  match goal with |- context [plan_sources ?a ?b ?c ?d ?e ?f ?g ?p ?s] =>
    let r := eval cbv -[Rplus Rmult Ropp Rminus Rdiv Rinv IZR convert_to_gaussians INR] in (plan_sources a b c d e f g p s) in
    change (plan_sources a b c d e f g p s) with r end;
  cbv beta iota; unfold plan_lnlike at 1; cbn [pl_fast a_plan];
  try rewrite work_closed.
Theorem C51_shared_keyword_refuted : exists sc Theta p1 p2,
  Forall well_made sc /\ List.length Theta = SceneSpec.total sc /\
  (exists r, multi None Theta sc [p2; p1] = Some r) /\ multi None Theta sc [p1; p2] = None.
Proof.
  exists [a_star 1 0 0 false], [1; 0; 0], (a_plan true 1), (a_plan false 2).
  split; [repeat constructor|]. split; [reflexivity|]. split.
  - run. plan_step. cbv beta iota. cbn [map concat]. unfold plan_gradient at 1. cbn [map seq app mapM nth_error].
    unfold add_at at 1. cbn [List.length Nat.eqb negb forallb repeat Nat.ltb Nat.leb andb combine fold_left fst snd upd]. cbv beta iota.
    plan_step. unfold fast_lnlike. cbn [map concat mapM]. unfold add_at. cbn [List.length Nat.eqb negb forallb]. cbv beta iota. eexists. reflexivity.
  - run. plan_step. unfold fast_lnlike at 1. cbn [map concat mapM].
    unfold add_at at 1. cbn [List.length Nat.eqb negb forallb]. cbv beta iota. reflexivity.
Qed.
Print Assumptions C51_shared_keyword_refuted.

(** Two stars, one plan of each kind *)
Lemma star_src fl ra dec : class_src [] no_tables no_tables no_tables [] Star [fl; ra; dec; 1; 0; 0; 0] = unit_star ra dec fl.
Proof.
  unfold class_src, src_row, unit_star, class_amps, class_dan, class_dar, equal_parts, zeros_like. cbn [class_radii List.length map nth INR].
  f_equal. f_equal. field.
Qed.
Lemma star_smooth fl ra dec x y : fl <> 0 ->
  smooth_at [0] (class_amps [] no_tables [] Star) (class_dan [] no_tables [] Star) (class_dar [] no_tables [] Star) [fl; ra; dec; 1; 0; 0; 0] unit_stamp x y.
Proof.
  intros Hf. constructor; cbn [nth]; auto; try lra.
  - cbn [unit_stamp photocounts]. lra.
  - unfold class_amps, equal_parts. cbn [class_radii map List.length INR]. constructor; [lra|constructor].
  - intros i Hi. unfold spline_ok, by_bin, class_amps, class_dan, class_dar. split.
    + replace (nth i (zeros_like (class_radii [] [] Star)) 0) with 0; [apply @is_derive_const|]. unfold zeros_like. cbn [class_radii map]. destruct i as [|[|]]; reflexivity.
    + replace (nth i (zeros_like (class_radii [] [] Star)) 0) with 0; [apply @is_derive_const|]. unfold zeros_like. cbn [class_radii map]. destruct i as [|[|]]; reflexivity.
  - intros g [<-|[]]. cbn [proper_psf snd v11 v12 v21 v22]. lra.
  - change (src_row [0] (class_amps [] no_tables [] Star) (class_dan [] no_tables [] Star) (class_dar [] no_tables [] Star) [fl; ra; dec; 1; 0; 0; 0])
      with (class_src [] no_tables no_tables no_tables [] Star [fl; ra; dec; 1; 0; 0; 0]).
    rewrite star_src. intros g Hg. unfold convert_to_gaussians, slow_components in Hg.
    cbn [unit_star ss_radii ss_amplitudes ss_da_dsersic ss_da_drh combine flat_map map st_psf unit_stamp unit_psf app] in Hg.
    fold (unit_star ra dec fl) in Hg. fold unit_psf in Hg. fold unit_stamp in Hg. cbv zeta in Hg. rewrite unit_gaussian in Hg.
    destruct Hg as [<-|[]]. unfold correction. cbn [g_amp g_xcen g_ycen g_fxx g_fxy g_fyy].
    pose proof (pow2_ge_0 (1 * (x - ra) + 0 * (y - dec))). pose proof (pow2_ge_0 (1 * (y - dec) + 0 * (x - ra))). apply Rgt_not_eq. lra.
Qed.
Definition two_stars : list (source R) := [a_star 5 7 7 false; a_star 5 7 7 false].
Definition two_theta : list R := [3; 0; 0; 4; 1; 1].
Definition two_plans : list plan := [a_plan false 2; a_plan true 2].
Example C51_case :
  seen_by_all two_stars two_plans /\ List.length two_theta = SceneSpec.total two_stars /\
  (forall sc', set_all_source_params two_stars two_theta = Some sc' -> smooth_scene [] no_tables no_tables no_tables [] sc' two_plans) /\
  tables_fit [] no_tables no_tables no_tables /\
  exists v g kw, multi None two_theta two_stars two_plans = Some (v, g, kw).
Proof.
  assert (HS : seen_by_all two_stars two_plans).
  { split; [repeat constructor|]. split; [repeat constructor|]. intros p Hp. split.
    - intros s. destruct Hp as [<-|[<-|[]]]; reflexivity.
    - destruct Hp as [<-|[<-|[]]]; repeat constructor. }
  assert (HF : tables_fit [] no_tables no_tables no_tables) by (intros n r; auto).
  split; [exact HS|]. split; [reflexivity|]. split; [|split; [exact HF|]].
  - intros sc' E. assert (sc' = [a_star 3 0 0 false; a_star 4 1 1 false]) by (vm_compute in E; vm_compute; congruence). subst sc'.
    intros s p q Hs Hp _. destruct Hp as [<-|[<-|[]]]; destruct Hs as [<-|[<-|[]]]; first [apply (star_smooth 3 0 0); lra|apply (star_smooth 4 1 1); lra].
  - destruct (C51_value [] no_tables no_tables no_tables [] (fun _ _ => 1) (fun _ _ => 0) None two_stars two_plans two_theta HS) as (sc' & g & kw & _ & E);
      [discriminate|reflexivity|]. exists (sumR (fun p => - chi2_of (pl_pixels p) (map (fun s => class_src [] no_tables no_tables no_tables [] (s_kind s) (attributes s (pl_filter p))) sc') (pl_stamp p) / 2) two_plans), g, kw. exact E.
Qed.

(** C51_unit_amplitudes: a star with two bands *)
Example C51_unit_case : exists ss, slow_of [1] (fun _ _ => [1]) (fun _ _ => [0]) (fun _ _ => [0]) [1; 2] (fun _ _ => 1) (fun _ _ => 0)
    (mkSource Star ["a"; "b"]%string [3; 4] 0 0 1 0 0 0 0 0 false) "b" = Some ss /\ fold_right Rplus 0 (ss_amplitudes ss) = 1 /\ ss_flux ss = 4.
Proof. eexists. split; [reflexivity|]. cbn [ss_amplitudes ss_flux fold_right equal_parts map]. split; [simpl; field|reflexivity]. Qed.
