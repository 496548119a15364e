(** C30, C39: the patch of one pixel of DeviceCase, and a band with a masked pixel. *)
From Verif Require Import Np NpFacts KernelModel KernelFacts KernelSum PackModel DeviceModel DeviceProps DeviceZero DeviceCase LinOptModel LinOptProps LinOptDevice.
From Coq Require Import Reals Lra.
Open Scope R_scope.

(** A solver for one unknown; singular systems fail *)
Definition solve1 (A : list (list R)) (b : list R) : option (list R) :=
  match A, b with
  | [[a]], [v] => if Req_EM_T a 0 then None else Some [v / a]
  | _, _ => None
  end.
Lemma solve1_solves : solves solve1.
Proof.
  intros A b x H. destruct A as [|[|a [|]] [|]]; try discriminate; destruct b as [|v [|]]; try discriminate. cbn in H. destruct (Req_EM_T a 0); [discriminate|].
  injection H as <-. split; auto. intros [|i] row bi H1 H2; [|destruct i; discriminate]. injection H1 as <-. injection H2 as <-.
  cbn [List.length seq]. rewrite sumR_cons. unfold sumR. simpl. field. auto.
Qed.

(** One source of shape (1, 2, 7) seen in pixels (6, 12, 100) with weights (1, 1, 0):
    flux 6, precision 5, whatever the masked pixel holds. *)
Example C30_band_case : forall v z, exists f A, optimize_one_band solve1 [[1; 2; z]] [1; 1; 0] [6; 12; v] None = Some ([f], A) /\ f = 6 /\ nth 0 (nth 0 A []) 0 = 5.
Proof.
  intros v z. unfold optimize_one_band, vmul, dot, vmul. cbn [map combine fst snd fold_right solve1]. destruct (Req_EM_T _ 0); [exfalso; lra|].
  do 2 eexists. split; [reflexivity|]. split; [field; lra|simpl; ring].
Qed.
(** C30_least_squares, C30_precision: that band *)
Example C30_least_case : forall g, exists f A, optimize_one_band solve1 [[1; 2; 7]] [1; 1; 0] [6; 12; 100] None = Some (f, A) /\
  chi2 [[1; 2; 7]] [1; 1; 0] [6; 12; 100] (repeat 0 3) f <= chi2 [[1; 2; 7]] [1; 1; 0] [6; 12; 100] (repeat 0 3) g.
Proof.
  intros g. destruct (C30_band_case 100 7) as (f & A & H & _). exists [f], A. split; [exact H|].
  apply (C30_least_squares solve1 solve1_solves [[1; 2; 7]] [1; 1; 0] [6; 12; 100]) with (fixedX := None) (A := A) (g := g); auto. repeat constructor.
Qed.
(** C30_curvature: that band, a parabola of curvature 5 around 6 *)
Example C30_curvature_case : forall g, chi2 [[1; 2; 7]] [1; 1; 0] [6; 12; 100] (repeat 0 3) [g] = chi2 [[1; 2; 7]] [1; 1; 0] [6; 12; 100] (repeat 0 3) [6] + 5 * (g - 6) ^ 2.
Proof.
  intros g. destruct (C30_band_case 100 7) as (f & A & H & -> & HA).
  pose proof (C30_curvature solve1 solve1_solves [[1; 2; 7]] [1; 1; 0] [6; 12; 100] ltac:(repeat constructor) eq_refl None I [6] A H [g]) as C.
  unfold noimage in C. cbn [List.length] in C. rewrite C. f_equal. cbn [seq]. rewrite !sumR_cons. rewrite HA. unfold sumR. cbn [fold_right nth]. ring.
Qed.
(** C30_masked: changing the masked entries *)
Example C30_masked_case : forall v z, optimize_one_band solve1 [[1; 2; z]] [1; 1; 0] [6; 12; v] None = optimize_one_band solve1 [[1; 2; 7]] [1; 1; 0] [6; 12; 100] None.
Proof.
  intros v z. apply C30_masked; [repeat constructor|repeat constructor|reflexivity|reflexivity|reflexivity|]. intros p Hp.
  destruct p as [|[|[|p]]]; [| |simpl in Hp; lra|destruct p; simpl in Hp; lra]; split; auto; intros [|[|i]]; reflexivity.
Qed.
(** C30_unique: the precision matrix (5) is regular. *)
Example C30_unique_case : forall g, List.length g = 1%nat -> chi2 [[1; 2; 7]] [1; 1; 0] [6; 12; 100] (repeat 0 3) g <= chi2 [[1; 2; 7]] [1; 1; 0] [6; 12; 100] (repeat 0 3) [6] -> g = [6].
Proof.
  intros g Hg Hle. destruct (C30_band_case 100 7) as (f & A & H & -> & HA).
  apply (C30_unique solve1 solve1_solves [[1; 2; 7]] [1; 1; 0] [6; 12; 100]) with (fixedX := None) (A := A); auto; [repeat constructor|].
  intros z Lz Hz i. destruct z as [|z0 [|]]; try discriminate. specialize (Hz 0%nat (Nat.lt_0_succ 0)). cbn [List.length seq] in Hz. rewrite sumR_cons in Hz. unfold sumR in Hz. cbn [fold_right nth] in Hz.
  change (nth 0 (nth 0 A []) 0) with (nth 0 (nth 0 A []) 0) in Hz. rewrite HA in Hz. destruct i as [|[|i]]; simpl; lra.
Qed.

Definition far_row : catrow := mkRow 52 0 1 0 1 1 (fun _ => Some 1).
Lemma nonzero l : List.Forall (nonzero_fluxes (case_exposure :: nil)) (repeat case_row l).
Proof.
  apply List.Forall_forall. intros r Hr. apply repeat_spec in Hr. subst r. intros b _. exists (24 * PI). split; [reflexivity|]. pose proof PI_RGT_0. lra.
Qed.
(** C30_fluxes, C30_prepared: one fixed source (11 counts) is subtracted from the 5
    counts of the pixel, then the flux of one source is fitted. *)
Example C30_case : forall gpu, exists st1 sc data st2 res, prepare_model case_env gpu case_state (Some (repeat case_row 1)) (Some (repeat case_row 1)) None 2 None = Some (st1, sc) /\
  retrieve_data gpu st1 = Some data /\ optimize_fluxes solve1 case_env gpu st1 (repeat case_row 1) = Some (st2, res) /\ retrieve_data gpu st2 = Some data.
Proof.
  intros gpu. destruct (C30_prepared Rminus ("a"%string :: nil) (case_exposure :: nil) None case_env gpu case_built solve1 solve1_solves case_state (5 :: nil) (repeat case_row 1) (Some (repeat case_row 1)) None 2 None (repeat case_row 1)
    eq_refl eq_refl eq_refl (Nat.lt_0_succ 1) (case_nonempty 0) (case_fluxes 1) (case_group 0) I (nonzero 1)) as (st1 & sc & data & st2 & res & H1 & H2 & H3 & H4 & _).
  exists st1, sc, data, st2, res. auto.
Qed.
(** C39_linear_optimize_refuted: prepared around (50, 0), left at (52, 0). *)
Example C39_linear_case : forall gpu, exists st1 sc st2 res, prepare_model case_env gpu case_state (Some (repeat case_row 1)) None None 2 None = Some (st1, sc) /\
  optimize_fluxes solve1 case_env gpu st1 ([case_row] ++ [far_row]) = Some (st2, res) /\
  set_scene ("a"%string :: nil) case_spline None (repeat case_row 1) <> Some (unzerocoords (reference st2) sc).
Proof.
  intros gpu. assert (Hn : List.Forall (nonzero_fluxes (case_exposure :: nil)) ([case_row] ++ [far_row])).
  { apply List.Forall_app. split; [apply (nonzero 1)|]. constructor; [|constructor]. intros b _. exists 1. split; [reflexivity|lra]. }
  destruct (C39_linear_optimize_refuted Rminus ("a"%string :: nil) (case_exposure :: nil) None case_env gpu case_built solve1 solve1_solves case_state (5 :: nil) (repeat case_row 1) None None 2 None [case_row] far_row
    eq_refl eq_refl eq_refl (Nat.lt_0_succ 1) (case_nonempty 0) (case_fluxes 1) I I Hn) as (st1 & sc & st2 & res & H1 & H2 & H3 & H4).
  exists st1, sc, st2, res. split; [exact H1|]. split; [exact H2|]. apply H4. intros Er.
  destruct (pack_meta_of_prepare case_env gpu case_state (repeat case_row 1) None None 2 None st1 sc H1) as (sc0 & m & E0 & Hp). apply pack_meta_zero in Hp. destruct Hp as [_ Hz].
  cbn [set_scene] in E0. injection E0 as <-. unfold zerocoords in Hz. cbv zeta iota in Hz. assert (X : reference st1 = fst (reference st1, sc)) by reflexivity. rewrite Hz in X. rewrite Er in X. cbn in X. injection X. lra.
Qed.
Print Assumptions C30_least_squares.
Print Assumptions C30_unique.
Print Assumptions C30_precision.
Print Assumptions C30_curvature.
Print Assumptions C30_masked.
Print Assumptions C30_fluxes.
Print Assumptions C30_prepared.
Print Assumptions C30_zero_flux_refuted.
Print Assumptions C39_linear_optimize_refuted.
