(** C60: cases meeting the hypotheses of the theorems of MogProps and MogFlux. *)
From Coquelicot Require Import Coquelicot.
From Coq Require Import Reals Lra Lia List Sorting.Sorted.
From Verif Require Import Np NpFacts MogModel MogFacts MogProps MogFlux.
Import ListNotations.
Open Scope R_scope.

(** A table looked up: the place of a value in a grid, the first when it is not there *)
Fixpoint place (l : list R) (x : R) (i : nat) : nat :=
  match l with [] => O | y :: t => if Req_EM_T x y then i else place t x (S i) end.
Definition lookup_spline (ng rg : list R) (z : list (list R)) : option spline :=
  match ng, rg with
  | [], _ | _, [] => None
  | _, _ => Some (mkSpline (fun n r => at2 z (place ng n 0) (place rg r 0)) (fun _ _ => 0) (fun _ _ => 0))
  end.
Definition lookup_weights : weights := fun ng rg n r i j => if Nat.eq_dec i (place ng n 0) then if Nat.eq_dec j (place rg r 0) then 1 else 0 else 0.
Lemma place_nth : forall l x i k, NoDup l -> nth_error l i = Some x -> place l x k = (k + i)%nat.
Proof.
  induction l as [|a l IH]; intros x i k N H; [destruct i; discriminate|]. inversion N; subst. cbn. destruct (Req_EM_T x a) as [->|].
  - destruct i as [|i]; [lia|]. exfalso. cbn in H. apply nth_error_In in H. contradiction.
  - destruct i as [|i]; [cbn in H; congruence|]. rewrite (IH x i (S k)) by assumption. lia.
Qed.
Lemma place_lt : forall l x k, (place l x k < k + List.length l)%nat \/ place l x k = 0%nat.
Proof.
  induction l as [|a l IH]; intros x k; cbn; [now right|]. destruct (Req_EM_T x a); [left; lia|]. destruct (IH x (S k)); [left; lia|now right].
Qed.
Lemma rsum_delta : forall n k f, (k < n)%nat -> rsum (map (fun j => if Nat.eq_dec j k then f j else 0) (seq 0 n)) = f k.
Proof.
  intros n k f H. rewrite (rsum_ext_in _ (fun j => f k * (if Nat.eqb j k then 1 else 0))).
  - rewrite rsum_map_mult. fold (unit_at k n). rewrite rsum_unit by assumption. ring.
  - intros j _. destruct (Nat.eq_dec j k), (Nat.eqb_spec j k); subst; try congruence; ring.
Qed.
Lemma sum2_delta : forall nn nr a b f, (a < nn)%nat -> (b < nr)%nat ->
  sum2 nn nr (fun i j => f i j * (if Nat.eq_dec i a then if Nat.eq_dec j b then 1 else 0 else 0)) = f a b.
Proof.
  intros nn nr a b f Ha Hb. unfold sum2.
  rewrite (rsum_ext_in _ (fun i => if Nat.eq_dec i a then f i b else 0)); [apply (rsum_delta nn a (fun i => f i b) Ha)|].
  intros i _. destruct (Nat.eq_dec i a).
  - rewrite (rsum_ext_in _ (fun j => if Nat.eq_dec j b then f i j else 0)); [apply (rsum_delta nr b (f i) Hb)|]. intros j _. destruct (Nat.eq_dec j b); ring.
  - apply rsum_all_zero. intros x Hx. apply in_map_iff in Hx; destruct Hx as [j [<- _]]. ring.
Qed.
Example lookup_interpolates : interpolates lookup_spline.
Proof.
  intros ng rg z s Sn Sr _ H i j n r Hi Hj. destruct ng as [|a ng]; [discriminate|]. destruct rg as [|b rg]; [discriminate|].
  assert (E : s_val s = fun n r => at2 z (place (a :: ng) n 0) (place (b :: rg) r 0)) by (inversion H; reflexivity). rewrite E; cbv beta. rewrite (place_nth _ n i 0 (sorted_NoDup _ Sn) Hi), (place_nth _ r j 0 (sorted_NoDup _ Sr) Hj). reflexivity.
Qed.
Example lookup_weighted : weighted lookup_spline lookup_weights.
Proof.
  intros ng rg z s Sn Sr _ H n r. destruct ng as [|a ng]; [discriminate|]. destruct rg as [|b rg]; [discriminate|].
  assert (E : s_val s = fun n r => at2 z (place (a :: ng) n 0) (place (b :: rg) r 0)) by (inversion H; reflexivity). rewrite E; cbv beta. unfold lookup_weights.
  assert (P1 : (place (a :: ng) n 0 < List.length (a :: ng))%nat) by (destruct (place_lt (a :: ng) n 0); cbn [List.length] in *; lia).
  assert (P2 : (place (b :: rg) r 0 < List.length (b :: rg))%nat) by (destruct (place_lt (b :: rg) r 0); cbn [List.length] in *; lia).
  revert P1 P2. generalize (place (a :: ng) n 0) as p, (place (b :: rg) r 0) as q. intros p q P1 P2. split.
  - symmetry. apply (sum2_delta _ _ p q (at2 z) P1 P2).
  - rewrite (sum2_ext _ _ _ (fun i j => 1 * (if Nat.eq_dec i p then if Nat.eq_dec j q then 1 else 0 else 0))) by (intros; ring).
    apply (sum2_delta _ _ p q (fun _ _ => 1) P1 P2).
Qed.

(** A table of two indices by two radii with two gaussians *)
Definition ex_fit (n r : R) : list R := [n; r].
Definition ex_n : list R := [1; 2].
Definition ex_r : list R := [3; 5].
Definition ex_rows : list trow := fit_profiles (fun x => x) ex_fit ex_n ex_r.
Lemma ex_sorted_n : StronglySorted Rlt (map (fun x => x) ex_n).
Proof. unfold ex_n; cbn. repeat constructor; lra. Qed.
Lemma ex_sorted_r : StronglySorted Rlt (map (fun x => x) ex_r).
Proof. unfold ex_r; cbn. repeat constructor; lra. Qed.
Lemma ex_defined : forall ng rg, (forall x, In x ng <-> In x ex_n) -> List.length ng = 2%nat -> (forall x, In x rg <-> In x ex_r) -> List.length rg = 2%nat ->
  exists g, initialize_splines lookup_spline (fit_profiles (fun x => x) ex_fit ng rg) [1; 2] 2 = Some g.
Proof.
  intros ng rg Hn Ln Hr Lr.
  assert (Nn : ng <> []) by (intros ->; cbn in Ln; lia). assert (Nr : rg <> []) by (intros ->; cbn in Lr; lia).
  assert (Un : unique (map t_n (fit_profiles (fun x => x) ex_fit ng rg)) = ex_n).
  { apply unique_rows_n; [assumption|pose proof ex_sorted_n as Q; rewrite map_id in Q; exact Q|]. intros x; rewrite map_id; apply Hn. }
  assert (Ur : unique (map t_r (fit_profiles (fun x => x) ex_fit ng rg)) = ex_r).
  { apply unique_rows_r; [assumption|pose proof ex_sorted_r as Q; rewrite map_id in Q; exact Q|]. intros x; rewrite map_id; apply Hr. }
  unfold initialize_splines. rewrite Un, Ur. replace (List.length ex_n) with (List.length ng) by assumption. replace (List.length ex_r) with (List.length rg) by assumption.
  cbn [seq mapM]. rewrite !reshaped. cbn [lookup_spline ex_n ex_r].
  assert (M : forall f : trow -> R, map f (fit_profiles (fun x => x) ex_fit ng rg) <> []).
  { intros f E. apply map_eq_nil in E. unfold fit_profiles in E. apply map_eq_nil in E. pose proof (list_prod_length ng rg) as Q. rewrite E, Ln, Lr in Q. cbn in Q; lia. }
  destruct (map t_n _) eqn:E1; [exfalso; eapply M; eassumption|]. destruct (map t_r _) eqn:E2; [exfalso; eapply M; eassumption|].
  cbn [lmin lmax]. eexists; reflexivity.
Qed.
Example C60_table_case : exists g, initialize_splines lookup_spline ex_rows [1; 2] 2 = Some g
  /\ amplitudes g 2 3 = [exp 2 / (exp 2 + (exp 3 + 0)); exp 3 / (exp 2 + (exp 3 + 0))]
  /\ rsum (amplitudes g (3 / 2) 4) = 1
  /\ (forall a, In a (amplitudes g 1 5) -> a < 1) /\ In 1 (amplitudes g (9 / 10) 5)
  /\ forall x, profile g 2 3 7 (1 / 4) x = 7 * (stored_model ex_fit 2 3 [Some 0; Some (ln 2)] (1 / 4) x / (exp 2 + (exp 3 + 0))).
Proof.
  destruct (ex_defined ex_n ex_r (fun x => iff_refl _) eq_refl (fun x => iff_refl _) eq_refl) as [g H].
  exists g. split; [exact H|]. split; [|split; [|split; [|split]]].
  - exact (C60_table (fun x => x) ex_fit lookup_spline ex_n ex_r [1; 2] 2 g 1 0 2 3 lookup_interpolates ex_sorted_n ex_sorted_r (fun _ _ => eq_refl) H eq_refl eq_refl ltac:(lra)).
  - assert (T : Rabs (rsum (amplitudes g (3 / 2) 4) - 1) <= 0 * sum2 2 2 (fun i j => Rabs (lookup_weights (map (fun x => x) ex_n) (map (fun x => x) ex_r) (3 / 2) 4 i j))).
    { refine (C60_total (fun x => x) ex_fit lookup_spline lookup_weights ex_n ex_r [1; 2] 2 g 0 (3 / 2) 4 lookup_weighted _ _ ex_sorted_n ex_sorted_r _ _ _ (fun _ _ => eq_refl) _ H);
        [lra|lia|discriminate..|]. intros n r _ _. rewrite map_id, norm_amps_sum by discriminate. rewrite Rminus_diag_eq, Rabs_R0 by reflexivity; lra. }
    rewrite Rmult_0_l in T. pose proof (Rabs_pos (rsum (amplitudes g (3 / 2) 4) - 1)).
    assert (Z : Rabs (rsum (amplitudes g (3 / 2) 4) - 1) = 0) by lra. apply Rabs_eq_0 in Z. lra.
  - refine (proj1 (C60_jump_refuted (fun x => x) ex_fit lookup_spline [2] ex_r [1; 2] 2 g 1 1 5 lookup_interpolates ex_sorted_n ex_sorted_r (fun _ _ => eq_refl) _ eq_refl _ H eq_refl _)); [lia|intros; lra|lra].
  - refine (proj2 (C60_jump_refuted (fun x => x) ex_fit lookup_spline [2] ex_r [1; 2] 2 g 1 1 5 lookup_interpolates ex_sorted_n ex_sorted_r (fun _ _ => eq_refl) _ eq_refl _ H eq_refl _) (9 / 10) _); [lia|intros; lra|lra|lra].
  - intros x.
    assert (E : map exp_radius [Some 0; Some (ln 2)] = [1; 2]) by (cbn; rewrite exp_0, exp_ln by lra; reflexivity).
    rewrite <- E in H.
    refine (C60_stored (fun x => x) ex_fit lookup_spline ex_n ex_r [Some 0; Some (ln 2)] 2 g 1 0 2 3 7 (1 / 4) x lookup_interpolates ex_sorted_n ex_sorted_r (fun _ _ => eq_refl) eq_refl H eq_refl eq_refl _ _ _ _); [lra|reflexivity|lra|lia].
Qed.
(** Radii written downwards: the galaxy of radius 3 gets the amplitudes of radius 5 *)
Example C60_descending_case : exists g, initialize_splines lookup_spline (fit_profiles (fun x => x) ex_fit ex_n (rev ex_r)) [1; 2] 2 = Some g
  /\ amplitudes g 2 3 = norm_amps [2; 5].
Proof.
  assert (Q : forall x, In x (rev ex_r) <-> In x ex_r) by (intros x; rewrite <- in_rev; reflexivity).
  destruct (ex_defined ex_n (rev ex_r) (fun x => iff_refl _) eq_refl Q eq_refl) as [g H]. exists g. split; [exact H|].
  rewrite (C60_descending_refuted (fun x => x) ex_fit lookup_spline ex_n ex_r [1; 2] 2 g 1 0 2 3 5 lookup_interpolates ex_sorted_n ex_sorted_r (fun _ _ => eq_refl) H eq_refl eq_refl eq_refl ltac:(lra)).
  apply map_id.
Qed.
Example C60_repeated_case : initialize_splines lookup_spline (fit_profiles (fun x => x) ex_fit ex_n [3; 5; 3]) [1; 2] 2 = None.
Proof.
  apply C60_repeated; [discriminate..|lia|]. right. cbn. intros N. inversion N as [|? ? H _]; subst. apply H. cbn; auto.
Qed.
(** A galaxy whose amplitudes grow with the radius up to 2 *)
Definition ramp : spline := mkSpline (fun _ r => clamp 1 2 r) (fun _ _ => 0) (fun _ _ => 1).
Definition ramp_galaxy : galaxy := mkGalaxy [ramp] [1] (1, 4) (1, 2).
Lemma ramp_fitpack : forall s, In s (g_splines ramp_galaxy) -> fitpack s (g_nrange ramp_galaxy) (g_rrange ramp_galaxy).
Proof.
  intros s [<-|[]]. split; [|split].
  - intros n r. cbn. repeat split. unfold clamp, Rmax, Rmin. repeat (destruct (Rle_dec _ _); try lra).
  - intros n r _ _. cbn. apply @is_derive_const.
  - intros n r _ Hr. cbn in *. apply (is_derive_ext_loc (fun r => r)); [|apply @is_derive_id].
    assert (P : 0 < Rmin (r - 1) (2 - r)) by (apply Rmin_pos; lra). exists (mkposreal _ P). intros y Hy.
    change (Rabs (y - r) < Rmin (r - 1) (2 - r)) in Hy. pose proof (Rmin_l (r - 1) (2 - r)). pose proof (Rmin_r (r - 1) (2 - r)). apply Rabs_def2 in Hy.
    unfold clamp. rewrite Rmin_right by lra. rewrite Rmax_right by lra. reflexivity.
Qed.
Example C60_gradient_case : is_derive (fun r => nth 0 (amplitudes ramp_galaxy 2 r) 0) (3 / 2) (nth 0 (damplitude s_dr ramp_galaxy 2 (3 / 2)) 0).
Proof. refine (proj2 (C60_gradient ramp_galaxy 2 (3 / 2) 0 ramp ramp_fitpack _ _ _ eq_refl)); cbn; lra. Qed.
Example C60_edge_case : is_derive (fun r => nth 0 (amplitudes ramp_galaxy 2 r) 0) 3 0 /\ nth 0 (damplitude s_dr ramp_galaxy 2 3) 0 = 1.
Proof. refine (C60_edge_refuted ramp_galaxy 2 3 0 ramp ramp_fitpack _ _ _ eq_refl); cbn; lra. Qed.
Example C60_below_case : exists k rad, nth_error (g_radii ramp_galaxy) k = Some rad /\ nth_error (amplitudes ramp_galaxy 0 3) k = Some 1.
Proof.
  destruct (C60_below ramp_galaxy 0 3) as [k [rad [H1 [_ [_ [_ H2]]]]]]; [discriminate|cbn; lra|]. exists k, rad. split; [assumption|].
  rewrite H2 by (apply nth_error_Some; congruence). destruct (Nat.eq_dec k k); congruence.
Qed.
Example C60_profile_case : exists F, (forall X, is_RInt (fun x => 2 * PI * x * profile ramp_galaxy 2 (3 / 2) 10 (1 / 400) x) 0 X (F X))
  /\ is_lim F p_infty (10 * (3 / 2)).
Proof.
  destruct (C60_profile ramp_galaxy 2 (3 / 2) 10 (1 / 400)) as [F [H1 H2]].
  - rewrite spline_values by (cbn; lra). reflexivity.
  - lra.
  - exists F. split; [assumption|]. rewrite spline_values in H2 by (cbn; lra). cbn in H2.
    replace (10 * (clamp 1 2 (3 / 2) + 0)) with (10 * (3 / 2)) in H2; [exact H2|]. unfold clamp. rewrite Rmin_right, Rmax_right by lra. ring.
Qed.
(** One gaussian of dispersion 5 from a radius of 3 and a smoothing of 4, and a point smoothed by 4 *)
Example C60_mixture_case : forall X,
  is_RInt (fun x => 2 * PI * x * mixture [0; 1] [Some (ln 3); None] 4 x) 0 X
    (rsum (map exp [0; 1]) * gauss_cfd X (map exp [0; 1]) (map (fun r => hypot (exp_radius r) 4) [Some (ln 3); None])).
Proof.
  intros X. apply C60_mixture; [reflexivity| |discriminate]. intros r [<-|[<-|[]]]; cbn [exp_radius]; [rewrite exp_ln by lra|]; lra.
Qed.
Example C60_growth_case : gauss_cfd 0 [1; 3] [0; 2] = (1 + (0 + 0)) / (1 + (3 + 0)) /\ is_lim (fun x => gauss_cfd x [1; 3] [0; 2]) p_infty 1.
Proof.
  destruct (C60_growth [1; 3] [0; 2] eq_refl ltac:(discriminate)) as [H1 [_ H3]]; [intros a [<-|[<-|[]]]; lra|]. split; [|assumption].
  rewrite H1. cbn. destruct (Rle_dec 0 0); [|lra]. destruct (Rle_dec 2 0); [lra|reflexivity].
Qed.
Example C60_misfit_case : exists c, chisq [0] [1; 2] [1; 1 / 2] (Some [Some 0]) 0 0 0 1 = Some c /\ 0 <= c.
Proof.
  destruct (C60_misfit [0] [1; 2] [1; 1 / 2] [Some 0] 0 1 eq_refl ltac:(discriminate)) as [_ [c [H1 [H2 _]]]];
    [intros x [<-|[<-|[]]]; lra|intros x [<-|[<-|[]]]; lra|eauto].
Qed.
(** Level amplitudes of two are punished *)
Example C60_smooth_case : 0 < smoothness [2; 2; 2].
Proof.
  destruct (C60_smooth_refuted [2; 2; 2]) as [H1 H2]; [intros a [<-|[<-|[<-|[]]]]; lra|].
  destruct (Req_dec (smoothness [2; 2; 2]) 0) as [E|]; [|lra]. pose proof (proj1 H2 E 2 (or_introl eq_refl)). lra.
Qed.
