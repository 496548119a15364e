(** C60: every written table can be opened, and the ranges it is read with. *)
From Verif Require Import Np NpFacts MogModel MogFacts MogProps MogCase.
From Coq Require Import Reals Lra Sorted.
Open Scope R_scope.

(** The ends of a list of numbers. *)
Definition ends (l : list R) (lo hi : R) : Prop := In lo l /\ In hi l /\ forall x, In x l -> lo <= x <= hi.
Lemma fold_max : forall l a, a <= fold_left Rmax l a /\ (forall x, In x l -> x <= fold_left Rmax l a) /\ (fold_left Rmax l a = a \/ In (fold_left Rmax l a) l).
Proof.
  induction l as [|b l IH]; intros a; cbn; [split; [lra|split; [tauto|now left]]|].
  destruct (IH (Rmax a b)) as [H1 [H2 H3]]. pose proof (Rmax_l a b). pose proof (Rmax_r a b). split; [lra|split].
  - intros x [<-|Hx]; [lra|auto].
  - destruct H3 as [H3|H3]; [|tauto]. rewrite H3. unfold Rmax; destruct (Rle_dec a b); auto.
Qed.
Lemma ends_spec l : l <> [] -> exists lo hi, lmin l = Some lo /\ lmax l = Some hi /\ ends l lo hi.
Proof.
  destruct l as [|a l]; intros H; [congruence|]. cbn [lmin lmax]. exists (fold_left Rmin l a), (fold_left Rmax l a). split; [reflexivity|]. split; [reflexivity|].
  destruct (fold_min l a) as (A1 & A2 & A3). destruct (fold_max l a) as (B1 & B2 & B3). split; [destruct A3 as [->|]; [now left|now right]|]. split; [destruct B3 as [->|]; [now left|now right]|].
  intros x [<-|Hx]; [lra|]. split; auto.
Qed.
Lemma ends_iff l m lo hi : (forall x, In x l <-> In x m) -> ends l lo hi -> ends m lo hi.
Proof. intros E (A & B & C). split; [now apply E|]. split; [now apply E|]. intros x Hx. apply C. now apply E. Qed.
Lemma unique_length l m : (forall x, In x l <-> In x m) -> NoDup m -> List.length (unique l) = List.length m.
Proof.
  intros E N. apply Nat.le_antisymm; [apply unique_length_le; intros x Hx; now apply E|]. apply NoDup_inc; [exact N|]. intros x Hx. apply unique_In. now apply E.
Qed.
(** C60: a table written over any two grids, in any order, whose values stay apart when
    rounded is opened by any spline fitter that takes increasing grids; there is a spline
    for each amplitude, the radii are those given, and the ranges are those of the grids. *)
Theorem C60_opens : forall rnd fit rect ng rg radii ngauss, ng <> [] -> rg <> [] -> NoDup (map rnd ng) -> NoDup (map rnd rg) ->
  (forall n r z, StronglySorted Rlt n -> StronglySorted Rlt r -> (forall x, In x n <-> In x (map rnd ng)) -> (forall x, In x r <-> In x (map rnd rg)) -> shaped n r z -> rect n r z <> None) ->
  exists g, initialize_splines rect (fit_profiles rnd fit ng rg) radii ngauss = Some g /\ List.length (g_splines g) = ngauss /\ g_radii g = radii /\
    ends (map rnd ng) (fst (g_nrange g)) (snd (g_nrange g)) /\ ends (map rnd rg) (fst (g_rrange g)) (snd (g_rrange g)).
Proof.
  intros rnd fit rect ng rg radii ngauss Nn Nr Dn Dr Hrect. unfold initialize_splines.
  pose proof (in_rows_n rnd fit ng rg Nr) as In1. pose proof (in_rows_r rnd fit ng rg Nn) as In2.
  assert (Ln : List.length (unique (map t_n (fit_profiles rnd fit ng rg))) = List.length ng) by (rewrite (unique_length _ (map rnd ng)); [apply map_length|exact In1|exact Dn]).
  assert (Lr : List.length (unique (map t_r (fit_profiles rnd fit ng rg))) = List.length rg) by (rewrite (unique_length _ (map rnd rg)); [apply map_length|exact In2|exact Dr]).
  assert (E1 : map t_n (fit_profiles rnd fit ng rg) <> []). { destruct ng as [|n0 ng']; [congruence|]. intros E. pose proof (proj2 (In1 (rnd n0)) (or_introl eq_refl)) as I. rewrite E in I. exact I. }
  assert (E2 : map t_r (fit_profiles rnd fit ng rg) <> []). { destruct rg as [|r0 rg']; [congruence|]. intros E. pose proof (proj2 (In2 (rnd r0)) (or_introl eq_refl)) as I. rewrite E in I. exact I. }
  destruct (ends_spec _ E1) as (n0 & n1 & -> & -> & En). destruct (ends_spec _ E2) as (r0 & r1 & -> & -> & Er). rewrite Ln, Lr.
  set (un := unique (map t_n (fit_profiles rnd fit ng rg))) in *. set (ur := unique (map t_r (fit_profiles rnd fit ng rg))) in *.
  assert (M : forall l, exists ss, mapM (fun i => match reshape (List.length ng) (List.length rg) (map (fun t => nth i (t_amps t) 0) (fit_profiles rnd fit ng rg)) with Some z => rect un ur z | None => None end) l = Some ss /\ List.length ss = List.length l).
  { induction l as [|k l (ss & IH & L)]; [exists []; split; reflexivity|]. cbn [mapM]. rewrite reshaped, IH.
    destruct (rect un ur (map (fun n => map (fun r => amp_of rnd fit k n r) rg) ng)) as [s|] eqn:Es.
    - exists (s :: ss). split; [reflexivity|cbn; now rewrite L].
    - exfalso. revert Es. apply Hrect; [apply unique_sorted|apply unique_sorted| | |apply (shaped_map (fun n r => amp_of rnd fit k n r)); assumption];
      intros x; unfold un, ur; rewrite unique_In; [apply In1|apply In2]. }
  destruct (M (seq 0 ngauss)) as (ss & Es & Ls). rewrite Es. eexists. split; [reflexivity|]. cbn [g_splines g_radii g_nrange g_rrange fst snd]. split; [now rewrite Ls, seq_length|]. split; [reflexivity|].
  split; [exact (ends_iff _ _ _ _ In1 En)|exact (ends_iff _ _ _ _ In2 Er)].
Qed.
(** A fitter that takes anything, three indices by two radii given in no order. *)
Example C60_opens_case : exists g, initialize_splines (fun _ _ _ => Some (mkSpline (fun _ _ => 0) (fun _ _ => 0) (fun _ _ => 0))) (fit_profiles (fun x => x) ex_fit [2; 1; 4] [5; 3]) [1; 2] 2 = Some g /\
  g_nrange g = (1, 4) /\ g_rrange g = (3, 5).
Proof.
  destruct (C60_opens (fun x => x) ex_fit (fun _ _ _ => Some (mkSpline (fun _ _ => 0) (fun _ _ => 0) (fun _ _ => 0))) [2; 1; 4] [5; 3] [1; 2] 2) as (g & H & _ & _ & En & Er);
    [discriminate|discriminate| | |discriminate|].
  - rewrite map_id. repeat constructor; cbn; lra.
  - rewrite map_id. repeat constructor; cbn; lra.
  - exists g. split; [exact H|]. destruct (g_nrange g) as [a b]. destruct (g_rrange g) as [c d]. cbn [fst snd map] in *. destruct En as (A & B & C). destruct Er as (A' & B' & C').
    pose proof (C 1 ltac:(cbn; auto)). pose proof (C 4 ltac:(cbn; auto)). pose proof (C' 3 ltac:(cbn; auto)). pose proof (C' 5 ltac:(cbn; auto)).
    cbn in A, B, A', B'. split; f_equal; lra.
Qed.
Print Assumptions C60_opens.
