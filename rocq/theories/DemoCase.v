(** Cases of C74. *)
From Verif Require Import Np.
From Coq Require Import Reals Permutation Lra Lia Psatz.
From Verif Require Import IdentModel QuantModel QuantFacts QuantProps CornerModel CornerFacts CornerProps ProfModel ProfProps DemoModel DemoProps.
Import ListNotations.
Open Scope R_scope.

(** A drizzling onto the same pixels, homogeneous in the weights *)
Definition same : drizzler := fun im w => map (fun p => (Some (fst p), snd p)) (combine im w).
Lemma same_homogeneous im w c : 0 < c -> same im (map (Rmult c) w) = map (fun p => (fst p, c * snd p)) (same im w).
Proof. intros _. unfold same. revert w. induction im as [|x im IH]; intros [|y w]; cbn [map combine fst snd]; [reflexivity..|]. now rewrite IH. Qed.
(** Two exposures of one pixel: 3 with an uncertainty of 1/2 and 8 with one of 1; the mosaic has 4 with weight 5 *)
Example mosaic_of_two : nth_error (drizzle_combine same 1000 1 [([3], [1 / 2]); ([8], [1])]) 0 = Some (Some 4, 5) /\
  nth_error (drizzle_combine same 1000 1 [([8], [1]); ([3], [1 / 2])]) 0 = Some (Some 4, 5) /\ drizzle_combine same 7 1 [([3], [1 / 2]); ([8], [1])] = drizzle_combine same 1000 1 [([3], [1 / 2]); ([8], [1])].
Proof.
  assert (D1 : drizzled same 1000 ([3], [1 / 2]) = [(Some 3, 4)]) by (unfold drizzled, same; cbn [map combine fst snd]; repeat f_equal; field).
  assert (D2 : drizzled same 1000 ([8], [1]) = [(Some 8, 1)]) by (unfold drizzled, same; cbn [map combine fst snd]; repeat f_equal; field).
  assert (H : nth_error (drizzle_combine same 1000 1 [([3], [1 / 2]); ([8], [1])]) 0 = Some (Some 4, 5)).
  { destruct (C74_mosaic same 1000 1 [([3], [1 / 2]); ([8], [1])] 0 [(3, 4); (8, 1)]) as [E _]; [lia|constructor; [rewrite D1; reflexivity|constructor; [rewrite D2; reflexivity|constructor]]|intros p [<-|[<-|[]]]; cbn; lra|exists (3, 4); split; [reflexivity|cbn; lra]|].
    rewrite E. unfold sumr. cbn [map fold_right fst snd]. repeat f_equal; field. }
  split; [exact H|]. split; [|apply C74_weight_scale; [lra|lra|intros; now apply same_homogeneous]].
  rewrite <- H. apply C74_mosaic_order; [constructor|lia|]. intros e [<-|[<-|[]]]; [rewrite D2; exists 8, 1|rewrite D1; exists 3, 4]; (split; [reflexivity|lra]).
Qed.
(** ... and a drizzling that misses the first pixel for exposures of fewer than two pixels: the mosaic has nothing there,
    with the weight of the other exposure *)
Definition missing : drizzler := fun im w => match im with [_] => [(None, 0)] | _ => same im w end.
Example mosaic_missed : nth_error (drizzle_combine missing 1 1 [([3; 3], [1 / 2; 1]); ([8], [1])]) 0 = Some (None, 4).
Proof.
  rewrite (C74_uncovered_refuted missing 1 1 _ 0 [(Some 3, 4); (None, 0)]).
  - unfold sumr. cbn [map fold_right snd]. repeat f_equal; lra.
  - lia.
  - constructor; [|constructor; [|constructor]]; unfold drizzled, missing, same; cbn [map combine fst snd nth_error]; repeat f_equal; field.
  - exists (None, 0). split; [right; now left|reflexivity].
Qed.
Example drz : drz_name "data/dither_1.fits" = "data/drz_dither_1.fits"%string. Proof. reflexivity. Qed.
(** The six rows of a grid of two columns *)
Example six_rows : make_grid (fun _ => None) (fun _ => None) [("snr"%string, [1; 2; 3]%nat); ("q"%string, [5; 7]%nat)] "" =
  Some (["q"; "snr"]%string, [[5; 1]; [5; 2]; [5; 3]; [7; 1]; [7; 2]; [7; 3]]%nat).
Proof. reflexivity. Qed.
(** Two indices that print the same: both rows are fitted to the image of the first *)
Example shared_image : exists p q, g_sersic p <> g_sersic q /\ snd (run_grid [] [p; q]) = [p; p].
Proof. destruct C74_tags_collide as (p & q & Hne & Ht). exists p, q. split; [exact Hne|]. apply C74_tags_refuted; [congruence|exact Ht]. Qed.
(** Rows whose signal to noise ratios are 50 and 100 have images of their own *)
Example own_images : let ps := [mkPar (1 / 10) 1 1 50; mkPar (1 / 10) 1 1 100] in snd (run_grid [] ps) = ps.
Proof.
  cbv zeta. assert (Rz : forall z, round_even (IZR z) = z). { intros z. pose proof (round_even_near (IZR z)) as B. apply abs_le_inv in B. assert (A1 : IZR (round_even (IZR z)) < IZR z + 1) by lra. assert (A2 : IZR z - 1 < IZR (round_even (IZR z))) by lra. rewrite <- plus_IZR in A1. rewrite <- minus_IZR in A2. apply lt_IZR in A1, A2. lia. }
  apply C74_grid_own. intros [|[|i]] [|[|j]] p q Hp Hq Ht; cbn [nth_error] in Hp, Hq; try (destruct i; discriminate); try (destruct j; discriminate); try reflexivity; injection Hp as <-; injection Hq as <-; unfold tag_of in Ht; cbn [g_snr] in Ht; rewrite !Rz in Ht; injection Ht; discriminate.
Qed.
Example steps_case : let ps := [mkPar (1 / 10) 1 1 50; mkPar (1 / 10) 1 1 100; mkPar (1 / 10) 4 1 50; mkPar (2 / 10) 1 1 50; mkPar (1 / 10) 1 (1 / 2) 50] in snd (run_grid [] ps) = ps.
Proof.
  cbv zeta. apply C74_grid_steps. intros i j p q Hp Hq N.
  do 5 (destruct i as [|i]; [do 5 (destruct j as [|j]; [first [contradiction|injection Hp as <-; injection Hq as <-; cbn [g_sersic g_rhalf g_q g_snr];
    first [right; right; right; match goal with |- _ < Rabs ?e => unfold Rabs; destruct (Rcase_abs e); lra end|left; match goal with |- _ < Rabs ?e => unfold Rabs; destruct (Rcase_abs e); lra end
      |right; left; match goal with |- _ < Rabs ?e => unfold Rabs; destruct (Rcase_abs e); lra end|right; right; left; match goal with |- _ < Rabs ?e => unfold Rabs; destruct (Rcase_abs e); lra end]]|]); destruct j; discriminate|]); destruct i; discriminate.
Qed.
(** A run that is there, one that is not, one of another length *)
Definition run2 : sfile := mkS 2 7 [1; 2; 3] [("CLEAR"%string, [[4; 5; 6]])].
Example three_runs : exists rows, make_catalog ["CLEAR"%string] [None; Some run2; Some (mkS 3 1 [] [])] = Some rows /\ map c_id rows = [-1; 1; -1]%Z /\ exists r, nth_error rows 1 = Some r /\ c_cols r = [[5; 6]] /\ c_lnp r = [2; 3].
Proof. eexists. split; [reflexivity|]. split; [reflexivity|]. eexists. repeat split. Qed.
Example three_runs_meet : forall s, In (Some s) [None; Some run2; Some (mkS 3 1 [] [])] -> s_n s = s_n run2 -> (s_n run2 <= List.length (s_lnp s))%nat /\ forall c, In c ["CLEAR"%string] -> exists l, column_of c (s_chains s) = Some [l] /\ (s_n run2 <= List.length l)%nat.
Proof. intros s [E|[E|[E|[]]]] Hn; try discriminate; injection E as <-; [|discriminate]. split; [cbn; lia|]. intros c [<-|[]]. exists [4; 5; 6]. split; [reflexivity|cbn; lia]. Qed.
(** Two samples of which the lower is the better: nothing can be drawn at the best *)
Example no_point : point true [1; 0] [0; 1] = None.
Proof.
  apply (C74_map_point_refuted _ _ 0 (16 / 100)); [discriminate| | |cbn; lra].
  - cbn [map argmin argmin_from]. destruct (Rlt_dec _ _); [lra|reflexivity].
  - apply percentiles_spec. split; [discriminate|]. split; [intros q [<-|[]]; lra|]. cbn [map]. f_equal. unfold percentile, at_pos. cbv zeta. change (INR (List.length [0; 1] - 1)) with 1.
    rewrite (floorn_unique (1 * (16 / 100)) 0) by (cbn; lra). assert (Es : sort [0; 1] = [0; 1]) by (cbn [sort insert]; destruct (Rle_dec 0 1); [reflexivity|lra]). rewrite Es. cbn [nth List.length Nat.min Nat.add Nat.sub INR]. lra.
Qed.
(** Frames after a warm up of two samples *)
Example frames : movie 2 1 [10; 11; 12; 13]%nat = Some [(10, 12); (11, 13)]%nat. Proof. reflexivity. Qed.
Example frames_thinned : movie 1 2 [10; 11; 12; 13; 14]%nat = Some [(10, 11); (12, 13)]%nat. Proof. reflexivity. Qed.
(** Two panels of a trace within bounds *)
Example two_panels : exists ps, show_chain (9 / 10) ["F1"%string] ["q"%string] true 2 (fun _ => Some [1; 2]) (Some (fun _ => Some (0, 3))) None = Some ps /\ map t_label ps = ["F1"; "q"]%string.
Proof.
  unfold show_chain. cbn [app List.length Nat.leb andb mapM].
  assert (E : percentiles [1; 2] [100 * (1 / 2 - 1 / 2 * (9 / 10)); 100 * (1 / 2 + 1 / 2 * (9 / 10))] = Some (map (percentile [1; 2]) [100 * (1 / 2 - 1 / 2 * (9 / 10)); 100 * (1 / 2 + 1 / 2 * (9 / 10))])) by (apply percentiles_spec; split; [discriminate|]; split; [intros q [<-|[<-|[]]]; lra|reflexivity]).
  rewrite E. cbn [map]. eexists. split; reflexivity.
Qed.
(** The common span of two sets that are each given by one sample *)
Example common_span : forall argsort, exists lo hi, multispan argsort (1 / 2) [[[1]]; [[4]]] = Some [(lo, hi)] /\ lo <= 1 /\ 4 <= hi.
Proof.
  intros argsort.
  assert (One : forall v, get_spans argsort (1 / 2) None [[v]] None = Some [(v, v)]).
  { intros v. unfold get_spans. cbn [map List.length Nat.eqb combine mapM fst snd span_of]. unfold quantile1. 
    assert (E : forallb (in_range 0 1) [1 / 2 - 1 / 2 * (1 / 2); 1 / 2 + 1 / 2 * (1 / 2)] = true) by (apply forallb_forall; intros p [<-|[<-|[]]]; apply in_range_spec; lra). rewrite E. cbn [map].
    assert (Ep : percentiles [v] [100 * (1 / 2 - 1 / 2 * (1 / 2)); 100 * (1 / 2 + 1 / 2 * (1 / 2))] = Some [v; v]).
    { apply percentiles_spec. split; [discriminate|]. split; [intros q [<-|[<-|[]]]; lra|]. cbn [map]. unfold percentile, at_pos. cbn [List.length Nat.sub INR]. rewrite !Rmult_0_l. rewrite (floorn_unique 0 0) by (cbn; lra). cbn [sort insert nth Nat.min Nat.add List.length Nat.sub INR]. f_equal; [|f_equal]; lra. }
    rewrite Ep. reflexivity. }
  unfold multispan. cbn [mapM]. rewrite (One 1), (One 4). cbn [List.length forallb Nat.eqb andb fold_left combine map fst snd]. exists (Rmin 1 4), (Rmax 1 4). split; [reflexivity|]. split; [apply Rmin_l|apply Rmax_r].
Qed.
(** ... and leaves every pixel as it is *)
Example same_keeps : forall k im w v x, nth_error im k = Some v -> nth_error w k = Some x -> nth_error (same im w) k = Some (Some v, x).
Proof. intros k im w v x H1 H2. unfold same. rewrite nth_error_map, (combine_at im w k v x H1 H2). reflexivity. Qed.
