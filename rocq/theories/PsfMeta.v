(** C58: the shape of the table made of a fit, and of the group it is packaged in. *)
From Coq Require Import Reals Lra Lia.
From Coq Require Import ZArith List String Ascii Permutation Bool Sorted.
From Verif Require Import Np NpFacts EmModel PsfConvModel PsfConvFacts PsfHmcFacts PsfConvProps PsfHmcProps PsfBlur PsfConvCase.
Import ListNotations.
Open Scope R_scope.

Lemma taken_length d k n o l : taken d k n o = Some l -> List.length l = List.length o.
Proof. unfold taken. destruct (get d k) as [[]|]; try discriminate. destruct (Nat.eqb _ _); [|discriminate]. intros H. exact (mapM_length _ _ _ H). Qed.
Lemma conv_rows_length bin os cx cy scale : forall w x y s1 s2 r n, List.length w = n -> List.length x = n -> List.length y = n -> List.length s1 = n -> List.length s2 = n -> List.length r = n ->
  List.length (conv_rows bin os cx cy scale w x y s1 s2 r) = n.
Proof. induction w; intros [|] [|] [|] [|] [|] [|n]; cbn; intros; try discriminate; try reflexivity. f_equal. apply IHw; congruence. Qed.
Lemma conv_rows_bin bin os cx cy scale : forall w x y s1 s2 r g, In g (conv_rows bin os cx cy scale w x y s1 s2 r) -> g_bin g = bin.
Proof. induction w; intros [|] [|] [|] [|] [|] g; cbn; intros H; try contradiction. destruct H as [<-|H]; [reflexivity|eauto]. Qed.
Lemma concat_length_const {A} n : forall l : list (list A), (forall x, In x l -> List.length x = n) -> List.length (List.concat l) = (List.length l * n)%nat.
Proof. induction l as [|x l IH]; intros H; [reflexivity|]. cbn [List.concat List.length]. rewrite app_length, (H x (or_introl eq_refl)), IH by (intros y Hy; apply H; now right). lia. Qed.
Lemma by_name_replaced band g : forall f : h5, by_name band (replace_group f band g) = Some g /\ forall other, other <> band -> by_name other (replace_group f band g) = by_name other f.
Proof.
  induction f as [|(k & v) t [I1 I2]].
  - cbn. rewrite String.eqb_refl. split; [reflexivity|]. intros other Ho. destruct (String.eqb_spec band other); [congruence|]. destruct (String.eqb_spec other band); [congruence|reflexivity].
  - cbn [replace_group]. destruct (String.eqb_spec k band) as [->|Hk].
    + cbn. rewrite String.eqb_refl. split; [reflexivity|]. intros other Ho. destruct (String.eqb_spec band other); [congruence|]. destruct (String.eqb_spec other band); [congruence|reflexivity].
    + cbn. destruct (String.eqb_spec band k); [congruence|]. destruct (String.eqb_spec k band); [congruence|]. split; [exact I1|]. intros other Ho. now rewrite I2.
Qed.

(** Every fit that is converted: a cell for every location and radius, in which every Gaussian of the fit appears once and
    carries the number of the radius. Packaged under its band, by agreement or where there was none, every location has the
    number of Gaussians the group declares, and the other bands of the file are as they were. *)
Theorem C58_shape : forall argsort best cx cy nloc nradii os ps scale, (forall l, Permutation (argsort l) (seq 0 (List.length l))) ->
  convert_psf_data argsort best cx cy nloc nradii os = Some (ps, scale) ->
  (exists bx, get best "x" = Some (Vec bx) /\ q_ngauss ps = List.length bx) /\ q_nloc ps = nloc /\ q_nradii ps = nradii /\ List.length (q_cells ps) = nloc /\
  (forall l bins, nth_error (q_cells ps) l = Some bins -> List.length bins = nradii /\
    forall r rows, nth_error bins r = Some rows -> List.length rows = q_ngauss ps /\ forall g, In g rows -> g_bin g = r) /\
  forall (f : h5) band overwrite, (overwrite = true \/ by_name band f = None) -> exists f' g, package_output f band ps overwrite = (f', true) /\
    by_name band f' = Some g /\ List.length (b_parameters g) = nloc /\ (forall l row, nth_error (b_parameters g) l = Some row -> List.length row = b_npsf g) /\
    forall other, other <> band -> by_name other f' = by_name other f.
Proof.
  intros argsort best cx cy nloc nradii os ps scale HA H.
  assert (K : exists bx, get best "x" = Some (Vec bx) /\ q_nloc ps = nloc /\ q_nradii ps = nradii /\ q_ngauss ps = List.length bx /\ exists bins, q_cells ps = repeat bins nloc /\ List.length bins = nradii /\
    forall r rows, nth_error bins r = Some rows -> List.length rows = List.length bx /\ forall g, In g rows -> g_bin g = r).
  { unfold convert_psf_data in H. destruct (get best "x") as [[?|bx]|] eqn:Ex; try discriminate.
    destruct (get best "weight") as [[?|bw]|] eqn:Ew; try discriminate. destruct (get_default best "a" 1) as [sc|]; [|discriminate].
    destruct (taken best "weight" _ _) as [w|] eqn:T1; [|discriminate]. destruct (taken best "x" _ _) as [x|] eqn:T2; [|discriminate]. destruct (taken best "y" _ _) as [y|] eqn:T3; [|discriminate].
    destruct (taken best "sx" _ _) as [s0|] eqn:T4; [|discriminate]. destruct (taken best "rho" _ _) as [r|] eqn:T5; [|discriminate].
    assert (Lo : List.length (rev (argsort bw)) = List.length bx).
    { rewrite rev_length, (Permutation_length (HA bw)), seq_length. unfold taken in T1. rewrite Ew in T1. destruct (Nat.eqb_spec (List.length bw) (List.length bx)); [assumption|discriminate]. }
    match type of H with match ?e with _ => _ end = _ => destruct e as [s2|] eqn:E2; [|discriminate] end. injection H as <- _. exists bx. cbn [q_nloc q_nradii q_ngauss q_cells].
    apply taken_length in T1, T2, T3, T4, T5.
    assert (L2 : List.length s2 = List.length bx).
    { destruct (get best "sy"); [|destruct (get best "q"); [|discriminate]]; (destruct (taken best _ _ _) as [q|] eqn:T6; [|discriminate]); apply taken_length in T6; injection E2 as <-; rewrite map_length; [congruence|]. rewrite combine_length, map_length. rewrite T4, T6, Lo. apply Nat.min_id. }
    repeat (split; [reflexivity|]). eexists. split; [reflexivity|]. split; [rewrite map_length, seq_length; reflexivity|].
    intros k rows Hk. rewrite nth_error_map in Hk. destruct (nth_error (seq 0 nradii) k) as [b|] eqn:Eb; [|discriminate]. injection Hk as <-.
    assert (b = k). { assert (k < List.length (seq 0 nradii))%nat by (apply nth_error_Some; congruence). rewrite seq_length in *. apply (nth_error_nth _ _ O) in Eb. rewrite seq_nth in Eb by assumption. cbn in Eb. congruence. } subst b.
    split; [apply conv_rows_length; rewrite ?map_length; congruence|]. intros g Hg. exact (conv_rows_bin _ _ _ _ _ _ _ _ _ _ _ _ Hg). }
  destruct K as (bx & Kx & K1 & K2 & K3 & bins & K4 & K5 & K6). split; [exists bx; auto|]. split; [exact K1|]. split; [exact K2|]. split; [rewrite K4; apply repeat_length|]. split.
  - intros l b Hl. rewrite K4 in Hl. apply nth_error_In, repeat_spec in Hl. subst b. split; [exact K5|]. rewrite K3. exact K6.
  - intros f band ov Ho. set (g := mkGroup (map (@List.concat grow) (q_cells ps)) (q_nradii ps * q_ngauss ps)). exists (replace_group f band g), g. split.
    { unfold package_output. fold g. destruct (by_name band f); [|reflexivity]. destruct Ho as [->|Ho]; [reflexivity|discriminate]. }
    destruct (by_name_replaced band g f) as [R1 R2]. split; [exact R1|]. cbn [g b_parameters b_npsf]. split; [rewrite map_length, K4; apply repeat_length|]. split; [|exact R2].
    intros l row Hl. rewrite nth_error_map in Hl. destruct (nth_error (q_cells ps) l) as [b|] eqn:Eb; [|discriminate]. injection Hl as <-. rewrite K4 in Eb. apply nth_error_In, repeat_spec in Eb. subst b.
    rewrite (concat_length_const (List.length bx)); [rewrite K5, K2, K3; reflexivity|]. intros rows Hr. apply In_nth_error in Hr. destruct Hr as (r & Hr). exact (proj1 (K6 r rows Hr)).
Qed.
Print Assumptions C58_shape.
(** The two Gaussians of the case above at three radii and four locations: six to a location *)
Example C58_shape_case : exists ps g f', convert_psf_data rargsort (scale_psf_data two 20 20 2) 20 20 4 3 1 = Some (ps, 1) /\
  package_output [] "F090W" ps false = (f', true) /\ by_name "F090W"%string f' = Some g /\ List.length (b_parameters g) = 4%nat /\ b_npsf g = 6%nat.
Proof.
  destruct (C58_scaled rargsort two 20 20 2 4 3 (fun l => proj1 (rargsort_ok l)) ltac:(lra) two_positive) as (ps & H & _).
  destruct (C58_shape _ _ _ _ _ _ _ _ _ (fun l => proj1 (rargsort_ok l)) H) as ((bx & Ex & N) & _ & Nr & _ & _ & P). destruct (P [] "F090W"%string false (or_intror eq_refl)) as (f' & g & P1 & P2 & P3 & _).
  exists ps, g, f'. split; [exact H|]. split; [exact P1|]. split; [exact P2|]. split; [exact P3|].
  unfold package_output in P1. cbn [by_name] in P1. injection P1 as <-. cbn in P2. injection P2 as <-. cbn [b_npsf]. rewrite Nr, N. cbn in Ex. injection Ex as <-. reflexivity.
Qed.
