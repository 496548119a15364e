(** C33: bounds as vectors, adjusted bounds, and catalogs whose bounds fail. *)
From Verif Require Import Np NpFacts AnglesModel BoundsModel BoundsProps.
From Coq Require Import Reals Lra Psatz.
Open Scope R_scope.

(** ** bounds_vectors *)
Lemma forall2_app {A B} (P : A -> B -> Prop) a a' b b' : List.length a = List.length b -> (Forall2 P (a ++ a') (b ++ b') <-> Forall2 P a b /\ Forall2 P a' b').
Proof.
  revert b. induction a as [|x a IH]; intros [|y b] L; simpl in L; try discriminate; simpl.
  - split; [auto|tauto].
  - split.
    + intros H. inversion H; subst. destruct (proj1 (IH b ltac:(lia)) ltac:(eassumption)). auto.
    + intros [H1 H2]. inversion H1; subst. constructor; auto. apply IH; auto.
Qed.
Lemma forall2_map {A B C} (P : B -> C -> Prop) (f : A -> B) (g : A -> C) l : Forall2 P (map f l) (map g l) <-> forall c, In c l -> P (f c) (g c).
Proof.
  induction l as [|x l IH]; simpl; [split; [intros _ c []|constructor]|]. split.
  - intros H. inversion H; subst. intros c [<-|Hc]; auto. apply IH; auto.
  - intros H. constructor; auto. apply IH. auto.
Qed.
Lemma forall2_grid {X C A B} (P : A -> B -> Prop) (f : X -> C -> A) (g : nat -> C -> B) cols xs : forall k,
  Forall2 P (flat_map (fun x => map (f x) cols) xs) (List.concat (map (fun i => map (g i) cols) (seq k (List.length xs)))) <->
  forall i x c, nth_error xs i = Some x -> In c cols -> P (f x c) (g (k + i)%nat c).
Proof.
  induction xs as [|x xs IH]; intros k; cbn [flat_map List.length seq map List.concat].
  - split; [intros _ [|i] ? ? H; discriminate|constructor].
  - rewrite forall2_app by (rewrite !map_length; auto). rewrite forall2_map, IH. split.
    + intros [H1 H2] [|i] y c Hy Hc; simpl in Hy; [injection Hy as <-; rewrite Nat.add_0_r; auto|]. rewrite <- Nat.add_succ_comm. auto.
    + intros H. split; [intros c Hc; specialize (H 0%nat x c eq_refl Hc); rewrite Nat.add_0_r in H; auto|]. intros i y c Hy Hc. rewrite Nat.add_succ_comm. apply (H (S i)); auto.
Qed.
Lemma lookup_in b c col : NoDup (map fst b) -> (lookup b c = Some col <-> In (c, col) b).
Proof.
  induction b as [|[c' col'] b IH]; simpl; intros H; [split; [discriminate|intros []]|]. inversion H as [|? ? Hn Hd]; subst. destruct (string_dec c c') as [->|Hne].
  - split; [intros E; injection E as ->; auto|]. intros [E|Hin]; [congruence|]. exfalso. apply Hn. apply in_map_iff. exists (c', col). auto.
  - rewrite IH by auto. split; [auto|]. intros [E|Hin]; [congruence|auto].
Qed.
Lemma shift_in x r v : strictly_in (x - r) (shift r v) <-> strictly_in x v.
Proof.
  unfold strictly_in, shift. destruct v as [[lo|] [hi|]]; cbn [fst snd lift]; split; intros (a & b & E & H); try discriminate; injection E as <- <-; do 2 eexists; (split; [reflexivity|lra]).
Qed.
Lemma combine_map_fst_snd {A B} (l : list (A * B)) : combine (map fst l) (map snd l) = l.
Proof. induction l as [|[a b] l IH]; simpl; [|rewrite IH]; auto. Qed.
Lemma concat_map_length {A} (f : nat -> list A) m l : (forall i, In i l -> List.length (f i) = m) -> List.length (List.concat (map f l)) = (List.length l * m)%nat.
Proof. induction l as [|i l IH]; intros H; simpl; [auto|]. rewrite app_length, (H i) by (simpl; auto). rewrite IH; [auto|]. intros j Hj. apply H. simpl. auto. Qed.
(** The vectors have one entry per source and parameter, in the order of the parameter
    vector with the same reference, and a parameter vector strictly between them is the
    same as a catalog that passes the check. *)
Theorem C33_vectors : forall cat b filternames shapenames ref, matches cat b -> NoDup (map fst b) -> map fst b = filternames ++ shapenames ->
  exists lo hi, bounds_vectors b (List.length (rows cat)) filternames shapenames ref = Some (lo, hi) /\
    List.length lo = (List.length (rows cat) * List.length (filternames ++ shapenames))%nat /\ List.length hi = List.length lo /\
    (check_bounds cat b = Passed <-> Forall2 strictly_in (param_vector cat (filternames ++ shapenames) ref) (combine lo hi)).
Proof.
  intros cat b fn sn ref M Nd Hn. set (cols := fn ++ sn) in *. set (N := List.length (rows cat)).
  set (sh := fun (c : string) v => if string_dec c "ra" then shift (fst ref) v else if string_dec c "dec" then shift (snd ref) v else v).
  set (g := fun (i : nat) (c : string) => match lookup b c with None => (None, None) | Some col => sh c (nth i col (None, None)) end).
  assert (HL : forall c, In c cols -> exists col, lookup b c = Some col /\ In (c, col) b /\ List.length col = N).
  { intros c Hc. rewrite <- Hn in Hc. apply in_map_iff in Hc. destruct Hc as ([c' col] & E & Hin). cbn in E. subst c'. exists col. split; [apply lookup_in; auto|]. split; auto. apply (M c col Hin). }
  assert (HR : mapM (row_bounds b cols ref) (seq 0 N) = Some (map (fun i => map (g i) cols) (seq 0 N))).
  { apply mapM_some. intros i Hi. apply in_seq in Hi. unfold row_bounds. apply mapM_some. intros c Hc. destruct (HL c Hc) as (col & E & _ & Hl). unfold g. rewrite E.
    rewrite (nth_error_nth' col (None, None)) by lia. reflexivity. }
  unfold bounds_vectors. fold cols. rewrite HR. do 2 eexists. split; [reflexivity|]. rewrite !map_length.
  split; [rewrite (concat_map_length _ (List.length cols)), seq_length; [auto|intros; now rewrite map_length]|]. split; [reflexivity|].
  rewrite combine_map_fst_snd. unfold param_vector. unfold N. rewrite (forall2_grid strictly_in (fun (row : string -> R) c => if string_dec c "ra" then row c - fst ref else if string_dec c "dec" then row c - snd ref else row c) g cols (rows cat) 0).
  rewrite (proj1 (C33_check_exact cat b M)).
  assert (K : forall i row c col bd, lookup b c = Some col -> nth_error col i = Some bd -> (strictly_in (if string_dec c "ra" then row c - fst ref else if string_dec c "dec" then row c - snd ref else row c) (g i c) <-> strictly_in (row c) bd)).
  { intros i row c col bd E Eb. unfold g. rewrite E, (nth_error_nth _ _ _ Eb). unfold sh. destruct (string_dec c "ra"); [apply shift_in|]. destruct (string_dec c "dec"); [apply shift_in|reflexivity]. }
  split.
  - intros H i row c Hr Hc. destruct (HL c Hc) as (col & E & Hin & Hl). destruct (nth_error col i) as [bd|] eqn:Eb.
    + apply (K i row c col bd E Eb). eauto.
    + apply nth_error_None in Eb. assert (i < N)%nat by (apply nth_error_Some; congruence). lia.
  - intros H c col i row bd Hin Hr Hb. assert (Hc : In c cols) by (rewrite <- Hn; apply in_map_iff; exists (c, col); auto).
    assert (E : lookup b c = Some col) by (apply lookup_in; auto). apply (K i row c col bd E Hb). exact (H i row c Hr Hc).
Qed.

(** ** Catalogs whose own bounds fail the check *)
(** A zero flux, without uncertainties *)
Theorem C33_zero_flux_refuted : forall active filternames n_sig dpos rg i row f,
  (forall c, In c (filternames ++ shape_names) -> In c (names active)) -> 0 < n_sig -> 0 < fst dpos -> 0 < snd dpos ->
  (forall row, In row (rows active) -> -90 < row "dec"%string < 90) -> nth_error (rows active) i = Some row -> In f filternames -> row f = 0 ->
  exists b c, make_bounds active filternames None n_sig dpos rg = Some b /\ check_bounds active b = BoundsError c.
Proof.
  intros active fn n dpos rg i row f Hn Hs H0 H1 Hd Hr Hf Hz. destruct (C33_generated_iff_partial active fn None n dpos rg Hn ltac:(discriminate) Hs H0 H1 Hd) as (b & Hb & M & _ & Hiff).
  exists b. destruct (proj2 (C33_check_exact active b M)) as [Hp|(c & _ & _ & _ & _ & Hc & _)]; [|eauto]. exfalso. apply (proj2 (proj1 Hiff Hp i row Hr) f Hf). exact Hz.
Qed.
(** Defaults: an axis ratio that rectify_catalog lets pass (767, 792) is outside the bounds
    made by default (808). *)
Theorem C33_default_ranges_refuted : forall active filternames n_sig dpos i row x,
  (forall c, In c (filternames ++ shape_names) -> In c (names active)) -> 0 < n_sig -> 0 < fst dpos -> 0 < snd dpos ->
  (forall row, In row (rows active) -> -90 < row "dec"%string < 90) -> nth_error (rows active) i = Some row ->
  x <= 4 / 10 -> row "q"%string = clip x (2 / 10) (99 / 100) ->
  exists b c, make_bounds active filternames None n_sig dpos default_ranges = Some b /\ check_bounds active b = BoundsError c.
Proof.
  intros active fn n dpos i row x Hn Hs H0 H1 Hd Hr Hx Hq. destruct (C33_generated_iff_partial active fn None n dpos default_ranges Hn ltac:(discriminate) Hs H0 H1 Hd) as (b & Hb & M & _ & Hiff).
  exists b. destruct (proj2 (C33_check_exact active b M)) as [Hp|(c & _ & _ & _ & _ & Hc & _)]; [|eauto]. exfalso. destruct (proj1 Hiff Hp i row Hr) as [(Q & _) _]. cbn in Q. rewrite Hq in Q.
  unfold clip, Rmin, Rmax in Q. destruct (Rle_dec x (2 / 10)); destruct (Rle_dec _ (99 / 100)); lra.
Qed.

(** ** adjust_bounds *)
(** The bounds only get wider. *)
Theorem C33_adjust_widens : forall minflux maxfluxfactor eps flux b i f bd x, nth_error flux i = Some f -> nth_error b i = Some bd -> strictly_in x bd ->
  exists bd', nth_error (fst (adjust_band minflux maxfluxfactor eps flux b)) i = Some bd' /\ strictly_in x bd' /\
    (forall m, minflux = Some m -> exists lo, fst bd' = Some lo /\ lo <= m) /\ (0 < maxfluxfactor -> exists hi, snd bd' = Some hi /\ f * maxfluxfactor <= hi).
Proof.
  intros mf mx eps flux b i f bd x Hf Hb (lo & hi & -> & Hlt). unfold adjust_band. cbn [fst]. rewrite nth_error_map, (combine_nth_error _ _ _ _ _ Hf Hb). cbn [option_map]. eexists. split; [reflexivity|]. unfold widen. cbn [fst snd].
  split; [|split].
  - destruct mf as [m|]; destruct (Rlt_dec 0 mx); cbn [minv maxv lift]; do 2 eexists; (split; [reflexivity|]); (split; [first [eapply Rle_lt_trans; [apply Rmin_l|tauto]|tauto]|first [eapply Rlt_le_trans; [|apply Rmax_l]; tauto|tauto]]).
  - intros m ->. cbn [minv lift]. eexists. split; [reflexivity|]. apply Rmin_r.
  - intros H. destruct (Rlt_dec 0 mx); [|contradiction]. cbn [maxv lift]. eexists. split; [reflexivity|]. apply Rmax_r.
Qed.
(** But the fluxes are put below their lower bound, all of them. *)
Theorem C33_adjust_refuted : forall minflux maxfluxfactor eps flux (b : list (value * value)) i f lo hi, 0 < eps -> nth_error flux i = Some f -> nth_error b i = Some (Some lo, Some hi) ->
  exists bd' f', nth_error (fst (adjust_band minflux maxfluxfactor eps flux b)) i = Some bd' /\
    nth_error (snd (adjust_band minflux maxfluxfactor eps flux b)) i = Some (Some f') /\ ~ strictly_in f' bd'.
Proof.
  intros mf mx eps flux b i f lo hi He Hf Hb. unfold adjust_band. cbn [fst snd]. set (b' := map (fun fb : R * (value * value) => widen mf mx (fst fb) (snd fb)) (combine flux b)).
  assert (E : nth_error b' i = Some (widen mf mx f (Some lo, Some hi))) by (unfold b'; rewrite nth_error_map, (combine_nth_error flux b i f ((Some lo, Some hi) : value * value) Hf Hb); reflexivity).
  rewrite E, nth_error_map, (combine_nth_error _ _ _ _ _ Hf E). cbn [option_map fst snd]. unfold adjust_flux.
  assert (G : exists lo', fst (widen mf mx f (Some lo, Some hi)) = Some lo') by (destruct mf; cbn; eauto). destruct G as (lo' & G). rewrite G. do 2 eexists. split; [reflexivity|]. split; [reflexivity|].
  intros (a & c & Ew & Hlt). rewrite Ew in G. cbn in G. injection G as ->. unfold clip in Hlt. assert (Rmin (Rmax f (lo' + eps)) (lo' - eps) <= lo' - eps) by apply Rmin_r. lra.
Qed.

(** ** A catalog *)
Definition case_row (f : R) (c : string) : R :=
  if string_dec c "F090W" then f else if string_dec c "ra" then 53 else if string_dec c "dec" then -27 else if string_dec c "q" then 9 / 10 else if string_dec c "pa" then 0 else if string_dec c "sersic" then 2 else 1 / 10.
Definition case_cat (f : R) : catalog := mkCat ("F090W"%string :: shape_names) [case_row (-3); case_row f].
Example C33_case : (forall c, In c (["F090W"%string] ++ shape_names) -> In c (names (case_cat 4))) /\ 0 < 5 /\
  (forall row, In row (rows (case_cat 4)) -> -90 < row "dec"%string < 90) /\ NoDup (["F090W"%string] ++ shape_names) /\
  exists b, make_bounds (case_cat 4) ["F090W"%string] None 5 (6 / 100, 6 / 100) default_ranges = Some b /\ matches (case_cat 4) b /\ check_bounds (case_cat 4) b = Passed.
Proof.
  assert (H1 : forall c, In c (["F090W"%string] ++ shape_names) -> In c (names (case_cat 4))) by (intros c Hc; exact Hc).
  assert (H2 : forall row, In row (rows (case_cat 4)) -> -90 < row "dec"%string < 90) by (intros row [<-|[<-|[]]]; unfold case_row; simpl; lra).
  split; [exact H1|]. split; [lra|]. split; [exact H2|]. split; [repeat constructor; simpl; intuition discriminate|].
  destruct (C33_generated_iff_partial (case_cat 4) ["F090W"%string] None 5 (6 / 100, 6 / 100) default_ranges H1 ltac:(discriminate) ltac:(lra) ltac:(simpl; lra) ltac:(simpl; lra) H2) as (b & Hb & M & _ & Hiff).
  exists b. split; auto. split; auto. apply Hiff. pose proof PI_RGT_0. intros i row Hr. assert (Hin : exists f, row = case_row f /\ f <> 0). { apply nth_error_In in Hr. destruct Hr as [<-|[<-|[]]]; eexists; (split; [reflexivity|lra]). }
  destruct Hin as (f & -> & Hf). split; [unfold shapes_inside, case_row; simpl; lra|]. intros c [<-|[]]. unfold flux_inside, case_row. simpl. exact Hf.
Qed.
Example C33_zero_case : nth_error (rows (case_cat 0)) 1 = Some (case_row 0) /\ case_row 0 "F090W" = 0.
Proof. split; reflexivity. Qed.
Example C33_adjust_case : strictly_in 2 (Some 1, Some 3).
Proof. exists 1, 3. split; [reflexivity|lra]. Qed.
Print Assumptions C33_check_exact.
Print Assumptions C33_precision.
Print Assumptions C33_generated_iff_partial.
Print Assumptions C33_vectors.
Print Assumptions C33_zero_flux_refuted.
Print Assumptions C33_default_ranges_refuted.
Print Assumptions C33_adjust_widens.
Print Assumptions C33_adjust_refuted.
