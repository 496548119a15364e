(** C33: generated bounds and their check. *)
From Verif Require Import Np NpFacts AnglesModel BoundsModel.
From Coq Require Import Reals Lra Psatz.
Open Scope R_scope.

Definition strictly_in (x : R) (b : value * value) : Prop := exists lo hi, b = (Some lo, Some hi) /\ lo < x < hi.
Lemma ltv_true a b : ltv a b = true <-> exists x y, a = Some x /\ b = Some y /\ x < y.
Proof.
  unfold ltv. destruct a as [x|], b as [y|]; split; try discriminate; try (intros (u & v & E1 & E2 & _); discriminate).
  - destruct (Rlt_dec x y); [eauto|discriminate].
  - intros (u & v & E1 & E2 & H). injection E1 as ->. injection E2 as ->. destruct (Rlt_dec u v); auto.
Qed.
Lemma forallb2 {A B} (f : A * B -> bool) a b : forallb f (combine a b) = true <-> forall i x y, nth_error a i = Some x -> nth_error b i = Some y -> f (x, y) = true.
Proof.
  revert b. induction a as [|x a IH]; intros [|y b]; simpl; (split; [intros H i u v Hu Hv|intros H]); auto; try (destruct i; simpl in *; discriminate).
  - apply andb_true_iff in H. destruct H as [H1 H2]. destruct i as [|i]; simpl in *; [congruence|]. exact (proj1 (IH b) H2 i u v Hu Hv).
  - apply andb_true_iff. split; [apply (H 0%nat); auto|]. apply IH. intros i u v Hu Hv. apply (H (S i)); auto.
Qed.
Lemma check_column_spec c src col : List.length src = List.length col ->
  (check_column c src col = Passed <-> forall i x b, nth_error src i = Some x -> nth_error col i = Some b -> strictly_in x b) /\
  (check_column c src col = Passed \/ check_column c src col = BoundsError c).
Proof.
  intros L. unfold check_column. rewrite L, Nat.eqb_refl.
  destruct (forallb _ (combine src col)) eqn:E1; [destruct (forallb (fun sb => ltv (Some (fst sb)) (snd (snd sb))) (combine src col)) eqn:E2|].
  - rewrite forallb2 in E1, E2. split; [|auto]. split; auto. intros _ i x b Hx Hb. specialize (E1 i x b Hx Hb). specialize (E2 i x b Hx Hb). cbn [fst snd] in *.
    apply ltv_true in E1, E2. destruct E1 as (lo & x' & H1 & H2 & H3). destruct E2 as (x'' & hi & H4 & H5 & H6). injection H2 as <-. injection H4 as <-. destruct b as [l h]. cbn in *. subst. exists lo, hi. auto.
  - split; [|auto]. split; [discriminate|]. intros H. rewrite <- not_true_iff_false in E2. exfalso. apply E2. apply forallb2. intros i x b Hx Hb. destruct (H i x b Hx Hb) as (lo & hi & -> & Hlt). cbn. destruct (Rlt_dec x hi); auto; lra.
  - split; [|auto]. split; [discriminate|]. intros H. rewrite <- not_true_iff_false in E1. exfalso. apply E1. apply forallb2. intros i x b Hx Hb. destruct (H i x b Hx Hb) as (lo & hi & -> & Hlt). cbn. destruct (Rlt_dec lo x); auto; lra.
Qed.
(** Bounds for this catalog: each column exists and has one entry per row. *)
Definition matches (cat : catalog) (b : bounds) : Prop := forall c col, In (c, col) b -> In c (names cat) /\ List.length col = List.length (rows cat).
(** The check passes exactly when every parameter is strictly inside its bounds;
    otherwise it names a column in which one is not. *)
Theorem C33_check_exact : forall cat b, matches cat b ->
  (check_bounds cat b = Passed <-> forall c col i row bd, In (c, col) b -> nth_error (rows cat) i = Some row -> nth_error col i = Some bd -> strictly_in (row c) bd) /\
  (check_bounds cat b = Passed \/ exists c col i row bd, check_bounds cat b = BoundsError c /\ In (c, col) b /\ nth_error (rows cat) i = Some row /\ nth_error col i = Some bd /\ ~ strictly_in (row c) bd).
Proof.
  intros cat b M. assert (X : (check_bounds cat b = Passed /\ forall c col i row bd, In (c, col) b -> nth_error (rows cat) i = Some row -> nth_error col i = Some bd -> strictly_in (row c) bd) \/
    exists c col i row bd, check_bounds cat b = BoundsError c /\ In (c, col) b /\ nth_error (rows cat) i = Some row /\ nth_error col i = Some bd /\ ~ strictly_in (row c) bd).
  { induction b as [|[c col] b IH]; cbn [check_bounds]; [left; split; auto; intros c col i row bd []|]. destruct (M c col (or_introl eq_refl)) as [Hn Hl]. unfold column. destruct (in_dec string_dec c (names cat)); [|contradiction].
    destruct (check_column_spec c (map (fun r => r c) (rows cat)) col) as [Hs Ho]; [rewrite map_length; auto|]. destruct Ho as [Ho|Ho]; rewrite Ho.
    - destruct IH as [[E H]|(c' & col' & j & row & bd & E & H)]; [intros c' col' Hin; apply M; right; auto| |].
      + left. split; auto. intros c' col' j row bd [Heq|Hin] Hr Hb; [|eauto]. injection Heq as <- <-. apply (proj1 Hs Ho j); auto. rewrite nth_error_map, Hr. reflexivity.
      + right. exists c', col', j, row, bd. split; auto. split; [right|]; tauto.
    - right. assert (N : ~ forall j row bd, nth_error (rows cat) j = Some row -> nth_error col j = Some bd -> strictly_in (row c) bd).
      { intros H. rewrite (proj2 Hs) in Ho; [discriminate|]. intros j x bd Hx Hb. rewrite nth_error_map in Hx. destruct (nth_error (rows cat) j) as [row|] eqn:Er; [|discriminate]. injection Hx as <-. eauto. }
      (* the first entry that is outside *)
      assert (Hdec : forall x bd, strictly_in x bd \/ ~ strictly_in x bd).
      { intros x [[lo|] [hi|]]; try (right; intros (a & b' & E & _); discriminate). destruct (Rlt_dec lo x), (Rlt_dec x hi); [left; exists lo, hi; auto| | |]; right; intros (a & b' & E & H); injection E as <- <-; lra. }
      assert (Hex : forall (rs : list (string -> R)) (cs : list (value * value)), (forall j row bd, nth_error rs j = Some row -> nth_error cs j = Some bd -> strictly_in (row c) bd) \/ exists j row bd, nth_error rs j = Some row /\ nth_error cs j = Some bd /\ ~ strictly_in (row c) bd).
      { clear - Hdec. induction rs as [|r rs IH]; intros cs; [left; intros [|j] ? ? H; discriminate|]. destruct cs as [|b cs]; [left; intros [|j] ? ? _ H; discriminate|]. destruct (Hdec (r c) b) as [H|H]; [|right; exists 0%nat, r, b; auto].
        destruct (IH cs) as [G|(j & row & bd & G)]; [|right; exists (S j), row, bd; auto]. left. intros [|j] row bd H1 H2; simpl in *; [congruence|eauto]. }
      destruct (Hex (rows cat) col) as [G|(j & row & bd & G1 & G2 & G3)]; [contradiction|]. exists c, col, j, row, bd. repeat split; auto. left. auto. }
  destruct X as [[E H]|(c & col & i & row & bd & E & Hin & Hr & Hb & Hn)].
  - split; [tauto|auto].
  - split; [|right; exists c, col, i, row, bd; auto]. rewrite E. split; [discriminate|]. intros H. exfalso. apply Hn. eauto.
Qed.

(** ** Fluxes *)
Lemma noise_pos unc1 f : 0 < unc1 -> f <> 0 -> noise_of unc1 f = Some (unc1 * sqrt (Rabs f)) /\ 0 < unc1 * sqrt (Rabs f).
Proof.
  intros Hu Hf. assert (Ha : 0 < Rabs f) by now apply Rabs_pos_lt. assert (Hs : 0 < sqrt (Rabs f)) by now apply sqrt_lt_R0. unfold noise_of, div.
  assert (0 < sqrt (Rabs f) / unc1) by (apply Rdiv_lt_0_compat; auto). destruct (Req_EM_T _ 0); [lra|]. split; [|nra]. f_equal.
  rewrite <- (sqrt_sqrt (Rabs f)) at 1 by lra. field. lra.
Qed.
Lemma noise_zero unc1 : noise_of unc1 0 = None.
Proof. unfold noise_of, div. rewrite Rabs_R0, sqrt_0. assert (E : 0 / unc1 = 0) by (unfold Rdiv; apply Rmult_0_l). rewrite E. destruct (Req_EM_T 0 0); [auto|lra]. Qed.
Lemma flux_lo_spec unc1 f : 0 < unc1 -> exists lo, flux_lo unc1 f = Some lo /\ (f <> 0 -> lo < f) /\ (f = 0 -> lo = 0).
Proof.
  intros Hu. unfold flux_lo. destruct (Req_dec f 0) as [->|Hf].
  - rewrite noise_zero. cbn [lift]. destruct (Rle_dec 0 (fmin unc1)); cbn [lift]; exists 0; repeat split; auto; intros; lra.
  - destruct (noise_pos unc1 f Hu Hf) as [-> Hn]. cbn [lift]. destruct (Rle_dec f (fmin unc1)); cbn [lift]; eexists; (split; [reflexivity|]); (split; [|intros; contradiction]); intros _; [|lra].
    eapply Rle_lt_trans; [apply Rmin_l|]. lra.
Qed.
Lemma flux_hi_spec unc1 f : 0 < unc1 -> f <> 0 -> exists hi, flux_hi unc1 f = Some hi /\ f < hi /\ fmin unc1 <= hi.
Proof.
  intros Hu Hf. unfold flux_hi. destruct (noise_pos unc1 f Hu Hf) as [-> Hn]. cbn [lift]. eexists. split; [reflexivity|]. split; [|apply Rmax_r]. eapply Rlt_le_trans; [|apply Rmax_l]. lra.
Qed.
Lemma flux_bounds_length unc1 fl : List.length (flux_bounds unc1 fl) = List.length fl.
Proof. unfold flux_bounds. rewrite combine_length, !map_length. lia. Qed.
Lemma combine_nth_error {A B} (a : list A) (b : list B) i x y : nth_error a i = Some x -> nth_error b i = Some y -> nth_error (combine a b) i = Some (x, y).
Proof. revert b i. induction a as [|u a IH]; intros [|v b] [|i] H1 H2; simpl in *; try discriminate; [congruence|auto]. Qed.
Lemma combine_nth_inv {A B} (a : list A) (b : list B) i p : nth_error (combine a b) i = Some p -> nth_error a i = Some (fst p) /\ nth_error b i = Some (snd p).
Proof. revert b i. induction a as [|u a IH]; intros [|v b] [|i] H; simpl in *; try discriminate; [injection H as <-; auto|auto]. Qed.
Lemma flux_bounds_in unc1 fl i f bd : 0 < unc1 -> nth_error fl i = Some f -> nth_error (flux_bounds unc1 fl) i = Some bd -> (strictly_in f bd <-> f <> 0).
Proof.
  intros Hu Hf Hb. unfold flux_bounds in Hb. cbv zeta in Hb. apply combine_nth_inv in Hb. destruct Hb as [H1 H2]. rewrite nth_error_map, Hf in H1. rewrite nth_error_map, nth_error_map, Hf in H2. cbn [option_map] in H1, H2. injection H1 as H1. injection H2 as H2.
  destruct (flux_lo_spec unc1 f Hu) as (lo & El & L1 & L2). destruct bd as [l h]. cbn [fst snd] in H1, H2. rewrite El in H1. subst l. split.
  - intros (a & b & E & Hlt) ->. injection E as -> _. rewrite (L2 eq_refl) in Hlt. lra.
  - intros Hn. destruct (flux_hi_spec unc1 f Hu Hn) as (hi & Eh & Hlt & _). rewrite Eh in H2. subst h. exists lo, hi. auto.
Qed.
Lemma unc_bounds_in n fl us i f u bd : 0 < n -> nth_error fl i = Some f -> nth_error us i = Some u -> nth_error (unc_flux_bounds n fl us) i = Some bd -> (strictly_in f bd <-> f <> 0 \/ 0 < u).
Proof.
  intros Hn Hf Hu Hb. unfold unc_flux_bounds in Hb. rewrite nth_error_map, (combine_nth_error _ _ _ _ _ Hf Hu) in Hb. cbn [option_map] in Hb. injection Hb as <-.
  assert (Hm : 0 < Rmax u (Rabs (5 / 100 * f)) <-> f <> 0 \/ 0 < u).
  { split.
    - intros H. destruct (Req_dec f 0) as [->|]; [|auto]. right. rewrite Rmult_0_r, Rabs_R0 in H. unfold Rmax in H. destruct (Rle_dec u 0); lra.
    - intros [H|H]; [|eapply Rlt_le_trans; [exact H|apply Rmax_l]]. eapply Rlt_le_trans; [|apply Rmax_r]. apply Rabs_pos_lt. lra. }
  rewrite <- Hm. split.
  - intros (a & b & E & H). injection E as <- <-. nra.
  - intros H. do 2 eexists. split; [reflexivity|]. nra.
Qed.
(** With the precision matrix, from any non-zero variance or positive flux: the flux is
    strictly inside, and so are positive fluxes up to unc1 sigma. *)
Theorem C33_precision : forall unc1 snr_max flux var i f v, 0 < unc1 -> 0 < snr_max -> nth_error flux i = Some f -> nth_error var i = Some v -> 0 < v \/ 0 < f ->
  exists lo hi, nth_error (flux_bounds_precision unc1 snr_max flux var) i = Some (Some lo, Some hi) /\ lo < f < hi /\ unc1 * sqrt v <= hi /\ 0 < hi.
Proof.
  intros unc1 snr_max flux var i f v Hu Hs Hf Hv H. unfold flux_bounds_precision. rewrite nth_error_map, (combine_nth_error _ _ _ _ _ Hf Hv). cbn [option_map]. do 2 eexists. split; [reflexivity|].
  set (sigma := Rmax (sqrt v) (f / snr_max)). assert (S1 : sqrt v <= sigma) by apply Rmax_l. assert (S2 : f / snr_max <= sigma) by apply Rmax_r.
  assert (P : 0 < sigma). { destruct H as [H|H]; [pose proof (sqrt_lt_R0 v H); lra|]. assert (0 < f / snr_max) by (apply Rdiv_lt_0_compat; auto). lra. }
  assert (M1 := Rmax_l (f + unc1 * sigma) (unc1 * sigma)). assert (M2 := Rmax_r (f + unc1 * sigma) (unc1 * sigma)). repeat split; nra.
Qed.

(** ** Generated bounds *)
Definition flux_inside (unc : option catalog) (i : nat) (row : string -> R) (b : string) : Prop :=
  match unc with None => row b <> 0 | Some u => row b <> 0 \/ exists ur, nth_error (rows u) i = Some ur /\ 0 < ur b end.
Definition shapes_inside (rg : ranges) (row : string -> R) : Prop :=
  fst (sqrtq_range rg) < row "q"%string < snd (sqrtq_range rg) /\ fst (pa_range rg) < row "pa"%string < snd (pa_range rg) /\
  fst (sersic_range rg) < row "sersic"%string < snd (sersic_range rg) /\ fst (rhalf_range rg) < row "rhalf"%string < snd (rhalf_range rg).
Lemma column_in cat c : In c (names cat) -> column cat c = Some (map (fun r => r c) (rows cat)).
Proof. intros H. unfold column. destruct (in_dec string_dec c (names cat)); [auto|contradiction]. Qed.
Lemma mapM_some {A B} (f : A -> option B) g l : (forall x, In x l -> f x = Some (g x)) -> mapM f l = Some (map g l).
Proof. induction l as [|x l IH]; intros H; simpl; [auto|]. rewrite H by (left; auto). rewrite IH by (intros; apply H; right; auto). auto. Qed.
Lemma ra_in dpos ra dec : 0 < dpos -> - 90 < dec < 90 -> strictly_in ra (ra_bound dpos ra dec).
Proof.
  intros Hp Hd. unfold ra_bound, div, deg2rad. pose proof PI_RGT_0. assert (C : 0 < cos (dec * (PI / 180))) by (apply cos_gt_0; nra). destruct (Req_EM_T _ 0); [lra|]. cbn [lift].
  assert (0 < dpos / 3600 / cos (dec * (PI / 180))) by (apply Rdiv_lt_0_compat; lra). do 2 eexists. split; [reflexivity|]. lra.
Qed.
(** For any catalog within the poles, with fluxes of either sign: bounds are made, they
    match the catalog, positions are always strictly inside, and the check passes exactly
    when every flux is not zero (or has a positive uncertainty, if given) and every shape
    is strictly inside its range. *)
Theorem C33_generated_iff_partial : forall active filternames unc n_sig dpos rg,
  (forall c, In c (filternames ++ shape_names) -> In c (names active)) ->
  (forall u, unc = Some u -> List.length (rows u) = List.length (rows active) /\ forall c, In c filternames -> In c (names u)) ->
  0 < n_sig -> 0 < fst dpos -> 0 < snd dpos -> (forall row, In row (rows active) -> -90 < row "dec"%string < 90) ->
  exists b, make_bounds active filternames unc n_sig dpos rg = Some b /\ matches active b /\ map fst b = filternames ++ shape_names /\
    (check_bounds active b = Passed <-> forall i row, nth_error (rows active) i = Some row -> shapes_inside rg row /\ forall f, In f filternames -> flux_inside unc i row f).
Proof.
  intros active fn unc n dpos rg Hnames Hunc Hn Hp0 Hp1 Hdec. unfold make_bounds.
  assert (Hsh : forall c, In c shape_names -> In c (names active)) by (intros; apply Hnames, in_or_app; auto).
  rewrite !column_in by (apply Hsh; unfold shape_names; simpl; tauto).
  set (fb := fun b => match unc with None => flux_bounds n (map (fun r => r b) (rows active)) | Some u => unc_flux_bounds n (map (fun r => r b) (rows active)) (map (fun r => r b) (rows u)) end).
  rewrite (mapM_some _ (fun b => (b, fb b))).
  2:{ intros b Hb. rewrite column_in by (apply Hnames, in_or_app; auto). unfold fb. destruct unc as [u|]; auto. destruct (Hunc u eq_refl) as [_ Hu]. rewrite column_in by auto. reflexivity. }
  eexists. split; [reflexivity|]. set (N := List.length (rows active)).
  assert (Lf : forall b, In b fn -> List.length (fb b) = N).
  { intros b Hb. unfold fb. destruct unc as [u|]; [|rewrite flux_bounds_length, map_length; auto]. destruct (Hunc u eq_refl) as [Hu _]. unfold unc_flux_bounds. rewrite map_length, combine_length, !map_length. unfold N. lia. }
  match goal with |- matches active ?l /\ _ => set (bl := l) end.
  assert (M : matches active bl).
  { intros c col Hin. unfold bl in Hin. apply in_app_or in Hin. destruct Hin as [Hin|Hin].
    - apply in_map_iff in Hin. destruct Hin as (b & E & Hb). injection E as <- <-. split; [apply Hnames, in_or_app; auto|]. now apply Lf.
    - simpl in Hin. repeat (destruct Hin as [E|Hin]; [injection E as <- <-; split; [apply Hsh; unfold shape_names; simpl; tauto|rewrite ?map_length, ?combine_length, ?map_length; fold N; lia]|]). destruct Hin. }
  split; auto. split; [unfold bl; rewrite map_app, map_map; f_equal; apply map_id|]. rewrite (proj1 (C33_check_exact active bl M)). split.
  - intros H i row Hr. assert (Hi : (i < N)%nat) by (apply nth_error_Some; congruence).
    assert (Hs : forall c p, In (c, map (fun _ => both p) (rows active)) bl -> fst p < row c < snd p).
    { intros c p Hin. destruct (H c _ i row (both p) Hin Hr) as (lo & hi & E & Hlt). { rewrite nth_error_map, Hr. reflexivity. } injection E as <- <-. exact Hlt. }
    split.
    + unfold shapes_inside. repeat split; (eapply Hs; unfold bl; apply in_or_app; right; simpl; tauto) || idtac; 
        match goal with |- fst ?p < row ?c => apply (Hs c p) | |- row ?c < snd ?p => apply (Hs c p) end; unfold bl; apply in_or_app; right; simpl; tauto.
    + intros f Hf. assert (Hin : In (f, fb f) bl) by (unfold bl; apply in_or_app; left; apply in_map_iff; eauto).
      destruct (nth_error (fb f) i) as [bd|] eqn:Eb; [|apply nth_error_None in Eb; rewrite Lf in Eb by auto; lia]. specialize (H f _ i row bd Hin Hr Eb). unfold fb in Eb. unfold flux_inside. destruct unc as [u|].
      * destruct (Hunc u eq_refl) as [Hl _]. destruct (nth_error (rows u) i) as [ur|] eqn:Eu; [|apply nth_error_None in Eu; lia].
        assert (X1 : nth_error (map (fun r : string -> R => r f) (rows active)) i = Some (row f)) by (rewrite nth_error_map, Hr; auto).
        assert (X2 : nth_error (map (fun r : string -> R => r f) (rows u)) i = Some (ur f)) by (rewrite nth_error_map, Eu; auto).
        apply (proj1 (unc_bounds_in n _ _ i _ (ur f) bd Hn X1 X2 Eb)) in H. destruct H; eauto.
      * assert (X1 : nth_error (map (fun r : string -> R => r f) (rows active)) i = Some (row f)) by (rewrite nth_error_map, Hr; auto). exact (proj1 (flux_bounds_in n _ i _ bd Hn X1 Eb) H).
  - intros H c col i row bd Hin Hr Hb. destruct (H i row Hr) as [(Q & P & S & Rh) Hf]. unfold bl in Hin. apply in_app_or in Hin. destruct Hin as [Hin|Hin].
    + apply in_map_iff in Hin. destruct Hin as (f & E & Hfn). injection E as <- <-. specialize (Hf f Hfn). unfold fb in Hb. unfold flux_inside in Hf. destruct unc as [u|].
      * destruct (Hunc u eq_refl) as [Hl _]. destruct (nth_error (rows u) i) as [ur|] eqn:Eu; [|apply nth_error_None in Eu; assert (i < List.length (rows active))%nat by (apply nth_error_Some; congruence); lia].
        assert (X1 : nth_error (map (fun r : string -> R => r f) (rows active)) i = Some (row f)) by (rewrite nth_error_map, Hr; auto).
        assert (X2 : nth_error (map (fun r : string -> R => r f) (rows u)) i = Some (ur f)) by (rewrite nth_error_map, Eu; auto).
        apply (proj2 (unc_bounds_in n _ _ i _ (ur f) bd Hn X1 X2 Hb)). destruct Hf as [Hf|(ur' & E & Hf)]; [auto|]. injection E as <-. auto.
      * assert (X1 : nth_error (map (fun r : string -> R => r f) (rows active)) i = Some (row f)) by (rewrite nth_error_map, Hr; auto). exact (proj2 (flux_bounds_in n _ i _ bd Hn X1 Hb) Hf).
    + assert (Hb2 : forall p, bd = both p -> fst p < row c < snd p -> strictly_in (row c) bd) by (intros p -> Hlt; exists (fst p), (snd p); auto).
      simpl in Hin. destruct Hin as [E|[E|[E|[E|[E|[E|[]]]]]]]; injection E as <- <-.
      * rewrite nth_error_map, (combine_nth_error _ _ i (row "ra"%string) (row "dec"%string)) in Hb by (rewrite nth_error_map, Hr; auto). injection Hb as <-. apply ra_in; auto. apply Hdec. eapply nth_error_In; eauto.
      * rewrite !nth_error_map, Hr in Hb. injection Hb as <-. do 2 eexists. split; [reflexivity|]. lra.
      * rewrite nth_error_map, Hr in Hb. injection Hb as <-. eapply Hb2; eauto.
      * rewrite nth_error_map, Hr in Hb. injection Hb as <-. eapply Hb2; eauto.
      * rewrite nth_error_map, Hr in Hb. injection Hb as <-. eapply Hb2; eauto.
      * rewrite nth_error_map, Hr in Hb. injection Hb as <-. eapply Hb2; eauto.
Qed.
