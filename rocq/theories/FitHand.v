(** C52: what the optimisation hands to the sampler. *)
From Verif Require Import Np NpFacts SceneModel SceneSpec SceneFacts ChainFacts SceneProps PosteriorModel PosteriorSpec PosteriorFacts PosteriorProps KernelSum FitModel FitFacts FitProps.
From Verif Require BoundsModel BoundsProps.
From Coq Require Import Reals Lra.
Open Scope R_scope.

Notation names bands := (bands ++ SHAPE_COLS Galaxy).
(** Every source has every parameter and its bounds, in the catalogs' own coordinates,
    with the value strictly between them. *)
Definition inside (bands : list string) (acols : list (srow R)) (bcat : list (srow (R * R))) : Prop :=
  List.length bcat = List.length acols /\
  forall s r b, nth_error acols s = Some r -> nth_error bcat s = Some b -> forall c, In c (names bands) ->
    exists v l u, col r c = Some v /\ col b c = Some (l, u) /\ l < v < u.
(** A catalog with ordered bounds *)
Definition bounded (bands : list string) (acols : list (srow R)) (bcat : list (srow (R * R))) : Prop :=
  List.length bcat = List.length acols /\
  (forall r c, In r acols -> In c (names bands) -> exists v, col r c = Some v) /\
  (forall b c, In b bcat -> In c (names bands) -> exists l u, col b c = Some (l, u) /\ l < u).
Definition shiftc (ref : R * R) (c : string) (v : R) : R := if String.eqb c "ra" then v - fst ref else if String.eqb c "dec" then v - snd ref else v.

Lemma zero_row_col ref r c v : (exists a, col r "ra" = Some a) -> (exists d, col r "dec" = Some d) -> col r c = Some v -> col (zero_row ref r) c = Some (shiftc ref c v).
Proof.
  intros (a & Ha) (d & Hd) Hc. unfold zero_row, shiftc. rewrite Ha, Hd. rewrite !col_put_col, (String.eqb_sym "dec" c), (String.eqb_sym "ra" c).
  destruct (String.eqb_spec c "ra") as [->|Nr].
  - change (String.eqb "ra" "dec") with false. cbv iota. rewrite Ha in *. congruence.
  - destruct (String.eqb_spec c "dec") as [->|Nd]; [|exact Hc]. change (String.eqb "ra" "dec") with false. cbv iota. rewrite Hd in *. congruence.
Qed.
Lemma mapM_exists {A B} (f : A -> option B) l : (forall a, In a l -> exists b, f a = Some b) -> exists r, mapM f l = Some r.
Proof.
  induction l as [|a l IH]; intros H; [exists []; reflexivity|]. destruct (H a (or_introl eq_refl)) as (b & Hb). destruct IH as (r & Hr); [intros x Hx; apply H; now right|]. exists (b :: r). cbn [mapM]. now rewrite Hb, Hr.
Qed.
Lemma scene_exists bands cat : (forall r c, In r cat -> In c (names bands) -> exists v, col r c = Some v) -> exists sc, scene_from_catalog (0 : R) bands cat = Some sc.
Proof.
  intros H. unfold scene_from_catalog. apply mapM_exists. intros r Hr. unfold galaxy_from_row.
  destruct (mapM_exists (col r) bands) as (fl & ->). { intros c Hc. apply (H r c Hr). apply in_or_app. now left. }
  assert (G : forall c, In c (SHAPE_COLS Galaxy) -> exists v, col r c = Some v) by (intros c Hc; apply (H r c Hr); apply in_or_app; now right).
  destruct (G "ra"%string ltac:(cbn; auto)) as (? & ->), (G "dec"%string ltac:(cbn; auto)) as (? & ->), (G "q"%string ltac:(cbn; auto)) as (? & ->), (G "pa"%string ltac:(cbn; auto)) as (? & ->),
    (G "sersic"%string ltac:(cbn; auto 8)) as (? & ->), (G "rhalf"%string ltac:(cbn; auto 8)) as (? & ->). eauto.
Qed.
Lemma index_split n w i : (i < n * w)%nat -> exists s j, i = (s * w + j)%nat /\ (s < n)%nat /\ (j < w)%nat.
Proof.
  intros H. assert (w <> O) by (intros ->; lia). exists (i / w)%nat, (i mod w)%nat. split; [rewrite Nat.mul_comm; now apply Nat.div_mod|]. split; [apply Nat.div_lt_upper_bound; lia|now apply Nat.mod_upper_bound].
Qed.

(** The model and start vector for catalogs with the values inside the bounds, whatever
    the reference coordinates *)
Lemma prepare_bounded bands ref active bcat : active <> [] -> bounded bands (map snd active) bcat ->
  exists lo up q, prepare bands ref active bcat = Some (lo, up, q) /\ List.length q = (List.length active * width bands)%nat /\ box lo up q /\
    forall s j c r b, nth_error active s = Some r -> nth_error bcat s = Some b -> nth_error (names bands) j = Some c ->
      exists v l u, col (snd r) c = Some v /\ col b c = Some (l, u) /\ nth_error q (s * width bands + j) = Some (shiftc ref c v) /\
        nth_error lo (s * width bands + j) = Some (shiftc ref c l) /\ nth_error up (s * width bands + j) = Some (shiftc ref c u).
Proof.
  intros Hne (HL & HA & HB). rewrite map_length in HL. unfold prepare. set (cat := map (fun r => zero_row ref (snd r)) active).
  assert (Hra : In "ra"%string (names bands)) by (apply in_or_app; right; cbn; auto). assert (Hdec : In "dec"%string (names bands)) by (apply in_or_app; right; cbn; auto).
  assert (Hz : forall r c, In r active -> In c (names bands) -> exists v, col (snd r) c = Some v /\ col (zero_row ref (snd r)) c = Some (shiftc ref c v)).
  { intros r c Hr Hc. assert (Hs : In (snd r) (map snd active)) by now apply in_map. destruct (HA _ c Hs Hc) as (v & Hv). exists v. split; [exact Hv|]. apply zero_row_col; auto. }
  destruct (scene_exists bands cat) as (sc & Hsc). { intros r c Hr Hc. apply in_map_iff in Hr. destruct Hr as (r0 & <- & Hr0). destruct (Hz r0 c Hr0 Hc) as (v & _ & Hv). eauto. }
  rewrite Hsc. destruct (C16_bounds_exist R Rminus bcat bands ref) as (lo & up & Hb). { intros r c Hr Hc. destruct (HB r c Hr Hc) as (l & u & E & _). eauto. }
  rewrite Hb. assert (Hcat : cat <> []) by (unfold cat; destruct active; [congruence|discriminate]). destruct (C16_parameter_vector R 0 bands cat sc Hcat Hsc) as (_ & q & Hq & Lq & Hqn). rewrite Hq.
  destruct (C16_bounds R Rminus bcat bands ref lo up Hb) as (Llo & Lup & Hbn). exists lo, up, q. split; [reflexivity|].
  assert (Lc : List.length cat = List.length active) by (unfold cat; now rewrite map_length). rewrite Lc in Lq. rewrite HL in Llo, Lup. split; [exact Lq|].
  assert (Key : forall s j c r b, nth_error active s = Some r -> nth_error bcat s = Some b -> nth_error (names bands) j = Some c ->
      exists v l u, col (snd r) c = Some v /\ col b c = Some (l, u) /\ nth_error q (s * width bands + j) = Some (shiftc ref c v) /\
        nth_error lo (s * width bands + j) = Some (shiftc ref c l) /\ nth_error up (s * width bands + j) = Some (shiftc ref c u)).
  { intros s j c r b Hr Hbs Hj. pose proof (nth_error_In _ _ Hj) as Hc. destruct (Hz r c (nth_error_In _ _ Hr) Hc) as (v & Hv & Hv'). destruct (Hbn s j b c Hbs Hj) as (l & u & E & E1 & E2).
    exists v, l, u. split; [exact Hv|]. split; [exact E|]. assert (Hcs : nth_error cat s = Some (zero_row ref (snd r))) by (unfold cat; now rewrite nth_error_map, Hr).
    destruct (Hqn s _ j c Hcs Hj) as (v' & V1 & V2). rewrite Hv' in V1. injection V1 as <-. split; [exact V2|]. split; [exact E1|exact E2]. }
  split; [|exact Key]. split; [lia|]. split; [lia|]. intros i Hi. rewrite Lq in Hi. destruct (index_split _ _ _ Hi) as (s & j & -> & Hs & Hj).
  destruct (nth_error active s) as [r|] eqn:Er; [|apply nth_error_None in Er; lia]. destruct (nth_error bcat s) as [b|] eqn:Eb; [|apply nth_error_None in Eb; lia].
  destruct (nth_error (names bands) j) as [c|] eqn:Ec; [|apply nth_error_None in Ec; unfold width in Hj; lia].
  destruct (Key s j c r b Er Eb Ec) as (v & l & u & _ & E & _ & E1 & E2). rewrite (nth_error_nth _ _ 0 E1), (nth_error_nth _ _ 0 E2).
  destruct (HB b c (nth_error_In _ _ Eb) (nth_error_In _ _ Ec)) as (l' & u' & E' & Hlt). rewrite E in E'. injection E' as <- <-. unfold shiftc. destruct (String.eqb c "ra"), (String.eqb c "dec"); lra.
Qed.
Lemma inside_bounded bands acols bcat : inside bands acols bcat -> bounded bands acols bcat.
Proof.
  intros [HL H]. split; [exact HL|]. split.
  - intros r c Hr Hc. apply In_nth_error in Hr. destruct Hr as (s & Hs). destruct (nth_error bcat s) as [b|] eqn:Eb.
    + destruct (H s r b Hs Eb c Hc) as (v & _ & _ & E & _). eauto.
    + apply nth_error_None in Eb. assert (s < List.length acols)%nat by (apply nth_error_Some; congruence). lia.
  - intros b c Hb Hc. apply In_nth_error in Hb. destruct Hb as (s & Hs). destruct (nth_error acols s) as [r|] eqn:Er.
    + destruct (H s r b Er Hs c Hc) as (v & l & u & _ & E & Hlt). exists l, u. split; [exact E|lra].
    + apply nth_error_None in Er. assert (s < List.length bcat)%nat by (apply nth_error_Some; congruence). lia.
Qed.
(** From there the sampler can start: the start vector is strictly inside the box. *)
Lemma start_inside bands ref active bcat : active <> [] -> inside bands (map snd active) bcat ->
  exists lo up q, prepare bands ref active bcat = Some (lo, up, q) /\ List.length q = (List.length active * width bands)%nat /\ box lo up q /\ within lo up q /\
    forall s j c r, nth_error active s = Some r -> nth_error (names bands) j = Some c -> exists v, col (snd r) c = Some v /\ nth_error q (s * width bands + j) = Some (shiftc ref c v).
Proof.
  intros Hne HI. destruct (prepare_bounded bands ref active bcat Hne (inside_bounded _ _ _ HI)) as (lo & up & q & E & Lq & Hb & Key). exists lo, up, q. split; [exact E|]. split; [exact Lq|]. split; [exact Hb|].
  destruct HI as [HL H]. rewrite map_length in HL. split.
  - intros i Hi. rewrite Lq in Hi. destruct (index_split _ _ _ Hi) as (s & j & -> & Hs & Hj).
    destruct (nth_error active s) as [r|] eqn:Er; [|apply nth_error_None in Er; lia]. destruct (nth_error bcat s) as [b|] eqn:Eb; [|apply nth_error_None in Eb; lia].
    destruct (nth_error (names bands) j) as [c|] eqn:Ec; [|apply nth_error_None in Ec; unfold width in Hj; lia].
    destruct (Key s j c r b Er Eb Ec) as (v & l & u & E0 & E1 & Q & Q1 & Q2). rewrite (nth_error_nth _ _ 0 Q), (nth_error_nth _ _ 0 Q1), (nth_error_nth _ _ 0 Q2).
    assert (Er' : nth_error (map snd active) s = Some (snd r)) by now rewrite nth_error_map, Er. destruct (H s _ b Er' Eb c (nth_error_In _ _ Ec)) as (v' & l' & u' & F0 & F1 & Hlt).
    rewrite E0 in F0. rewrite E1 in F1. injection F0 as <-. injection F1 as <- <-. unfold shiftc. destruct (String.eqb c "ra"), (String.eqb c "dec"); lra.
  - intros s j c r Er Ec. destruct (nth_error bcat s) as [b|] eqn:Eb; [|apply nth_error_None in Eb; assert (s < List.length active)%nat by (apply nth_error_Some; congruence); lia].
    destruct (Key s j c r b Er Eb Ec) as (v & _ & _ & E0 & _ & Q & _). eauto.
Qed.

(** ** put_column *)
Lemma mapM_nth2 {A B} (f : A -> option B) l r : mapM f l = Some r -> List.length r = List.length l /\ forall i x, nth_error l i = Some x -> exists y, nth_error r i = Some y /\ f x = Some y.
Proof.
  revert r. induction l as [|a l IH]; intros r H; cbn [mapM] in H; [injection H as <-; split; auto; intros [|i] x Hx; discriminate|].
  destruct (f a) as [b|] eqn:Ea; [|discriminate]. destruct (mapM f l) as [t|] eqn:Et; [|discriminate]. injection H as <-. destruct (IH t eq_refl) as [L H]. split; [cbn; now rewrite L|].
  intros [|i] x Hx; cbn in *; [injection Hx as <-; eauto|exact (H i x Hx)].
Qed.
Lemma put_column_spec {A} b (vals : list A) rows rows' : put_column b vals rows = Some rows' ->
  List.length rows' = List.length rows /\ List.length vals = List.length rows /\
  forall s r, nth_error rows s = Some r -> exists v r', nth_error vals s = Some v /\ nth_error rows' s = Some r' /\ r' = put_col r b v /\ exists w, col r b = Some w.
Proof.
  unfold put_column. destruct (Nat.eqb_spec (List.length vals) (List.length rows)) as [E|]; [|discriminate]. intros H. apply mapM_nth2 in H. destruct H as [L H]. rewrite combine_length in L. split; [lia|]. split; [exact E|].
  intros s r Hr. destruct (nth_error vals s) as [v|] eqn:Ev; [|apply nth_error_None in Ev; assert (s < List.length rows)%nat by (apply nth_error_Some; congruence); lia].
  destruct (H s (r, v)) as (r' & H1 & H2). { clear -Hr Ev. revert vals s Hr Ev. induction rows as [|x rows IH]; intros [|y vals] [|s] Hr Ev; cbn in *; try discriminate; [congruence|eauto]. }
  cbn [fst snd] in H2. destruct (col r b) as [w|] eqn:Ew; [|discriminate]. exists v, r'. split; [reflexivity|]. split; [exact H1|]. split; [congruence|eauto].
Qed.
Lemma put_column_total {A} b (vals : list A) rows : List.length vals = List.length rows -> (forall r, In r rows -> exists w, col r b = Some w) -> exists rows', put_column b vals rows = Some rows'.
Proof.
  intros L H. unfold put_column. rewrite (proj2 (Nat.eqb_eq _ _) L). apply mapM_exists. intros [r v] Hrv. cbn [fst snd]. apply in_combine_l in Hrv. destruct (H r Hrv) as (w & ->). eauto.
Qed.

(** ** The linear step *)
(** What the linear step must return for [n] sources: fluxes and variances in every band,
    with a positive variance or flux for every source *)
Definition fluxes_ok (pinv : list (list R) -> list (list R)) (n : nat) (bands : list string) (fs : list (list R)) (Ps : list (list (list R))) : Prop :=
  List.length fs = List.length bands /\ List.length Ps = List.length bands /\
  forall k f P, nth_error fs k = Some f -> nth_error Ps k = Some P -> List.length f = n /\ List.length (diag (pinv P)) = n /\
    forall i x v, nth_error f i = Some x -> nth_error (diag (pinv P)) i = Some v -> 0 < v \/ 0 < x.
Lemma set_fluxes_ok pinv expansion all : 0 < expansion -> NoDup (names all) -> forall bands fs Ps acols bcat,
  (forall c, In c bands -> In c all) -> NoDup bands -> fluxes_ok pinv (List.length acols) bands fs Ps -> inside all acols bcat ->
  exists acols' bcat', set_fluxes pinv expansion bands fs Ps acols bcat = Some (acols', bcat') /\ List.length acols' = List.length acols /\ inside all acols' bcat' /\
    (forall s r, nth_error acols s = Some r -> exists r', nth_error acols' s = Some r' /\
       (forall c, ~ In c bands -> col r' c = col r c) /\
       (forall k b f x, nth_error bands k = Some b -> nth_error fs k = Some f -> nth_error f s = Some x -> col r' b = Some x)).
Proof.
  intros He HN. induction bands as [|b bs IH]; intros fs Ps acols bcat Hsub Hnd HF HI.
  - exists acols, bcat. split; [reflexivity|]. split; [reflexivity|]. split; [exact HI|]. intros s r Hr. exists r. split; [exact Hr|]. split; [reflexivity|]. intros [|k]; discriminate.
  - destruct HF as (L1 & L2 & HF). destruct fs as [|f fs]; [discriminate|]. destruct Ps as [|P Ps]; [discriminate|]. cbn [set_fluxes]. destruct (HF O f P eq_refl eq_refl) as (Lf & Lv & Hpos).
    set (fb := BoundsModel.flux_bounds_precision expansion 10 f (diag (pinv P))).
    assert (Lfb : List.length fb = List.length acols). { unfold fb, BoundsModel.flux_bounds_precision. rewrite map_length, combine_length. lia. }
    assert (Hfb : forall i x v, nth_error f i = Some x -> nth_error (diag (pinv P)) i = Some v -> exists lo hi, nth_error fb i = Some (Some lo, Some hi) /\ lo < x < hi).
    { intros i x v Hx Hv. destruct (BoundsProps.C33_precision expansion 10 f (diag (pinv P)) i x v He ltac:(lra) Hx Hv (Hpos i x v Hx Hv)) as (lo & hi & E & H & _). exists lo, hi. auto. }
    destruct (mapM_exists (fun p : BoundsModel.value * BoundsModel.value => match p with (Some a, Some b0) => Some (a, b0) | _ => None end) fb) as (lohi & Hd).
    { intros p Hp. apply In_nth_error in Hp. destruct Hp as (i & Hi). assert (i < List.length fb)%nat by (apply nth_error_Some; congruence).
      destruct (nth_error f i) as [x|] eqn:Ex; [|apply nth_error_None in Ex; lia]. destruct (nth_error (diag (pinv P)) i) as [v|] eqn:Ev; [|apply nth_error_None in Ev; lia].
      destruct (Hfb i x v Ex Ev) as (lo & hi & E & _). rewrite Hi in E. injection E as ->. eauto. }
    change (defined fb) with (mapM (fun p : BoundsModel.value * BoundsModel.value => match p with (Some a, Some b0) => Some (a, b0) | _ => None end) fb). rewrite Hd. apply mapM_nth2 in Hd. destruct Hd as [Ld Hd].
    pose proof (inside_bounded _ _ _ HI) as (HL & HA & HB). assert (Hb : In b (names all)) by (apply in_or_app; left; apply Hsub; now left).
    destruct (put_column_total b lohi bcat) as (bcat1 & E1); [lia|intros r Hr; destruct (HB r b Hr Hb) as (l & u & E & _); eauto|]. destruct (put_column_total b f acols) as (acols1 & E2); [lia|intros r Hr; exact (HA r b Hr Hb)|].
    rewrite E1, E2. destruct (put_column_spec _ _ _ _ E1) as (M1 & _ & N1). destruct (put_column_spec _ _ _ _ E2) as (M2 & _ & N2).
    inversion Hnd as [|? ? Hnb Hnd']; subst.
    assert (HI1 : inside all acols1 bcat1).
    { split; [lia|]. intros s r' bb' Hr' Hb' c Hc. destruct (nth_error acols s) as [r|] eqn:Er; [|apply nth_error_None in Er; assert (s < List.length acols1)%nat by (apply nth_error_Some; congruence); lia].
      destruct (nth_error bcat s) as [bb|] eqn:Eb; [|apply nth_error_None in Eb; assert (s < List.length bcat1)%nat by (apply nth_error_Some; congruence); lia].
      destruct (N2 s r Er) as (x & r2 & X1 & X2 & X3 & w & Xw). destruct (N1 s bb Eb) as ([lo hi] & b2 & Y1 & Y2 & Y3 & ww & Yw). rewrite Hr' in X2. rewrite Hb' in Y2. injection X2 as <-. injection Y2 as <-. subst r' bb'.
      rewrite !col_put_col. destruct (String.eqb_spec b c) as [->|Nc].
      - rewrite Xw, Yw. exists x, lo, hi. split; [reflexivity|]. split; [reflexivity|]. destruct (nth_error (diag (pinv P)) s) as [v|] eqn:Ev; [|apply nth_error_None in Ev; assert (s < List.length acols)%nat by (apply nth_error_Some; congruence); lia].
        destruct (Hfb s x v X1 Ev) as (lo' & hi' & F & Hlt). destruct (Hd s _ F) as (p & P1 & P2). rewrite Y1 in P1. injection P1 as <-. injection P2 as <- <-. exact Hlt.
      - destruct HI as [_ HI]. exact (HI s r bb Er Eb c Hc). }
    destruct (IH fs Ps acols1 bcat1) as (acols' & bcat' & F1 & F2 & F3 & F4).
    + intros c Hc. apply Hsub. now right.
    + exact Hnd'.
    + split; [cbn in L1; lia|]. split; [cbn in L2; lia|]. intros k f' P' Hf HP. rewrite M2. exact (HF (S k) f' P' Hf HP).
    + exact HI1.
    + exists acols', bcat'. split; [exact F1|]. split; [lia|]. split; [exact F3|]. intros s r Hr. destruct (N2 s r Hr) as (x & r1 & X1 & X2 & X3 & w & Xw). destruct (F4 s r1 X2) as (r' & G1 & G2 & G3). exists r'. split; [exact G1|]. split.
      * intros c Hc. rewrite G2 by (intros H; apply Hc; now right). rewrite X3, col_put_col. destruct (String.eqb_spec b c) as [->|]; [exfalso; apply Hc; now left|reflexivity].
      * intros [|k] b' f' x' Hb' Hf Hx.
        -- cbn in Hb', Hf. injection Hb' as <-. injection Hf as <-. rewrite G2 by exact Hnb. rewrite X3, col_put_col, String.eqb_refl, Xw. congruence.
        -- exact (G3 k b' f' x' Hb' Hf Hx).
Qed.

(** ** optimize, then sample *)
Definition unshiftc (ref : R * R) (c : string) (v : R) : R := if String.eqb c "ra" then v + fst ref else if String.eqb c "dec" then v + snd ref else v.
Definition linear_setting := ((list arow -> (list (list R) * list (list (list R))) + nat) * (list (list R) -> list (list R)) * R)%type.
Definition linear_ok (n : nat) (bands : list string) (linear : option linear_setting) : Prop :=
  match linear with
  | None => True
  | Some (optfl, pinv, expansion) => 0 < expansion /\ forall act : list arow, List.length act = n -> exists fs Ps, optfl act = inl (fs, Ps) /\ fluxes_ok pinv n bands fs Ps
  end.
Section Handoff.
Variables (bfgs : optimizer) (draw : list R -> list R -> list R) (like : list R -> R) (like_grad : list R -> list R) (barriers : bool) (bands : list string) (ref_of : list arow -> R * R).
Hypothesis drawn : forall lo up, box lo up lo -> List.length (draw lo up) = List.length lo /\ within lo up (draw lo up).
Hypothesis optimum : forall f g x0, List.length (s_x (bfgs f g x0)) = List.length x0.
Hypothesis distinct : NoDup (names bands).

(** The optimisation does not fail; its catalog holds the optimum in sky coordinates (with
    the linear step: its fluxes are those of that step); and the sampling that follows,
    with its own reference coordinates, starts from that catalog strictly inside the
    bounds it is given. *)
Theorem C52_handoff : forall linear active bcat, active <> [] -> bounded bands (map snd active) bcat -> linear_ok (List.length active) bands linear ->
  exists opt row act bcat', optimize bfgs draw like like_grad barriers bands ref_of linear active bcat = Some (opt, act, bcat') /\ o_chain opt = [row] /\
    List.length row = (List.length active * width bands)%nat /\ map fst act = map fst active /\
    (exists lo up q, sample_start bands ref_of act bcat' = Some (lo, up, q) /\ box lo up q /\ within lo up q /\
       forall s j c r, nth_error act s = Some r -> nth_error (names bands) j = Some c -> exists v, col (snd r) c = Some v /\ nth_error q (s * width bands + j) = Some (shiftc (ref_of act) c v)) /\
    (forall s j c r v, nth_error act s = Some r -> nth_error (names bands) j = Some c -> linear = None \/ ~ In c bands -> nth_error row (s * width bands + j) = Some v ->
       col (snd r) c = Some (unshiftc (ref_of active) c v)) /\
    (linear = None -> bcat' = bcat).
Proof.
  intros linear active bcat Hne HB HLin. unfold optimize. destruct (prepare_bounded bands (ref_of active) active bcat Hne HB) as (lo & up & q0 & E & Lq & Hb & Key). rewrite E.
  set (p := mkPost _ _ _ _ _ _ _). assert (Hbl : box lo up lo) by (destruct Hb as (H1 & H2 & H3); split; [reflexivity|]; split; [congruence|]; intros i Hi; apply H3; congruence).
  destruct (drawn lo up Hbl) as [Ld Hd]. assert (Hbd : box lo up (draw lo up)) by (unfold box in *; rewrite Ld; exact Hbl). destruct (transform_inverse lo up (draw lo up) Hbd Hd) as [Li _].
  set (opt := run_opt bfgs p (draw lo up)). set (z := s_x (bfgs (nll p) (nll_grad p) (inverse_transform (tr p) (draw lo up)))). set (row := transform (Bounded lo up) z).
  assert (Eo : o_chain opt = [row]) by reflexivity. rewrite Eo. cbn [hd].
  assert (Lz : List.length z = List.length lo). { unfold z. rewrite optimum. cbn [tr p]. congruence. }
  assert (Hbz : box lo up z) by (unfold box in *; rewrite Lz; exact Hbl). destruct (C17_transform_inside lo up z Hbz) as [Lr Hr]. fold row in Lr, Hr.
  assert (Lrow : List.length row = (List.length (map fst active) * width bands)%nat). { rewrite map_length, Lr, Lz. destruct Hb as (H1 & _). congruence. }
  destruct (C35_chain_catalog_exists R Rplus [row] bands (map fst active) (ref_of active) distinct) as (cc & Hcc). { intros th [<-|[]]. exact Lrow. }
  rewrite Lrow, Hcc.
  destruct (C35_sample_roundtrip R Rplus [row] _ bands (map fst active) (ref_of active) cc active (-1)%Z O row Hcc) as (act1 & Ea & La & Hact); [now rewrite map_length|reflexivity|reflexivity|].
  rewrite Ea. destruct HB as (HL & HA & HBb). rewrite map_length in HL.
  assert (Hs : forall s r1, nth_error act1 s = Some r1 -> exists r, nth_error active s = Some r /\ fst r1 = fst r /\ forall j c, nth_error (names bands) j = Some c -> exists v, nth_error row (s * width bands + j) = Some v /\ col (snd r1) c = Some (unshiftc (ref_of active) c v)).
  { intros s r1 H1. destruct (nth_error active s) as [r|] eqn:Er; [|apply nth_error_None in Er; assert (s < List.length act1)%nat by (apply nth_error_Some; congruence); lia]. exists r. split; [reflexivity|].
    destruct (Hact s (fst r) r) as (r' & A1 & A2 & A3 & A4 & _); [now rewrite nth_error_map, Er|exact Er|]. rewrite H1 in A1. injection A1 as <-. split; [exact A2|]. intros j c Hj.
    destruct (HA (snd r) c) as (v0 & Hv0); [apply in_map; exact (nth_error_In _ _ Er)|exact (nth_error_In _ _ Hj)|]. exact (A4 j c v0 Hj Hv0). }
  assert (Hid : map fst act1 = map fst active).
  { apply nth_error_ext. intros s. rewrite !nth_error_map. destruct (nth_error act1 s) as [r1|] eqn:E1.
    - destruct (Hs s r1 E1) as (r & -> & E2 & _). cbn. now rewrite E2.
    - apply nth_error_None in E1. assert (E2 : nth_error active s = None) by (apply nth_error_None; lia). now rewrite E2. }
  assert (HI : inside bands (map snd act1) bcat).
  { split; [rewrite map_length; lia|]. intros s rc b Hrc Hbs c Hc. rewrite nth_error_map in Hrc. destruct (nth_error act1 s) as [r1|] eqn:E1; [|discriminate]. injection Hrc as <-. destruct (Hs s r1 E1) as (r & Er & _ & Hv).
    apply In_nth_error in Hc. destruct Hc as (j & Hj). destruct (Hv j c Hj) as (v & V1 & V2). destruct (Key s j c r b Er Hbs Hj) as (_ & l & u & _ & Eb & _ & E2 & E3). exists (unshiftc (ref_of active) c v), l, u. split; [exact V2|]. split; [exact Eb|].
    assert (Hi : (s * width bands + j < List.length z)%nat) by (rewrite <- Lr; apply nth_error_Some; congruence). specialize (Hr _ Hi). rewrite (nth_error_nth _ _ 0 V1), (nth_error_nth _ _ 0 E2), (nth_error_nth _ _ 0 E3) in Hr.
    unfold shiftc, unshiftc in *. destruct (String.eqb c "ra"), (String.eqb c "dec"); lra. }
  assert (Hne1 : act1 <> []) by (destruct act1; [destruct active; [congruence|discriminate]|discriminate]).
  rewrite map_length in Lrow.
  destruct linear as [[[optfl pinv] expansion]|].
  - destruct HLin as [He HF]. destruct (HF act1 La) as (fs & Ps & Ef & Hok). unfold linear_step. rewrite Ef.
    assert (Hok' : fluxes_ok pinv (List.length (map snd act1)) bands fs Ps) by (rewrite map_length, La; exact Hok).
    assert (Hnb : NoDup bands) by (apply NoDup_app_iff in distinct; tauto).
    destruct (set_fluxes_ok pinv expansion bands He distinct bands fs Ps (map snd act1) bcat (fun c H => H) Hnb Hok' HI) as (acols & bcat' & S1 & S2 & S3 & S4). rewrite S1. rewrite map_length in S2.
    pose (act := (combine (map fst act1) acols : list arow)). assert (Lact : List.length act = List.length act1) by (unfold act, arow; rewrite combine_length, map_length; lia).
    assert (Hsn : map snd act = acols). { unfold act. clear -S2. revert acols S2. induction act1 as [|r l IH]; intros [|x acols] H; cbn in *; try discriminate; auto. f_equal. apply IH. lia. }
    assert (Hfs : map fst act = map fst act1). { unfold act. clear -S2. revert acols S2. induction act1 as [|r l IH]; intros [|x acols] H; cbn in *; try discriminate; auto. f_equal. apply IH. lia. }
    exists opt, row, act, bcat'. split; [reflexivity|]. split; [exact Eo|]. split; [exact Lrow|]. split; [congruence|]. split; [|split].
    + unfold sample_start. destruct (start_inside bands (ref_of act) act bcat') as (lo' & up' & q' & X1 & _ & X2 & X3 & X4); [intros H; rewrite H in Lact; destruct act1; [congruence|discriminate]|now rewrite Hsn|]. exists lo', up', q'. auto.
    + intros s j c r v Hr' Hj [Hx|Hx] Hv; [discriminate|]. assert (Hr2 : nth_error acols s = Some (snd r)) by (rewrite <- Hsn; exact (map_nth_error snd s act Hr')).
      destruct (nth_error act1 s) as [r1|] eqn:E1; [|apply nth_error_None in E1; assert (s < List.length act)%nat by (apply nth_error_Some; congruence); lia].
      destruct (S4 s (snd r1)) as (r2 & G1 & G2 & _); [now rewrite nth_error_map, E1|]. rewrite Hr2 in G1. injection G1 as G1. rewrite G1, (G2 c Hx). destruct (Hs s r1 E1) as (_ & _ & _ & Hv1). destruct (Hv1 j c Hj) as (v' & V1 & V2). congruence.
    + discriminate.
  - exists opt, row, act1, bcat. split; [reflexivity|]. split; [exact Eo|]. split; [exact Lrow|]. split; [exact Hid|]. split; [|split].
    + unfold sample_start. destruct (start_inside bands (ref_of act1) act1 bcat Hne1 HI) as (lo' & up' & q' & X1 & _ & X2 & X3 & X4). exists lo', up', q'. auto.
    + intros s j c r v Hr' Hj _ Hv. destruct (Hs s r Hr') as (_ & _ & _ & Hv1). destruct (Hv1 j c Hj) as (v' & V1 & V2). congruence.
    + reflexivity.
Qed.
(** With the linear step, the fluxes handed on are those of that step, for the optimum. *)
Theorem C52_handoff_fluxes : forall optfl pinv expansion active bcat, active <> [] -> bounded bands (map snd active) bcat -> linear_ok (List.length active) bands (Some (optfl, pinv, expansion)) ->
  exists opt act1 fs Ps act bcat', optimize bfgs draw like like_grad barriers bands ref_of None active bcat = Some (opt, act1, bcat) /\ optfl act1 = inl (fs, Ps) /\
    optimize bfgs draw like like_grad barriers bands ref_of (Some (optfl, pinv, expansion)) active bcat = Some (opt, act, bcat') /\
    forall s r k b f x, nth_error act s = Some r -> nth_error bands k = Some b -> nth_error fs k = Some f -> nth_error f s = Some x -> col (snd r) b = Some x.
Proof.
  intros optfl pinv expansion active bcat Hne HB HLin. unfold arow in *. destruct (C52_handoff None active bcat Hne HB I) as (opt & row & act1 & bcat1 & E1 & _ & _ & Hid & (lo & up & q & Es & Hbx & Hw & Hq) & _ & Eb). rewrite (Eb eq_refl) in *. clear Eb.
  assert (La : List.length act1 = List.length active) by (assert (Hl := f_equal (@List.length Z) Hid); rewrite !map_length in Hl; exact Hl).
  destruct HLin as [He HF]. destruct (HF act1 La) as (fs & Ps & Ef & Hok). exists opt, act1, fs, Ps.
  assert (HI : inside bands (map snd act1) bcat).
  { destruct HB as (HL & HA & HBb). rewrite map_length in HL. split; [unfold arow in *; rewrite map_length in *; congruence|]. intros s rc b Hrc Hbs c Hc. rewrite nth_error_map in Hrc. unfold arow in *; destruct (nth_error act1 s) as [r1|] eqn:Er; [|discriminate]. injection Hrc as <-.
    apply In_nth_error in Hc. destruct Hc as (j & Hj). destruct (Hq s j c r1 Er Hj) as (v & V1 & V2). destruct (HBb b c (nth_error_In _ _ Hbs) (nth_error_In _ _ Hj)) as (l & u & Ec & _). exists v, l, u. split; [exact V1|]. split; [exact Ec|].
    unfold sample_start, prepare in Es. destruct (scene_from_catalog _ _ _) as [sc|]; [|discriminate]. destruct (bounds_vectors _ _ _ _ _) as [[lo1 up1]|] eqn:Ebv; [|discriminate]. destruct (get_all_source_params sc true) as [q1|]; [|discriminate]. injection Es as -> -> ->.
    destruct (C16_bounds R Rminus bcat bands (ref_of act1) lo up Ebv) as (_ & _ & Hbn). destruct (Hbn s j b c Hbs Hj) as (l' & u' & E' & X1 & X2). rewrite Ec in E'. injection E' as <- <-.
    assert (Hi : (s * width bands + j < List.length q)%nat) by (apply nth_error_Some; congruence). specialize (Hw _ Hi). rewrite (nth_error_nth _ _ 0 V2), (nth_error_nth _ _ 0 X1), (nth_error_nth _ _ 0 X2) in Hw.
    unfold shiftc in Hw. cbv zeta in Hw. destruct (String.eqb c "ra"), (String.eqb c "dec"); lra. }
  assert (Hok' : fluxes_ok pinv (List.length (map snd act1)) bands fs Ps) by (unfold arow in *; rewrite map_length, La; exact Hok).
  assert (Hnb : NoDup bands) by (apply NoDup_app_iff in distinct; tauto).
  destruct (set_fluxes_ok pinv expansion bands He distinct bands fs Ps (map snd act1) bcat (fun c H => H) Hnb Hok' HI) as (acols & bcat' & S1 & S2 & S3 & S4). rewrite map_length in S2.
  exists (combine (map fst act1) acols), bcat'. split; [exact E1|]. split; [exact Ef|]. split.
  - unfold optimize in *. destruct (prepare bands (ref_of active) active bcat) as [[[lo0 up0] q0]|]; [|discriminate]. cbv zeta in *. destruct (make_chaincat _ _ _ _ _ _ _); [|discriminate]. destruct (get_sample_cat _ _ _); [|discriminate].
    injection E1 as E1 ->. unfold linear_step. rewrite Ef, S1. rewrite E1. reflexivity.
  - intros s r k b f x Hr Hb Hf Hx.
    assert (Hsn : nth_error acols s = Some (snd r)). { clear -Hr S2. revert acols s S2 Hr. induction act1 as [|y l IH]; intros [|z acols] [|s] L H; cbn in *; try discriminate; [injection H as <-; reflexivity|]. eapply IH; eauto. }
    destruct (nth_error act1 s) as [r1|] eqn:Er; [|apply nth_error_None in Er; assert (s < List.length acols)%nat by (apply nth_error_Some; congruence); unfold arow in *; lia].
    destruct (S4 s (snd r1)) as (r2 & G1 & _ & G3); [exact (map_nth_error snd s act1 Er)|]. rewrite Hsn in G1. injection G1 as ->. exact (G3 k b f x Hb Hf Hx).
Qed.
(** After a singular band the linear step breaks the task. *)
Theorem C52_singular_refuted : forall optfl pinv expansion active bcat, bands <> [] -> (forall act, exists k, optfl act = inr k) ->
  optimize bfgs draw like like_grad barriers bands ref_of (Some (optfl, pinv, expansion)) active bcat = None.
Proof.
  clear drawn optimum distinct. intros optfl pinv expansion active bcat Hb Hs. unfold optimize. destruct (prepare bands (ref_of active) active bcat) as [[[lo up] q0]|]; [|reflexivity]. cbv zeta. destruct (make_chaincat _ _ _ _ _ _ _) as [cc|]; [|reflexivity].
  destruct (get_sample_cat _ _ _) as [act|]; [|reflexivity]. unfold linear_step. destruct (Hs act) as (k & ->). destruct bands; [congruence|reflexivity].
Qed.
(** The task reports the log-likelihood of its optimum, without the volume term of the
    transform, and that is no less than at the start drawn. *)
Theorem C52_task_optimum : forall linear active bcat opt act bcat', active <> [] -> bounded bands (map snd active) bcat ->
  (forall f g x0, minimised f g x0 (bfgs f g x0)) ->
  optimize bfgs draw like like_grad false bands ref_of linear active bcat = Some (opt, act, bcat') ->
  exists lo up row, o_chain opt = [row] /\ within lo up row /\ o_fun opt = - like row /\ like (draw lo up) <= like row /\
    exists q0, prepare bands (ref_of active) active bcat = Some (lo, up, q0).
Proof.
  clear optimum distinct. intros linear active bcat opt act bcat' Hne HB Hmin H. unfold optimize in H. destruct (prepare_bounded bands (ref_of active) active bcat Hne HB) as (lo & up & q0 & E & _ & Hb & _). rewrite E in H.
  set (p := mkPost _ _ _ _ _ _ _) in H. assert (Hbl : box lo up lo) by (destruct Hb as (H1 & H2 & H3); split; [reflexivity|]; split; [congruence|]; intros i Hi; apply H3; congruence).
  destruct (drawn lo up Hbl) as [Ld Hd]. assert (Hbd : box lo up (draw lo up)) by (unfold box in *; rewrite Ld; exact Hbl).
  assert (Eo : opt = run_opt bfgs p (draw lo up)).
  { cbv zeta in H. destruct (make_chaincat _ _ _ _ _ _ _) as [cc|]; [|discriminate]. destruct (get_sample_cat _ _ _) as [a|]; [|discriminate]. destruct linear as [[[o pi] ex]|]; [destruct (linear_step _ _ _ _ _ _) as [[a' b']|]; [|discriminate]|]; congruence. }
  destruct (C52_optimum bfgs p lo up (draw lo up) eq_refl eq_refl ltac:(cbn; lra) Hbd Hd (Hmin _ _ _)) as (row & R1 & _ & R3 & R4 & R5). rewrite <- Eo in *. cbn [ll lpr ndof p] in R4, R5.
  exists lo, up, row. split; [exact R1|]. split; [exact R3|]. split; [rewrite R4; field|]. split; [lra|]. exists q0. exact E.
Qed.
End Handoff.
Print Assumptions C52_task_optimum.
Print Assumptions C52_handoff.
Print Assumptions C52_handoff_fluxes.
Print Assumptions C52_singular_refuted.
