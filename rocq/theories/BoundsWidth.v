(** C33: how wide the generated bounds are, and bounds for a column the catalog
    does not have (superscene.py 805-965). *)
From Coq Require Import Reals Lra Psatz.
From Verif Require Import Np NpFacts AnglesModel BoundsModel BoundsProps BoundsMore.
Open Scope R_scope.

Lemma nanmax_spec l : (exists m, nanmax l = Some m /\ In (Some m) l /\ forall x, In (Some x) l -> x <= m) \/ (nanmax l = None /\ forall v, In v l -> v = None).
Proof.
  induction l as [|a l IH]; [right; split; [reflexivity|intros v []]|]. cbn [nanmax fold_right]. fold (nanmax l). destruct IH as [(m & E & Hin & Hm)|(E & Hn)]; rewrite E.
  - left. destruct a as [x|].
    + exists (Rmax x m). split; [reflexivity|]. split.
      * unfold Rmax. destruct (Rle_dec x m); [right; exact Hin|left; reflexivity].
      * intros y [Hy|Hy]; [injection Hy as ->; apply Rmax_l|]. eapply Rle_trans; [apply Hm; exact Hy|apply Rmax_r].
    + exists m. split; [reflexivity|]. split; [right; exact Hin|]. intros y [Hy|Hy]; [discriminate|auto].
  - destruct a as [x|].
    + left. exists x. split; [reflexivity|]. split; [left; reflexivity|]. intros y [Hy|Hy]; [injection Hy as ->; lra|]. apply Hn in Hy. discriminate.
    + right. split; [reflexivity|]. intros v [Hv|Hv]; auto.
Qed.
Lemma mapM_member {A B} (f : A -> option B) l l' : mapM f l = Some l' -> forall x, In x l -> exists y, f x = Some y /\ In y l'.
Proof.
  revert l'. induction l as [|a l IH]; intros l' H x Hx; [destruct Hx|]. cbn [mapM] in H. destruct (f a) as [y|] eqn:E; [|discriminate]. destruct (mapM f l) as [t|]; [|discriminate]. injection H as <-. destruct Hx as [->|Hx]; [exists y; split; [auto|left; auto]|].
  destruct (IH t eq_refl x Hx) as (z & E1 & E2). exists z. split; [auto|right; auto].
Qed.
Lemma flux_at unc1 fl i f : nth_error fl i = Some f -> nth_error (flux_bounds unc1 fl) i = Some (flux_lo unc1 f, match flux_hi unc1 f with None => nanmax (map (flux_hi unc1) fl) | Some x => Some x end).
Proof. intros H. unfold flux_bounds. cbv zeta. apply combine_nth_error; rewrite !nth_error_map, H; reflexivity. Qed.
(** C33, without uncertainties: the bounds of a flux by its size.  [unc1] is their
    half width at flux 1. *)
Theorem C33_flux_width : forall unc1 flux i f, 0 < unc1 -> nth_error flux i = Some f ->
  let floor := unc1 * unc1 / 4 in
  exists bd, nth_error (flux_bounds unc1 flux) i = Some bd /\
    (floor < f -> bd = (Some (f - unc1 * sqrt f), Some (f + unc1 * sqrt f))) /\
    (0 < f <= floor -> bd = (Some (- floor), Some (Rmax (f + unc1 * sqrt f) floor))) /\
    (f < 0 -> bd = (Some (Rmin (f - unc1 * sqrt (- f)) (- floor)), Some floor)).
Proof.
  intros u fl i f Hu Hf floor. rewrite (flux_at u fl i f Hf). eexists. split; [reflexivity|]. assert (FM : fmin u = floor) by (unfold fmin, floor; field). assert (F0 : 0 < floor) by (unfold floor; nra).
  unfold flux_lo, flux_hi. rewrite FM. split; [|split]; intros H.
  - destruct (noise_pos u f Hu ltac:(lra)) as [-> Hn]. cbn [lift]. rewrite (Rabs_pos_eq f) in * by lra. destruct (Rle_dec f floor); [lra|]. rewrite Rmax_left by lra. reflexivity.
  - destruct (noise_pos u f Hu ltac:(lra)) as [-> Hn]. cbn [lift]. rewrite (Rabs_pos_eq f) in * by lra. destruct (Rle_dec f floor); [|lra]. cbn [lift]. rewrite Rmin_right; [reflexivity|].
    pose proof (sqrt_sqrt f ltac:(lra)) as Q. pose proof (Rle_0_sqr (sqrt f - u / 2)) as S0. unfold Rsqr in S0. unfold floor. nra.
  - destruct (noise_pos u f Hu ltac:(lra)) as [-> Hn]. cbn [lift]. rewrite (Rabs_left f) in * by lra. destruct (Rle_dec f floor); [|lra]. cbn [lift]. rewrite (Rmax_right _ floor); [reflexivity|].
    pose proof (sqrt_sqrt (- f) ltac:(lra)) as Q. pose proof (Rle_0_sqr (sqrt (- f) - u / 2)) as S0. unfold Rsqr in S0. unfold floor. nra.
Qed.
(** C33: a zero flux has lower bound 0, so it is not inside, and for the upper bound the
    largest of those of the other sources; nan when there is none. *)
Theorem C33_zero_width : forall unc1 flux i, 0 < unc1 -> nth_error flux i = Some 0 ->
  exists hi, nth_error (flux_bounds unc1 flux) i = Some (Some 0, hi) /\
    ((forall f, In f flux -> f = 0) -> hi = None) /\
    ((exists f, In f flux /\ f <> 0) -> exists m, hi = Some m /\
      (exists j f lo, nth_error flux j = Some f /\ f <> 0 /\ nth_error (flux_bounds unc1 flux) j = Some (lo, Some m)) /\
      forall j f lo h, nth_error flux j = Some f -> nth_error (flux_bounds unc1 flux) j = Some (lo, Some h) -> h <= m).
Proof.
  intros u fl i Hu Hf. rewrite (flux_at u fl i 0 Hf). destruct (flux_lo_spec u 0 Hu) as (lo0 & E0 & _ & Z0). rewrite E0, (Z0 eq_refl). assert (HZ : flux_hi u 0 = None) by (unfold flux_hi; rewrite noise_zero; reflexivity). rewrite HZ. eexists. split; [reflexivity|]. split.
  - intros A. destruct (nanmax_spec (map (flux_hi u) fl)) as [(m & _ & Hin & _)|(E & _)]; [|exact E]. apply in_map_iff in Hin. destruct Hin as (f & E & Hin). rewrite (A f Hin), HZ in E. discriminate.
  - intros (f & Hin & Hn). destruct (nanmax_spec (map (flux_hi u) fl)) as [(m & E & Hm & Hmax)|(_ & A)].
    + exists m. split; [exact E|]. split.
      * apply in_map_iff in Hm. destruct Hm as (g & Eg & Hg). destruct (In_nth_error _ _ Hg) as (j & Hj). exists j, g, (flux_lo u g). split; [exact Hj|]. split; [intros ->; congruence|]. rewrite (flux_at u fl j g Hj), Eg. reflexivity.
      * intros j g lo h Hj Hb. rewrite (flux_at u fl j g Hj) in Hb. destruct (flux_hi u g) as [x|] eqn:Eg.
        -- assert (x = h) by congruence. subst x. apply Hmax. rewrite <- Eg. apply in_map. eapply nth_error_In; eauto.
        -- rewrite E in Hb. assert (m = h) by congruence. lra.
    + exfalso. destruct (flux_hi_spec u f Hu Hn) as (h & Eh & _). assert (X : flux_hi u f = None) by (apply A; apply in_map; exact Hin). congruence.
Qed.
(** C33: the sizes of the bounds that are made: so many arcseconds either side of the
    position, along both axes; so many sigmas or as many times five percent either side
    of the flux; the ranges given for the rest. *)
Theorem C33_widths : forall active filternames unc n_sig dpos rg b i row, make_bounds active filternames unc n_sig dpos rg = Some b ->
  nth_error (rows active) i = Some row ->
  let bound c bd := exists col, In (c, col) b /\ nth_error col i = Some bd in
  (exists lo hi, bound "dec"%string (Some lo, Some hi) /\ (row "dec"%string - lo) * 3600 = snd dpos /\ (hi - row "dec"%string) * 3600 = snd dpos) /\
  (cos (row "dec"%string / 180 * PI) <> 0 -> exists lo hi, bound "ra"%string (Some lo, Some hi) /\
     (row "ra"%string - lo) * cos (row "dec"%string / 180 * PI) * 3600 = fst dpos /\ (hi - row "ra"%string) * cos (row "dec"%string / 180 * PI) * 3600 = fst dpos) /\
  bound "q"%string (Some (fst (sqrtq_range rg)), Some (snd (sqrtq_range rg))) /\ bound "pa"%string (Some (fst (pa_range rg)), Some (snd (pa_range rg))) /\
  bound "sersic"%string (Some (fst (sersic_range rg)), Some (snd (sersic_range rg))) /\ bound "rhalf"%string (Some (fst (rhalf_range rg)), Some (snd (rhalf_range rg))) /\
  (forall u f ur, unc = Some u -> In f filternames -> nth_error (rows u) i = Some ur -> exists w, bound f (Some (row f - w), Some (row f + w)) /\ (w = n_sig * ur f \/ w = n_sig * (5 * Rabs (row f) / 100)) /\ (0 <= n_sig -> n_sig * ur f <= w /\ n_sig * (5 * Rabs (row f) / 100) <= w)) /\
  (unc = None -> forall f, In f filternames -> exists bd, bound f bd /\ nth_error (flux_bounds n_sig (map (fun r => r f) (rows active))) i = Some bd).
Proof.
  intros active fn unc n dpos rg b i row Hb Hr bound. unfold make_bounds in Hb.
  assert (HC : forall c col, column active c = Some col -> col = map (fun r => r c) (rows active)) by (intros c col; unfold column; destruct (in_dec string_dec c (names active)); congruence).
  destruct (column active "ra") as [ra|] eqn:E1; [|discriminate]. destruct (column active "dec") as [dec|] eqn:E2; [|discriminate]. destruct (column active "q") as [q|] eqn:E3; [|discriminate]. destruct (column active "pa") as [pa|] eqn:E4; [|discriminate]. destruct (column active "sersic") as [se|] eqn:E5; [|discriminate]. destruct (column active "rhalf") as [rh|] eqn:E6; [|discriminate].
  apply HC in E1, E2. match type of Hb with context [mapM ?F fn] => set (flux := F) in * end. destruct (mapM flux fn) as [fl|] eqn:EM; [|discriminate].
  match type of Hb with Some (?a ++ ?l) = _ => set (sh := l) in * end. assert (Eb : b = fl ++ sh) by congruence. clear Hb.
  assert (SH : forall c col bd, In (c, col) sh -> nth_error col i = Some bd -> bound c bd) by (intros c col bd Hin Hbd; exists col; split; [rewrite Eb; apply in_or_app; right; exact Hin|exact Hbd]).
  assert (FL : forall f, In f fn -> exists col, flux f = Some (f, col) /\ In (f, col) b).
  { intros f Hf. destruct (mapM_member flux fn fl EM f Hf) as (y & Ey & Hy). unfold flux in Ey |- *. destruct (column active f); [|discriminate]. destruct unc as [u|].
    - destruct (column u f); [|discriminate]. eexists. split; [reflexivity|]. rewrite Eb. apply in_or_app. left. injection Ey as <-. exact Hy.
    - eexists. split; [reflexivity|]. rewrite Eb. apply in_or_app. left. injection Ey as <-. exact Hy. }
  split; [|split; [|split; [|split; [|split; [|split; [|split]]]]]].
  - do 2 eexists. split; [eapply SH; [right; left; reflexivity|]; rewrite E2, !nth_error_map, Hr; reflexivity|]. split; field.
  - intros HCos. assert (A : deg2rad (row "dec"%string) = row "dec"%string / 180 * PI) by (unfold deg2rad; field). do 2 eexists. split; [eapply SH; [left; reflexivity|]|].
    + rewrite nth_error_map, (combine_nth_error ra dec i (row "ra"%string) (row "dec"%string)) by (rewrite ?E1, ?E2, nth_error_map, Hr; reflexivity). cbn [option_map fst snd]. unfold ra_bound, div. rewrite A. destruct (Req_EM_T _ 0); [contradiction|]. cbv zeta. cbn [lift]. reflexivity.
    + split; field; exact HCos.
  - eapply SH; [do 2 right; left; reflexivity|]. rewrite nth_error_map, Hr. reflexivity.
  - eapply SH; [do 3 right; left; reflexivity|]. rewrite nth_error_map, Hr. reflexivity.
  - eapply SH; [do 4 right; left; reflexivity|]. rewrite nth_error_map, Hr. reflexivity.
  - eapply SH; [do 5 right; left; reflexivity|]. rewrite nth_error_map, Hr. reflexivity.
  - intros u f ur Hu Hf Hur. destruct (FL f Hf) as (col & Ef & Hin). unfold flux in Ef. destruct (column active f) as [fs|] eqn:EF; [|discriminate]. apply HC in EF. rewrite Hu in Ef. unfold column in Ef. destruct (in_dec string_dec f (names u)); [|discriminate]. assert (EC : col = unc_flux_bounds n fs (map (fun r => r f) (rows u))) by congruence.
    exists (n * Rmax (ur f) (Rabs (5 / 100 * row f))). assert (AB : Rabs (5 / 100 * row f) = 5 * Rabs (row f) / 100) by (rewrite Rabs_mult, (Rabs_pos_eq (5 / 100)) by lra; field). split; [|split].
    + exists col. split; [exact Hin|]. rewrite EC. unfold unc_flux_bounds. rewrite nth_error_map, (combine_nth_error fs (map (fun r => r f) (rows u)) i (row f) (ur f)) by (rewrite ?EF, nth_error_map, ?Hr, ?Hur; reflexivity). reflexivity.
    + rewrite AB. unfold Rmax. destruct (Rle_dec (ur f) (5 * Rabs (row f) / 100)); auto.
    + intros Hn. rewrite AB. split; apply Rmult_le_compat_l; auto; [apply Rmax_l|apply Rmax_r].
  - intros Hu f Hf. destruct (FL f Hf) as (col & Ef & Hin). unfold flux in Ef. destruct (column active f) as [fs|] eqn:EF; [|discriminate]. apply HC in EF. rewrite Hu in Ef. assert (EC : col = flux_bounds n fs) by congruence. rewrite EF in EC.
    assert (L : nth_error (map (fun r : string -> R => r f) (rows active)) i = Some (row f)) by (rewrite nth_error_map, Hr; reflexivity). eexists. split; [exists col; split; [exact Hin|rewrite EC; apply flux_at; exact L]|apply flux_at; exact L].
Qed.
(** C33: the ranges by default. *)
Theorem C33_default_shapes : forall active filternames unc n_sig dpos,
  (forall c, In c (filternames ++ shape_names) -> In c (names active)) ->
  (forall u, unc = Some u -> List.length (rows u) = List.length (rows active) /\ forall c, In c filternames -> In c (names u)) ->
  0 < n_sig -> 0 < fst dpos -> 0 < snd dpos -> (forall row, In row (rows active) -> -90 < row "dec"%string < 90) ->
  exists b, make_bounds active filternames unc n_sig dpos default_ranges = Some b /\
    (check_bounds active b = Passed <-> forall i row, nth_error (rows active) i = Some row ->
      (4 / 10 < row "q"%string < 1 /\ Rabs (row "pa"%string) < 3 / 5 * PI /\ 1 < row "sersic"%string < 5 /\ 3 / 100 < row "rhalf"%string < 3 / 10) /\ forall f, In f filternames -> flux_inside unc i row f).
Proof.
  intros active fn unc n dpos H1 H2 H3 H4 H5 H6. destruct (C33_generated_iff_partial active fn unc n dpos default_ranges H1 H2 H3 H4 H5 H6) as (b & Hb & _ & _ & Hiff). exists b. split; [exact Hb|]. rewrite Hiff.
  assert (X : forall row : string -> R, shapes_inside default_ranges row <-> (4 / 10 < row "q"%string < 1 /\ Rabs (row "pa"%string) < 3 / 5 * PI /\ 1 < row "sersic"%string < 5 /\ 3 / 100 < row "rhalf"%string < 3 / 10)).
  { intros row. unfold shapes_inside, default_ranges. cbn [sqrtq_range pa_range rhalf_range sersic_range fst snd]. assert (PA : Rabs (row "pa"%string) < 3 / 5 * PI <-> - (6 / 10) * PI < row "pa"%string < 6 / 10 * PI).
    { split; [intros H; apply Rabs_def2 in H; lra|intros H; apply Rabs_def1; lra]. } rewrite PA. tauto. }
  split; intros H i row Hr; destruct (H i row Hr) as (A & B); (split; [apply X; exact A|exact B]).
Qed.
(** C33: bounds for a column that the catalog does not have never pass. *)
Theorem C33_missing_column : forall cat b c col, In (c, col) b -> ~ In c (names cat) -> check_bounds cat b <> Passed.
Proof.
  intros cat b c col. induction b as [|[c' col'] b IH]; intros Hin Hn; [destruct Hin|]. cbn [check_bounds]. destruct (column cat c') as [src|] eqn:E; [|discriminate]. destruct Hin as [Heq|Hin].
  - injection Heq as -> ->. unfold column in E. destruct (in_dec string_dec c (names cat)); [contradiction|discriminate].
  - destruct (check_column c' src col'); [auto|discriminate|discriminate].
Qed.

(** Cases: four fluxes, one of each kind; a catalog of one source. *)
Lemma flux_width_case : flux_bounds 2 [4; 1; -4; 0] = [(Some 0, Some 8); (Some (-1), Some 3); (Some (-8), Some 1); (Some 0, Some 8)].
Proof.
  assert (S4 : sqrt 4 = 2) by (replace 4 with (2 * 2) by ring; apply sqrt_square; lra). assert (S1 : sqrt 1 = 1) by apply sqrt_1.
  assert (V : forall f h l, f <> 0 -> nth_error (flux_bounds 2 [f]) 0 = Some (Some l, Some h) -> flux_hi 2 f = Some h /\ flux_lo 2 f = Some l).
  { intros f h l Hn H. rewrite (flux_at 2 [f] 0 f eq_refl) in H. destruct (flux_hi_spec 2 f ltac:(lra) Hn) as (x & E & _). rewrite E in *. split; congruence. }
  assert (A : flux_hi 2 4 = Some 8 /\ flux_lo 2 4 = Some 0). { apply V; [lra|]. destruct (C33_flux_width 2 [4] 0 4 ltac:(lra) eq_refl) as (bd & -> & A & _). rewrite A by lra. rewrite S4. do 2 f_equal; f_equal; lra. }
  assert (B : flux_hi 2 1 = Some 3 /\ flux_lo 2 1 = Some (-1)). { apply V; [lra|]. destruct (C33_flux_width 2 [1] 0 1 ltac:(lra) eq_refl) as (bd & -> & _ & B & _). rewrite B by lra. rewrite S1, Rmax_left by lra. do 2 f_equal; f_equal; lra. }
  assert (C : flux_hi 2 (-4) = Some 1 /\ flux_lo 2 (-4) = Some (-8)). { apply V; [lra|]. destruct (C33_flux_width 2 [-4] 0 (-4) ltac:(lra) eq_refl) as (bd & -> & _ & _ & C). rewrite C by lra. replace (- -4) with 4 by ring. rewrite S4, Rmin_left by lra. do 2 f_equal; f_equal; lra. }
  assert (D : flux_hi 2 0 = None /\ flux_lo 2 0 = Some 0). { split; [unfold flux_hi; rewrite noise_zero; reflexivity|]. destruct (flux_lo_spec 2 0 ltac:(lra)) as (lo & E & _ & Z). rewrite E, (Z eq_refl). reflexivity. }
  destruct A as (A1 & A2), B as (B1 & B2), C as (C1 & C2), D as (D1 & D2). unfold flux_bounds. cbn [map combine]. rewrite A1, A2, B1, B2, C1, C2, D1, D2. unfold nanmax. cbn [fold_right]. rewrite (Rmax_left 3 1), (Rmax_left 8 3) by lra. reflexivity.
Qed.
Definition one_source : catalog := mkCat ("F090W" :: shape_names)%string [fun c => if string_dec c "q" then / 2 else if string_dec c "sersic" then 2 else if string_dec c "rhalf" then / 10 else if string_dec c "F090W" then 5 else 0].
Lemma default_shapes_case : exists b, make_bounds one_source ["F090W"%string] None 5 (6 / 100, 6 / 100) default_ranges = Some b /\ check_bounds one_source b = Passed.
Proof.
  destruct (C33_default_shapes one_source ["F090W"%string] None 5 (6 / 100, 6 / 100)) as (b & Hb & Hc).
  - intros c H. exact H.
  - discriminate.
  - lra.
  - cbn. lra.
  - cbn. lra.
  - intros row [<-|[]]. cbn. lra.
  - exists b. split; [exact Hb|]. apply Hc. intros [|[|i]] row Hr; cbn in Hr; try discriminate. injection Hr as <-. cbn. pose proof PI_RGT_0. rewrite Rabs_R0. split; [lra|]. intros f [<-|[]]. cbn. lra.
Qed.
Lemma missing_column_case : check_bounds one_source [("F200W"%string, [(Some 0, Some 1)])] <> Passed.
Proof. apply (C33_missing_column _ _ "F200W"%string [(Some 0, Some 1)]); [left; reflexivity|]. cbn. intuition discriminate. Qed.

Print Assumptions C33_flux_width.
Print Assumptions C33_zero_width.
Print Assumptions C33_widths.
Print Assumptions C33_default_shapes.
Print Assumptions C33_missing_column.
