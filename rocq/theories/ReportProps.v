(** C75: reports of patches and chains show what they say. *)
From Verif Require Import Np.
From Coq Require Import Reals Permutation Lra Lia Psatz ListDec.
From Verif Require Import QuantModel QuantProps ChainFacts ProfProps DemoModel DemoProps ReportModel.
From Verif Require CombineModel CombineProps CombineCat LinkedModel LinkedSpec LinkedFacts SuperSceneModel SuperSceneSpec Ds9Model CornerProps.
Import ListNotations.
Open Scope R_scope.

(** ** Panels of residuals *)
Lemma arr_ext_some better l : (forall x, In x l -> exists v, x = Some v) -> l <> [] -> exists v, arr_ext better l = Some (Some v) /\
  forall P : R -> Prop, (forall a b, P a \/ P b -> P (better a b)) -> (exists x, In (Some x) l /\ P x) -> P v.
Proof.
  destruct l as [|x l]; [contradiction|]. intros H _. cbn [arr_ext]. destruct (H x (or_introl eq_refl)) as (v & ->). assert (H' : forall y, In y l -> exists v, y = Some v) by (intros; apply H; now right). clear H. revert v.
  induction l as [|y l IH]; intros v; cbn [fold_left].
  - exists v. split; [reflexivity|]. intros P _ (x & [E|[]] & Hx). injection E as ->. exact Hx.
  - destruct (H' y (or_introl eq_refl)) as (w & ->). destruct (IH (fun z Hz => H' z (or_intror Hz)) (better v w)) as (u & E & A). exists u. split; [exact E|]. intros P HP (x & Hx & Px).
    apply (A P HP). destruct Hx as [E'|[E'|Hx]]; [injection E' as ->; exists (better x w); split; [now left|]; apply HP; now left|injection E' as ->; exists (better v x); split; [now left|]; apply HP; now right|exists x; split; [now right|exact Px]].
Qed.
Lemma arr_ext_in better l : (forall a b, better a b = a \/ better a b = b) -> forall v, arr_ext better l = Some (Some v) -> In (Some v) l.
Proof.
  intros Hb v. destruct l as [|x l]; [discriminate|]. cbn [arr_ext]. intros K. injection K as K. revert x K. induction l as [|y l IH]; intros x K; cbn [fold_left] in K; [now left|].
  destruct (IH _ K) as [E|Hin]; [|right; now right]. destruct x as [a|], y as [b|]; try discriminate. destruct (Hb a b) as [Eb|Eb]; rewrite Eb in E; [left; exact E|right; left; exact E].
Qed.
Lemma arr_ext_nan better l : In None l -> arr_ext better l = Some None.
Proof.
  destruct l as [|x l]; [intros []|]. intros H. cbn [arr_ext]. f_equal. assert (G : forall l x, x = None \/ In None l -> fold_left (fun a b => match a, b with Some u, Some v => Some (better u v) | _, _ => None end) l x = None).
  { clear. induction l as [|y l IH]; intros x [->|H]; cbn [fold_left]; [reflexivity|destruct H|apply IH; now left|]. destruct H as [->|H]; [destruct x; apply IH; now left|]. apply IH. now right. }
  apply G. destruct H as [->|H]; auto.
Qed.
Lemma arr_min l : (forall x, In x l -> exists v, x = Some v) -> l <> [] -> exists v, arr_ext Rmin l = Some (Some v) /\ In (Some v) l /\ forall x, In (Some x) l -> v <= x.
Proof.
  intros H1 H2. destruct (arr_ext_some Rmin l H1 H2) as (v & E & A). exists v. split; [exact E|]. split; [apply (arr_ext_in Rmin l); [|exact E]; intros a b; unfold Rmin; destruct (Rle_dec a b); auto|].
  intros x Hx. apply (A (fun v => v <= x)); [|exists x; split; [exact Hx|lra]]. intros a b [L|L]; [pose proof (Rmin_l a b); lra|pose proof (Rmin_r a b); lra].
Qed.
Lemma arr_max l : (forall x, In x l -> exists v, x = Some v) -> l <> [] -> exists v, arr_ext Rmax l = Some (Some v) /\ In (Some v) l /\ forall x, In (Some x) l -> x <= v.
Proof.
  intros H1 H2. destruct (arr_ext_some Rmax l H1 H2) as (v & E & A). exists v. split; [exact E|]. split; [apply (arr_ext_in Rmax l); [|exact E]; intros a b; unfold Rmax; destruct (Rle_dec a b); auto|].
  intros x Hx. apply (A (fun v => x <= v)); [|exists x; split; [exact Hx|lra]]. intros a b [L|L]; [pose proof (Rmax_l a b); lra|pose proof (Rmax_r a b); lra].
Qed.
Lemma py_min_spec a b : exists c, py_min (Some a) (Some b) = Some c /\ c <= a /\ c <= b /\ (c = a \/ c = b).
Proof. unfold py_min. destruct (Rlt_dec b a); [exists b|exists a]; repeat split; try lra; auto. Qed.
Lemma py_max_spec a b : exists c, py_max (Some a) (Some b) = Some c /\ a <= c /\ b <= c /\ (c = a \/ c = b).
Proof. unfold py_max. destruct (Rlt_dec a b); [exists b|exists a]; repeat split; try lra; auto. Qed.
(** The three panels of one exposure have one scale, which holds every value shown and no more when no pixel is masked *)
Theorem C75_scale : forall ps, ps <> [] -> (forall p, In p ps -> p_ierr p <> 0 /\ exists d r, p_data p = Some d /\ p_resid p = Some r) ->
  exists s lo hi, show None None ps = Some s /\ sh_min s = Some lo /\ sh_max s = Some hi /\
    let values := (map snd (sh_data s) ++ map snd (sh_resid s) ++ map snd (sh_model s))%list in
    (forall v, In v values -> exists x, v = Some x /\ lo <= x <= hi) /\ In (Some lo) values /\ In (Some hi) values.
Proof.
  intros ps Hne H. unfold show, scale_of. assert (Nm : forall f : rpix -> option R, map f ps <> []) by (intros f; destruct ps; [contradiction|discriminate]).
  assert (V : forall (f : rpix -> option R), (forall p, In p ps -> exists v, f p = Some v) -> forall x, In x (map f ps) -> exists v, x = Some v). { intros f Hf x Hx. apply in_map_iff in Hx. destruct Hx as (p & <- & Hp). now apply Hf. }
  assert (V1 : forall x, In x (map p_data ps) -> exists v, x = Some v) by (apply V; intros p Hp; destruct (H p Hp) as (_ & d & r & E1 & E2); eauto).
  assert (V2 : forall x, In x (map model_of ps) -> exists v, x = Some v). { apply V. intros p Hp. destruct (H p Hp) as (_ & d & r & E1 & E2). unfold model_of. rewrite E1, E2. eexists. reflexivity. }
  assert (V3 : forall x, In x (map resid_shown ps) -> exists v, x = Some v). { apply V. intros p Hp. destruct (H p Hp) as (Ni & d & r & E1 & E2). unfold resid_shown. destruct (Req_EM_T (p_ierr p) 0); [contradiction|]. eauto. }
  destruct (arr_min _ V1 (Nm _)) as (d & Ed & Id & Ad). destruct (arr_min _ V2 (Nm _)) as (m & Em & Im & Am). destruct (arr_min _ V3 (Nm _)) as (r & Er & Ir & Ar).
  destruct (arr_max _ V1 (Nm _)) as (D & ED & ID & AD). destruct (arr_max _ V2 (Nm _)) as (M & EM & IM & AM). destruct (arr_max _ V3 (Nm _)) as (R' & ER & IR & AR).
  rewrite Ed, Em, Er, ED, EM, ER. destruct (py_min_spec d m) as (c1 & -> & B1 & B2 & C1). destruct (py_min_spec c1 r) as (lo & -> & B3 & B4 & C2). destruct (py_max_spec D M) as (c2 & -> & B5 & B6 & C3). destruct (py_max_spec c2 R') as (hi & -> & B7 & B8 & C4).
  eexists. exists lo, hi. split; [reflexivity|]. split; [reflexivity|]. split; [reflexivity|]. cbn [sh_data sh_resid sh_model]. unfold at_pix. rewrite !map_map. cbn [snd].
  assert (Mx : forall f : rpix -> option R, map (fun p => f p) ps = map f ps) by reflexivity. rewrite (Mx p_data), (Mx resid_shown), (Mx model_of). split.
  - intros v Hv. rewrite !in_app_iff in Hv. destruct Hv as [Hv|[Hv|Hv]].
    + destruct (V1 v Hv) as (x & ->). exists x. split; [reflexivity|]. specialize (Ad x Hv). specialize (AD x Hv). lra.
    + destruct (V3 v Hv) as (x & ->). exists x. split; [reflexivity|]. specialize (Ar x Hv). specialize (AR x Hv). lra.
    + destruct (V2 v Hv) as (x & ->). exists x. split; [reflexivity|]. specialize (Am x Hv). specialize (AM x Hv). lra.
  - rewrite !in_app_iff. split.
    + destruct C2 as [->| ->]; [destruct C1 as [->| ->]; auto|auto].
    + destruct C4 as [->| ->]; [destruct C3 as [->| ->]; auto|auto].
Qed.
Print Assumptions C75_scale.
(** Refuted: with one masked pixel the scale does not know of the residuals *)
Theorem C75_scale_refuted : forall ps p0, In p0 ps -> p_ierr p0 = 0 -> (forall p, In p ps -> exists d r, p_data p = Some d /\ p_resid p = Some r) ->
  exists s lo hi, show None None ps = Some s /\ sh_min s = Some lo /\ sh_max s = Some hi /\
    (exists p, In p ps /\ (p_data p = Some lo \/ model_of p = Some lo)) /\ (exists p, In p ps /\ (p_data p = Some hi \/ model_of p = Some hi)) /\
    forall p v, In p ps -> p_data p = Some v \/ model_of p = Some v -> lo <= v <= hi.
Proof.
  intros ps p0 Hp0 Hi H. unfold show, scale_of. assert (Nm : forall f : rpix -> option R, map f ps <> []) by (intros f; destruct ps; [destruct Hp0|discriminate]).
  assert (V1 : forall x, In x (map p_data ps) -> exists v, x = Some v). { intros x Hx. apply in_map_iff in Hx. destruct Hx as (p & <- & Hp). destruct (H p Hp) as (d & r & E & _). eauto. }
  assert (V2 : forall x, In x (map model_of ps) -> exists v, x = Some v). { intros x Hx. apply in_map_iff in Hx. destruct Hx as (p & <- & Hp). destruct (H p Hp) as (d & r & E1 & E2). unfold model_of. rewrite E1, E2. eexists. reflexivity. }
  assert (N3 : In None (map resid_shown ps)). { apply in_map_iff. exists p0. split; [|exact Hp0]. unfold resid_shown. destruct (Req_EM_T (p_ierr p0) 0); [reflexivity|contradiction]. }
  rewrite !(arr_ext_nan _ _ N3).
  destruct (arr_min _ V1 (Nm _)) as (d & Ed & Id & Ad). destruct (arr_min _ V2 (Nm _)) as (m & Em & Im & Am). destruct (arr_max _ V1 (Nm _)) as (D & ED & ID & AD). destruct (arr_max _ V2 (Nm _)) as (M & EM & IM & AM).
  rewrite Ed, Em, ED, EM. destruct (py_min_spec d m) as (lo & -> & B1 & B2 & C1). destruct (py_max_spec D M) as (hi & -> & B5 & B6 & C3). cbn [py_min py_max].
  eexists. exists lo, hi. split; [reflexivity|]. split; [reflexivity|]. split; [reflexivity|].
  assert (Inv : forall (f : rpix -> option R) v, In (Some v) (map f ps) -> exists p, In p ps /\ f p = Some v) by (intros f v Hv; apply in_map_iff in Hv; destruct Hv as (p & E & Hp); eauto).
  split; [|split].
  - destruct C1 as [->| ->]; [destruct (Inv _ _ Id) as (p & Hp & E)|destruct (Inv _ _ Im) as (p & Hp & E)]; exists p; auto.
  - destruct C3 as [->| ->]; [destruct (Inv _ _ ID) as (p & Hp & E)|destruct (Inv _ _ IM) as (p & Hp & E)]; exists p; auto.
  - intros p v Hp [E|E]; [assert (I : In (Some v) (map p_data ps)) by (apply in_map_iff; eauto); specialize (Ad v I); specialize (AD v I); lra|assert (I : In (Some v) (map model_of ps)) by (apply in_map_iff; eauto); specialize (Am v I); specialize (AM v I); lra].
Qed.
Print Assumptions C75_scale_refuted.
(** At every pixel, in every panel at the same place, the data are the model and the residual; only masked pixels have no residual;
    limits of the caller are kept *)
Theorem C75_panels : forall vmin vmax ps s, show vmin vmax ps = Some s ->
  (forall i p, nth_error ps i = Some p -> exists D R' M,
     nth_error (sh_data s) i = Some (p_x p, p_y p, D) /\ nth_error (sh_resid s) i = Some (p_x p, p_y p, R') /\ nth_error (sh_model s) i = Some (p_x p, p_y p, M) /\
     (p_ierr p = 0 -> R' = None) /\ (forall d r, p_data p = Some d -> p_resid p = Some r -> D = Some d /\ exists m, M = Some m /\ d = m + r /\ (p_ierr p <> 0 -> R' = Some r))) /\
  (forall v, vmin = Some v -> sh_min s = Some v) /\ (forall v, vmax = Some v -> sh_max s = Some v).
Proof.
  intros vmin vmax ps s. unfold show. destruct (scale_of ps) as [[lo hi]|]; [|discriminate]. intros K. injection K as <-. cbn [sh_data sh_resid sh_model sh_min sh_max]. split; [|split; intros v ->; reflexivity].
  intros i p Hp. unfold at_pix. rewrite !nth_error_map, Hp. cbn [option_map]. eexists _, _, _. split; [reflexivity|]. split; [reflexivity|]. split; [reflexivity|]. unfold resid_shown, model_of. split; [intros E; destruct (Req_EM_T (p_ierr p) 0); [reflexivity|contradiction]|].
  intros d r Ed Er. split; [exact Ed|]. rewrite Ed, Er. cbn [nan_sub]. eexists. split; [reflexivity|]. split; [lra|]. intros Ni. destruct (Req_EM_T (p_ierr p) 0); [contradiction|reflexivity].
Qed.
Print Assumptions C75_panels.
(** On the axes of a panel the middle of the cell that has the value of a pixel is at the coordinates of that pixel *)
Theorem C75_place : forall V (ws : list (Z * Z * V)) r x y v, CombineModel.populate_image ws = Some r -> In (x, y, v) ws -> (0 <= x)%Z -> (0 <= y)%Z ->
  exists i j, (i < CombineModel.nx (fst (fst r)))%nat /\ (j < CombineModel.ny (fst (fst r)))%nat /\ cell_middle r i j = (IZR x, IZR y) /\
    forall u, CombineProps.latest ws (x, y) u -> CombineProps.cell (fst (fst r)) i j = Some u.
Proof.
  intros V ws r x y v Hr Hin Hx Hy. destruct (CombineCat.C40_populate V ws) as (im & x0 & y0 & x1 & y1 & E & [Nx Ny] & B & [P1 P2] & C); [exists x, y, v; auto|]. rewrite Hr in E. injection E as ->. cbn [fst].
  destruct (B x y v Hin Hx Hy) as [Bx By]. exists (Z.to_nat (x - x0)), (Z.to_nat (y - y0)). assert (L1 : (Z.to_nat (x - x0) < CombineModel.nx im)%nat) by lia. assert (L2 : (Z.to_nat (y - y0) < CombineModel.ny im)%nat) by lia. split; [exact L1|]. split; [exact L2|]. split.
  - 
    assert (G : forall a b z n, (a <= z <= b)%Z -> Z.of_nat n = (b - a + 1)%Z -> IZR (2 * a - 1) / 2 + (INR (Z.to_nat (z - a)) + 1 / 2) * ((IZR (2 * b + 1) / 2 - IZR (2 * a - 1) / 2) / INR n) = IZR z).
    { intros a b z n Hz Hn. rewrite !INR_IZR_INZ, Hn, Z2Nat.id by lia. repeat rewrite ?plus_IZR, ?minus_IZR, ?mult_IZR. assert (0 < IZR b - IZR a + 1). { rewrite <- minus_IZR, <- plus_IZR. apply IZR_lt. lia. } field. lra. }
    exact (f_equal2 pair (G x0 x1 x _ Bx Nx) (G y0 y1 y _ By Ny)).
  - intros u Hu. apply C; [exact L1|exact L2|]. replace (x0 + Z.of_nat (Z.to_nat (x - x0)))%Z with x by lia. replace (y0 + Z.of_nat (Z.to_nat (y - y0)))%Z with y by lia. exact Hu.
Qed.
Print Assumptions C75_place.

(** ** Marks *)
Lemma get_set k k' v s : get_key k (set_key k' v s) = if String.eqb k k' then Some v else get_key k s.
Proof.
  induction s as [|[k1 v1] s IH]; cbn [set_key get_key]; [destruct (String.eqb k k'); reflexivity|]. destruct (String.eqb_spec k' k1) as [->|N]; cbn [get_key].
  - destruct (String.eqb k k1) eqn:E; reflexivity.
  - destruct (String.eqb_spec k k1) as [->|N1]; [|exact IH]. destruct (String.eqb_spec k1 k') as [->|]; [contradiction|reflexivity].
Qed.
Lemma get_app k a b : get_key k (a ++ b) = match get_key k a with Some v => Some v | None => get_key k b end.
Proof. induction a as [|[k1 v1] a IH]; cbn [app get_key]; [reflexivity|]. destruct (String.eqb k k1); [reflexivity|exact IH]. Qed.
Lemma get_update k s e : get_key k (update s e) = match get_key k (rev e) with Some v => Some v | None => get_key k s end.
Proof.
  unfold update. revert s. induction e as [|[k1 v1] e IH]; intros s; cbn [fold_left rev]; [reflexivity|]. rewrite IH, get_app, get_set. cbn [fst snd get_key].
  destruct (get_key k (rev e)); [reflexivity|]. destruct (String.eqb k k1); reflexivity.
Qed.
(** The style of a call's marks is what this and all the earlier calls asked for, the latest first *)
Theorem C75_marks : forall default calls i s k, nth_error (mark_calls default calls) i = Some s ->
  get_key k s = match get_key k (rev (List.concat (firstn (S i) calls))) with Some v => Some v | None => get_key k default end.
Proof.
  intros default calls. revert default. induction calls as [|e t IH]; intros default i s k H; [destruct i; discriminate|]. cbn [mark_calls] in H. destruct i as [|i]; cbn [nth_error] in H.
  - injection H as <-. cbn [firstn List.concat]. rewrite app_nil_r. apply get_update.
  - rewrite (IH _ _ _ k H), get_update. change (firstn (S (S i)) (e :: t)) with (e :: firstn (S i) t). cbn [List.concat]. rewrite rev_app_distr, get_app. destruct (get_key k (rev (List.concat (firstn (S i) t)))); reflexivity.
Qed.
Print Assumptions C75_marks.
(** Refuted: marks without a colour of their own are not red, once others have been drawn in another *)
Theorem C75_marks_refuted : forall c, c <> "red"%string -> exists s1 s2, mark_calls mark_default [[("color"%string, c)]; []] = [s1; s2] /\ get_key "color" s2 = Some c /\ get_key "color" mark_default = Some "red"%string.
Proof. intros c Hc. eexists _, _. split; [reflexivity|]. split; reflexivity. Qed.
Print Assumptions C75_marks_refuted.

(** ** Chains *)
Lemma last_true_spec l : forall k j, last_true k l = Some j -> (k <= j < k + List.length l)%nat /\ nth_error l (j - k) = Some true /\ forall m, (j < m < k + List.length l)%nat -> nth_error l (m - k) = Some false.
Proof.
  induction l as [|b l IH]; intros k j H; cbn [last_true] in H; [discriminate|]. cbn [List.length]. destruct (last_true (S k) l) as [j'|] eqn:E.
  - injection H as <-. destruct (IH _ _ E) as (A & B & C). split; [lia|]. replace (j' - k)%nat with (S (j' - S k)) by lia. split; [exact B|]. intros m Hm. replace (m - k)%nat with (S (m - S k)) by lia. cbn [nth_error]. apply C. lia.
  - destruct b; [|discriminate]. injection H as <-. split; [lia|]. rewrite Nat.sub_diag. split; [reflexivity|]. intros m Hm. replace (m - k)%nat with (S (m - S k)) by lia. cbn [nth_error].
    assert (N : forall l k, last_true k l = None -> forall i, (i < List.length l)%nat -> nth_error l i = Some false). { clear. induction l as [|b l IH]; intros k H i Hi; [cbn in Hi; lia|]. cbn [last_true] in H. destruct (last_true (S k) l) eqn:E; [discriminate|]. destruct b; [discriminate|]. destruct i; [reflexivity|]. cbn [nth_error]. apply (IH _ E). cbn in Hi. lia. }
    apply (N l _ E). lia.
Qed.
Lemma last_true_some l : forall k, In true l -> exists j, last_true k l = Some j.
Proof. induction l as [|b l IH]; intros k H; [destruct H|]. cbn [last_true]. destruct H as [->|H]; [destruct (last_true (S k) l); eauto|]. destruct (IH (S k) H) as (j & ->). eauto. Qed.
Lemma show_chain_some span (bands shapes : list string) (sh : bool) axes (chain : string -> option (list R)) (bounds : option (string -> option (R * R))) (active : string -> option R) : 0 <= span <= 1 ->
  let cols := if sh then (bands ++ shapes)%list else bands in
  cols <> [] -> (List.length cols <= axes)%nat -> (forall c, In c cols -> exists xx, chain c = Some xx /\ xx <> []) -> (forall c, In c cols -> exists v, active c = Some v) ->
  (forall bd, bounds = Some bd -> forall c, In c cols -> exists p : R * R, bd c = Some p) -> exists ps, show_chain span bands shapes sh axes chain bounds (Some active) = Some ps.
Proof.
  intros Hs cols Hne Hl Hc Ha Hb. unfold show_chain. fold cols. assert (L : (Nat.leb 1 (List.length cols) && Nat.leb (List.length cols) axes)%bool = true) by (apply andb_true_iff; split; apply Nat.leb_le; [destruct cols; [contradiction|cbn; lia]|exact Hl]). rewrite L.
  apply mapM_total. intros c Hin. destruct (Hc c Hin) as (xx & -> & Nx). destruct (Ha c Hin) as (v & Ev).
  assert (E : percentiles xx [100 * (1 / 2 - 1 / 2 * span); 100 * (1 / 2 + 1 / 2 * span)] = Some (map (percentile xx) [100 * (1 / 2 - 1 / 2 * span); 100 * (1 / 2 + 1 / 2 * span)])) by (apply percentiles_spec; split; [exact Nx|]; split; [intros q [<-|[<-|[]]]; lra|reflexivity]).
  rewrite E, Ev. cbn [map]. destruct bounds as [bd|]; [destruct (Hb bd eq_refl c Hin) as (p & ->)|]; eauto.
Qed.
(** With two bands or more, at most six shape parameters and some warm up there is a page for every source, on which every
    band and every shape parameter has one panel, with the samples of that source and its value in the catalog *)
Theorem C75_chain_pdf : forall span bands shapes tune ns chain bounds active, 0 <= span <= 1 -> (2 <= List.length bands)%nat -> (List.length shapes <= 6)%nat -> In true tune ->
  (forall i c, (i < ns)%nat -> In c (bands ++ shapes)%list -> (exists xx, chain i c = Some xx /\ xx <> []) /\ (exists v, active i c = Some v) /\ forall b, bounds = Some b -> exists p, b i c = Some p) ->
  exists pages, chain_pdf span bands shapes tune ns chain bounds active = Some pages /\ List.length pages = ns /\
    forall i pg, nth_error pages i = Some pg -> 
      Permutation (map t_label (pg_left pg ++ pg_right pg)) (bands ++ shapes)%list /\
      (forall p, In p (pg_left pg ++ pg_right pg)%list -> chain i (t_label p) = Some (t_samples p) /\ t_truth p = active i (t_label p) /\ forall b, bounds = Some b -> b i (t_label p) = Some (t_limits p)) /\
      (forall k, pg_shade pg = Some k -> (1 < k)%nat /\ nth_error tune k = Some true /\ forall m, (k < m < List.length tune)%nat -> nth_error tune m = Some false) /\
      (pg_shade pg = None -> forall m, (1 < m < List.length tune)%nat -> nth_error tune m = Some false).
Proof.
  intros span bands shapes tune ns chain bounds active Hs Hb Hsh Ht H. unfold chain_pdf. destruct (last_true_some tune 0 Ht) as (k & Ek). rewrite Ek.
  match goal with |- context [mapM ?g (seq 0 ns)] => set (f := g) end.
  assert (Incl : forall c, In c (firstn 1 bands ++ shapes)%list \/ In c (skipn 1 bands) -> In c (bands ++ shapes)%list). { intros c Hc. rewrite <- (firstn_skipn 1 bands). rewrite !in_app_iff in *. tauto. }
  assert (One : forall i, (i < ns)%nat -> exists l r, f i = Some (mkPage l r (if Nat.ltb 1 k then Some k else None)) /\
     show_chain span (firstn 1 bands) shapes true (Nat.min 7 (Nat.max 7 (List.length bands - 1))) (chain i) (match bounds with Some b => Some (b i) | None => None end) (Some (active i)) = Some l /\
     show_chain span (skipn 1 bands) shapes false (List.length bands - 1) (chain i) (match bounds with Some b => Some (b i) | None => None end) (Some (active i)) = Some r).
  { intros i Hi.
    destruct (show_chain_some span (firstn 1 bands) shapes true (Nat.min 7 (Nat.max 7 (List.length bands - 1))) (chain i) (match bounds with Some b => Some (b i) | None => None end) (active i) Hs) as (l & El).
    { destruct bands; [cbn in Hb; lia|discriminate]. } { rewrite app_length, firstn_length. lia. } { intros c Hc. apply (H i c Hi), Incl. now left. } { intros c Hc. apply (H i c Hi), Incl. now left. }
    { intros bd Eb c Hc. destruct bounds as [b|]; [|discriminate]. injection Eb as <-. apply (H i c Hi (Incl c (or_introl Hc))). reflexivity. }
    destruct (show_chain_some span (skipn 1 bands) shapes false (List.length bands - 1) (chain i) (match bounds with Some b => Some (b i) | None => None end) (active i) Hs) as (r & Er).
    { intros Z. apply (f_equal (@List.length string)) in Z. rewrite skipn_length in Z. cbn in Z. lia. } { rewrite skipn_length. lia. } { intros c Hc. apply (H i c Hi), Incl. now right. } { intros c Hc. apply (H i c Hi), Incl. now right. }
    { intros bd Eb c Hc. destruct bounds as [b|]; [|discriminate]. injection Eb as <-. apply (H i c Hi (Incl c (or_intror Hc))). reflexivity. }
    exists l, r. unfold f. rewrite El, Er. auto. }
  destruct (mapM_total f (seq 0 ns)) as (pages & E). { intros i Hi. apply in_seq in Hi. destruct (One i ltac:(lia)) as (l & r & E & _). eauto. }
  exists pages. split; [exact E|]. apply mapM_nth in E. destruct E as [L N]. rewrite seq_length in L. split; [exact L|]. intros i pg Hpg.
  assert (Hi : (i < ns)%nat) by (rewrite <- L; apply nth_error_Some; congruence). assert (Es : nth_error (seq 0 ns) i = Some i) by (rewrite (nth_error_nth' _ 0%nat) by (rewrite seq_length; exact Hi); now rewrite seq_nth).
  destruct (N i i Es) as (pg' & Hpg' & Efi). rewrite Hpg in Hpg'. injection Hpg' as <-. destruct (One i Hi) as (l & r & Ef & El & Er). rewrite Efi in Ef. injection Ef as ->. cbn [pg_left pg_right pg_shade].
  apply C74_trace in El. apply C74_trace in Er. destruct El as (Ll & _ & Pl), Er as (Lr & _ & Pr). destruct (last_true_spec _ _ _ Ek) as (K1 & K2 & K3). rewrite Nat.sub_0_r in K2. split; [|split; [|split]].
  - rewrite map_app, Ll, Lr. rewrite <- (firstn_skipn 1 bands) at 3. rewrite <- !app_assoc. apply Permutation_app_head, Permutation_app_comm.
  - intros p Hp. rewrite in_app_iff in Hp. assert (Q : forall p, In p l \/ In p r -> chain i (t_label p) = Some (t_samples p) /\ (match bounds with Some b => b i (t_label p) = Some (t_limits p) | None => True end) /\ t_truth p = active i (t_label p)).
    { intros q [Hq|Hq]; [destruct (Pl q Hq) as (A & B & C & _)|destruct (Pr q Hq) as (A & B & C & _)]; (split; [exact A|]; split; [destruct bounds; [exact B|exact I]|exact C]). }
    destruct (Q p Hp) as (A & B & C). split; [exact A|]. split; [exact C|]. intros b ->. exact B.
  - intros k' Hk. destruct (Nat.ltb_spec 1 k); [|discriminate]. injection Hk as <-. split; [lia|]. split; [exact K2|]. intros m Hm. specialize (K3 m ltac:(lia)). now rewrite Nat.sub_0_r in K3.
  - intros Hk m Hm. destruct (Nat.ltb_spec 1 k); [discriminate|]. specialize (K3 m ltac:(lia)). now rewrite Nat.sub_0_r in K3.
Qed.
Print Assumptions C75_chain_pdf.
(** Refuted: a patch with one band, or with more than six shape parameters, or sampled without warm up, has no pages *)
Theorem C75_chain_pdf_refuted : forall span bands shapes tune ns chain bounds active, (0 < ns)%nat -> (List.length bands <= 1)%nat \/ (6 < List.length shapes)%nat \/ ~ In true tune ->
  chain_pdf span bands shapes tune ns chain bounds active = None.
Proof.
  intros span bands shapes tune ns chain bounds active Hn H. destruct ns as [|ns]; [lia|]. unfold chain_pdf. cbn [seq mapM].
  match goal with |- match ?x with _ => _ end = None => assert (E : x = None) end.
  { destruct (last_true 0 tune) as [k|] eqn:Ek; [|reflexivity]. destruct H as [H|[H|H]].
    - assert (Es : skipn 1 bands = []) by (apply skipn_all2; exact H). cbv zeta. rewrite Es. unfold show_chain at 2. cbn [List.length Nat.leb andb]. destruct (show_chain _ _ _ _ _ _ _ _); reflexivity.
    - destruct (Nat.le_gt_cases (List.length bands) 1) as [H1|H1].
      + assert (Es : skipn 1 bands = []) by (apply skipn_all2; exact H1). cbv zeta. rewrite Es. unfold show_chain at 2. cbn [List.length Nat.leb andb]. destruct (show_chain _ _ _ _ _ _ _ _); reflexivity.
      + cbv zeta. unfold show_chain at 1. assert (Lb : Nat.leb (List.length (firstn 1 bands ++ shapes)) (Nat.min 7 (Nat.max 7 (List.length bands - 1))) = false) by (apply Nat.leb_gt; rewrite app_length, firstn_length; lia). rewrite Lb, andb_false_r. reflexivity.
    - exfalso. apply H. destruct (last_true_spec _ _ _ Ek) as (_ & K & _). apply nth_error_In in K. exact K. }
  rewrite E. reflexivity.
Qed.
Print Assumptions C75_chain_pdf_refuted.

(** ** Tables and logs *)
(** The table of the sampler's statistics has, for every asked name and iteration, what the sampler said; it exists exactly
    when every iteration has every name *)
Lemma stat_of_in {V} c (d : list (string * V)) v : NoDup (map fst d) -> stat_of c d = Some v <-> In (c, v) d.
Proof.
  induction d as [|[k w] d IH]; intros Hn; cbn [stat_of map fst] in *; [split; [discriminate|intros []]|]. inversion Hn as [|? ? Hk Hd]; subst. destruct (String.eqb_spec c k) as [->|N].
  - split; [intros E; injection E as ->; now left|]. intros [E|Hin]; [now injection E as ->|]. exfalso. apply Hk. apply in_map_iff. exists (k, v). auto.
  - rewrite IH by exact Hd. split; [now right|]. intros [E|Hin]; [congruence|exact Hin].
Qed.
Theorem C75_statscat : forall V names (stats : list (list (string * V))), (forall d, In d stats -> NoDup (map fst d)) ->
  ((exists t, make_statscat names stats = Some t) <-> forall c d, In c names -> In d stats -> In c (map fst d)) /\
  forall t, make_statscat names stats = Some t -> map fst t = names /\ forall c col, In (c, col) t -> Forall2 (fun d v => In (c, v) d) stats col.
Proof.
  intros V names stats Hn. unfold make_statscat.
  assert (F2 : forall c col, mapM (stat_of c) stats = Some col -> Forall2 (fun d v => In (c, v) d) stats col). { intros c. revert Hn. induction stats as [|d stats IH]; intros Hn col E; cbn [mapM] in E; [injection E as <-; constructor|]. destruct (stat_of c d) eqn:Ed; [|discriminate]. destruct (mapM (stat_of c) stats); [|discriminate]. injection E as <-. constructor; [apply stat_of_in in Ed; [exact Ed|apply Hn; now left]|apply IH; [intros; apply Hn; now right|reflexivity]]. }
  split; [split|].
  - intros (t & E). revert t E. induction names as [|c names IH]; intros t E c' d Hc Hd; [destruct Hc|]. cbn [mapM] in E. destruct (mapM (stat_of c) stats) as [col|] eqn:Ec; [|discriminate]. destruct (mapM _ names) as [t'|] eqn:Et; [|discriminate]. destruct Hc as [<-|Hc]; [|exact (IH t' eq_refl c' d Hc Hd)].
    specialize (F2 c col Ec). clear - F2 Hd. induction F2 as [|d' v stats col E F IH]; [destruct Hd|]. destruct Hd as [<-|Hd]; [apply in_map_iff; exists (c, v); auto|auto].
  - intros H. apply mapM_total. intros c Hc. destruct (mapM_total (stat_of c) stats) as (col & ->); [|eauto]. intros d Hd. specialize (H c d Hc Hd). apply in_map_iff in H. destruct H as ([c' v] & E & Hin). cbn in E. subst c'. exists v. apply stat_of_in; [now apply Hn|exact Hin].
  - revert F2. clear. intros F2. induction names as [|c names IH]; intros t E; cbn [mapM] in E; [injection E as <-; split; [reflexivity|intros c col []]|]. destruct (mapM (stat_of c) stats) as [col|] eqn:Ec; [|discriminate]. destruct (mapM _ names) as [t'|]; [|discriminate]. injection E as <-. destruct (IH t' eq_refl) as [A B]. cbn [map fst]. split; [now rewrite A|]. intros c' col' [K|K]; [injection K as <- <-; now apply F2|now apply B].
Qed.
Print Assumptions C75_statscat.
(** The log is its messages, one after the other, in lines *)
Theorem C75_log : forall comments message timetag,
  serialize (info comments message timetag) = match comments with [] => message | _ => (serialize comments ++ newline ++ message)%string end.
Proof.
  intros comments message timetag. unfold serialize, info. rewrite map_app. cbn [map fst]. induction comments as [|[m t] comments IH]; [reflexivity|]. cbn [map fst app]. destruct comments as [|[m' t'] comments]; [reflexivity|].
  cbn [map fst app] in IH |- *. change (String.concat newline (m :: m' :: (map fst comments ++ [message])%list)) with (m ++ newline ++ String.concat newline (m' :: (map fst comments ++ [message])%list))%string. rewrite IH.
  change (String.concat newline (m :: m' :: map fst comments)) with (m ++ newline ++ String.concat newline (m' :: map fst comments))%string.
  generalize (String.concat newline (m' :: map fst comments)) as u. intros u. assert (A : forall a b c : string, ((a ++ b) ++ c = a ++ b ++ c)%string) by (induction a as [|ch a IHa]; intros b c; cbn; [reflexivity|now rewrite IHa]). now rewrite !A.
Qed.
Print Assumptions C75_log.
(** Refuted: statistics of the sources in several patches cannot be computed when there are any *)
Theorem C75_multipatch_refuted : forall (S : Type) (dupes : list S), dupes <> [] -> check_multipatch (Ds9Model.bound Ds9Model.postprocess_names) dupes = None.
Proof. intros S [|s dupes] H; [contradiction|reflexivity]. Qed.
Print Assumptions C75_multipatch_refuted.

(** ** Sources near a place *)
(** The sources returned for a circle are those whose own circle overlaps it, each once, when no such radius exceeds the
    boundary radius; refuted: when no source is within reach at all there is an exception instead of an empty catalog *)
Theorem C75_overlap_circle : forall e lc s ra dec radius, LinkedSpec.lenv_ok (List.length (SuperSceneModel.sourcecat s)) e -> LinkedSpec.roi_ok lc s -> (0 <= radius)%Q ->
  let center := SuperSceneModel.sky_to_scene (LinkedModel.le e) ra dec in
  let d := SuperSceneModel.distance_to (LinkedModel.le e) center in
  (forall k, (k < List.length (SuperSceneModel.sourcecat s))%nat -> (LinkedSpec.roi_of lc s k <= SuperSceneModel.boundary_radius (LinkedModel.base lc))%Q) ->
  ((exists k, (k < List.length (SuperSceneModel.sourcecat s))%nat /\ (d k <= radius + SuperSceneModel.boundary_radius (LinkedModel.base lc))%Q) ->
   exists inds rows, overlap_circle e lc s ra dec radius = Some rows /\ NoDup inds /\ Forall2 (fun k r => nth_error (SuperSceneModel.sourcecat s) k = Some r) inds rows /\
     forall k, In k inds <-> (k < List.length (SuperSceneModel.sourcecat s))%nat /\ (d k < radius + LinkedSpec.roi_of lc s k)%Q) /\
  ((forall k, (k < List.length (SuperSceneModel.sourcecat s))%nat -> (radius + SuperSceneModel.boundary_radius (LinkedModel.base lc) < d k)%Q) -> overlap_circle e lc s ra dec radius = None).
Proof.
  intros e lc s ra dec radius He Hroi Hr center d Hb. unfold overlap_circle. fold center. pose proof (SuperSceneSpec.query_spec _ _ (LinkedSpec.lenv_base _ _ He)) as Q.
  set (kinds := SuperSceneModel.query_ball (LinkedModel.le e) center (radius + SuperSceneModel.boundary_radius (LinkedModel.base lc))%Q). split.
  - intros (k0 & K1 & K2). assert (Hin : In k0 kinds) by (apply Q; split; assumption).
    destruct (LinkedFacts.find_overlaps_spec e lc s He Hroi center radius None false Hr) as (inds & E & Nd & Si & _). 
    assert (G : forall k, In k inds <-> (k < List.length (SuperSceneModel.sourcecat s))%nat /\ (d k < radius + LinkedSpec.roi_of lc s k)%Q).
    { intros k. rewrite Si. unfold d. split; [tauto|]. intros [A B]. split; [exact A|]. split; [|split; [exact B|discriminate]]. specialize (Hb k A). apply Qlt_le_weak. eapply Qlt_le_trans; [exact B|]. apply Qplus_le_r. exact Hb. }
    destruct (mapM_total (nth_error (SuperSceneModel.sourcecat s)) inds) as (rows & Er). { intros k Hk. apply G in Hk. destruct Hk as [A _]. apply nth_error_Some in A. destruct (nth_error (SuperSceneModel.sourcecat s) k); [eauto|contradiction]. }
    exists inds, rows. split; [destruct kinds; [destruct Hin|]; rewrite E; exact Er|]. split; [exact Nd|]. split; [|exact G].
    clear - Er. revert rows Er. induction inds as [|k inds IH]; intros rows Er; cbn [mapM] in Er; [injection Er as <-; constructor|]. destruct (nth_error (SuperSceneModel.sourcecat s) k) eqn:Ek; [|discriminate]. destruct (mapM _ inds); [|discriminate]. injection Er as <-. constructor; [exact Ek|now apply IH].
  - intros Hfar. destruct kinds as [|k kinds'] eqn:Ek; [reflexivity|]. exfalso. assert (Hin : In k kinds) by (rewrite Ek; now left). apply Q in Hin. destruct Hin as [A B]. specialize (Hfar k A). unfold d in Hfar. exact (Qlt_not_le _ _ Hfar B).
Qed.
Print Assumptions C75_overlap_circle.

(** ** Sampling with another package *)
(** Column j of the chain has the draws of parameter j, for bounds given as lists of the right length *)
Theorem C75_pymc3 : forall sample pnames lo hi n, List.length lo = List.length pnames -> List.length hi = List.length pnames -> NoDup pnames -> pnames <> [] ->
  (forall c, In c pnames -> List.length (sample (combine pnames (combine lo hi)) c) = n) ->
  exists chain, run_pymc3 sample pnames (Vec lo) (Vec hi) = Some chain /\ List.length chain = n /\
    forall i row, nth_error chain i = Some row -> List.length row = List.length pnames /\
      forall j c, nth_error pnames j = Some c -> nth_error row j = nth_error (sample (combine pnames (combine lo hi)) c) i.
Proof.
  intros sample pnames lo hi n Hl Hh Hd Hne Hn. unfold run_pymc3. rewrite Hl, Hh, !Nat.eqb_refl. cbn [andb]. destruct (NoDup_dec string_dec pnames) as [_|N]; [|contradiction]. set (S := sample (combine pnames (combine lo hi))) in *.
  eexists. split; [reflexivity|]. assert (L : List.length (hd [] (map S pnames)) = n) by (destruct pnames as [|c p]; [contradiction|cbn; apply Hn; now left]). rewrite L. split; [now rewrite map_length, seq_length|].
  intros i row Hr. rewrite nth_error_map in Hr. destruct (nth_error (seq 0 n) i) as [i'|] eqn:Ei; [|discriminate]. injection Hr as <-. assert (Hi : (i < n)%nat) by (rewrite <- (seq_length n 0); apply nth_error_Some; congruence).
  rewrite (nth_error_nth' _ 0%nat) in Ei by (rewrite seq_length; exact Hi). rewrite seq_nth in Ei by exact Hi. injection Ei as <-. split; [now rewrite !map_length|]. intros j c Hj. rewrite map_map, nth_error_map, Hj. cbn [option_map]. rewrite (nth_error_nth' _ 0) by (rewrite Hn; [exact Hi|now apply nth_error_In in Hj]). reflexivity.
Qed.
Print Assumptions C75_pymc3.
(** Bounds of other lengths, or a name that is there twice, are refused *)
Theorem C75_pymc3_refuses : forall sample pnames lo hi chain, run_pymc3 sample pnames (Vec lo) (Vec hi) = Some chain -> List.length lo = List.length pnames /\ List.length hi = List.length pnames /\ NoDup pnames.
Proof.
  intros sample pnames lo hi chain. unfold run_pymc3. destruct (Nat.eqb_spec (List.length hi) (List.length lo)) as [E1|]; [|discriminate]. destruct (Nat.eqb_spec (List.length lo) (List.length pnames)) as [E2|]; [|discriminate]. cbn [andb]. destruct (NoDup_dec string_dec pnames); [|discriminate]. intros _. repeat split; [exact E2|congruence|assumption].
Qed.
Print Assumptions C75_pymc3_refuses.
(** Refuted: the bounds it has by default are numbers, and it needs lists *)
Theorem C75_pymc3_refuted : forall sample pnames, run_pymc3 sample pnames (fst pymc3_defaults) (snd pymc3_defaults) = None.
Proof. reflexivity. Qed.
Print Assumptions C75_pymc3_refuted.
