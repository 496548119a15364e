(** C76: when a catalog is taken and questions answered, and the median both ways round. *)
From Verif Require Import Np.
From Coq Require Import Reals Lra Lia Permutation.
From Verif Require Import QuantModel QuantFacts ShearModel FrameModel FrameProps FrameCase.
Import ListNotations.
Open Scope R_scope.

Lemma median_range l m lo hi : median l = Some m -> (forall x, In x l -> lo <= x <= hi) -> lo <= m <= hi.
Proof.
  unfold median. destruct l as [|x0 l0] eqn:El; [discriminate|]. rewrite <- El. assert (Ln : (0 < List.length l)%nat) by (rewrite El; cbn; lia). clear El.
  intros H Hx. apply (f_equal (fun o => match o with Some v => v | None => 0 end)) in H. cbv zeta in H. subst m.
  assert (N : forall i, (i < List.length l)%nat -> lo <= nth i (sort l) 0 <= hi).
  { intros i Hi. apply Hx. apply (Permutation_in _ (sort_perm l)). apply nth_In. now rewrite sort_length. }
  pose proof (N ((List.length l - 1) / 2)%nat) as N1. pose proof (N (List.length l / 2)%nat) as N2.
  assert ((List.length l - 1) / 2 < List.length l)%nat by (apply Nat.div_lt_upper_bound; lia). assert (List.length l / 2 < List.length l)%nat by (apply Nat.div_lt; lia).
  specialize (N1 ltac:(assumption)). specialize (N2 ltac:(assumption)). lra.
Qed.
Lemma frame_made s : (exists c, f_frame s = Some c) \/ (f_cat s <> [] /\ forall p, In p (f_cat s) -> valid p) -> exists c s', scene_frame s = Some (c, s').
Proof.
  intros H. unfold scene_frame. destruct (f_frame s) as [c|]; [eauto|]. destruct H as [(c & H)|[Hn Hv]]; [discriminate|].
  assert (M : forall f : R * R -> R, exists m, median (map f (f_cat s)) = Some m) by (intros f; destruct (f_cat s); [contradiction|cbn [map median]; eauto]).
  destruct (M fst) as (mra & E1). destruct (M snd) as (mdec & E2). rewrite E1, E2.
  assert (V : valid (mra, mdec)). { unfold valid. cbn [snd]. apply (median_range _ _ _ _ E2). intros x Hx. apply in_map_iff in Hx. destruct Hx as (p & <- & Hp). exact (Hv p Hp). }
  rewrite (sky_coord_valid _ V). eauto.
Qed.
(** A catalog is taken if, and only if, it has a source and every declination is one; whatever is then asked of places
    on the sky, and wherever sources are written back, every question is answered. *)
Theorem C76_taken : forall cat, ((exists s, ingest cat f_init = Some s) <-> cat <> [] /\ forall p, In p cat -> valid p) /\
  forall s0 ops, ingest cat f_init = Some s0 -> (forall ps p, In (OpAsk ps) ops -> In p ps -> valid p) -> exists s, run ops s0 = Some s.
Proof.
  intros cat. split; [split|].
  - intros (s & H). unfold ingest, scene_coordinates in H. cbn [f_init f_coords f_frame f_tree f_cat] in H.
    destruct (sky_to_scene _ cat) as [[xy s']|] eqn:E; [|discriminate]. split.
    + intros ->. unfold sky_to_scene, scene_frame in E. cbn in E. discriminate E.
    + unfold sky_to_scene in E. destruct (mapM sky_coord cat) as [cs|] eqn:Ec; [|discriminate]. exact (proj2 (sky_coords_some _ _ Ec)).
  - intros [Hn Hv]. unfold ingest, scene_coordinates. cbn [f_init f_coords f_frame f_tree f_cat]. unfold sky_to_scene. rewrite (sky_coords_valid _ Hv).
    destruct (frame_made (mkF cat None None [])) as (c & s' & ->); [right; auto|]. eauto.
  - intros s0 ops Hi Ho.
    assert (I0 : (exists c, f_frame s0 = Some c) /\ exists xy, f_coords s0 = Some xy).
    { destruct (C76_cached cat s0 [] s0 Hi eq_refl) as (c & Ec & _). split; [eauto|]. unfold ingest in Hi. destruct (scene_coordinates _) as [[xy s']|] eqn:E; [|discriminate].
      injection Hi as <-. unfold scene_coordinates in E. cbn [f_init f_coords f_frame f_tree f_cat] in E. destruct (sky_to_scene _ cat) as [[xy' s'']|]; [|discriminate]. injection E as _ <-. cbn [f_coords]. eauto. }
    clear Hi. revert s0 I0. induction ops as [|o ops IH]; intros s0 ((c & Ec) & (xy & Ex)); cbn [run]; [eauto|].
    assert (A : exists s1, apply_op o s0 = Some s1 /\ f_frame s1 = Some c /\ f_coords s1 = Some xy).
    { destruct o as [m|ps|]; cbn [apply_op].
      - eexists. split; [reflexivity|]. cbn [write_back f_frame f_coords]. auto.
      - unfold sky_to_scene. rewrite (sky_coords_valid ps) by (intros p Hp; exact (Ho ps p (or_introl eq_refl) Hp)). unfold scene_frame. rewrite Ec. cbn [option_map snd]. eauto.
      - unfold scene_coordinates. rewrite Ex. cbn [option_map snd]. eauto. }
    destruct A as (s1 & -> & E1 & E2). apply IH; [intros ps p Hps; apply Ho; now right|]. split; eauto.
Qed.
Print Assumptions C76_taken.
(** The sky seen in a mirror has its centre in the mirror image of the centre: of two middle sources neither is preferred. *)
Theorem C76_median_mirror : forall l, median (map Ropp l) = option_map Ropp (median l).
Proof.
  intros l. assert (Es : sort (map Ropp l) = rev (map Ropp (sort l))).
  { apply sorted_unique; [apply sort_sorted| |].
    - intros i j Hij Hj. rewrite rev_length, map_length in Hj. rewrite !rev_nth by (rewrite map_length; lia). rewrite map_length.
      replace 0 with (- 0) by lra. rewrite !map_nth. apply Ropp_le_contravar.
      destruct (Nat.eq_dec (List.length (sort l) - S j) (List.length (sort l) - S i)) as [->|N]; [lra|]. apply (sort_sorted l); lia.
    - rewrite sort_perm. rewrite <- Permutation_rev. apply Permutation_map. symmetry. apply sort_perm. }
  unfold median. destruct l as [|x0 l0] eqn:El; [reflexivity|]. rewrite <- El in *. assert (Ln : (0 < List.length l)%nat) by (rewrite El; cbn; lia).
  assert (Em : exists y t, map Ropp l = y :: t) by (rewrite El; cbn [map]; eauto). destruct Em as (y & t & Em). rewrite Em. rewrite <- Em. clear El Em. cbn [option_map]. f_equal. cbv zeta.
  rewrite Es, map_length. set (n := List.length l) in *. assert (Lr : List.length (map Ropp (sort l)) = n) by (rewrite map_length; apply sort_length).
  assert (D := Nat.div_mod n 2 ltac:(lia)). assert (D' := Nat.div_mod (n - 1) 2 ltac:(lia)). assert (M := Nat.mod_upper_bound n 2 ltac:(lia)). assert (M' := Nat.mod_upper_bound (n - 1) 2 ltac:(lia)).
  rewrite !rev_nth by (rewrite Lr; lia). rewrite Lr. replace (n - S ((n - 1) / 2))%nat with (n / 2)%nat by lia. replace (n - S (n / 2))%nat with ((n - 1) / 2)%nat by lia.
  assert (O : forall i, nth i (map Ropp (sort l)) 0 = - nth i (sort l) 0) by (intros i; rewrite <- (map_nth Ropp (sort l) 0 i); now rewrite Ropp_0). rewrite !O. lra.
Qed.
Print Assumptions C76_median_mirror.
(** Three sources are taken, and asked about; none are not, nor one beyond the pole. *)
Example C76_taken_case : (exists s0 s, ingest trio f_init = Some s0 /\ run [OpAsk [(10, 1)]; OpMove [(0%nat, (11, 0))]; OpCoords] s0 = Some s) /\ (~ exists s, ingest [] f_init = Some s) /\ ~ exists s, ingest [(10, 91)] f_init = Some s.
Proof.
  split; [|split].
  - destruct trio_ingest as (s0 & E & _). destruct (proj2 (C76_taken trio) s0 [OpAsk [(10, 1)]; OpMove [(0%nat, (11, 0))]; OpCoords] E) as (s & Es); [|eauto].
    intros ps p [H|[H|[H|[]]]]; try discriminate. injection H as <-. intros [<-|[]]. unfold valid. cbn. lra.
  - intros K. apply (proj1 (C76_taken [])) in K. now destruct K.
  - intros K. apply (proj1 (C76_taken _)) in K. destruct K as [_ K]. specialize (K _ (or_introl eq_refl)). unfold valid in K. cbn in K. lra.
Qed.
Example C76_median_mirror_case : median [1; 4] = Some (5 / 2) /\ median [-1; -4] = Some (- (5 / 2)).
Proof.
  assert (E : median [1; 4] = Some (5 / 2)) by (unfold median; cbn [sort insert]; destruct (Rle_dec 1 4); [|lra]; cbn; f_equal; lra).
  split; [exact E|]. change [-1; -4] with (map Ropp [1; 4]). rewrite C76_median_mirror, E. reflexivity.
Qed.
