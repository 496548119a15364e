(** C39: zeroing coordinates, over every history of preparations. *)
From Verif Require Import Np NpFacts KernelModel PackModel DeviceModel DeviceLoop.
From Coq Require Import Reals Lra.
Open Scope R_scope.
Close Scope R_scope.
Open Scope nat_scope.

(** Undoing the zero point gives back every source exactly, whatever the zero point. *)
Theorem C39_unzero_zero : forall sc sky_zero, unzerocoords (fst (zerocoords sc sky_zero)) (snd (zerocoords sc sky_zero)) = sc.
Proof.
  intros [sp srcs] sky_zero. unfold zerocoords, unzerocoords. cbn [fst snd sc_spline sc_sources]. f_equal. rewrite map_map. set (z := match sky_zero with Some _ => _ | None => _ end). clearbody z.
  rewrite <- (map_id srcs) at 2. apply map_ext. intros [f ra dec q pa n rh]. unfold shift_source. simpl. f_equal; ring.
Qed.
Lemma pack_meta_zero E sc ref sc' m : pack_meta E sc = Some (ref, sc', m) -> unzerocoords ref sc' = sc /\ (ref, sc') = zerocoords sc None.
Proof.
  intros H. assert (Hz : (ref, sc') = zerocoords sc None).
  { unfold pack_meta in H. destruct (zerocoords sc None) as [r s]. cbv zeta in H. destruct (sc_sources s); [discriminate|]. destruct (pack_psf _ _ _ _ _ _ _); [|discriminate]. congruence. }
  split; auto. pose proof (C39_unzero_zero sc None) as G. now rewrite <- Hz in G.
Qed.

Lemma evaluate_reference E gpu st props st' out : evaluate E gpu st props = Some (st', out) -> reference st' = reference st /\ host_meta st' = host_meta st.
Proof.
  unfold evaluate. intros H. destruct (struct st) as [[[d r] [id m]]|]; [|discriminate]. destruct (negb gpu && _); [discriminate|].
  destruct (nth_error (buffers st) d); [|discriminate]. destruct (return_residual st).
  - destruct (if gpu then _ else _); [|discriminate]. destruct (nth_error _ _); [|discriminate]. injection H as <- _. auto.
  - injection H as <- _. auto.
Qed.
Lemma swap_reference gpu st st' : swap_on_device gpu st = Some st' -> reference st' = reference st.
Proof.
  unfold swap_on_device, replace_meta, send_patchstruct. intros H.
  destruct (ptr_residual st), (ptr_data st), (host_meta st); try discriminate. destruct gpu; cbn in H.
  - injection H as <-. reflexivity.
  - destruct (attr_residual st); [|discriminate]. cbn in H. injection H as <-. reflexivity.
Qed.
Lemma send_reference gpu st st' : send_to_device gpu st = Some st' -> reference st' = reference st.
Proof.
  unfold send_to_device, send_patchstruct. intros H. destruct (nth_error _ _), (host_meta st); try discriminate.
  destruct gpu; cbn in H; injection H as <-; reflexivity.
Qed.
Lemma pack_object_spec E st heap r st' heap' : pack_object E st heap r = Some (st', heap') -> exists sc sc' m ref,
  nth_error heap r = Some sc /\ pack_meta E sc = Some (ref, sc', m) /\ reference st' = ref /\ heap' = upd r sc' heap /\ nth_error heap' r = Some sc'.
Proof.
  unfold pack_object. intros H. destruct (nth_error heap r) as [sc|] eqn:Eh; [|discriminate]. destruct (pack_meta E sc) as [[[ref sc'] m]|] eqn:Ep; [|discriminate].
  injection H as <- <-. exists sc, sc', m, ref. repeat split; auto. rewrite nth_error_upd, Nat.eqb_refl.
  assert (r < List.length heap) by (apply nth_error_Some; congruence). destruct (Nat.ltb_spec r (List.length heap)); [reflexivity|lia].
Qed.

(** [prev] was packed last. *)
Definition packed_last E (st : state) (heap : list scene) (prev : nat) (sc0 : scene) : Prop :=
  exists sc' m ref, pack_meta E sc0 = Some (ref, sc', m) /\ reference st = ref /\ nth_error heap prev = Some sc'.
Lemma loop_spec E gpu : forall rest st heap prev sc0 st' heap', packed_last E st heap prev sc0 ->
  subtract_loop E gpu st heap prev rest = Some (st', heap') -> exists sc1, packed_last E st' heap' (List.last rest prev) sc1 /\
   (rest = [] -> sc1 = sc0) /\
   (forall l r, rest = l ++ [r] -> ~ In r l -> r <> prev -> nth_error heap r = Some sc1) /\
   (forall l r, rest = l ++ [r] -> List.last l prev = r -> exists sc, packed_last E st' heap' r sc /\ exists scp refp mp, pack_meta E scp = Some (refp, sc, mp)).
Proof.
  induction rest as [|r rest IH]; intros st heap prev sc0 st' heap' HP H.
  - cbn in H. injection H as <- <-. exists sc0. split; [exact HP|]. split; auto. split; intros l r E0; destruct l; discriminate.
  - cbn [subtract_loop] in H. destruct (nth_error heap prev) as [scp|] eqn:Ep; [|discriminate].
    destruct (evaluate E gpu st (get_proposal scp)) as [[st1 out]|] eqn:Ee; [|discriminate].
    destruct (pack_object E st1 heap r) as [[st2 heap2]|] eqn:Epk; [|discriminate]. destruct (swap_on_device gpu st2) as [st3|] eqn:Es; [|discriminate].
    apply pack_object_spec in Epk. destruct Epk as (sc & sc' & m & ref & H1 & H2 & H3 & H4 & H5). apply swap_reference in Es.
    assert (HP3 : packed_last E st3 heap2 r sc) by (exists sc', m, ref; repeat split; auto; congruence).
    destruct (IH st3 heap2 r sc st' heap' HP3 H) as (sc1 & G1 & G2 & G3 & G4). exists sc1. rewrite last_shift. split; [exact G1|]. split; [discriminate|].
    destruct rest as [|r2 rest2].
    + specialize (G2 eq_refl). subst sc1. split.
      * intros l r' E0 _ _. destruct l as [|x l]; [|destruct l; discriminate]. simpl in E0. injection E0 as ->. exact H1.
      * intros l r' E0 HL. destruct l as [|x l]; [|destruct l; discriminate]. simpl in E0. injection E0 as <-. simpl in HL. subst r.
        exists sc. split; [exact G1|]. destruct HP as (scx & mx & refx & X1 & X2 & X3). assert (scx = sc) by congruence. subst scx. eauto.
    + split.
      * intros l r' E0 NI NP'. destruct l as [|x l]; [discriminate|]. simpl in E0. injection E0 as -> E0.
        assert (N1 : ~ In r' l) by (intros HI; apply NI; simpl; auto). assert (N2 : r' <> x) by (intros ->; apply NI; simpl; auto).
        specialize (G3 l r' E0 N1 N2). rewrite H4, nth_error_upd in G3. destruct (Nat.eqb_spec x r'); [congruence|exact G3].
      * intros l r' E0 HL. destruct l as [|x l]; [discriminate|]. simpl in E0. injection E0 as -> E0. apply (G4 l r' E0). now rewrite last_shift in HL.
Qed.

Lemma pack_meta_of_prepare E gpu st active fixed big maxactive big_spline st' sc :
  prepare_model E gpu st (Some active) fixed big maxactive big_spline = Some (st', sc) ->
  exists sa m, set_scene (bandlist (pk E)) (splinedata E) None active = Some sa /\ pack_meta E sa = Some (reference st', sc, m).
Proof.
  intros H. unfold prepare_model, subtract_fixed in H.
  destruct (group_scenes E maxactive big_spline big) as [sb|]; [|discriminate]. destruct (group_scenes E maxactive None fixed) as [sf|]; [|discriminate].
  destruct (set_scene _ _ None active) as [sa|]; [|discriminate]. set (n := List.length (sb ++ sf)) in *. cbn [seq] in H. destruct (dirty _); [discriminate|].
  destruct (pack_object E _ _ 0) as [[st1 heap1]|] eqn:Ep; [|discriminate]. destruct (send_to_device gpu st1) as [st2|] eqn:Es; [|discriminate].
  destruct (subtract_loop E gpu st2 heap1 0 (seq 1 n)) as [[st3 heap3]|] eqn:El; [|discriminate].
  destruct (nth_error heap3 (List.last (seq 1 n) 0)) as [sc3|] eqn:Eh; [|discriminate]. injection H as <- <-. cbn [set_return_residual reference].
  apply pack_object_spec in Ep. destruct Ep as (s0 & s0' & m0 & ref0 & P1 & P2 & P3 & P4 & P5). apply send_reference in Es.
  assert (HP : packed_last E st2 heap1 0 s0) by (exists s0', m0, ref0; repeat split; auto; congruence).
  destruct (loop_spec E gpu _ _ _ _ _ _ _ HP El) as (sc1 & (sc1' & m1 & ref1 & Q1 & Q2 & Q3) & L0 & L1 & _).
  assert (sc1' = sc3) by congruence. subst sc1'. rewrite Q2. exists sa, m1. split; [reflexivity|]. rewrite <- Q1. f_equal.
  assert (Hlen : nth_error (sb ++ sf ++ [sa]) n = Some sa) by (rewrite app_assoc, nth_error_app2, Nat.sub_diag by (unfold n; lia); reflexivity).
  destruct n as [|n'].
  - rewrite (L0 eq_refl). rewrite Hlen in P1. congruence.
  - specialize (L1 (seq 1 n') (S n')). rewrite seq_S in L1. specialize (L1 eq_refl).
    rewrite P4, nth_error_upd in L1. cbn [Nat.eqb] in L1. rewrite Hlen in L1. assert (Some sa = Some sc1) as E1; [|congruence]. apply L1; [|lia]. intros HI. apply in_seq in HI. lia.
Qed.
(** After any preparation that returns, from any state of the patch and with any fixed
    and big sources, the recorded reference undoes the zeroing of the returned scene. *)
Theorem C39_prepare : forall E gpu st active fixed big maxactive big_spline st' sc,
  prepare_model E gpu st (Some active) fixed big maxactive big_spline = Some (st', sc) ->
  set_scene (bandlist (pk E)) (splinedata E) None active = Some (unzerocoords (reference st') sc).
Proof.
  intros E gpu st active fixed big maxactive big_spline st' sc H. destruct (pack_meta_of_prepare _ _ _ _ _ _ _ _ _ _ H) as (sa & m & -> & Hp).
  destruct (pack_meta_zero _ _ _ _ _ Hp) as [-> _]. reflexivity.
Qed.
(** Hence two preparations of the same active sources, after any histories and with
    any other arguments, agree on the reference and on every source. *)
Theorem C39_repeat : forall E g1 g2 st1 st2 active f1 f2 b1 b2 m1 m2 s1 s2 st1' st2' sc1 sc2,
  prepare_model E g1 st1 (Some active) f1 b1 m1 s1 = Some (st1', sc1) -> prepare_model E g2 st2 (Some active) f2 b2 m2 s2 = Some (st2', sc2) ->
  unzerocoords (reference st1') sc1 = unzerocoords (reference st2') sc2.
Proof. intros. apply C39_prepare in H. apply C39_prepare in H0. congruence. Qed.

(** ** Packing a scene object twice *)
Lemma insert_shift c x l : insertR (x + c)%R (map (fun y => (y + c)%R) l) = map (fun y => (y + c)%R) (insertR x l).
Proof.
  induction l as [|y l IH]; auto. cbn [map insertR]. destruct (Rle_dec (x + c) (y + c)), (Rle_dec x y); try (exfalso; lra); auto. cbn [map]. now rewrite IH.
Qed.
Lemma sort_shift c l : sortR (map (fun y => (y + c)%R) l) = map (fun y => (y + c)%R) (sortR l).
Proof. induction l as [|x l IH]; auto. cbn [map sortR fold_right]. fold (sortR (map (fun y => (y + c)%R) l)). rewrite IH. apply insert_shift. Qed.
Lemma insert_length x l : List.length (insertR x l) = S (List.length l).
Proof. induction l as [|y l IH]; auto. cbn [insertR]. destruct (Rle_dec x y); auto. simpl. now rewrite IH. Qed.
Lemma sort_length l : List.length (sortR l) = List.length l.
Proof. induction l as [|x l IH]; auto. cbn [sortR fold_right]. rewrite insert_length. simpl. f_equal. exact IH. Qed.
Lemma nth_shift c l i : i < List.length l -> nth i (map (fun y => (y + c)%R) l) 0%R = (nth i l 0 + c)%R.
Proof. intros Hi. rewrite (nth_indep _ 0%R ((fun y => (y + c)%R) 0%R)) by now rewrite map_length. now rewrite (map_nth (fun y => (y + c)%R)). Qed.
Lemma median_shift c l : l <> [] -> np_median (map (fun y => (y + c)%R) l) = (np_median l + c)%R.
Proof.
  intros Hl. assert (0 < List.length l) by (destruct l; [congruence|simpl; lia]). assert (List.length l / 2 < List.length l) by (apply Nat.div_lt; lia).
  unfold np_median. rewrite map_length, sort_shift. destruct (Nat.odd _).
  - apply nth_shift. now rewrite sort_length.
  - rewrite !nth_shift by (rewrite sort_length; lia). field.
Qed.
Lemma shift_median E sc ref sc' m : pack_meta E sc = Some (ref, sc', m) -> forall ref2 sc2 m2, pack_meta E sc' = Some (ref2, sc2, m2) -> ref2 = (0, 0)%R /\ sc2 = sc'.
Proof.
  intros H ref2 sc2 m2 H2. assert (Hne : sc_sources sc <> []).
  { intros E0. unfold pack_meta, zerocoords in H. rewrite E0 in H. discriminate. }
  apply pack_meta_zero in H. destruct H as [_ Hz]. apply pack_meta_zero in H2. destruct H2 as [_ Hz2].
  unfold zerocoords in Hz, Hz2. cbv zeta iota in Hz, Hz2. cbn [fst snd] in Hz, Hz2.
  set (a := np_median (map g_ra (sc_sources sc))) in *. set (b := np_median (map g_dec (sc_sources sc))) in *.
  assert (Es : sc' = mkScene (sc_spline sc) (map (shift_source (- a, - b)%R) (sc_sources sc))) by congruence.
  assert (Ma : np_median (map g_ra (sc_sources sc')) = 0%R).
  { rewrite Es. cbn [sc_sources]. rewrite map_map. cbn [shift_source g_ra fst]. rewrite <- (map_map g_ra (fun y => (y + - a)%R)).
    rewrite median_shift; [fold a; ring|]. destruct (sc_sources sc); [congruence|discriminate]. }
  assert (Mb : np_median (map g_dec (sc_sources sc')) = 0%R).
  { rewrite Es. cbn [sc_sources]. rewrite map_map. cbn [shift_source g_dec snd]. rewrite <- (map_map g_dec (fun y => (y + - b)%R)).
    rewrite median_shift; [fold b; ring|]. destruct (sc_sources sc); [congruence|discriminate]. }
  rewrite Ma, Mb in Hz2. cbn [fst snd] in Hz2. split; [congruence|].
  assert (E2 : sc2 = mkScene (sc_spline sc') (map (shift_source (- 0, - 0)%R) (sc_sources sc'))) by congruence. rewrite E2. destruct sc' as [sp l]. cbn [sc_spline sc_sources]. f_equal.
  rewrite <- (map_id l) at 2. apply map_ext. intros [f ra dec q pa n rh]. unfold shift_source. simpl. f_equal; ring.
Qed.

(** Without active sources subtract_fixed packs its last scene object twice: whatever
    the sources, the recorded reference is the origin, and the recorded state does not
    give the positions back. *)
Theorem C39_no_active_refuted : forall E gpu st fixed big maxactive big_spline scene_spline st' sc,
  subtract_fixed E gpu st fixed None big maxactive true big_spline scene_spline = Some (st', sc) ->
  reference st' = (0, 0)%R /\ exists sc0 sc1 ref m, pack_meta E sc0 = Some (ref, sc1, m) /\ unzerocoords (reference st') sc = sc1.
Proof.
  intros E gpu st fixed big maxactive big_spline scene_spline st' sc H. unfold subtract_fixed in H.
  destruct (group_scenes E maxactive big_spline big) as [sb|]; [|discriminate]. destruct (group_scenes E maxactive scene_spline fixed) as [sf|]; [|discriminate].
  set (n := List.length (sb ++ sf)) in *. cbn [negb orb] in H. destruct n as [|n'] eqn:En; [discriminate|]. cbn [Nat.eqb seq app] in H. replace (S n' - 1) with n' in H by lia.
  destruct (dirty _); [discriminate|].
  destruct (pack_object E _ _ 0) as [[st1 heap1]|] eqn:Ep; [|discriminate]. destruct (send_to_device gpu st1) as [st2|] eqn:Es; [|discriminate].
  destruct (subtract_loop E gpu st2 heap1 0 _) as [[st3 heap3]|] eqn:El; [|discriminate].
  destruct (nth_error heap3 _) as [sc3|] eqn:Eh; [|discriminate]. injection H as <- <-.
  apply pack_object_spec in Ep. destruct Ep as (s0 & s0' & m0 & ref0 & P1 & P2 & P3 & P4 & P5). apply send_reference in Es.
  assert (HP : packed_last E st2 heap1 0 s0) by (exists s0', m0, ref0; repeat split; auto; congruence).
  destruct (loop_spec E gpu _ _ _ _ _ _ _ HP El) as (_ & _ & _ & _ & L2).
  destruct (L2 (seq 1 n') n' eq_refl) as (sc1 & (sc1' & m1 & ref1 & Q1 & Q2 & Q3) & scp & refp & mp & Hpp).
  { destruct n' as [|k]; auto. rewrite seq_S, last_last. lia. }
  rewrite last_last in Eh. assert (sc1' = sc3) by congruence. subst sc1'.
  destruct (shift_median _ _ _ _ _ Hpp _ _ _ Q1) as [R0 R1]. split; [congruence|]. exists scp, sc1, refp, mp. split; auto.
  rewrite Q2. apply (pack_meta_zero _ _ _ _ _ Q1).
Qed.
