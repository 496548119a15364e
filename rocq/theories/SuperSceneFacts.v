(** Proofs about the scene server. *)
From Verif Require Import Np NpFacts SuperSceneModel SuperSceneSpec.
From Coq Require Import Permutation Sorted.

(** * get_circular_scene *)

Lemma combine_map2 {A} (f g : A -> Q) (h : Q * Q -> Q) l :
  map h (combine (map f l) (map g l)) = map (fun k => h (f k, g k)) l.
Proof. induction l; simpl; congruence. Qed.

Lemma nth_map_lt {A B} (f : A -> B) l i da db :
  i < List.length l -> nth i (map f l) db = f (nth i l da).
Proof. intros H. rewrite nth_indep with (d' := f da) by now rewrite map_length. apply map_nth. Qed.

Definition row0 := mkRow 0 0 0 0 0 [].

Lemma src_nth s k : k < List.length (sourcecat s) -> src s k = Some (nth k (sourcecat s) row0).
Proof. intros H. now apply nth_error_nth'. Qed.

Section Circular.
Context (e : env) (c : config) (s : state) (ctr : Q * Q).
Context (Henv : env_ok (List.length (sourcecat s)) e).
Context (kinds : list nat) (Hkinds : kinds = query_ball e ctr (boundary_radius c)).

Lemma kinds_lt k : In k kinds -> k < List.length (sourcecat s).
Proof. intros H. rewrite Hkinds in H. now apply (query_spec _ _ Henv) in H. Qed.

Lemma kinds_nodup : NoDup kinds.
Proof. rewrite Hkinds. apply (query_nodup _ _ Henv). Qed.

Lemma rhalf_list rh :
  mapM (fun r => getcol r "rhalf") (map (fun i => nth i (sourcecat s) row0) kinds) = Some rh ->
  rh = map (rhalf_of s) kinds.
Proof.
  intros H. apply mapM_Some in H.
  assert (Hlt := kinds_lt). clear Hkinds. revert rh H.
  induction kinds as [|k ks IH]; intros rh H; simpl in *.
  - inversion H; reflexivity.
  - inversion H as [|? y ? ys Hy Hys]; subst. f_equal.
    + unfold rhalf_of. rewrite src_nth by auto. now rewrite Hy.
    + apply IH; auto.
Qed.

Definition outers := map (outer_of e c s ctr) kinds.
Definition order := argsort e outers.
Definition Nact := Nat.min (maxactive c)
   (List.length (filter (fun i => Qltb (nth i outers 0%Q) (maxradius c)) order)).

Lemma outers_length : List.length outers = List.length kinds.
Proof. apply map_length. Qed.

Lemma order_perm : Permutation order (seq 0 (List.length kinds)).
Proof. rewrite <- outers_length. apply (argsort_perm _ _ Henv). Qed.

Lemma order_sorted : StronglySorted (fun i j => nth i outers 0 <= nth j outers 0)%Q order.
Proof. apply (argsort_sorted _ _ Henv). Qed.

Lemma order_lt i : In i order -> i < List.length kinds.
Proof. intros H. apply (Permutation_in _ order_perm) in H. apply in_seq in H. lia. Qed.

Lemma order_nodup : NoDup order.
Proof. eapply Permutation_NoDup; [symmetry; apply order_perm|apply seq_NoDup]. Qed.

Lemma outers_nth i : i < List.length kinds -> nth i outers 0%Q = outer_of e c s ctr (nth i kinds 0).
Proof. intros H. unfold outers. now apply nth_map_lt. Qed.

Lemma count_order P : count_true (map P outers) = List.length (filter (fun i => P (nth i outers 0%Q)) order).
Proof.
  rewrite count_true_length.
  assert (H : Permutation (filter (fun i => P (nth i outers 0%Q)) order)
                (filter (fun i => P (nth i outers 0%Q)) (seq 0 (List.length outers)))).
  { apply Permutation_filter. rewrite outers_length. apply order_perm. }
  apply Permutation_length in H. rewrite H.
  rewrite <- (map_nth_seq 0%Q outers) at 1.
  generalize (seq 0 (List.length outers)). intros l.
  induction l as [|i l IH]; simpl; auto. destruct (P (nth i outers 0%Q)); simpl; now rewrite IH.
Qed.

Lemma circular_scene_inv r a f :
  get_circular_scene e c s ctr = Scene r a f ->
  (forall k, In k kinds -> flag (is_active (nth k (sourcecat s) row0)) = false) /\
  (exists rmax, Qmax_list (map (fun i => nth i outers 0%Q) (firstn Nact order)) = Some rmax /\ r = Qmaxb (minradius c) rmax) /\
  a = map (fun i => nth i kinds 0) (firstn Nact order) /\
  exists fx, f = map (fun i => nth i kinds 0) fx /\ incl fx order /\
    let fi := skipn Nact order in
    let close := filter (fun i => Qltb (inner_of e c s ctr (nth i kinds 0)) r) fi in
    let f0 := firstn (Nat.min (maxactive c) (List.length fi)) close in
    (f0 <> [] /\ fx = f0 \/ f0 = [] /\ fx = firstn 1 fi).
Proof.
  unfold get_circular_scene. rewrite <- Hkinds. intros H. cbv zeta in H.
  assert (Hne : exists k0 ks, kinds = k0 :: ks) by (destruct kinds; [discriminate|eauto]).
  destruct Hne as (k0 & ks & Ek).
  revert H. rewrite Ek at 1. lazy iota. rewrite <- Ek. clear Ek k0 ks. intros H.
  rewrite (fancy_get_map row0) in H by exact kinds_lt.
  destruct (np_any _) eqn:Hany in H; [discriminate|].
  pose proof (proj1 (np_any_map_false _ _) Hany) as Hfl.
  destruct (mapM _ _) as [rh|] eqn:Hrh in H; [|discriminate].
  apply rhalf_list in Hrh. subst rh.
  rewrite !combine_map2 in H. cbn [fst snd] in H.
  change (map (fun k : nat => (distance_to e ctr k + nscale c * rhalf_of s k)%Q) kinds) with outers in H.
  change (map (fun k : nat => (distance_to e ctr k - nscale c * rhalf_of s k)%Q) kinds)
    with (map (inner_of e c s ctr) kinds) in H.
  fold order in H. rewrite (count_order (fun m => Qltb m (maxradius c))) in H.
  fold Nact in H.
  destruct (Qmax_list _) as [rmax|] eqn:Hmax in H; [|discriminate].
  set (r0 := Qmaxb (minradius c) rmax) in *.
  set (fi := skipn Nact order) in *.
  replace (filter (fun i => Qltb (nth i (map (inner_of e c s ctr) kinds) 0%Q) r0) fi)
    with (filter (fun i => Qltb (inner_of e c s ctr (nth i kinds 0)) r0) fi) in H.
  2:{ apply filter_ext_in. intros i Hi. f_equal. symmetry. apply nth_map_lt.
      apply order_lt. eapply skipn_In; exact Hi. }
  set (close := filter _ fi) in *.
  set (f0 := firstn _ close) in *.
  assert (Hfx : exists fx, match f0 with [] => firstn 1 fi | _ => f0 end = fx /\
                 (f0 <> [] /\ fx = f0 \/ f0 = [] /\ fx = firstn 1 fi)).
  { destruct f0; eexists; split; auto. left; split; auto; discriminate. }
  destruct Hfx as (fx & Efx & Hfx). rewrite Efx in H.
  assert (Hincl : incl fx order).
  { destruct Hfx as [[_ ->]|[_ ->]]; intros i Hi.
    - unfold f0 in Hi. apply firstn_In in Hi. unfold close in Hi.
      apply filter_In in Hi as [Hi _]. eapply skipn_In; exact Hi.
    - apply firstn_In in Hi. eapply skipn_In; exact Hi. }
  rewrite (fancy_get_map 0) in H by (intros i Hi; apply order_lt; eapply firstn_In; exact Hi).
  rewrite (fancy_get_map 0) in H by (intros i Hi; apply order_lt; auto).
  injection H as <- <- <-.
  split; [|split; [|split]].
  - intros k Hk. apply Hfl. now apply in_map with (f := fun i => nth i (sourcecat s) row0).
  - eauto.
  - reflexivity.
  - exists fx. split; [reflexivity|split; [exact Hincl|exact Hfx]].
Qed.

Lemma nodup_picks l : NoDup l -> incl l order -> NoDup (map (fun i => nth i kinds 0) l).
Proof.
  intros Hn Hi. apply NoDup_map_nth; auto using kinds_nodup. intros i H. apply order_lt; auto.
Qed.

Lemma in_picks_inj i l : incl l order -> In i order ->
  In (nth i kinds 0) (map (fun i => nth i kinds 0) l) -> In i l.
Proof.
  intros Hl Hi H. apply in_map_iff in H as (j & Hj & Hjl).
  assert (j = i); [|congruence].
  pose proof kinds_nodup as Hn. rewrite (NoDup_nth kinds 0) in Hn.
  apply Hn; auto using order_lt.
Qed.

Lemma kinds_order k : In k kinds -> exists i, In i order /\ nth i kinds 0 = k.
Proof.
  intros H. apply (In_nth _ _ 0) in H as (i & Hi & Hk). exists i. split; auto.
  apply (Permutation_in _ (Permutation_sym order_perm)). apply in_seq. lia.
Qed.

Lemma circular_scene_shape_aux r a f :
  get_circular_scene e c s ctr = Scene r a f ->
  (1 <= List.length a <= maxactive c)%nat /\
  NoDup (a ++ f) /\ incl (a ++ f) kinds /\
  (forall k, In k kinds -> exists rw, src s k = Some rw /\ is_active rw = 0%Z) /\
  (forall k, In k a -> (outer_of e c s ctr k < maxradius c)%Q /\ (outer_of e c s ctr k <= r)%Q) /\
  (forall k j, In k a -> In j kinds -> ~ In j a -> (outer_of e c s ctr k <= outer_of e c s ctr j)%Q) /\
  (List.length a = maxactive c \/
   forall j, In j kinds -> (outer_of e c s ctr j < maxradius c)%Q -> In j a) /\
  (minradius c <= r)%Q /\
  (r = minradius c \/ (exists k, In k a /\ r = outer_of e c s ctr k)) /\
  (List.length f <= maxactive c)%nat /\
  ((exists j, In j kinds /\ ~ In j a) -> f <> []) /\
  (forall k, In k f -> (inner_of e c s ctr k < r)%Q \/
     (f = [k] /\ forall j, In j kinds -> ~ In j a -> (r <= inner_of e c s ctr j)%Q)) /\
  (List.length f = maxactive c \/
   forall j, In j kinds -> ~ In j a -> (inner_of e c s ctr j < r)%Q -> In j f).
Proof.
  intros H. apply circular_scene_inv in H as (Hfl & (rmax & Hmax & Hr) & Ha & fx & Hf & Hincl & Hfx).
  cbv zeta in Hfx.
  set (fi := skipn Nact order) in *.
  set (close := filter _ fi) in *.
  set (f0 := firstn _ close) in *.
  pose proof (Qmax_list_spec _ _ Hmax) as [Hmin Hmle].
  assert (Hai : incl (firstn Nact order) order) by (intros x Hx; eapply firstn_In; eauto).
  assert (Hfi : incl fi order) by (intros x Hx; eapply skipn_In; eauto).
  assert (HN1 : (1 <= Nact)%nat).
  { destruct Nact; [|lia]. simpl in Hmax. discriminate. }
  assert (HNle : (Nact <= List.length order)%nat).
  { unfold Nact. pose proof (filter_length_le (fun i => Qltb (nth i outers 0%Q) (maxradius c)) order). lia. }
  assert (Hla : List.length a = Nact) by (subst a; rewrite map_length, firstn_length; lia).
  assert (Hfxfi : incl fx fi).
  { destruct Hfx as [[_ ->]|[_ ->]]; intros i Hi.
    - unfold f0 in Hi. apply firstn_In in Hi. unfold close in Hi. now apply filter_In in Hi as [Hi _].
    - apply firstn_In in Hi. exact Hi. }
  pose proof (NoDup_firstn_skipn order Nact order_nodup) as (Hnd1 & Hnd2 & Hdis). fold fi in Hnd2, Hdis.
  assert (Hfxnd : NoDup fx).
  { destruct Hfx as [[_ ->]|[_ ->]].
    - unfold f0. apply NoDup_firstn. unfold close. now apply NoDup_filter.
    - now apply NoDup_firstn. }
  assert (Hpfx : forall i, In i (firstn Nact order) -> Qltb (nth i outers 0%Q) (maxradius c) = true).
  { destruct (sorted_prefix _ (fun i => Qltb (nth i outers 0%Q) (maxradius c)) order order_sorted) as [Hp _].
    - intros x y Hxy Hy. apply Qltb_lt in Hy. apply Qltb_lt. eapply Qle_lt_trans; eauto.
    - intros i Hi. apply Hp. unfold Nact in Hi.
      eapply (firstn_In (maxactive c)). rewrite firstn_firstn. exact Hi. }
  assert (Houter : forall i, In i order -> nth i outers 0%Q = outer_of e c s ctr (nth i kinds 0)).
  { intros i Hi. apply outers_nth. now apply order_lt. }
  assert (Hna : forall j, In j kinds -> ~ In j a -> exists i, In i fi /\ nth i kinds 0 = j).
  { intros j Hj Hnj. apply kinds_order in Hj as (i & Hi & Ej). exists i. split; auto.
    rewrite <- (firstn_skipn Nact order) in Hi. apply in_app_or in Hi as [Hi|Hi]; auto.
    exfalso. apply Hnj. subst a j. apply in_map_iff. eauto. }
  assert (Hclose : forall i, In i close <-> In i fi /\ (inner_of e c s ctr (nth i kinds 0%nat) < r)%Q).
  { intros i. unfold close. rewrite filter_In, Qltb_lt. tauto. }
  assert (Hf0 : f0 = [] -> close = []).
  { intros E. destruct (list_eq_dec Nat.eq_dec close []) as [|Hne]; auto. exfalso.
    assert (Hi : exists i0, In i0 close) by (destruct close as [|i0 cl]; [congruence|exists i0; left; auto]).
    destruct Hi as (i0 & Hi0).
    assert (Hlf : (1 <= List.length fi)%nat).
    { apply Hclose in Hi0 as [Hi0 _]. destruct fi; [contradiction|simpl; lia]. }
    assert (Hlc : (1 <= List.length close)%nat) by (destruct close; [congruence|simpl; lia]).
    assert (1 <= maxactive c)%nat by (unfold Nact in HN1; lia).
    assert (Hl : List.length f0 = 0%nat) by (rewrite E; reflexivity).
    unfold f0 in Hl. rewrite firstn_length in Hl. lia. }
  assert (Hma : (1 <= maxactive c)%nat) by (unfold Nact in HN1; lia).
  repeat match goal with |- _ /\ _ => split end.
  - lia.
  - rewrite Hla. unfold Nact. lia.
  - subst a f. rewrite <- map_app. apply nodup_picks.
    + apply NoDup_app_iff. split; [exact Hnd1|split; [exact Hfxnd|]].
      intros x Hx Hx'. eapply Hdis; eauto.
    + apply incl_app; auto.
  - subst a f. rewrite <- map_app. intros k Hk. apply in_map_iff in Hk as (i & <- & Hi).
    apply nth_In. apply order_lt. apply in_app_or in Hi as [Hi|Hi]; auto.
  - intros k Hk. exists (nth k (sourcecat s) row0). split; [apply src_nth, kinds_lt; auto|].
    specialize (Hfl k Hk). unfold flag in Hfl. apply negb_false_iff, Z.eqb_eq in Hfl. exact Hfl.
  - intros k Hk. subst a. apply in_map_iff in Hk as (i & <- & Hi).
    rewrite <- Houter by auto. split.
    + apply Qltb_lt; auto.
    + rewrite Hr. eapply Qle_trans; [|apply Qmaxb_r]. apply Hmle.
      apply in_map_iff. eauto.
  - intros k j Hk Hj Hnj. destruct (Hna j Hj Hnj) as (i & Hi & <-).
    subst a. apply in_map_iff in Hk as (l & <- & Hl).
    rewrite <- !Houter by auto.
    eapply (StronglySorted_firstn_skipn _ order Nact l i order_sorted); auto.
  - destruct (le_lt_dec (maxactive c) Nact) as [Hle|Hlt].
    + left. unfold Nact in *. lia.
    + right. intros j Hj Hlo. destruct (in_dec Nat.eq_dec j a) as [|Hnj]; auto. exfalso.
      destruct (Hna j Hj Hnj) as (i & Hi & <-).
      destruct (sorted_prefix _ (fun i => Qltb (nth i outers 0%Q) (maxradius c)) order order_sorted) as [_ Hp].
      * intros x y Hxy Hy. apply Qltb_lt in Hy. apply Qltb_lt. eapply Qle_lt_trans; eauto.
      * assert (HeqN : Nact = List.length (filter (fun i => Qltb (nth i outers 0%Q) (maxradius c)) order))
          by (unfold Nact in *; lia).
        rewrite <- HeqN in Hp. specialize (Hp i Hi). cbv beta in Hp. rewrite Houter in Hp by auto.
        apply Qltb_nlt in Hp. eapply Qlt_not_le; eauto.
  - rewrite Hr. apply Qmaxb_l.
  - rewrite Hr. destruct (Qmaxb_cases (minradius c) rmax) as [->| ->]; auto. right.
    apply in_map_iff in Hmin as (i & <- & Hi). exists (nth i kinds 0). split.
    + subst a. apply in_map_iff. eauto.
    + apply Houter. auto.
  - subst f. rewrite map_length. destruct Hfx as [[_ ->]|[_ ->]].
    + unfold f0. rewrite firstn_length. lia.
    + rewrite firstn_length. lia.
  - intros (j & Hj & Hnj). destruct (Hna j Hj Hnj) as (i & Hi & _).
    subst f. destruct Hfx as [[Hne ->]|[_ ->]].
    + destruct f0; [congruence|discriminate].
    + destruct fi; [contradiction|discriminate].
  - intros k Hk. subst f. destruct Hfx as [[Hne ->]|[He ->]].
    + left. apply in_map_iff in Hk as (i & <- & Hi). apply Hclose. unfold f0 in Hi. eapply firstn_In; eauto.
    + right. destruct fi as [|i0 fi']; [contradiction|]. simpl in Hk. destruct Hk as [<-|[]].
      split; [reflexivity|]. intros j Hj Hnj. destruct (Hna j Hj Hnj) as (i & Hi & <-).
      apply Qnot_lt_le. intros Hlt. apply Hf0 in He.
      assert (In i close) by (apply Hclose; auto). rewrite He in H. contradiction.
  - subst f. rewrite map_length. destruct Hfx as [[Hne ->]|[He ->]].
    + unfold f0. rewrite firstn_length.
      destruct (le_lt_dec (maxactive c) (List.length close)) as [Hc|Hc].
      * left. assert (List.length close <= List.length fi)%nat by apply filter_length_le. lia.
      * right. intros j Hj Hnj Hlt. destruct (Hna j Hj Hnj) as (i & Hi & <-).
        apply in_map_iff. exists i. split; auto.
        rewrite firstn_all2; [now apply Hclose|].
        assert (List.length close <= List.length fi)%nat by apply filter_length_le. lia.
    + right. intros j Hj Hnj Hlt. destruct (Hna j Hj Hnj) as (i & Hi & <-).
      apply Hf0 in He. assert (Hc : In i close) by (apply Hclose; auto). rewrite He in Hc. contradiction.
Qed.

End Circular.

(** * Refusals and crashes of get_circular_scene *)

Lemma mapM_getcol_some c s ks f :
  has_columns c s -> In f (parameter_columns c) ->
  (forall k, In k ks -> k < List.length (sourcecat s)) ->
  exists v, mapM (fun r => getcol r f) (map (fun i => nth i (sourcecat s) row0) ks) = Some v.
Proof.
  intros Hc Hf Hlt. induction ks as [|k ks IH]; simpl; eauto.
  destruct (Hc (nth k (sourcecat s) row0) f) as (v & Hv); auto.
  { apply nth_In. apply Hlt. simpl; auto. }
  rewrite Hv. destruct IH as (vs & Hvs); [intros; apply Hlt; simpl; auto|].
  rewrite Hvs. eauto.
Qed.

Lemma rhalf_param c : In "rhalf"%string (parameter_columns c).
Proof. unfold parameter_columns. apply in_or_app. right. simpl. tauto. Qed.
Lemma ra_param c : In "ra"%string (parameter_columns c).
Proof. unfold parameter_columns. apply in_or_app. right. simpl. tauto. Qed.
Lemma dec_param c : In "dec"%string (parameter_columns c).
Proof. unfold parameter_columns. apply in_or_app. right. simpl. tauto. Qed.

Lemma circular_scene_unfold e c s ctr :
  let kinds := query_ball e ctr (boundary_radius c) in
  kinds <> [] ->
  get_circular_scene e c s ctr =
  match fancy_get (sourcecat s) kinds with
  | None => Crash
  | Some krows =>
    if np_any (map (fun r => flag (is_active r)) krows) then Refused
    else
      match mapM (fun r => getcol r "rhalf") krows with
      | None => Crash
      | Some rhalf =>
        let distance := map (distance_to e ctr) kinds in
        let outer := map (fun dr => fst dr + nscale c * snd dr)%Q (combine distance rhalf) in
        let inner := map (fun dr => fst dr - nscale c * snd dr)%Q (combine distance rhalf) in
        let order := argsort e outer in
        let N_inside := count_true (map (fun m => Qltb m (maxradius c)) outer) in
        let N_active := Nat.min (maxactive c) N_inside in
        let active_inds := firstn N_active order in
        let finds := skipn N_active order in
        match Qmax_list (map (fun i => nth i outer 0%Q) active_inds) with
        | None => Crash
        | Some rmax =>
          let radius := Qmaxb (minradius c) rmax in
          let close := filter (fun i => Qltb (nth i inner 0%Q) radius) finds in
          let fixed0 := firstn (Nat.min (maxactive c) (List.length finds)) close in
          let fixed_inds := match fixed0 with [] => firstn 1 finds | _ => fixed0 end in
          match fancy_get kinds active_inds, fancy_get kinds fixed_inds with
          | Some a, Some f => Scene radius a f
          | _, _ => Crash
          end
        end
      end
  end.
Proof.
  cbv zeta. intros H. unfold get_circular_scene. cbv zeta.
  destruct (query_ball e ctr (boundary_radius c)); [congruence|reflexivity].
Qed.

Lemma circular_refused_iff e c s ctr :
  env_ok (List.length (sourcecat s)) e ->
  (get_circular_scene e c s ctr = Refused <->
   exists k rw, In k (query_ball e ctr (boundary_radius c)) /\ src s k = Some rw /\ is_active rw <> 0%Z).
Proof.
  intros Henv. set (kinds := query_ball e ctr (boundary_radius c)).
  assert (Hlt := kinds_lt e c s ctr Henv kinds eq_refl).
  assert (Hiff : np_any (map (fun r => flag (is_active r)) (map (fun i => nth i (sourcecat s) row0) kinds)) = true
    <-> exists k rw, In k kinds /\ src s k = Some rw /\ is_active rw <> 0%Z).
  { rewrite np_any_map. split.
    - intros (x & Hx & Hf). apply in_map_iff in Hx as (k & <- & Hk).
      exists k, (nth k (sourcecat s) row0). split; [auto|split; [apply src_nth; auto|]].
      unfold flag in Hf. apply negb_true_iff, Z.eqb_neq in Hf. exact Hf.
    - intros (k & rw & Hk & Hs & Ha). exists rw. split.
      + apply in_map_iff. exists k. split; auto.
        rewrite src_nth in Hs by auto. congruence.
      + unfold flag. now apply negb_true_iff, Z.eqb_neq. }
  rewrite <- Hiff. destruct (list_eq_dec Nat.eq_dec kinds []) as [Ek|Ek].
  - rewrite Ek. unfold get_circular_scene. fold kinds. rewrite Ek. simpl.
    split; discriminate.
  - rewrite circular_scene_unfold by exact Ek. fold kinds. cbv zeta.
    rewrite (fancy_get_map row0) by exact Hlt. destruct (np_any _).
    + split; reflexivity.
    + split; [|discriminate]. intros H. exfalso. revert H.
      repeat match goal with |- match ?x with _ => _ end = _ -> _ => destruct x end; discriminate.
Qed.

Lemma circular_granted_iff e c s ctr :
  env_ok (List.length (sourcecat s)) e -> has_columns c s ->
  ((exists r a f, get_circular_scene e c s ctr = Scene r a f) <->
   (forall k, In k (query_ball e ctr (boundary_radius c)) ->
              exists rw, src s k = Some rw /\ is_active rw = 0%Z) /\
   (1 <= maxactive c)%nat /\
   exists k, In k (query_ball e ctr (boundary_radius c)) /\ (outer_of e c s ctr k < maxradius c)%Q).
Proof.
  intros Henv Hcol. split.
  - intros (r & a & f & H).
    pose proof (circular_scene_shape_aux e c s ctr Henv _ eq_refl r a f H) as
      (Hl & _ & Hincl & Hact & Hout & _).
    split; [exact Hact|]. split; [lia|]. destruct a as [|k a]; [simpl in Hl; lia|].
    exists k. split; [apply Hincl; simpl; auto|]. apply Hout. simpl; auto.
  - intros (Hact & Hma & k & Hk & Hko).
    set (kinds := query_ball e ctr (boundary_radius c)) in *.
    assert (Hlt := kinds_lt e c s ctr Henv kinds eq_refl).
    destruct (get_circular_scene e c s ctr) eqn:E; [|eauto|].
    + apply circular_refused_iff in E as (j & rw & Hj & Hs & Ha); auto.
      destruct (Hact j Hj) as (rw' & Hs' & Ha'). congruence.
    + exfalso. revert E.
      rewrite circular_scene_unfold by (fold kinds; intros Ek; rewrite Ek in Hk; contradiction).
      fold kinds. cbv zeta.
      rewrite (fancy_get_map row0) by exact Hlt.
      destruct (np_any _) eqn:Hany.
      { discriminate. }
      destruct (mapM_getcol_some c s kinds _ Hcol (rhalf_param c) Hlt) as (rh & Hrh). rewrite Hrh.
      apply (rhalf_list e c s ctr Henv kinds eq_refl) in Hrh. subst rh. rewrite !combine_map2. cbn [fst snd].
      change (map (fun k : nat => (distance_to e ctr k + nscale c * rhalf_of s k)%Q) kinds)
        with (outers e c s ctr kinds).
      fold (order e c s ctr kinds).
      rewrite (count_order e c s ctr Henv kinds (fun m => Qltb m (maxradius c))).
      fold (Nact e c s ctr kinds).
      assert (HN : (1 <= Nact e c s ctr kinds)%nat).
      { unfold Nact. apply Nat.min_glb; auto.
        destruct (kinds_order e c s ctr Henv kinds k Hk) as (i & Hi & Ei).
        assert (Hif : In i (filter (fun i => Qltb (nth i (outers e c s ctr kinds) 0%Q) (maxradius c)) (order e c s ctr kinds))).
        { apply filter_In. split; auto. apply Qltb_lt.
          rewrite outers_nth by (eapply order_lt; eauto). rewrite Ei. exact Hko. }
        destruct (filter _ _); [contradiction|simpl; lia]. }
      assert (Hlo : (1 <= List.length (order e c s ctr kinds))%nat).
      { unfold Nact in HN. pose proof (filter_length_le (fun i => Qltb (nth i (outers e c s ctr kinds) 0%Q) (maxradius c)) (order e c s ctr kinds)). lia. }
      destruct (Qmax_list _) as [rmax|] eqn:Hq.
      2:{ destruct (Nact e c s ctr kinds); [lia|]. destruct (order e c s ctr kinds); [simpl in Hlo; lia|discriminate]. }
      match goal with |- context [fancy_get kinds (match ?f0 with [] => _ | _ => _ end)] =>
         set (fx0 := f0) end.
      assert (Hol : forall i, In i (order e c s ctr kinds) -> i < List.length kinds)
        by (intros; eapply order_lt; eauto).
      assert (Hf0 : forall i, In i fx0 -> In i (order e c s ctr kinds)).
      { unfold fx0. intros i Hi. apply firstn_In in Hi. apply filter_In in Hi as [Hi _].
        eapply skipn_In; eauto. }
      rewrite (fancy_get_map 0) by (intros i Hi; apply Hol; eapply firstn_In; exact Hi).
      rewrite (fancy_get_map 0).
      2:{ intros i Hi. apply Hol. destruct fx0; auto.
          apply firstn_In in Hi. eapply skipn_In; eauto. }
      discriminate.
Qed.

(** * checkout_region, row by row *)

Definition out_row (ai fi : list nat) (j : nat) (rw : row) : row :=
  mkRow (source_index rw) (if memn j ai then 1 else is_active rw)%Z
        (if memn j (ai ++ fi) then 0 else is_valid rw)%Z (n_iter rw) (n_patch rw) (cols rw).

Lemma put_scalar_nth {B} (setf : row -> B -> row) (Hidem : forall r v w, setf (setf r w) v = setf r v)
      cat inds v j :
  nth_error (fancy_put_scalar setf cat inds v) j =
  option_map (fun r => if memn j inds then setf r v else r) (nth_error cat j).
Proof.
  destruct (memn j inds) eqn:E.
  - apply fancy_put_scalar_at; auto. now apply memn_In.
  - rewrite fancy_put_scalar_other by now apply memn_nIn. destruct (nth_error cat j); reflexivity.
Qed.

Lemma checkout_inv e c s k s' p :
  checkout_region e c s k = CoGranted s' p ->
  exists seed cra cdec r ai fi,
    src s k = Some seed /\ getcol seed "ra" = Some cra /\ getcol seed "dec" = Some cdec /\
    get_circular_scene e c s (sky_to_scene e cra cdec) = Scene r ai fi /\
    (forall j, src s' j = option_map (out_row ai fi j) (src s j)) /\
    region p = ((cra, cdec), (r / 3600)%Q) /\
    fancy_get (sourcecat s') ai = Some (p_active p) /\
    fancy_get (sourcecat s') fi = Some (p_fixed p) /\
    n_active s' = (n_active s + Z.of_nat (List.length ai))%Z /\
    n_fixed s' = (n_fixed s + Z.of_nat (List.length fi))%Z /\
    bounds_catalog s' = bounds_catalog s /\ covariance_matrices s' = covariance_matrices s /\
    sourcelog s' = sourcelog s /\ patchlog s' = patchlog s.
Proof.
  unfold checkout_region. intros H.
  destruct (nth_error (sourcecat s) k) as [seed|] eqn:Hk; [|discriminate].
  destruct (getcol seed "ra") as [cra|] eqn:Hra; [|discriminate].
  destruct (getcol seed "dec") as [cdec|] eqn:Hdec; [|discriminate].
  destruct (get_circular_scene _ _ _ _) as [|r ai fi|] eqn:Hsc; try discriminate.
  destruct (fancy_get _ ai) as [arows|] eqn:Ha; [|discriminate].
  destruct (fancy_get _ fi) as [frows|] eqn:Hf; [|discriminate].
  injection H as <- <-.
  exists seed, cra, cdec, r, ai, fi. cbn.
  repeat match goal with |- _ /\ _ => split end; auto.
  intros j. unfold src. cbn [sourcecat].
  rewrite !put_scalar_nth by reflexivity.
  destruct (nth_error (sourcecat s) j) as [rw|]; simpl; auto. f_equal.
  unfold out_row. rewrite memn_app.
  destruct (memn j ai), (memn j fi); destruct rw; reflexivity.
Qed.

Lemma checkout_length e c s k s' p :
  checkout_region e c s k = CoGranted s' p -> List.length (sourcecat s') = List.length (sourcecat s).
Proof.
  unfold checkout_region. intros H.
  repeat match goal with H : match ?x with _ => _ end = _ |- _ => destruct x; try discriminate end.
  injection H as <- <-. cbn. unfold fancy_put_scalar. now rewrite !fancy_put_field_length.
Qed.

Lemma checkout_refused e c s k s' : checkout_region e c s k = CoRefused s' -> s' = s.
Proof.
  unfold checkout_region. intros H.
  repeat match goal with H : match ?x with _ => _ end = _ |- _ => destruct x; try discriminate end.
  injection H as <-. reflexivity.
Qed.

(** * checkin_region, row by row *)

Definition cols_from (fs : list string) (ak rw : row) : row :=
  fold_left (fun r f => match getcol ak f with Some v => setcol f r v | None => r end) fs rw.

Lemma cols_from_frame fs ak rw :
  source_index (cols_from fs ak rw) = source_index rw /\ is_active (cols_from fs ak rw) = is_active rw /\
  is_valid (cols_from fs ak rw) = is_valid rw /\ n_iter (cols_from fs ak rw) = n_iter rw /\
  n_patch (cols_from fs ak rw) = n_patch rw /\ map fst (cols (cols_from fs ak rw)) = map fst (cols rw).
Proof.
  unfold cols_from. revert rw. induction fs as [|f fs IH]; intros rw; simpl; [tauto|].
  destruct (IH (match getcol ak f with Some v => setcol f rw v | None => rw end)) as (-> & -> & -> & -> & -> & ->).
  destruct (getcol ak f) as [v|]; simpl; repeat split; auto.
  generalize (cols rw). intros l. induction l as [|[g w] l IHl]; simpl; auto.
  destruct (String.eqb f g); simpl; congruence.
Qed.

Lemma assoc_assoc_set f g v l :
  assoc g (assoc_set f v l) =
  if String.eqb g f then (match assoc g l with Some _ => Some v | None => None end) else assoc g l.
Proof.
  induction l as [|[h w] l IH]; simpl.
  - now destruct (String.eqb g f).
  - destruct (String.eqb_spec f h) as [->|Hfh]; simpl.
    + destruct (String.eqb_spec g h); reflexivity.
    + destruct (String.eqb_spec g h) as [->|Hgh].
      * destruct (String.eqb_spec h f); [congruence|reflexivity].
      * exact IH.
Qed.

Lemma cols_from_get fs ak rw g :
  (forall f, In f fs -> exists v, getcol ak f = Some v) ->
  getcol (cols_from fs ak rw) g =
  if existsb (String.eqb g) fs then (match getcol rw g with Some _ => getcol ak g | None => None end)
  else getcol rw g.
Proof.
  unfold cols_from. revert rw. induction fs as [|f fs IH]; intros rw Hfs; simpl; auto.
  rewrite IH by (intros; apply Hfs; simpl; auto).
  destruct (Hfs f (or_introl eq_refl)) as (v & Hv). rewrite Hv.
  assert (E : getcol (setcol f rw v) g = if String.eqb g f
     then (match getcol rw g with Some _ => Some v | None => None end) else getcol rw g)
    by apply assoc_assoc_set.
  rewrite E. destruct (String.eqb_spec g f) as [->|Hgf]; simpl.
  - rewrite Hv. destruct (getcol rw f); destruct (existsb _ fs); congruence.
  - reflexivity.
Qed.

Lemma put_columns_other fs : forall cat inds act cat' j,
  put_columns fs cat inds act = Some cat' -> ~ In j inds -> nth_error cat' j = nth_error cat j.
Proof.
  induction fs as [|f fs IH]; intros cat inds act cat' j H Hj; simpl in H.
  - now injection H as <-.
  - destruct (mapM _ act); [|discriminate]. rewrite (IH _ _ _ _ _ H Hj). now apply fancy_put_field_other.
Qed.

Lemma put_columns_length fs : forall cat inds act cat',
  put_columns fs cat inds act = Some cat' -> List.length cat' = List.length cat.
Proof.
  induction fs as [|f fs IH]; intros cat inds act cat' H; simpl in H.
  - now injection H as <-.
  - destruct (mapM _ act); [|discriminate]. rewrite (IH _ _ _ _ H). apply fancy_put_field_length.
Qed.

Lemma Forall2_nth_error {A B} (R : A -> B -> Prop) l1 l2 k x :
  Forall2 R l1 l2 -> nth_error l1 k = Some x -> exists y, nth_error l2 k = Some y /\ R x y.
Proof.
  intros H. revert k. induction H; intros [|k] E; simpl in *; try discriminate; eauto.
  injection E as ->. eauto.
Qed.
Lemma Forall2_nth_error_r {A B} (R : A -> B -> Prop) l1 l2 k y :
  Forall2 R l1 l2 -> nth_error l2 k = Some y -> exists x, nth_error l1 k = Some x /\ R x y.
Proof.
  intros H. revert k. induction H; intros [|k] E; simpl in *; try discriminate; eauto.
  injection E as ->. eauto.
Qed.

Lemma put_columns_at fs : forall cat inds act cat' k j ak,
  put_columns fs cat inds act = Some cat' -> NoDup inds ->
  nth_error inds k = Some j -> nth_error act k = Some ak ->
  nth_error cat' j = option_map (cols_from fs ak) (nth_error cat j) /\
  (forall f, In f fs -> exists v, getcol ak f = Some v).
Proof.
  induction fs as [|f fs IH]; intros cat inds act cat' k j ak H Hnd Hk Ha; simpl in H.
  - injection H as <-. split; [destruct (nth_error cat j); reflexivity|contradiction].
  - destruct (mapM _ act) as [vals|] eqn:Em; [|discriminate].
    destruct (IH _ _ _ _ _ _ _ H Hnd Hk Ha) as [IH1 IH2]. apply mapM_Some in Em.
    destruct (Forall2_nth_error _ _ _ _ _ Em Ha) as (v & Hv & Hg).
    split.
    + rewrite IH1, (fancy_put_field_at _ _ _ _ _ _ _ Hnd Hk Hv).
      destruct (nth_error cat j); simpl; auto. unfold cols_from. simpl. now rewrite Hg.
    + intros g [<-|Hin]; eauto.
Qed.

Lemma add_field_other getf setf cat inds v cat' j :
  add_field getf setf cat inds v = Some cat' -> ~ In j inds -> nth_error cat' j = nth_error cat j.
Proof.
  unfold add_field. destruct (fancy_get cat inds); [|discriminate]. intros [= <-]. apply fancy_put_field_other.
Qed.
Lemma add_field_length getf setf cat inds v cat' :
  add_field getf setf cat inds v = Some cat' -> List.length cat' = List.length cat.
Proof.
  unfold add_field. destruct (fancy_get cat inds); [|discriminate]. intros [= <-]. apply fancy_put_field_length.
Qed.
Lemma add_field_at getf setf cat inds v cat' j :
  add_field getf setf cat inds v = Some cat' -> NoDup inds -> In j inds ->
  nth_error cat' j = option_map (fun r => setf r (getf r + v)%Z) (nth_error cat j).
Proof.
  unfold add_field. destruct (fancy_get cat inds) as [rs|] eqn:E; [|discriminate]. intros [= <-] Hnd Hj.
  apply In_nth_error in Hj as (k & Hk). unfold fancy_get in E. apply mapM_Some in E.
  destruct (Forall2_nth_error _ _ _ _ _ E Hk) as (r & Hr & Hcr).
  rewrite (fancy_put_field_at setf inds cat _ k j (getf r + v)%Z Hnd Hk).
  - rewrite Hcr. reflexivity.
  - rewrite nth_error_map, Hr. reflexivity.
Qed.

Definition in_row (c : config) (a : checkin_args) (ak rw : row) : row :=
  mkRow (source_index rw) 0 1 (n_iter rw + niter a)%Z
        (n_patch rw + (if (0 <? niter a)%Z then 1 else 0))%Z
        (cols (cols_from (parameter_columns c) ak rw)).

Lemma checkin_inv c s act fixed a s' :
  checkin_region c s act fixed a = Some s' ->
  exists ai fi,
    Forall2 (fun r k => np_index (List.length (sourcecat s)) (source_index r) = Some k) act ai /\
    Forall2 (fun r k => np_index (List.length (sourcecat s)) (source_index r) = Some k)
            (match fixed with Some f => f | None => [] end) fi /\
    List.length (sourcecat s') = List.length (sourcecat s) /\
    (forall j, ~ In j ai -> src s' j =
        option_map (fun rw => if memn j fi then set_valid_flag rw 1 else rw) (src s j)) /\
    (NoDup ai -> forall k j ak, nth_error ai k = Some j -> nth_error act k = Some ak ->
        src s' j = option_map (in_row c a ak) (src s j) /\
        (forall f, In f (parameter_columns c) -> exists v, getcol ak f = Some v)) /\
    put_bounds (bounds_catalog s) ai (new_bounds a) = Some (bounds_catalog s') /\
    covariance_matrices s' = put_covs (covariance_matrices s) ai (block_covs a) /\
    n_active s' = (n_active s - Z.of_nat (List.length act))%Z /\
    n_fixed s' = (n_fixed s - Z.of_nat (List.length (match fixed with Some f => f | None => [] end)))%Z /\
    sourcelog s' = match taskID a with
                   | None => sourcelog s
                   | Some pid => fold_left (fun log k => log_source log k pid) ai (sourcelog s)
                   end /\
    patchlog s' = match taskID a with None => patchlog s | Some pid => patchlog s ++ [pid] end.
Proof.
  unfold checkin_region. set (fx := match fixed with Some f => f | None => [] end). intros H. cbv zeta in H.
  destruct (mapM _ act) as [ai|] eqn:Ha; [|discriminate].
  destruct (mapM _ fx) as [fi|] eqn:Hf; [|discriminate].
  destruct (put_columns _ _ _ _) as [cat1|] eqn:H1; [|discriminate].
  destruct (add_field n_iter _ _ _ _) as [cat2|] eqn:H2; [|discriminate].
  destruct (add_field n_patch _ _ _ _) as [cat4|] eqn:H4; [|discriminate].
  destruct (put_bounds _ _ _) as [b'|] eqn:Hb; [|discriminate].
  injection H as <-. exists ai, fi. cbn.
  pose proof (mapM_length _ _ _ Ha) as HLa. pose proof (mapM_length _ _ _ Hf) as HLf.
  apply mapM_Some in Ha. apply mapM_Some in Hf.
  split; [exact Ha|split; [exact Hf|]].
  split.
  { unfold fancy_put_scalar. rewrite !fancy_put_field_length.
    rewrite (add_field_length _ _ _ _ _ _ H4). unfold fancy_put_scalar. rewrite fancy_put_field_length,
      (add_field_length _ _ _ _ _ _ H2). eapply put_columns_length; eauto. }
  split.
  { intros j Hj. unfold src. cbn. rewrite put_scalar_nth by reflexivity.
    rewrite fancy_put_scalar_other by assumption.
    rewrite (add_field_other _ _ _ _ _ _ _ H4) by assumption.
    rewrite fancy_put_scalar_other by assumption.
    rewrite (add_field_other _ _ _ _ _ _ _ H2) by assumption.
    rewrite (put_columns_other _ _ _ _ _ _ H1) by assumption. reflexivity. }
  split.
  { intros Hnd k j ak Hk Hak.
    assert (Hj : In j ai) by (eapply nth_error_In; eauto).
    destruct (put_columns_at _ _ _ _ _ _ _ _ H1 Hnd Hk Hak) as [P1 P2]. split; [|exact P2].
    unfold src. cbn. rewrite put_scalar_nth by reflexivity.
    rewrite fancy_put_scalar_at by (auto; reflexivity).
    rewrite (add_field_at _ _ _ _ _ _ _ H4) by assumption.
    rewrite fancy_put_scalar_at by (auto; reflexivity).
    rewrite (add_field_at _ _ _ _ _ _ _ H2) by assumption.
    rewrite P1. destruct (nth_error (sourcecat s) j) as [rw|]; simpl; auto. f_equal.
    destruct (cols_from_frame (parameter_columns c) ak rw) as (E1 & E2 & E3 & E4 & E5 & _).
    unfold in_row, set_n_patch, set_n_iter, set_active_flag, set_valid_flag. cbn.
    rewrite E1, E4, E5. destruct (memn j fi); cbn; congruence. }
  rewrite HLa, HLf. auto 10.
Qed.
