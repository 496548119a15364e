(** Frame and commutation facts for check-in (C03). *)
From Verif Require Import Np NpFacts SuperSceneModel SuperSceneSpec SuperSceneFacts SuperSceneHist.
From Coq Require Import Permutation Sorted.

Lemma fancy_put_length {A} inds : forall (l vals : list A), List.length (fancy_put l inds vals) = List.length l.
Proof.
  induction inds as [|i inds IH]; intros l [|v vs]; simpl; auto. rewrite IH. apply upd_length.
Qed.
Lemma fancy_put_other {A} inds : forall (l vals : list A) j,
  ~ In j inds -> nth_error (fancy_put l inds vals) j = nth_error l j.
Proof.
  induction inds as [|i inds IH]; intros l [|v vs] j Hj; simpl; auto.
  simpl in Hj. rewrite IH by tauto. rewrite nth_error_upd.
  destruct (Nat.eqb_spec i j); auto. subst; tauto.
Qed.
Lemma fancy_put_at {A} inds : forall (l vals : list A) k j v,
  NoDup inds -> nth_error inds k = Some j -> nth_error vals k = Some v -> j < List.length l ->
  nth_error (fancy_put l inds vals) j = Some v.
Proof.
  induction inds as [|i inds IH]; intros l vals k j v Hnd Hk Hv Hj; [destruct k; discriminate|].
  inversion Hnd as [|? ? Hni Hnd']; subst. destruct vals as [|w vs]; [destruct k; discriminate|].
  destruct k as [|k]; simpl in *.
  - injection Hk as ->. injection Hv as ->. rewrite fancy_put_other by assumption.
    rewrite nth_error_upd, Nat.eqb_refl. destruct (Nat.ltb_spec j (List.length l)); [auto|lia].
  - eapply IH; eauto. now rewrite upd_length.
Qed.

Lemma mapM_None {A B} (f : A -> option B) l : mapM f l = None <-> exists x, In x l /\ f x = None.
Proof.
  induction l as [|x l IH]; simpl; split.
  - discriminate.
  - intros (x & [] & _).
  - destruct (f x) eqn:E; [|intros _; exists x; auto].
    destruct (mapM f l); [discriminate|]. intros _. destruct (proj1 IH eq_refl) as (y & Hy & Hf). exists y; auto.
  - intros (y & [<-|Hy] & Hf); [now rewrite Hf|].
    destruct (f x); auto. rewrite (proj2 IH); eauto.
Qed.

Lemma put_columns_total fs : forall cat inds act,
  (forall r f, In r act -> In f fs -> exists v, getcol r f = Some v) ->
  exists cat', put_columns fs cat inds act = Some cat'.
Proof.
  induction fs as [|f fs IH]; intros cat inds act H; simpl; eauto.
  destruct (mapM _ act) as [vals|] eqn:E.
  - apply IH. intros; apply H; simpl; auto.
  - apply mapM_None in E as (r & Hr & Hn). destruct (H r f Hr (or_introl eq_refl)). congruence.
Qed.

Lemma fancy_get_total {A} (l : list A) inds :
  (forall i, In i inds -> i < List.length l) -> exists r, fancy_get l inds = Some r.
Proof.
  intros H. unfold fancy_get. destruct (mapM _ inds) eqn:E; eauto.
  apply mapM_None in E as (i & Hi & Hn). apply H in Hi. apply nth_error_None in Hn. lia.
Qed.

Definition bounds_fit (nb : option (list bounds_row)) (m : nat) : Prop :=
  match nb with None => True | Some l => List.length l = m \/ List.length l = 1%nat end.

Lemma put_bounds_total b inds nb :
  bounds_fit nb (List.length inds) <-> exists b', put_bounds b inds nb = Some b'.
Proof.
  unfold bounds_fit, put_bounds. destruct nb as [l|]; [|split; eauto].
  destruct (Nat.eqb_spec (List.length l) (List.length inds)) as [E|E]; [split; eauto|].
  destruct l as [|m [|m' l]]; simpl in *; split; eauto.
  - intros [H|H]; [congruence|lia].
  - intros (b' & H); discriminate.
  - intros [H|H]; [congruence|lia].
  - intros (b' & H); discriminate.
Qed.

Lemma put_columns_fail fs : forall cat inds act cat' r f,
  put_columns fs cat inds act = Some cat' -> In r act -> In f fs -> exists v, getcol r f = Some v.
Proof.
  induction fs as [|g fs IH]; intros cat inds act cat' r f H Hr Hf; [contradiction|]. simpl in H.
  destruct (mapM _ act) as [vals|] eqn:E; [|discriminate].
  destruct Hf as [<-|Hf]; eauto.
  apply mapM_Some in E. apply In_nth_error in Hr as (k & Hk).
  destruct (Forall2_nth_error _ _ _ _ _ E Hk) as (v & _ & Hv). eauto.
Qed.

Lemma checkin_total c s act fixed a :
  (exists s', checkin_region c s act fixed a = Some s') <->
  (forall r, In r (act ++ match fixed with Some f => f | None => [] end) ->
      (- Z.of_nat (List.length (sourcecat s)) <= source_index r < Z.of_nat (List.length (sourcecat s)))%Z) /\
  (forall r f, In r act -> In f (parameter_columns c) -> exists v, getcol r f = Some v) /\
  bounds_fit (new_bounds a) (List.length act).
Proof.
  assert (Hnp : forall n z, (exists k, np_index n z = Some k) <-> (- Z.of_nat n <= z < Z.of_nat n)%Z).
  { intros n z. unfold np_index.
    destruct ((0 <=? z) && (z <? Z.of_nat n))%Z eqn:E1; [split; eauto; lia|].
    destruct ((- Z.of_nat n <=? z) && (z <? 0))%Z eqn:E2; [split; eauto; lia|].
    split; [intros (k & Hk); discriminate|lia]. }
  unfold checkin_region. set (fx := match fixed with Some f => f | None => [] end). cbv zeta.
  set (n := List.length (sourcecat s)).
  split.
  - intros (s' & H).
    destruct (mapM _ act) as [ai|] eqn:Ha; [|discriminate].
    destruct (mapM _ fx) as [fi|] eqn:Hf; [|discriminate].
    destruct (put_columns _ _ _ _) as [cat1|] eqn:H1; [|discriminate].
    destruct (add_field n_iter _ _ _ _) as [cat2|] eqn:H2; [|discriminate].
    destruct (add_field n_patch _ _ _ _) as [cat4|] eqn:H4; [|discriminate].
    destruct (put_bounds _ _ _) as [b'|] eqn:Hb; [|discriminate].
    split; [|split].
    + intros r Hr. apply Hnp. apply in_app_or in Hr as [Hr|Hr]; apply In_nth_error in Hr as (k & Hk).
      * apply mapM_Some in Ha. destruct (Forall2_nth_error _ _ _ _ _ Ha Hk) as (x & _ & Hx). eauto.
      * apply mapM_Some in Hf. destruct (Forall2_nth_error _ _ _ _ _ Hf Hk) as (x & _ & Hx). eauto.
    + intros r f Hr Hf'. eapply put_columns_fail; eauto.
    + rewrite <- (mapM_length _ _ _ Ha). apply (put_bounds_total (bounds_catalog s)). eauto.
  - intros (Hidx & Hcols & Hb).
    destruct (mapM (fun r => np_index n (source_index r)) act) as [ai|] eqn:Ha.
    2:{ apply mapM_None in Ha as (r & Hr & Hn).
        destruct (proj2 (Hnp n (source_index r))) as (k & Hk); [apply Hidx, in_or_app; auto|congruence]. }
    destruct (mapM (fun r => np_index n (source_index r)) fx) as [fi|] eqn:Hf.
    2:{ apply mapM_None in Hf as (r & Hr & Hn).
        destruct (proj2 (Hnp n (source_index r))) as (k & Hk); [apply Hidx, in_or_app; auto|congruence]. }
    destruct (put_columns_total (parameter_columns c) (sourcecat s) ai act Hcols) as (cat1 & H1).
    rewrite H1. pose proof (put_columns_length _ _ _ _ _ H1) as HL1.
    assert (Hlt : forall i, In i ai -> i < n).
    { intros i Hi. apply In_nth_error in Hi as (k & Hk). apply mapM_Some in Ha.
      destruct (Forall2_nth_error_r _ _ _ _ _ Ha Hk) as (r & _ & Hr). eapply np_index_Some; eauto. }
    unfold add_field.
    destruct (fancy_get_total cat1 ai) as (rs & Hrs); [rewrite HL1; exact Hlt|]. rewrite Hrs.
    match goal with |- context [fancy_get ?l ai] =>
      destruct (fancy_get_total l ai) as (rs2 & Hrs2) end.
    { unfold fancy_put_scalar. rewrite !fancy_put_field_length, HL1. exact Hlt. }
    rewrite Hrs2. rewrite <- (mapM_length _ _ _ Ha) in Hb.
    apply (put_bounds_total (bounds_catalog s)) in Hb as (b' & Hb). rewrite Hb. eauto.
Qed.

(** Value of the parameter columns after the check-in of [ak] over [rw]. *)
Lemma checkin_frame_lemma c s act fixed a s' ai :
  checkin_region c s act fixed a = Some s' ->
  ids act = map Z.of_nat ai -> NoDup ai -> (forall j, In j ai -> j < List.length (sourcecat s)) ->
  List.length (bounds_catalog s) = List.length (sourcecat s) ->
  List.length (covariance_matrices s) = List.length (sourcecat s) ->
  (* sources that were not returned *)
  (forall j rw, src s j = Some rw -> ~ In j ai ->
     exists rw', src s' j = Some rw' /\ same_but_flags rw rw' /\ is_active rw' = is_active rw) /\
  (forall j, ~ In j ai -> nth_error (bounds_catalog s') j = nth_error (bounds_catalog s) j /\
                          nth_error (covariance_matrices s') j = nth_error (covariance_matrices s) j) /\
  (* sources that were returned *)
  (forall k j ak rw, nth_error ai k = Some j -> nth_error act k = Some ak -> src s j = Some rw ->
     (forall f, In f (parameter_columns c) -> exists v, getcol rw f = Some v) ->
     exists rw', src s' j = Some rw' /\
       (forall f, In f (parameter_columns c) -> getcol rw' f = getcol ak f) /\
       (forall f, ~ In f (parameter_columns c) -> getcol rw' f = getcol rw f) /\
       map fst (cols rw') = map fst (cols rw) /\
       source_index rw' = source_index rw /\ is_active rw' = 0%Z /\ is_valid rw' = 1%Z /\
       n_iter rw' = (n_iter rw + niter a)%Z /\
       n_patch rw' = (if (0 <? niter a)%Z then n_patch rw + 1 else n_patch rw)%Z) /\
  (* bounds and covariances *)
  (new_bounds a = None -> bounds_catalog s' = bounds_catalog s) /\
  (block_covs a = None -> covariance_matrices s' = covariance_matrices s) /\
  (forall nb k j x, new_bounds a = Some nb -> List.length nb = List.length ai ->
     nth_error ai k = Some j -> nth_error nb k = Some x -> nth_error (bounds_catalog s') j = Some x) /\
  (forall bc k j x, block_covs a = Some bc -> List.length bc = List.length ai ->
     nth_error ai k = Some j -> nth_error bc k = Some x -> nth_error (covariance_matrices s') j = Some x).
Proof.
  intros H Hids Hnd Hlt HLb HLc.
  apply checkin_inv in H as (ai' & fi & Hai & Hfi & HL & Hother & Hat & Hb & Hc & _).
  assert (ai' = ai) by (eapply np_index_ids; eauto). subst ai'. specialize (Hat Hnd).
  split; [|split; [|split; [|split; [|split; [|split]]]]].
  - intros j rw Hj Hn. rewrite (Hother j Hn), Hj. simpl. eexists. split; [reflexivity|].
    unfold same_but_flags. destruct (memn j fi); simpl; auto 10.
  - intros j Hn. split.
    + unfold put_bounds in Hb. destruct (new_bounds a) as [nb|]; [|congruence].
      destruct (Nat.eqb _ _).
      * injection Hb as <-. now apply fancy_put_other.
      * destruct nb as [|m [|]]; try discriminate. injection Hb as <-. now apply fancy_put_other.
    + rewrite Hc. unfold put_covs. destruct (block_covs a) as [bc|]; auto.
      destruct (Nat.eqb _ _); [now apply fancy_put_other|].
      destruct bc as [|m [|]]; auto. now apply fancy_put_other.
  - intros k j ak rw Hk Hak Hj Hcols. destruct (Hat k j ak Hk Hak) as [Hs Hakc].
    rewrite Hj in Hs. simpl in Hs. eexists. split; [exact Hs|].
    unfold in_row. cbn [source_index is_active is_valid n_iter n_patch cols].
    split; [|split; [|split]].
    + intros f Hf. unfold getcol at 1. cbn [cols].
      pose proof (cols_from_get (parameter_columns c) ak rw f Hakc) as E. unfold getcol at 1 in E. rewrite E.
      destruct (Hcols f Hf) as (v & Hv). rewrite Hv.
      assert (Ex : existsb (String.eqb f) (parameter_columns c) = true).
      { apply existsb_exists. exists f. split; auto. apply String.eqb_refl. }
      now rewrite Ex.
    + intros f Hf. unfold getcol at 1. cbn [cols].
      pose proof (cols_from_get (parameter_columns c) ak rw f Hakc) as E. unfold getcol at 1 in E. rewrite E.
      destruct (existsb (String.eqb f) (parameter_columns c)) eqn:Ex; auto.
      apply existsb_exists in Ex as (g & Hg & Eg). apply String.eqb_eq in Eg. subst. contradiction.
    + apply cols_from_frame.
    + repeat split; auto. destruct (0 <? niter a)%Z; lia.
  - intros E. rewrite E in Hb. simpl in Hb. congruence.
  - intros E. rewrite E in Hc. exact Hc.
  - intros nb k j x E HLn Hk Hx. rewrite E in Hb. simpl in Hb.
    rewrite HLn, Nat.eqb_refl in Hb. injection Hb as <-.
    eapply fancy_put_at; eauto. rewrite HLb. apply Hlt. eapply nth_error_In; eauto.
  - intros bc k j x E HLn Hk Hx. rewrite Hc, E. simpl. rewrite HLn, Nat.eqb_refl.
    eapply fancy_put_at; eauto. rewrite HLc. apply Hlt. eapply nth_error_In; eauto.
Qed.

(** ** Commutation *)

Lemma fancy_put_idem_cover {A} inds (vals vals' : list A) : forall l,
  List.length vals = List.length inds -> forall j, In j inds -> forall l',
  List.length l' = List.length l ->
  nth_error (fancy_put l inds vals) j = nth_error (fancy_put l' inds vals) j.
Proof.
  clear vals'. revert vals. induction inds as [|i inds IH]; intros vals l HL j Hj l' HLl; [contradiction|].
  destruct vals as [|v vs]; [discriminate|]. simpl in *. injection HL as HL.
  destruct (in_dec Nat.eq_dec j inds) as [Hin|Hn].
  - apply IH; auto. now rewrite !upd_length.
  - rewrite !fancy_put_other by assumption. rewrite !nth_error_upd, HLl.
    destruct Hj as [->|]; [|tauto]. now rewrite Nat.eqb_refl.
Qed.

Lemma fancy_put_comm {A} (l : list A) i1 v1 i2 v2 :
  (forall j, In j i1 -> ~ In j i2) ->
  List.length v1 = List.length i1 -> List.length v2 = List.length i2 ->
  fancy_put (fancy_put l i1 v1) i2 v2 = fancy_put (fancy_put l i2 v2) i1 v1.
Proof.
  intros Hd H1 H2. apply nth_error_ext. intros j.
  destruct (in_dec Nat.eq_dec j i1) as [Hj1|Hj1].
  - rewrite fancy_put_other by auto.
    apply fancy_put_idem_cover; auto. now rewrite fancy_put_length.
  - rewrite (fancy_put_other i1) by auto.
    destruct (in_dec Nat.eq_dec j i2) as [Hj2|Hj2].
    + apply fancy_put_idem_cover; auto. now rewrite fancy_put_length.
    + now rewrite !fancy_put_other.
Qed.

Lemma put_bounds_shape b inds nb b' : put_bounds b inds nb = Some b' ->
  (nb = None /\ b' = b) \/
  exists vals, List.length vals = List.length inds /\ b' = fancy_put b inds vals /\
    (forall b0, put_bounds b0 inds nb = Some (fancy_put b0 inds vals)).
Proof.
  unfold put_bounds. destruct nb as [l|]; [|intros [= <-]; auto]. right.
  destruct (Nat.eqb_spec (List.length l) (List.length inds)) as [E|E].
  - injection H as <-. exists l. auto.
  - destruct l as [|m [|]]; try discriminate. injection H as <-.
    exists (map (fun _ => m) inds). rewrite map_length. auto.
Qed.

Lemma put_covs_shape inds bc :
  (forall b, put_covs b inds bc = b) \/
  exists vals, List.length vals = List.length inds /\ (forall b, put_covs b inds bc = fancy_put b inds vals).
Proof.
  unfold put_covs. destruct bc as [l|]; [|auto].
  destruct (Nat.eqb_spec (List.length l) (List.length inds)) as [E|E].
  - right. exists l. auto.
  - destruct l as [|m [|]]; auto. right. exists (map (fun _ => m) inds). rewrite map_length. auto.
Qed.

Lemma checkin_commute_lemma c s act1 fx1 a1 ai1 act2 fx2 a2 ai2 s1 s12 :
  ids act1 = map Z.of_nat ai1 -> NoDup ai1 -> (forall j, In j ai1 -> j < List.length (sourcecat s)) ->
  ids act2 = map Z.of_nat ai2 -> NoDup ai2 -> (forall j, In j ai2 -> j < List.length (sourcecat s)) ->
  (forall j, In j ai1 -> ~ In j ai2) ->
  checkin_region c s act1 fx1 a1 = Some s1 -> checkin_region c s1 act2 fx2 a2 = Some s12 ->
  exists s2 s21,
    checkin_region c s act2 fx2 a2 = Some s2 /\ checkin_region c s2 act1 fx1 a1 = Some s21 /\
    sourcecat s21 = sourcecat s12 /\ bounds_catalog s21 = bounds_catalog s12 /\
    covariance_matrices s21 = covariance_matrices s12 /\
    n_active s21 = n_active s12 /\ n_fixed s21 = n_fixed s12 /\
    (forall j, log_lookup (sourcelog s21) j = log_lookup (sourcelog s12) j) /\
    Permutation (patchlog s21) (patchlog s12).
Proof.
  intros Hi1 Hn1 Hlt1 Hi2 Hn2 Hlt2 Hd H1 H12.
  assert (T1 := proj1 (checkin_total c s act1 fx1 a1) (ex_intro _ _ H1)).
  assert (T2 := proj1 (checkin_total c s1 act2 fx2 a2) (ex_intro _ _ H12)).
  apply checkin_inv in H1 as (x1 & fi1 & Hai1 & Hfi1 & HL1 & Ho1 & Hat1 & Hb1 & Hc1 & Hna1 & Hnf1 & Hsl1 & Hpl1).
  assert (x1 = ai1) by (eapply np_index_ids; eauto). subst x1. specialize (Hat1 Hn1).
  apply checkin_inv in H12 as (x2 & fi2 & Hai2 & Hfi2 & HL2 & Ho2 & Hat2 & Hb2 & Hc2 & Hna2 & Hnf2 & Hsl2 & Hpl2).
  rewrite HL1 in *.
  assert (x2 = ai2) by (eapply np_index_ids; eauto). subst x2. specialize (Hat2 Hn2).
  destruct (proj2 (checkin_total c s act2 fx2 a2) T2) as (s2 & H2).
  pose proof H2 as H2'.
  apply checkin_inv in H2' as (y2 & gi2 & Kai2 & Kfi2 & KL2 & Ko2 & Kat2 & Kb2 & Kc2 & Kna2 & Knf2 & Ksl2 & Kpl2).
  assert (y2 = ai2) by (eapply np_index_ids; eauto). subst y2. specialize (Kat2 Hn2).
  rewrite <- KL2 in T1.
  destruct (proj2 (checkin_total c s2 act1 fx1 a1) T1) as (s21 & H21).
  exists s2, s21. split; [auto|split; [auto|]].
  apply checkin_inv in H21 as (y1 & gi1 & Kai1 & Kfi1 & KL1 & Ko1 & Kat1 & Kb1 & Kc1 & Kna1 & Knf1 & Ksl1 & Kpl1).
  rewrite KL2 in *.
  assert (y1 = ai1) by (eapply np_index_ids; eauto). subst y1. specialize (Kat1 Hn1).
  assert (gi1 = fi1).
  { clear -Kfi1 Hfi1. revert gi1 Kfi1. induction Hfi1; intros g K; inversion K; subst; auto.
    f_equal; [congruence|auto]. }
  assert (gi2 = fi2).
  { clear -Kfi2 Hfi2. revert gi2 Kfi2. induction Hfi2; intros g K; inversion K; subst; auto.
    f_equal; [congruence|auto]. }
  subst gi1 gi2.
  split; [|split; [|split; [|split; [|split; [|split]]]]].
  - apply nth_error_ext. intros j. change (src s21 j = src s12 j).
    destruct (in_dec Nat.eq_dec j ai1) as [Hj1|Hj1].
    + apply In_nth_error in Hj1 as (k & Hk). assert (Hj2 : ~ In j ai2) by (apply Hd; eapply nth_error_In; eauto).
      destruct (Forall2_nth_error_r _ _ _ _ _ Hai1 Hk) as (ak & Hak & _).
      rewrite (proj1 (Kat1 k j ak Hk Hak)), (Ko2 j Hj2), (Ho2 j Hj2), (proj1 (Hat1 k j ak Hk Hak)).
      destruct (src s j) as [rw|]; simpl; auto. f_equal.
      destruct (memn j fi2); auto.
      assert (Hset : forall fs ak rw v, cols (cols_from fs ak (set_valid_flag rw v)) = cols (cols_from fs ak rw)).
      { intros fs ak0. induction fs as [|f fs IH]; intros rw0 v; simpl; auto.
        destruct (getcol ak0 f); auto. apply (IH (setcol f rw0 q) v). }
      unfold in_row. rewrite Hset. reflexivity.
    + destruct (in_dec Nat.eq_dec j ai2) as [Hj2|Hj2].
      * apply In_nth_error in Hj2 as (k & Hk).
        destruct (Forall2_nth_error_r _ _ _ _ _ Hai2 Hk) as (ak & Hak & _).
        rewrite (Ko1 j Hj1), (proj1 (Kat2 k j ak Hk Hak)), (proj1 (Hat2 k j ak Hk Hak)), (Ho1 j Hj1).
        destruct (src s j) as [rw|]; simpl; auto. f_equal.
        destruct (memn j fi1); auto.
        assert (Hset : forall fs ak rw v, cols (cols_from fs ak (set_valid_flag rw v)) = cols (cols_from fs ak rw)).
        { intros fs ak0. induction fs as [|f fs IH]; intros rw0 v; simpl; auto.
          destruct (getcol ak0 f); auto. apply (IH (setcol f rw0 q) v). }
        unfold in_row. rewrite Hset. reflexivity.
      * rewrite (Ko1 j Hj1), (Ko2 j Hj2), (Ho2 j Hj2), (Ho1 j Hj1).
        destruct (src s j) as [rw|]; simpl; auto.
        destruct (memn j fi1), (memn j fi2); reflexivity.
  - destruct (put_bounds_shape _ _ _ _ Hb1) as [[E1 F1]|(v1 & Lv1 & F1 & G1)];
    destruct (put_bounds_shape _ _ _ _ Hb2) as [[E2 F2]|(v2 & Lv2 & F2 & G2)].
    + rewrite E1 in Kb1. rewrite E2 in Kb2. simpl in *. congruence.
    + rewrite E1 in Kb1. simpl in Kb1. rewrite G2 in Kb2. congruence.
    + rewrite E2 in Kb2. simpl in Kb2. rewrite G1 in Kb1. congruence.
    + rewrite G1 in Kb1. rewrite G2 in Kb2. injection Kb1 as <-. injection Kb2 as <-.
      rewrite F2, F1. symmetry. apply fancy_put_comm; auto.
  - rewrite Kc1, Kc2, Hc2, Hc1.
    destruct (put_covs_shape ai1 (block_covs a1)) as [G1|(v1 & L1 & G1)];
    destruct (put_covs_shape ai2 (block_covs a2)) as [G2|(v2 & L2 & G2)]; rewrite !G1, !G2; auto.
    symmetry. now apply fancy_put_comm.
  - lia.
  - lia.
  - intros j. rewrite Ksl1, Hsl2, Ksl2, Hsl1.
    destruct (taskID a1) as [p1|], (taskID a2) as [p2|]; rewrite ?log_lookup_fold by assumption; auto.
    destruct (memn j ai1) eqn:E1, (memn j ai2) eqn:E2; rewrite ?app_nil_r; auto.
    exfalso. apply (Hd j); now apply memn_In.
  - rewrite Kpl1, Hpl2, Kpl2, Hpl1. destruct (taskID a1) as [p1|], (taskID a2) as [p2|]; auto.
    rewrite <- !app_assoc. apply Permutation_app_head. simpl. apply perm_swap.
Qed.
