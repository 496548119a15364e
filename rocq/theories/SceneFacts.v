From Verif Require Import Np NpFacts SceneModel SceneSpec.

Section S.
Context {V : Type}.
Implicit Types (s : source V) (sc : list (source V)).

Lemma n_params_size s : s_kind s <> BaseSource -> n_params s = size s.
Proof. unfold n_params, size, n_bands, described_by, npos, nshape. destruct (s_kind s); simpl; intros; try lia; congruence. Qed.
Lemma shape_len_described s : shape_len (s_kind s) = List.length (described_by s).
Proof. unfold described_by, shape_len, npos, nshape. destruct (s_kind s); reflexivity. Qed.
Lemma shape_params_described s : shape_params s = described_by s.
Proof. unfold shape_params, described_by. destruct (s_kind s); reflexivity. Qed.

Lemma assign_shape_spec s p : List.length p = shape_len (s_kind s) ->
  exists s', assign_shape s p = Some s' /\ described_by s' = p /\ same_object s s' /\ flux s' = flux s.
Proof.
  unfold assign_shape, shape_len, npos, nshape, same_object, described_by, not_described_by. intros H.
  destruct s as [k fn fl ra dec q pa se rh ep ec fx]. simpl in *.
  destruct k; simpl in H; do 7 (try (destruct p as [|? p]; [try discriminate H|try discriminate H]));
    eexists; (split; [reflexivity|]); simpl; auto 7.
Qed.
Lemma assign_shape_none s p : List.length p <> shape_len (s_kind s) -> assign_shape s p = None.
Proof.
  unfold assign_shape, shape_len, npos, nshape. intros H.
  destruct (s_kind s); simpl in H; do 7 (try (destruct p as [|? p]; [try reflexivity|try reflexivity])); simpl in H; congruence.
Qed.

Lemma set_params_ok s par : well_made s -> List.length par = List.length (filternames s) + List.length (described_by s) ->
  exists s', set_params s par None = Some s' /\ flux s' ++ described_by s' = par /\ same_object s s' /\ well_made s'.
Proof.
  intros Hw HL. unfold set_params, n_bands. rewrite shape_len_described, HL, Nat.eqb_refl.
  unfold assign_flux. rewrite firstn_length, HL, Hw.
  replace (Nat.min _ _) with (List.length (filternames s)) by lia. rewrite Nat.eqb_refl.
  destruct (assign_shape_spec (set_flux s (firstn (List.length (filternames s)) par))
              (skipn (List.length (filternames s)) par)) as (s' & H1 & H2 & H3 & H4).
  { rewrite skipn_length, HL. simpl. rewrite shape_len_described. lia. }
  exists s'. split; [exact H1|]. split. { rewrite H4, H2. simpl. apply firstn_skipn. }
  split. { unfold same_object in *. simpl in H3. exact H3. }
  unfold well_made. rewrite H4. destruct H3 as (_ & -> & _). simpl. rewrite firstn_length, HL. lia.
Qed.
Lemma set_params_bad s par : List.length par <> List.length (filternames s) + List.length (described_by s) ->
  set_params s par None = None.
Proof.
  intros H. unfold set_params, n_bands. rewrite shape_len_described.
  destruct (Nat.eqb_spec (List.length par) (List.length (filternames s) + List.length (described_by s))); [contradiction|reflexivity].
Qed.

Lemma get_params_all s : get_param_vector s None = Some (flux s ++ described_by s).
Proof. unfold get_param_vector. rewrite shape_params_described. destruct (s_kind s); reflexivity. Qed.

Lemma offset_cons s sc i : offset (s :: sc) (S i) = (if fixed s then 0 else size s) + offset sc i.
Proof. unfold offset. simpl. destruct (fixed s); reflexivity. Qed.

Lemma py_slice_length (l : list V) a b : List.length (py_slice l a b) = Nat.min (b - a) (List.length l - a).
Proof. unfold py_slice. now rewrite firstn_length, skipn_length. Qed.

Lemma set_all_ok sc : forall start Theta,
  Forall well_made sc -> Forall (fun s => s_kind s <> BaseSource) sc ->
  start + total sc <= List.length Theta ->
  exists sc', set_all_from start sc Theta = Some sc' /\
    Forall2 (fun s s' => same_object s s' /\ well_made s' /\ (fixed s = true -> s' = s)) sc sc' /\
    (forall i s s', nth_error sc i = Some s -> nth_error sc' i = Some s' -> fixed s = false ->
        flux s' ++ described_by s' = firstn (size s) (skipn (start + offset sc i) Theta)) /\
    concat (map (fun s => flux s ++ described_by s) (active_sources sc')) = firstn (total sc) (skipn start Theta).
Proof.
  induction sc as [|s sc IH]; intros start Theta Hw Hk HL; simpl.
  - exists []. split; auto. split; [constructor|]. split; [intros [|] ? ? E; discriminate|]. reflexivity.
  - inversion Hw as [|? ? Hw1 Hw2]; subst. inversion Hk as [|? ? Hk1 Hk2]; subst.
    unfold total in HL. cbn [List.length] in HL. rewrite offset_cons in HL. fold (total sc) in HL.
    destruct (fixed s) eqn:Ef.
    + destruct (IH start Theta Hw2 Hk2 ltac:(lia)) as (sc' & H1 & H2 & H3 & H4).
      exists (s :: sc'). rewrite H1. split; auto. split.
      { constructor; auto. split; [unfold same_object; auto|auto]. }
      split.
      { intros [|i] a a' Ha Ha' Hfx; simpl in *.
        - injection Ha as <-. congruence.
        - rewrite offset_cons, Ef. simpl. eauto. }
      unfold active_sources in *. simpl. rewrite Ef. simpl. rewrite H4.
      unfold total at 2. cbn [List.length]. rewrite offset_cons, Ef. reflexivity.
    + rewrite (n_params_size s Hk1).
      destruct (set_params_ok s (py_slice Theta start (start + size s)) Hw1) as (s' & K1 & K2 & K3 & K4).
      { rewrite py_slice_length. unfold size in *. lia. }
      rewrite K1. destruct (IH (start + size s) Theta Hw2 Hk2 ltac:(lia)) as (sc' & H1 & H2 & H3 & H4).
      exists (s' :: sc'). rewrite H1. split; auto.
      assert (Ef' : fixed s' = false) by (destruct K3 as (_ & _ & -> & _); auto).
      split. { constructor; auto. split; auto. split; auto. congruence. }
      split.
      { intros [|i] a a' Ha Ha' Hfx; simpl in *.
        - injection Ha as <-. injection Ha' as <-. rewrite K2. unfold py_slice. f_equal; [lia|]. f_equal. unfold offset; simpl; lia.
        - rewrite offset_cons, Ef, (H3 _ _ _ Ha Ha' Hfx). f_equal. f_equal. lia. }
      unfold active_sources in *. simpl. rewrite Ef'. simpl. rewrite H4, K2.
      unfold total at 2. cbn [List.length]. rewrite offset_cons, Ef. fold (total sc).
      unfold py_slice. replace (start + size s - start) with (size s) by lia.
      rewrite <- (firstn_skipn (size s) (firstn (size s + total sc) (skipn start Theta))).
      rewrite firstn_firstn, Nat.min_l by lia. f_equal.
      rewrite skipn_firstn_comm, skipn_skipn. f_equal. lia.
Qed.

Lemma set_all_short sc : forall start Theta,
  Forall well_made sc -> Forall (fun s => s_kind s <> BaseSource) sc ->
  List.length Theta < start + total sc -> 0 < total sc -> set_all_from start sc Theta = None.
Proof.
  induction sc as [|s sc IH]; intros start Theta Hw Hk HL Hpos; simpl.
  - unfold total, offset in Hpos. simpl in Hpos. lia.
  - inversion Hw as [|? ? Hw1 Hw2]; subst. inversion Hk as [|? ? Hk1 Hk2]; subst.
    unfold total in HL, Hpos. cbn [List.length] in HL, Hpos. rewrite offset_cons in HL, Hpos. fold (total sc) in HL, Hpos.
    destruct (fixed s) eqn:Ef.
    + rewrite IH; auto.
    + rewrite (n_params_size s Hk1).
      destruct (le_lt_dec (start + size s) (List.length Theta)) as [Hle|Hlt].
      * destruct (set_params_ok s (py_slice Theta start (start + size s)) Hw1) as (s' & K1 & K2 & K3 & K4).
        { rewrite py_slice_length. unfold size in *. lia. }
        rewrite K1. rewrite IH; auto; lia.
      * rewrite set_params_bad; auto. rewrite py_slice_length. unfold size in *.
        assert (0 < List.length (described_by s)) by (unfold described_by; destruct (s_kind s); simpl; lia). lia.
Qed.

Lemma get_all_active sc : active_sources sc <> [] ->
  get_all_source_params sc true = Some (concat (map (fun s => flux s ++ described_by s) (active_sources sc))).
Proof.
  intros H. unfold get_all_source_params. destruct (active_sources sc) as [|s t] eqn:E; [congruence|].
  assert (Hm : forall l : list (source V), mapM (fun s => get_param_vector s None) l = Some (map (fun s => flux s ++ described_by s) l)).
  { induction l as [|x l IH]; simpl; auto. now rewrite get_params_all, IH. }
  now rewrite Hm.
Qed.

(** One band *)
Lemma index_of_nth f l k : index_of f l = Some k -> nth_error l k = Some f /\ k < List.length l.
Proof.
  revert k. induction l as [|g t IH]; simpl; intros k H; [discriminate|].
  destruct (String.eqb_spec f g) as [->|Hne].
  - injection H as <-. simpl. split; [auto|lia].
  - destruct (index_of f t) as [j|]; [|discriminate]. injection H as <-. destruct (IH j eq_refl). simpl. split; [auto|lia].
Qed.
Lemma index_of_In f l : In f l -> exists k, index_of f l = Some k.
Proof.
  induction l as [|g t IH]; simpl; [contradiction|]. intros H. destruct (String.eqb_spec f g); [eauto|].
  destruct H as [->|H]; [congruence|]. destruct (IH H) as (k & ->). simpl. eauto.
Qed.
Lemma index_of_NoDup f l k : NoDup l -> nth_error l k = Some f -> index_of f l = Some k.
Proof.
  revert k. induction l as [|g t IH]; intros [|k] HN H; simpl in *; try discriminate.
  - injection H as ->. now rewrite String.eqb_refl.
  - inversion HN as [|? ? Hni HN']; subst. destruct (String.eqb_spec f g) as [->|Hne].
    + apply nth_error_In in H. contradiction.
    + now rewrite (IH k).
Qed.

Lemma set_params_band s v shape f k : well_made s -> index_of f (filternames s) = Some k ->
  List.length shape = List.length (described_by s) ->
  exists s', set_params s (v :: shape) (Some f) = Some s' /\
    flux s' = upd k v (flux s) /\ described_by s' = shape /\ same_object s s' /\ well_made s'.
Proof.
  intros Hw Hk HL. unfold set_params, filter_index. rewrite Hk, shape_len_described. cbn [List.length].
  rewrite HL. simpl. rewrite Nat.eqb_refl.
  destruct (index_of_nth _ _ _ Hk) as [_ Hlt]. rewrite <- Hw in Hlt. apply Nat.ltb_lt in Hlt. rewrite Hlt.
  destruct (assign_shape_spec (set_flux s (upd k v (flux s))) shape) as (s' & H1 & H2 & H3 & H4).
  { simpl. now rewrite shape_len_described. }
  exists s'. split; [exact H1|]. split; [exact H4|]. split; [exact H2|]. split; [exact H3|].
  unfold well_made in *. rewrite H4. destruct H3 as (_ & -> & _). simpl. now rewrite upd_length.
Qed.
Lemma get_params_band s f k v : f <> EmptyString -> index_of f (filternames s) = Some k -> nth_error (flux s) k = Some v ->
  get_param_vector s (Some f) = Some (v :: described_by s).
Proof.
  intros Hne Hk Hv. unfold get_param_vector, filter_index. rewrite shape_params_described.
  destruct f as [|a f]; [congruence|]. destruct (s_kind s); rewrite Hk, Hv; reflexivity.
Qed.

(** param_indices *)
Lemma fold_add_sum l : forall a, fold_left Nat.add l a = a + list_sum l.
Proof. induction l as [|x l IH]; intros a; simpl; [lia|]. rewrite IH. lia. Qed.

Lemma offset_all_active sc i : (forall s, In s sc -> fixed s = false) ->
  offset sc i = list_sum (map size (firstn i sc)).
Proof.
  intros H. unfold offset. f_equal. f_equal. revert i. induction sc as [|s sc IH]; intros [|i]; simpl; auto.
  rewrite (H s (or_introl eq_refl)). simpl. f_equal. apply IH. intros; apply H; simpl; auto.
Qed.
Lemma active_all sc : (forall s, In s sc -> fixed s = false) -> active_sources sc = sc.
Proof.
  unfold active_sources. induction sc as [|s sc IH]; intros H; simpl; auto.
  rewrite (H s (or_introl eq_refl)). simpl. f_equal. apply IH. intros; apply H; simpl; auto.
Qed.

Lemma mapM_seq_slice {A} (l : list A) : forall a n, a + n <= List.length l ->
  mapM (nth_error l) (seq a n) = Some (firstn n (skipn a l)).
Proof.
  intros a n. revert a. induction n as [|n IH]; intros a H; simpl; auto.
  destruct (nth_error l a) as [x|] eqn:E; [|apply nth_error_None in E; lia].
  rewrite IH by lia. f_equal. clear IH. revert l E H. induction a as [|a IHa]; intros l E H; destruct l as [|y l]; try discriminate.
  - simpl in E. injection E as ->. reflexivity.
  - simpl in E. simpl in H. simpl skipn. rewrite <- IHa; auto. lia.
Qed.

Lemma concat_slice {A} (f : source V -> list A) sc i s :
  nth_error sc i = Some s ->
  firstn (List.length (f s)) (skipn (list_sum (map (fun x => List.length (f x)) (firstn i sc))) (concat (map f sc))) = f s.
Proof.
  revert i. induction sc as [|x sc IH]; intros [|i] H; simpl in H; try discriminate.
  - injection H as ->. simpl. now rewrite firstn_app, Nat.sub_diag, firstn_all, firstn_O, app_nil_r.
  - simpl. rewrite skipn_app, skipn_all2 by lia. simpl.
    replace (List.length (f x) + list_sum _ - List.length (f x)) with (list_sum (map (fun x => List.length (f x)) (firstn i sc))) by lia.
    now apply IH.
Qed.

Lemma well_made_size s : well_made s -> List.length (flux s ++ described_by s) = size s.
Proof. unfold well_made, size. intros H. rewrite app_length. lia. Qed.

Lemma sum_sizes sc i : Forall well_made sc ->
  list_sum (map (fun x : source V => List.length (flux x ++ described_by x)) (firstn i sc)) = list_sum (map size (firstn i sc)).
Proof.
  revert i. induction sc as [|x sc IH]; intros [|i] H; simpl; auto. inversion H; subst.
  now rewrite well_made_size, IH.
Qed.

Lemma param_indices_lemma sc sid s f :
  (forall x, In x sc -> fixed x = false) -> Forall well_made sc -> Forall (fun x => s_kind x <> BaseSource) sc ->
  nth_error sc sid = Some s -> f <> EmptyString -> In f (filternames s) ->
  exists Theta inds, get_all_source_params sc true = Some Theta /\ param_indices sc sid f = Some inds /\
    fancy_get Theta inds = get_param_vector s (Some f).
Proof.
  intros Ha Hw Hk Hs Hf Hin.
  destruct (index_of_In _ _ Hin) as (k & Ek). destruct (index_of_nth _ _ _ Ek) as [_ Hlt].
  assert (Hws : well_made s) by (rewrite Forall_forall in Hw; apply Hw; eapply nth_error_In; eauto).
  assert (Hks : s_kind s <> BaseSource) by (rewrite Forall_forall in Hk; apply Hk; eapply nth_error_In; eauto).
  destruct (nth_error (flux s) k) as [v|] eqn:Ev; [|apply nth_error_None in Ev; unfold well_made in Hws; lia].
  assert (Hne : active_sources sc <> []).
  { rewrite active_all by auto. destruct sc; [destruct sid; discriminate|discriminate]. }
  pose (F := fun x : source V => flux x ++ described_by x).
  set (start := list_sum (map (fun x => List.length (F x)) (firstn sid sc))).
  assert (Hstart : fold_left Nat.add (map n_params (firstn sid (active_sources sc))) 0 = start).
  { rewrite active_all, fold_add_sum by auto. simpl. unfold start, F. rewrite sum_sizes by auto. f_equal.
    apply map_ext_in. intros x Hx. apply n_params_size. rewrite Forall_forall in Hk. apply Hk. eapply firstn_In; eauto. }
  pose proof (concat_slice F sc sid s Hs) as Hsl. fold start in Hsl.
  assert (HLF : List.length (F s) = size s) by (apply well_made_size; auto).
  assert (Htot : start + List.length (F s) <= List.length (concat (map F sc))).
  { assert (Hl := f_equal (@List.length V) Hsl). rewrite firstn_length, skipn_length in Hl.
    assert (0 < List.length (F s)). { rewrite HLF. unfold size. lia. } lia. }
  exists (concat (map F sc)), ((start + k) :: seq (start + n_bands s) (n_params s - n_bands s)).
  split; [rewrite get_all_active by auto; now rewrite active_all|].
  split. { unfold param_indices. rewrite Hs. unfold filter_index. rewrite Hstart, Ek. reflexivity. }
  rewrite (get_params_band s f k v Hf Ek Ev).
  assert (Hget : forall j, j < List.length (F s) -> nth_error (concat (map F sc)) (start + j) = nth_error (F s) j).
  { intros j Hj. transitivity (nth_error (firstn (List.length (F s)) (skipn start (concat (map F sc)))) j);
      [|now rewrite Hsl]. rewrite nth_error_firstn by lia. now rewrite nth_error_skipn. }
  assert (Hb : n_bands s = List.length (flux s)) by (unfold n_bands; now rewrite Hws).
  unfold fancy_get. cbn [mapM]. rewrite Hget by (unfold F; rewrite app_length; unfold well_made in Hws; lia).
  unfold F at 1. rewrite nth_error_app1, Ev by (unfold well_made in Hws; lia).
  rewrite mapM_seq_slice.
  2:{ rewrite n_params_size, <- HLF by auto. unfold F in *. rewrite app_length in *. lia. }
  f_equal. f_equal. rewrite (n_params_size s Hks), <- HLF.
  assert (Hskip : skipn (n_bands s) (F s) = described_by s).
  { unfold F. rewrite Hb, skipn_app, skipn_all, Nat.sub_diag. reflexivity. }
  rewrite <- Hskip. transitivity (skipn (n_bands s) (firstn (List.length (F s)) (skipn start (concat (map F sc)))));
    [|now rewrite Hsl]. now rewrite skipn_firstn_comm, skipn_skipn.
Qed.
End S.
