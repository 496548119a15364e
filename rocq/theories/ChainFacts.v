From Verif Require Import Np NpFacts SceneModel SceneSpec SceneFacts.

Section Cols.
Context {V : Type}.
Lemma col_put_col (r : srow V) c v d :
  col (put_col r c v) d = if String.eqb c d then match col r c with Some _ => Some v | None => None end else col r d.
Proof.
  induction r as [|[e w] t IH]; simpl.
  - destruct (String.eqb c d); reflexivity.
  - destruct (String.eqb_spec c e) as [->|Hce]; simpl.
    + destruct (String.eqb_spec d e) as [->|Hde].
      * now rewrite String.eqb_refl.
      * destruct (String.eqb_spec e d); congruence.
    + rewrite IH. destruct (String.eqb_spec d e) as [->|Hde]; auto.
      destruct (String.eqb_spec c e); congruence.
Qed.
Lemma keys_put_col (r : srow V) c v : map fst (put_col r c v) = map fst r.
Proof. induction r as [|[e w] t IH]; simpl; auto. destruct (String.eqb c e); simpl; congruence. Qed.
Lemma col_combine (names : list string) (vals : list V) k c :
  NoDup names -> List.length names = List.length vals -> nth_error names k = Some c ->
  col (combine names vals) c = nth_error vals k.
Proof.
  revert vals k. induction names as [|n names IH]; intros [|v vals] [|k] HN HL H; simpl in *; try discriminate.
  - injection H as ->. now rewrite String.eqb_refl.
  - inversion HN; subst. destruct (String.eqb_spec c n) as [->|Hne].
    + apply nth_error_In in H. contradiction.
    + apply IH; auto.
Qed.
Lemma concat_nth_error_const n (ll : list (list V)) : forall s j,
  Forall (fun l => List.length l = n) ll -> j < n ->
  nth_error (concat ll) (s * n + j) = match nth_error ll s with Some l => nth_error l j | None => None end.
Proof.
  induction ll as [|l ll IH]; intros s j Hf Hj; simpl.
  - destruct s; simpl; [destruct j|destruct (n + s * n + j)]; reflexivity.
  - inversion Hf; subst. destruct s as [|s]; simpl.
    + now rewrite nth_error_app1.
    + rewrite nth_error_app2 by lia. rewrite <- IH by auto. f_equal. lia.
Qed.
End Cols.

Lemma mapM_nth {A B} (f : A -> option B) l r : mapM f l = Some r ->
  List.length r = List.length l /\ forall i x, nth_error l i = Some x -> exists y, nth_error r i = Some y /\ f x = Some y.
Proof.
  revert r. induction l as [|a l IH]; simpl; intros r H.
  - injection H as <-. split; auto. intros [|i] x E; discriminate.
  - destruct (f a) as [b|] eqn:Ea; [|discriminate]. destruct (mapM f l) as [r'|]; [|discriminate].
    injection H as <-. destruct (IH r' eq_refl) as [H1 H2]. split; [simpl; auto|].
    intros [|i] x E; simpl in *; eauto. injection E as <-. eauto.
Qed.
Lemma mapM_total {A B} (f : A -> option B) l : (forall x, In x l -> exists y, f x = Some y) -> exists r, mapM f l = Some r.
Proof.
  induction l as [|a l IH]; intros H; simpl; eauto.
  destruct (H a (or_introl eq_refl)) as (y & ->). destruct IH as (r & ->); eauto.
  intros; apply H; simpl; auto.
Qed.
Lemma nth_error_enumerate {A} (l : list A) i : nth_error (enumerate l) i = option_map (pair i) (nth_error l i).
Proof.
  unfold enumerate. enough (H : forall start, nth_error (combine (seq start (List.length l)) l) i = option_map (pair (start + i)) (nth_error l i))
    by exact (H 0).
  revert i. induction l as [|x l IH]; intros [|i] start; simpl; auto.
  - now rewrite Nat.add_0_r.
  - rewrite IH. f_equal. now replace (S start + i) with (start + S i) by lia.
Qed.
Lemma has_dup_NoDup l : has_dup l = false <-> NoDup l.
Proof.
  induction l as [|c t IH]; simpl.
  - split; [constructor|reflexivity].
  - rewrite orb_false_iff, IH. split.
    + intros [H1 H2]. constructor; auto. intros Hin.
      assert (existsb (String.eqb c) t = true) by (apply existsb_exists; exists c; split; auto; apply String.eqb_refl). congruence.
    + intros H. inversion H; subst. split; auto. apply not_true_is_false. intros E. apply existsb_exists in E as (x & Hx & E).
      apply String.eqb_eq in E. congruence.
Qed.

Section Chain.
Context {V : Type} (add sub : V -> V -> V).

(** The shift applied to column [c]. *)
Definition refshift (op : V -> V -> V) (ref : V * V) (c : string) (v : V) : V :=
  if String.eqb c "ra" then op v (fst ref) else if String.eqb c "dec" then op v (snd ref) else v.

Lemma shift_row_col ref r r' : shift_row sub ref r = Some r' ->
  forall c, col r' c = option_map (fun p => (refshift sub ref c (fst p), refshift sub ref c (snd p))) (col r c).
Proof.
  unfold shift_row. intros H c. destruct (col r "ra") as [a|] eqn:Ea; [|discriminate].
  destruct (col (put_col r "ra" (shift_pair sub (fst ref) a)) "dec") as [d|] eqn:Ed; [|discriminate].
  injection H as <-. rewrite col_put_col, Ed. rewrite col_put_col in Ed. simpl in Ed. unfold refshift.
  rewrite (String.eqb_sym "dec" c). destruct (String.eqb_spec c "dec") as [->|H1].
  - rewrite Ed. reflexivity.
  - rewrite col_put_col, Ea. rewrite (String.eqb_sym "ra" c). destruct (String.eqb_spec c "ra") as [->|H2].
    + rewrite Ea. reflexivity.
    + destruct (col r c) as [[u v]|]; reflexivity.
Qed.

Lemma bounds_vectors_lemma bcat fns shs ref lo up :
  bounds_vectors sub bcat fns shs ref = Some (lo, up) ->
  let w := List.length (fns ++ shs) in
  List.length lo = List.length bcat * w /\ List.length up = List.length bcat * w /\
  forall s j r c, nth_error bcat s = Some r -> nth_error (fns ++ shs) j = Some c ->
    exists l u, col r c = Some (l, u) /\
      nth_error lo (s * w + j) = Some (refshift sub ref c l) /\ nth_error up (s * w + j) = Some (refshift sub ref c u).
Proof.
  intros H w. unfold bounds_vectors in H.
  destruct (mapM (shift_row sub ref) bcat) as [rows|] eqn:E1; [|discriminate].
  destruct (mapM (fun r => mapM (col r) (fns ++ shs)) rows) as [ll|] eqn:E2; [|discriminate].
  injection H as <- <-. apply mapM_nth in E1 as [L1 N1]. apply mapM_nth in E2 as [L2 N2].
  assert (Hf : Forall (fun l => List.length l = w) ll).
  { apply Forall_forall. intros l Hl. apply In_nth_error in Hl as (i & Hi).
    assert (Hlt : i < List.length rows) by (rewrite <- L2; apply nth_error_Some; congruence).
    destruct (nth_error rows i) as [r|] eqn:Er; [|apply nth_error_None in Er; lia].
    destruct (N2 _ _ Er) as (y & Hy & Hm). rewrite Hi in Hy. injection Hy as <-. apply mapM_nth in Hm as [Hm _]. exact Hm. }
  assert (Hlen : List.length (concat ll) = List.length bcat * w).
  { rewrite <- L1, <- L2. clear -Hf. induction Hf; simpl; auto. rewrite app_length. lia. }
  split; [now rewrite map_length|]. split; [now rewrite map_length|].
  intros s j r c Hs Hj. destruct (N1 _ _ Hs) as (r' & Hr' & Hsh). destruct (N2 _ _ Hr') as (l' & Hl' & Hm).
  apply mapM_nth in Hm as [_ Hm]. destruct (Hm _ _ Hj) as ([lv uv] & Hv & Hc).
  rewrite (shift_row_col _ _ _ Hsh) in Hc. destruct (col r c) as [[l u]|]; [|discriminate]. simpl in Hc.
  injection Hc as <- <-. exists l, u. split; auto.
  assert (Hjw : j < w) by (unfold w; apply nth_error_Some; congruence).
  rewrite !nth_error_map, !(concat_nth_error_const w ll s j Hf Hjw), Hl', Hv. auto.
Qed.
Lemma bounds_vectors_total bcat fns shs ref :
  (forall r c, In r bcat -> In c ("ra" :: "dec" :: fns ++ shs)%string -> exists p, col r c = Some p) ->
  exists lo up, bounds_vectors sub bcat fns shs ref = Some (lo, up).
Proof.
  intros H. unfold bounds_vectors.
  assert (Hsh : forall r, In r bcat -> exists r', shift_row sub ref r = Some r').
  { intros r Hr. unfold shift_row. destruct (H r "ra"%string Hr) as (a & Ea); [simpl; auto|].
    destruct (H r "dec"%string Hr) as (d & Ed); [simpl; auto|]. rewrite Ea, col_put_col. simpl. rewrite Ed. eauto. }
  destruct (mapM_total _ _ Hsh) as (rows & E1). rewrite E1. pose proof E1 as E1'. apply mapM_nth in E1 as [L1 N1].
  destruct (mapM_total (fun r => mapM (col r) (fns ++ shs)) rows) as (ll & E2).
  { intros r' Hr'. apply mapM_total. intros c Hc. apply In_nth_error in Hr' as (i & Hi).
    assert (Hlt : i < List.length bcat) by (rewrite <- L1; apply nth_error_Some; congruence).
    destruct (nth_error bcat i) as [r|] eqn:Er; [|apply nth_error_None in Er; lia].
    destruct (N1 _ _ Er) as (y & Hy & Hs). rewrite Hi in Hy. injection Hy as <-.
    rewrite (shift_row_col _ _ _ Hs). destruct (H r c) as (p & ->); [eapply nth_error_In; eauto|simpl; auto|]. simpl. eauto. }
  rewrite E2. eauto.
Qed.

Lemma chain_enum chain base colnames : forall cs,
  mapM (fun jc : nat * string => option_map (pair (snd jc)) (@column V chain (base + fst jc))) (enumerate colnames) = Some cs ->
  exists vals, cs = combine colnames vals /\ List.length vals = List.length colnames /\
    forall j, j < List.length colnames -> exists v, nth_error vals j = Some v /\ column chain (base + j) = Some v.
Proof.
  intros cs H. apply mapM_nth in H as [HL HN].
  assert (HLe : List.length (enumerate colnames) = List.length colnames).
  { unfold enumerate. rewrite combine_length, seq_length. lia. }
  exists (map snd cs). split; [|split].
  - apply nth_error_ext. intros k. destruct (nth_error colnames k) as [c|] eqn:Ec.
    + assert (Ee : nth_error (enumerate colnames) k = Some (k, c)) by (rewrite nth_error_enumerate, Ec; reflexivity).
      destruct (HN _ _ Ee) as ([c' v] & Hy & Hv). simpl in Hv. destruct (column chain (base + k)); [|discriminate].
      simpl in Hv. injection Hv as <- <-. rewrite Hy.
      clear -Ec Hy. revert cs colnames Ec Hy. induction k as [|k IH]; intros [|x cs] [|y cn] Ec Hy; simpl in *; try discriminate.
      * injection Ec as ->. injection Hy as ->. reflexivity.
      * auto.
    + assert (nth_error cs k = None) by (apply nth_error_None; apply nth_error_None in Ec; lia).
      rewrite H. symmetry. apply nth_error_None. rewrite combine_length, map_length. apply nth_error_None in Ec. lia.
  - rewrite map_length. lia.
  - intros j Hj. destruct (nth_error colnames j) as [c|] eqn:Ec; [|apply nth_error_None in Ec; lia].
    assert (Ee : nth_error (enumerate colnames) j = Some (j, c)) by (rewrite nth_error_enumerate, Ec; reflexivity).
    destruct (HN _ _ Ee) as (y & Hy & Hv). simpl in Hv. destruct (column chain (base + j)) as [v|]; [|discriminate].
    simpl in Hv. injection Hv as <-. exists v. split; auto. now rewrite nth_error_map, Hy.
Qed.

Lemma chaincat_lemma chain n_param bands active ref shapes rows :
  make_chaincat add chain n_param bands active ref shapes = Some rows ->
  let w := List.length (bands ++ shapes) in
  n_param = List.length active * w /\ NoDup (bands ++ shapes) /\ List.length rows = List.length active /\
  forall s a j c, nth_error active s = Some a -> nth_error (bands ++ shapes) j = Some c ->
    exists row samples, nth_error rows s = Some row /\ c_index row = a /\ map fst (c_cols row) = bands ++ shapes /\
      col (c_cols row) c = Some samples /\ List.length samples = List.length chain /\
      forall i r, nth_error chain i = Some r ->
        exists v, nth_error r (s * w + j) = Some v /\ nth_error samples i = Some (refshift add ref c v).
Proof.
  intros H w. unfold make_chaincat in H. rewrite <- app_length in H. fold w in H.
  destruct (Nat.eqb_spec w 0) as [|Hw]; [discriminate|].
  destruct (Nat.eqb_spec (n_param mod w) 0) as [Hmod|]; [|discriminate]. simpl in H.
  destruct (Nat.eqb_spec (n_param / w) (List.length active)) as [Hdiv|]; [|discriminate]. simpl in H.
  destruct (has_dup (bands ++ shapes)) eqn:Hdup; [discriminate|]. apply has_dup_NoDup in Hdup.
  match type of H with match mapM ?f (enumerate active) with _ => _ end = _ => destruct (mapM f (enumerate active)) as [rows0|] eqn:E1 end;
    [|discriminate].
  apply mapM_nth in E1 as [L1 N1]. apply mapM_nth in H as [L2 N2].
  assert (HLe : List.length (enumerate active) = List.length active).
  { unfold enumerate. rewrite combine_length, seq_length. lia. }
  split. { rewrite <- Hdiv. pose proof (Nat.div_mod n_param w Hw). lia. }
  split; auto. split; [exact (eq_trans L2 (eq_trans L1 HLe))|]. intros s a j c Hs Hj.
  assert (Ee : nth_error (enumerate active) s = Some (s, a)) by (rewrite nth_error_enumerate, Hs; reflexivity).
  destruct (N1 _ _ Ee) as ([z cs] & Hy & Hv). simpl in Hv.
  destruct (mapM _ (enumerate (bands ++ shapes))) as [cs'|] eqn:Ecs in Hv; [|discriminate]. injection Hv as <- <-.
  destruct (chain_enum _ _ _ _ Ecs) as (vals & Hcomb & HLv & Hvals).
  destruct (N2 _ _ Hy) as (row & Hrow & Hr). simpl in Hr.
  destruct (col cs' "ra") as [ra|] eqn:Era; [|discriminate]. destruct (col cs' "dec") as [dec|] eqn:Edec; [|discriminate].
  injection Hr as <-. simpl c_index. simpl c_cols.
  assert (Hjw : j < w) by (unfold w; apply nth_error_Some; congruence).
  destruct (Hvals j Hjw) as (v & Hv & Hcol).
  assert (Hc : col cs' c = Some v) by (rewrite Hcomb, (col_combine _ _ j) by auto; exact Hv).
  exists (mkChainRow a (put_col (put_col cs' "ra" (map (fun v => add v (fst ref)) ra)) "dec" (map (fun v => add v (snd ref)) dec))).
  exists (map (refshift add ref c) v).
  split; [exact Hrow|]. split; [reflexivity|]. split.
  { simpl. rewrite !keys_put_col, Hcomb. clear -HLv. revert vals HLv. generalize (bands ++ shapes).
    induction l as [|x l IH]; intros [|y v] H; simpl in *; try discriminate; auto. f_equal. apply IH. congruence. }
  split.
  { cbn [c_cols]. rewrite col_put_col, (col_put_col cs' "ra" _ "dec"), Edec.
    change (String.eqb "ra" "dec") with false. cbv iota. rewrite (String.eqb_sym "dec" c).
    unfold refshift. destruct (String.eqb_spec c "dec") as [->|H1].
    - rewrite Hc in Edec. injection Edec as <-. reflexivity.
    - rewrite col_put_col, Era, (String.eqb_sym "ra" c). destruct (String.eqb_spec c "ra") as [->|H2].
      + rewrite Hc in Era. injection Era as <-. reflexivity.
      + rewrite Hc. f_equal. clear. induction v; simpl; congruence. }
  unfold column in Hcol. apply mapM_nth in Hcol as [HLc Hcol]. split; [rewrite map_length; lia|].
  intros i r Hi. destruct (Hcol _ _ Hi) as (x & Hx & Hx'). exists x. split; [exact Hx'|].
  now rewrite nth_error_map, Hx.
Qed.

Lemma chaincat_total chain n_param bands active ref shapes :
  let w := List.length (bands ++ shapes) in
  0 < w -> n_param = List.length active * w -> NoDup (bands ++ shapes) ->
  In "ra"%string (bands ++ shapes) -> In "dec"%string (bands ++ shapes) ->
  (forall r, In r chain -> List.length r = n_param) ->
  exists rows, make_chaincat add chain n_param bands active ref shapes = Some rows.
Proof.
  intros w Hw Hn HN Hra Hdec Hlen. unfold make_chaincat. rewrite <- app_length. fold w.
  destruct (Nat.eqb_spec w 0); [lia|]. subst n_param. rewrite Nat.mod_mul by lia. simpl.
  rewrite Nat.div_mul, Nat.eqb_refl by lia. simpl.
  rewrite (proj2 (has_dup_NoDup _) HN).
  assert (HLe : List.length (enumerate active) = List.length active).
  { unfold enumerate. rewrite combine_length, seq_length. lia. }
  match goal with |- context [mapM ?f (enumerate active)] => destruct (mapM_total f (enumerate active)) as (rows0 & E1) end.
  { intros [s a] Hin. simpl. assert (Hs : s < List.length active) by (apply in_combine_l, in_seq in Hin; lia).
    match goal with |- context [mapM ?f (enumerate (bands ++ shapes))] =>
      destruct (mapM_total f (enumerate (bands ++ shapes))) as (cs & Ecs) end.
    { intros [j c] Hj. simpl. apply in_combine_l, in_seq in Hj. fold w in Hj.
      destruct (mapM_total (fun r : list V => nth_error r (s * w + j)) chain) as (v & Ev).
      - intros r Hr. destruct (nth_error r (s * w + j)) eqn:E; eauto. apply nth_error_None in E. rewrite (Hlen r Hr) in E.
        assert (s * w + w <= List.length active * w).
        { replace (s * w + w) with (S s * w) by lia. apply Nat.mul_le_mono_r. lia. } lia.
      - unfold column. rewrite Ev. simpl. eauto. }
    rewrite Ecs. eauto. }
  rewrite E1. apply mapM_nth in E1 as [L1 N1].
  apply mapM_total. intros [z cs] Hin. simpl. apply In_nth_error in Hin as (s & Hs).
  unfold srow in *.
  assert (Hlt : s < List.length (enumerate active)).
  { rewrite <- L1. apply nth_error_Some. intros E. rewrite Hs in E. discriminate. }
  destruct (nth_error (enumerate active) s) as [[s' a]|] eqn:Ee; [|apply nth_error_None in Ee; lia].
  destruct (N1 _ _ Ee) as (y & Hy & Hv). rewrite Hs in Hy. injection Hy as <-. simpl in Hv.
  destruct (mapM _ (enumerate (bands ++ shapes))) as [cs'|] eqn:Ecs in Hv; [|discriminate]. injection Hv as -> ->.
  destruct (chain_enum _ _ _ _ Ecs) as (vals & Hcomb & HLv & Hvals).
  assert (Hget : forall c, In c (bands ++ shapes) -> exists v, col cs c = Some v).
  { intros c Hc. apply In_nth_error in Hc as (j & Hj). rewrite Hcomb, (col_combine _ _ j) by auto.
    assert (j < List.length (bands ++ shapes)) by (apply nth_error_Some; congruence).
    destruct (Hvals j H) as (v & -> & _). eauto. }
  destruct (Hget _ Hra) as (a1 & ->). destruct (Hget _ Hdec) as (d1 & ->). eauto.
Qed.

(** get_sample_cat *)
Lemma sample_row_col it (r : Z * srow V) (c : chain_row V) r' : sample_row it r c = Some r' ->
  fst r' = c_index c /\ map fst (snd r') = map fst (snd r) /\
  forall d v, col (snd r) d = Some v ->
    match col (c_cols c) d with
    | None => col (snd r') d = Some v
    | Some samples => exists i, np_index (List.length samples) it = Some i /\ col (snd r') d = nth_error samples i
                               /\ nth_error samples i <> None
    end.
Proof.
  unfold sample_row. intros H. destruct (mapM _ (snd r)) as [cs|] eqn:E; [|discriminate]. injection H as <-.
  simpl. split; auto. revert cs E. induction (snd r) as [|[k x] t IH]; intros cs E; simpl in E.
  - injection E as <-. split; auto. intros d v Hd. discriminate.
  - match type of E with match ?a with _ => _ end = _ => destruct a as [kv|] eqn:E1 end; [|discriminate].
    destruct (mapM _ t) as [cs'|]; [|discriminate]. injection E as <-.
    destruct (IH cs' eq_refl) as [K1 K2].
    assert (Hk : fst kv = k).
    { simpl in E1. destruct (col (c_cols c) k) as [sm|]; [|now injection E1 as <-].
      destruct (np_index _ it); [|discriminate]. destruct (nth_error sm n); [|discriminate]. now injection E1 as <-. }
    split; [simpl; congruence|]. intros d v Hd. destruct kv as [k' x']. simpl in Hk. subst k'. simpl in Hd |- *.
    destruct (String.eqb_spec d k) as [->|Hne].
    + injection Hd as ->. simpl in E1. destruct (col (c_cols c) k) as [sm|]; [|now injection E1 as <-].
      destruct (np_index (List.length sm) it) as [i|]; [|discriminate]. exists i. split; auto.
      destruct (nth_error sm i); [|discriminate]. injection E1 as <-. split; auto. discriminate.
    + now apply K2.
Qed.

Lemma sample_row_total it (r : Z * srow V) (c : chain_row V) n :
  (forall d sm, col (c_cols c) d = Some sm -> List.length sm = n) -> (- Z.of_nat n <= it < Z.of_nat n)%Z ->
  exists r', sample_row it r c = Some r'.
Proof.
  intros Hn Hit. unfold sample_row.
  match goal with |- context [mapM ?f (snd r)] => destruct (mapM_total f (snd r)) as (cs & E) end.
  { intros [k x] _. simpl. destruct (col (c_cols c) k) as [sm|] eqn:Es; eauto.
    rewrite (Hn _ _ Es).
    assert (Hi : exists i, np_index n it = Some i).
    { unfold np_index. destruct ((0 <=? it) && (it <? Z.of_nat n))%Z eqn:E1; eauto.
      destruct ((- Z.of_nat n <=? it) && (it <? 0))%Z eqn:E2; eauto. lia. }
    destruct Hi as (i & Hi). rewrite Hi. apply np_index_Some in Hi.
    destruct (nth_error sm i) eqn:E; [simpl; eauto|]. apply nth_error_None in E. rewrite (Hn _ _ Es) in E. lia. }
  rewrite E. eauto.
Qed.
End Chain.

(** The parameter vector of a scene made from a catalog *)
Section FromCat.
Context {V : Type} (zero : V).
Lemma galaxy_from_row_spec bands r s : galaxy_from_row zero bands r = Some s ->
  s_kind s = Galaxy /\ filternames s = bands /\ fixed s = false /\ well_made s /\
  mapM (col r) (bands ++ SHAPE_COLS Galaxy) = Some (flux s ++ described_by s).
Proof.
  unfold galaxy_from_row. intros H.
  destruct (mapM (col r) bands) as [fl|] eqn:Ef; [|discriminate].
  destruct (col r "ra") as [ra|] eqn:E1; [|discriminate]. destruct (col r "dec") as [dec|] eqn:E2; [|discriminate].
  destruct (col r "q") as [q|] eqn:E3; [|discriminate]. destruct (col r "pa") as [pa|] eqn:E4; [|discriminate].
  destruct (col r "sersic") as [n|] eqn:E5; [|discriminate]. destruct (col r "rhalf") as [rh|] eqn:E6; [|discriminate].
  injection H as <-. simpl. repeat (split; [reflexivity|]). split.
  { unfold well_made. simpl. now apply mapM_nth in Ef. }
  assert (Happ : forall l1 l2 (v1 v2 : list V), mapM (col r) l1 = Some v1 -> mapM (col r) l2 = Some v2 -> mapM (col r) (l1 ++ l2) = Some (v1 ++ v2)).
  { induction l1 as [|x l1 IH]; intros l2 v1 v2 H1 H2; simpl in *.
    - now injection H1 as <-.
    - destruct (col r x); [|discriminate]. destruct (mapM (col r) l1) as [w|]; [|discriminate]. injection H1 as <-.
      now rewrite (IH l2 w v2). }
  apply Happ; auto. simpl. rewrite E1, E2, E3, E4, E5, E6. reflexivity.
Qed.

Lemma catalog_vector bands cat sc : cat <> [] -> scene_from_catalog zero bands cat = Some sc ->
  List.length sc = List.length cat /\
  exists Theta, get_all_source_params sc true = Some Theta /\
    List.length Theta = List.length cat * List.length (bands ++ SHAPE_COLS Galaxy) /\
    forall s r j c, nth_error cat s = Some r -> nth_error (bands ++ SHAPE_COLS Galaxy) j = Some c ->
      exists v, col r c = Some v /\ nth_error Theta (s * List.length (bands ++ SHAPE_COLS Galaxy) + j) = Some v.
Proof.
  intros Hne H. unfold scene_from_catalog in H. apply mapM_nth in H as [HL HN]. split; auto.
  set (w := List.length (bands ++ SHAPE_COLS Galaxy)).
  assert (Hback : forall s, In s sc -> exists r, galaxy_from_row zero bands r = Some s).
  { intros s Hs. apply In_nth_error in Hs as (i & Hi).
    assert (Hlt : i < List.length cat) by (rewrite <- HL; apply nth_error_Some; congruence).
    destruct (nth_error cat i) as [r|] eqn:Er; [|apply nth_error_None in Er; lia].
    destruct (HN _ _ Er) as (y & Hy & Hr). rewrite Hi in Hy. injection Hy as <-. eauto. }
  assert (Hact : active_sources sc = sc).
  { apply active_all. intros s Hs. destruct (Hback s Hs) as (r & Hr). now apply galaxy_from_row_spec in Hr. }
  exists (concat (map (fun s => flux s ++ described_by s) sc)).
  assert (Hf : Forall (fun l => List.length l = w) (map (fun s : source V => flux s ++ described_by s) sc)).
  { apply Forall_forall. intros l Hl. apply in_map_iff in Hl as (s & <- & Hs). destruct (Hback s Hs) as (r & Hr).
    apply galaxy_from_row_spec in Hr as (_ & _ & _ & _ & Hm). apply mapM_nth in Hm as [Hm _]. exact Hm. }
  split. { rewrite get_all_active; rewrite Hact; auto. destruct sc; [destruct cat; [congruence|discriminate]|discriminate]. }
  split.
  { rewrite <- HL, <- (map_length (fun s : source V => flux s ++ described_by s) sc). clear -Hf.
    induction Hf; simpl; auto. rewrite app_length. lia. }
  intros s r j c Hs Hj. destruct (HN _ _ Hs) as (y & Hy & Hr). apply galaxy_from_row_spec in Hr as (_ & _ & _ & _ & Hm).
  apply mapM_nth in Hm as [_ Hm]. destruct (Hm _ _ Hj) as (v & Hv & Hc). exists v. split; auto.
  rewrite (concat_nth_error_const w) by (auto; apply nth_error_Some; congruence).
  now rewrite nth_error_map, Hy.
Qed.
End FromCat.
