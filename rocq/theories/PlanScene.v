(** From the parameter vector to the likelihood and its gradient. *)
From Verif Require Import Np NpFacts KernelModel KernelSum SlowModel SlowProps SlowGrad SceneModel SceneSpec SceneFacts PlanModel PlanFacts.
From Coq Require Import Reals Lra.
Open Scope R_scope.

(** Position of a number in a list *)
Fixpoint where_is (k : nat) (l : list nat) : option nat :=
  match l with [] => None | a :: t => if Nat.eqb k a then Some 0%nat else option_map S (where_is k t) end.
Definition hit (k : nat) (inds : list nat) (row : list R) : R := match where_is k inds with Some p => nth p row 0 | None => 0 end.

Lemma where_is_Some k l p : where_is k l = Some p -> nth_error l p = Some k /\ (p < List.length l)%nat.
Proof.
  revert p. induction l as [|a l IH]; simpl; intros p H; [discriminate|]. destruct (Nat.eqb_spec k a) as [->|].
  - injection H as <-. simpl. split; auto. lia.
  - destruct (where_is k l) as [j|]; [|discriminate]. injection H as <-. destruct (IH j eq_refl). simpl. split; auto. lia.
Qed.
Lemma where_is_None k l : where_is k l = None -> ~ In k l.
Proof.
  induction l as [|a l IH]; simpl; intros H; [easy|]. destruct (Nat.eqb_spec k a) as [->|]; [discriminate|].
  destruct (where_is k l); [discriminate|]. intros [->|H']; [congruence|]. now apply IH.
Qed.
Lemma where_is_app k a b : where_is k (a ++ b) = match where_is k a with Some p => Some p | None => option_map (Nat.add (List.length a)) (where_is k b) end.
Proof.
  induction a as [|x a IH]; simpl; [now destruct (where_is k b)|]. destruct (Nat.eqb k x); auto. rewrite IH.
  destruct (where_is k a); simpl; auto. now destruct (where_is k b).
Qed.
Lemma where_is_In k l : In k l -> exists p, where_is k l = Some p.
Proof. intros H. destruct (where_is k l) eqn:E; eauto. apply where_is_None in E. contradiction. Qed.
Lemma where_is_notin k l : ~ In k l -> where_is k l = None.
Proof. intros H. destruct (where_is k l) eqn:E; auto. apply where_is_Some in E as [E _]. apply nth_error_In in E. contradiction. Qed.
Lemma hit_app k a b u v : NoDup (a ++ b) -> List.length a = List.length u ->
  hit k (a ++ b) (u ++ v) = hit k a u + hit k b v.
Proof.
  intros HN HL. unfold hit. rewrite where_is_app. apply NoDup_app_iff in HN as (_ & _ & HD). destruct (where_is k a) as [p|] eqn:Ea.
  - destruct (where_is_Some _ _ _ Ea) as [E Hp]. apply nth_error_In in E. rewrite (where_is_notin k b) by (now apply HD). rewrite app_nth1 by lia. ring.
  - destruct (where_is k b) as [p|]; simpl; [|ring]. rewrite app_nth2 by lia. replace (List.length a + p - List.length u)%nat with p by lia. ring.
Qed.
Lemma hit_firstn k inds row n : (List.length inds <= n)%nat -> hit k inds (firstn n row) = hit k inds row.
Proof.
  intros H. unfold hit. destruct (where_is k inds) as [p|] eqn:E; auto. apply where_is_Some in E as [_ E].
  destruct (le_lt_dec (List.length row) p).
  - rewrite !nth_overflow; auto. rewrite firstn_length. lia.
  - assert (Hf : nth_error (firstn n row) p = nth_error row p).
    { clear - E H. assert (Hpn : (p < n)%nat) by lia. clear E H. revert p row Hpn. induction n as [|n IH]; intros p row Hpn; [lia|].
      destruct row as [|x row]; auto. destruct p as [|p]; auto. simpl. apply IH. lia. }
    rewrite (nth_error_nth' row 0) in Hf by auto. now apply nth_error_nth with (d := 0) in Hf.
Qed.
Lemma upd_nth (l : list R) i j x : nth j (upd i x l) 0 = if Nat.eqb i j then (if Nat.ltb j (List.length l) then x else 0) else nth j l 0.
Proof.
  pose proof (nth_error_upd i x l j) as H. destruct (Nat.eqb i j).
  - destruct (Nat.ltb j (List.length l)) eqn:E.
    + now apply nth_error_nth with (d := 0) in H.
    + apply nth_overflow. rewrite upd_length. apply Nat.ltb_ge in E. auto.
  - destruct (nth_error l j) eqn:E.
    + apply nth_error_nth with (d := 0) in H. apply nth_error_nth with (d := 0) in E. congruence.
    + apply nth_error_None in E. rewrite !nth_overflow; auto. rewrite upd_length. auto.
Qed.

(** add_at *)
Lemma fold_add base inds : forall vals g, NoDup inds -> List.length inds = List.length vals -> (forall i, In i inds -> (i < List.length g)%nat) ->
  let r := fold_left (fun g iv => upd (fst iv) (nth (fst iv) base 0 + snd iv) g) (combine inds vals) g in
  List.length r = List.length g /\
  forall k, nth k r 0 = match where_is k inds with Some p => nth k base 0 + nth p vals 0 | None => nth k g 0 end.
Proof.
  induction inds as [|i inds IH]; intros vals g HN HL Hr; [now split|]. destruct vals as [|v vals]; [discriminate|].
  inversion HN; subst. cbn [combine fold_left fst snd].
  destruct (IH vals (upd i (nth i base 0 + v) g)) as [H3 H4]; auto.
  { intros j Hj. rewrite upd_length. apply Hr. simpl; auto. }
  cbv zeta in *. split; [rewrite H3; apply upd_length|]. intros k. rewrite H4. cbn [where_is]. destruct (Nat.eqb_spec k i) as [->|Hne].
  - rewrite where_is_notin by auto. rewrite upd_nth, Nat.eqb_refl. destruct (Nat.ltb_spec i (List.length g)) as [|Hge]; [reflexivity|].
    specialize (Hr i (or_introl eq_refl)). lia.
  - destruct (where_is k inds); auto. simpl. rewrite upd_nth. destruct (Nat.eqb_spec i k); [congruence|reflexivity].
Qed.
Lemma add_at_ok grad inds vals : NoDup inds -> List.length inds = List.length vals -> (forall i, In i inds -> (i < List.length grad)%nat) ->
  exists grad', add_at grad inds vals = Some grad' /\ List.length grad' = List.length grad /\
    forall k, nth k grad' 0 = nth k grad 0 + hit k inds vals.
Proof.
  intros HN HL Hr. unfold add_at. rewrite HL, Nat.eqb_refl. cbn [negb].
  assert (Hb : forallb (fun i => Nat.ltb i (List.length grad)) inds = true).
  { apply forallb_forall. intros i Hi. apply Nat.ltb_lt. auto. }
  rewrite Hb. destruct (fold_add grad inds vals grad HN HL Hr) as [H1 H2]. cbv zeta in *. eexists. split; [reflexivity|]. split; [exact H1|].
  intros k. rewrite H2. unfold hit. destruct (where_is k inds); ring.
Qed.
Lemma nodupb_ok l : NoDup l -> nodupb l = true.
Proof.
  induction 1 as [|a l H HN IH]; auto. simpl. rewrite IH, andb_true_r. apply negb_true_iff. apply not_true_is_false. intros E.
  apply existsb_exists in E as (b & Hb & E). apply Nat.eqb_eq in E. subst. contradiction.
Qed.

Section Scene.
Context (gal_radii : list R) (amps dan dar : R -> R -> list R) (simple_radii : list R) (qf paf : R -> R -> R).

(** What a class reads: its radii, amplitudes and their derivatives *)
Definition class_radii (k : kind) : list R := match k with Star => [0] | SimpleGalaxy => simple_radii | _ => gal_radii end.
Definition class_amps (k : kind) (n r : R) : list R := match k with Star | SimpleGalaxy => equal_parts (class_radii k) | _ => amps n r end.
Definition class_dan (k : kind) (n r : R) : list R := match k with Star | SimpleGalaxy => zeros_like (class_radii k) | _ => dan n r end.
Definition class_dar (k : kind) (n r : R) : list R := match k with Star | SimpleGalaxy => zeros_like (class_radii k) | _ => dar n r end.
Definition class_src (k : kind) : list R -> slow_source := src_row (class_radii k) (class_amps k) (class_dan k) (class_dar k).
(** The seven attributes of a source seen in a band *)
Definition band (s : source R) (f : string) : nat := match index_of f (filternames s) with Some k => k | None => 0%nat end.
Definition attributes (s : source R) (f : string) : list R :=
  [nth (band s f) (flux s) 0; s_ra s; s_dec s; s_q s; s_pa s; s_sersic s; s_rhalf s].
Definition plain_kind (k : kind) : Prop := match k with Galaxy | GalaxyNS | Star | SimpleGalaxy => True | _ => False end.

Lemma class_fit k : tables_fit gal_radii amps dan dar -> tables_fit (class_radii k) (class_amps k) (class_dan k) (class_dar k).
Proof.
  intros HT n r. unfold class_amps, class_dan, class_dar, equal_parts, zeros_like. destruct k; cbn [class_radii]; rewrite ?map_length; auto.
Qed.
Lemma slow_of_class s f : well_made s -> plain_kind (s_kind s) -> In f (filternames s) ->
  slow_of gal_radii amps dan dar simple_radii qf paf s f = Some (class_src (s_kind s) (attributes s f)).
Proof.
  intros Hw Hk Hf. destruct (index_of_In _ _ Hf) as (k & Ek). destruct (index_of_nth _ _ _ Ek) as [_ Hlt].
  assert (HF : stamp_flux s f = Some (nth (band s f) (flux s) 0)).
  { unfold stamp_flux, filter_index, band. rewrite Ek. unfold well_made in Hw. rewrite <- Hw in Hlt.
    destruct (Nat.eqb_spec (List.length (flux s)) 1); [replace k with 0%nat by lia|]; apply nth_error_nth'; lia. }
  unfold slow_of. rewrite HF. unfold class_src, src_row, class_amps, class_dan, class_dar, attributes. destruct (s_kind s); try contradiction; reflexivity.
Qed.

(** Where the parameters of every source are, from an offset on *)
Record blk := mkBlk { b_kind : kind; b_inds : list nat; b_rest : list R }.
Definition rest_of (s : source R) : list R := firstn (6 - List.length (described_by s)) (not_described_by s).
Definition inds_of (start : nat) (s : source R) (f : string) : list nat :=
  (start + band s f)%nat :: seq (start + List.length (filternames s)) (List.length (described_by s)).
Fixpoint blocks (start : nat) (sc : list (source R)) (f : string) : list blk :=
  match sc with
  | [] => []
  | s :: t => mkBlk (s_kind s) (inds_of start s f) (rest_of s) :: blocks (start + size s) t f
  end.
Definition rowT (Theta : list R) (b : blk) : list R := map (fun i => nth i Theta 0) (b_inds b) ++ b_rest b.

Definition good (f : string) (s : source R) : Prop :=
  well_made s /\ plain_kind (s_kind s) /\ fixed s = false /\ In f (filternames s).

Lemma described_kind (s s' : source R) : s_kind s' = s_kind s -> List.length (described_by s') = List.length (described_by s).
Proof. intros H. unfold described_by. rewrite H. destruct (s_kind s); reflexivity. Qed.
Lemma good_row s f start Theta s' : good f s -> (start + size s <= List.length Theta)%nat ->
  flux s' ++ described_by s' = py_slice Theta start (start + size s) -> same_object s s' -> well_made s' ->
  attributes s' f = rowT Theta (mkBlk (s_kind s) (inds_of start s f) (rest_of s)).
Proof.
  intros (Hw & Hk & Hfx & Hf) HL E (O1 & O2 & O3 & O4) Hw'.
  destruct (index_of_In _ _ Hf) as (k & Ek). destruct (index_of_nth _ _ _ Ek) as [_ Hlt].
  assert (G : forall j, (j < size s)%nat -> nth j (flux s' ++ described_by s') 0 = nth (start + j) Theta 0).
  { intros j Hj. rewrite E. unfold py_slice. replace (start + size s - start)%nat with (size s) by lia.
    apply nth_error_nth. rewrite nth_error_firstn by auto. rewrite nth_error_skipn. apply nth_error_nth'. lia. }
  unfold rowT. cbn [b_inds b_rest]. unfold inds_of. cbn [map]. unfold attributes.
  assert (Hb : band s' f = k) by (unfold band; rewrite O2, Ek; reflexivity).
  assert (Hb' : band s f = k) by (unfold band; now rewrite Ek). rewrite Hb, Hb'.
  assert (Hfl : List.length (flux s') = List.length (filternames s)) by (unfold well_made in Hw'; congruence).
  cbn [app]. f_equal.
  - rewrite <- (G k) by (unfold size; lia). rewrite app_nth1 by lia. reflexivity.
  - assert (D : map (fun i => nth i Theta 0) (seq (start + List.length (filternames s)) (List.length (described_by s))) = described_by s').
    { apply (nth_ext _ _ 0 0); [rewrite map_length, seq_length; symmetry; now apply described_kind|].
      intros j Hj. rewrite map_length, seq_length in Hj. rewrite (nth_indep _ 0 (nth 0%nat Theta 0)) by (rewrite map_length, seq_length; auto).
      rewrite map_nth with (f := fun i => nth i Theta 0), seq_nth by auto. rewrite <- Nat.add_assoc, <- G by (unfold size; lia).
      rewrite app_nth2 by lia. f_equal. lia. }
    rewrite D. unfold rest_of. rewrite <- O4. unfold described_by, not_described_by. rewrite O1. destruct (s_kind s); try contradiction; reflexivity.
Qed.
Lemma plain_not_base k : plain_kind k -> k <> BaseSource.
Proof. intros H ->. exact H. Qed.
Lemma set_blocks sc f : forall start Theta, List.Forall (good f) sc -> (start + list_sum (map size sc) <= List.length Theta)%nat ->
  exists sc', set_all_from start sc Theta = Some sc' /\ Forall2 (fun s s' => same_object s s' /\ well_made s') sc sc' /\
    Forall2 (fun s' b => attributes s' f = rowT Theta b) sc' (blocks start sc f).
Proof.
  induction sc as [|s sc IH]; intros start Theta HG HL.
  - exists []. simpl. repeat split; constructor.
  - inversion HG as [|? ? G1 G2]; subst. destruct G1 as (Hw & Hk & Hfx & Hf). cbn [map list_sum fold_right] in HL.
    change (fold_right Nat.add 0%nat (map size sc)) with (list_sum (map size sc)) in HL.
    cbn [set_all_from]. rewrite Hfx, (n_params_size s (plain_not_base _ Hk)).
    destruct (set_params_ok s (py_slice Theta start (start + size s)) Hw) as (s' & K1 & K2 & K3 & K4).
    { rewrite py_slice_length. unfold size in *. lia. }
    rewrite K1. destruct (IH (start + size s)%nat Theta G2 ltac:(lia)) as (sc' & H1 & H2 & H3). rewrite H1.
    exists (s' :: sc'). split; [reflexivity|]. split; [constructor; auto|]. cbn [blocks]. constructor; auto.
    apply good_row; auto. repeat split; auto. lia.
Qed.
Lemma blocks_same f : forall sc sc' start, Forall2 (fun s s' => same_object s s' /\ well_made s') sc sc' -> blocks start sc' f = blocks start sc f.
Proof.
  induction sc as [|s sc IH]; intros sc' start H; inversion H as [|? s' ? ? ((O1 & O2 & O3 & O4) & _) H2]; subst; auto.
  cbn [blocks]. assert (Hd := described_kind s s' O1).
  assert (Hs : size s' = size s) by (unfold size; rewrite O2, Hd; reflexivity). rewrite Hs, IH by auto. f_equal.
  unfold inds_of, rest_of, band. rewrite O1, O2, O4, Hd. reflexivity.
Qed.

(** Indices *)
Lemma blocks_range f : forall sc start b i, List.Forall (good f) sc -> In b (blocks start sc f) -> In i (b_inds b) ->
  (start <= i < start + list_sum (map size sc))%nat.
Proof.
  induction sc as [|s sc IH]; intros start b i HG Hb Hi; [easy|]. inversion HG as [|? ? (Hw & Hk & Hfx & Hf) G2]; subst.
  cbn [map]. change (list_sum (size s :: map size sc)) with (size s + list_sum (map size sc))%nat. destruct Hb as [<-|Hb].
  - cbn [b_inds] in Hi. unfold inds_of in Hi. destruct (index_of_In _ _ Hf) as (k & Ek). destruct (index_of_nth _ _ _ Ek) as [_ Hlt].
    unfold band in Hi. rewrite Ek in Hi. unfold size. destruct Hi as [<-|Hi]; [lia|]. apply in_seq in Hi. lia.
  - specialize (IH _ _ _ G2 Hb Hi). lia.
Qed.
Lemma blocks_nodup f : forall sc start, List.Forall (good f) sc -> NoDup (concat (map b_inds (blocks start sc f))).
Proof.
  induction sc as [|s sc IH]; intros start HG; [constructor|]. inversion HG as [|? ? G1 G2]; subst. cbn [blocks map concat b_inds].
  apply NoDup_app_iff. split; [|split; [now apply IH|]].
  - unfold inds_of. constructor; [|apply seq_NoDup]. rewrite in_seq. destruct G1 as (_ & _ & _ & Hf).
    destruct (index_of_In _ _ Hf) as (k & Ek). destruct (index_of_nth _ _ _ Ek) as [_ Hlt]. unfold band. rewrite Ek. lia.
  - intros i Hi Hc. assert (R1 : (start <= i < start + size s)%nat).
    { assert (G : List.Forall (good f) [s]) by (constructor; auto).
      pose proof (blocks_range f [s] start (mkBlk (s_kind s) (inds_of start s f) (rest_of s)) i G (or_introl eq_refl) Hi) as Hr. simpl in Hr. lia. }
    apply in_concat in Hc as (l & Hl & Hc). apply in_map_iff in Hl as (b & <- & Hb). pose proof (blocks_range f sc _ b i G2 Hb Hc). lia.
Qed.
Lemma blocks_len f : forall sc start b, List.Forall (good f) sc -> In b (blocks start sc f) -> List.length (rowT [] b) = 7%nat.
Proof.
  induction sc as [|s sc IH]; intros start b HG Hb; [easy|]. inversion HG as [|? ? (_ & Hk & _) G2]; subst. destruct Hb as [<-|Hb]; [|eapply IH; eauto].
  unfold rowT. cbn [b_inds b_rest]. unfold inds_of, rest_of. rewrite app_length, map_length. cbn [List.length]. rewrite seq_length.
  unfold described_by, not_described_by. destruct (s_kind s); try contradiction; reflexivity.
Qed.
Lemma rowT_len Theta Theta' b : List.length (rowT Theta b) = List.length (rowT Theta' b).
Proof. unfold rowT. now rewrite !app_length, !map_length. Qed.

(** plan_sources *)
Definition gig_of (p : plan) (s : source R) : gig := convert_to_gaussians (class_src (s_kind s) (attributes s (pl_filter p))) (pl_stamp p).
Fixpoint grads_from (i : nat) (rest : list (source R)) : list nat :=
  match rest with [] => [] | s :: t => seq (i * 7) (S (List.length (described_by s))) ++ grads_from (S i) t end.
Lemma seq_firstn n : forall a m, (n <= m)%nat -> firstn n (seq a m) = seq a n.
Proof. induction n as [|n IH]; intros a m H; auto. destruct m; [lia|]. simpl. f_equal. apply IH. lia. Qed.
Lemma loop_ok p rest : forall pre, List.Forall (good (pl_filter p)) (pre ++ rest) -> (forall s, (1 < coverage p s)%Z) ->
  plan_loop gal_radii amps dan dar simple_radii qf paf p (pre ++ rest) (List.length pre) (List.length pre) rest =
  Some (map (gig_of p) rest, [], concat (map b_inds (blocks (list_sum (map size pre)) rest (pl_filter p))), grads_from (List.length pre) rest).
Proof.
  induction rest as [|s rest IH]; intros pre HG Hc; auto. cbn [plan_loop].
  assert (HGs : good (pl_filter p) s) by (rewrite List.Forall_forall in HG; apply HG, in_or_app; right; left; auto).
  destruct HGs as (Hw & Hk & Hfx & Hf).
  destruct (Z.leb_spec (coverage p s) 0); [specialize (Hc s); lia|]. rewrite slow_of_class by auto.
  destruct (Z.eqb_spec (coverage p s) 1); [specialize (Hc s); lia|].
  assert (HP : param_indices (pre ++ s :: rest) (List.length pre) (pl_filter p) = Some (inds_of (list_sum (map size pre)) s (pl_filter p))).
  { unfold param_indices. rewrite nth_error_app2, Nat.sub_diag by lia. cbn [nth_error].
    rewrite active_all by (intros x Hx; rewrite List.Forall_forall in HG; apply (HG x Hx)).
    rewrite firstn_app, Nat.sub_diag, firstn_all, app_nil_r. rewrite fold_add_sum. simpl (0 + _)%nat.
    assert (HM : map n_params pre = map size pre).
    { apply map_ext_in. intros x Hx. apply n_params_size. rewrite List.Forall_forall in HG.
      destruct (HG x) as (_ & Hx' & _); [apply in_or_app; auto|]. now apply plain_not_base. }
    rewrite HM. unfold filter_index, inds_of, band. destruct (index_of_In _ _ Hf) as (k & Ek). rewrite Ek. f_equal. f_equal.
    rewrite (n_params_size s (plain_not_base _ Hk)). unfold size, n_bands. f_equal. lia. }
  rewrite HP. specialize (IH (pre ++ [s])). rewrite <- app_assoc in IH. cbn [app] in IH. specialize (IH HG Hc).
  rewrite app_length in IH. cbn [List.length] in IH. rewrite Nat.add_1_r in IH. rewrite IH.
  cbn [map concat blocks b_inds grads_from]. rewrite map_app, list_sum_app. cbn [map list_sum fold_right]. rewrite Nat.add_0_r.
  assert (HGI : grad_indices (List.length pre) s = seq (List.length pre * 7) (S (List.length (described_by s)))).
  { unfold grad_indices, NDERIV. rewrite seq_firstn.
    - f_equal. unfold npos, nshape, described_by. destruct (s_kind s); try contradiction; reflexivity.
    - unfold npos, nshape. destruct (s_kind s); simpl; lia. }
  rewrite HGI. reflexivity.
Qed.

(** flat[grad_inds] *)
Fixpoint cut (g : list (list R)) (rest : list (source R)) : list R :=
  match g, rest with r :: g, s :: rest => firstn (S (List.length (described_by s))) r ++ cut g rest | _, _ => [] end.
Lemma mapM_app {A B} (f : A -> option B) l m x y : mapM f l = Some x -> mapM f m = Some y -> mapM f (l ++ m) = Some (x ++ y).
Proof.
  revert x. induction l as [|a l IH]; simpl; intros x H1 H2; [injection H1 as <-; auto|].
  destruct (f a); [|discriminate]. destruct (mapM f l) as [z|]; [|discriminate]. injection H1 as <-. rewrite (IH z eq_refl H2). reflexivity.
Qed.
Lemma described_le6 (s : source R) : (S (List.length (described_by s)) <= 7)%nat.
Proof. unfold described_by. destruct (s_kind s); simpl; lia. Qed.
Lemma concat_seven (l : list (list R)) : List.Forall (fun r => List.length r = 7%nat) l -> List.length (concat l) = (List.length l * 7)%nat.
Proof. induction 1; simpl; auto. rewrite app_length. lia. Qed.
Lemma flat_ok rest : forall pre g, List.Forall (fun r => List.length r = 7%nat) (pre ++ g) -> List.length g = List.length rest ->
  mapM (nth_error (concat (pre ++ g))) (grads_from (List.length pre) rest) = Some (cut g rest).
Proof.
  induction rest as [|s rest IH]; intros pre g HF HL; destruct g as [|r g]; try discriminate; auto.
  cbn [grads_from cut]. apply mapM_app.
  - assert (Hp : List.Forall (fun r => List.length r = 7%nat) pre) by (apply List.Forall_forall; rewrite List.Forall_forall in HF; intros; apply HF, in_or_app; auto).
    assert (Hr : List.length r = 7%nat) by (rewrite List.Forall_forall in HF; apply HF, in_or_app; right; left; auto).
    rewrite mapM_seq_slice.
    + f_equal. rewrite concat_app. cbn [concat]. rewrite skipn_app, (concat_seven pre Hp), Nat.sub_diag.
      rewrite skipn_all2 by (rewrite concat_seven; auto). cbn [app skipn]. rewrite firstn_app.
      replace (S (List.length (described_by s)) - List.length r)%nat with 0%nat by (pose proof (described_le6 s); lia).
      cbn [firstn]. apply app_nil_r.
    + rewrite concat_app, app_length, (concat_seven pre Hp). cbn [concat]. rewrite app_length, Hr. pose proof (described_le6 s). lia.
  - specialize (IH (pre ++ [r]) g). rewrite <- app_assoc in IH. cbn [app] in IH. rewrite app_length in IH. cbn [List.length] in IH.
    rewrite Nat.add_1_r in IH. apply IH; auto.
Qed.
Lemma cut_len f : forall rest g start, List.Forall (fun r => List.length r = 7%nat) g -> List.length g = List.length rest ->
  List.length (concat (map b_inds (blocks start rest f))) = List.length (cut g rest).
Proof.
  induction rest as [|s rest IH]; intros g start HF HL; destruct g as [|r g]; try discriminate; auto. inversion HF; subst.
  cbn [blocks map concat cut b_inds]. rewrite !app_length. rewrite (IH g) by auto. f_equal. unfold inds_of. cbn [List.length]. rewrite seq_length, firstn_length.
  pose proof (described_le6 s). lia.
Qed.
Lemma hit_cut f k (h : source R -> list R) : (forall s, List.length (h s) = 7%nat) -> forall rest start, List.Forall (good f) rest ->
  hit k (concat (map b_inds (blocks start rest f))) (cut (map h rest) rest) =
  sumR (fun sb => hit k (b_inds (snd sb)) (h (fst sb))) (combine rest (blocks start rest f)).
Proof.
  intros Hh. induction rest as [|s rest IH]; intros start HG; [reflexivity|].
  pose proof (blocks_nodup f (s :: rest) start HG) as HN. inversion HG as [|? ? G1 G2]; subst.
  cbn [blocks map concat cut b_inds combine] in *. rewrite sumR_cons, hit_app; auto.
  - rewrite IH by auto. cbn [fst snd b_inds]. f_equal. apply hit_firstn. unfold inds_of. cbn [List.length]. rewrite seq_length. lia.
  - unfold inds_of. cbn [List.length]. rewrite seq_length, firstn_length, Hh. pose proof (described_le6 s). lia.
Qed.
End Scene.
