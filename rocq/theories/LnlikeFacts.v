From Verif Require Import Np NpFacts SceneModel SceneSpec SceneFacts StackFacts LnlikeModel.
From Coq Require Import Reals Lra.
Open Scope nat_scope.

Definition fast_galaxies (nb : nat) (sc : list (source R)) : Prop :=
  Forall (fun s => s_kind s = Galaxy /\ fixed s = false /\ List.length (filternames s) = nb /\ well_made s) sc.

(** Where the kernel's parameter [p] of source [s] in band [b] sits in theta. *)
Definition pos (nb b s p : nat) : nat :=
  s * (nb + 6) + match p with O => b | S p' => nb + p' end.
Definition view (nb ns b : nat) (theta : list R) : list (list R) :=
  map (fun s => map (fun p => nth (pos nb b s p) theta 0%R) (seq 0 7)) (seq 0 ns).

Lemma Forall2_len {A B} (P : A -> B -> Prop) l l' : Forall2 P l l' -> List.length l = List.length l'.
Proof. intros H. induction H; simpl; auto. Qed.

Section L.
Context (amps : R -> R -> list R) (qf paf : R -> R -> R) (nb : nat).

Lemma galaxies_offset sc i : fast_galaxies nb sc -> i <= List.length sc -> offset sc i = i * (nb + 6).
Proof.
  intros H. revert i. induction H as [|s sc (H1 & H2 & H3 & H4) Hf IH]; intros [|i] Hi; simpl in Hi; try (cbn; lia); auto.
  rewrite offset_cons, H2, IH by lia. unfold size, described_by. rewrite H1, H3. simpl. lia.
Qed.

Lemma nth_error_list_ext {A} (d : A) (l l' : list A) : List.length l = List.length l' ->
  (forall i, i < List.length l -> nth i l d = nth i l' d) -> l = l'.
Proof. intros. now apply (nth_ext l l' d d). Qed.

Lemma proposal_view sc theta : fast_galaxies nb sc -> sc <> [] -> nb <= 30 ->
  List.length theta = List.length sc * (nb + 6) ->
  exists ps, proposal_of amps qf paf sc theta = Some ps /\
    forall b, b < nb -> map (kernel_row b) ps = view nb (List.length sc) b theta.
Proof.
  intros Hg Hne Hnb HL.
  assert (Hw : Forall well_made sc) by (eapply Forall_impl; [|exact Hg]; simpl; tauto).
  assert (Hk : Forall (fun s => s_kind s <> BaseSource) sc).
  { eapply Forall_impl; [|exact Hg]. simpl. intros a (-> & _). discriminate. }
  destruct (set_all_ok sc 0 theta Hw Hk) as (sc' & H1 & H2 & H3 & _).
  { unfold total. rewrite galaxies_offset by auto. simpl. lia. }
  assert (HLsc : List.length sc' = List.length sc) by (symmetry; eapply Forall2_len; eauto).
  assert (Hall : forall i s', nth_error sc' i = Some s' ->
     s_kind s' = Galaxy /\ fixed s' = false /\ List.length (filternames s') = nb /\
     flux s' ++ described_by s' = firstn (nb + 6) (skipn (i * (nb + 6)) theta)).
  { intros i s' Hs'. assert (Hi : i < List.length sc) by (rewrite <- HLsc; apply nth_error_Some; congruence).
    destruct (nth_error sc i) as [s|] eqn:Hs; [|apply nth_error_None in Hs; lia].
    pose proof Hg as Hg'. unfold fast_galaxies in Hg'. rewrite Forall_forall in Hg'.
    destruct (Hg' s (nth_error_In _ _ Hs)) as (E1 & E2 & E3 & E4).
    assert (Hso : same_object s s').
    { clear -H2 Hs Hs'. revert i Hs Hs'. induction H2 as [|a a' l l' (Ha & _) Hl IH]; intros [|i] Hs Hs'; simpl in *; try discriminate.
      - congruence. - eauto. }
    destruct Hso as (K1 & K2 & K3 & _). split; [congruence|]. split; [congruence|]. split; [congruence|].
    rewrite (H3 i s s' Hs Hs' E2). simpl. rewrite galaxies_offset by (auto; lia).
    unfold size, described_by. rewrite E1, E3. reflexivity. }
  unfold proposal_of, set_all_source_params. rewrite H1. unfold get_proposal.
  assert (Hact : active_sources sc' = sc').
  { apply active_all. intros s Hs. apply In_nth_error in Hs as (i & Hi). now apply Hall in Hi. }
  rewrite Hact.
  pose (mk := fun s : source R => mkProp (flux s) (s_ra s) (s_dec s) (s_q s) (s_pa s) (s_sersic s) (s_rhalf s)
                                     (amps (s_sersic s) (s_rhalf s))).
  assert (Hm : mapM (proposal qf paf amps) sc' = Some (map mk sc')).
  { clear -Hall Hnb. assert (Hp : forall s, In s sc' -> proposal qf paf amps s = Some (mk s)).
    { intros s Hs. apply In_nth_error in Hs as (i & Hi). destruct (Hall _ _ Hi) as (E1 & _ & E3 & _).
      unfold proposal, n_bands. rewrite E1, E3. unfold MAXBANDS. destruct (Nat.leb_spec nb 30); [reflexivity|lia]. }
    clear Hall. induction sc' as [|s l IH]; simpl; auto. rewrite Hp by (simpl; auto). rewrite IH; auto.
    intros; apply Hp; simpl; auto. }
  exists (map mk sc'). split.
  { destruct sc' as [|s0 t]; [destruct sc; [congruence|discriminate]|]. exact Hm. }
  intros b Hb. unfold view. rewrite map_map. apply (nth_error_list_ext []).
  { rewrite !map_length, seq_length. exact HLsc. }
  intros i Hi. rewrite map_length in Hi.
  destruct (nth_error sc' i) as [s'|] eqn:Hs'; [|apply nth_error_None in Hs'; lia].
  destruct (Hall _ _ Hs') as (E1 & E2 & E3 & E4).
  rewrite nth_indep with (d' := kernel_row b (mk s')) by (now rewrite map_length).
  rewrite (map_nth (fun x => kernel_row b (mk x))). rewrite (nth_error_nth _ _ s' Hs').
  rewrite nth_indep with (d' := (fun s => map (fun p => nth (pos nb b s p) theta 0%R) (seq 0 7)) i)
    by (rewrite map_length, seq_length; lia).
  rewrite (map_nth (fun s => map (fun p => nth (pos nb b s p) theta 0%R) (seq 0 7))).
  rewrite seq_nth by lia. simpl plus.
  assert (Hslice : forall j, j < nb + 6 -> nth (i * (nb + 6) + j) theta 0%R = nth j (flux s' ++ described_by s') 0%R).
  { intros j Hj. rewrite E4. clear -Hj.
    assert (Hgen : forall (l : list R) a n j, j < n -> nth j (firstn n (skipn a l)) 0%R = nth (a + j) l 0%R).
    { clear. intros l a n. revert l a. induction n as [|n IH]; intros l a j Hj; [lia|].
      assert (Hs : nth j (firstn (S n) (skipn a l)) 0%R = nth j (skipn a l) 0%R).
      { destruct (le_lt_dec (List.length (skipn a l)) (S n)) as [Hle|Hgt].
        - now rewrite firstn_all2.
        - rewrite <- (firstn_skipn (S n) (skipn a l)) at 2. rewrite app_nth1; auto. rewrite firstn_length. lia. }
      rewrite Hs. clear. revert l. induction a as [|a IH]; intros [|x l]; simpl; auto. now destruct j. }
    symmetry. now apply Hgen. }
  assert (HLf : List.length (flux s') = nb).
  { assert (Hl := f_equal (@List.length R) E4). rewrite app_length, firstn_length, skipn_length, HL in Hl.
    unfold described_by in Hl. rewrite E1 in Hl. simpl in Hl.
    assert (i * (nb + 6) + (nb + 6) <= List.length sc * (nb + 6)).
    { replace (i * (nb + 6) + (nb + 6)) with (S i * (nb + 6)) by lia. apply Nat.mul_le_mono_r. lia. }
    lia. }
  unfold kernel_row, mk. simpl p_fluxes. simpl p_ra. simpl. unfold pos.
  rewrite !Hslice by lia.
  assert (Hfl : nth b (flux s' ++ described_by s') 0%R = nth b (flux s') 0%R) by (apply app_nth1; lia).
  rewrite Hfl.
  assert (Hsh : forall p, nth (nb + p) (flux s' ++ described_by s') 0%R = nth p (described_by s') 0%R).
  { intros p. rewrite app_nth2 by lia. f_equal. lia. }
  rewrite !Hsh. unfold described_by. rewrite E1. reflexivity.
Qed.

(** ** Updating one entry of theta *)
Lemma nth_updR (l : list R) i x j : i < List.length l ->
  nth j (upd i x l) 0%R = if Nat.eqb i j then x else nth j l 0%R.
Proof. apply (nth_upd 0%R). Qed.

Lemma pos_bound ns b s p : s < ns -> b < nb -> p < 7 -> pos nb b s p < ns * (nb + 6).
Proof.
  intros Hs Hb Hp. unfold pos.
  assert (s * (nb + 6) + (nb + 6) <= ns * (nb + 6)).
  { replace (s * (nb + 6) + (nb + 6)) with (S s * (nb + 6)) by lia. apply Nat.mul_le_mono_r. lia. }
  destruct p; lia.
Qed.
Lemma pos_eq b s p s0 j : b < nb -> p < 7 -> j < nb + 6 ->
  (pos nb b s p = s0 * (nb + 6) + j <-> s = s0 /\ match p with O => b | S p' => nb + p' end = j).
Proof.
  intros Hb Hp Hj. unfold pos. set (r := match p with O => b | S p' => nb + p' end).
  assert (Hr : r < nb + 6) by (unfold r; destruct p; lia).
  split; [|intros [-> ->]; reflexivity]. intros E.
  assert (s = s0).
  { assert (Hdiv : forall a r, r < nb + 6 -> (a * (nb + 6) + r) / (nb + 6) = a).
    { intros a r' Hr'. rewrite Nat.div_add_l by lia. rewrite Nat.div_small by auto. lia. }
    rewrite <- (Hdiv s r Hr), <- (Hdiv s0 j Hj). now rewrite E. }
  subst. lia.
Qed.

Lemma list_map_seq_upd {A} (f : nat -> A) n i x :
  i < n -> upd i x (map f (seq 0 n)) = map (fun k => if Nat.eqb k i then x else f k) (seq 0 n).
Proof.
  intros Hi. apply nth_error_ext. intros k. rewrite nth_error_upd, !nth_error_map, map_length, seq_length.
  destruct (lt_dec k n) as [Hk|Hk].
  - assert (Hsk : nth_error (seq 0 n) k = Some k).
    { rewrite nth_error_nth' with (d := 0) by (rewrite seq_length; lia). now rewrite seq_nth. }
    rewrite Hsk. simpl. destruct (Nat.eqb_spec k i) as [->|].
    + rewrite Nat.eqb_refl. destruct (Nat.ltb_spec i n); [reflexivity|lia].
    + destruct (Nat.eqb_spec i k); [lia|reflexivity].
  - assert (Hsk : nth_error (seq 0 n) k = None) by (apply nth_error_None; rewrite seq_length; lia).
    rewrite Hsk. simpl. destruct (Nat.eqb_spec i k); [lia|reflexivity].
Qed.
Lemma view_row ns b theta s : s < ns -> nth s (view nb ns b theta) [] = map (fun p => nth (pos nb b s p) theta 0%R) (seq 0 7).
Proof.
  intros Hs. unfold view.
  rewrite nth_indep with (d' := (fun s => map (fun p => nth (pos nb b s p) theta 0%R) (seq 0 7)) 0)
    by (rewrite map_length, seq_length; lia).
  rewrite (map_nth (fun s => map (fun p => nth (pos nb b s p) theta 0%R) (seq 0 7))). now rewrite seq_nth by lia.
Qed.
Lemma view_entry ns b theta s p : s < ns -> p < 7 -> nth p (nth s (view nb ns b theta) []) 0%R = nth (pos nb b s p) theta 0%R.
Proof.
  intros Hs Hp. rewrite view_row by auto.
  rewrite nth_indep with (d' := (fun p => nth (pos nb b s p) theta 0%R) 0) by (rewrite map_length, seq_length; lia).
  rewrite (map_nth (fun p => nth (pos nb b s p) theta 0%R)). now rewrite seq_nth by lia.
Qed.

(** Changing entry (s0, j) of theta changes one entry of the view ... *)
Lemma view_upd ns b theta s0 j p0 t :
  List.length theta = ns * (nb + 6) -> b < nb -> s0 < ns -> p0 < 7 -> j < nb + 6 ->
  match p0 with O => b | S p' => nb + p' end = j ->
  view nb ns b (upd (s0 * (nb + 6) + j) t theta) =
  upd s0 (upd p0 t (nth s0 (view nb ns b theta) [])) (view nb ns b theta).
Proof.
  intros HL Hb Hs Hp Hj Ej. rewrite view_row by auto. rewrite list_map_seq_upd by auto.
  unfold view at 2. rewrite list_map_seq_upd by auto. unfold view. apply map_ext_in. intros s Hin. apply in_seq in Hin.
  assert (Hk : s0 * (nb + 6) + j < List.length theta).
  { rewrite HL. assert (s0 * (nb + 6) + (nb + 6) <= ns * (nb + 6)).
    { replace (s0 * (nb + 6) + (nb + 6)) with (S s0 * (nb + 6)) by lia. apply Nat.mul_le_mono_r. lia. } lia. }
  destruct (Nat.eqb_spec s s0) as [->|Hne]; apply map_ext_in; intros p Hpin; apply in_seq in Hpin.
  - rewrite nth_updR by auto. destruct (Nat.eqb_spec (s0 * (nb + 6) + j) (pos nb b s0 p)) as [E|E].
    + symmetry in E. apply pos_eq in E as [_ E]; try lia. destruct (Nat.eqb_spec p p0) as [|Hpp]; auto.
      exfalso. apply Hpp. destruct p, p0; lia.
    + destruct (Nat.eqb_spec p p0) as [->|]; auto. exfalso. apply E. symmetry. apply pos_eq; auto; lia.
  - rewrite nth_updR by auto. destruct (Nat.eqb_spec (s0 * (nb + 6) + j) (pos nb b s p)) as [E|E]; auto.
    symmetry in E. apply pos_eq in E as [E _]; try lia.
Qed.
(** ... or none, when it is another band's flux. *)
Lemma view_upd_other ns b theta s0 j t :
  List.length theta = ns * (nb + 6) -> b < nb -> s0 < ns -> j < nb -> j <> b ->
  view nb ns b (upd (s0 * (nb + 6) + j) t theta) = view nb ns b theta.
Proof.
  intros HL Hb Hs Hj Hne. unfold view. apply map_ext_in. intros s Hin. apply in_seq in Hin.
  apply map_ext_in. intros p Hpin. apply in_seq in Hpin.
  assert (Hk : s0 * (nb + 6) + j < List.length theta).
  { rewrite HL. assert (s0 * (nb + 6) + (nb + 6) <= ns * (nb + 6)).
    { replace (s0 * (nb + 6) + (nb + 6)) with (S s0 * (nb + 6)) by lia. apply Nat.mul_le_mono_r. lia. } lia. }
  rewrite nth_updR by auto. destruct (Nat.eqb_spec (s0 * (nb + 6) + j) (pos nb b s p)) as [E|E]; auto.
  symmetry in E. apply pos_eq in E as [_ E]; try lia. destruct p; lia.
Qed.

Lemma deriv_sum (fs : list (R -> R)) (ds : list R) x :
  Forall2 (fun f d => derivable_pt_lim f x d) fs ds -> forall a f0 d0, derivable_pt_lim f0 x d0 -> a = f0 ->
  derivable_pt_lim (fun t => fold_left Rplus (map (fun f => f t) fs) (a t)) x (fold_left Rplus ds d0).
Proof.
  intros H. induction H as [|f d fs ds Hf Hfs IH]; intros a f0 d0 H0 ->; simpl; auto.
  apply (IH (fun t => f0 t + f t)%R (fun t => f0 t + f t)%R (d0 + d)%R); auto.
  now apply derivable_pt_lim_plus.
Qed.

Lemma deriv_sum_seq (F : nat -> R -> R) (d : nat -> R) n x :
  (forall b, b < n -> derivable_pt_lim (F b) x (d b)) ->
  derivable_pt_lim (fun t => Rsum (map (fun b => F b t) (seq 0 n))) x (Rsum (map d (seq 0 n))).
Proof.
  intros H.
  assert (HF : Forall2 (fun f d => derivable_pt_lim f x d) (map F (seq 0 n)) (map d (seq 0 n))).
  { assert (Hs : forall b, In b (seq 0 n) -> b < n) by (intros b Hb; apply in_seq in Hb; lia).
    clear -H Hs. induction (seq 0 n) as [|b l IH]; simpl; constructor.
    - apply H, Hs. simpl; auto. - apply IH. intros; apply Hs; simpl; auto. }
  pose proof (deriv_sum _ _ _ HF (fun _ => 0%R) (fun _ => 0%R) 0%R (derivable_pt_lim_const 0 x) eq_refl) as K.
  eapply derivable_pt_lim_ext; [|exact K]. intros t. unfold Rsum. simpl. now rewrite map_map.
Qed.

Lemma Rsum_single (d : nat -> R) n j : j < n -> (forall b, b < n -> b <> j -> d b = 0%R) ->
  Rsum (map d (seq 0 n)) = d j.
Proof.
  intros Hj Hz. unfold Rsum.
  assert (Hgen : forall k start a, start + k = n ->
     fold_left Rplus (map d (seq start k)) a = (a + (if Nat.leb start j then d j else 0))%R).
  { induction k as [|k IH]; intros start a Hk; simpl.
    - destruct (Nat.leb_spec start j); [lia|]. lra.
    - rewrite IH by lia. destruct (Nat.leb_spec (S start) j), (Nat.leb_spec start j); try lia.
      + rewrite (Hz start) by lia. lra.
      + replace j with start by lia. lra.
      + rewrite (Hz start) by lia. lra. }
  rewrite Hgen by lia. simpl. lra.
Qed.

Lemma fold_map_nth (K : list (list (list R))) (g : list (list R) -> R) : List.length K = nb ->
  Rsum (map (fun b => g (nth b K [])) (seq 0 nb)) = fold_left Rplus (map g K) 0%R.
Proof.
  intros <-. unfold Rsum. f_equal. rewrite <- (map_nth_seq (@nil (list R)) K) at 2. now rewrite map_map.
Qed.

Lemma gradient_lemma sc theta chi2 ps (K : list (list (list R))) :
  fast_galaxies nb sc -> sc <> [] -> nb <= 30 -> List.length theta = List.length sc * (nb + 6) ->
  proposal_of amps qf paf sc theta = Some ps ->
  response_shape nb (List.length sc) K ->
  (forall b s p, b < nb -> s < List.length sc -> p < 7 ->
     derivable_pt_lim (fun t => chi2 b (upd s (upd p t (nth s (map (kernel_row b) ps) [])) (map (kernel_row b) ps)))
       (nth p (nth s (map (kernel_row b) ps) []) 0%R) (nth p (nth s (nth b K []) []) 0%R)) ->
  forall k, k < List.length theta ->
  exists f, (forall t, lnlike amps qf paf chi2 nb sc (upd k t theta) = Some (f t)) /\ derivable_pt_lim f (nth k theta 0%R) (nth k (lnlike_grad (List.length sc) nb K) 0%R).
Proof.
  intros Hg Hne Hnb HL Hps Hsh Hker k Hk. set (ns := List.length sc) in *.
  destruct (proposal_view sc theta Hg Hne Hnb HL) as (ps' & Hps' & Hview). rewrite Hps in Hps'. injection Hps' as <-.
  fold ns in Hview.
  assert (Hs0 : k / (nb + 6) < ns).
  { apply Nat.div_lt_upper_bound; lia. }
  set (s0 := k / (nb + 6)) in *. set (j := k mod (nb + 6)).
  assert (Hj : j < nb + 6) by (apply Nat.mod_upper_bound; lia).
  assert (Hkd : k = s0 * (nb + 6) + j) by (unfold s0, j; rewrite Nat.mul_comm; apply Nat.div_mod; lia).
  exists (fun t => -1/2 * Rsum (map (fun b => chi2 b (view nb ns b (upd k t theta))) (seq 0 nb)))%R.
  split.
  { intros t. unfold lnlike.
    destruct (proposal_view sc (upd k t theta) Hg Hne Hnb) as (ps2 & E2 & V2); [now rewrite upd_length|].
    rewrite E2. f_equal. f_equal. f_equal. apply map_ext_in. intros b Hb. apply in_seq in Hb.
    rewrite V2 by lia. reflexivity. }
  pose (d := fun b => if Nat.ltb j nb then (if Nat.eqb j b then nth 0 (nth s0 (nth b K []) []) 0%R else 0%R)
                      else nth (S (j - nb)) (nth s0 (nth b K []) []) 0%R).
  assert (Hd : forall b, b < nb -> derivable_pt_lim (fun t => chi2 b (view nb ns b (upd k t theta))) (nth k theta 0%R) (d b)).
  { intros b Hb. unfold d. destruct (Nat.ltb_spec j nb) as [Hjb|Hjb].
    - destruct (Nat.eqb_spec j b) as [E|E].
      + pose proof (Hker b s0 0 Hb Hs0 ltac:(lia)) as Kb. rewrite (Hview b Hb) in Kb.
        rewrite view_entry in Kb by lia. unfold pos in Kb. rewrite <- E, <- Hkd in Kb at 1.
        eapply derivable_pt_lim_ext; [|rewrite <- E; rewrite <- E in Kb; exact Kb]. intros t. simpl.
        rewrite Hkd. rewrite (view_upd ns b theta s0 j 0 t) by (auto; lia). now rewrite <- E.
      + eapply derivable_pt_lim_ext; [|apply (derivable_pt_lim_const (chi2 b (view nb ns b theta)))].
        intros t. unfold fct_cte. rewrite Hkd, view_upd_other; auto.
    - pose proof (Hker b s0 (S (j - nb)) Hb Hs0 ltac:(lia)) as Kb. rewrite (Hview b Hb) in Kb.
      rewrite view_entry in Kb by lia. unfold pos in Kb.
      replace (s0 * (nb + 6) + (nb + (j - nb))) with k in Kb by lia.
      eapply derivable_pt_lim_ext; [|exact Kb]. intros t. simpl.
      rewrite Hkd at 1. rewrite (view_upd ns b theta s0 j (S (j - nb)) t) by (auto; lia). reflexivity. }
  pose proof (deriv_sum_seq _ _ nb _ Hd) as Hsum.
  pose proof (derivable_pt_lim_scal _ (-1/2)%R _ _ Hsum) as Hscal.
  destruct (stack_entries 0%R Rplus ns nb K Hsh) as [HLs Hent]. destruct (Hent s0 Hs0) as [Hf Hp].
  assert (Eg : nth k (lnlike_grad ns nb K) 0%R = (-1/2 * Rsum (map d (seq 0 nb)))%R).
  { unfold lnlike_grad. rewrite nth_indep with (d' := (-1/2 * 0)%R) by (rewrite map_length, HLs; lia).
    rewrite (map_nth (fun g => -1/2 * g)%R). f_equal. rewrite Hkd.
    destruct (Nat.ltb_spec j nb) as [Hjb|Hjb].
    - rewrite Hf by auto. rewrite (Rsum_single d nb j Hjb).
      + unfold d. destruct (Nat.ltb_spec j nb); [|lia]. rewrite Nat.eqb_refl. lra.
      + intros b Hb Hbj. unfold d. destruct (Nat.ltb_spec j nb); [|lia]. destruct (Nat.eqb_spec j b); [lia|reflexivity].
    - replace j with (nb + (j - nb)) at 1 by lia. rewrite Hp by lia. unfold d.
      destruct (Nat.ltb_spec j nb); [lia|]. symmetry.
      apply (fold_map_nth K (fun D => nth (S (j - nb)) (nth s0 D []) 0%R)). apply Hsh. }
  rewrite Eg. eapply derivable_pt_lim_ext; [|exact Hscal]. intros t. reflexivity.
Qed.
End L.
