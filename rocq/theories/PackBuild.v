From Verif Require Import Np NpFacts SceneModel ChainFacts PackModel PackFacts PackLoop.
From Coq Require Import Sorting.Sorted.

Lemma firstn_sum_le (l : list nat) a b : a <= b -> list_sum (firstn a l) <= list_sum (firstn b l).
Proof. revert a b. induction l as [|x l IH]; intros [|a] [|b] H; simpl; try lia. specialize (IH a b). lia. Qed.
Lemma firstn_sum_add (l : list nat) a b : list_sum (firstn (a + b) l) = list_sum (firstn a l) + list_sum (firstn b (skipn a l)).
Proof. revert b l. induction a as [|a IH]; intros b [|x l]; simpl; auto; [now rewrite firstn_nil|]. rewrite IH. lia. Qed.
Lemma sum_firstn_skipn (l : list nat) a : list_sum (firstn a l) + list_sum (skipn a l) = list_sum l.
Proof. rewrite <- list_sum_app. now rewrite firstn_skipn. Qed.

(** The closed form of the band pixel counts *)
Lemma band_pix_closed (sz : list nat) cs : cs <> [] -> Forall (fun c => 1 <= c) cs -> forall s, s + list_sum cs = List.length sz ->
  let P := fun e => list_sum (firstn e sz) in
  let bs := s :: removelast (cumsum_from s cs) in
  Forall (fun e => e < List.length sz) bs /\
  exists d, np_diff (map P bs) = Some d /\ list_sum d <= list_sum sz - P s /\
    d ++ [list_sum sz - P s - list_sum d] = map list_sum (cut cs (skipn s sz)).
Proof.
  induction cs as [|c cs IH]; intros Hne Hpos s Hs P bs; [congruence|]. inversion Hpos; subst. simpl in Hs. destruct cs as [|c2 cs].
  - simpl in *. split; [constructor; [lia|constructor]|].  exists []. split; [reflexivity|]. split; [apply Nat.le_0_l|]. unfold P.
    pose proof (sum_firstn_skipn sz s) as Hsum. rewrite (firstn_all2 (n := c) (skipn s sz)) by (rewrite skipn_length; lia). cbn [list_sum fold_right].
    f_equal. change (fold_right Nat.add 0 (skipn s sz)) with (list_sum (skipn s sz)). unfold list_sum in *. cbn [app]. f_equal. lia.
  - destruct (IH ltac:(discriminate) H2 (s + c) ltac:(simpl in *; lia)) as (F & d & E & Hd & Ec).
    assert (Eb : bs = s :: (s + c) :: removelast (cumsum_from (s + c) (c2 :: cs))) by reflexivity.
    rewrite Eb. set (rest := (s + c) :: removelast (cumsum_from (s + c) (c2 :: cs))) in *.
    split; [constructor; [simpl in *; lia|exact F]|].
    assert (HP : P (s + c) = P s + list_sum (firstn c (skipn s sz))) by apply firstn_sum_add.
    exists ((P (s + c) - P s) :: d). change (map P (s :: rest)) with (P s :: map P rest).
    assert (Er : map P rest = P (s + c) :: map P (removelast (cumsum_from (s + c) (c2 :: cs)))) by reflexivity.
    assert (HT : P (s + c) <= list_sum sz). { unfold P. pose proof (sum_firstn_skipn sz (s + c)). lia. }
    assert (ED : np_diff (P s :: map P rest) = if P s <=? P (s + c) then match np_diff (map P rest) with Some d => Some ((P (s + c) - P s) :: d) | None => None end else None).
    { rewrite Er. reflexivity. }
    change (np_diff (map P rest) = Some d) in E.
    change (list_sum (firstn (s + c) sz)) with (P (s + c)) in Hd, Ec. split; [|split].
    + rewrite ED, E. destruct (Nat.leb_spec (P s) (P (s + c))); [reflexivity|lia].
    + change (list_sum ((P (s + c) - P s) :: d)) with ((P (s + c) - P s) + list_sum d). lia.
    + change (list_sum ((P (s + c) - P s) :: d)) with ((P (s + c) - P s) + list_sum d).
      change (cut (c :: c2 :: cs) (skipn s sz)) with (firstn c (skipn s sz) :: cut (c2 :: cs) (skipn c (skipn s sz))).
      rewrite skipn_skipn. rewrite map_cons, <- Ec. cbn [app]. f_equal; [lia|]. f_equal. f_equal. lia.
Qed.

Section Build.
Context {V : Type} (sub : V -> V -> V).
(** build_patch's exposures with their background offsets *)
Definition attach (exps : list (exposure V)) (offsets : option (list V)) : list (exposure V * option V) :=
  match offsets with None => map (fun ex => (ex, None)) exps | Some o => combine exps (map Some o) end.
Definition offsets_ok (exps : list (exposure V)) (offsets : option (list V)) : Prop :=
  match offsets with None => True | Some o => List.length o = List.length exps end.
Lemma attach_fst exps offsets : offsets_ok exps offsets -> map fst (attach exps offsets) = exps.
Proof.
  destruct offsets as [o|]; simpl; intros H.
  - revert o H. induction exps as [|x l IH]; intros [|v o] H; simpl in *; try lia; auto. f_equal. apply IH. lia.
  - rewrite map_map. simpl. apply map_id.
Qed.
Lemma attach_length exps offsets : offsets_ok exps offsets -> List.length (attach exps offsets) = List.length exps.
Proof. intros H. rewrite <- (attach_fst exps offsets H) at 2. now rewrite map_length. Qed.

(** A readout has four arrays of one size. *)
Definition aligned (ex : exposure V) : Prop :=
  List.length (x_ierr ex) = List.length (x_flux ex) /\ List.length (x_xpix ex) = List.length (x_flux ex) /\ List.length (x_ypix ex) = List.length (x_flux ex).
Definition packable (allbands : list string) (exps : list (exposure V)) (offsets : option (list V)) : Prop :=
  exps <> [] /\ offsets_ok exps offsets /\
  Forall (fun ex => In (x_band ex) allbands) exps /\ Forall (fun ex => x_flux ex <> []) exps /\
  StronglySorted le (map (fun ex => ix allbands (x_band ex)) exps).

Definition ids (allbands : list string) (exps : list (exposure V)) : list nat := map (fun ex => ix allbands (x_band ex)) exps.
Definition npixels (exps : list (exposure V)) : list nat := map (fun ex => List.length (x_flux ex)) exps.
Definition closed_form (allbands : list string) (exps : list (exposure V)) (offsets : option (list V)) : packed V :=
  let W := ids allbands exps in
  let sz := npixels exps in
  mkPacked (map (fun v => nth v allbands EmptyString) (np_unique W)) (unique_counts W)
    (flat_map (flux_of sub) (attach exps offsets)) (flat_map x_ierr exps) (flat_map x_xpix exps) (flat_map x_ypix exps)
    (0 :: removelast (cumsum (unique_counts W))) (unique_counts W)
    (map (fun k => list_sum (firstn k sz)) (seq 0 (List.length exps))) sz (map list_sum (cut (unique_counts W) sz)).

Lemma known_in allbands b : known allbands b <-> In b allbands.
Proof.
  unfold known. split.
  - destruct (index_of b allbands) eqn:E; [|easy]. intros _. apply index_of_nth in E. eapply nth_error_In; eauto.
  - intros H E. revert H E. induction allbands as [|g l IH]; simpl; [easy|]. destruct (String.eqb_spec b g); [discriminate|].
    intros [->|H]; [congruence|]. destruct (index_of b l) eqn:El; [discriminate|]. intros _. auto.
Qed.
Lemma count_occ_sum l : list_sum (unique_counts l) = List.length l.
Proof.
  unfold unique_counts.
  assert (G : forall us m, NoDup us -> (forall x, In x m -> In x us) -> list_sum (map (fun u => count_occ Nat.eq_dec m u) us) = List.length m).
  { intros us m ND. induction m as [|x m IH]; intros Hm.
    - simpl. induction us; simpl; auto. apply IHus. now inversion ND. intros ? [].
    - assert (Hs : forall us, NoDup us -> list_sum (map (fun u => count_occ Nat.eq_dec (x :: m) u) us)
                 = (if in_dec Nat.eq_dec x us then 1 else 0) + list_sum (map (fun u => count_occ Nat.eq_dec m u) us)).
      { induction us0 as [|u us0 IHu]; intros ND0; auto. inversion ND0; subst. rewrite !map_cons.
        change (count_occ Nat.eq_dec (x :: m) u + list_sum (map (fun u => count_occ Nat.eq_dec (x :: m) u) us0)
          = (if in_dec Nat.eq_dec x (u :: us0) then 1 else 0) + (count_occ Nat.eq_dec m u + list_sum (map (fun u => count_occ Nat.eq_dec m u) us0))).
        rewrite IHu by auto. destruct (Nat.eq_dec x u) as [->|Hne].
        - rewrite count_occ_cons_eq by reflexivity. destruct (in_dec Nat.eq_dec u us0); [contradiction|]. destruct (in_dec Nat.eq_dec u (u :: us0)) as [|Hn]; [lia|]. exfalso. apply Hn. simpl. auto.
        - rewrite count_occ_cons_neq by auto. destruct (in_dec Nat.eq_dec x us0) as [Hi|Hi]; destruct (in_dec Nat.eq_dec x (u :: us0)) as [Hj|Hj]; try lia; exfalso.
          + apply Hj. simpl. auto.
          + destruct Hj; [congruence|contradiction]. }
      rewrite Hs by auto. rewrite IH by (intros; apply Hm; simpl; auto). destruct (in_dec Nat.eq_dec x us); [simpl; lia|]. exfalso. apply n. apply Hm. simpl. auto. }
  apply G; [unfold np_unique; apply NoDup_filter, seq_NoDup|]. intros x Hx. now apply in_unique.
Qed.
Lemma counts_pos l : Forall (fun c => 1 <= c) (unique_counts l).
Proof.
  unfold unique_counts. apply Forall_forall. intros c Hc. apply in_map_iff in Hc. destruct Hc as (v & <- & Hv). apply (proj1 (in_unique _ _)) in Hv.
  apply (count_occ_In Nat.eq_dec) in Hv. lia.
Qed.

Lemma build_ok allbands exps offsets : packable allbands exps offsets -> Forall aligned exps ->
  build_patch sub allbands exps offsets = Some (closed_form allbands exps offsets).
Proof.
  intros (Hne & Ho & Hk & Hf & Hs) Hal. unfold build_patch. destruct exps as [|ex0 exps0] eqn:Eex; [congruence|]. rewrite <- Eex in *. clear Hne.
  assert (Hex : exps <> []) by (rewrite Eex; discriminate). clear ex0 exps0 Eex.
  assert (HW : mapM (fun ex => index_of (x_band ex) allbands) exps = Some (ids allbands exps)).
  { apply mapM_Some. unfold ids. clear -Hk. induction exps as [|ex l IH]; simpl; constructor; inversion Hk; subst; auto.
    unfold ix. apply known_in in H1. unfold known in H1. now destruct (index_of (x_band ex) allbands). }
  rewrite HW. set (W := ids allbands exps) in *. change (map (fun ex => ix allbands (x_band ex)) exps) with W in Hs.
  rewrite (proj2 (nondecreasing_sorted W) Hs). cbn [negb].
  assert (HB : mapM (fun i => nth_error allbands i) (np_unique W) = Some (map (fun v => nth v allbands EmptyString) (np_unique W))).
  { apply mapM_Some. assert (Hi : forall v, In v (np_unique W) -> nth_error allbands v = Some (nth v allbands EmptyString)).
    { intros v Hv. apply (proj1 (in_unique _ _)) in Hv. unfold W, ids in Hv. apply in_map_iff in Hv. destruct Hv as (ex & <- & Hin).
      rewrite Forall_forall in Hk. pose proof (proj2 (known_in allbands (x_band ex)) (Hk ex Hin)) as Hkn. unfold known, ix in *.
      destruct (index_of (x_band ex) allbands) eqn:E; [|congruence]. apply index_of_nth in E.
      apply nth_error_nth', nth_error_Some. rewrite E. discriminate. }
    induction (np_unique W) as [|v l IH]; simpl; constructor; [apply Hi; simpl; auto|apply IH; intros; apply Hi; simpl; auto]. }
  rewrite HB.
  assert (Heb : match offsets with None => Some (map (fun ex => (ex, None)) exps)
                | Some o => if List.length o =? List.length exps then Some (combine exps (map Some o)) else None end = Some (attach exps offsets)).
  { unfold attach. destruct offsets as [o|]; auto. simpl in Ho. rewrite Ho, Nat.eqb_refl. reflexivity. }
  rewrite Heb. set (whole := attach exps offsets).
  assert (Efst : map fst whole = exps) by now apply attach_fst.
  assert (EW : map (eid allbands) whole = W). { unfold W, ids, eid. rewrite <- Efst, map_map. reflexivity. }
  assert (Esz : sizes whole = npixels exps). { unfold sizes, npixels. rewrite <- Efst, map_map. reflexivity. }
  assert (Elen : List.length whole = List.length exps) by now apply attach_length.
  destruct (loop_ok sub allbands whole) with (R := whole) (L := @nil (exposure V * option V)) (st := @mkLoop V 0 0 None (repeat 0 (List.length (np_unique (map (eid allbands) whole)))) [] [] [] [] [] []) as (st & Est & I).
  - apply Forall_forall. intros p Hp. rewrite Forall_forall in Hk. apply known_in, Hk. rewrite <- Efst. now apply in_map.
  - now rewrite EW.
  - reflexivity.
  - apply Forall_forall. intros p Hp. rewrite Forall_forall in Hf. apply Hf. rewrite <- Efst. now apply in_map.
  - apply inv_init.
  - rewrite EW in Est. rewrite Est.
    assert (Edl : List.length (l_data st) = l_i st).
    { rewrite (inv_data _ _ _ _ _ I), (inv_i _ _ _ _ _ I). clear. induction whole as [|p l IH]; simpl; auto. rewrite app_length, flux_of_length, IH. reflexivity. }
    rewrite Edl, Nat.eqb_refl. cbn [negb].
    assert (Ec : l_band_N st = unique_counts W) by (rewrite (inv_band _ _ _ _ _ I), EW; reflexivity).
    rewrite Ec, (inv_start _ _ _ _ _ I), (inv_N _ _ _ _ _ I), (inv_data _ _ _ _ _ I), (inv_ierr _ _ _ _ _ I), (inv_xpix _ _ _ _ _ I), (inv_ypix _ _ _ _ _ I), Esz, Elen.
    assert (Hcs : unique_counts W <> []).
    { intros E. pose proof (count_occ_sum W) as Hc. rewrite E in Hc. unfold W, ids in Hc. rewrite map_length in Hc. destruct exps; [congruence|discriminate]. }
    assert (Hsum : 0 + list_sum (unique_counts W) = List.length (npixels exps)). { rewrite count_occ_sum. unfold W, ids, npixels. rewrite !map_length. reflexivity. }
    destruct (band_pix_closed (npixels exps) (unique_counts W) Hcs (counts_pos W) 0 Hsum) as (Fb & d & Ed & Hd & Epx).
    set (P := fun e => list_sum (firstn e (npixels exps))) in *. change (list_sum (firstn 0 (npixels exps))) with 0 in Hd, Epx. change (skipn 0 (npixels exps)) with (npixels exps) in Epx. change (cumsum_from 0 (unique_counts W)) with (cumsum (unique_counts W)) in *.
    assert (HM : mapM (fun e => nth_error (map P (seq 0 (List.length exps))) e) (0 :: removelast (cumsum (unique_counts W))) = Some (map P (0 :: removelast (cumsum (unique_counts W))))).
    { apply mapM_Some. unfold npixels in Fb. rewrite map_length in Fb. revert Fb. generalize (0 :: removelast (cumsum (unique_counts W))).
      intros l. induction l as [|e l IH]; intros Fb; [apply Forall2_nil|]. rewrite map_cons. pose proof (Forall_inv Fb) as He. apply Forall_inv_tail in Fb. apply Forall2_cons; [|now apply IH]. rewrite nth_error_map.
      cbv beta in He. rewrite (nth_error_nth' _ 0) by (rewrite seq_length; lia). now rewrite seq_nth by lia. }
    rewrite HM, Ed.
    assert (Exl : forall (g : exposure V -> list V), (forall ex, In ex exps -> List.length (g ex) = List.length (x_flux ex)) ->
              List.length (flat_map g exps) = list_sum (npixels exps)).
    { intros g Hg. clear -Hg. unfold npixels. induction exps as [|ex l IH]; simpl; auto. rewrite app_length, Hg, IH; auto; simpl; auto. intros; apply Hg; simpl; auto. }
    assert (Eproj : forall (g : exposure V -> list V), flat_map (fun p => g (fst p)) whole = flat_map g exps).
    { intros g. rewrite <- Efst. clear. induction whole as [|p l IH]; simpl; auto. now rewrite IH. }
    rewrite !Eproj.
    rewrite (Exl x_xpix) by (intros ex He; rewrite Forall_forall in Hal; apply Hal; auto).
    destruct (Nat.leb_spec (list_sum d) (list_sum (npixels exps))); [|lia].
    unfold closed_form. fold W. cbv zeta. f_equal. f_equal.
    etransitivity; [|exact Epx]. f_equal. f_equal. lia.
Qed.

Lemma build_sound allbands exps offsets pk : build_patch sub allbands exps offsets = Some pk -> packable allbands exps offsets.
Proof.
  unfold build_patch. destruct exps as [|ex0 exps0] eqn:Eex; [discriminate|]. rewrite <- Eex. intros H.
  destruct (mapM (fun ex => index_of (x_band ex) allbands) exps) as [W|] eqn:EW; [|discriminate].
  destruct (nondecreasing W) eqn:Es; [|discriminate]. cbn [negb] in H.
  assert (HWi : W = map (fun ex => ix allbands (x_band ex)) exps /\ Forall (fun ex => In (x_band ex) allbands) exps).
  { clear -EW. revert W EW. induction exps as [|ex l IH]; simpl; intros W EW; [injection EW as <-; auto|].
    destruct (index_of (x_band ex) allbands) as [k|] eqn:Ek; [|discriminate]. destruct (mapM _ l) as [r|] eqn:Er; [|discriminate]. injection EW as <-.
    destruct (IH r eq_refl) as [-> Hf]. split.
    - unfold ix at 2. now rewrite Ek.
    - constructor; auto. apply index_of_nth in Ek. eapply nth_error_In; eauto. }
  destruct HWi as [HW Hk]. destruct (mapM _ (np_unique W)) as [bl|]; [|discriminate].
  assert (Ho : offsets_ok exps offsets).
  { unfold offsets_ok. destruct offsets as [o|]; auto. destruct (Nat.eqb_spec (List.length o) (List.length exps)); auto. discriminate. }
  assert (Heb : match offsets with None => Some (map (fun ex => (ex, None)) exps)
                | Some o => if List.length o =? List.length exps then Some (combine exps (map Some o)) else None end = Some (attach exps offsets)).
  { unfold attach. destruct offsets as [o|]; auto. simpl in Ho. rewrite Ho, Nat.eqb_refl. reflexivity. }
  rewrite Heb in H. destruct (pack_loop _ _ _) as [st|] eqn:El; [|discriminate]. apply loop_nonempty in El.
  split; [rewrite Eex; discriminate|]. split; auto. split; auto. split.
  - rewrite <- (attach_fst exps offsets Ho). apply Forall_forall. intros ex Hin. apply in_map_iff in Hin. destruct Hin as (p & <- & Hp). rewrite Forall_forall in El. auto.
  - rewrite <- HW. now apply nondecreasing_sorted.
Qed.
End Build.
