From Verif Require Import Np NpFacts SceneModel ChainFacts PackModel PackFacts.
From Coq Require Import Sorting.Sorted.

Lemma index_of_nth f l k : index_of f l = Some k -> nth_error l k = Some f.
Proof.
  revert k. induction l as [|g l IH]; simpl; [discriminate|]. intros k. destruct (String.eqb_spec f g) as [->|].
  - intros E. injection E as <-. reflexivity.
  - destruct (index_of f l) as [j|]; [|discriminate]. intros E. injection E as <-. simpl. auto.
Qed.
Lemma sorted_app {A} (R : A -> A -> Prop) l m : StronglySorted R (l ++ m) -> forall a b, In a l -> In b m -> R a b.
Proof.
  induction l as [|x l IH]; simpl; intros H a b Ha Hb; [easy|]. inversion H; subst. destruct Ha as [->|Ha]; [|eauto].
  rewrite Forall_forall in H3. apply H3. apply in_or_app. auto.
Qed.
Lemma sorted_app_r {A} (R : A -> A -> Prop) l m : StronglySorted R (l ++ m) -> StronglySorted R m.
Proof. induction l as [|x l IH]; simpl; auto. intros H. inversion H; auto. Qed.

Section Loop.
Context {V : Type} (sub : V -> V -> V) (allbands : list string).
Notation eb := (exposure V * option V)%type.
Definition ix (b : string) : nat := match index_of b allbands with Some k => k | None => 0 end.
Definition known (b : string) : Prop := index_of b allbands <> None.
Lemma ix_inj b c : known b -> known c -> ix b = ix c -> b = c.
Proof.
  unfold known, ix. intros Hb Hc. destruct (index_of b allbands) eqn:E1; [|easy]. destruct (index_of c allbands) eqn:E2; [|easy].
  intros ->. apply index_of_nth in E1. apply index_of_nth in E2. congruence.
Qed.
Definition flux_of (p : eb) : list V :=
  match snd p with Some v => map (fun x => sub x v) (x_flux (fst p)) | None => x_flux (fst p) end.
Lemma flux_of_length p : List.length (flux_of p) = List.length (x_flux (fst p)).
Proof. unfold flux_of. destruct (snd p); auto. now rewrite map_length. Qed.
Definition eid (p : eb) : nat := ix (x_band (fst p)).
Definition sizes (L : list eb) : list nat := map (fun p => List.length (x_flux (fst p))) L.

Context (whole : list eb).
Let W := map eid whole.
Hypothesis all_known : Forall (fun p : eb => known (x_band (fst p))) whole.
Hypothesis sorted : StronglySorted le W.

Record Inv (L : list eb) (st : loop) : Prop := {
  inv_i : l_i st = list_sum (sizes L);
  inv_start : l_start st = map (fun k => list_sum (firstn k (sizes L))) (seq 0 (List.length L));
  inv_N : l_N st = sizes L;
  inv_data : l_data st = flat_map flux_of L;
  inv_ierr : l_ierr st = flat_map (fun p => x_ierr (fst p)) L;
  inv_xpix : l_xpix st = flat_map (fun p => x_xpix (fst p)) L;
  inv_ypix : l_ypix st = flat_map (fun p => x_ypix (fst p)) L;
  inv_prev : l_prev st = match rev L with [] => None | p :: _ => Some (x_band (fst p)) end;
  inv_b : l_b st = match rev L with [] => 0 | p :: _ => rank W (eid p) end;
  inv_band : l_band_N st = map (fun v => count_occ Nat.eq_dec (map eid L) v) (np_unique W) }.

Lemma inv_init : Inv [] (mkLoop 0 0 None (repeat 0 (List.length (np_unique W))) [] [] [] [] [] []).
Proof.
  constructor; simpl; auto. induction (np_unique W) as [|x l IH]; simpl; auto. now rewrite IH.
Qed.
Lemma count_snoc (l : list nat) x v : count_occ Nat.eq_dec (l ++ [x]) v = count_occ Nat.eq_dec l v + (if Nat.eq_dec x v then 1 else 0).
Proof. rewrite count_occ_app. simpl. destruct (Nat.eq_dec x v); lia. Qed.

Lemma rank_first p R : whole = p :: R -> rank W (eid p) = 0.
Proof.
  intros E. unfold rank.
  assert (N : forall u, In u (seq 0 (eid p)) -> existsb (Nat.eqb u) W = false).
  { intros u Hu. apply in_seq in Hu. destruct (existsb (Nat.eqb u) W) eqn:Eb; auto. apply existsb_in in Eb. exfalso.
    revert sorted Eb. unfold W. rewrite E. simpl. intros Hs [Hx|Hx]; [lia|]. inversion Hs; subst. rewrite Forall_forall in H2. specialize (H2 u Hx). lia. }
  revert N. generalize (seq 0 (eid p)). induction l as [|a l IH]; simpl; intros N; auto. rewrite N by auto. apply IH. auto.
Qed.
Lemma rank_step L p q R : whole = (L ++ [p]) ++ q :: R ->
  (if String.eqb (x_band (fst q)) (x_band (fst p)) then rank W (eid p) else S (rank W (eid p))) = rank W (eid q).
Proof.
  intros E. destruct (String.eqb_spec (x_band (fst q)) (x_band (fst p))) as [Eq|Hne].
  - unfold eid. now rewrite Eq.
  - assert (EW : W = (map eid L ++ [eid p]) ++ eid q :: map eid R) by (unfold W; rewrite E, !map_app; reflexivity).
    assert (Hle : eid p <= eid q).
    { apply (sorted_app le (map eid L ++ [eid p]) (eid q :: map eid R)); [now rewrite <- EW|apply in_or_app; simpl; auto|simpl; auto]. }
    assert (Hneq : eid p <> eid q).
    { intros Ee. apply Hne. symmetry. rewrite Forall_forall in all_known.
      apply ix_inj; auto; apply all_known; rewrite E, !in_app_iff; simpl; auto. }
    symmetry. apply rank_next; [rewrite EW, !in_app_iff; simpl; auto|lia|].
    intros u Hu Hlt. rewrite EW, !in_app_iff in Hu. 
    assert (S1 : forall a, In a (map eid L) -> a <= eid p).
    { intros a Ha. apply (sorted_app le (map eid L) (eid p :: eid q :: map eid R)); simpl; auto. rewrite EW, <- app_assoc in sorted. exact sorted. }
    assert (S2 : forall a, In a (eid q :: map eid R) -> eid q <= a).
    { intros a [<-|Ha]; [lia|]. rewrite EW in sorted. apply sorted_app_r in sorted. inversion sorted; subst. rewrite Forall_forall in H2. auto. }
    simpl in Hu. destruct Hu as [[Hu|[Hu|[]]]|Hu]; [specialize (S1 u Hu); lia|lia|specialize (S2 u Hu); lia].
Qed.

Lemma step_ok L p R st : whole = L ++ p :: R -> x_flux (fst p) <> [] -> Inv L st -> exists st', pack_step sub st p = Some st' /\ Inv (L ++ [p]) st'.
Proof.
  intros E Hne I. destruct p as [ex bg]. cbn [fst] in Hne. unfold pack_step.
  assert (Hz : (List.length (x_flux ex) =? 0) = false) by (apply Nat.eqb_neq; destruct (x_flux ex); simpl; congruence || lia).
  rewrite Hz.
  set (b := match l_prev st with Some p => if String.eqb (x_band ex) p then l_b st else S (l_b st) | None => l_b st end).
  assert (Hb : b = rank W (eid (ex, bg))).
  { unfold b. rewrite (inv_prev _ _ I), (inv_b _ _ I). destruct (rev L) as [|p r] eqn:Er.
    - assert (L = []) by (apply (f_equal (@rev _)) in Er; rewrite rev_involutive in Er; exact Er). subst L. symmetry. eapply rank_first; eauto.
    - assert (EL : L = rev r ++ [p]) by (apply (f_equal (@rev _)) in Er; rewrite rev_involutive in Er; exact Er).
      apply (rank_step (rev r) p (ex, bg) R). now rewrite <- EL. }
  assert (Hin : In (eid (ex, bg)) W) by (unfold W; rewrite E, map_app; apply in_or_app; simpl; auto).
  assert (Hn : nth_error (l_band_N st) b = Some (count_occ Nat.eq_dec (map eid L) (eid (ex, bg)))).
  { rewrite (inv_band _ _ I), nth_error_map, Hb, unique_rank by auto. reflexivity. }
  rewrite Hn. eexists. split; [reflexivity|].
  assert (Hs : sizes (L ++ [(ex, bg)]) = sizes L ++ [List.length (x_flux ex)]) by (unfold sizes; now rewrite map_app).
  constructor; cbn [l_i l_start l_N l_data l_ierr l_xpix l_ypix l_prev l_b l_band_N].
  - rewrite Hs, list_sum_app, (inv_i _ _ I). simpl. lia.
  - rewrite (inv_start _ _ I), (inv_i _ _ I), Hs, app_length, Nat.add_1_r, seq_S, map_app. simpl.
    assert (HL : List.length (sizes L) = List.length L) by (unfold sizes; apply map_length).
    f_equal.
    + apply map_ext_in. intros k Hk. apply in_seq in Hk. rewrite firstn_app. replace (k - List.length (sizes L)) with 0 by lia. simpl. now rewrite app_nil_r.
    + rewrite firstn_app, <- HL, Nat.sub_diag, firstn_all. simpl. now rewrite app_nil_r.
  - now rewrite (inv_N _ _ I), Hs.
  - rewrite (inv_data _ _ I), flat_map_app. simpl. rewrite app_nil_r. reflexivity.
  - rewrite (inv_ierr _ _ I), flat_map_app. simpl. now rewrite app_nil_r.
  - rewrite (inv_xpix _ _ I), flat_map_app. simpl. now rewrite app_nil_r.
  - rewrite (inv_ypix _ _ I), flat_map_app. simpl. now rewrite app_nil_r.
  - now rewrite rev_app_distr.
  - rewrite rev_app_distr. simpl. exact Hb.
  - apply nth_error_ext. intros k. rewrite nth_error_upd, (inv_band _ _ I), map_length, !nth_error_map.
    destruct (Nat.eqb_spec b k) as [<-|Hk].
    + rewrite Hb, unique_rank by auto. simpl. destruct (Nat.ltb_spec (rank W (eid (ex, bg))) (List.length (np_unique W))) as [_|Hge]; [|pose proof (rank_lt _ _ Hin); lia].
      f_equal. rewrite map_app. simpl map. rewrite count_snoc. destruct (Nat.eq_dec (eid (ex, bg)) (eid (ex, bg))); congruence.
    + destruct (nth_error (np_unique W) k) as [v|] eqn:Ev; auto. simpl. f_equal. rewrite map_app. simpl map. rewrite count_snoc.
      destruct (Nat.eq_dec (eid (ex, bg)) v) as [<-|]; [|lia]. exfalso. apply Hk. rewrite Hb. now apply unique_rank_inv.
Qed.
Lemma loop_ok R : forall L st, whole = L ++ R -> Forall (fun p : eb => x_flux (fst p) <> []) R -> Inv L st ->
  exists st', pack_loop sub st R = Some st' /\ Inv whole st'.
Proof.
  induction R as [|p R IH]; intros L st E HR I; simpl.
  - exists st. split; auto. rewrite app_nil_r in E. now subst.
  - inversion HR; subst. destruct (step_ok L p R st E H1 I) as (st1 & -> & I1). apply (IH (L ++ [p])); auto. rewrite <- app_assoc. exact E.
Qed.
End Loop.

Lemma loop_nonempty {V} (sub : V -> V -> V) R : forall st st', pack_loop sub st R = Some st' -> Forall (fun p : exposure V * option V => x_flux (fst p) <> []) R.
Proof.
  induction R as [|p R IH]; intros st st' H; [constructor|]. simpl in H. destruct (pack_step sub st p) as [st1|] eqn:E; [|discriminate].
  constructor; [|eauto]. destruct p as [ex bg]. unfold pack_step in E. destruct (Nat.eqb_spec (List.length (x_flux ex)) 0); [discriminate|].
  simpl. intros E0. rewrite E0 in n. simpl in n. lia.
Qed.
