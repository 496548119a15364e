(** Invariants of the loops of StaticModel. *)
From Coq Require Import Arith List Bool Lia Sorting.Sorted.
From Verif Require Import Np NpFacts ChainFacts PackModel PackFacts PackLoop PackPsf StaticModel.
Import ListNotations.

Definition slice {A} (i n : nat) (l : list A) : list A := firstn n (skipn i l).
Lemma splice_end {A} (P vals : list A) z n k : List.length vals = n -> n <= k ->
  splice (P ++ repeat z k) (List.length P) n vals = Some ((P ++ vals) ++ repeat z (k - n)).
Proof.
  intros L K. unfold splice. rewrite app_length, repeat_length.
  replace (Nat.min (List.length P) (List.length P + k)) with (List.length P) by lia.
  replace (Nat.min (List.length P + n) (List.length P + k)) with (List.length P + n) by lia.
  rewrite firstn_app, Nat.sub_diag, firstn_all. cbn [firstn]. rewrite app_nil_r.
  replace (skipn (List.length P + n) (P ++ repeat z k)) with (repeat z (k - n)).
  - replace (List.length P + n - List.length P) with n by lia. rewrite <- !app_assoc.
    destruct vals as [|a [|b vals]].
    + rewrite <- L. reflexivity.
    + cbn in L. rewrite <- L. reflexivity.
    + rewrite (proj2 (Nat.eqb_eq _ _) L). reflexivity.
  - rewrite skipn_app. rewrite skipn_all2 by lia. replace (List.length P + n - List.length P) with n by lia. cbn [app].
    replace k with (n + (k - n)) at 2 by lia. rewrite repeat_app, skipn_app, skipn_all2 by (rewrite repeat_length; lia).
    rewrite repeat_length, Nat.sub_diag. reflexivity.
Qed.
Lemma slice_mid {A} (P m Q : list A) : slice (List.length P) (List.length m) (P ++ m ++ Q) = m.
Proof.
  unfold slice. rewrite skipn_app, skipn_all, Nat.sub_diag. cbn [skipn app]. rewrite firstn_app, firstn_all, Nat.sub_diag. cbn. apply app_nil_r.
Qed.
Lemma slice_at {A} (P m Q l : list A) i n : l = P ++ m ++ Q -> List.length P = i -> List.length m = n -> slice i n l = m.
Proof. intros -> <- <-. apply slice_mid. Qed.

(** ** Pixels *)
Definition padded (n : nat) : nat := n + (32 - n mod 32) mod 32.
Lemma padded_spec n : padded n mod 32 = 0 /\ n <= padded n < n + 32.
Proof.
  unfold padded. pose proof (Nat.mod_upper_bound n 32 ltac:(lia)). pose proof (Nat.div_mod n 32 ltac:(lia)).
  destruct (Nat.eq_dec (n mod 32) 0) as [E|E].
  - rewrite E. cbn. rewrite Nat.add_0_r. split; [assumption|lia].
  - rewrite (Nat.mod_small (32 - n mod 32)) by lia. split; [|lia].
    replace (n + (32 - n mod 32)) with (0 + (n / 32 + 1) * 32) by lia. rewrite Nat.mod_add by lia. reflexivity.
Qed.
Lemma padded_div n : (n + warp_size - 1) / warp_size * warp_size = padded n.
Proof.
  unfold warp_size, padded. pose proof (Nat.mod_upper_bound n 32 ltac:(lia)). pose proof (Nat.div_mod n 32 ltac:(lia)).
  destruct (Nat.eq_dec (n mod 32) 0) as [E|E].
  - rewrite E. cbn [Nat.sub]. change (32 mod 32) with 0. replace ((n + 32 - 1) / 32) with (n / 32); [lia|].
    apply (Nat.div_unique _ _ _ 31); lia.
  - rewrite (Nat.mod_small (32 - n mod 32)) by lia. replace ((n + 32 - 1) / 32) with (n / 32 + 1); [lia|].
    apply (Nat.div_unique _ _ _ (n mod 32 - 1)); lia.
Qed.

Section Pix.
Context {V : Type} (zero : V).
Definition wf (s : stamp V) : Prop :=
  List.length (st_xpix s) = st_nx s * st_ny s /\ List.length (st_ypix s) = st_nx s * st_ny s /\ List.length (st_values s) = st_nx s * st_ny s /\ List.length (st_ierr s) = st_nx s * st_ny s.
Definition block (f : stamp V -> list V) (s : stamp V) : list V := f s ++ repeat zero (padded (npix s) - npix s).
Definition blocks (f : stamp V -> list V) (l : list (stamp V)) : list V := flat_map (block f) l.
Definition size_of (l : list (stamp V)) : nat := list_sum (map (fun s => padded (npix s)) l).
Lemma blocks_length f l : (forall s, In s l -> List.length (f s) = npix s) -> List.length (blocks f l) = size_of l.
Proof.
  unfold blocks, size_of. induction l as [|s l IH]; intros H; [reflexivity|]. cbn [flat_map map]. unfold list_sum; cbn [fold_right]; fold (list_sum (map (fun s => padded (npix s)) l)).
  rewrite app_length, IH by (intros; apply H; now right). unfold block. rewrite app_length, repeat_length, (H s) by now left.
  pose proof (padded_spec (npix s)). lia.
Qed.
Lemma blocks_app f a b : blocks f (a ++ b) = blocks f a ++ blocks f b.
Proof. apply flat_map_app. Qed.
Lemma size_app a b : size_of (a ++ b) = size_of a + size_of b.
Proof. unfold size_of. rewrite map_app, list_sum_app. reflexivity. Qed.

Variable whole : list (stamp V).
Let W := map st_band whole.
Hypothesis sorted : StronglySorted le W.
Hypothesis all_wf : forall s, In s whole -> wf s.

Record PInv (L : list (stamp V)) (t : turn V) : Prop := {
  pi_i : tn_i t = size_of L;
  pi_x : tn_x t = blocks st_xpix L ++ repeat zero (size_of whole - size_of L);
  pi_y : tn_y t = blocks st_ypix L ++ repeat zero (size_of whole - size_of L);
  pi_d : tn_data t = blocks st_values L ++ repeat zero (size_of whole - size_of L);
  pi_e : tn_ierr t = blocks st_ierr L ++ repeat zero (size_of whole - size_of L);
  pi_last : tn_last t = match rev L with [] => None | s :: _ => Some (st_band s) end;
  pi_b : tn_b t = match rev L with [] => 0 | s :: _ => rank W (st_band s) end;
  pi_band : tn_band_N t = map (fun v => count_occ Nat.eq_dec (map st_band L) v) (np_unique W);
  pi_start : tn_start t = map (fun k => size_of (firstn k L)) (seq 0 (List.length L));
  pi_N : tn_N t = map (fun s => padded (npix s)) L }.

Lemma rank_zero s R : whole = s :: R -> rank W (st_band s) = 0.
Proof.
  intros E. unfold rank.
  assert (N : forall u, In u (seq 0 (st_band s)) -> existsb (Nat.eqb u) W = false).
  { intros u Hu. apply in_seq in Hu. destruct (existsb (Nat.eqb u) W) eqn:Eb; auto. apply existsb_in in Eb. exfalso.
    revert sorted Eb. unfold W. rewrite E. cbn. intros Hs [Hx|Hx]; [lia|]. inversion Hs; subst. rewrite Forall_forall in H2. specialize (H2 u Hx). lia. }
  revert N. generalize (seq 0 (st_band s)). induction l as [|a l IH]; cbn; intros N; auto. rewrite N by auto. apply IH. auto.
Qed.
Lemma rank_turn L p q R : whole = (L ++ [p]) ++ q :: R ->
  (if Nat.eqb (st_band q) (st_band p) then rank W (st_band p) else S (rank W (st_band p))) = rank W (st_band q).
Proof.
  intros E. destruct (Nat.eqb_spec (st_band q) (st_band p)) as [Eq|Hne]; [now rewrite Eq|].
  assert (EW : W = (map st_band L ++ [st_band p]) ++ st_band q :: map st_band R) by (unfold W; rewrite E, !map_app; reflexivity).
  assert (Hle : st_band p <= st_band q).
  { apply (sorted_app le (map st_band L ++ [st_band p]) (st_band q :: map st_band R)); [now rewrite <- EW|apply in_or_app; cbn; auto|cbn; auto]. }
  symmetry. apply rank_next; [rewrite EW, !in_app_iff; cbn; auto|lia|].
  intros u Hu Hlt. rewrite EW, !in_app_iff in Hu.
  assert (S1 : forall a, In a (map st_band L) -> a <= st_band p).
  { intros a Ha. apply (sorted_app le (map st_band L) (st_band p :: st_band q :: map st_band R)); cbn; auto. rewrite EW, <- app_assoc in sorted. exact sorted. }
  assert (S2 : forall a, In a (st_band q :: map st_band R) -> st_band q <= a).
  { intros a [<-|Ha]; [lia|]. rewrite EW in sorted. apply sorted_app_r in sorted. inversion sorted; subst. rewrite Forall_forall in H2. auto. }
  cbn in Hu. destruct Hu as [[Hu|[Hu|[]]]|Hu]; [specialize (S1 u Hu); lia|lia|specialize (S2 u Hu); lia].
Qed.
Lemma splice_block (f : stamp V -> list V) L s R : whole = L ++ s :: R -> (forall s, In s whole -> List.length (f s) = npix s) ->
  splice (blocks f L ++ repeat zero (size_of whole - size_of L)) (size_of L) (npix s) (f s)
  = Some (blocks f (L ++ [s]) ++ repeat zero (size_of whole - size_of (L ++ [s]))).
Proof.
  intros E H. rewrite <- (blocks_length f L) at 2 by (intros; apply H; rewrite E; apply in_or_app; auto).
  pose proof (padded_spec (npix s)) as P.
  assert (Sz : size_of whole = size_of L + (padded (npix s) + size_of R)).
  { rewrite E, size_app. unfold size_of at 2. cbn [map]. unfold list_sum; cbn [fold_right]. reflexivity. }
  assert (S1 : size_of (L ++ [s]) = size_of L + padded (npix s)).
  { rewrite size_app. unfold size_of at 2. cbn. lia. }
  rewrite splice_end; [|apply H; rewrite E; apply in_or_app; cbn; auto|lia].
  f_equal. rewrite blocks_app. replace (blocks f [s]) with (f s ++ repeat zero (padded (npix s) - npix s)) by (unfold blocks, block; cbn [flat_map]; now rewrite app_nil_r). rewrite <- !app_assoc. do 2 f_equal.
  rewrite <- repeat_app. f_equal. lia.
Qed.
Lemma pix_step_ok L s R t : whole = L ++ s :: R -> PInv L t -> exists t', pix_step t s = Some t' /\ PInv (L ++ [s]) t'.
Proof.
  intros E I. unfold pix_step.
  set (b := match tn_last t with Some l => if Nat.eqb (st_band s) l then tn_b t else S (tn_b t) | None => tn_b t end).
  assert (Hb : b = rank W (st_band s)).
  { unfold b. rewrite (pi_last _ _ I), (pi_b _ _ I). destruct (rev L) as [|p r] eqn:Er.
    - assert (L = []) by (apply (f_equal (@rev _)) in Er; rewrite rev_involutive in Er; exact Er). subst L. symmetry. eapply rank_zero; eauto.
    - assert (EL : L = rev r ++ [p]) by (apply (f_equal (@rev _)) in Er; rewrite rev_involutive in Er; exact Er).
      apply (rank_turn (rev r) p s R). now rewrite <- EL. }
  assert (Hin : In (st_band s) W) by (unfold W; rewrite E, map_app; apply in_or_app; cbn; auto).
  assert (Hn : nth_error (tn_band_N t) b = Some (count_occ Nat.eq_dec (map st_band L) (st_band s))).
  { rewrite (pi_band _ _ I), nth_error_map, Hb, unique_rank by auto. reflexivity. }
  rewrite Hn. rewrite (pi_x _ _ I), (pi_y _ _ I), (pi_d _ _ I), (pi_e _ _ I), (pi_i _ _ I).
  rewrite (splice_block st_xpix L s R E) by (intros; now apply all_wf).
  rewrite (splice_block st_ypix L s R E) by (intros; now apply all_wf).
  rewrite (splice_block st_values L s R E) by (intros; now apply all_wf).
  rewrite (splice_block st_ierr L s R E) by (intros; now apply all_wf).
  eexists. split; [reflexivity|].
  assert (S1 : size_of (L ++ [s]) = size_of L + padded (npix s)) by (rewrite size_app; unfold size_of at 2; cbn; lia).
  constructor; cbn [tn_i tn_b tn_last tn_x tn_y tn_data tn_ierr tn_band_N tn_start tn_N]; try reflexivity.
  - rewrite S1. unfold padded, warp_size. lia.
  - now rewrite rev_app_distr.
  - rewrite rev_app_distr. exact Hb.
  - apply nth_error_ext. intros k. rewrite nth_error_upd, (pi_band _ _ I), map_length, !nth_error_map.
    destruct (Nat.eqb_spec b k) as [<-|Hk].
    + rewrite Hb, unique_rank by auto. cbn [option_map]. destruct (Nat.ltb_spec (rank W (st_band s)) (List.length (np_unique W))) as [_|Hge]; [|pose proof (rank_lt _ _ Hin); lia].
      f_equal. rewrite map_app. cbn [map]. rewrite count_snoc. destruct (Nat.eq_dec (st_band s) (st_band s)); [lia|congruence].
    + destruct (nth_error (np_unique W) k) as [v|] eqn:Ev; auto. cbn [option_map]. f_equal. rewrite map_app. cbn [map]. rewrite count_snoc.
      destruct (Nat.eq_dec (st_band s) v) as [<-|]; [|lia]. exfalso. apply Hk. rewrite Hb. now apply unique_rank_inv.
  - rewrite (pi_start _ _ I), app_length, Nat.add_1_r, seq_S, map_app. cbn [map Nat.add]. f_equal.
    + apply map_ext_in. intros k Hk. apply in_seq in Hk. rewrite firstn_app. replace (k - List.length L) with 0 by lia. cbn. now rewrite app_nil_r.
    + rewrite firstn_app, Nat.sub_diag, firstn_all. cbn. now rewrite app_nil_r.
  - rewrite (pi_N _ _ I), map_app. reflexivity.
Qed.
Lemma pix_loop_ok R : forall L t, whole = L ++ R -> PInv L t -> exists t', pix_loop t R = Some t' /\ PInv whole t'.
Proof.
  induction R as [|s R IH]; intros L t E I; cbn [pix_loop].
  - exists t. split; auto. rewrite app_nil_r in E. now subst.
  - destruct (pix_step_ok L s R t E I) as (t1 & -> & I1). apply (IH (L ++ [s])); auto. rewrite <- app_assoc. exact E.
Qed.
Lemma pack_pix_closed : whole <> [] ->
  pack_pix zero (List.length (np_unique W)) whole
  = Some (mkPixels (map (fun s => (st_nx s, st_ny s)) whole) (map npix whole)
      (blocks st_xpix whole) (blocks st_ypix whole) (blocks st_values whole) (blocks st_ierr whole)
      (0 :: removelast (cumsum (unique_counts W))) (unique_counts W)
      (map (fun k => size_of (firstn k whole)) (seq 0 (List.length whole))) (map (fun s => padded (npix s)) whole)).
Proof.
  intros N. unfold pack_pix. rewrite map_map.
  assert (T : list_sum (map (fun x => (npix x + warp_size - 1) / warp_size * warp_size) whole) = size_of whole).
  { unfold size_of. f_equal. apply map_ext. intros; apply padded_div. }
  rewrite T.
  assert (I0 : PInv [] (mkTurn 0 0 None (repeat zero (size_of whole)) (repeat zero (size_of whole)) (repeat zero (size_of whole)) (repeat zero (size_of whole)) (repeat 0 (List.length (np_unique W))) [] [])).
  { constructor; cbn [tn_i tn_b tn_last tn_x tn_y tn_data tn_ierr tn_band_N tn_start tn_N blocks flat_map app rev map seq List.length]; try reflexivity;
      try (unfold size_of at 2; cbn; now rewrite Nat.sub_0_r). generalize (np_unique W) as u. induction u as [|a l IH]; cbn; [reflexivity|now rewrite IH]. }
  destruct (pix_loop_ok whole [] _ eq_refl I0) as (t & -> & I).
  rewrite (pi_i _ _ I), Nat.eqb_refl. cbn [negb].
  destruct (List.length (np_unique W)) eqn:Eb.
  - exfalso. apply length_zero_iff_nil in Eb.
    assert (X : exists s, In s whole) by (revert N; clear; intros N; generalize dependent whole; intros [|s R] N; [congruence|exists s; cbn; auto]).
    destruct X as [s Hs]. assert (H : In (st_band s) (np_unique W)) by (apply in_unique; unfold W; now apply in_map). rewrite Eb in H. contradiction.
  - rewrite (pi_x _ _ I), (pi_y _ _ I), (pi_d _ _ I), (pi_e _ _ I), (pi_start _ _ I), (pi_N _ _ I), (pi_band _ _ I).
    rewrite Nat.sub_diag. cbn [repeat]. rewrite !app_nil_r. reflexivity.
Qed.
End Pix.

(** ** np.repeat of the bands *)
Lemma np_repeat_nth {A} (l : list A) : forall counts b x c e, nth_error l b = Some x -> nth_error counts b = Some c ->
  list_sum (firstn b counts) <= e < list_sum (firstn b counts) + c -> nth_error (np_repeat l counts) e = Some x.
Proof.
  induction l as [|a l IH]; intros [|k counts] b x c e Hb Hc He; try (destruct b; discriminate). cbn [np_repeat].
  destruct b as [|b]; cbn [nth_error firstn] in *.
  - injection Hb as ->. injection Hc as ->. cbn in He. rewrite nth_error_app1 by (rewrite repeat_length; lia).
    assert (R : forall n e, e < n -> nth_error (repeat x n) e = Some x) by (induction n as [|n IHn]; intros [|e0] H0; cbn; auto; try lia; apply IHn; lia).
    apply R; lia.
  - unfold list_sum in He; cbn [fold_right] in He; fold (list_sum (firstn b counts)) in He.
    rewrite nth_error_app2 by (rewrite repeat_length; lia). rewrite repeat_length. apply (IH counts b x c); auto. lia.
Qed.
Lemma np_repeat_length {A} (l : list A) : forall counts, List.length l = List.length counts -> List.length (np_repeat l counts) = list_sum counts.
Proof.
  induction l as [|a l IH]; intros [|c counts] H; cbn in *; try lia. rewrite app_length, repeat_length, IH by lia. reflexivity.
Qed.
Lemma sum_counts W : list_sum (unique_counts W) = List.length W.
Proof.
  pose proof (sum_by_band (fun _ => 1) W) as H. unfold unique_counts.
  rewrite (map_ext _ (fun v => 1 * count_occ Nat.eq_dec W v)) by (intros; lia).
  etransitivity; [exact (eq_sym H)|]. clear. induction W as [|a l IH]; [reflexivity|]. cbn [map List.length]. unfold list_sum in *; cbn [fold_right]. lia.
Qed.
Lemma repeat_bands {A} (d : A) (n : list A) W : StronglySorted le W -> List.length n = List.length (np_unique W) ->
  np_repeat n (unique_counts W) = map (fun v => nth (rank W v) n d) W.
Proof.
  intros S L. apply nth_error_ext. intros e. rewrite nth_error_map. destruct (nth_error W e) as [v|] eqn:Ee; cbn [option_map].
  - assert (Hv : In v W) by (eapply nth_error_In; eauto). pose proof (unique_rank W v Hv) as Hr. pose proof (rank_lt W v Hv) as Hl.
    apply (np_repeat_nth n _ (rank W v) _ (count_occ Nat.eq_dec W v)).
    + apply nth_error_nth'. lia.
    + unfold unique_counts. rewrite nth_error_map, Hr. reflexivity.
    + rewrite (below_counts W _ v Hr). apply (sorted_block W S v e); [apply nth_error_Some; congruence|assumption].
  - apply nth_error_None. rewrite np_repeat_length, sum_counts by (unfold unique_counts; rewrite map_length; assumption). now apply nth_error_None.
Qed.

(** ** PSFs *)
Section Psf.
Context {V Mat Pos Gauss : Type}.
Notation source := (source V Mat Pos Gauss).
Definition gauss_of (e : nat) (s : source) : list (Gauss * nat) := match psfgauss s e with Some l => l | None => [] end.
Definition gausses (e : nat) (l : list source) : list (option (Gauss * nat)) := map Some (flat_map (gauss_of e) l).
Lemma psf_sources_ok e l : forall P k, (forall s, In s l -> psfgauss s e <> None) -> List.length (gausses e l) <= k ->
  psf_sources e l (P ++ repeat None k, List.length P) = Some ((P ++ gausses e l) ++ repeat None (k - List.length (gausses e l)), List.length P + List.length (gausses e l)).
Proof.
  induction l as [|s l IH]; intros P k H K; cbn [psf_sources].
  - cbn. rewrite app_nil_r, Nat.sub_0_r, Nat.add_0_r. reflexivity.
  - assert (Hs : psfgauss s e = Some (gauss_of e s)).
    { unfold gauss_of. destruct (psfgauss s e) eqn:E; [reflexivity|]. exfalso. apply (H s); [now left|assumption]. }
    rewrite Hs. cbn [fst snd].
    assert (G : gausses e (s :: l) = map Some (gauss_of e s) ++ gausses e l) by (unfold gausses; cbn [flat_map]; apply map_app).
    rewrite G in *. rewrite app_length, map_length in K.
    rewrite splice_end by (rewrite ?map_length; lia).
    replace (List.length P + List.length (gauss_of e s)) with (List.length (P ++ map Some (gauss_of e s))) by (rewrite app_length, map_length; reflexivity).
    rewrite IH by (try (intros; apply H; now right); lia).
    rewrite !app_length, map_length, <- !app_assoc. f_equal. f_equal; [do 4 f_equal|]; lia.
Qed.
(** All exposures, for a table long enough and starts that agree with the counts *)
Lemma psf_exposures_ok sources start : forall es P k a,
  es = seq a (List.length es) ->
  (forall e s, In e es -> In s sources -> psfgauss s e <> None) ->
  list_sum (map (fun e => List.length (gausses e sources)) es) <= k ->
  (forall j, S j < List.length es -> nth_error start (S (a + j)) = Some (List.length P + list_sum (map (fun e => List.length (gausses e sources)) (firstn (S j) es)))) ->
  psf_exposures sources start es (P ++ repeat None k, List.length P)
  = Some ((P ++ flat_map (fun e => gausses e sources) es) ++ repeat None (k - list_sum (map (fun e => List.length (gausses e sources)) es)),
          List.length P + list_sum (map (fun e => List.length (gausses e sources)) es)).
Proof.
  induction es as [|e es IH]; intros P k a Es H K St; cbn [psf_exposures].
  - cbn. rewrite app_nil_r, Nat.sub_0_r, Nat.add_0_r. reflexivity.
  - cbn [List.length seq] in Es. injection Es as -> Es.
    cbn [map] in K |- *. unfold list_sum in K |- *; cbn [fold_right] in K |- *. fold (list_sum (map (fun e => List.length (gausses e sources)) es)) in K |- *.
    rewrite psf_sources_ok; [|intros; apply H; [now left|assumption]|lia].
    destruct es as [|e' es'] eqn:Ee.
    + cbn. rewrite app_nil_r, Nat.add_0_r. reflexivity.
    + rewrite <- Ee in *. cbn [snd].
      pose proof (St 0 ltac:(subst es; cbn; lia)) as S0. rewrite Nat.add_0_r in S0. cbn [firstn map] in S0. unfold list_sum in S0; cbn [fold_right] in S0.
      replace (match es with [] => Some ((P ++ gausses a sources) ++ repeat None (k - List.length (gausses a sources)), List.length P + List.length (gausses a sources)) | _ :: _ => _ end) with
        (match nth_error start (S a) with
         | Some k0 => if Nat.eqb (List.length P + List.length (gausses a sources)) k0 then psf_exposures sources start es ((P ++ gausses a sources) ++ repeat None (k - List.length (gausses a sources)), List.length P + List.length (gausses a sources)) else None
         | None => None end) by (rewrite Ee; reflexivity).
      rewrite S0. rewrite Nat.add_0_r, Nat.eqb_refl.
      replace (List.length P + List.length (gausses a sources)) with (List.length (P ++ gausses a sources)) by (rewrite app_length; reflexivity).
      rewrite (IH (P ++ gausses a sources) _ (S a)); [| | | |].
      * cbn [flat_map]. rewrite app_length, <- !app_assoc. f_equal. f_equal; [do 4 f_equal|]; lia.
      * subst es. assumption.
      * intros; apply H; [now right|assumption].
      * lia.
      * intros j Hj. replace (S a + j) with (a + S j) by lia. rewrite St by (cbn; lia). cbn [firstn map].
        unfold list_sum; cbn [fold_right]. rewrite app_length. f_equal. lia.
Qed.
End Psf.
