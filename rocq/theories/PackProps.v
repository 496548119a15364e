(** C25: the pixel, exposure and band tables.  C41, C45: the PSF table. *)
From Verif Require Import Np NpFacts SceneModel ChainFacts PackModel PackFacts PackLoop PackBuild.
From Coq Require Import Sorting.Sorted.

(** arr[s : s+n] *)
Definition slice {A} (s n : nat) (l : list A) : list A := firstn n (skipn s l).
(** The data of exposure [e] after the optional background offset *)
Definition observed {V} (sub : V -> V -> V) (offsets : option (list V)) (e : nat) (ex : exposure V) : list V :=
  match offsets with
  | Some o => match nth_error o e with Some v => map (fun x => sub x v) (x_flux ex) | None => x_flux ex end
  | None => x_flux ex
  end.

Lemma block_filter {X} (f : X -> bool) l : forall s n, s + n <= List.length l ->
  (forall e x, nth_error l e = Some x -> (f x = true <-> s <= e < s + n)) -> firstn n (skipn s l) = filter f l.
Proof.
  induction l as [|x l IH]; intros s n Hfit H; [now rewrite skipn_nil, firstn_nil|]. simpl in Hfit. pose proof (H 0 x eq_refl) as Hx.
  destruct s as [|s].
  - destruct n as [|n]; cbn [filter skipn firstn]; destruct (f x) eqn:E.
    + destruct (proj1 Hx eq_refl). lia.
    + rewrite <- (IH 0 0); [reflexivity|lia|]. intros e y He. rewrite (H (S e) y He). lia.
    + f_equal. apply (IH 0 n); [lia|]. intros e y He. rewrite (H (S e) y He). lia.
    + enough (false = true) by discriminate. apply Hx. lia.
  - cbn [filter skipn]. destruct (f x) eqn:E; [destruct (proj1 Hx eq_refl); lia|]. apply IH; [lia|]. intros e y He. rewrite (H (S e) y He). lia.
Qed.

Section Aux.
Context {V : Type} (sub : V -> V -> V).
Lemma slice_flat {A B} (g : A -> list B) l e x : nth_error l e = Some x ->
  slice (list_sum (firstn e (map (fun y => List.length (g y)) l))) (List.length (g x)) (flat_map g l) = g x.
Proof.
  revert e. induction l as [|y l IH]; intros [|e] H; try discriminate; unfold slice in *; cbn [map firstn nth_error flat_map] in *.
  - injection H as ->. change (list_sum []) with 0. rewrite skipn_O, firstn_app, firstn_all, Nat.sub_diag, firstn_O, app_nil_r. reflexivity.
  - change (list_sum (?a :: ?b)) with (a + list_sum b). rewrite skipn_app. rewrite skipn_all2 by lia.
    replace (List.length (g y) + _ - _) with (list_sum (firstn e (map (fun y => List.length (g y)) l))) by lia. simpl. now apply IH.
Qed.
Lemma attach_nth (exps : list (exposure V)) offsets e ex : offsets_ok exps offsets -> nth_error exps e = Some ex ->
  exists o, nth_error (attach exps offsets) e = Some (ex, o) /\ flux_of sub (ex, o) = observed sub offsets e ex.
Proof.
  unfold attach, observed. destruct offsets as [o|]; simpl; intros Ho H.
  - assert (Hv : exists v, nth_error o e = Some v).
    { destruct (nth_error o e) eqn:E; eauto. apply nth_error_None in E. assert (e < List.length exps) by (apply nth_error_Some; congruence). lia. }
    destruct Hv as (v & Hv). exists (Some v). rewrite Hv. split; [|reflexivity].
    clear Ho. revert o e H Hv. induction exps as [|x l IH]; intros [|w o] [|e] H Hv; simpl in *; try discriminate; try congruence; auto.
  - exists None. rewrite nth_error_map, H. split; reflexivity.
Qed.
Lemma attach_flux exps offsets : offsets_ok exps offsets -> map (fun p => List.length (flux_of sub p)) (attach exps offsets) = npixels exps.
Proof.
  intros Ho. unfold npixels. rewrite <- (attach_fst exps offsets Ho) at 2. rewrite map_map. apply map_ext. intros p. apply flux_of_length.
Qed.
Lemma ix_nth allbands b : In b allbands -> nth_error allbands (ix allbands b) = Some b.
Proof. intros H. apply known_in in H. unfold known, ix in *. destruct (index_of b allbands) eqn:E; [now apply index_of_nth|congruence]. Qed.

Lemma bandlist_at allbands (exps : list (exposure V)) k b : Forall (fun ex => In (x_band ex) allbands) exps ->
  nth_error (map (fun v => nth v allbands EmptyString) (np_unique (ids allbands exps))) k = Some b ->
  nth_error (np_unique (ids allbands exps)) k = Some (ix allbands b) /\ In b allbands /\ exists ex, In ex exps /\ x_band ex = b.
Proof.
  intros Hk H. rewrite nth_error_map in H. destruct (nth_error (np_unique (ids allbands exps)) k) as [v|] eqn:E; [|discriminate]. simpl in H. injection H as <-.
  apply nth_error_In in E as Hv. apply (proj1 (in_unique _ _)) in Hv. unfold ids in Hv. apply in_map_iff in Hv. destruct Hv as (ex & <- & Hin).
  rewrite Forall_forall in Hk. specialize (Hk ex Hin). pose proof (ix_nth allbands _ Hk) as Hn. apply (nth_error_nth _ _ EmptyString) in Hn.
  rewrite Hn. eauto.
Qed.
Lemma cut_nth {A} ns : forall (l : list A) k n, nth_error ns k = Some n -> nth_error (cut ns l) k = Some (slice (list_sum (firstn k ns)) n l).
Proof.
  induction ns as [|m ns IH]; intros l [|k] n H; try discriminate; simpl in H |- *.
  - injection H as ->. reflexivity.
  - rewrite (IH _ _ _ H). f_equal. unfold slice. rewrite skipn_skipn. reflexivity.
Qed.
Lemma cut_length {A} ns (l : list A) : List.length (cut ns l) = List.length ns.
Proof. revert l. induction ns; simpl; auto. Qed.
Lemma map_cut {A B} (f : A -> B) ns : forall l, map (map f) (cut ns l) = cut ns (map f l).
Proof. induction ns as [|n ns IH]; intros l; simpl; auto. now rewrite IH, firstn_map, skipn_map. Qed.
End Aux.

Section Pixels.
Context {V : Type} (sub : V -> V -> V).
Variables (allbands : list string) (exps : list (exposure V)) (offsets : option (list V)).

(** build_patch succeeds exactly on a non-empty list of non-empty exposures of known
    bands grouped by band in catalogue order, with one offset per exposure. *)
Theorem C25_accepts : Forall aligned exps ->
  (exists pk, build_patch sub allbands exps offsets = Some pk) <-> packable allbands exps offsets.
Proof.
  intros Ha. split.
  - intros (pk & H). eapply build_sound; eauto.
  - intros H. eexists. now apply build_ok.
Qed.

Variable pk : packed V.
Hypothesis built : build_patch sub allbands exps offsets = Some pk.
Hypothesis lengths : Forall aligned exps.

Lemma built_closed : pk = closed_form sub allbands exps offsets.
Proof. pose proof (build_ok sub allbands exps offsets (build_sound sub _ _ _ _ built) lengths). congruence. Qed.

(** Each exposure owns one contiguous stretch of each pixel array, holding its pixels in
    the order find_pixels gave them, and the stretches tile the arrays in order. *)
Theorem C25_exposures :
  List.length (pk_exposure_start pk) = List.length exps /\ List.length (pk_exposure_N pk) = List.length exps /\
  (forall e ex, nth_error exps e = Some ex -> exists s,
     nth_error (pk_exposure_start pk) e = Some s /\ nth_error (pk_exposure_N pk) e = Some (List.length (x_flux ex)) /\
     slice s (List.length (x_flux ex)) (pk_data pk) = observed sub offsets e ex /\
     slice s (List.length (x_flux ex)) (pk_ierr pk) = x_ierr ex /\
     slice s (List.length (x_flux ex)) (pk_xpix pk) = x_xpix ex /\
     slice s (List.length (x_flux ex)) (pk_ypix pk) = x_ypix ex) /\
  (forall s, nth_error (pk_exposure_start pk) 0 = Some s -> s = 0) /\
  (forall e s n, nth_error (pk_exposure_start pk) e = Some s -> nth_error (pk_exposure_N pk) e = Some n -> 0 < n /\
     match nth_error (pk_exposure_start pk) (S e) with
     | Some s' => s' = s + n
     | None => List.length (pk_data pk) = s + n
     end) /\
  List.length (pk_ierr pk) = List.length (pk_data pk) /\ List.length (pk_xpix pk) = List.length (pk_data pk) /\ List.length (pk_ypix pk) = List.length (pk_data pk).
Proof.
  pose proof (build_sound sub _ _ _ _ built) as (Hne & Ho & Hk & Hf & Hs). rewrite built_closed. cbn [closed_form pk_exposure_start pk_exposure_N pk_data pk_ierr pk_xpix pk_ypix].
  assert (Lsz : List.length (npixels exps) = List.length exps) by (unfold npixels; apply map_length).
  assert (Hst : forall e, e < List.length exps -> nth_error (map (fun k => list_sum (firstn k (npixels exps))) (seq 0 (List.length exps))) e = Some (list_sum (firstn e (npixels exps)))).
  { intros e He. rewrite nth_error_map, (nth_error_nth' _ 0) by (rewrite seq_length; lia). now rewrite seq_nth by lia. }
  assert (Hfl : forall g : exposure V -> list V, (forall ex, In ex exps -> List.length (g ex) = List.length (x_flux ex)) -> map (fun y => List.length (g y)) exps = npixels exps).
  { intros g Hg. unfold npixels. now apply map_ext_in. }
  assert (Hlen : forall g : exposure V -> list V, (forall ex, In ex exps -> List.length (g ex) = List.length (x_flux ex)) -> List.length (flat_map g exps) = list_sum (npixels exps)).
  { intros g Hg. rewrite <- (Hfl g Hg). clear. induction exps as [|x l IH]; simpl; auto. rewrite app_length, IH. reflexivity. }
  assert (Hld : List.length (flat_map (flux_of sub) (attach exps offsets)) = list_sum (npixels exps)).
  { rewrite <- (attach_flux sub exps offsets Ho). clear. induction (attach exps offsets) as [|x l IH]; simpl; auto. rewrite app_length, IH. reflexivity. }
  pose proof (proj1 (Forall_forall _ _) lengths) as Ha.
  assert (Hi : forall ex, In ex exps -> List.length (x_ierr ex) = List.length (x_flux ex)) by (intros ex Hx; apply Ha, Hx).
  assert (Hx : forall ex, In ex exps -> List.length (x_xpix ex) = List.length (x_flux ex)) by (intros ex Hin; apply Ha, Hin).
  assert (Hy : forall ex, In ex exps -> List.length (x_ypix ex) = List.length (x_flux ex)) by (intros ex Hin; apply Ha, Hin).
  split; [now rewrite map_length, seq_length|]. split; [exact Lsz|]. split; [|split; [|split]].
  - intros e ex He. assert (Hlt : e < List.length exps) by (apply nth_error_Some; congruence). exists (list_sum (firstn e (npixels exps))).
    split; [now apply Hst|]. split; [unfold npixels; now rewrite nth_error_map, He|].
    assert (Hin : In ex exps) by (eapply nth_error_In; eauto).
    split; [|split; [|split]].
    + destruct (attach_nth sub exps offsets e ex Ho He) as (o & Hn & <-). pose proof (slice_flat (flux_of sub) _ _ _ Hn) as Hsl.
      rewrite (attach_flux sub exps offsets Ho) in Hsl. rewrite (flux_of_length sub (ex, o)) in Hsl. exact Hsl.
    + pose proof (slice_flat x_ierr _ _ _ He) as Hsl. rewrite Hfl in Hsl by exact Hi. rewrite Hi in Hsl by exact Hin. exact Hsl.
    + pose proof (slice_flat x_xpix _ _ _ He) as Hsl. rewrite Hfl in Hsl by exact Hx. rewrite Hx in Hsl by exact Hin. exact Hsl.
    + pose proof (slice_flat x_ypix _ _ _ He) as Hsl. rewrite Hfl in Hsl by exact Hy. rewrite Hy in Hsl by exact Hin. exact Hsl.
  - intros s H. destruct exps as [|x l]; [congruence|]. rewrite Hst in H by (simpl; lia). simpl in H. congruence.
  - intros e s n Hse Hn. assert (He : e < List.length exps) by (rewrite <- Lsz; apply nth_error_Some; congruence).
    rewrite Hst in Hse by auto. assert (Es : list_sum (firstn e (npixels exps)) = s) by congruence. clear Hse.
    assert (Epos : list_sum (firstn (S e) (npixels exps)) = s + n).
    { rewrite <- Es. clear -Hn. revert e Hn. induction (npixels exps) as [|x l IH]; intros [|e] Hn; try discriminate; simpl in *.
      - injection Hn as ->. lia.
      - specialize (IH e Hn). unfold list_sum in *. rewrite IH. lia. }
    split.
    + unfold npixels in Hn. rewrite nth_error_map in Hn. destruct (nth_error exps e) as [ex|] eqn:Ee; [|discriminate]. simpl in Hn. injection Hn as <-.
      rewrite Forall_forall in Hf. specialize (Hf ex (nth_error_In _ _ Ee)). destruct (x_flux ex); [congruence|simpl; lia].
    + destruct (Nat.lt_ge_cases (S e) (List.length exps)) as [Hlt|Hge].
      * rewrite Hst by auto. exact Epos.
      * replace (nth_error _ (S e)) with (@None nat) by (symmetry; apply nth_error_None; rewrite map_length, seq_length; lia).
        rewrite Hld, <- Epos, firstn_all2 by lia. reflexivity.
  - rewrite Hld. rewrite (Hlen x_ierr Hi), (Hlen x_xpix Hx), (Hlen x_ypix Hy). auto.
Qed.

(** The band table lists each band present once, in catalogue order, and the exposures
    of band [k] are exactly those numbered band_start[k] ... band_start[k]+band_N[k]-1. *)
Theorem C25_bands :
  List.length (pk_band_start pk) = List.length (bandlist pk) /\ List.length (pk_band_N pk) = List.length (bandlist pk) /\
  List.length (pk_band_N_pix pk) = List.length (bandlist pk) /\ n_exp_per_band pk = pk_band_N pk /\
  (forall b, In b (bandlist pk) <-> exists ex, In ex exps /\ x_band ex = b) /\
  (forall j k b c, j < k -> nth_error (bandlist pk) j = Some b -> nth_error (bandlist pk) k = Some c ->
     exists i, nth_error allbands i = Some b /\ ~ In c (firstn (S i) allbands)) /\
  (forall k b, nth_error (bandlist pk) k = Some b -> exists s n npix,
     nth_error (pk_band_start pk) k = Some s /\ nth_error (pk_band_N pk) k = Some n /\ nth_error (pk_band_N_pix pk) k = Some npix /\
     0 < n /\ s + n <= List.length exps /\
     (forall e ex, nth_error exps e = Some ex -> (x_band ex = b <-> s <= e < s + n)) /\
     npix = list_sum (map (fun ex => List.length (x_flux ex)) (filter (fun ex => String.eqb (x_band ex) b) exps))).
Proof.
  pose proof (build_sound sub _ _ _ _ built) as (Hne & Ho & Hk & Hf & Hs). change (StronglySorted le (ids allbands exps)) in Hs.
  rewrite built_closed. cbn [closed_form bandlist n_exp_per_band pk_band_start pk_band_N pk_band_N_pix]. set (W := ids allbands exps) in *.
  assert (Lu : List.length (unique_counts W) = List.length (np_unique W)) by (unfold unique_counts; apply map_length).
  assert (LW : List.length W = List.length exps) by (unfold W, ids; apply map_length).
  assert (Hu0 : unique_counts W <> []).
  { intros E. pose proof (count_occ_sum W) as Hc. rewrite E in Hc. rewrite LW in Hc. destruct exps; [congruence|discriminate]. }
  assert (Lr : forall l : list nat, l <> [] -> S (List.length (removelast l)) = List.length l).
  { intros l Hl. rewrite (app_removelast_last 0 Hl) at 2. rewrite app_length. simpl. lia. }
  split. { rewrite map_length, <- Lu. cbn [List.length]. unfold cumsum. rewrite Lr; [apply cumsum_from_length|].
    intros E. apply (f_equal (@List.length nat)) in E. rewrite cumsum_from_length in E. destruct (unique_counts W); [congruence|discriminate]. }
  split; [now rewrite map_length|]. split; [now rewrite map_length, cut_length, map_length|]. split; [reflexivity|]. split; [|split].
  - intros b. rewrite in_map_iff. split.
    + intros (v & <- & Hv). destruct (In_nth_error _ _ Hv) as (k & Hkk).
      destruct (bandlist_at allbands exps k (nth v allbands EmptyString) Hk) as (_ & _ & ex & He); [|eauto].
      rewrite nth_error_map. fold W. now rewrite Hkk.
    + intros (ex & Hin & <-). exists (ix allbands (x_band ex)). split.
      * apply nth_error_nth, ix_nth. rewrite Forall_forall in Hk. auto.
      * apply in_unique. unfold W, ids. apply in_map_iff. eauto.
  - intros j k b c Hjk Hb Hc. apply bandlist_at in Hb; auto. apply bandlist_at in Hc; auto. destruct Hb as (Hb & Ib & _). destruct Hc as (Hc & Ic & _).
    exists (ix allbands b). split; [now apply ix_nth|].
    assert (Hlt : ix allbands b < ix allbands c).
    { pose proof (unique_sorted W) as Hsrt. fold W in Hb, Hc. clear -Hsrt Hjk Hb Hc. revert j k Hjk Hb Hc. induction Hsrt as [|x l Hl IH Hx]; intros [|j] [|k] Hjk Hb Hc; try lia; try discriminate; simpl in *.
      - rewrite Forall_forall in Hx. injection Hb as ->. apply Hx. eapply nth_error_In; eauto.
      - apply (IH j k); auto. lia. }
    intros Hin. apply In_nth_error in Hin. destruct Hin as (m & Hm). assert (Hm2 : m < S (ix allbands b)). { assert (m < List.length (firstn (S (ix allbands b)) allbands)) by (apply nth_error_Some; congruence). rewrite firstn_length in H. lia. }
    rewrite nth_error_firstn in Hm by auto.
    assert (Hmin : ix allbands c <= m). { clear -Hm. unfold ix. revert m Hm. induction allbands as [|g l IH]; intros [|m] Hm; simpl in *; try discriminate.
      - injection Hm as ->. now rewrite String.eqb_refl.
      - destruct (String.eqb_spec c g); [lia|]. specialize (IH m Hm). destruct (index_of c l); simpl; lia. }
    lia.
  - intros k b Hb. apply bandlist_at in Hb; auto. fold W in Hb. destruct Hb as (Hb & Ib & ex0 & Hin0 & Eb0).
    assert (Hkl : k < List.length (unique_counts W)) by (rewrite Lu; apply nth_error_Some; congruence).
    set (v := ix allbands b) in *.
    assert (Hc : nth_error (unique_counts W) k = Some (count_occ Nat.eq_dec W v)) by (unfold unique_counts; now rewrite nth_error_map, Hb).
    pose proof (below_counts W k v Hb) as Hbel.
    assert (Hbs : nth_error (0 :: removelast (cumsum (unique_counts W))) k = Some (below v W)).
    { destruct k as [|k]; [simpl in *; congruence|]. change (nth_error (0 :: ?l) (S k)) with (nth_error l k). unfold cumsum. rewrite cumsum_from_removelast.
      assert (Hrl : removelast (unique_counts W) = firstn (List.length (unique_counts W) - 1) (unique_counts W)).
      { rewrite (app_removelast_last 0 Hu0) at 3. rewrite <- (Lr _ Hu0). simpl. rewrite Nat.sub_0_r, firstn_app, firstn_all, Nat.sub_diag. simpl. now rewrite app_nil_r. }
      rewrite cumsum_from_nth by (rewrite Hrl, firstn_length; lia). rewrite Hrl, firstn_firstn, Nat.min_l by lia. now rewrite Hbel. }
    exists (below v W), (count_occ Nat.eq_dec W v), (list_sum (slice (below v W) (count_occ Nat.eq_dec W v) (npixels exps))).
    split; [exact Hbs|]. split; [exact Hc|]. split; [rewrite nth_error_map, (cut_nth _ _ _ _ Hc), Hbel; reflexivity|].
    assert (Hin : In v W) by (apply (proj1 (in_unique _ _)); eapply nth_error_In; eauto).
    split; [now apply (count_occ_In Nat.eq_dec)|].
    assert (Hfit : below v W + count_occ Nat.eq_dec W v <= List.length exps).
    { rewrite <- LW. unfold below. clear. induction W as [|x l IH]; simpl; auto. destruct (Nat.ltb_spec x v); destruct (Nat.eq_dec x v); simpl; lia. }
    assert (Hmem : forall e ex, nth_error exps e = Some ex -> (x_band ex = b <-> below v W <= e < below v W + count_occ Nat.eq_dec W v)).
    { intros e ex He. rewrite <- (sorted_block W Hs v e) by (rewrite LW; apply nth_error_Some; congruence).
      unfold W, ids. rewrite nth_error_map, He. simpl. split; [intros <-; reflexivity|]. intros E. injection E as E. unfold v in E.
      apply (ix_inj allbands); auto; apply known_in; auto. rewrite Forall_forall in Hk. apply Hk. eapply nth_error_In; eauto. }
    split; [exact Hfit|]. split; [exact Hmem|].
    unfold slice, npixels. rewrite skipn_map, firstn_map. f_equal. f_equal.
    apply block_filter; [exact Hfit|]. intros e ex He. rewrite String.eqb_eq. apply Hmem. exact He.
Qed.

(** An array laid out like the pixel data is cut back into one piece per exposure and
    one piece per band, and no pixel is lost, repeated or moved. *)
Theorem C25_split {A} (arr : list A) : List.length arr = List.length (pk_data pk) ->
  unpack_residuals pk arr = split_pix pk arr /\
  concat (split_pix pk arr) = arr /\ map (@List.length A) (split_pix pk arr) = pk_exposure_N pk /\
  (forall e s n, nth_error (pk_exposure_start pk) e = Some s -> nth_error (pk_exposure_N pk) e = Some n ->
     nth_error (split_pix pk arr) e = Some (slice s n arr)) /\
  concat (split_band pk arr) = arr /\ map (@List.length A) (split_band pk arr) = pk_band_N_pix pk /\
  (forall k s n, nth_error (pk_band_start pk) k = Some s -> nth_error (pk_band_N pk) k = Some n ->
     nth_error (split_band pk arr) k = Some (concat (slice s n (split_pix pk arr)))).
Proof.
  intros Harr. pose proof (build_sound sub _ _ _ _ built) as (Hne & Ho & Hk & Hf & Hs).
  destruct C25_exposures as (L1 & L2 & _ & _ & _ & _). pose proof C25_bands as HB.
  split; [unfold unpack_residuals, split_pix, cumsum; now rewrite cumsum_from_removelast|].
  assert (Hsum : list_sum (pk_exposure_N pk) = List.length arr).
  { rewrite Harr, built_closed. cbn [closed_form pk_exposure_N pk_data]. rewrite <- (attach_flux sub exps offsets Ho). clear. induction (attach exps offsets) as [|x l IH]; simpl; auto. rewrite app_length, <- IH. reflexivity. }
  destruct (cut_sizes (pk_exposure_N pk) arr Hsum) as (Hcl & Hcc).
  assert (Hsp : split_pix pk arr = cut (pk_exposure_N pk) arr).
  { unfold split_pix. rewrite <- Hcc at 1. apply split_sizes; [|now symmetry]. intros E. apply (f_equal (@List.length _)) in E. rewrite cut_length, L2 in E. destruct exps; [congruence|discriminate]. }
  rewrite Hsp. split; [exact Hcc|]. split; [exact Hcl|].
  assert (Hstart : forall e s n, nth_error (pk_exposure_start pk) e = Some s -> nth_error (pk_exposure_N pk) e = Some n -> s = list_sum (firstn e (pk_exposure_N pk))).
  { intros e s n H1 H2. rewrite built_closed in H1, H2 |- *. cbn [closed_form pk_exposure_start pk_exposure_N] in *. rewrite nth_error_map in H1.
    assert (He : e < List.length exps). { unfold npixels in H2. rewrite nth_error_map in H2. apply nth_error_Some. destruct (nth_error exps e); [discriminate|discriminate H2]. }
    rewrite (nth_error_nth' _ 0) in H1 by (rewrite seq_length; lia). rewrite seq_nth in H1 by lia. simpl in H1. congruence. }
  split. { intros e s n H1 H2. rewrite (cut_nth _ _ _ _ H2). now rewrite (Hstart e s n H1 H2). }
  (* bands *)
  set (ps := cut (pk_exposure_N pk) arr) in *. assert (Lps : List.length ps = List.length exps) by (unfold ps; now rewrite cut_length).
  assert (Ec : pk_band_N pk = unique_counts (ids allbands exps)) by now rewrite built_closed.
  assert (Hcs : list_sum (pk_band_N pk) = List.length ps). { rewrite Ec, count_occ_sum, Lps. unfold ids. apply map_length. }
  destruct (cut_sizes (pk_band_N pk) ps Hcs) as (Hgl & Hgc). set (gs := cut (pk_band_N pk) ps) in *.
  assert (Epx : map (@List.length A) (map (@concat A) gs) = pk_band_N_pix pk).
  { rewrite built_closed. cbn [closed_form pk_band_N_pix]. rewrite <- Ec. unfold gs.
    assert (Esz : npixels exps = map (@List.length A) ps). { rewrite Hcl. rewrite built_closed. reflexivity. }
    rewrite Esz, <- map_cut, !map_map. apply map_ext. intros g. clear. induction g; simpl; auto. rewrite app_length, IHg. reflexivity. }
  assert (Hcq : concat (map (@concat A) gs) = arr). { transitivity (concat (concat gs)); [|rewrite Hgc; exact Hcc]. clear. induction gs as [|g l IH]; simpl; auto. now rewrite IH, concat_app. }
  assert (Hbs : split_band pk arr = map (@concat A) gs).
  { unfold split_band. rewrite <- Hcq at 1. apply split_sizes; [|now symmetry]. intros E. apply (f_equal (@List.length _)) in E. unfold gs in E. rewrite map_length, cut_length in E.
    destruct (pk_band_N pk) eqn:En; [|discriminate]. simpl in Hcs. rewrite Lps in Hcs. destruct exps; [congruence|discriminate]. }
  rewrite Hbs. split; [exact Hcq|]. split; [exact Epx|].
  intros k s n H1 H2. rewrite nth_error_map. unfold gs. rewrite (cut_nth _ _ _ _ H2). cbn [option_map]. enough (Es : list_sum (firstn k (pk_band_N pk)) = s) by (rewrite Es; reflexivity).
  destruct HB as (B1 & B2 & _). assert (Hkb : k < List.length (bandlist pk)) by (rewrite <- B2; apply nth_error_Some; congruence).
  rewrite built_closed in H1. cbn [closed_form pk_band_start] in H1. rewrite <- Ec in H1.
  destruct k as [|k]; [simpl in *; congruence|]. change (nth_error (0 :: ?l) (S k)) with (nth_error l k) in H1. unfold cumsum in H1. rewrite cumsum_from_removelast in H1.
  assert (Hb0 : pk_band_N pk <> []) by (intros E; rewrite E in H2; discriminate).
  assert (Hr : S (List.length (removelast (pk_band_N pk))) = List.length (pk_band_N pk)). { rewrite (app_removelast_last 0 Hb0) at 2. rewrite app_length. simpl. lia. }
  assert (Hrl : removelast (pk_band_N pk) = firstn (List.length (pk_band_N pk) - 1) (pk_band_N pk)).
  { rewrite (app_removelast_last 0 Hb0) at 3. rewrite <- Hr. simpl. rewrite Nat.sub_0_r, firstn_app, firstn_all, Nat.sub_diag. simpl. now rewrite app_nil_r. }
  assert (Hkl : S k < List.length (pk_band_N pk)) by (apply nth_error_Some; congruence).
  rewrite cumsum_from_nth in H1 by (rewrite Hrl, firstn_length; lia). rewrite Hrl, firstn_firstn, Nat.min_l in H1 by lia. rewrite Nat.add_0_l in H1. congruence.
Qed.
End Pixels.
