(** C61: patches made of postage stamps. *)
From Coq Require Import Arith List Bool Lia Sorting.Sorted.
From Verif Require Import Np NpFacts ChainFacts PackModel PackFacts PackLoop PackPsf DeviceFacts StaticModel StaticFacts.
Import ListNotations.

Section Props.
Context {V Mat Pos Gauss : Type} (zero : V).
Notation stamp := (stamp V).
Notation source := (source V Mat Pos Gauss).
Notation patch := (patch V Mat Pos Gauss).
Notation static_patch := (@static_patch V Mat Pos Gauss zero).

Lemma size_firstn (l : list stamp) e s : nth_error l e = Some s -> size_of (firstn (S e) l) = size_of (firstn e l) + padded (npix s).
Proof.
  revert e. induction l as [|a l IH]; intros [|e] H; cbn in H; try discriminate.
  - injection H as ->. unfold size_of. cbn. lia.
  - change (firstn (S (S e)) (a :: l)) with (a :: firstn (S e) l). change (firstn (S e) (a :: l)) with (a :: firstn e l).
    pose proof (IH e H) as E. unfold size_of in *. cbn [map]. unfold list_sum in *; cbn [fold_right]. lia.
Qed.
Lemma size_mod (l : list stamp) : size_of l mod 32 = 0.
Proof.
  induction l as [|a l IH]; [reflexivity|]. unfold size_of in *. cbn [map]. unfold list_sum in *; cbn [fold_right].
  rewrite Nat.add_mod, IH by lia. rewrite (proj1 (padded_spec (npix a))). reflexivity.
Qed.
(** The built patch in closed form as far as its pixels go *)
Lemma built_pixels stamps npsf sources mask p : static_patch stamps npsf sources mask = Some p -> (forall s, In s stamps -> wf s) ->
  let W := map st_band stamps in
  StronglySorted le W /\ pt_bands p = List.length (np_unique W) /\ pt_n_exp p = List.length stamps /\ pt_n_sources p = n_active sources /\
  stamps <> [] /\ pack_pix zero (List.length (np_unique W)) stamps = Some (pt_pixels p) /\
  pack_astrometry (List.length stamps) (n_active sources) sources = Some (pt_astro p) /\
  pack_psf (List.length (np_unique W)) (List.length stamps) (n_active sources) (unique_counts W) npsf sources = Some (pt_psfs p).
Proof.
  intros H Hw W. unfold StaticModel.static_patch in H.
  destruct (nondecreasing (map st_band stamps)) eqn:En; [|discriminate]. cbn [negb] in H. apply nondecreasing_sorted in En.
  destruct (as_dtype mask); [|discriminate]. cbn [negb] in H.
  assert (N : stamps <> []) by (intros ->; cbn in H; discriminate).
  pose proof (pack_pix_closed zero stamps En Hw N) as C.
  destruct (pack_pix zero (List.length (np_unique (map st_band stamps))) stamps) as [px|] eqn:Ep; [|discriminate].
  unfold pack_source_metadata in H. destruct sources as [|first rest] eqn:Es; [discriminate|]. rewrite <- Es in *.
  assert (B : px_band_N px = unique_counts (map st_band stamps)) by (injection C as ->; reflexivity). rewrite B in H.
  destruct (pack_astrometry (List.length stamps) (n_active sources) sources) as [a|] eqn:Ea; [|discriminate].
  match type of H with match ?x with _ => _ end = _ => destruct x as [q|] eqn:Eq; [|discriminate] end.
  injection H as <-. cbn [pt_bands pt_n_exp pt_n_sources pt_pixels pt_astro pt_psfs]. subst W. repeat split; auto.
Qed.

Definition padding_zero (s : stamp) (st n : nat) (arr : list V) : Prop := slice (st + st_nx s * st_ny s) (n - st_nx s * st_ny s) arr = repeat zero (n - st_nx s * st_ny s).
Lemma block_at (f : stamp -> list V) stamps e s : (forall s, In s stamps -> List.length (f s) = npix s) -> nth_error stamps e = Some s ->
  slice (size_of (firstn e stamps)) (npix s) (blocks zero f stamps) = f s /\
  padding_zero s (size_of (firstn e stamps)) (padded (npix s)) (blocks zero f stamps).
Proof.
  intros H He. destruct (nth_error_split _ _ He) as (A & B & E & L).
  assert (F : firstn e stamps = A) by (rewrite E, firstn_app, <- L, Nat.sub_diag, firstn_all; cbn; apply app_nil_r). rewrite F.
  assert (HA : forall s, In s A -> List.length (f s) = npix s) by (intros; apply H; rewrite E; apply in_or_app; auto).
  assert (Hs : List.length (f s) = npix s) by (apply H; eapply nth_error_In; eauto).
  assert (D : blocks zero f stamps = blocks zero f A ++ f s ++ repeat zero (padded (npix s) - npix s) ++ blocks zero f B).
  { rewrite E, blocks_app. unfold blocks at 2. cbn [flat_map]. unfold block at 1. now rewrite <- app_assoc. }
  split.
  - eapply slice_at; [exact D|now apply blocks_length|assumption].
  - unfold padding_zero. change (st_nx s * st_ny s) with (npix s). eapply (slice_at (blocks zero f A ++ f s)); [rewrite D, <- app_assoc; reflexivity| |apply repeat_length].
    rewrite app_length, Hs. f_equal. now apply blocks_length.
Qed.

(** Every stamp of a patch is a run of the pixel arrays, padded with zeros to the least multiple of 32, the runs
    follow each other in the order of the stamps and leave nothing over *)
Theorem C61_pixels stamps npsf sources mask p : static_patch stamps npsf sources mask = Some p -> (forall s, In s stamps -> wf s) ->
  let px := pt_pixels p in
  List.length (px_start px) = List.length stamps /\ List.length (px_N px) = List.length stamps /\ nth_error (px_start px) 0 = Some 0 /\
  forall e s, nth_error stamps e = Some s ->
    exists st n, nth_error (px_start px) e = Some st /\ nth_error (px_N px) e = Some n /\ nth_error (px_shapes px) e = Some (st_nx s, st_ny s) /\
      st mod 32 = 0 /\ n mod 32 = 0 /\ (st_nx s * st_ny s) <= n < (st_nx s * st_ny s) + 32 /\
      slice st ((st_nx s * st_ny s)) (px_x px) = st_xpix s /\ slice st ((st_nx s * st_ny s)) (px_y px) = st_ypix s /\
      slice st ((st_nx s * st_ny s)) (px_data px) = st_values s /\ slice st ((st_nx s * st_ny s)) (px_ierr px) = st_ierr s /\
      padding_zero s st n (px_x px) /\ padding_zero s st n (px_y px) /\ padding_zero s st n (px_data px) /\ padding_zero s st n (px_ierr px) /\
      (S e < List.length stamps -> nth_error (px_start px) (S e) = Some (st + n)) /\
      (S e = List.length stamps -> List.length (px_x px) = st + n /\ List.length (px_y px) = st + n /\ List.length (px_data px) = st + n /\ List.length (px_ierr px) = st + n).
Proof.
  intros H Hw px. destruct (built_pixels _ _ _ _ _ H Hw) as (Sd & _ & _ & _ & N & Ep & _).
  rewrite (pack_pix_closed zero stamps Sd Hw N) in Ep. injection Ep as Ep. subst px. rewrite <- Ep. clear Ep H.
  cbn [px_start px_N px_shapes px_x px_y px_data px_ierr].
  assert (St : forall e, e < List.length stamps -> nth_error (map (fun k => size_of (firstn k stamps)) (seq 0 (List.length stamps))) e = Some (size_of (firstn e stamps))).
  { intros e He. rewrite nth_error_map. rewrite (nth_error_nth' _ 0) by (rewrite seq_length; lia). rewrite seq_nth by lia. reflexivity. }
  split; [now rewrite map_length, seq_length|]. split; [now rewrite map_length|].
  split; [rewrite St; [reflexivity|destruct stamps; [congruence|cbn; lia]]|].
  intros e s He. assert (Le : e < List.length stamps) by (apply nth_error_Some; congruence).
  exists (size_of (firstn e stamps)), (padded (npix s)). pose proof (padded_spec (npix s)) as [P1 P2].
  destruct (block_at st_xpix stamps e s (fun s i => proj1 (Hw s i)) He).
  destruct (block_at st_ypix stamps e s (fun s i => proj1 (proj2 (Hw s i))) He).
  destruct (block_at st_values stamps e s (fun s i => proj1 (proj2 (proj2 (Hw s i)))) He).
  destruct (block_at st_ierr stamps e s (fun s i => proj2 (proj2 (proj2 (Hw s i)))) He).
  split; [now apply St|]. split; [now rewrite nth_error_map, He|]. split; [now rewrite nth_error_map, He|].
  split; [apply size_mod|]. split; [assumption|]. split; [assumption|]. do 8 (split; [assumption|]). split.
  - intros L. rewrite St by assumption. f_equal. now apply size_firstn.
  - intros L. rewrite <- (size_firstn _ _ _ He), L, firstn_all. repeat split; apply blocks_length; intros; now apply Hw.
Qed.

(** An exposure belongs to the run of exactly one band, the one with its identifier *)
Theorem C61_bands stamps npsf sources mask p : static_patch stamps npsf sources mask = Some p -> (forall s, In s stamps -> wf s) ->
  let px := pt_pixels p in
  List.length (px_band_N px) = pt_bands p /\ list_sum (px_band_N px) = List.length stamps /\
  forall b bs bn, nth_error (px_band_start px) b = Some bs -> nth_error (px_band_N px) b = Some bn ->
    exists v, (forall e s, nth_error stamps e = Some s -> (bs <= e < bs + bn <-> st_band s = v)) /\ 0 < bn /\
      (forall b' v', nth_error (np_unique (map st_band stamps)) b' = Some v' -> (b' = b <-> v' = v)).
Proof.
  intros H Hw px. destruct (built_pixels _ _ _ _ _ H Hw) as (Sd & Eb & _ & _ & N & Ep & _). 
  rewrite (pack_pix_closed zero stamps Sd Hw N) in Ep. injection Ep as Ep. set (W := map st_band stamps) in *. subst px. rewrite <- Ep. clear Ep H.
  cbn [px_band_N px_band_start]. fold W. split; [unfold unique_counts; now rewrite map_length|]. split; [rewrite sum_counts; unfold W; apply map_length|].
  intros b bs bn H1 H2.
  assert (Lb : b < List.length (unique_counts W)) by (apply nth_error_Some; congruence).
  unfold unique_counts in H2. rewrite nth_error_map in H2. destruct (nth_error (np_unique W) b) as [v|] eqn:Ev; [|discriminate]. injection H2 as <-.
  pose proof (firstn_cumsum (unique_counts W) b Lb) as F. rewrite (nth_error_nth _ _ 0 H1), (below_counts W b v Ev) in F. subst bs.
  assert (Hv : In v W) by (apply in_unique; eapply nth_error_In; eauto).
  exists v. split; [|split].
  - intros e s He. assert (HW : nth_error W e = Some (st_band s)) by (unfold W; now rewrite nth_error_map, He).
    rewrite <- (sorted_block W Sd v e) by (apply nth_error_Some; congruence). rewrite HW. split; congruence.
  - now apply count_occ_In.
  - intros b' v' Hb'. split; [intros ->; congruence|intros ->]. rewrite <- (unique_rank_inv _ _ _ Ev), <- (unique_rank_inv _ _ _ Hb'). reflexivity.
Qed.

(** What the scene declares: a number of gaussians per band that every source has in every exposure of the band *)
Definition declared (stamps : list stamp) (n : list nat) (sources : list source) : Prop :=
  forall e st so, nth_error stamps e = Some st -> In so sources ->
    exists l, psfgauss so e = Some l /\ nth_error n (rank (map st_band stamps) (st_band st)) = Some (List.length l).
Lemma active_le (sources : list source) : n_active sources <= List.length sources.
Proof. apply filter_length_le. Qed.
Lemma sum_map_mul {A} (f : A -> nat) k l : list_sum (map (fun x => f x * k) l) = list_sum (map f l) * k.
Proof. induction l as [|a l IH]; [reflexivity|]. cbn [map]. unfold list_sum in *; cbn [fold_right]. lia. Qed.
Lemma gausses_length e k (l : list source) : (forall s, In s l -> List.length (gauss_of e s) = k) -> List.length (gausses e l) = k * List.length l.
Proof.
  unfold gausses. rewrite map_length. induction l as [|s l IH]; intros H; cbn [flat_map List.length]; [lia|].
  rewrite app_length, IH by (intros; apply H; now right). rewrite (H s) by now left. lia.
Qed.
Section Closed.
Variables (stamps : list stamp) (npsf n : list nat) (sources : list source).
Let W := map st_band stamps.
Hypothesis sorted : StronglySorted le W.
Hypothesis filled : fill (List.length (np_unique W)) npsf = Some n.
Hypothesis decl : declared stamps n sources.
Hypothesis active : n_active sources = List.length sources.
Definition per_exposure : list nat := map (fun v => nth (rank W v) n 0) W.
Lemma n_length : List.length n = List.length (np_unique W).
Proof.
  revert filled. unfold fill. destruct npsf as [|a [|b t]].
  - destruct (Nat.eqb_spec (List.length (@nil nat)) (List.length (np_unique W))); [|discriminate]. intros E. now injection E as <-.
  - intros E. injection E as <-. apply repeat_length.
  - destruct (Nat.eqb_spec (List.length (a :: b :: t)) (List.length (np_unique W))); [|discriminate]. intros E. now injection E as <-.
Qed.
Lemma per_length : List.length per_exposure = List.length stamps.
Proof. unfold per_exposure, W. now rewrite !map_length. Qed.
Lemma gauss_length e so : e < List.length stamps -> In so sources -> psfgauss so e = Some (gauss_of e so) /\ List.length (gauss_of e so) = nth e per_exposure 0.
Proof.
  intros He Hs. destruct (nth_error stamps e) as [st|] eqn:E; [|apply nth_error_None in E; lia].
  destruct (decl e st so E Hs) as (l & El & Hn). unfold gauss_of. rewrite El. split; [reflexivity|].
  assert (X : nth_error per_exposure e = Some (nth (rank W (st_band st)) n 0)) by (unfold per_exposure, W; now rewrite !nth_error_map, E).
  rewrite (nth_error_nth _ _ 0 X). symmetry. exact (nth_error_nth _ _ 0 Hn).
Qed.
Lemma each_length e : e < List.length stamps -> List.length (gausses e sources) = nth e per_exposure 0 * List.length sources.
Proof. intros He. apply gausses_length. intros s Hs. now apply gauss_length. Qed.
Lemma first_lengths k : k <= List.length stamps ->
  list_sum (map (fun e => List.length (gausses e sources)) (seq 0 k)) = list_sum (firstn k per_exposure) * List.length sources.
Proof.
  intros Hk. rewrite (map_ext_in _ (fun e => nth e per_exposure 0 * List.length sources)) by (intros e He; apply in_seq in He; apply each_length; lia).
  rewrite sum_map_mul. f_equal. f_equal. apply nth_error_ext. intros i. destruct (Nat.lt_ge_cases i k) as [Hi|Hi].
  - rewrite nth_error_map, (nth_error_nth' (seq 0 k) 0), seq_nth by (rewrite ?seq_length; lia). cbn [option_map Nat.add].
    symmetry. rewrite nth_error_firstn by assumption. apply nth_error_nth'. rewrite per_length. lia.
  - transitivity (@None nat); [apply nth_error_None; rewrite map_length, seq_length; lia|]. symmetry. apply nth_error_None. rewrite firstn_length. lia.
Qed.
Lemma nth_le_sum i (l : list nat) : nth i l 0 <= list_sum l.
Proof. revert i. induction l as [|a l IH]; intros [|i]; cbn; try lia. specialize (IH i). unfold list_sum in *. lia. Qed.
Lemma per_le : list_sum per_exposure <= list_sum n * List.length stamps.
Proof.
  replace (List.length stamps) with (List.length W) by (unfold W; apply map_length). unfold per_exposure.
  generalize W at 2 3 as U. induction U as [|v U IH]; [cbn; lia|]. cbn [map List.length]. unfold list_sum at 1; cbn [fold_right].
  fold (list_sum (map (fun v => nth (rank W v) n 0) U)). pose proof (nth_le_sum (rank W v) n). lia.
Qed.
Lemma pack_psf_closed : pack_psf (List.length (np_unique W)) (List.length stamps) (n_active sources) (unique_counts W) npsf sources
  = Some (mkPsfs n (match List.length stamps with O => [] | S _ => 0 :: map (fun c => c * List.length sources) (removelast (cumsum per_exposure)) end)
      (flat_map (fun e => gausses e sources) (seq 0 (List.length stamps))
       ++ repeat None (list_sum n * List.length stamps * List.length sources - list_sum per_exposure * List.length sources))).
Proof.
  unfold pack_psf. rewrite filled, active. rewrite (repeat_bands 0 n W sorted n_length). fold per_exposure.
  set (start := match List.length stamps with O => [] | S _ => _ end).
  pose proof (first_lengths (List.length stamps) (Nat.le_refl _)) as T. rewrite firstn_all2 in T by (rewrite per_length; lia).
  pose proof (psf_exposures_ok sources start (seq 0 (List.length stamps)) [] (list_sum n * List.length stamps * List.length sources) 0) as P.
  cbn [List.length app Nat.add] in P. rewrite P; clear P.
  - rewrite T. reflexivity.
  - now rewrite seq_length.
  - intros e s He Hs. apply in_seq in He. rewrite (proj1 (gauss_length e s ltac:(lia) Hs)). discriminate.
  - rewrite T. apply Nat.mul_le_mono_r, per_le.
  - rewrite seq_length. intros j Hj.
    assert (F : firstn (S j) (seq 0 (List.length stamps)) = seq 0 (S j)).
    { replace (List.length stamps) with (S j + (List.length stamps - S j)) by lia. rewrite seq_app, firstn_app, seq_length, Nat.sub_diag.
      rewrite firstn_all2 by (rewrite seq_length; lia). cbn [firstn]. apply app_nil_r. }
    rewrite F, first_lengths by lia. unfold start. destruct (List.length stamps) as [|m] eqn:Em; [lia|]. cbn [nth_error]. rewrite nth_error_map.
    pose proof per_length as PL. rewrite Em in PL.
    pose proof (firstn_cumsum per_exposure (S j) ltac:(lia)) as C. cbn [nth] in C.
    assert (RL : List.length (removelast (cumsum per_exposure)) = m).
    { unfold cumsum. rewrite cumsum_from_removelast, cumsum_from_length. destruct per_exposure as [|x l] eqn:Ex; [discriminate|].
      rewrite (app_removelast_last 0 (l := x :: l)) in PL by discriminate. rewrite app_length in PL. cbn [List.length] in PL. lia. }
    rewrite (nth_error_nth' _ 0) by lia. cbn [option_map]. now rewrite C.
Qed.
End Closed.

Lemma flat_at {A} (f : nat -> list A) m e : e < m -> exists P Q, flat_map f (seq 0 m) = P ++ f e ++ Q /\ List.length P = list_sum (map (fun i => List.length (f i)) (seq 0 e)).
Proof.
  intros H. exists (flat_map f (seq 0 e)), (flat_map f (seq (S e) (m - S e))). split.
  - replace m with (e + S (m - S e)) at 1 by lia. rewrite seq_app, flat_map_app. reflexivity.
  - clear H. generalize 0. induction e as [|e IH]; intros a; [reflexivity|]. cbn [seq flat_map map]. unfold list_sum; cbn [fold_right]. rewrite app_length. f_equal. apply IH.
Qed.
Lemma flat_source {A} (f : source -> list A) k l : forall i s, (forall s, In s l -> List.length (f s) = k) -> nth_error l i = Some s ->
  exists P Q, flat_map f l = P ++ f s ++ Q /\ List.length P = i * k.
Proof.
  induction l as [|a l IH]; intros [|i] s H Hi; cbn in Hi; try discriminate.
  - injection Hi as ->. exists [], (flat_map f l). split; reflexivity.
  - destruct (IH i s ltac:(intros; apply H; now right) Hi) as (P & Q & E & L). exists (f a ++ P), Q. cbn [flat_map].
    rewrite E, <- app_assoc. split; [reflexivity|]. rewrite app_length, L, (H a) by now left. reflexivity.
Qed.

(** The gaussians of a source in an exposure: those of that exposure's PSFs, one PSF for every radius, radius after
    radius, each with the number of its radius *)
Lemma gaussians_from : forall (ps : list (list Gauss)) b, List.length (concat (map (fun rp => map (fun g => (g, fst rp)) (snd rp)) (combine (seq b (List.length ps)) ps))) = list_sum (map (@List.length Gauss) ps) /\
  forall r psf j g, nth_error ps r = Some psf -> nth_error psf j = Some g ->
    nth_error (concat (map (fun rp => map (fun g => (g, fst rp)) (snd rp)) (combine (seq b (List.length ps)) ps))) (list_sum (map (@List.length Gauss) (firstn r ps)) + j) = Some (g, b + r).
Proof.
  induction ps as [|a ps IH]; intros b; [split; [reflexivity|intros [|r] ? ? ? H; discriminate]|].
  destruct (IH (S b)) as [L N]. cbn [List.length seq combine map concat fst snd]. split.
  - rewrite app_length, map_length, L. reflexivity.
  - intros [|r] psf j g Hr Hj; cbn [nth_error] in Hr.
    + injection Hr as ->. cbn [firstn map]. unfold list_sum; cbn [fold_right]. rewrite nth_error_app1 by (rewrite map_length; cbn; apply nth_error_Some; congruence).
      cbn [Nat.add]. rewrite nth_error_map, Hj. cbn. now rewrite Nat.add_0_r.
    + cbn [firstn map]. unfold list_sum; cbn [fold_right]. fold (list_sum (map (@List.length Gauss) (firstn r ps))).
      rewrite nth_error_app2 by (rewrite map_length; lia). rewrite map_length.
      match goal with |- nth_error _ ?k = _ => replace k with (list_sum (map (@List.length Gauss) (firstn r ps)) + j) by lia end.
      rewrite (N r psf j g Hr Hj). f_equal. f_equal. lia.
Qed.
Theorem C61_gaussians (so : source) e :
  (forall l, psfgauss so e = Some l -> exists ps, nth_error (so_psfs so) e = Some ps /\ List.length ps = List.length (so_radii so) /\
    List.length l = list_sum (map (@List.length Gauss) ps) /\
    forall r psf j g, nth_error ps r = Some psf -> nth_error psf j = Some g -> nth_error l (list_sum (map (@List.length Gauss) (firstn r ps)) + j) = Some (g, r)) /\
  (forall ps, nth_error (so_psfs so) e = Some ps -> List.length ps = List.length (so_radii so) -> psfgauss so e <> None).
Proof.
  unfold psfgauss. destruct (nth_error (so_psfs so) e) as [ps|]; [|split; discriminate]. destruct (Nat.eqb_spec (List.length ps) (List.length (so_radii so))) as [E|E].
  - split; [|discriminate]. intros l H. injection H as <-. exists ps. destruct (gaussians_from ps 0) as [L N]. now rewrite L.
  - split; [discriminate|]. intros q H. injection H as <-. contradiction.
Qed.

(** The table of PSF gaussians: those of a source in an exposure stand where start, number per band and place of
    the source say, nothing overlaps and nothing is left unset below the end *)
Theorem C61_psf stamps npsf sources mask p : static_patch stamps npsf sources mask = Some p -> (forall s, In s stamps -> wf s) ->
  declared stamps (ps_n (pt_psfs p)) sources ->
  forall e st i so l, nth_error stamps e = Some st -> nth_error sources i = Some so -> psfgauss so e = Some l ->
    exists k n, nth_error (ps_start (pt_psfs p)) e = Some k /\ nth_error (ps_n (pt_psfs p)) (rank (map st_band stamps) (st_band st)) = Some n /\
      n = List.length l /\ slice (k + i * n) n (ps_gauss (pt_psfs p)) = map Some l /\
      (e = 0 -> k = 0) /\ (S e < List.length stamps -> nth_error (ps_start (pt_psfs p)) (S e) = Some (k + pt_n_sources p * n)) /\
      k + pt_n_sources p * n <= List.length (ps_gauss (pt_psfs p)).
Proof.
  intros H Hw D e st i so l He Hi Hl.
  destruct (built_pixels _ _ _ _ _ H Hw) as (Sd & _ & _ & Ens & N & _ & Ea & Ep). clear H.
  assert (Le : e < List.length stamps) by (apply nth_error_Some; congruence).
  (* no fixed sources: a row of the astrometry would not do *)
  assert (Act : n_active sources = List.length sources).
  { unfold pack_astrometry in Ea. destruct sources as [|first rest] eqn:Es; [destruct i; discriminate|]. rewrite <- Es in *.
    destruct (mapM (fun i => option_map (fun p => repeat p (n_active sources)) (at_exposure so_crpixs i first)) (seq 0 (List.length stamps))); [|discriminate].
    destruct (mapM (fun i => option_map (fun p => repeat p (n_active sources)) (at_exposure so_crvals i first)) (seq 0 (List.length stamps))); [|discriminate].
    destruct (mapM (fun i => at_exposure so_zps i first) (seq 0 (List.length stamps))); [|discriminate].
    destruct (mapM (fun i => row_of (n_active sources) (at_exposure so_scales i) sources) (seq 0 (List.length stamps))) as [d|] eqn:Ed; [|discriminate].
    destruct (mapM_nth _ _ _ Ed) as [_ Hd]. destruct (Hd e e) as (r & _ & Hr); [rewrite (nth_error_nth' _ 0), seq_nth by (rewrite ?seq_length; lia); reflexivity|].
    unfold row_of in Hr. destruct (mapM (at_exposure so_scales e) sources) as [ms|] eqn:Em; [|discriminate].
    destruct (Nat.leb_spec (List.length ms) (n_active sources)) as [Hle|]; [|discriminate]. rewrite (mapM_length _ _ _ Em) in Hle.
    pose proof (active_le sources). lia. }
  assert (F : exists n, fill (List.length (np_unique (map st_band stamps))) npsf = Some n).
  { unfold pack_psf in Ep. destruct (fill _ npsf) as [n|]; [eauto|discriminate]. }
  destruct F as [n F].
  assert (En : ps_n (pt_psfs p) = n).
  { unfold pack_psf in Ep. rewrite F in Ep. match type of Ep with match ?x with _ => _ end = _ => destruct x as [[arr c]|]; [|discriminate] end. now injection Ep as <-. }
  rewrite En in *. rewrite (pack_psf_closed stamps npsf n sources Sd F D Act) in Ep. injection Ep as Ep. rewrite <- Ep in *. clear Ep En. cbn [ps_start ps_gauss ps_n].
  rewrite Ens, Act. set (per := per_exposure stamps n).
  destruct (gauss_length stamps n sources D Act e so Le (nth_error_In _ _ Hi)) as [G1 G2]. fold per in G2. rewrite Hl in G1. injection G1 as G1. rewrite <- G1 in G2.
  pose proof (per_length stamps n) as PL. fold per in PL.
  assert (St : forall j, j < List.length stamps -> nth_error (match List.length stamps with O => [] | S _ => 0 :: map (fun c => c * List.length sources) (removelast (cumsum per)) end) j
             = Some (list_sum (firstn j per) * List.length sources)).
  { intros j Hj. destruct (List.length stamps) as [|m] eqn:Em; [lia|]. destruct j as [|j]; [reflexivity|]. cbn [nth_error]. rewrite nth_error_map.
    pose proof (firstn_cumsum per (S j) ltac:(lia)) as C. cbn [nth] in C.
    assert (RL : List.length (removelast (cumsum per)) = m).
    { unfold cumsum. rewrite cumsum_from_removelast, cumsum_from_length. clear - PL. destruct per as [|x t] eqn:Ex; [discriminate|].
      rewrite (app_removelast_last 0 (l := x :: t)) in PL by discriminate. rewrite app_length in PL. cbn [List.length] in PL. lia. }
    rewrite (nth_error_nth' _ 0) by lia. cbn [option_map]. now rewrite C. }
  assert (Nn : nth_error n (rank (map st_band stamps) (st_band st)) = Some (List.length l)).
  { destruct (D e st so He (nth_error_In _ _ Hi)) as (l' & El' & Hn'). congruence. }
  assert (Sum : list_sum (firstn (S e) per) = list_sum (firstn e per) + List.length l).
  { assert (X : nth_error per e = Some (List.length l)) by (rewrite (nth_error_nth' per 0), G2 by lia; reflexivity).
    clear - X. revert e X. induction per as [|x t IH]; intros [|e] X; cbn in X; try discriminate; [injection X as ->; cbn; lia|].
    change (firstn (S (S e)) (x :: t)) with (x :: firstn (S e) t). change (firstn (S e) (x :: t)) with (x :: firstn e t). specialize (IH e X). unfold list_sum in *; cbn [fold_right]. lia. }
  exists (list_sum (firstn e per) * List.length sources), (List.length l).
  split; [now apply St|]. split; [assumption|]. split; [reflexivity|].
  destruct (flat_at (fun e => gausses e sources) (List.length stamps) e Le) as (P & Q & EP & LP). cbv beta in EP, LP. rewrite EP.
  rewrite (first_lengths stamps n sources D Act e) in LP by lia. fold per in LP.
  pose proof (each_length stamps n sources D Act e Le) as LE. fold per in LE. rewrite <- G2 in LE.
  split; [|split; [intros ->; reflexivity|split]].
  - destruct (flat_source (fun s => map Some (gauss_of e s)) (List.length l) sources i so) as (P1 & Q1 & E1 & L1); [|assumption|].
    { intros s Hs. rewrite map_length, (proj2 (gauss_length stamps n sources D Act e s Le Hs)). fold per. now symmetry. }
    assert (E2 : gausses e sources = P1 ++ map Some (gauss_of e so) ++ Q1).
    { rewrite <- E1. unfold gausses. clear. induction sources as [|a t IH]; [reflexivity|]. cbn [flat_map]. now rewrite map_app, IH. }
    rewrite <- G1 in E2. eapply (slice_at (P ++ P1)); [rewrite E2, <- !app_assoc; reflexivity|rewrite app_length; lia|apply map_length].
  - intros L. rewrite (St (S e) L), Sum. f_equal. lia.
  - rewrite !app_length, LE. lia.
Qed.

(** Nothing else fails: a well formed scene of active sources makes a patch *)
Theorem C61_built stamps npsf n sources mask :
  stamps <> [] -> sources <> [] -> nondecreasing (map st_band stamps) = true -> (forall s, In s stamps -> wf s) -> (mask = None \/ mask = Some [] \/ mask = Some [false]) ->
  (forall so, In so sources -> so_fixed so = false) -> fill (List.length (np_unique (map st_band stamps))) npsf = Some n -> declared stamps n sources ->
  (forall so, In so sources -> List.length (so_crpixs so) = List.length stamps /\ List.length (so_crvals so) = List.length stamps /\ List.length (so_zps so) = List.length stamps /\
      List.length (so_scales so) = List.length stamps /\ List.length (so_cds so) = List.length stamps) ->
  exists p, static_patch stamps npsf sources mask = Some p /\ ps_n (pt_psfs p) = n /\ pt_n_sources p = List.length sources /\ pt_n_exp p = List.length stamps.
Proof.
  intros N Ns Sd Hw Hm Hf F D Ha. unfold StaticModel.static_patch. rewrite Sd. cbn [negb]. apply nondecreasing_sorted in Sd.
  replace (as_dtype mask) with true by (destruct Hm as [->|[->| ->]]; reflexivity). cbn [negb]. rewrite (pack_pix_closed zero stamps Sd Hw N). cbn [px_band_N].
  assert (Act : n_active sources = List.length sources).
  { unfold n_active. f_equal. clear - Hf. induction sources as [|a t IH]; [reflexivity|]. cbn [filter]. rewrite (Hf a) by now left. cbn [negb]. f_equal. apply IH. intros; apply Hf; now right. }
  destruct sources as [|first rest] eqn:Es; [congruence|]. rewrite <- Es in *.
  assert (Hfirst : In first sources) by (subst; now left).
  unfold pack_source_metadata. rewrite Es. rewrite <- Es. rewrite (pack_psf_closed stamps npsf n sources Sd F D Act).
  assert (T : forall {B} (f : nat -> option B), (forall i, i < List.length stamps -> f i <> None) -> exists r, mapM f (seq 0 (List.length stamps)) = Some r).
  { intros B f Hf'. assert (G : forall l, (forall i, In i l -> f i <> None) -> exists r, mapM f l = Some r).
    { induction l as [|a t IH]; intros Hl; [exists []; reflexivity|]. cbn [mapM]. destruct (f a) eqn:E; [|exfalso; apply (Hl a); [now left|assumption]].
      destruct IH as [r ->]; [intros; apply Hl; now right|]. eexists; reflexivity. }
    apply G. intros i Hi. apply in_seq in Hi. apply Hf'. lia. }
  destruct (Ha first Hfirst) as (A1 & A2 & A3 & _).
  assert (R : forall g : source -> list Mat, (forall so, In so sources -> List.length (g so) = List.length stamps) -> forall i, i < List.length stamps -> row_of (n_active sources) (at_exposure g i) sources <> None).
  { intros g Hg i Hi. unfold row_of.
    assert (G : forall l, (forall so, In so l -> List.length (g so) = List.length stamps) -> exists r, mapM (at_exposure g i) l = Some r).
    { induction l as [|a t IH]; intros Hl; [exists []; reflexivity|]. cbn [mapM]. unfold at_exposure at 1.
      destruct (nth_error (g a) i) eqn:E; [|apply nth_error_None in E; rewrite (Hl a) in E by (now left); lia].
      destruct IH as [r ->]; [intros; apply Hl; now right|]. eexists; reflexivity. }
    destruct (G sources Hg) as [r Er]. rewrite Er, (mapM_length _ _ _ Er), Act, Nat.leb_refl. discriminate. }
  assert (PA : exists a, pack_astrometry (List.length stamps) (n_active sources) sources = Some a).
  { unfold pack_astrometry. rewrite Es. rewrite <- Es.
    destruct (T _ (fun i => option_map (fun p => repeat p (n_active sources)) (at_exposure so_crpixs i first))) as [r1 ->].
    { intros i Hi. unfold at_exposure. destruct (nth_error (so_crpixs first) i) eqn:E; [discriminate|]. apply nth_error_None in E. lia. }
    destruct (T _ (fun i => option_map (fun p => repeat p (n_active sources)) (at_exposure so_crvals i first))) as [r2 ->].
    { intros i Hi. unfold at_exposure. destruct (nth_error (so_crvals first) i) eqn:E; [discriminate|]. apply nth_error_None in E. lia. }
    destruct (T _ (fun i => at_exposure so_zps i first)) as [r3 ->].
    { intros i Hi. unfold at_exposure. destruct (nth_error (so_zps first) i) eqn:E; [discriminate|]. apply nth_error_None in E. lia. }
    destruct (T _ (fun i => row_of (n_active sources) (at_exposure so_scales i) sources)) as [r4 ->]; [apply R; intros; now apply Ha|].
    destruct (T _ (fun i => row_of (n_active sources) (at_exposure so_cds i) sources)) as [r5 ->]; [apply R; intros; now apply Ha|].
    eexists; reflexivity. }
  destruct PA as [a ->]. eexists. split; [reflexivity|]. cbn [pt_psfs ps_n pt_n_sources pt_n_exp]. auto.
Qed.

(** Stamps that are not sorted by band, a mask of pixels, or a fixed source stop the construction *)
Theorem C61_unsorted stamps npsf sources mask i j a b : nth_error stamps i = Some a -> nth_error stamps j = Some b -> i < j -> st_band b < st_band a ->
  static_patch stamps npsf sources mask = None.
Proof.
  intros Ha Hb Hij Hlt. unfold StaticModel.static_patch. destruct (nondecreasing (map st_band stamps)) eqn:E; [|reflexivity]. exfalso.
  apply nondecreasing_sorted in E. destruct (nth_error_split _ _ Ha) as (A & B & Es & L).
  rewrite Es, nth_error_app2 in Hb by lia. replace (j - List.length A) with (S (j - i - 1)) in Hb by lia. cbn [nth_error] in Hb.
  rewrite Es, map_app in E. apply sorted_app_r in E. cbn [map] in E. inversion E as [|? ? _ Fa]; subst. rewrite Forall_forall in Fa.
  specialize (Fa (st_band b) (in_map _ _ _ (nth_error_In _ _ Hb))). lia.
Qed.
Theorem C61_mask_refuted stamps npsf sources m : m <> [] -> m <> [false] -> static_patch stamps npsf sources (Some m) = None.
Proof.
  intros M1 M2. unfold StaticModel.static_patch. destruct (nondecreasing (map st_band stamps)); [|reflexivity]. cbn [negb].
  destruct m as [|[|] [|b m]]; try congruence; reflexivity.
Qed.
Theorem C61_fixed_refuted stamps npsf sources mask so : stamps <> [] -> In so sources -> so_fixed so = true -> static_patch stamps npsf sources mask = None.
Proof.
  intros N Hs Hf. unfold StaticModel.static_patch. destruct (nondecreasing (map st_band stamps)); [|reflexivity]. cbn [negb].
  destruct (as_dtype mask); [|reflexivity]. cbn [negb]. destruct (pack_pix zero _ stamps); [|reflexivity].
  destruct sources as [|first rest] eqn:Es; [reflexivity|]. unfold pack_source_metadata. rewrite <- Es in *.
  assert (Lt : n_active sources < List.length sources).
  { clear - Hs Hf. unfold n_active. induction sources as [|a t IH]; [contradiction|]. cbn [filter List.length]. pose proof (filter_length_le (fun s => negb (so_fixed s)) t).
    destruct Hs as [->|Hs]; [rewrite Hf; cbn [negb]; lia|]. specialize (IH Hs). destruct (negb (so_fixed a)); cbn [List.length]; lia. }
  assert (PA : pack_astrometry (List.length stamps) (n_active sources) sources = None).
  { unfold pack_astrometry. rewrite Es. rewrite <- Es.
    assert (R : forall g : source -> list Mat, row_of (n_active sources) (at_exposure g 0) sources = None).
    { intros g. unfold row_of. destruct (mapM (at_exposure g 0) sources) as [l|] eqn:El; [|reflexivity]. rewrite (mapM_length _ _ _ El). destruct (Nat.leb_spec (List.length sources) (n_active sources)); [lia|reflexivity]. }
    assert (X : mapM (fun i => row_of (n_active sources) (at_exposure so_scales i) sources) (seq 0 (List.length stamps)) = None).
    { destruct stamps as [|s0 ss]; [congruence|]. cbn [List.length seq mapM]. now rewrite R. }
    rewrite X. repeat match goal with |- match ?x with _ => _ end = _ => destruct x; try reflexivity end. }
  rewrite PA. reflexivity.
Qed.

(** Scale and distortion matrices are those of each source; reference pixel, position and zero point are the first
    source's for all *)
Theorem C61_astrometry stamps npsf sources mask p : static_patch stamps npsf sources mask = Some p -> (forall s, In s stamps -> wf s) ->
  forall e i so first, e < List.length stamps -> nth_error sources i = Some so -> nth_error sources 0 = Some first ->
    exists rd rc m c px cr, nth_error (as_D (pt_astro p)) e = Some rd /\ nth_error rd i = Some (Some m) /\ nth_error (so_scales so) e = Some m /\
      nth_error (as_CW (pt_astro p)) e = Some rc /\ nth_error rc i = Some (Some c) /\ nth_error (so_cds so) e = Some c /\
      nth_error (as_crpix (pt_astro p)) e = Some (repeat px (pt_n_sources p)) /\ nth_error (so_crpixs first) e = Some px /\
      nth_error (as_crval (pt_astro p)) e = Some (repeat cr (pt_n_sources p)) /\ nth_error (so_crvals first) e = Some cr /\
      nth_error (as_G (pt_astro p)) e = nth_error (so_zps first) e /\ List.length rd = pt_n_sources p /\ List.length rc = pt_n_sources p.
Proof.
  intros H Hw e i so first He Hi Hf. destruct (built_pixels _ _ _ _ _ H Hw) as (_ & _ & _ & Ens & _ & _ & Ea & _). clear H.
  rewrite Ens. generalize dependent (n_active sources). intros k _ Ea. unfold pack_astrometry in Ea.
  destruct sources as [|f0 rest] eqn:Es; [discriminate|]. cbn in Hf. injection Hf as ->. rewrite <- Es in *.
  destruct (mapM (fun i => option_map (fun p => repeat p k) (at_exposure so_crpixs i first)) _) as [cp|] eqn:E1; [|discriminate].
  destruct (mapM (fun i => option_map (fun p => repeat p k) (at_exposure so_crvals i first)) _) as [cv|] eqn:E2; [|discriminate].
  destruct (mapM (fun i => at_exposure so_zps i first) _) as [g|] eqn:E3; [|discriminate].
  destruct (mapM (fun i => row_of k (at_exposure so_scales i) sources) _) as [d|] eqn:E4; [|discriminate].
  destruct (mapM (fun i => row_of k (at_exposure so_cds i) sources) _) as [cw|] eqn:E5; [|discriminate].
  injection Ea as <-. cbn [as_D as_CW as_crpix as_crval as_G].
  assert (Sq : nth_error (seq 0 (List.length stamps)) e = Some e) by (rewrite (nth_error_nth' _ 0), seq_nth by (rewrite ?seq_length; lia); reflexivity).
  destruct (proj2 (mapM_nth _ _ _ E1) e e Sq) as (y1 & N1 & F1). destruct (proj2 (mapM_nth _ _ _ E2) e e Sq) as (y2 & N2 & F2).
  destruct (proj2 (mapM_nth _ _ _ E3) e e Sq) as (y3 & N3 & F3). destruct (proj2 (mapM_nth _ _ _ E4) e e Sq) as (y4 & N4 & F4).
  destruct (proj2 (mapM_nth _ _ _ E5) e e Sq) as (y5 & N5 & F5). clear E1 E2 E3 E4 E5.
  assert (R : forall (gt : source -> list Mat) r, row_of k (at_exposure gt e) sources = Some r -> List.length r = k /\ exists m, nth_error r i = Some (Some m) /\ nth_error (gt so) e = Some m).
  { intros gt r Hr. unfold row_of in Hr. destruct (mapM (at_exposure gt e) sources) as [l|] eqn:El; [|discriminate].
    destruct (Nat.leb_spec (List.length l) k) as [Hk|]; [|discriminate]. injection Hr as <-. split; [rewrite app_length, map_length, repeat_length; lia|].
    destruct (proj2 (mapM_nth _ _ _ El) i so Hi) as (m & Nm & Fm). exists m. split; [|exact Fm].
    rewrite nth_error_app1 by (rewrite map_length; apply nth_error_Some; congruence). now rewrite nth_error_map, Nm. }
  destruct (R so_scales y4 F4) as (L4 & m & M1 & M2). destruct (R so_cds y5 F5) as (L5 & c & C1 & C2).
  unfold at_exposure in F1, F2, F3. destruct (nth_error (so_crpixs first) e) as [px|] eqn:X1; [|discriminate]. destruct (nth_error (so_crvals first) e) as [cr|] eqn:X2; [|discriminate].
  cbn in F1, F2. injection F1 as <-. injection F2 as <-. exists y4, y5, m, c, px, cr. rewrite F3. repeat (split; [assumption || reflexivity|]). assumption.
Qed.

(** Stamps with arrays of the wrong size are not packed; only a single value stands for all pixels *)
Lemma splice_length {A} (arr r vals : list A) i n : splice arr i n vals = Some r -> i + n <= List.length arr ->
  List.length r = List.length arr /\ (List.length vals = n \/ List.length vals = 1).
Proof.
  intros H L. unfold splice in H. rewrite !Nat.min_l in H by lia. replace (i + n - i) with n in H by lia.
  assert (X : forall v : list A, List.length v = n -> List.length (firstn i arr ++ v ++ skipn (i + n) arr) = List.length arr).
  { intros v Lv. rewrite !app_length, firstn_length, skipn_length. lia. }
  destruct vals as [|a [|b vals]].
  - destruct (Nat.eqb_spec (List.length (@nil A)) n) as [E|]; [|discriminate]. injection H as <-. split; [apply (X []); assumption|now left].
  - injection H as <-. split; [apply X, repeat_length|now right].
  - destruct (Nat.eqb_spec (List.length (a :: b :: vals)) n) as [E|]; [|discriminate]. injection H as <-. split; [now apply (X (a :: b :: vals))|now left].
Qed.
Definition fits (s : stamp) (l : list V) : Prop := List.length l = st_nx s * st_ny s \/ List.length l = 1.
Lemma loop_sizes total : forall l t t', pix_loop t l = Some t' -> tn_i t + size_of l <= total ->
  List.length (tn_x t) = total -> List.length (tn_y t) = total -> List.length (tn_data t) = total -> List.length (tn_ierr t) = total ->
  forall s, In s l -> fits s (st_xpix s) /\ fits s (st_ypix s) /\ fits s (st_values s) /\ fits s (st_ierr s).
Proof.
  induction l as [|a l IH]; intros t t' H Hs Lx Ly Ld Le s Hin; [contradiction|]. cbn [pix_loop] in H.
  destruct (pix_step t a) as [t1|] eqn:E; [|discriminate]. unfold pix_step in E.
  destruct (nth_error (tn_band_N t) _) as [c|]; [|discriminate].
  assert (Sz : size_of (a :: l) = padded (npix a) + size_of l) by reflexivity. pose proof (padded_spec (npix a)) as P.
  destruct (splice (tn_x t) (tn_i t) (npix a) (st_xpix a)) as [x|] eqn:Ex; [|discriminate].
  destruct (splice (tn_y t) (tn_i t) (npix a) (st_ypix a)) as [y|] eqn:Ey; [|discriminate].
  destruct (splice (tn_data t) (tn_i t) (npix a) (st_values a)) as [d|] eqn:Ed; [|discriminate].
  destruct (splice (tn_ierr t) (tn_i t) (npix a) (st_ierr a)) as [r|] eqn:Er; [|discriminate].
  apply splice_length in Ex; [|lia]. apply splice_length in Ey; [|lia]. apply splice_length in Ed; [|lia]. apply splice_length in Er; [|lia].
  destruct Hin as [<-|Hin]; [unfold fits; change (st_nx a * st_ny a) with (npix a); tauto|].
  assert (E1 : tn_i t1 = tn_i t + padded (npix a) /\ tn_x t1 = x /\ tn_y t1 = y /\ tn_data t1 = d /\ tn_ierr t1 = r).
  { match type of E with Some ?u = _ => assert (Et : t1 = u) by congruence end. rewrite Et. cbn [tn_i tn_x tn_y tn_data tn_ierr]. repeat split. unfold padded, warp_size. lia. }
  destruct E1 as (Ei & Fx & Fy & Fd & Fr).
  apply (IH t1 t' H); [lia|destruct Ex; congruence|destruct Ey; congruence|destruct Ed; congruence|destruct Er; congruence|assumption].
Qed.
Theorem C61_sizes stamps npsf sources mask p : static_patch stamps npsf sources mask = Some p ->
  forall s, In s stamps -> fits s (st_xpix s) /\ fits s (st_ypix s) /\ fits s (st_values s) /\ fits s (st_ierr s).
Proof.
  intros H. unfold StaticModel.static_patch in H. destruct (nondecreasing _); [|discriminate]. destruct (as_dtype mask); [|discriminate]. cbn [negb] in H.
  destruct (pack_pix zero _ stamps) as [px|] eqn:E; [|discriminate]. clear H. unfold pack_pix in E.
  match type of E with match ?x with _ => _ end = _ => destruct x as [t|] eqn:El; [|discriminate] end.
  assert (T : list_sum (map (fun n => (n + warp_size - 1) / warp_size * warp_size) (map npix stamps)) = size_of stamps).
  { rewrite map_map. unfold size_of. f_equal. apply map_ext. intros; apply padded_div. }
  rewrite T in El. apply (loop_sizes (size_of stamps) _ _ _ El); cbn [tn_i tn_x tn_y tn_data tn_ierr]; rewrite ?repeat_length; lia.
Qed.

(** No patch can be turned back into stamps *)
Theorem C61_back_refuted stamps npsf sources mask p : static_patch stamps npsf sources mask = Some p -> (forall s, In s stamps -> wf s) -> patch_to_stamps p = None.
Proof.
  intros H Hw. pose proof (C61_bands _ _ _ _ _ H Hw) as (_ & S1 & _). destruct (built_pixels _ _ _ _ _ H Hw) as (_ & _ & _ & _ & N & _).
  unfold patch_to_stamps. rewrite S1. destruct stamps; [congruence|reflexivity].
Qed.
End Props.
