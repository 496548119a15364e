(** Lemmas for the device patch: tiling of the pixel arrays, metadata lookups, and
    the model the kernel computes from packed metadata. *)
From Verif Require Import Np NpFacts ChainFacts KernelModel KernelFacts KernelSum PackModel PackFacts PackBuild PackProps PackPsf StoreFacts DeviceModel.
From Coq Require Import Reals Lra.
Open Scope R_scope.
Close Scope R_scope.
Open Scope nat_scope.

(** ** Tilings *)
Lemma seq_plus a n : map (fun k => a + k) (seq 0 n) = seq a n.
Proof. revert a. induction n as [|n IH]; intros a; simpl; auto. f_equal; [lia|]. rewrite <- seq_shift, map_map, <- (IH (S a)). apply map_ext. intros; lia. Qed.
Lemma tile l : flat_map (fun k => seq (list_sum (firstn k l)) (nth k l 0)) (seq 0 (List.length l)) = seq 0 (list_sum l).
Proof.
  assert (G : forall l s, flat_map (fun k => seq (s + list_sum (firstn k l)) (nth k l 0)) (seq 0 (List.length l)) = seq s (list_sum l)).
  { clear l. induction l as [|x l IH]; intros s; auto. cbn [List.length seq flat_map firstn nth].
    change (list_sum (x :: l)) with (x + list_sum l). change (list_sum []) with 0. rewrite Nat.add_0_r, seq_app. f_equal.
    rewrite <- seq_shift. rewrite flat_map_concat_map, map_map, <- flat_map_concat_map. rewrite <- (IH (s + x)).
    apply flat_map_ext. intros k. cbn [firstn nth]. change (list_sum (x :: firstn k l)) with (x + list_sum (firstn k l)). now rewrite Nat.add_assoc. }
  apply (G l 0).
Qed.
Lemma firstn_cumsum l : forall k, k < List.length l -> nth k (0 :: removelast (cumsum l)) 0 = list_sum (firstn k l).
Proof.
  unfold cumsum. assert (G : forall l s k, k < List.length l -> nth k (s :: removelast (cumsum_from s l)) 0 = s + list_sum (firstn k l)).
  { clear l. induction l as [|x l IH]; intros s k Hk; [simpl in Hk; lia|]. destruct k as [|k]; [simpl; lia|].
    cbn [cumsum_from]. destruct l as [|y l]; [simpl in Hk; lia|]. change (removelast (s + x :: cumsum_from (s + x) (y :: l))) with (s + x :: removelast (cumsum_from (s + x) (y :: l))).
    change (nth (S k) (s :: s + x :: removelast (cumsum_from (s + x) (y :: l))) 0) with (nth k (s + x :: removelast (cumsum_from (s + x) (y :: l))) 0).
    rewrite IH by (simpl in *; lia). change (firstn (S k) (x :: y :: l)) with (x :: firstn k (y :: l)). change (list_sum (x :: ?t)) with (x + list_sum t). lia. }
  intros k Hk. rewrite (G l 0 k Hk). reflexivity.
Qed.

(** ** A sequence of writes at distinct positions *)
Fixpoint writes {A} (l : list (nat * A)) (buf : list A) : list A :=
  match l with [] => buf | (i, v) :: t => writes t (upd i v buf) end.
Lemma writes_length {A} (l : list (nat * A)) buf : List.length (writes l buf) = List.length buf.
Proof. revert buf. induction l as [|[i v] l IH]; intros buf; simpl; auto. now rewrite IH, upd_length. Qed.
Lemma writes_app {A} (l m : list (nat * A)) buf : writes (l ++ m) buf = writes m (writes l buf).
Proof. revert buf. induction l as [|[i v] l IH]; intros buf; simpl; auto. Qed.
Lemma writes_other {A} (l : list (nat * A)) : forall buf i, ~ In i (map fst l) -> nth_error (writes l buf) i = nth_error buf i.
Proof.
  induction l as [|[j v] l IH]; intros buf i H; simpl in *; auto. rewrite IH by tauto. rewrite nth_error_upd.
  destruct (Nat.eqb_spec j i); [tauto|reflexivity].
Qed.
Lemma writes_at {A} (l : list (nat * A)) : forall buf i v, NoDup (map fst l) -> In (i, v) l -> i < List.length buf ->
  nth_error (writes l buf) i = Some v.
Proof.
  induction l as [|[j w] l IH]; intros buf i v ND Hin Hi; [easy|]. simpl in ND. inversion ND; subst. destruct Hin as [E|Hin].
  - injection E as -> ->. simpl. rewrite writes_other by auto. rewrite nth_error_upd, Nat.eqb_refl.
    destruct (Nat.ltb_spec i (List.length buf)); [reflexivity|lia].
  - simpl. apply IH; auto. now rewrite upd_length.
Qed.
Lemma fold_writes {A B} (f : B -> list (nat * A)) (step : list A -> B -> list A) (l : list B) :
  (forall buf b, In b l -> step buf b = writes (f b) buf) -> forall buf, fold_left step l buf = writes (flat_map f l) buf.
Proof.
  induction l as [|b l IH]; intros H buf; simpl; auto. rewrite writes_app, H by (simpl; auto). apply IH. intros; apply H; simpl; auto.
Qed.

Lemma flat_single {A B} (f : A -> B) l : flat_map (fun a => [f a]) l = map f l.
Proof. induction l; simpl; congruence. Qed.

Section Residual.
Context (P : Patch) (n_bands : nat) (src : nat -> KSource).
Definition pixel_writes (b e : nat) : list (nat * R) :=
  map (fun p => (exposure_start P e + p, residual_at P b src e (exposure_start P e + p))) (seq 0 (exposure_N P e)).
Definition all_writes : list (nat * R) :=
  flat_map (fun b => flat_map (fun e => pixel_writes b (band_start P b + e)) (seq 0 (band_N P b))) (seq 0 n_bands).
Lemma write_residual_writes buf : write_residual P n_bands src buf = writes all_writes buf.
Proof.
  unfold write_residual, all_writes. apply fold_writes. intros buf1 b _. apply fold_writes. intros buf2 e _. cbv zeta.
  unfold pixel_writes. rewrite (fold_writes (fun p => [(exposure_start P (band_start P b + e) + p, residual_at P b src (band_start P b + e) (exposure_start P (band_start P b + e) + p))])).
  - rewrite flat_single. reflexivity.
  - intros buf3 p _. cbn [writes]. now rewrite residual_at_correct.
Qed.
Lemma write_residual_length buf : List.length (write_residual P n_bands src buf) = List.length buf.
Proof. rewrite write_residual_writes. apply writes_length. Qed.
End Residual.

(** ** The tables of a built patch *)
Section Built.
Variables (sub : R -> R -> R) (allbands : list string) (exps : list (exposure R)) (offsets : option (list R)) (E : env).
Hypothesis built : build_patch sub allbands exps offsets = Some (pk E).
Hypothesis lengths : Forall aligned exps.
Hypothesis bands_ok : bands E = map x_band exps.
Hypothesis wcs_ok : List.length (wcses E) = List.length exps.
(** The store declares the size of the first PSF table of every band in the patch *)
Hypothesis psf_ok : forall b, In b (map x_band exps) -> psf_attr E b = Some (List.length (nth 0 (psf_parameters E b) [])).

Notation NB := (List.length (bandlist (pk E))).
Lemma npix_sum : List.length (pk_data (pk E)) = list_sum (pk_exposure_N (pk E)).
Proof.
  pose proof (build_sound sub _ _ _ _ built) as (_ & Ho & _). rewrite (built_closed sub _ _ _ _ built lengths). cbn [closed_form pk_data pk_exposure_N].
  rewrite <- (attach_flux sub exps offsets Ho). generalize (attach exps offsets) as l. induction l as [|x l IH]; auto.
  cbn [flat_map map]. rewrite app_length, IH. reflexivity.
Qed.
Lemma exposure_tiles e : e < List.length exps -> nth e (pk_exposure_start (pk E)) 0 = list_sum (firstn e (pk_exposure_N (pk E))).
Proof.
  intros He. rewrite (built_closed sub _ _ _ _ built lengths). cbn [closed_form pk_exposure_start pk_exposure_N].
  rewrite (nth_indep _ 0 ((fun k => list_sum (firstn k (npixels exps))) 0)) by now rewrite map_length, seq_length.
  rewrite (map_nth (fun k => list_sum (firstn k (npixels exps)))). now rewrite seq_nth.
Qed.
Lemma band_tiles k : k < NB -> nth k (pk_band_start (pk E)) 0 = list_sum (firstn k (pk_band_N (pk E))).
Proof.
  intros Hk. rewrite (built_closed sub _ _ _ _ built lengths) in *. cbn [closed_form bandlist pk_band_start pk_band_N] in *. apply firstn_cumsum.
  unfold unique_counts. rewrite map_length in *. exact Hk.
Qed.
Lemma band_total : list_sum (pk_band_N (pk E)) = List.length exps /\ List.length (pk_band_N (pk E)) = NB /\ List.length (pk_exposure_N (pk E)) = List.length exps.
Proof.
  rewrite (built_closed sub _ _ _ _ built lengths). cbn [closed_form bandlist pk_band_N pk_exposure_N]. rewrite count_occ_sum. unfold unique_counts, ids, npixels.
  now rewrite !map_length.
Qed.
(** The writes of one kernel pass go to every pixel once, in order. *)
Lemma writes_tile m data src : map fst (all_writes (kernel_patch E m data) NB src) = seq 0 (List.length (pk_data (pk E))).
Proof.
  destruct band_total as (Hs & Hb & He). rewrite npix_sum, <- tile, He.
  transitivity (flat_map (fun e => seq (list_sum (firstn e (pk_exposure_N (pk E)))) (nth e (pk_exposure_N (pk E)) 0))
      (flat_map (fun k => seq (list_sum (firstn k (pk_band_N (pk E)))) (nth k (pk_band_N (pk E)) 0)) (seq 0 (List.length (pk_band_N (pk E)))))); [|now rewrite tile, Hs].
  unfold all_writes. rewrite Hb.
  assert (G : forall l, (forall k, In k l -> k < NB) ->
    map fst (flat_map (fun b => flat_map (fun e => pixel_writes (kernel_patch E m data) src b (band_start (kernel_patch E m data) b + e)) (seq 0 (band_N (kernel_patch E m data) b))) l)
    = flat_map (fun e => seq (list_sum (firstn e (pk_exposure_N (pk E)))) (nth e (pk_exposure_N (pk E)) 0))
        (flat_map (fun k => seq (list_sum (firstn k (pk_band_N (pk E)))) (nth k (pk_band_N (pk E)) 0)) l)).
  { induction l as [|k l IH]; intros Hl; auto. cbn [flat_map]. rewrite map_app, flat_map_app, IH by (intros; apply Hl; simpl; auto). f_equal.
    assert (Hk : k < NB) by (apply Hl; simpl; auto). cbn [kernel_patch band_start band_N].
    rewrite band_tiles by auto. rewrite <- (seq_plus (list_sum (firstn k (pk_band_N (pk E))))). set (s := list_sum (firstn k (pk_band_N (pk E)))). set (c := nth k (pk_band_N (pk E)) 0).
    assert (Hc : s + c <= List.length exps).
    { unfold s, c. rewrite <- Hs. rewrite <- (sum_firstn_skipn (pk_band_N (pk E)) (S k)). rewrite <- Nat.add_1_r at 1. rewrite firstn_sum_add.
      destruct (skipn k (pk_band_N (pk E))) as [|x t] eqn:Ek.
      - exfalso. assert (List.length (skipn k (pk_band_N (pk E))) = 0) by now rewrite Ek. rewrite skipn_length in H. lia.
      - assert (Hx : nth k (pk_band_N (pk E)) 0 = x).
        { apply nth_error_nth. pose proof (nth_error_skipn (pk_band_N (pk E)) k 0) as N1. rewrite Ek in N1. simpl in N1. rewrite Nat.add_0_r in N1. auto. }
        rewrite Hx. simpl. lia. }
    assert (Hi : forall e, In e (seq 0 c) -> s + e < List.length exps) by (intros e H; apply in_seq in H; lia). clearbody s c. clear Hc.
    induction (seq 0 c) as [|e t IHt]; auto. cbn [flat_map map]. rewrite map_app, IHt by (intros; apply Hi; simpl; auto). f_equal.
    unfold pixel_writes. rewrite map_map. cbn [fst kernel_patch exposure_start exposure_N]. rewrite exposure_tiles by (apply Hi; simpl; auto). now rewrite seq_plus. }
  apply G. intros k Hk. apply in_seq in Hk. lia.
Qed.
(** Where pixel [p] of exposure [e] goes, and its band. *)
Lemma locate e ex : nth_error exps e = Some ex -> exists k s n, nth_error (bandlist (pk E)) k = Some (x_band ex) /\ k < NB /\
  nth k (pk_band_start (pk E)) 0 = s /\ nth k (pk_band_N (pk E)) 0 = n /\ s <= e < s + n.
Proof.
  intros He. destruct (C25_bands sub _ _ _ _ built lengths) as (_ & _ & _ & _ & Hin & _ & Hb).
  assert (Hb0 : In (x_band ex) (bandlist (pk E))) by (apply Hin; exists ex; split; auto; eapply nth_error_In; eauto).
  apply In_nth_error in Hb0. destruct Hb0 as (k & Hk). destruct (Hb k _ Hk) as (s & n & npx & H1 & H2 & _ & _ & _ & H3 & _).
  exists k, s, n. repeat split; auto.
  - apply nth_error_Some. congruence.
  - now apply nth_error_nth.
  - now apply nth_error_nth.
  - now apply (H3 e ex).
  - now apply (H3 e ex).
Qed.
Lemma band_index k e ex : nth_error (bandlist (pk E)) k = Some (x_band ex) -> nth_error exps e = Some ex ->
  nth k (pk_band_start (pk E)) 0 <= e < nth k (pk_band_start (pk E)) 0 + nth k (pk_band_N (pk E)) 0.
Proof.
  intros Hk He. destruct (C25_bands sub _ _ _ _ built lengths) as (_ & _ & _ & _ & _ & _ & Hb).
  destruct (Hb k _ Hk) as (s & n & npx & H1 & H2 & _ & _ & _ & H3 & _). rewrite (nth_error_nth _ _ 0 H1), (nth_error_nth _ _ 0 H2). now apply (H3 e ex).
Qed.
Lemma residual_pixel m data src buf k e ex p : List.length buf = List.length (pk_data (pk E)) ->
  nth_error (bandlist (pk E)) k = Some (x_band ex) -> nth_error exps e = Some ex -> p < List.length (x_flux ex) ->
  let P := kernel_patch E m data in
  let pix := nth e (pk_exposure_start (pk E)) 0 + p in
  nth_error (write_residual P NB src buf) pix = Some (residual_at P k src e pix) /\ pix < List.length buf.
Proof.
  intros HL Hk He Hp P pix. rewrite write_residual_writes.
  assert (Hin : In (pix, residual_at P k src e pix) (all_writes P NB src)).
  { unfold all_writes. apply in_flat_map. exists k. split; [apply in_seq; assert (k < NB) by (apply nth_error_Some; congruence); lia|].
    pose proof (band_index _ _ _ Hk He) as Hr. apply in_flat_map. exists (e - nth k (pk_band_start (pk E)) 0). split.
    - apply in_seq. unfold P. cbn [kernel_patch band_N]. lia.
    - change (band_start P k) with (nth k (pk_band_start (pk E)) 0). replace (nth k (pk_band_start (pk E)) 0 + (e - nth k (pk_band_start (pk E)) 0)) with e by lia.
      unfold pixel_writes. apply in_map_iff. exists p. split; [reflexivity|]. apply in_seq. unfold P. cbn [kernel_patch exposure_N].
      destruct (C25_exposures sub _ _ _ _ built lengths) as (_ & _ & Hx & _). destruct (Hx e ex He) as (s & _ & Hn & _).
      rewrite (nth_error_nth _ _ 0 Hn). lia. }
  assert (Hpix : pix < List.length buf).
  { rewrite HL. apply in_map with (f := fst) in Hin. cbn [fst] in Hin. unfold P in Hin. rewrite writes_tile in Hin. apply in_seq in Hin. lia. }
  split; auto. apply writes_at; auto. unfold P. rewrite writes_tile. apply seq_NoDup.
Qed.

(** ** The model computed from packed metadata *)
Open Scope R_scope.
(** Counts at a pixel from a source with flux [f] at absolute position (ra, dec): its
    PSF-convolved Gaussians, placed by linearising the WCS around the position [cat]
    it had in the catalog. *)
Definition source_counts (sp : spline) (psf : list PSFGaussian) (w : wcs) (cat : R * R) (f ra dec q pa n rh : R) (xp yp : R) : R :=
  let CW := fst (scale_at_sky w (fst cat) (snd cat)) in
  let D := snd (scale_at_sky w (fst cat) (snd cat)) in
  let d := m_Av CW (ra - fst cat, dec - snd cat) in
  let x := fst d + fst (world_to_pixel w (fst cat) (snd cat)) in
  let y := snd d + snd (world_to_pixel w (fst cat) (snd cat)) in
  let T := m_mul (m_mul D (m_rot pa)) (m_scale q) in
  let Z := M22 0 0 0 0 in
  sumR (fun g => let bin := sersic_radius_bin g in
     residual_term xp yp (GetGaussianAndJacobian
       (mkPG (amplitudes sp n rh bin) x y (nth bin (radii sp) 0 * nth bin (radii sp) 0) f 1 0 0 CW T Z Z) g)) psf.

Lemma flat_lookup {A} (F : wcs -> A -> list R) c srcs e g j w s :
  (forall w s, List.length (F w s) = c) -> nth_error (wcses E) e = Some w -> nth_error srcs g = Some s -> (j < c)%nat ->
  nth (c * (List.length srcs * e + g) + j)%nat (flat_map (fun w => flat_map (F w) srcs) (wcses E)) 0 = nth j (F w s) 0.
Proof.
  intros HF Hw Hs Hj. assert (Hg : (g < List.length srcs)%nat) by (apply nth_error_Some; congruence).
  replace (c * (List.length srcs * e + g) + j)%nat with (e * (List.length srcs * c) + (g * c + j))%nat by lia.
  assert (H1 : nth_error (flat_map (fun w => flat_map (F w) srcs) (wcses E)) (e * (List.length srcs * c) + (g * c + j)) = nth_error (F w s) j).
  { rewrite (nth_flat_const _ (List.length srcs * c)).
    - rewrite Hw. rewrite (nth_flat_const _ c) by auto. now rewrite Hs.
    - intros x _. apply flat_const_length. auto.
    - nia. }
  destruct (nth_error (F w s) j) as [v|] eqn:Ev.
  - rewrite (nth_error_nth _ _ 0 H1). symmetry. now apply nth_error_nth.
  - apply nth_error_None in Ev. rewrite HF in Ev. lia.
Qed.

Lemma pack_meta_sources sc ref sc' m : pack_meta E sc = Some (ref, sc', m) ->
  (ref, sc') = zerocoords sc None /\ sc_sources sc <> [] /\ m_n_sources m = List.length (sc_sources sc).
Proof.
  unfold pack_meta. cbn [zerocoords]. cbn [sc_sources]. intros H. destruct (map _ (sc_sources sc)) as [|s l] eqn:Em; [discriminate|]. rewrite <- Em in *.
  destruct (pack_psf _ _ _ _ _ _ _); [|discriminate]. injection H as <- <- <-. cbn [m_n_sources]. rewrite map_length. repeat split; auto.
  intros E0. rewrite E0 in Em. discriminate.
Qed.

(** What the kernel computes for sources [gals] (offsets from the reference of the
    metadata) over metadata packed from [sc]. *)
Lemma model_counts sc ref sc' m data gals k e ex w pix : pack_meta E sc = Some (ref, sc', m) ->
  List.length gals = List.length (sc_sources sc) ->
  nth_error (bandlist (pk E)) k = Some (x_band ex) -> nth_error exps e = Some ex -> nth_error (wcses E) e = Some w ->
  let P := kernel_patch E m data in
  model_at P k (fun i => nth i (map (proposal (sc_spline sc)) gals) no_source) e pix
  = sumR (fun sg => source_counts (sc_spline sc) (nth 0 (psf_parameters E (x_band ex)) []) w (g_ra (fst sg), g_dec (fst sg))
        (nth k (g_flux (snd sg)) 0) (g_ra (snd sg) + fst ref) (g_dec (snd sg) + snd ref) (g_q (snd sg)) (g_pa (snd sg)) (g_sersic (snd sg)) (g_rhalf (snd sg))
        (P_xpix P pix) (P_ypix P pix)) (combine (sc_sources sc) gals).
Proof.
  intros Hm HL Hk He Hw P. destruct (pack_meta_sources _ _ _ _ Hm) as (Hz & Hne & Hns).
  unfold pack_meta in Hm. rewrite <- Hz in Hm. unfold zerocoords in Hz. cbv zeta iota in Hz.
  set (z := (np_median (map g_ra (sc_sources sc)), np_median (map g_dec (sc_sources sc)))) in *.
  assert (Er : ref = z) by congruence. assert (Es : sc' = mkScene (sc_spline sc) (map (shift_source (- fst z, - snd z)) (sc_sources sc))) by congruence.
  clear Hz. subst ref sc'. cbn [sc_sources sc_spline] in Hm.
  set (srcs := map (shift_source (- fst z, - snd z)) (sc_sources sc)) in *.
  assert (Hlen : List.length srcs = List.length (sc_sources sc)) by (unfold srcs; apply map_length).
  assert (Hsr : srcs <> []) by (unfold srcs; destruct (sc_sources sc); [congruence|discriminate]).
  destruct (pack_psf _ _ _ _ _ _ _) as [t|] eqn:Et; [|destruct srcs; discriminate].
  assert (Em : m = mkMeta (List.length srcs) (map (fun r => r * r) (radii (sc_spline sc)))
          (flat_map (fun w => flat_map (fun s => flat22 (snd (scale_at_sky w (g_ra s + fst z) (g_dec s + snd z)))) srcs) (wcses E))
          (flat_map (fun w => flat_map (fun s => flat2 (world_to_pixel w (g_ra s + fst z) (g_dec s + snd z))) srcs) (wcses E))
          (flat_map (fun w => flat_map (fun s => flat2 (g_ra s + fst z - fst z, g_dec s + snd z - snd z)) srcs) (wcses E))
          (flat_map (fun w => flat_map (fun s => flat22 (fst (scale_at_sky w (g_ra s + fst z) (g_dec s + snd z)))) srcs) (wcses E))
          (repeat 1 (List.length (wcses E))) t).
  { clearbody srcs. destruct srcs as [|s0 rest]; [now contradiction Hsr|]. cbn [fst snd] in Hm. congruence. }
  clear Hm.
  (* the PSF rows *)
  assert (Hpsf : exists n s, nth k (t_n_psf_per_source t) 0%nat = n /\ nth e (t_psfgauss_start t) 0%nat = s /\ n = List.length (nth 0 (psf_parameters E (x_band ex)) []) /\
      forall p, (p < n)%nat -> nth (s + p) (t_psfgauss t) no_psf = nth p (nth 0 (psf_parameters E (x_band ex)) []) no_psf).
  { destruct (C41_psf_rows sub allbands exps offsets (pk E) (psf_attr E) (get_local_psf (psf_parameters E) (psf_nearest E)) srcs built lengths) as (t' & Ht' & H').
    { intros b Hb. eexists. split; [now apply psf_ok|]. intros s _. reflexivity. }
    rewrite bands_ok in Et. assert (t' = t) by congruence. subst t'.
    destruct srcs as [|s0 rest] eqn:E0; [congruence|]. destruct (H' k (x_band ex) e ex s0 Hk He eq_refl eq_refl) as (n & s & H1 & H2 & H3 & H4).
    exists n, s. split; [now apply nth_error_nth|]. split; [now apply nth_error_nth|]. split; [exact H3|]. intros p Hp. specialize (H4 p Hp).
    change (get_local_psf (psf_parameters E) (psf_nearest E) (x_band ex) s0) with (nth 0 (psf_parameters E (x_band ex)) []) in H4.
    destruct (nth_error (nth 0 (psf_parameters E (x_band ex)) []) p) eqn:Ep.
    - rewrite (nth_error_nth _ _ no_psf H4). symmetry. now apply nth_error_nth.
    - apply nth_error_None in Ep. change (get_local_psf (psf_parameters E) (psf_nearest E) (x_band ex) s0) with (nth 0 (psf_parameters E (x_band ex)) []) in H3. lia. }
  destruct Hpsf as (N & S & HN & HS & HNl & Hrow).
  assert (Heq : (e < List.length (wcses E))%nat) by (apply nth_error_Some; congruence).
  unfold model_at.
  assert (Hns' : n_sources P = List.length srcs) by (unfold P; subst m; reflexivity).
  assert (HNP : n_psf_per_source P k = N) by (unfold P; subst m; exact HN).
  assert (HSP : psfgauss_start P e = S) by (unfold P; subst m; exact HS).
  rewrite Hns', HNP.
  assert (Term : forall i s0 g0, nth_error (sc_sources sc) i = Some s0 -> nth_error gals i = Some g0 ->
     sumR (fun p => residual_term (P_xpix P pix) (P_ypix P pix) (gauss P k (fun i => nth i (map (proposal (sc_spline sc)) gals) no_source) e i p)) (seq 0 N)
     = source_counts (sc_spline sc) (nth 0 (psf_parameters E (x_band ex)) []) w (g_ra s0, g_dec s0) (nth k (g_flux g0) 0)
         (g_ra g0 + fst z) (g_dec g0 + snd z) (g_q g0) (g_pa g0) (g_sersic g0) (g_rhalf g0) (P_xpix P pix) (P_ypix P pix)).
  { intros i s0 g0 Hs0 Hg0. set (s1 := shift_source (- fst z, - snd z) s0).
    assert (Hs1 : nth_error srcs i = Some s1) by (unfold srcs; rewrite nth_error_map, Hs0; reflexivity).
    assert (R1 : g_ra s1 + fst z = g_ra s0) by (unfold s1; cbn [shift_source g_ra fst]; ring).
    assert (R2 : g_dec s1 + snd z = g_dec s0) by (unfold s1; cbn [shift_source g_dec snd]; ring).
    assert (Hprop : nth i (map (proposal (sc_spline sc)) gals) no_source = proposal (sc_spline sc) g0).
    { apply nth_error_nth. rewrite nth_error_map, Hg0. reflexivity. }
    assert (HD : forall j, (j < 4)%nat -> P_D P (4 * (List.length srcs * e + i) + j) = nth j (flat22 (snd (scale_at_sky w (g_ra s0) (g_dec s0)))) 0).
    { intros j Hj. unfold P. subst m. cbn [kernel_patch P_D m_D]. rewrite (flat_lookup (fun w s => flat22 (snd (scale_at_sky w (g_ra s + fst z) (g_dec s + snd z)))) 4 srcs e i j w s1); auto. now rewrite R1, R2. }
    assert (HC : forall j, (j < 4)%nat -> P_CW P (4 * (List.length srcs * e + i) + j) = nth j (flat22 (fst (scale_at_sky w (g_ra s0) (g_dec s0)))) 0).
    { intros j Hj. unfold P. subst m. cbn [kernel_patch P_CW m_CW]. rewrite (flat_lookup (fun w s => flat22 (fst (scale_at_sky w (g_ra s + fst z) (g_dec s + snd z)))) 4 srcs e i j w s1); auto. now rewrite R1, R2. }
    assert (Hx : forall j, (j < 2)%nat -> P_crpix P (2 * (List.length srcs * e + i) + j) = nth j (flat2 (world_to_pixel w (g_ra s0) (g_dec s0))) 0).
    { intros j Hj. unfold P. subst m. cbn [kernel_patch P_crpix m_crpix]. rewrite (flat_lookup (fun w s => flat2 (world_to_pixel w (g_ra s + fst z) (g_dec s + snd z))) 2 srcs e i j w s1); auto. now rewrite R1, R2. }
    assert (Hv : forall j, (j < 2)%nat -> P_crval P (2 * (List.length srcs * e + i) + j) = nth j (flat2 (g_ra s0 - fst z, g_dec s0 - snd z)) 0).
    { intros j Hj. unfold P. subst m. cbn [kernel_patch P_crval m_crval]. rewrite (flat_lookup (fun w s => flat2 (g_ra s + fst z - fst z, g_dec s + snd z - snd z)) 2 srcs e i j w s1); auto. now rewrite R1, R2. }
    assert (HG : P_G P e = 1).
    { unfold P. subst m. cbn [kernel_patch P_G m_G]. apply nth_error_nth. clear -Heq. revert e Heq. induction (List.length (wcses E)) as [|n IH]; intros [|e] He; simpl; auto; try lia. apply IH. lia. }
    assert (Hr : forall bin, rad2 P bin = nth bin (radii (sc_spline sc)) 0 * nth bin (radii (sc_spline sc)) 0).
    { intros bin. unfold P. subst m. cbn [kernel_patch rad2 m_rad2]. replace (@nth R bin) with (@nth R bin) by reflexivity.
      destruct (Nat.lt_ge_cases bin (List.length (radii (sc_spline sc)))) as [Hb|Hb].
      - rewrite (nth_indep _ 0 ((fun r => r * r) 0)) by now rewrite map_length. now rewrite (map_nth (fun r => r * r)).
      - rewrite !nth_overflow; rewrite ?map_length; auto. ring. }
    assert (Hsetup : source_setup P e i (proposal (sc_spline sc) g0) =
       let CW := fst (scale_at_sky w (g_ra s0) (g_dec s0)) in let D := snd (scale_at_sky w (g_ra s0) (g_dec s0)) in
       let d := m_Av CW (g_ra g0 + fst z - g_ra s0, g_dec g0 + snd z - g_dec s0) in
       (fst d + fst (world_to_pixel w (g_ra s0) (g_dec s0)), snd d + snd (world_to_pixel w (g_ra s0) (g_dec s0)), CW,
        m_mul (m_mul D (m_rot (g_pa g0))) (m_scale (g_q g0)), m_mul (m_mul D (m_rot (g_pa g0))) (m_scale_deriv (g_q g0)),
        m_mul (m_mul D (m_rot_deriv (g_pa g0))) (m_scale (g_q g0)))).
    { unfold source_setup. rewrite Hns'.
      assert (HDm : m_read (P_D P) (4 * (List.length srcs * e + i)) = snd (scale_at_sky w (g_ra s0) (g_dec s0))).
      { unfold m_read. rewrite <- (Nat.add_0_r (4 * (List.length srcs * e + i))) at 1. rewrite !HD by lia. cbn [flat22 nth]. now destruct (snd (scale_at_sky w (g_ra s0) (g_dec s0))). }
      assert (HCm : m_read (P_CW P) (4 * (List.length srcs * e + i)) = fst (scale_at_sky w (g_ra s0) (g_dec s0))).
      { unfold m_read. rewrite <- (Nat.add_0_r (4 * (List.length srcs * e + i))) at 1. rewrite !HC by lia. cbn [flat22 nth]. now destruct (fst (scale_at_sky w (g_ra s0) (g_dec s0))). }
      rewrite HDm, HCm. cbn [proposal k_ra k_dec k_q k_pa].
      assert (V0 : P_crval P (2 * (List.length srcs * e + i)) = g_ra s0 - fst z).
      { rewrite <- (Nat.add_0_r (2 * (List.length srcs * e + i))). rewrite Hv by lia. reflexivity. }
      assert (X0 : P_crpix P (2 * (List.length srcs * e + i)) = fst (world_to_pixel w (g_ra s0) (g_dec s0))).
      { rewrite <- (Nat.add_0_r (2 * (List.length srcs * e + i))). rewrite Hx by lia. reflexivity. }
      rewrite V0, X0, Hv, Hx by lia. cbn [flat2 nth fst snd].
      replace (g_ra g0 - (g_ra s0 - fst z)) with (g_ra g0 + fst z - g_ra s0) by ring.
      replace (g_dec g0 - (g_dec s0 - snd z)) with (g_dec g0 + snd z - g_dec s0) by ring. reflexivity. }
    unfold source_counts.
    transitivity (sumR (fun g => residual_term (P_xpix P pix) (P_ypix P pix) (GetGaussianAndJacobian (pix_gaussian P k e i (proposal (sc_spline sc) g0) g) g))
              (map (fun p => nth p (nth 0 (psf_parameters E (x_band ex)) []) no_psf) (seq 0 N))).
    { rewrite sumR_map. apply sumR_ext. intros p Hp. apply in_seq in Hp. unfold gauss. cbv zeta. rewrite Hprop, HSP.
      replace (psfgauss P (S + p)) with (nth p (nth 0 (psf_parameters E (x_band ex)) []) no_psf); auto.
      unfold P. subst m. cbn [kernel_patch psfgauss m_psf]. symmetry. apply Hrow. lia. }
    replace (map (fun p => nth p (nth 0 (psf_parameters E (x_band ex)) []) no_psf) (seq 0 N)) with (nth 0 (psf_parameters E (x_band ex)) []).
    2:{ subst N. rewrite HNl. generalize (nth 0 (psf_parameters E (x_band ex)) []) as l. clear. intros l. apply nth_ext with (d := no_psf) (d' := no_psf).
        - now rewrite map_length, seq_length.
        - intros i Hi. rewrite (nth_indep (map _ _) no_psf (nth 0 l no_psf)) by now rewrite map_length, seq_length.
          rewrite (map_nth (fun p => nth p l no_psf)). now rewrite seq_nth. }
    apply sumR_ext. intros g _. unfold pix_gaussian. rewrite Hsetup. cbv zeta. rewrite HG, Hr. reflexivity. }
  rewrite Hlen. clear -Term HL. revert Term HL. generalize (sc_sources sc) as l. intros l Term HL.
  set (F := fun i => sumR (fun p => residual_term (P_xpix P pix) (P_ypix P pix) (gauss P k (fun i => nth i (map (proposal (sc_spline sc)) gals) no_source) e i p)) (seq 0 N)) in *.
  assert (G : forall l gs o, List.length gs = List.length l -> (forall i s0 g0, nth_error l i = Some s0 -> nth_error gs i = Some g0 ->
      F (o + i)%nat = source_counts (sc_spline sc) (nth 0 (psf_parameters E (x_band ex)) []) w (g_ra s0, g_dec s0) (nth k (g_flux g0) 0)
         (g_ra g0 + fst z) (g_dec g0 + snd z) (g_q g0) (g_pa g0) (g_sersic g0) (g_rhalf g0) (P_xpix P pix) (P_ypix P pix)) ->
     sumR F (seq o (List.length l)) = sumR (fun sg => source_counts (sc_spline sc) (nth 0 (psf_parameters E (x_band ex)) []) w (g_ra (fst sg), g_dec (fst sg))
        (nth k (g_flux (snd sg)) 0) (g_ra (snd sg) + fst z) (g_dec (snd sg) + snd z) (g_q (snd sg)) (g_pa (snd sg)) (g_sersic (snd sg)) (g_rhalf (snd sg))
        (P_xpix P pix) (P_ypix P pix)) (combine l gs)).
  { induction l0 as [|s l0 IH]; intros [|g gs] o Hl H; simpl in Hl; try lia; auto. cbn [List.length seq combine]. rewrite !sumR_cons. f_equal.
    - specialize (H 0%nat s g eq_refl eq_refl). rewrite Nat.add_0_r in H. exact H.
    - apply IH; [lia|]. intros i s0 g0 H1 H2. specialize (H (Datatypes.S i) s0 g0 H1 H2). rewrite <- Nat.add_succ_comm in H. exact H. }
  apply (G l gals 0%nat HL). exact Term.
Qed.
End Built.
