(** Property C43: the CUDA kernel against the CPU kernel. *)
From Verif Require Import Np NpFacts KernelModel KernelFacts KernelJac KernelSum KernelGrad KernelProps KernelMask GpuModel.
From Coq Require Import Reals Lra Permutation.
Open Scope nat_scope.

(** ** Strides *)
Lemma strides_in fuel p N step x : 0 < step -> N <= fuel + p ->
  (In x (strides fuel p N step) <-> exists k, x = p + k * step /\ x < N).
Proof.
  intros Hs. revert p. induction fuel as [|fuel IH]; intros p Hf; simpl.
  - split; [easy|]. intros (k & -> & H). lia.
  - destruct (Nat.ltb_spec p N).
    + split.
      * intros [<-|H1]; [exists 0; lia|]. apply IH in H1; [|lia]. destruct H1 as (k & -> & ?). exists (S k). simpl. lia.
      * intros (k & -> & H1). destruct k as [|k]; [left; lia|]. right. apply IH; [lia|]. exists k. simpl in *. lia.
    + split; [easy|]. intros (k & -> & H1). lia.
Qed.
Lemma strides_shift fuel p N step d : strides fuel (p + d) (N + d) step = map (fun x => x + d) (strides fuel p N step).
Proof.
  revert p. induction fuel as [|fuel IH]; intros p; simpl; auto. 
  replace (p + d <? N + d) with (p <? N) by (destruct (Nat.ltb_spec p N), (Nat.ltb_spec (p + d) (N + d)); auto; lia).
  destruct (p <? N); simpl; auto. f_equal. rewrite <- IH. f_equal. lia.
Qed.
Lemma strides_fuel fuel fuel' p N step : 0 < step -> N <= fuel + p -> N <= fuel' + p -> strides fuel p N step = strides fuel' p N step.
Proof.
  intros Hs. revert fuel' p. induction fuel as [|fuel IH]; intros fuel' p H1 H2.
  - destruct fuel'; simpl; auto. destruct (Nat.ltb_spec p N); auto. lia.
  - destruct fuel' as [|fuel']; simpl; destruct (Nat.ltb_spec p N); auto; try lia. f_equal. apply IH; lia.
Qed.
Lemma strides_nil fuel p N step : N <= p -> strides fuel p N step = [].
Proof. intros H. destruct fuel; simpl; auto. destruct (Nat.ltb_spec p N); auto. lia. Qed.
Lemma strides_hd fuel p N step : 0 < step -> N <= fuel + p -> p < N -> strides fuel p N step = p :: strides fuel (p + step) N step.
Proof.
  intros Hs H1 H2. destruct fuel as [|fuel]; [lia|]. cbn [strides]. destruct (Nat.ltb_spec p N); [|lia]. f_equal.
  change (if p + step <? N then p + step :: strides fuel (p + step + step) N step else []) with (strides (S fuel) (p + step) N step).
  apply strides_fuel; lia.
Qed.
(** Work items of width [u]: with [n] workers every item below [M] is done exactly once. *)
Lemma strides_sum (u n : nat) : 0 < u -> 0 < n -> forall M (F : nat -> R),
  sumR (fun w => sumR F (strides (u * M) (u * w) (u * M) (u * n))) (seq 0 n) = sumR (fun j => F (u * j)) (seq 0 M).
Proof.
  intros Hu Hn M. induction M as [M IH] using lt_wf_ind. intros F. destruct (Nat.lt_ge_cases M n) as [HM|HM].
  - assert (En : seq 0 n = seq 0 M ++ seq M (n - M)) by (change M with (0 + M) at 2; rewrite <- seq_app; f_equal; lia).
    rewrite En, sumR_app. rewrite (sumR_zero _ (seq M (n - M))), Rplus_0_r.
    + apply sumR_ext. intros w Hw. apply in_seq in Hw. rewrite strides_hd by nia. rewrite strides_nil by nia. rewrite sumR_cons. unfold sumR. simpl. ring.
    + intros w Hw. apply in_seq in Hw. rewrite strides_nil by nia. reflexivity.
  - assert (EM : seq 0 M = seq 0 n ++ seq n (M - n)) by (change n with (0 + n) at 2; rewrite <- seq_app; f_equal; lia).
    rewrite EM, sumR_app.
    assert (E : forall w, In w (seq 0 n) -> sumR F (strides (u * M) (u * w) (u * M) (u * n)) =
      Rplus (F (u * w)) (sumR (fun x => F (x + u * n)) (strides (u * (M - n)) (u * w) (u * (M - n)) (u * n)))).
    { intros w Hw. apply in_seq in Hw. rewrite strides_hd by nia. rewrite sumR_cons. f_equal.
      replace (strides (u * M) (u * w + u * n) (u * M) (u * n)) with (strides (u * M) (u * w + u * n) (u * (M - n) + u * n) (u * n)) by (f_equal; nia).
      rewrite strides_shift, sumR_map. rewrite (strides_fuel (u * M) (u * (M - n))) by nia. reflexivity. }
    rewrite (sumR_ext _ _ _ E), sumR_plus. f_equal. rewrite IH by lia.
    replace (seq n (M - n)) with (map (fun k => n + k) (seq 0 (M - n))) by apply seq_shift_map. rewrite sumR_map.
    apply sumR_ext. intros j _. f_equal. nia.
Qed.

(** ** The warp tree *)
Lemma warp_full (junk : nat -> nat -> R) (v : nat -> R) (active : nat -> bool) : (forall i, i < 32 -> active i = true) ->
  warp_reduce active junk v = sumR v (seq 0 32).
Proof.
  intros Ha. unfold warp_reduce, shfl_step, WARP. cbn [fold_left]. unfold sumR. simpl.
  repeat (rewrite Ha by lia). ring.
Qed.

(** ** One accumulator cell *)
Lemma seq_blocks (f : nat -> R) u M : sumR f (seq 0 (u * M)) = sumR (fun j => sumR (fun l => f (u * j + l)) (seq 0 u)) (seq 0 M).
Proof.
  induction M as [|M IH].
  - rewrite Nat.mul_0_r. reflexivity.
  - replace (u * S M) with (u * M + u) by lia. rewrite seq_app, sumR_app, IH. rewrite seq_S, sumR_app. f_equal.
    rewrite sumR_cons. simpl. replace (seq (u * M) u) with (map (fun k => u * M + k) (seq 0 u)) by apply seq_shift_map.
    rewrite sumR_map. rewrite (sumR_zero _ []) by easy. symmetry. apply Rplus_0_r.
Qed.
Lemma contributions_sum f start n M junk : 0 < n ->
  sumR (fun v => v) (contributions f start (32 * M) (32 * n) junk) = sumR (fun p => f (start + p)) (seq 0 (32 * M)).
Proof.
  intros Hn. unfold contributions. rewrite sumR_flat. unfold WARP.
  replace ((32 * n + 31) / 32) with n by (symmetry; rewrite Nat.mul_comm, Nat.div_add_l by lia; simpl (31 / 32); lia).
  rewrite (seq_blocks (fun p => f (start + p)) 32 M).
  rewrite <- (strides_sum 32 n ltac:(lia) Hn M (fun p0 => sumR (fun l => f (start + (p0 + l))) (seq 0 32))).
  apply sumR_ext. intros w Hw. apply in_seq in Hw. rewrite sumR_map. apply sumR_ext. intros p0 Hp.
  apply strides_in in Hp; [|lia|lia]. destruct Hp as (k & -> & Hk). rewrite warp_full; auto.
  intros i Hi. apply andb_true_intro. split; apply Nat.ltb_lt; [nia|].
  assert (w + k * n < M) by nia. nia.
Qed.
Lemma fold_plus l : forall a : R, fold_left Rplus l a = (a + sumR (fun v => v) l)%R.
Proof. induction l as [|x l IH]; intros a; simpl; [unfold sumR; simpl; ring|]. rewrite IH, sumR_cons. ring. Qed.

Lemma cell_value P b n junk f value : 0 < n -> (forall e, In e (exposures P b) -> exists M, exposure_N P e = 32 * M) ->
  cell P b (32 * n) junk f value -> value = sumR (fun e => sumR (f e) (pixels P e)) (exposures P b).
Proof.
  intros Hn HE (order & HP & ->). rewrite fold_plus, Rplus_0_l, (sumR_perm _ _ _ HP), sumR_flat.
  apply sumR_ext. intros e He. destruct (HE e He) as (M & EM). rewrite EM, contributions_sum by auto.
  unfold pixels. rewrite sumR_map, EM. reflexivity.
Qed.

(** ** imageGauss *)
Lemma write_all_agree {A} (F : nat -> A) writes : (forall w, In w writes -> snd w = F (fst w)) ->
  forall m i, (In i (map fst writes) \/ m i = F i) -> write_all m writes i = F i.
Proof.
  unfold write_all. induction writes as [|w writes IH]; intros HW m i H; simpl in *.
  - now destruct H.
  - apply IH; auto. destruct H as [[<-|H]|H]; auto.
    + right. rewrite Nat.eqb_refl. auto.
    + right. destruct (Nat.eqb_spec i (fst w)) as [->|]; auto.
Qed.
Lemma convolve_one P b e src n tid : n = n_psf_per_source P b -> tid < n_sources P * n ->
  nth_error (CreateImageGaussians P b e src) tid = Some (ConvolveOne P b e tid n src).
Proof.
  intros -> Ht. unfold CreateImageGaussians. set (n := n_psf_per_source P b) in *.
  assert (Hn : 0 < n) by nia. unfold ConvolveOne.
  set (F := fun sid => ConvolveOneSource P b e sid n (src sid)).
  assert (HF : forall i, length (F i) = n) by (intros i; unfold F, ConvolveOneSource; now rewrite map_length, seq_length).
  assert (Hg : tid / n < n_sources P) by (apply Nat.div_lt_upper_bound; lia).
  pose proof (Nat.div_mod_eq tid n) as Ed. pose proof (Nat.mod_upper_bound tid n ltac:(lia)) as Em.
  pose proof (blocks F n 0 (tid / n) (n_sources P) HF Hg) as B. simpl in B.
  replace (tid - tid / n * n) with (tid mod n) by lia.
  assert (E : nth_error (F (tid / n)) (tid mod n) = nth_error (flat_map F (seq 0 (n_sources P))) tid).
  { rewrite <- B, nth_error_firstn by lia. rewrite nth_error_skipn. f_equal. lia. }
  rewrite <- E. unfold F, ConvolveOneSource. rewrite nth_error_map. 
  assert (Es : nth_error (seq 0 n) (tid mod n) = Some (tid mod n)).
  { rewrite (nth_error_nth' _ 0) by (rewrite seq_length; lia). now rewrite seq_nth by lia. }
  now rewrite Es.
Qed.
Lemma gaussians_length P b e src : length (CreateImageGaussians P b e src) = n_sources P * n_psf_per_source P b.
Proof.
  unfold CreateImageGaussians. generalize 0. induction (n_sources P) as [|k IH]; intros s; simpl; auto.
  rewrite app_length, IH. unfold ConvolveOneSource. now rewrite map_length, seq_length.
Qed.
Lemma gaussians_agree P bd b e src m0 gs : 0 < bd -> gpu_gaussians P bd b e src m0 gs -> gs = CreateImageGaussians P b e src.
Proof.
  intros Hbd (order & HP & ->). set (n := n_psf_per_source P b). apply nth_error_ext. intros tid.
  destruct (Nat.lt_ge_cases tid (n_sources P * n)) as [H|H].
  - rewrite (convolve_one P b e src n) by auto. rewrite nth_error_map.
    assert (Es : nth_error (seq 0 (n_sources P * n)) tid = Some tid).
    { rewrite (nth_error_nth' _ 0) by (rewrite seq_length; lia). now rewrite seq_nth by lia. }
    rewrite Es. simpl. f_equal. apply (write_all_agree (fun tid => ConvolveOne P b e tid n src)).
    + intros w Hw. apply (Permutation_in _ HP) in Hw. unfold gaussian_writes in Hw. apply in_flat_map in Hw.
      destruct Hw as (t & _ & Hw). apply in_map_iff in Hw. destruct Hw as (k & <- & _). reflexivity.
    + left. apply (Permutation_in _ (Permutation_sym (Permutation_map fst HP))). unfold gaussian_writes. fold n.
      apply in_map_iff. exists (tid, ConvolveOne P b e tid n src). split; auto. apply in_flat_map.
      exists (tid mod bd). pose proof (Nat.mod_upper_bound tid bd ltac:(lia)). pose proof (Nat.div_mod_eq tid bd). split.
      * apply in_seq. lia.
      * apply in_map_iff. exists tid. split; auto. apply strides_in; [lia|lia|]. exists (tid / bd). nia.
  - rewrite !(proj2 (nth_error_None _ _)); auto; [rewrite gaussians_length|rewrite map_length, seq_length]; auto.
Qed.

(** ** C43 *)
Lemma chi2_same P b src e pix : pixel_chi2 P (CreateImageGaussians P b e src) pix = chi2_at P b src e pix.
Proof. unfold pixel_chi2, chi2_at. cbv zeta. rewrite residual_at_correct. reflexivity. Qed.
Lemma grad_same P b src e s j pix : n_sources P <= MAXSOURCES -> s < n_sources P -> j < 7 ->
  pixel_grad P (n_psf_per_source P b) (CreateImageGaussians P b e src) s j pix = grad_at P b src e pix s j.
Proof.
  intros HM Hs Hj. unfold pixel_grad, grad_at. cbv zeta. rewrite residual_at_correct, galaxy_block by auto.
  set (r2 := (residual_at P b src e pix * P_ierr P pix * P_ierr P pix)%R).
  destruct (deriv_closed (P_xpix P pix) (P_ypix P pix) r2 (map (gauss P b src e s) (seq 0 (n_psf_per_source P b))) (repeat 0%R NPARAMS)) as [_ K]; [reflexivity|].
  rewrite K by auto. rewrite sumR_map.
  replace (nth j (repeat 0%R NPARAMS) 0%R) with 0%R by (do 7 (destruct j as [|j]; [reflexivity|]); lia). ring.
Qed.

Theorem C43_gpu_equals_cpu P b n src chi2 dchi2_dp :
  n_sources P <= MAXSOURCES -> 0 < n ->
  (forall e, e < band_N P b -> Nat.divide 32 (exposure_N P (band_start P b + e))) ->
  gpu_evaluate P b (32 * n) src chi2 dchi2_dp ->
  chi2 = fst (EvaluateProposal P b src) /\
  dchi2_dp = firstn (n_sources P * NPARAMS) (snd (EvaluateProposal P b src)).
Proof.
  intros HM Hn HE (gs & Hgs & (junk & Hc) & HL & Hd).
  destruct (evaluate_closed P b src HM) as (EL & E1 & E2).
  assert (G : forall e, gs e = CreateImageGaussians P b e src).
  { intros e. destruct (Hgs e) as (m0 & Hm). revert Hm. apply gaussians_agree. lia. }
  assert (HE' : forall e, In e (exposures P b) -> exists M, exposure_N P e = 32 * M).
  { intros e He. apply in_map_iff in He. destruct He as (k & <- & Hk). apply in_seq in Hk. destruct (HE k) as (M & EM); [lia|]. exists M. lia. }
  split.
  - rewrite (cell_value _ _ _ _ _ _ Hn HE' Hc), E1. apply sumR_ext. intros e _. apply sumR_ext. intros pix _. rewrite G. apply chi2_same.
  - apply (nth_ext _ _ 0%R 0%R).
    + rewrite firstn_length, EL, HL. unfold NPARAMS, MAXSOURCES in *. lia.
    + intros i Hi. rewrite HL in Hi. unfold NPARAMS in Hi.
      assert (Hs : i / 7 < n_sources P) by (apply Nat.div_lt_upper_bound; lia).
      pose proof (Nat.mod_upper_bound i 7 ltac:(lia)) as Hj. pose proof (Nat.div_mod_eq i 7) as Ei.
      destruct (Hd (i / 7) (i mod 7) Hs Hj) as (jk & HC). unfold NPARAMS in HC. rewrite <- Ei in HC.
      rewrite (cell_value _ _ _ _ _ _ Hn HE' HC).
      assert (Ef : nth i (firstn (n_sources P * NPARAMS) (snd (EvaluateProposal P b src))) 0%R = nth i (snd (EvaluateProposal P b src)) 0%R).
      { rewrite <- (firstn_skipn (n_sources P * NPARAMS) (snd (EvaluateProposal P b src))) at 2. rewrite app_nth1; auto.
        rewrite firstn_length, EL. unfold NPARAMS, MAXSOURCES in *. lia. }
      rewrite Ef. assert (Ei' : i = i / 7 * 7 + i mod 7) by lia.
      rewrite (f_equal (fun k => nth k (snd (EvaluateProposal P b src)) 0%R) Ei'). rewrite E2 by auto.
      apply sumR_ext. intros e _. apply sumR_ext. intros pix _. rewrite G. apply grad_same; auto.
Qed.
Print Assumptions C43_gpu_equals_cpu.

(** The run exists: the schedules the theorem quantifies over are not empty. *)
Lemma run_with P b bd src J : 0 < bd -> exists gs dchi2_dp, (forall e, exists m0, gpu_gaussians P bd b e src m0 (gs e)) /\
  gpu_evaluate P b bd src (fold_left Rplus (flat_map (fun e => contributions (pixel_chi2 P (gs e)) (exposure_start P e) (exposure_N P e) bd (J e)) (map (fun e => band_start P b + e) (seq 0 (band_N P b)))) 0%R) dchi2_dp.
Proof.
  intros Hbd.
  set (m0 := fun tid => ConvolveOne P b 0 tid (n_psf_per_source P b) src).
  set (gs := fun e => map (write_all m0 (gaussian_writes P bd b e src)) (seq 0 (n_sources P * n_psf_per_source P b))).
  set (V := fun f => fold_left Rplus (flat_map (fun e => contributions (f e) (exposure_start P e) (exposure_N P e) bd (J e)) (map (fun e => band_start P b + e) (seq 0 (band_N P b)))) 0%R).
  exists gs, (map (fun i => V (fun e => pixel_grad P (n_psf_per_source P b) (gs e) (i / 7) (i mod 7))) (seq 0 (n_sources P * NPARAMS))).
  assert (HG : forall e, exists m0, gpu_gaussians P bd b e src m0 (gs e)) by (intros e; exists m0, (gaussian_writes P bd b e src); split; auto).
  split; [exact HG|]. exists gs. split; [exact HG|split; [|split]].
  - exists J. eexists. split; [apply Permutation_refl|reflexivity].
  - now rewrite map_length, seq_length.
  - intros gal j Hg Hj. exists J. eexists. split; [apply Permutation_refl|]. unfold NPARAMS in *.
    set (h := fun i => V (fun e => pixel_grad P (n_psf_per_source P b) (gs e) (i / 7) (i mod 7))).
    rewrite (nth_indep _ 0%R (h 0)) by (rewrite map_length, seq_length; nia).
    rewrite map_nth, seq_nth by nia. unfold h. rewrite Nat.add_0_l.
    replace (7 * gal + j) with (gal * 7 + j) by lia.
    rewrite Nat.div_add_l by lia. rewrite Nat.div_small, Nat.add_0_r by auto. rewrite (Nat.add_comm (gal * 7)), Nat.mod_add, Nat.mod_small by lia.
    reflexivity.
Qed.
Theorem C43_gpu_runs P b bd src : 0 < bd -> exists chi2 dchi2_dp, gpu_evaluate P b bd src chi2 dchi2_dp.
Proof. intros H. destruct (run_with P b bd src (fun _ _ _ _ _ => 0%R) H) as (gs & d & _ & HE). eauto. Qed.
Print Assumptions C43_gpu_runs.

(** The residual image does not need the padding, and any block size will do. *)
Theorem C43_same_residuals P b bd e src order m0 r0 gs : 0 < bd ->
  gpu_gaussians P bd b e src m0 gs ->
  Permutation order (residual_writes P bd e gs) ->
  map (fun p => write_all r0 order (exposure_start P e + p)) (seq 0 (exposure_N P e)) = residual_image P b e src /\
  (forall i, i < exposure_start P e \/ exposure_start P e + exposure_N P e <= i -> write_all r0 order i = r0 i).
Proof.
  intros Hbd HG HP. apply gaussians_agree in HG; auto. subst gs. split.
  - unfold residual_image. apply map_ext_in. intros p Hp. apply in_seq in Hp. cbv zeta.
    set (F := fun pix => ComputeResidualImage (P_xpix P pix) (P_ypix P pix) (P_data P pix) (CreateImageGaussians P b e src)).
    apply (write_all_agree F).
    + intros w Hw. apply (Permutation_in _ HP) in Hw. unfold residual_writes in Hw. apply in_flat_map in Hw.
      destruct Hw as (t & _ & Hw). apply in_map_iff in Hw. destruct Hw as (k & <- & _). reflexivity.
    + left. apply (Permutation_in _ (Permutation_sym (Permutation_map fst HP))). unfold residual_writes.
      apply in_map_iff. exists (exposure_start P e + p, F (exposure_start P e + p)). split; auto. apply in_flat_map.
      exists (p mod bd). pose proof (Nat.mod_upper_bound p bd ltac:(lia)). pose proof (Nat.div_mod_eq p bd). split.
      * apply in_seq. lia.
      * apply in_map_iff. exists p. split; auto. apply strides_in; [lia|lia|]. exists (p / bd). nia.
  - intros i Hi.
    assert (H : forall w, In w order -> fst w <> i).
    { intros w Hw. apply (Permutation_in _ HP) in Hw. unfold residual_writes in Hw. apply in_flat_map in Hw.
      destruct Hw as (t & _ & Hw). apply in_map_iff in Hw. destruct Hw as (k & <- & Hk). simpl.
      apply strides_in in Hk; [|lia|lia]. destruct Hk as (q & -> & Hq). lia. }
    clear HP. unfold write_all. revert r0. induction order as [|w order IH]; intros r0; simpl; auto.
    rewrite IH by (intros; apply H; simpl; auto). destruct (Nat.eqb_spec i (fst w)) as [Ew|]; auto.
    exfalso. apply (H w); simpl; auto.
Qed.
Print Assumptions C43_same_residuals.

(** Every thread adds to an accumulator that exists exactly when the block is a
    positive number of warps. *)
Theorem C43_accumulator_in_range bd : 0 < bd ->
  ((forall t, t < bd -> exists k, accumnum bd t = Some k /\ k < NUMACCUMS) <-> Nat.divide 32 bd).
Proof.
  intros Hbd. unfold accumnum, threads_per_accum, NUMACCUMS, WARP. rewrite Nat.div_1_r.
  split.
  - pose proof (Nat.div_mod_eq bd 32) as E. pose proof (Nat.mod_upper_bound bd 32 ltac:(lia)) as Em. intros H. destruct (H (bd - 1)) as (k & Hk & Hlt); [lia|].
    destruct (Nat.eqb_spec (bd / 32 * 32) 0) as [|Hz]; [discriminate|].
    assert (Ek : (bd - 1) / (bd / 32 * 32) = k) by congruence.
    exists (bd / 32). destruct (Nat.eq_dec (bd mod 32) 0) as [|Hm]; [lia|exfalso].
    assert (1 <= (bd - 1) / (bd / 32 * 32)) by (apply Nat.div_le_lower_bound; lia). lia.
  - intros (n & ->). intros t Ht. rewrite Nat.div_mul by lia. destruct (Nat.eqb_spec (n * 32) 0); [lia|].
    exists 0. split; [|lia]. f_equal. apply Nat.div_small. lia.
Qed.
Print Assumptions C43_accumulator_in_range.

(** ** Cases *)
(** Two exposures of 32 pixels, of which 31 and 30 are padding. *)
Definition padded : Patch :=
  let T := toy 7 false in
  mkPatch (fun i => match i with 0 => 3 | 32 => 5 | _ => 7 end)%R (fun i => match i with 0 => 1/2 | 32 => 1/4 | _ => 0 end)%R
          (P_xpix T) (P_ypix T) (fun e => match e with 0 => 0 | _ => 32 end) (fun _ => 32) (band_start T) (band_N T)
          (n_sources T) (rad2 T) (P_D T) (P_crpix T) (P_crval T) (P_CW T) (P_G T) (n_psf_per_source T) (psfgauss T) (psfgauss_start T).
Example C43_case : forall src, exists chi2 dchi2_dp, gpu_evaluate padded 0 64 src chi2 dchi2_dp /\
  chi2 = fst (EvaluateProposal padded 0 src) /\ length dchi2_dp = 7.
Proof.
  intros src. destruct (C43_gpu_runs padded 0 64 src ltac:(lia)) as (chi2 & dp & HE). exists chi2, dp. split; auto.
  destruct (C43_gpu_equals_cpu padded 0 2 src chi2 dp) as (H1 & H2); auto.
  - unfold MAXSOURCES. simpl. lia.
  - intros e _. exists 1. reflexivity.
  - split; auto. destruct HE as (gs & _ & _ & HL & _). exact HL.
Qed.

(** Without the padding the answer is not determined: the shuffles read lanes that
    have left the loop. *)
Theorem C43_unpadded_refuted : exists P b bd src c1 d1 c2 d2,
  n_sources P <= MAXSOURCES /\ Nat.divide 32 bd /\ 0 < bd /\
  gpu_evaluate P b bd src c1 d1 /\ gpu_evaluate P b bd src c2 d2 /\ c1 <> c2.
Proof.
  set (src := (fun _ : nat => mkKS 0 0 1 0 (fun _ => 2) (fun _ => 4) (fun _ => 4) (fun _ => 1))%R).
  destruct (run_with (toy 7 false) 0 32 src (fun _ _ _ _ _ => 0%R) ltac:(lia)) as (g1 & d1 & G1 & E1).
  destruct (run_with (toy 7 false) 0 32 src (fun _ _ _ _ _ => 1%R) ltac:(lia)) as (g2 & d2 & G2 & E2).
  assert (EG : forall e, g1 e = g2 e).
  { intros e. destruct (G1 e) as (m1 & M1), (G2 e) as (m2 & M2). apply gaussians_agree in M1; [|lia]. apply gaussians_agree in M2; [|lia]. congruence. }
  do 8 eexists. split; [|split; [|split; [|split; [exact E1|split; [exact E2|]]]]].
  - unfold MAXSOURCES. simpl. lia.
  - exists 1. reflexivity.
  - lia.
  - rewrite !fold_plus. change (map (fun e => band_start (toy 7 false) 0 + e) (seq 0 (band_N (toy 7 false) 0))) with [0; 1].
    cbn [flat_map]. rewrite !EG. generalize (pixel_chi2 (toy 7 false) (g2 0)) (pixel_chi2 (toy 7 false) (g2 1)). intros f0 f1.
    clear. change (exposure_N (toy 7 false) 0) with 1. change (exposure_N (toy 7 false) 1) with 2.
    generalize (exposure_start (toy 7 false) 0) (exposure_start (toy 7 false) 1). intros s0 s1.
    unfold contributions. change ((32 + 31) / WARP) with 1. cbn [seq flat_map map strides].
    unfold warp_reduce, shfl_step, WARP. cbn [fold_left].
    cbn [Nat.add Nat.ltb Nat.leb Nat.mul andb]. cbn. unfold sumR. cbn. lra.
Qed.
Print Assumptions C43_unpadded_refuted.
