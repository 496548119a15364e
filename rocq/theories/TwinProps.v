(** C80: the likelihood is best at the truth, and gives the same value to
    parameters that describe the same galaxy (src/compute_gaussians_kernel.cc
    45-114 and 227-315, src/common_kernel.cc 57-143 and 175-240). *)
From Coq Require Import Reals Lra Lia Psatz List ZArith.
From Verif Require Import Np NpFacts KernelModel KernelFacts KernelSum KernelMask.
Import ListNotations.
Open Scope R_scope.

(** ** The truth *)
(** A pixel of an exposure of the band that carries weight. *)
Definition live (P : Patch) (b e i : nat) : Prop :=
  (band_start P b <= e < band_start P b + band_N P b)%nat /\ (i < exposure_N P e)%nat /\ P_ierr P (exposure_start P e + i) <> 0.
(** The kernel leaves nothing in the pixels that carry weight. *)
Definition explains (P : Patch) (b : nat) (src : nat -> KSource) : Prop :=
  forall e i, live P b e i -> nth i (residual_image P b e src) 0 = 0.

Lemma residual_nth P b e src i : (i < exposure_N P e)%nat -> nth i (residual_image P b e src) 0 = residual_at P b src e (exposure_start P e + i).
Proof.
  intros H. unfold residual_image.
  set (f := fun p : nat => let pix := (exposure_start P e + p)%nat in ComputeResidualImage (P_xpix P pix) (P_ypix P pix) (P_data P pix) (CreateImageGaussians P b e src)).
  rewrite (nth_indep _ 0 (f 0%nat)) by (rewrite map_length, seq_length; exact H). rewrite (map_nth f), seq_nth by exact H. unfold f. cbv zeta. apply residual_at_correct.
Qed.
Lemma sumR_le {A} (f g : A -> R) l : (forall x, In x l -> f x <= g x) -> sumR f l <= sumR g l.
Proof. induction l as [|x l IH]; intros H; [unfold sumR; simpl; lra|]. rewrite !sumR_cons. assert (f x <= g x) by (apply H; left; reflexivity). assert (sumR f l <= sumR g l) by (apply IH; intros; apply H; right; auto). lra. Qed.
Lemma sumR_eq_each {A} (f g : A -> R) l : (forall x, In x l -> f x <= g x) -> sumR f l = sumR g l -> forall x, In x l -> f x = g x.
Proof.
  induction l as [|y l IH]; intros H E x Hx; [destruct Hx|]. rewrite !sumR_cons in E.
  assert (f y <= g y) by (apply H; left; reflexivity). assert (L : sumR f l <= sumR g l) by (apply sumR_le; intros; apply H; right; auto).
  destruct Hx as [<-|Hx]; [lra|]. apply IH; auto; [intros; apply H; right; auto|lra].
Qed.
Lemma live_pix P b e i : In e (exposures P b) -> In i (pixels P e) -> exists k, i = (exposure_start P e + k)%nat /\ (k < exposure_N P e)%nat /\ (band_start P b <= e < band_start P b + band_N P b)%nat.
Proof.
  intros He Hi. unfold exposures in He. apply in_map_iff in He. destruct He as (e' & <- & He'). apply in_seq in He'.
  unfold pixels in Hi. apply in_map_iff in Hi. destruct Hi as (k & <- & Hk). apply in_seq in Hk. exists k. repeat split; lia.
Qed.

(** C80: no sources fit better than those that explain the data, and those
    that fit as well explain the data too. *)
Theorem C80_best : forall P b truth src, (n_sources P <= MAXSOURCES)%nat -> explains P b truth ->
  fst (EvaluateProposal P b truth) <= fst (EvaluateProposal P b src) /\
  (fst (EvaluateProposal P b src) = fst (EvaluateProposal P b truth) <-> explains P b src).
Proof.
  intros P b truth src Hm HT. destruct (evaluate_closed P b truth Hm) as (_ & E0 & _). destruct (evaluate_closed P b src Hm) as (_ & E1 & _).
  assert (C : forall s e i, chi2_at P b s e i = (residual_at P b s e i ^ 2 - P_data P i ^ 2) * P_ierr P i ^ 2) by (intros; unfold chi2_at; ring).
  assert (Z : forall e i, In e (exposures P b) -> In i (pixels P e) -> residual_at P b truth e i ^ 2 * P_ierr P i ^ 2 = 0).
  { intros e i He Hi. destruct (live_pix P b e i He Hi) as (k & -> & Hk & Hb). destruct (Req_dec (P_ierr P (exposure_start P e + k)) 0) as [N|N]; [rewrite N; ring|].
    rewrite <- residual_nth by exact Hk. rewrite (HT e k); [ring|]. repeat split; auto; lia. }
  assert (Le : forall e i, In e (exposures P b) -> In i (pixels P e) -> chi2_at P b truth e i <= chi2_at P b src e i).
  { intros e i He Hi. rewrite !C. specialize (Z e i He Hi). assert (0 <= residual_at P b src e i ^ 2 * P_ierr P i ^ 2) by (apply Rmult_le_pos; apply pow2_ge_0). nra. }
  assert (Le2 : forall e, In e (exposures P b) -> sumR (chi2_at P b truth e) (pixels P e) <= sumR (chi2_at P b src e) (pixels P e)) by (intros e He; apply sumR_le; intros; apply Le; auto).
  rewrite E0, E1. split; [apply sumR_le; exact Le2|]. split.
  - intros Eq e k ((B1 & B2) & Hk & Hi). rewrite residual_nth by exact Hk.
    assert (He : In e (exposures P b)) by (unfold exposures; apply in_map_iff; exists (e - band_start P b)%nat; split; [lia|apply in_seq; lia]).
    assert (Hp : In (exposure_start P e + k)%nat (pixels P e)) by (unfold pixels; apply in_map_iff; exists k; split; [reflexivity|apply in_seq; lia]).
    pose proof (sumR_eq_each _ _ _ Le2 (eq_sym Eq) e He) as Q. pose proof (sumR_eq_each _ _ _ (fun i Hi => Le e i He Hi) Q _ Hp) as Q2. rewrite !C in Q2. specialize (Z e _ He Hp).
    assert (Q3 : residual_at P b src e (exposure_start P e + k) ^ 2 * P_ierr P (exposure_start P e + k) ^ 2 = 0) by nra.
    apply Rmult_integral in Q3. destruct Q3 as [Q3|Q3]; [|exfalso; apply (pow_nonzero _ 2 Hi); exact Q3].
    replace (residual_at P b src e (exposure_start P e + k) ^ 2) with (residual_at P b src e (exposure_start P e + k) * residual_at P b src e (exposure_start P e + k)) in Q3 by ring. apply Rmult_integral in Q3. destruct Q3; assumption.
  - intros HX. apply sumR_ext. intros e He. apply sumR_ext. intros i Hi. rewrite !C. specialize (Z e i He Hi).
    assert (residual_at P b src e i ^ 2 * P_ierr P i ^ 2 = 0); [|nra].
    destruct (live_pix P b e i He Hi) as (k & -> & Hk & Hb). destruct (Req_dec (P_ierr P (exposure_start P e + k)) 0) as [N|N]; [rewrite N; ring|].
    rewrite <- residual_nth by exact Hk. rewrite (HX e k); [ring|]. repeat split; auto; lia.
Qed.

(** C80: and there the gradient vanishes, in every entry. *)
Theorem C80_flat : forall P b truth, (n_sources P <= MAXSOURCES)%nat -> explains P b truth ->
  snd (EvaluateProposal P b truth) = repeat 0 (NPARAMS * MAXSOURCES).
Proof.
  intros P b truth Hm HT. destruct (evaluate_closed P b truth Hm) as (HL & _ & HG).
  apply (nth_ext _ _ 0 0); [rewrite repeat_length; exact HL|]. intros i Hi. rewrite HL in Hi.
  assert (R0 : nth i (repeat 0 (NPARAMS * MAXSOURCES)) 0 = 0) by (apply (repeat_spec (NPARAMS * MAXSOURCES) 0); apply nth_In; rewrite repeat_length; exact Hi). rewrite R0.
  destruct (Nat.lt_ge_cases i (n_sources P * 7)) as [Lt|Ge]; [|apply C22_no_extra_gradient; exact Ge].
  pose proof (Nat.div_mod_eq i 7) as DM. assert (M7 : (i mod 7 < 7)%nat) by (apply Nat.mod_upper_bound; lia). assert (D7 : (i / 7 < n_sources P)%nat) by (apply Nat.div_lt_upper_bound; lia).
  replace i with (i / 7 * 7 + i mod 7)%nat by lia. rewrite HG by auto.
  apply sumR_zero. intros e He. apply sumR_zero. intros x Hx. destruct (live_pix P b e x He Hx) as (k & -> & Hk & Hb). unfold grad_at. apply sumR_zero. intros p _.
  assert (Z : residual_at P b truth e (exposure_start P e + k) * P_ierr P (exposure_start P e + k) * P_ierr P (exposure_start P e + k) = 0).
  { destruct (Req_dec (P_ierr P (exposure_start P e + k)) 0) as [N|N]; [rewrite N; ring|]. rewrite <- residual_nth by exact Hk. rewrite (HT e k); [ring|]. repeat split; auto; lia. }
  rewrite Z. unfold derivative_row, pixel_derivs. cbv zeta. destruct (Rlt_dec _ _); generalize (i mod 7)%nat M7; intros j Hj; do 7 (destruct j as [|j]; [cbn [nth]; ring|]); lia.
Qed.

(** The patch with other data, and the image the kernel makes of sources: what
    is missing from empty data. *)
Definition with_data (P : Patch) (data : nat -> R) : Patch :=
  mkPatch data (P_ierr P) (P_xpix P) (P_ypix P) (exposure_start P) (exposure_N P) (band_start P) (band_N P) (n_sources P) (rad2 P)
    (P_D P) (P_crpix P) (P_crval P) (P_CW P) (P_G P) (n_psf_per_source P) (psfgauss P) (psfgauss_start P).
Definition image (P : Patch) (b e : nat) (src : nat -> KSource) (i : nat) : R := - nth i (residual_image (with_data P (fun _ => 0)) b e src) 0.
(** C80: images made by the kernel itself, without noise, are fitted best by the
    sources they were made from, and the gradient there is zero. *)
Theorem C80_mock : forall P b truth data, (n_sources P <= MAXSOURCES)%nat ->
  (forall e i, live P b e i -> data (exposure_start P e + i)%nat = image P b e truth i) ->
  let P' := with_data P data in
  (forall src, fst (EvaluateProposal P' b truth) <= fst (EvaluateProposal P' b src) /\
     (fst (EvaluateProposal P' b src) = fst (EvaluateProposal P' b truth) <-> forall e i, live P b e i -> image P b e src i = image P b e truth i)) /\
  snd (EvaluateProposal P' b truth) = repeat 0 (NPARAMS * MAXSOURCES).
Proof.
  intros P b truth data Hm HD P'.
  assert (IM : forall src e i, (i < exposure_N P e)%nat -> image P b e src i = model_at P b src e (exposure_start P e + i)).
  { intros src e i Hi. unfold image. rewrite residual_nth by exact Hi. unfold residual_at. change (P_data (with_data P (fun _ => 0)) _) with 0. change (model_at (with_data P (fun _ => 0)) b src) with (model_at P b src). cbn [exposure_start with_data]. ring. }
  assert (RS : forall src e i, live P b e i -> nth i (residual_image P' b e src) 0 = image P b e truth i - image P b e src i).
  { intros src e i Hl. assert (Hi : (i < exposure_N P e)%nat) by apply Hl. rewrite residual_nth by exact Hi. unfold residual_at. change (P_data P') with data. change (model_at P' b src) with (model_at P b src). change (exposure_start P') with (exposure_start P). rewrite (HD e i Hl), (IM src e i Hi). reflexivity. }
  assert (EX : explains P' b truth) by (intros e i Hl; rewrite (RS truth e i Hl); ring).
  split; [|apply C80_flat; [exact Hm|exact EX]]. intros src. destruct (C80_best P' b truth src Hm EX) as (A & B). split; [exact A|]. rewrite B. unfold explains. split; intros H e i Hl; specialize (H e i Hl).
  - rewrite (RS src e i Hl) in H. lra.
  - rewrite (RS src e i Hl). lra.
Qed.

(** ** The same galaxy *)
(** Two descriptions of one ellipse: half turns, either sign of [q], long and
    short axis exchanged together with a quarter turn, any angle for a circle. *)
Definition same_shape (q pa q' pa' : R) : Prop :=
  (q' ^ 2 = q ^ 2 /\ exists k : Z, pa' = pa + IZR k * PI) \/
  (q' ^ 2 * q ^ 2 = 1 /\ exists k : Z, pa' = pa + PI / 2 + IZR k * PI) \/
  (q ^ 2 = 1 /\ q' ^ 2 = 1).
(** The shape of one component of a source as the kernel takes it to the pixels. *)
Definition image_shape (D : matrix22) (q pa : R) : matrix22 := m_AAt (m_mul (m_mul D (m_rot pa)) (m_scale q)).

Lemma sky_shape D q pa : q <> 0 -> image_shape D q pa =
  let a := (cos pa) ^ 2 / q ^ 2 + (sin pa) ^ 2 * q ^ 2 in let b := (sin pa) ^ 2 / q ^ 2 + (cos pa) ^ 2 * q ^ 2 in let c := cos pa * sin pa * (/ q ^ 2 - q ^ 2) in
  M22 (a * v11 D ^ 2 + 2 * c * v11 D * v12 D + b * v12 D ^ 2) (a * v11 D * v21 D + c * (v11 D * v22 D + v12 D * v21 D) + b * v12 D * v22 D)
      (a * v11 D * v21 D + c * (v11 D * v22 D + v12 D * v21 D) + b * v12 D * v22 D) (a * v21 D ^ 2 + 2 * c * v21 D * v22 D + b * v22 D ^ 2).
Proof.
  intros Hq. unfold image_shape, m_AAt, m_mul, m_rot, m_scale. cbn [v11 v12 v21 v22]. cbv zeta. f_equal; field; auto.
Qed.
Lemma half_turns k x : cos (x + IZR k * PI) ^ 2 = cos x ^ 2 /\ sin (x + IZR k * PI) ^ 2 = sin x ^ 2 /\ cos (x + IZR k * PI) * sin (x + IZR k * PI) = cos x * sin x.
Proof.
  assert (S0 : sin (IZR k * PI) = 0) by (apply sin_eq_0_1; exists k; reflexivity). pose proof (sin2_cos2 (IZR k * PI)) as T. rewrite S0 in T. unfold Rsqr in T.
  rewrite cos_plus, sin_plus, S0. set (c := cos (IZR k * PI)) in *. assert (K : c * c = 1) by lra. split; [|split].
  - transitivity (cos x ^ 2 * (c * c)); [ring|rewrite K; ring].
  - transitivity (sin x ^ 2 * (c * c)); [ring|rewrite K; ring].
  - transitivity (cos x * sin x * (c * c)); [ring|rewrite K; ring].
Qed.
Lemma quarter x : cos (x + PI / 2) = - sin x /\ sin (x + PI / 2) = cos x.
Proof. rewrite cos_plus, sin_plus, cos_PI2, sin_PI2. split; ring. Qed.
(** What a shape is on the sky. *)
Definition sh_a (q pa : R) := cos pa ^ 2 / q ^ 2 + sin pa ^ 2 * q ^ 2.
Definition sh_b (q pa : R) := sin pa ^ 2 / q ^ 2 + cos pa ^ 2 * q ^ 2.
Definition sh_c (q pa : R) := cos pa * sin pa * (/ q ^ 2 - q ^ 2).
Lemma sh_same q pa q' pa' : q <> 0 -> q' <> 0 -> same_shape q pa q' pa' -> sh_a q' pa' = sh_a q pa /\ sh_b q' pa' = sh_b q pa /\ sh_c q' pa' = sh_c q pa.
Proof.
  intros Hq Hq' [(E & k & ->)|[(E & k & ->)|(E1 & E2)]]; unfold sh_a, sh_b, sh_c.
  - destruct (half_turns k pa) as (A & B & C). rewrite A, B, C, E. auto.
  - destruct (half_turns k (pa + PI / 2)) as (A & B & C). rewrite A, B, C. destruct (quarter pa) as (Q1 & Q2). rewrite Q1, Q2.
    assert (N : q ^ 2 <> 0) by (apply pow_nonzero; auto). assert (Er : q' ^ 2 = / q ^ 2) by (apply (Rmult_eq_reg_r (q ^ 2)); auto; rewrite E; field; auto). rewrite Er. repeat split; field; auto.
  - rewrite E1, E2. pose proof (sin2_cos2 pa) as T. pose proof (sin2_cos2 pa') as T'. unfold Rsqr in *. rewrite Rinv_1. repeat split; unfold Rdiv; rewrite ?Rinv_1; lra.
Qed.
Lemma sh_only q pa q' pa' : q <> 0 -> q' <> 0 -> sh_a q' pa' = sh_a q pa -> sh_b q' pa' = sh_b q pa -> sh_c q' pa' = sh_c q pa -> same_shape q pa q' pa'.
Proof.
  intros Hq Hq' A B C. unfold sh_a, sh_b, sh_c in *.
  assert (N : 0 < q ^ 2) by (assert (q ^ 2 <> 0) by (apply pow_nonzero; auto); pose proof (pow2_ge_0 q); lra). assert (N' : 0 < q' ^ 2) by (assert (q' ^ 2 <> 0) by (apply pow_nonzero; auto); pose proof (pow2_ge_0 q'); lra).
  unfold same_shape. set (u := q ^ 2) in *. set (u' := q' ^ 2) in *. pose proof (sin2_cos2 pa) as T. pose proof (sin2_cos2 pa') as T'. unfold Rsqr in T, T'.
  pose proof (cos_minus pa' pa) as Dc. pose proof (sin_minus pa' pa) as Ds. pose proof (sin2_cos2 (pa' - pa)) as Td. unfold Rsqr in Td.
  assert (Tr : / u' + u' = / u + u).
  { replace (/ u' + u') with ((cos pa' ^ 2 / u' + sin pa' ^ 2 * u') + (sin pa' ^ 2 / u' + cos pa' ^ 2 * u')); [|transitivity ((sin pa' * sin pa' + cos pa' * cos pa') * (/ u' + u')); [field; lra|rewrite T'; ring]].
    rewrite A, B. transitivity ((sin pa * sin pa + cos pa * cos pa) * (/ u + u)); [field; lra|rewrite T; ring]. }
  assert (Df : (cos pa' ^ 2 - sin pa' ^ 2) * (/ u' - u') = (cos pa ^ 2 - sin pa ^ 2) * (/ u - u)) by (unfold Rdiv in *; nra).
  assert (Fac : (u' - u) * (u' * u - 1) = 0).
  { assert (K : u * u' * (/ u' + u') = u * u' * (/ u + u)) by (rewrite Tr; reflexivity).
    replace (u * u' * (/ u' + u')) with (u + u * u' * u') in K by (field; lra). replace (u * u' * (/ u + u)) with (u' + u * u' * u) in K by (field; lra). nra. }
  destruct (Req_dec u 1) as [U1|U1].
  - right; right. split; auto. apply Rmult_integral in Fac. rewrite U1 in Fac. destruct Fac; lra.
  - assert (G : / u - u <> 0). { intros G. assert (u * (/ u - u) = 0) by (rewrite G; ring). replace (u * (/ u - u)) with (1 - u * u) in H by (field; lra). assert ((1 - u) * (1 + u) = 0) by nra. apply Rmult_integral in H0. destruct H0; lra. }
    set (g := / u - u) in *. set (cp := cos pa) in *. set (sp := sin pa) in *. set (cp' := cos pa') in *. set (sp' := sin pa') in *.
    apply Rmult_integral in Fac. destruct Fac as [F|F].
    + left. assert (Eu : u' = u) by lra. split; [exact Eu|]. rewrite Eu in *. fold g in C, Df.
      assert (C1 : cp' * sp' = cp * sp) by (apply (Rmult_eq_reg_r g); auto). assert (D1 : cp' ^ 2 - sp' ^ 2 = cp ^ 2 - sp ^ 2) by (apply (Rmult_eq_reg_r g); auto).
      assert (Sz : sin (pa' - pa) = 0).
      { rewrite Ds. assert (cp' ^ 2 = cp ^ 2) by nra. assert (sp' ^ 2 = sp ^ 2) by nra.
        assert (Z : (sp' * cp - cp' * sp) ^ 2 = 0). { replace ((sp' * cp - cp' * sp) ^ 2) with (sp' ^ 2 * cp ^ 2 - 2 * (cp' * sp') * (cp * sp) + cp' ^ 2 * sp ^ 2) by ring. rewrite H, H0, C1. ring. }
        destruct (Req_dec (sp' * cp - cp' * sp) 0) as [Y|Y]; [exact Y|]. exfalso. apply (pow_nonzero _ 2 Y). exact Z. }
      destruct (sin_eq_0_0 _ Sz) as (k & Hk). exists k. lra.
    + right; left. assert (Eu : u' * u = 1) by lra. split; [exact Eu|]. assert (Eu' : u' = / u) by (apply (Rmult_eq_reg_r u); [rewrite Eu; field; lra|lra]).
      assert (Eg : / u' - u' = - g) by (unfold g; rewrite Eu', Rinv_inv; ring). rewrite Eg in C, Df.
      assert (C1 : cp' * sp' = - (cp * sp)) by (apply (Rmult_eq_reg_r (- g)); [lra|lra]). assert (D1 : cp' ^ 2 - sp' ^ 2 = - (cp ^ 2 - sp ^ 2)) by (apply (Rmult_eq_reg_r (- g)); [lra|lra]).
      assert (Cz : cos (pa' - pa) = 0).
      { rewrite Dc. assert (cp' ^ 2 = sp ^ 2) by nra. assert (sp' ^ 2 = cp ^ 2) by nra.
        assert (Z : (cp' * cp + sp' * sp) ^ 2 = 0). { replace ((cp' * cp + sp' * sp) ^ 2) with (cp' ^ 2 * cp ^ 2 + 2 * (cp' * sp') * (cp * sp) + sp' ^ 2 * sp ^ 2) by ring. rewrite H, H0, C1. ring. }
        destruct (Req_dec (cp' * cp + sp' * sp) 0) as [Y|Y]; [exact Y|]. exfalso. apply (pow_nonzero _ 2 Y). exact Z. }
      destruct (cos_eq_0_0 _ Cz) as (k & Hk). exists k. lra.
Qed.

(** C80: two shapes come to the pixels as the same ellipse exactly when they
    describe the same ellipse, whatever the (invertible) scale of the pixels. *)
Theorem C80_shapes : forall D q pa q' pa', m_det D <> 0 -> q <> 0 -> q' <> 0 ->
  (image_shape D q' pa' = image_shape D q pa <-> same_shape q pa q' pa').
Proof.
  intros D q pa q' pa' HD Hq Hq'. rewrite !sky_shape by auto. cbv zeta. fold (sh_a q pa) (sh_b q pa) (sh_c q pa) (sh_a q' pa') (sh_b q' pa') (sh_c q' pa'). split.
  - intros E. injection E as E1 E2 _ E4. unfold m_det in HD. set (d11 := v11 D) in *. set (d12 := v12 D) in *. set (d21 := v21 D) in *. set (d22 := v22 D) in *.
    set (x := sh_a q' pa' - sh_a q pa). set (y := sh_b q' pa' - sh_b q pa). set (z := sh_c q' pa' - sh_c q pa).
    assert (X1 : x * d11 ^ 2 + 2 * z * d11 * d12 + y * d12 ^ 2 = 0) by (unfold x, y, z; lra). assert (X2 : x * d11 * d21 + z * (d11 * d22 + d12 * d21) + y * d12 * d22 = 0) by (unfold x, y, z; lra). assert (X3 : x * d21 ^ 2 + 2 * z * d21 * d22 + y * d22 ^ 2 = 0) by (unfold x, y, z; lra).
    assert (N : (d11 * d22 - d12 * d21) ^ 2 <> 0) by (apply pow_nonzero; exact HD).
    assert (Zx : x = 0). { apply (Rmult_eq_reg_r ((d11 * d22 - d12 * d21) ^ 2)); auto. rewrite Rmult_0_l. replace (x * (d11 * d22 - d12 * d21) ^ 2) with (d22 ^ 2 * (x * d11 ^ 2 + 2 * z * d11 * d12 + y * d12 ^ 2) - 2 * d12 * d22 * (x * d11 * d21 + z * (d11 * d22 + d12 * d21) + y * d12 * d22) + d12 ^ 2 * (x * d21 ^ 2 + 2 * z * d21 * d22 + y * d22 ^ 2)) by ring. rewrite X1, X2, X3. ring. }
    assert (Zy : y = 0). { apply (Rmult_eq_reg_r ((d11 * d22 - d12 * d21) ^ 2)); auto. rewrite Rmult_0_l. replace (y * (d11 * d22 - d12 * d21) ^ 2) with (d21 ^ 2 * (x * d11 ^ 2 + 2 * z * d11 * d12 + y * d12 ^ 2) - 2 * d11 * d21 * (x * d11 * d21 + z * (d11 * d22 + d12 * d21) + y * d12 * d22) + d11 ^ 2 * (x * d21 ^ 2 + 2 * z * d21 * d22 + y * d22 ^ 2)) by ring. rewrite X1, X2, X3. ring. }
    assert (Zz : z = 0). { apply (Rmult_eq_reg_r ((d11 * d22 - d12 * d21) ^ 2)); auto. rewrite Rmult_0_l. replace (z * (d11 * d22 - d12 * d21) ^ 2) with (- d21 * d22 * (x * d11 ^ 2 + 2 * z * d11 * d12 + y * d12 ^ 2) + (d11 * d22 + d12 * d21) * (x * d11 * d21 + z * (d11 * d22 + d12 * d21) + y * d12 * d22) - d11 * d12 * (x * d21 ^ 2 + 2 * z * d21 * d22 + y * d22 ^ 2)) by ring. rewrite X1, X2, X3. ring. }
    unfold x in Zx. unfold y in Zy. unfold z in Zz. apply sh_only; auto; lra.
  - intros HS. destruct (sh_same q pa q' pa' Hq Hq' HS) as (A & B & C). rewrite A, B, C. reflexivity.
Qed.

(** Two descriptions of one galaxy, as far as band [b] goes. *)
Definition alike (b : nat) (g g' : KSource) : Prop :=
  k_ra g' = k_ra g /\ k_dec g' = k_dec g /\ k_fluxes g' b = k_fluxes g b /\
  (forall s, mixture_amplitudes g' s = mixture_amplitudes g s /\ damplitude_drh g' s = damplitude_drh g s /\ damplitude_dnsersic g' s = damplitude_dnsersic g s) /\
  k_q g <> 0 /\ k_q g' <> 0 /\ same_shape (k_q g) (k_pa g) (k_q g') (k_pa g').

(** The change of the ellipse with [q] and [pa]. *)
Definition shape_dq (D : matrix22) (q pa : R) : matrix22 := m_symABt (m_mul (m_mul D (m_rot pa)) (m_scale q)) (m_mul (m_mul D (m_rot pa)) (m_scale_deriv q)).
Definition shape_dpa (D : matrix22) (q pa : R) : matrix22 := m_symABt (m_mul (m_mul D (m_rot pa)) (m_scale q)) (m_mul (m_mul D (m_rot_deriv pa)) (m_scale q)).
Lemma dpa_shape D q pa : q <> 0 -> shape_dpa D q pa =
  let a := - 2 * sh_c q pa in let b := 2 * sh_c q pa in let c := sh_a q pa - sh_b q pa in
  M22 (a * v11 D ^ 2 + 2 * c * v11 D * v12 D + b * v12 D ^ 2) (a * v11 D * v21 D + c * (v11 D * v22 D + v12 D * v21 D) + b * v12 D * v22 D)
      (a * v11 D * v21 D + c * (v11 D * v22 D + v12 D * v21 D) + b * v12 D * v22 D) (a * v21 D ^ 2 + 2 * c * v21 D * v22 D + b * v22 D ^ 2).
Proof.
  intros Hq. unfold shape_dpa, m_symABt, m_mul, m_rot, m_rot_deriv, m_scale, sh_a, sh_b, sh_c. cbn [v11 v12 v21 v22]. cbv zeta. f_equal; field; auto.
Qed.
Lemma dq_shape D q pa : q <> 0 -> shape_dq D q pa =
  let a := - 2 * (cos pa ^ 2 / q ^ 2 - sin pa ^ 2 * q ^ 2) / q in let b := - 2 * (sin pa ^ 2 / q ^ 2 - cos pa ^ 2 * q ^ 2) / q in let c := - 2 * (cos pa * sin pa * (/ q ^ 2 + q ^ 2)) / q in
  M22 (a * v11 D ^ 2 + 2 * c * v11 D * v12 D + b * v12 D ^ 2) (a * v11 D * v21 D + c * (v11 D * v22 D + v12 D * v21 D) + b * v12 D * v22 D)
      (a * v11 D * v21 D + c * (v11 D * v22 D + v12 D * v21 D) + b * v12 D * v22 D) (a * v21 D ^ 2 + 2 * c * v21 D * v22 D + b * v22 D ^ 2).
Proof.
  intros Hq. unfold shape_dq, m_symABt, m_mul, m_rot, m_scale_deriv, m_scale. cbn [v11 v12 v21 v22]. cbv zeta. f_equal; field; auto.
Qed.
(** [turned k]: the derivatives with respect to [q] times [k]. *)
Definition scale_q (k : R) (g : ImageGaussian) : ImageGaussian :=
  mkIG (amp g) (xcen g) (ycen g) (fxx g) (fyy g) (fxy g) (dA_dFlux g) (dx_dAlpha g) (dy_dAlpha g) (dx_dDelta g) (dy_dDelta g)
    (k * dA_dQ g) (k * dFxx_dQ g) (k * dFyy_dQ g) (k * dFxy_dQ g) (dA_dPA g) (dFxx_dPA g) (dFyy_dPA g) (dFxy_dPA g) (dA_dSersic g) (dA_drh g).
(** [q' = 1/q] with a quarter turn runs against [q]. *)
Definition along_q (q pa q' pa' : R) : Prop := q' ^ 2 = q ^ 2 /\ exists k : Z, pa' = pa + IZR k * PI.
Definition against_q (q pa q' pa' : R) : Prop := q' ^ 2 * q ^ 2 = 1 /\ exists k : Z, pa' = pa + PI / 2 + IZR k * PI.
Lemma dq_along D q pa q' pa' : q <> 0 -> q' <> 0 -> along_q q pa q' pa' -> shape_dq D q' pa' = m_smul (q / q') (shape_dq D q pa).
Proof.
  intros Hq Hq' (E & k & ->). rewrite !dq_shape by auto. cbv zeta. destruct (half_turns k pa) as (A & B & C). rewrite A, B, C, E. unfold m_smul. cbn [v11 v12 v21 v22]. f_equal; field; auto.
Qed.
Lemma dq_against D q pa q' pa' : q <> 0 -> q' <> 0 -> against_q q pa q' pa' -> shape_dq D q' pa' = m_smul (- (q / q')) (shape_dq D q pa).
Proof.
  intros Hq Hq' (E & k & ->). rewrite !dq_shape by auto. cbv zeta. destruct (half_turns k (pa + PI / 2)) as (A & B & C). rewrite A, B, C. destruct (quarter pa) as (Q1 & Q2). rewrite Q1, Q2.
  assert (N : q ^ 2 <> 0) by (apply pow_nonzero; auto). assert (Er : q' ^ 2 = / q ^ 2) by (apply (Rmult_eq_reg_r (q ^ 2)); auto; rewrite E; field; auto). rewrite Er. unfold m_smul. cbn [v11 v12 v21 v22]. f_equal; field; auto.
Qed.
Lemma image_twin s s' p k : s_amp s' = s_amp s -> s_xcen s' = s_xcen s -> s_ycen s' = s_ycen s -> s_covar s' = s_covar s -> s_flux s' = s_flux s -> s_G s' = s_G s -> s_da_dn s' = s_da_dn s -> s_da_dr s' = s_da_dr s -> s_CW s' = s_CW s ->
  m_AAt (s_T s') = m_AAt (s_T s) -> m_symABt (s_T s') (s_dT_dpa s') = m_symABt (s_T s) (s_dT_dpa s) ->
  (m_symABt (s_T s') (s_dT_dq s') = m_smul k (m_symABt (s_T s) (s_dT_dq s)) -> GetGaussianAndJacobian s' p = scale_q k (GetGaussianAndJacobian s p)) /\
  scale_q 0 (GetGaussianAndJacobian s' p) = scale_q 0 (GetGaussianAndJacobian s p).
Proof.
  intros E1 E2 E3 E4 E5 E6 E7 E8 E9 ET EP. unfold GetGaussianAndJacobian. rewrite E1, E2, E3, E4, E5, E6, E7, E8, E9, ET, EP. cbv zeta. split.
  - intros EQ. rewrite EQ. unfold scale_q. cbn [amp xcen ycen fxx fyy fxy dA_dFlux dx_dAlpha dy_dAlpha dx_dDelta dy_dDelta dA_dQ dFxx_dQ dFyy_dQ dFxy_dQ dA_dPA dFxx_dPA dFyy_dPA dFxy_dPA dA_dSersic dA_drh].
    set (cv := m_add _ _). set (F := m_inv cv). set (B := m_symABt (s_T s) (s_dT_dq s)).
    f_equal; unfold m_trace, m_mul, m_smul, m_ABA; cbn [v11 v12 v21 v22]; ring.
  - unfold scale_q. cbn [amp xcen ycen fxx fyy fxy dA_dFlux dx_dAlpha dy_dAlpha dx_dDelta dy_dDelta dA_dQ dFxx_dQ dFyy_dQ dFxy_dQ dA_dPA dFxx_dPA dFyy_dPA dFxy_dPA dA_dSersic dA_drh].
    f_equal; ring.
Qed.
Lemma pix_fields P b e sid g psf : let s := pix_gaussian P b e sid g psf in let j := (n_sources P * e + sid)%nat in let D := m_read (P_D P) (4 * j) in
  m_AAt (s_T s) = image_shape D (k_q g) (k_pa g) /\ m_symABt (s_T s) (s_dT_dpa s) = shape_dpa D (k_q g) (k_pa g) /\ m_symABt (s_T s) (s_dT_dq s) = shape_dq D (k_q g) (k_pa g).
Proof. repeat split; reflexivity. Qed.
Lemma gauss_twin P b e src src' sid p : alike b (src sid) (src' sid) ->
  scale_q 0 (gauss P b src' e sid p) = scale_q 0 (gauss P b src e sid p) /\
  (along_q (k_q (src sid)) (k_pa (src sid)) (k_q (src' sid)) (k_pa (src' sid)) -> gauss P b src' e sid p = scale_q (k_q (src sid) / k_q (src' sid)) (gauss P b src e sid p)) /\
  (against_q (k_q (src sid)) (k_pa (src sid)) (k_q (src' sid)) (k_pa (src' sid)) -> gauss P b src' e sid p = scale_q (- (k_q (src sid) / k_q (src' sid))) (gauss P b src e sid p)).
Proof.
  intros (E1 & E2 & E3 & E4 & Hq & Hq' & HS). unfold gauss. cbv zeta. set (psf := psfgauss P (psfgauss_start P e + p)). set (g := src sid) in *. set (g' := src' sid) in *.
  destruct (pix_fields P b e sid g psf) as (F1 & F2 & F3). destruct (pix_fields P b e sid g' psf) as (F1' & F2' & F3').
  destruct (sh_same _ _ _ _ Hq Hq' HS) as (A & B & C). destruct (E4 (sersic_radius_bin psf)) as (M1 & M2 & M3).
  set (D := m_read (P_D P) (4 * (n_sources P * e + sid))) in *.
  assert (ET : m_AAt (s_T (pix_gaussian P b e sid g' psf)) = m_AAt (s_T (pix_gaussian P b e sid g psf))).
  { rewrite F1, F1', !sky_shape by auto. cbv zeta. fold (sh_a (k_q g) (k_pa g)) (sh_b (k_q g) (k_pa g)) (sh_c (k_q g) (k_pa g)) (sh_a (k_q g') (k_pa g')) (sh_b (k_q g') (k_pa g')) (sh_c (k_q g') (k_pa g')). rewrite A, B, C. reflexivity. }
  assert (EP : m_symABt (s_T (pix_gaussian P b e sid g' psf)) (s_dT_dpa (pix_gaussian P b e sid g' psf)) = m_symABt (s_T (pix_gaussian P b e sid g psf)) (s_dT_dpa (pix_gaussian P b e sid g psf))).
  { rewrite F2, F2', !dpa_shape by auto. cbv zeta. rewrite A, B, C. reflexivity. }
  assert (Tw : forall k, _) by (intros k; apply (image_twin (pix_gaussian P b e sid g psf) (pix_gaussian P b e sid g' psf) psf k);
    [unfold pix_gaussian, source_setup; cbv zeta; cbn [s_amp s_xcen s_ycen s_covar s_flux s_G s_da_dn s_da_dr s_CW]; rewrite ?E1, ?E2; auto ..|exact ET|exact EP]).
  split; [apply (Tw 0)|]. split; intros K; apply Tw; rewrite F3, F3'; [apply dq_along|apply dq_against]; auto.
Qed.
Lemma term_scale k x y g : residual_term x y (scale_q k g) = residual_term x y g.
Proof. reflexivity. Qed.
Lemma residual_twin P b src src' e i : (forall sid, (sid < n_sources P)%nat -> alike b (src sid) (src' sid)) -> residual_at P b src' e i = residual_at P b src e i.
Proof.
  intros HA. unfold residual_at, model_at. f_equal. apply sumR_ext. intros sid Hs. apply in_seq in Hs. apply sumR_ext. intros p _.
  destruct (gauss_twin P b e src src' sid p (HA sid ltac:(lia))) as (Z & _). rewrite <- (term_scale 0 _ _ (gauss P b src' e sid p)), Z. reflexivity.
Qed.

(** C80: a galaxy described in another way leaves the same residuals and has the same chi-square. *)
Theorem C80_same : forall P b src src', (n_sources P <= MAXSOURCES)%nat ->
  (forall sid, (sid < n_sources P)%nat -> alike b (src sid) (src' sid)) ->
  (forall e, residual_image P b e src' = residual_image P b e src) /\
  fst (EvaluateProposal P b src') = fst (EvaluateProposal P b src).
Proof.
  intros P b src src' Hm HA. assert (RI : forall e, residual_image P b e src' = residual_image P b e src).
  { intros e. unfold residual_image. apply map_ext. intros i. cbv zeta. rewrite !residual_at_correct. apply residual_twin. exact HA. }
  split; [exact RI|]. rewrite !C22_chi2_value by exact Hm. f_equal. apply map_ext. intros e. rewrite RI. reflexivity.
Qed.

(** C80: and the same gradient; that of [q] follows the change of [q]. *)
Lemma row_scale k x y r g j : (j < 7)%nat -> nth j (derivative_row x y r (scale_q k g)) 0 = (if Nat.eqb j 3 then k else 1) * nth j (derivative_row x y r g) 0.
Proof.
  intros Hj. unfold derivative_row. change (pixel_derivs x y r (scale_q k g)) with (pixel_derivs x y r g). destruct (pixel_derivs x y r g) as [[[[[a b] c] d] e] f].
  do 7 (destruct j as [|j]; [cbn; ring|]). lia.
Qed.
Theorem C80_same_gradient : forall P b src src' s, (n_sources P <= MAXSOURCES)%nat -> (s < n_sources P)%nat ->
  (forall sid, (sid < n_sources P)%nat -> alike b (src sid) (src' sid)) ->
  let entry sources j := nth (s * 7 + j) (snd (EvaluateProposal P b sources)) 0 in
  let q := k_q (src s) in let pa := k_pa (src s) in let q' := k_q (src' s) in let pa' := k_pa (src' s) in
  (forall j, (j < 7)%nat -> j <> 3%nat -> entry src' j = entry src j) /\
  ((q' ^ 2 = q ^ 2 /\ exists k : Z, pa' = pa + IZR k * PI) -> q' * entry src' 3%nat = q * entry src 3%nat) /\
  ((q' ^ 2 * q ^ 2 = 1 /\ exists k : Z, pa' = pa + PI / 2 + IZR k * PI) -> q' * entry src' 3%nat = - (q * entry src 3%nat)).
Proof.
  intros P b src src' s Hm Hs HA entry q pa q' pa'. destruct (evaluate_closed P b src Hm) as (_ & _ & G). destruct (evaluate_closed P b src' Hm) as (_ & _ & G').
  assert (HAs := HA s Hs). assert (Nz : q' <> 0) by (destruct HAs as (_ & _ & _ & _ & _ & N & _); exact N).
  assert (Lin : forall j c, (j < 7)%nat -> (forall e i p, nth j (derivative_row (P_xpix P i) (P_ypix P i) (residual_at P b src e i * P_ierr P i * P_ierr P i) (gauss P b src' e s p)) 0 = c * nth j (derivative_row (P_xpix P i) (P_ypix P i) (residual_at P b src e i * P_ierr P i * P_ierr P i) (gauss P b src e s p)) 0) -> entry src' j = c * entry src j).
  { intros j c Hj H. unfold entry. rewrite G, G' by auto. rewrite <- sumR_scal. apply sumR_ext. intros e _. rewrite <- sumR_scal. apply sumR_ext. intros i _. unfold grad_at. rewrite <- sumR_scal. apply sumR_ext. intros p _. rewrite (residual_twin P b src src' e i HA). apply H. }
  split; [|split].
  - intros j Hj Nj. transitivity (1 * entry src j); [|ring]. apply Lin; auto. intros e i p. destruct (gauss_twin P b e src src' s p HAs) as (Z & _).
    pose proof (row_scale 0 (P_xpix P i) (P_ypix P i) (residual_at P b src e i * P_ierr P i * P_ierr P i) (gauss P b src' e s p) j Hj) as A. pose proof (row_scale 0 (P_xpix P i) (P_ypix P i) (residual_at P b src e i * P_ierr P i * P_ierr P i) (gauss P b src e s p) j Hj) as B.
    rewrite Z in A. destruct (Nat.eqb_spec j 3); [contradiction|]. lra.
  - intros K. rewrite (Lin 3%nat (q / q')); [field; exact Nz|lia|]. intros e i p. destruct (gauss_twin P b e src src' s p HAs) as (_ & Z & _). rewrite (Z K). rewrite row_scale by lia. reflexivity.
  - intros K. rewrite (Lin 3%nat (- (q / q'))); [field; exact Nz|lia|]. intros e i p. destruct (gauss_twin P b e src src' s p HAs) as (_ & _ & Z). rewrite (Z K). rewrite row_scale by lia. reflexivity.
Qed.

(** ** Units *)
(** The patch with its data in other units, and the inverse errors. *)
Definition in_units (k m : R) (P : Patch) : Patch :=
  mkPatch (fun i => k * P_data P i) (fun i => m * P_ierr P i) (P_xpix P) (P_ypix P) (exposure_start P) (exposure_N P) (band_start P) (band_N P) (n_sources P) (rad2 P)
    (P_D P) (P_crpix P) (P_crval P) (P_CW P) (P_G P) (n_psf_per_source P) (psfgauss P) (psfgauss_start P).
Definition brighter (k : R) (g : KSource) : KSource :=
  mkKS (k_ra g) (k_dec g) (k_q g) (k_pa g) (fun b => k * k_fluxes g b) (mixture_amplitudes g) (damplitude_drh g) (damplitude_dnsersic g).
Definition scale_flux (k : R) (g : ImageGaussian) : ImageGaussian :=
  mkIG (k * amp g) (xcen g) (ycen g) (fxx g) (fyy g) (fxy g) (dA_dFlux g) (dx_dAlpha g) (dy_dAlpha g) (dx_dDelta g) (dy_dDelta g)
    (k * dA_dQ g) (dFxx_dQ g) (dFyy_dQ g) (dFxy_dQ g) (k * dA_dPA g) (dFxx_dPA g) (dFyy_dPA g) (dFxy_dPA g) (k * dA_dSersic g) (k * dA_drh g).
Lemma gauss_units k m P b src e sid p : gauss (in_units k m P) b (fun sid => brighter k (src sid)) e sid p = scale_flux k (gauss P b src e sid p).
Proof.
  unfold gauss. cbv zeta. change (psfgauss (in_units k m P)) with (psfgauss P). change (psfgauss_start (in_units k m P)) with (psfgauss_start P). set (psf := psfgauss P (psfgauss_start P e + p)).
  unfold pix_gaussian. change (source_setup (in_units k m P) e sid (brighter k (src sid))) with (source_setup P e sid (src sid)). destruct (source_setup P e sid (src sid)) as [[[[[x y] CW] T] dq] dpa].
  cbn [rad2 in_units P_G mixture_amplitudes damplitude_dnsersic damplitude_drh k_fluxes brighter].
  unfold GetGaussianAndJacobian, scale_flux. cbv zeta. cbn [s_amp s_xcen s_ycen s_covar s_flux s_G s_da_dn s_da_dr s_CW s_T s_dT_dq s_dT_dpa amp xcen ycen fxx fyy fxy dA_dFlux dx_dAlpha dy_dAlpha dx_dDelta dy_dDelta dA_dQ dFxx_dQ dFyy_dQ dFxy_dQ dA_dPA dFxx_dPA dFyy_dPA dFxy_dPA dA_dSersic dA_drh].
  set (cv := m_add _ _). set (F := m_inv cv). set (q1 := m_smul (-1) (m_ABA F _)). set (q2 := m_smul (-1) (m_ABA F _)). set (r := sqrt (m_det F)). set (t1 := m_trace (m_mul cv q1)). set (t2 := m_trace (m_mul cv q2)).
  clearbody t1 t2 r q1 q2 F. f_equal; ring.
Qed.
Lemma term_flux k x y g : residual_term x y (scale_flux k g) = k * residual_term x y g.
Proof. unfold residual_term. cbn [amp xcen ycen fxx fyy fxy scale_flux]. destruct (Rlt_dec _ _); [ring|unfold Rdiv; ring]. Qed.
Lemma residual_units k m P b src e i : residual_at (in_units k m P) b (fun sid => brighter k (src sid)) e i = k * residual_at P b src e i.
Proof.
  unfold residual_at, model_at. cbn [P_data in_units n_sources n_psf_per_source P_xpix P_ypix].
  transitivity (k * P_data P i - k * sumR (fun sid => sumR (fun p => residual_term (P_xpix P i) (P_ypix P i) (gauss P b src e sid p)) (seq 0 (n_psf_per_source P b))) (seq 0 (n_sources P))); [|ring].
  f_equal. rewrite <- sumR_scal. apply sumR_ext. intros sid _. rewrite <- sumR_scal. apply sumR_ext. intros p _. rewrite gauss_units. apply term_flux.
Qed.
Lemma row_flux k x y c r g j : (j < 7)%nat -> nth j (derivative_row x y (c * r) (scale_flux k g)) 0 = (if Nat.eqb j 0 then c else c * k) * nth j (derivative_row x y r g) 0.
Proof.
  intros Hj. unfold derivative_row, pixel_derivs, scale_flux. cbv zeta. cbn [amp xcen ycen fxx fyy fxy dA_dFlux dx_dAlpha dy_dAlpha dx_dDelta dy_dDelta dA_dQ dFxx_dQ dFyy_dQ dFxy_dQ dA_dPA dFxx_dPA dFyy_dPA dFxy_dPA dA_dSersic dA_drh].
  destruct (Rlt_dec _ _); do 7 (destruct j as [|j]; [cbn [nth Nat.eqb]; ring|]); lia.
Qed.
(** C80: data and fluxes in other units, and the errors with them: chi-square is
    a pure number, and its gradient has the units of one over the parameter. *)
Theorem C80_units : forall k m P b src, (n_sources P <= MAXSOURCES)%nat ->
  let P' := in_units k m P in let src' := fun sid => brighter k (src sid) in
  fst (EvaluateProposal P' b src') = (k * m) ^ 2 * fst (EvaluateProposal P b src) /\
  (forall e, residual_image P' b e src' = map (Rmult k) (residual_image P b e src)) /\
  forall s j, (s < n_sources P)%nat -> (j < 7)%nat ->
    nth (s * 7 + j) (snd (EvaluateProposal P' b src')) 0 = (if Nat.eqb j 0 then k * m ^ 2 else (k * m) ^ 2) * nth (s * 7 + j) (snd (EvaluateProposal P b src)) 0.
Proof.
  intros k m P b src Hm P' src'. destruct (evaluate_closed P b src Hm) as (_ & E & G). destruct (evaluate_closed P' b src' Hm) as (_ & E' & G'). split; [|split].
  - rewrite E, E'. rewrite <- sumR_scal. apply sumR_ext. intros e _. rewrite <- sumR_scal. apply sumR_ext. intros i _. unfold chi2_at. unfold P', src'. rewrite residual_units. cbn [P_ierr P_data in_units]. ring.
  - intros e. unfold residual_image. rewrite map_map. apply map_ext. intros p. cbv zeta. rewrite !residual_at_correct. apply (residual_units k m).
  - intros s j Hs Hj. rewrite G, G' by auto. rewrite <- sumR_scal. apply sumR_ext. intros e _. rewrite <- sumR_scal. apply sumR_ext. intros i _. unfold grad_at. rewrite <- sumR_scal. apply sumR_ext. intros p _.
    unfold P', src'. rewrite residual_units, gauss_units. cbn [P_ierr P_xpix P_ypix in_units].
    replace (k * residual_at P b src e i * (m * P_ierr P i) * (m * P_ierr P i)) with (k * m ^ 2 * (residual_at P b src e i * P_ierr P i * P_ierr P i)) by ring.
    rewrite row_flux by exact Hj. destruct (Nat.eqb_spec j 0); ring.
Qed.

Print Assumptions C80_best.
Print Assumptions C80_flat.
Print Assumptions C80_mock.
Print Assumptions C80_shapes.
Print Assumptions C80_same.
Print Assumptions C80_same_gradient.
Print Assumptions C80_units.
