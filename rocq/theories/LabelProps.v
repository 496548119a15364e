(** C81: the fit does not depend on the order of the sources, on a source
    entered in several parts, or on the way the axes of the sky are laid
    (src/compute_gaussians_kernel.cc 45-114 and 227-315). *)
From Coq Require Import Reals Lra Lia Psatz List ZArith Permutation.
From Verif Require Import Np NpFacts KernelModel KernelFacts KernelSum KernelMask TwinProps.
Import ListNotations.
Open Scope R_scope.

(** ** Labels *)
(** A per-exposure, per-source array of blocks of [w], laid out anew for [n']
    sources of which number [g] is [t g] of the old [n]. *)
Definition relaid (w n n' : nat) (t : nat -> nat) (f : nat -> R) (i : nat) : R :=
  f (w * (n * (i / w / n') + t ((i / w) mod n')) + i mod w)%nat.
(** The patch with its sources numbered anew. *)
Definition relabel (n' : nat) (t : nat -> nat) (P : Patch) : Patch :=
  mkPatch (P_data P) (P_ierr P) (P_xpix P) (P_ypix P) (exposure_start P) (exposure_N P) (band_start P) (band_N P) n' (rad2 P)
    (relaid 4 (n_sources P) n' t (P_D P)) (relaid 2 (n_sources P) n' t (P_crpix P)) (relaid 2 (n_sources P) n' t (P_crval P)) (relaid 4 (n_sources P) n' t (P_CW P))
    (P_G P) (n_psf_per_source P) (psfgauss P) (psfgauss_start P).
(** A galaxy and a part of it: they differ in flux at most. *)
Definition part_of (g g' : KSource) : Prop :=
  k_ra g' = k_ra g /\ k_dec g' = k_dec g /\ k_q g' = k_q g /\ k_pa g' = k_pa g /\
  (forall s, mixture_amplitudes g' s = mixture_amplitudes g s /\ damplitude_drh g' s = damplitude_drh g s /\ damplitude_dnsersic g' s = damplitude_dnsersic g s).

Lemma relaid_at w n n' t f e g i : (i < w)%nat -> (g < n')%nat -> relaid w n n' t f (w * (n' * e + g) + i) = f (w * (n * e + t g) + i)%nat.
Proof.
  intros Hi Hg. unfold relaid.
  assert (A : ((w * (n' * e + g) + i) / w = n' * e + g)%nat) by (rewrite (Nat.mul_comm w), Nat.div_add_l by lia; rewrite (Nat.div_small i w) by lia; lia).
  assert (B : ((w * (n' * e + g) + i) mod w = i)%nat) by (rewrite Nat.add_comm, (Nat.mul_comm w), Nat.mod_add by lia; apply Nat.mod_small; lia).
  rewrite A, B. replace ((n' * e + g) / n')%nat with e by (rewrite (Nat.mul_comm n'), Nat.div_add_l by lia; rewrite (Nat.div_small g n') by lia; lia).
  replace ((n' * e + g) mod n')%nat with g by (rewrite Nat.add_comm, (Nat.mul_comm n'), Nat.mod_add by lia; symmetry; apply Nat.mod_small; lia). reflexivity.
Qed.
(** The galaxy with unit flux. *)
Definition unit_flux (g : KSource) : KSource := mkKS (k_ra g) (k_dec g) (k_q g) (k_pa g) (fun _ => 1) (mixture_amplitudes g) (damplitude_drh g) (damplitude_dnsersic g).
Lemma flux_out P b e sid g psf f : k_fluxes g b = f ->
  GetGaussianAndJacobian (pix_gaussian P b e sid g psf) psf = scale_flux f (GetGaussianAndJacobian (pix_gaussian P b e sid (unit_flux g) psf) psf).
Proof.
  intros F. unfold pix_gaussian. change (source_setup P e sid (unit_flux g)) with (source_setup P e sid g). destruct (source_setup P e sid g) as [[[[[x y] CW] T] dq] dpa]. rewrite F.
  cbn [mixture_amplitudes damplitude_dnsersic damplitude_drh k_fluxes unit_flux].
  unfold GetGaussianAndJacobian, scale_flux. cbv zeta. cbn [s_amp s_xcen s_ycen s_covar s_flux s_G s_da_dn s_da_dr s_CW s_T s_dT_dq s_dT_dpa amp xcen ycen fxx fyy fxy dA_dFlux dx_dAlpha dy_dAlpha dx_dDelta dy_dDelta dA_dQ dFxx_dQ dFyy_dQ dFxy_dQ dA_dPA dFxx_dPA dFyy_dPA dFxy_dPA dA_dSersic dA_drh].
  set (cv := m_add _ _). set (F0 := m_inv cv). set (q1 := m_smul (-1) (m_ABA F0 _)). set (q2 := m_smul (-1) (m_ABA F0 _)). set (r := sqrt (m_det F0)). set (t1 := m_trace (m_mul cv q1)). set (t2 := m_trace (m_mul cv q2)).
  clearbody t1 t2 r q1 q2 F0. f_equal; ring.
Qed.
Definition unit_gauss (P : Patch) (b : nat) (src : nat -> KSource) (e s p : nat) : ImageGaussian := gauss P b (fun s => unit_flux (src s)) e s p.
Lemma gauss_unit P b src e s p : gauss P b src e s p = scale_flux (k_fluxes (src s) b) (unit_gauss P b src e s p).
Proof. unfold unit_gauss, gauss. cbv zeta. apply flux_out. reflexivity. Qed.
Lemma gauss_relabel n' t P b src src' e g p : (g < n')%nat -> part_of (src (t g)) (src' g) ->
  gauss (relabel n' t P) b src' e g p = scale_flux (k_fluxes (src' g) b) (unit_gauss P b src e (t g) p).
Proof.
  intros Hg (E1 & E2 & E3 & E4 & E5). unfold unit_gauss, gauss. cbv zeta. change (psfgauss (relabel n' t P)) with (psfgauss P). change (psfgauss_start (relabel n' t P)) with (psfgauss_start P). set (psf := psfgauss P (psfgauss_start P e + p)).
  rewrite (flux_out (relabel n' t P) b e g (src' g) psf _ eq_refl). f_equal. f_equal.
  assert (SS : source_setup (relabel n' t P) e g (unit_flux (src' g)) = source_setup P e (t g) (unit_flux (src (t g)))).
  { unfold source_setup. cbn [n_sources relabel P_D P_CW P_crval P_crpix k_ra k_dec k_q k_pa unit_flux]. cbv zeta. rewrite E1, E2, E3, E4. unfold m_read.
    pose proof (relaid_at 4 (n_sources P) n' t (P_D P) e g 0 ltac:(lia) Hg) as D0. pose proof (relaid_at 2 (n_sources P) n' t (P_crval P) e g 0 ltac:(lia) Hg) as V0. pose proof (relaid_at 2 (n_sources P) n' t (P_crpix P) e g 0 ltac:(lia) Hg) as X0. pose proof (relaid_at 4 (n_sources P) n' t (P_CW P) e g 0 ltac:(lia) Hg) as C0.
    rewrite !Nat.add_0_r in D0, V0, X0, C0. rewrite D0, V0, X0, C0. rewrite !relaid_at by (auto; lia). reflexivity. }
  unfold pix_gaussian. rewrite SS. destruct (source_setup P e (t g) (unit_flux (src (t g)))) as [[[[[x y] CW] T] dq] dpa]. destruct (E5 (sersic_radius_bin psf)) as (M1 & M2 & M3).
  cbn [mixture_amplitudes damplitude_dnsersic damplitude_drh k_fluxes unit_flux rad2 P_G relabel]. rewrite M1, M2, M3. reflexivity.
Qed.
(** The flux of source [s] of the old list in the new one. *)
Definition flux_of_parts (n' : nat) (t : nat -> nat) (b : nat) (src' : nat -> KSource) (s : nat) : R :=
  fold_right Rplus 0 (map (fun g => if Nat.eqb (t g) s then k_fluxes (src' g) b else 0) (seq 0 n')).
Lemma sum_of {A} (f : A -> R) l : fold_right Rplus 0 (map f l) = sumR f l.
Proof. induction l as [|x l IH]; [reflexivity|]. cbn [map fold_right]. rewrite IH. reflexivity. Qed.
Lemma sumR_swap {A B} (f : A -> B -> R) l m : sumR (fun a => sumR (f a) m) l = sumR (fun b => sumR (fun a => f a b) l) m.
Proof.
  induction l as [|x l IH]; [symmetry; apply sumR_zero; reflexivity|]. rewrite sumR_cons, IH. rewrite <- sumR_plus. reflexivity.
Qed.
Lemma model_relabel n' t P b src src' e i :
  (forall g, (g < n')%nat -> (t g < n_sources P)%nat /\ part_of (src (t g)) (src' g)) ->
  (forall s, (s < n_sources P)%nat -> flux_of_parts n' t b src' s = k_fluxes (src s) b) ->
  model_at (relabel n' t P) b src' e i = model_at P b src e i.
Proof.
  intros HP HF. unfold model_at. cbn [n_sources relabel n_psf_per_source P_xpix P_ypix].
  set (N := n_psf_per_source P b). set (U := fun s => sumR (fun p => residual_term (P_xpix P i) (P_ypix P i) (unit_gauss P b src e s p)) (seq 0 N)).
  transitivity (sumR (fun g => k_fluxes (src' g) b * U (t g)) (seq 0 n')).
  { apply sumR_ext. intros g Hg. apply in_seq in Hg. unfold U. rewrite <- sumR_scal. apply sumR_ext. intros p _. destruct (HP g ltac:(lia)) as (_ & Hp). rewrite (gauss_relabel n' t P b src src' e g p ltac:(lia) Hp). apply term_flux. }
  transitivity (sumR (fun s => k_fluxes (src s) b * U s) (seq 0 (n_sources P))).
  2:{ apply sumR_ext. intros s _. unfold U. rewrite <- sumR_scal. apply sumR_ext. intros p _. rewrite (gauss_unit P b src e s p). symmetry. apply term_flux. }
  transitivity (sumR (fun g => sumR (fun s => (if Nat.eqb (t g) s then k_fluxes (src' g) b else 0) * U s) (seq 0 (n_sources P))) (seq 0 n')).
  { apply sumR_ext. intros g Hg. apply in_seq in Hg. destruct (HP g ltac:(lia)) as (Ht & _). rewrite (sumR_single _ _ (t g) Nat.eq_dec).
    - rewrite Nat.eqb_refl. reflexivity.
    - apply seq_NoDup.
    - apply in_seq. lia.
    - intros x _ Hne. destruct (Nat.eqb_spec (t g) x); [congruence|ring]. }
  rewrite sumR_swap. apply sumR_ext. intros s Hs. apply in_seq in Hs. rewrite <- (HF s ltac:(lia)). unfold flux_of_parts. rewrite sum_of. rewrite Rmult_comm, <- sumR_scal. apply sumR_ext. intros g _. ring.
Qed.
Lemma grad_relabel n' t P b src src' e i g j : (g < n')%nat -> (j < 7)%nat -> part_of (src (t g)) (src' g) ->
  model_at (relabel n' t P) b src' e i = model_at P b src e i ->
  exists u, grad_at (relabel n' t P) b src' e i g j = (if Nat.eqb j 0 then 1 else k_fluxes (src' g) b) * u /\ grad_at P b src e i (t g) j = (if Nat.eqb j 0 then 1 else k_fluxes (src (t g)) b) * u.
Proof.
  intros Hg Hj HP HM. unfold grad_at, residual_at. rewrite HM. cbn [n_psf_per_source P_xpix P_ypix P_data P_ierr relabel]. set (r := _ * _ * _).
  exists (sumR (fun p => nth j (derivative_row (P_xpix P i) (P_ypix P i) r (unit_gauss P b src e (t g) p)) 0) (seq 0 (n_psf_per_source P b))). rewrite <- !sumR_scal. split; apply sumR_ext; intros p _.
  - rewrite (gauss_relabel n' t P b src src' e g p Hg HP). pose proof (row_flux (k_fluxes (src' g) b) (P_xpix P i) (P_ypix P i) 1 r (unit_gauss P b src e (t g) p) j Hj) as K. rewrite !Rmult_1_l in K. exact K.
  - rewrite (gauss_unit P b src e (t g) p). pose proof (row_flux (k_fluxes (src (t g)) b) (P_xpix P i) (P_ypix P i) 1 r (unit_gauss P b src e (t g) p) j Hj) as K. rewrite !Rmult_1_l in K. exact K.
Qed.

(** C81: the same galaxies, each in one or several parts and in any order: the
    same residuals and chi-square; the same gradient for the fluxes, and for the
    other parameters each part has its share. *)
Theorem C81_parts : forall n' t P b src src', (n_sources P <= MAXSOURCES)%nat -> (n' <= MAXSOURCES)%nat ->
  (forall g, (g < n')%nat -> (t g < n_sources P)%nat /\ part_of (src (t g)) (src' g)) ->
  (forall s, (s < n_sources P)%nat -> flux_of_parts n' t b src' s = k_fluxes (src s) b) ->
  let P' := relabel n' t P in
  (forall e, residual_image P' b e src' = residual_image P b e src) /\
  fst (EvaluateProposal P' b src') = fst (EvaluateProposal P b src) /\
  forall g j, (g < n')%nat -> (j < 7)%nat ->
    let entry' := nth (g * 7 + j) (snd (EvaluateProposal P' b src')) 0 in let entry := nth (t g * 7 + j) (snd (EvaluateProposal P b src)) 0 in
    (j = 0%nat -> entry' = entry) /\ (j <> 0%nat -> k_fluxes (src (t g)) b * entry' = k_fluxes (src' g) b * entry) /\
    (k_fluxes (src' g) b = k_fluxes (src (t g)) b -> entry' = entry).
Proof.
  intros n' t P b src src' Hm Hm' HP HF P'. assert (HM : forall e i, model_at P' b src' e i = model_at P b src e i) by (intros; apply model_relabel; auto).
  assert (RI : forall e, residual_image P' b e src' = residual_image P b e src).
  { intros e. unfold residual_image. apply map_ext. intros i. cbv zeta. rewrite !residual_at_correct. unfold residual_at. rewrite HM. reflexivity. }
  destruct (evaluate_closed P b src Hm) as (_ & E & G). destruct (evaluate_closed P' b src' Hm') as (_ & E' & G'). split; [exact RI|]. split.
  - rewrite E, E'. apply sumR_ext. intros e _. apply sumR_ext. intros i _. unfold chi2_at, residual_at. rewrite HM. reflexivity.
  - intros g j Hg Hj entry' entry. destruct (HP g Hg) as (Ht & Hp).
    assert (U : forall e i, exists u, grad_at P' b src' e i g j = (if Nat.eqb j 0 then 1 else k_fluxes (src' g) b) * u /\ grad_at P b src e i (t g) j = (if Nat.eqb j 0 then 1 else k_fluxes (src (t g)) b) * u) by (intros; apply grad_relabel; auto).
    assert (EE : forall c c', (forall e i, c' * grad_at P' b src' e i g j = c * grad_at P b src e i (t g) j) -> c' * entry' = c * entry).
    { intros c c' H. unfold entry', entry. rewrite G, G' by auto. rewrite <- !sumR_scal. apply sumR_ext. intros e _. rewrite <- !sumR_scal. apply sumR_ext. intros i _. apply H. }
    split; [|split].
    + intros J. pose proof (EE 1 1) as K. rewrite !Rmult_1_l in K. apply K. intros e i. destruct (U e i) as (u & A & B). rewrite A, B, J. reflexivity.
    + intros J. apply EE. intros e i. destruct (U e i) as (u & A & B). rewrite A, B. destruct (Nat.eqb_spec j 0); [contradiction|ring].
    + intros F. pose proof (EE 1 1) as K. rewrite !Rmult_1_l in K. apply K. intros e i. destruct (U e i) as (u & A & B). rewrite A, B, F. reflexivity.
Qed.

(** C81: in particular the order of the sources changes nothing but the order of the gradient. *)
Theorem C81_order : forall t P b src, (n_sources P <= MAXSOURCES)%nat -> Permutation (map t (seq 0 (n_sources P))) (seq 0 (n_sources P)) ->
  let P' := relabel (n_sources P) t P in let src' := fun g => src (t g) in
  (forall e, residual_image P' b e src' = residual_image P b e src) /\
  fst (EvaluateProposal P' b src') = fst (EvaluateProposal P b src) /\
  forall g j, (g < n_sources P)%nat -> (j < 7)%nat -> nth (g * 7 + j) (snd (EvaluateProposal P' b src')) 0 = nth (t g * 7 + j) (snd (EvaluateProposal P b src)) 0.
Proof.
  intros t P b src Hm HT P' src'. set (n := n_sources P) in *.
  assert (Hp : forall g, (g < n)%nat -> (t g < n)%nat /\ part_of (src (t g)) (src' g)).
  { intros g Hg. split.
    - assert (I : In (t g) (seq 0 n)) by (eapply Permutation_in; [exact HT|]; apply in_map; apply in_seq; lia). apply in_seq in I. lia.
    - unfold src'. repeat split; auto. }
  assert (HF : forall s, (s < n)%nat -> flux_of_parts n t b src' s = k_fluxes (src s) b).
  { intros s Hs. unfold flux_of_parts. rewrite sum_of. unfold src'.
    transitivity (sumR (fun x => if Nat.eqb x s then k_fluxes (src x) b else 0) (map t (seq 0 n))); [rewrite sumR_map; reflexivity|]. rewrite (sumR_perm _ _ _ HT).
    rewrite (sumR_single _ _ s Nat.eq_dec); [rewrite Nat.eqb_refl; reflexivity|apply seq_NoDup|apply in_seq; lia|]. intros x _ Hne. destruct (Nat.eqb_spec x s); [contradiction|reflexivity]. }
  destruct (C81_parts n t P b src src' Hm Hm Hp HF) as (A & B & C). split; [exact A|]. split; [exact B|]. intros g j Hg Hj. apply (C g j Hg Hj). reflexivity.
Qed.

(** ** Axes *)
(** Every 2x2 block of an array, multiplied by a turn of the sky from the right. *)
Definition turned (theta : R) (f : nat -> R) (i : nat) : R :=
  let m := m_mul (m_read f (4 * (i / 4))) (m_rot (- theta)) in
  match (i mod 4)%nat with 0%nat => v11 m | 1%nat => v12 m | 2%nat => v21 m | _ => v22 m end.
Definition turn_sky (theta : R) (crval' : nat -> R) (P : Patch) : Patch :=
  mkPatch (P_data P) (P_ierr P) (P_xpix P) (P_ypix P) (exposure_start P) (exposure_N P) (band_start P) (band_N P) (n_sources P) (rad2 P)
    (turned theta (P_D P)) (P_crpix P) crval' (turned theta (P_CW P)) (P_G P) (n_psf_per_source P) (psfgauss P) (psfgauss_start P).
Lemma turned_read theta f j : m_read (turned theta f) (4 * j) = m_mul (m_read f (4 * j)) (m_rot (- theta)).
Proof.
  unfold m_read at 1, turned. replace ((4 * j) / 4)%nat with j by (rewrite Nat.mul_comm, Nat.div_mul; lia).
  assert (Q : forall k, (k < 4)%nat -> ((4 * j + k) / 4 = j /\ (4 * j + k) mod 4 = k)%nat).
  { intros k Hk. split; [rewrite Nat.mul_comm, Nat.div_add_l by lia; rewrite Nat.div_small by lia; lia|rewrite Nat.add_comm, Nat.mul_comm, Nat.mod_add by lia; apply Nat.mod_small; lia]. }
  destruct (Q 1%nat ltac:(lia)) as (A1 & B1). destruct (Q 2%nat ltac:(lia)) as (A2 & B2). destruct (Q 3%nat ltac:(lia)) as (A3 & B3). rewrite A1, B1, A2, B2, A3, B3. replace ((4 * j) mod 4)%nat with 0%nat by (rewrite Nat.mul_comm, Nat.mod_mul; lia).
  cbv zeta. destruct (m_mul (m_read f (4 * j)) (m_rot (- theta))). reflexivity.
Qed.
Lemma m_mul_assoc a b c : m_mul (m_mul a b) c = m_mul a (m_mul b c).
Proof. unfold m_mul. cbn [v11 v12 v21 v22]. f_equal; ring. Qed.
Lemma rot_back theta pa : m_mul (m_rot (- theta)) (m_rot (pa + theta)) = m_rot pa /\ m_mul (m_rot (- theta)) (m_rot_deriv (pa + theta)) = m_rot_deriv pa.
Proof.
  unfold m_mul, m_rot, m_rot_deriv. cbn [v11 v12 v21 v22]. rewrite cos_neg, sin_neg, cos_plus, sin_plus. pose proof (sin2_cos2 theta) as T. unfold Rsqr in T.
  set (c := cos theta) in *. set (s := sin theta) in *. set (a := cos pa). set (b := sin pa). assert (X : c * c = 1 - s * s) by lra.
  split; f_equal; ring_simplify; replace (c ^ 2) with (1 - s * s) by (rewrite <- X; ring); ring.
Qed.
(** The galaxy as seen on the turned sky. *)
Definition moved (theta : R) (crval crval' : nat -> R) (cr : nat) (g g' : KSource) : Prop :=
  let de := k_ra g - crval cr in let dn := k_dec g - crval (cr + 1)%nat in
  k_ra g' - crval' cr = cos theta * de - sin theta * dn /\ k_dec g' - crval' (cr + 1)%nat = sin theta * de + cos theta * dn.
Definition same_but_turned (theta : R) (b : nat) (g g' : KSource) : Prop :=
  k_q g' = k_q g /\ k_pa g' = k_pa g + theta /\ k_fluxes g' b = k_fluxes g b /\
  (forall s, mixture_amplitudes g' s = mixture_amplitudes g s /\ damplitude_drh g' s = damplitude_drh g s /\ damplitude_dnsersic g' s = damplitude_dnsersic g s).
(** The Gaussian with its derivatives to the position turned. *)
Definition turn_gauss (theta : R) (g : ImageGaussian) : ImageGaussian :=
  mkIG (amp g) (xcen g) (ycen g) (fxx g) (fyy g) (fxy g) (dA_dFlux g)
    (cos theta * dx_dAlpha g - sin theta * dx_dDelta g) (cos theta * dy_dAlpha g - sin theta * dy_dDelta g) (sin theta * dx_dAlpha g + cos theta * dx_dDelta g) (sin theta * dy_dAlpha g + cos theta * dy_dDelta g)
    (dA_dQ g) (dFxx_dQ g) (dFyy_dQ g) (dFxy_dQ g) (dA_dPA g) (dFxx_dPA g) (dFyy_dPA g) (dFxy_dPA g) (dA_dSersic g) (dA_drh g).
Lemma gauss_turned theta crval' P b src src' e g p :
  moved theta (P_crval P) crval' (2 * (n_sources P * e + g)) (src g) (src' g) -> same_but_turned theta b (src g) (src' g) ->
  gauss (turn_sky theta crval' P) b src' e g p = turn_gauss theta (gauss P b src e g p).
Proof.
  intros (V1 & V2) (E1 & E2 & E3 & E4). unfold gauss. cbv zeta. change (psfgauss (turn_sky theta crval' P)) with (psfgauss P). change (psfgauss_start (turn_sky theta crval' P)) with (psfgauss_start P). set (psf := psfgauss P (psfgauss_start P e + p)).
  destruct (E4 (sersic_radius_bin psf)) as (M1 & M2 & M3). unfold pix_gaussian, source_setup. cbn [n_sources turn_sky P_D P_CW P_crval P_crpix rad2 P_G]. cbv zeta. rewrite !turned_read, V1, V2, E1, E2, E3, M1, M2, M3.
  destruct (rot_back theta (k_pa (src g))) as (R1 & R2). rewrite !(m_mul_assoc _ (m_rot (- theta))), R1, R2.
  set (j := (n_sources P * e + g)%nat). set (D := m_read (P_D P) (4 * j)). set (CW := m_read (P_CW P) (4 * j)). set (de := k_ra (src g) - P_crval P (2 * j)). set (dn := k_dec (src g) - P_crval P (2 * j + 1)).
  assert (AV : m_Av (m_mul CW (m_rot (- theta))) (cos theta * de - sin theta * dn, sin theta * de + cos theta * dn) = m_Av CW (de, dn)).
  { unfold m_Av, m_mul, m_rot. cbn [v11 v12 v21 v22 fst snd]. rewrite cos_neg, sin_neg. pose proof (sin2_cos2 theta) as T. unfold Rsqr in T. set (c := cos theta) in *. set (s := sin theta) in *. assert (X : c * c = 1 - s * s) by lra.
    f_equal; ring_simplify; replace (c ^ 2) with (1 - s * s) by (rewrite <- X; ring); ring. }
  rewrite AV. unfold GetGaussianAndJacobian, turn_gauss. cbv zeta. cbn [s_amp s_xcen s_ycen s_covar s_flux s_G s_da_dn s_da_dr s_CW s_T s_dT_dq s_dT_dpa amp xcen ycen fxx fyy fxy dA_dFlux dx_dAlpha dy_dAlpha dx_dDelta dy_dDelta dA_dQ dFxx_dQ dFyy_dQ dFxy_dQ dA_dPA dFxx_dPA dFyy_dPA dFxy_dPA dA_dSersic dA_drh].
  set (cv := m_add _ _). set (F0 := m_inv cv). set (q1 := m_smul (-1) (m_ABA F0 _)). set (q2 := m_smul (-1) (m_ABA F0 _)). set (r := sqrt (m_det F0)). set (t1 := m_trace (m_mul cv q1)). set (t2 := m_trace (m_mul cv q2)). clearbody t1 t2 r q1 q2 F0.
  unfold m_mul, m_rot. cbn [v11 v12 v21 v22]. rewrite cos_neg, sin_neg. f_equal; ring.
Qed.
(** C81: the axes of the sky turned by any angle, with the positions, position
    angles, scale matrices and transforms that go with it: the same residuals,
    chi-square and gradient, that of the position turned. *)
Theorem C81_axes : forall theta crval' P b src src', (n_sources P <= MAXSOURCES)%nat ->
  (forall e g, (g < n_sources P)%nat -> moved theta (P_crval P) crval' (2 * (n_sources P * e + g)) (src g) (src' g)) ->
  (forall g, (g < n_sources P)%nat -> same_but_turned theta b (src g) (src' g)) ->
  let P' := turn_sky theta crval' P in
  (forall e, residual_image P' b e src' = residual_image P b e src) /\
  fst (EvaluateProposal P' b src') = fst (EvaluateProposal P b src) /\
  forall s, (s < n_sources P)%nat ->
    let old j := nth (s * 7 + j) (snd (EvaluateProposal P b src)) 0 in let new j := nth (s * 7 + j) (snd (EvaluateProposal P' b src')) 0 in
    new 0%nat = old 0%nat /\ new 1%nat = cos theta * old 1%nat - sin theta * old 2%nat /\ new 2%nat = sin theta * old 1%nat + cos theta * old 2%nat /\
    new 3%nat = old 3%nat /\ new 4%nat = old 4%nat /\ new 5%nat = old 5%nat /\ new 6%nat = old 6%nat.
Proof.
  intros theta crval' P b src src' Hm HV HS P'.
  assert (GT : forall e g p, (g < n_sources P)%nat -> gauss P' b src' e g p = turn_gauss theta (gauss P b src e g p)) by (intros; apply gauss_turned; auto).
  assert (HM : forall e i, model_at P' b src' e i = model_at P b src e i).
  { intros e i. unfold model_at. change (n_sources P') with (n_sources P). change (n_psf_per_source P' b) with (n_psf_per_source P b). apply sumR_ext. intros g Hg. apply in_seq in Hg. apply sumR_ext. intros p _. rewrite GT by lia. reflexivity. }
  destruct (evaluate_closed P b src Hm) as (_ & E & G). destruct (evaluate_closed P' b src' Hm) as (_ & E' & G').
  split; [|split].
  - intros e. unfold residual_image. apply map_ext. intros i. cbv zeta. rewrite !residual_at_correct. unfold residual_at. rewrite HM. reflexivity.
  - rewrite E, E'. apply sumR_ext. intros e _. apply sumR_ext. intros i _. unfold chi2_at, residual_at. rewrite HM. reflexivity.
  - intros s Hs old new.
    assert (Lin : forall j c1 j1 c2 j2, (j < 7)%nat -> (j1 < 7)%nat -> (j2 < 7)%nat ->
      (forall x y r g, nth j (derivative_row x y r (turn_gauss theta g)) 0 = c1 * nth j1 (derivative_row x y r g) 0 + c2 * nth j2 (derivative_row x y r g) 0) -> new j = c1 * old j1 + c2 * old j2).
    { intros j c1 j1 c2 j2 Hj H1 H2 H. unfold new, old. rewrite !G, G' by auto. rewrite <- !sumR_scal, <- sumR_plus. apply sumR_ext. intros e _. rewrite <- !sumR_scal, <- sumR_plus. apply sumR_ext. intros i _. unfold grad_at. rewrite <- !sumR_scal, <- sumR_plus. apply sumR_ext. intros p _.
      rewrite GT by exact Hs. unfold residual_at. rewrite HM. apply H. }
    assert (Row : forall x y r g, derivative_row x y r (turn_gauss theta g) = match pixel_derivs x y r g with (a, bx, cy, fx, fy, fz) =>
      [dA_dFlux g * a; (cos theta * dx_dAlpha g - sin theta * dx_dDelta g) * bx + (cos theta * dy_dAlpha g - sin theta * dy_dDelta g) * cy; (sin theta * dx_dAlpha g + cos theta * dx_dDelta g) * bx + (sin theta * dy_dAlpha g + cos theta * dy_dDelta g) * cy;
       dA_dQ g * a + fx * dFxx_dQ g + fz * dFxy_dQ g + fy * dFyy_dQ g; dA_dPA g * a + fx * dFxx_dPA g + fz * dFxy_dPA g + fy * dFyy_dPA g; dA_dSersic g * a; dA_drh g * a] end).
    { intros x y r g. unfold derivative_row. change (pixel_derivs x y r (turn_gauss theta g)) with (pixel_derivs x y r g). destruct (pixel_derivs x y r g) as [[[[[a bx] cy] fx] fy] fz]. reflexivity. }
    repeat split.
    + rewrite (Lin 0%nat 1 0%nat 0 0%nat); [ring|lia..|]. intros x y r g. rewrite Row. unfold derivative_row. destruct (pixel_derivs x y r g) as [[[[[a bx] cy] fx] fy] fz]. cbn [nth]. ring.
    + rewrite (Lin 1%nat (cos theta) 1%nat (- sin theta) 2%nat); [ring|lia..|]. intros x y r g. rewrite Row. unfold derivative_row. destruct (pixel_derivs x y r g) as [[[[[a bx] cy] fx] fy] fz]. cbn [nth]. ring.
    + rewrite (Lin 2%nat (sin theta) 1%nat (cos theta) 2%nat); [ring|lia..|]. intros x y r g. rewrite Row. unfold derivative_row. destruct (pixel_derivs x y r g) as [[[[[a bx] cy] fx] fy] fz]. cbn [nth]. ring.
    + rewrite (Lin 3%nat 1 3%nat 0 0%nat); [ring|lia..|]. intros x y r g. rewrite Row. unfold derivative_row. destruct (pixel_derivs x y r g) as [[[[[a bx] cy] fx] fy] fz]. cbn [nth]. ring.
    + rewrite (Lin 4%nat 1 4%nat 0 0%nat); [ring|lia..|]. intros x y r g. rewrite Row. unfold derivative_row. destruct (pixel_derivs x y r g) as [[[[[a bx] cy] fx] fy] fz]. cbn [nth]. ring.
    + rewrite (Lin 5%nat 1 5%nat 0 0%nat); [ring|lia..|]. intros x y r g. rewrite Row. unfold derivative_row. destruct (pixel_derivs x y r g) as [[[[[a bx] cy] fx] fy] fz]. cbn [nth]. ring.
    + rewrite (Lin 6%nat 1 6%nat 0 0%nat); [ring|lia..|]. intros x y r g. rewrite Row. unfold derivative_row. destruct (pixel_derivs x y r g) as [[[[[a bx] cy] fx] fy] fz]. cbn [nth]. ring.
Qed.

Print Assumptions C81_parts.
Print Assumptions C81_order.
Print Assumptions C81_axes.
