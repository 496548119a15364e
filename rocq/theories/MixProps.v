(** C79, the whole of it: a galaxy as the sum of its components, spread by the
    whole PSF (src/compute_gaussians_kernel.cc 45-114, with the tables of
    patches/patch.py 357-396). *)
From Coq Require Import Reals Lra Lia Psatz List ZArith.
From Coquelicot Require Import Coquelicot.
From Verif Require Import Np NpFacts KernelModel KernelFacts KernelProps GaussInt PixelFacts PixelProps ConvProps.
Import ListNotations.
Open Scope R_scope.

Lemma on_line_ext (f g : R -> R) l : (forall x, f x = g x) -> on_line f l -> on_line g l.
Proof.
  intros E H. unfold on_line in *. eapply is_RInt_gen_ext; [|exact H]. apply Filter_prod with (Q := fun _ => True) (R := fun _ => True); [exists 0; auto|exists 0; auto|]. intros u v _ _ x _. apply E.
Qed.
Lemma on_line_zero : on_line (fun _ => 0) 0.
Proof.
  pose proof (line_integral 0 1 0 ltac:(lra)) as H. replace (0 * sqrt (2 * PI / 1)) with 0 in H by ring. eapply on_line_ext; [|exact H]. intros x. cbv beta. ring.
Qed.
Lemma on_line_plus f g a b : on_line f a -> on_line g b -> on_line (fun x => f x + g x) (a + b).
Proof. intros H G. unfold on_line in *. exact (is_RInt_gen_plus f g a b H G). Qed.
Lemma on_line_scal c f a : on_line f a -> on_line (fun x => c * f x) (c * a).
Proof. intros H. unfold on_line in *. exact (is_RInt_gen_scal f c a H). Qed.
(** A function of the plane with its integral, over [e] for every [n] and then over [n]. *)
Definition on_plane (f : R -> R -> R) (L : R) : Prop := exists inner, (forall n, on_line (fun e => f e n) (inner n)) /\ on_line inner L.
Lemma on_plane_ext f g L : (forall e n, f e n = g e n) -> on_plane f L -> on_plane g L.
Proof. intros E (inner & A & B). exists inner. split; [|exact B]. intros n. eapply on_line_ext; [|apply A]. intros e. apply E. Qed.
Lemma on_plane_sum (f : nat -> R -> R -> R) (L : nat -> R) l : (forall i, In i l -> on_plane (f i) (L i)) -> on_plane (fun e n => fold_right Rplus 0 (map (fun i => f i e n) l)) (fold_right Rplus 0 (map L l)).
Proof.
  induction l as [|i l IH]; intros H.
  - exists (fun _ => 0). split; [intros n; exact on_line_zero|exact on_line_zero].
  - destruct (H i (or_introl eq_refl)) as (g & A & B). destruct IH as (h & A' & B'); [intros j Hj; apply H; right; exact Hj|]. exists (fun n => g n + h n). cbn [map fold_right]. split.
    + intros n. apply on_line_plus; [apply A|apply A'].
    + apply on_line_plus; [exact B|exact B'].
Qed.
Lemma on_plane_scal c f L : on_plane f L -> on_plane (fun e n => c * f e n) (c * L).
Proof. intros (g & A & B). exists (fun n => c * g n). split; [intros n; apply on_line_scal; apply A|apply on_line_scal; exact B]. Qed.
Lemma columns_ext n f g : (forall k, (k < n)%nat -> f k = g k) -> columns n f = columns n g.
Proof. intros H. unfold columns. f_equal. apply map_ext_in. intros k Hk. apply in_seq in Hk. apply H. lia. Qed.
Lemma columns_scal c n f : columns n (fun k => c * f k) = c * columns n f.
Proof. unfold columns. induction (seq 0 n) as [|k l IH]; cbn [map fold_right]; [ring|]. rewrite IH. ring. Qed.
Lemma columns_succ n f : columns (S n) f = columns n f + f n.
Proof. unfold columns. rewrite seq_S, map_app, fold_right_app. cbn [map fold_right Nat.add]. rewrite fold_plus_acc. ring. Qed.
Lemma columns_add a b f : columns (a + b) f = columns a f + columns b (fun j => f (a + j)%nat).
Proof.
  induction b as [|b IH]; [rewrite Nat.add_0_r; unfold columns at 3; cbn [seq map fold_right]; ring|]. rewrite Nat.add_succ_r, !columns_succ, IH. ring.
Qed.
Lemma columns_grid nr m f : columns (nr * m) f = columns nr (fun k => columns m (fun j => f (k * m + j)%nat)).
Proof. induction nr as [|nr IH]; [reflexivity|]. rewrite columns_succ, <- IH. replace (S nr * m)%nat with (nr * m + m)%nat by lia. apply columns_add. Qed.

(** The component [p] of the PSF in the table for radius number [k]. *)
Definition for_radius (k : nat) (p : PSFGaussian) : PSFGaussian := mkPSF (p_amp p) (p_xcen p) (p_ycen p) (p_Cxx p) (p_Cyy p) (p_Cxy p) k.
(** The table of an exposure has, for each of the radii, the components of one PSF. *)
Definition full_table (P : Patch) (band exposure radii m : nat) (psf : nat -> PSFGaussian) : Prop :=
  n_psf_per_source P band = (radii * m)%nat /\
  forall k j, (k < radii)%nat -> (j < m)%nat -> psfgauss P (psfgauss_start P exposure + (k * m + j)) = for_radius k (psf j).
(** The galaxy on the sky: light per unit area for unit flux, and the whole PSF. *)
Definition galaxy_light (radii : nat) (r2 : nat -> R) (g : KSource) (e n : R) : R := columns radii (fun k => mixture_amplitudes g k * profile (k_q g) (k_pa g) (r2 k) e n).
Definition whole_psf (m : nat) (psf : nat -> PSFGaussian) (dx dy : R) : R := columns m (fun j => psf_light (psf j) dx dy).

(** C79: with the same PSF tabulated for every radius, what the kernel works with
    is the sum over the sources of their fluxes times the convolution of the
    galaxy's whole profile with the whole PSF. *)
Theorem C79_mixture : forall P band exposure sources radii m psf w x y, 0 < w -> full_table P band exposure radii m psf ->
  (forall j, (j < m)%nat -> wide (psf j) w) -> (forall k, (k < radii)%nat -> 0 < rad2 P k) -> (forall sid, (sid < n_sources P)%nat -> k_q (sources sid) <> 0) ->
  exists L : nat -> R,
    (forall sid, (sid < n_sources P)%nat -> let g := sources sid in let D := pixels_of P exposure sid in
       on_plane (fun e n => galaxy_light radii (rad2 P) g e n * whole_psf m psf (x - (source_x P exposure sid g + (v11 D * e + v12 D * n))) (y - (source_y P exposure sid g + (v21 D * e + v22 D * n)))) (L sid)) /\
    total (fun g => brightness g x y) (CreateImageGaussians P band exposure sources) =
      columns (n_sources P) (fun sid => P_G P exposure * k_fluxes (sources sid) band * L sid).
Proof.
  intros P band exposure sources radii m psf w x y W (HN & HT) HW HR HQ.
  assert (Idx : forall i, (i < radii * m)%nat -> (i / m < radii /\ i mod m < m /\ i = i / m * m + i mod m)%nat).
  { intros i Hi. assert (m <> 0)%nat by (intros ->; lia). split; [apply Nat.div_lt_upper_bound; lia|]. split; [apply Nat.mod_upper_bound; auto|]. rewrite (Nat.mul_comm (i / m)). apply Nat.div_mod. auto. }
  assert (Tb : forall i, (i < radii * m)%nat -> psfgauss P (psfgauss_start P exposure + i) = for_radius (i / m) (psf (i mod m))).
  { intros i Hi. destruct (Idx i Hi) as (A & B & E). rewrite E at 1. apply HT; auto. }
  destruct (C79_patch P band exposure sources w x y W) as (L & HL & EL).
  - rewrite HN. intros i Hi. rewrite (Tb i Hi). destruct (Idx i Hi) as (A & B & _). split; [exact (HW _ B)|exact (HR _ A)].
  - exact HQ.
  - rewrite HN in HL, EL. exists (fun sid => columns (radii * m) (fun i => mixture_amplitudes (sources sid) (i / m) * L sid i)). split.
    + intros sid Hs g D. set (X := fun e n => x - (source_x P exposure sid g + (v11 D * e + v12 D * n))). set (Y := fun e n => y - (source_y P exposure sid g + (v21 D * e + v22 D * n))).
      apply on_plane_ext with (fun e n => columns (radii * m) (fun i => mixture_amplitudes g (i / m) * (profile (k_q g) (k_pa g) (rad2 P (i / m)) e n * psf_light (psf (i mod m)) (X e n) (Y e n)))).
      * intros e n. rewrite columns_grid. unfold galaxy_light, whole_psf. fold (X e n) (Y e n). rewrite (Rmult_comm (columns radii _)), <- columns_scal. apply columns_ext. intros k Hk. cbv beta.
        transitivity (columns m (fun j => (mixture_amplitudes g k * profile (k_q g) (k_pa g) (rad2 P k) e n) * psf_light (psf j) (X e n) (Y e n))); [|rewrite columns_scal; ring].
        apply columns_ext. intros j Hj. assert (A : ((k * m + j) / m = k)%nat) by (rewrite Nat.div_add_l by lia; rewrite Nat.div_small by lia; lia). assert (B : ((k * m + j) mod m = j)%nat) by (rewrite Nat.add_comm, Nat.mod_add by lia; apply Nat.mod_small; lia). rewrite A, B. ring.
      * unfold columns. apply (on_plane_sum (fun i e n => mixture_amplitudes g (i / m) * (profile (k_q g) (k_pa g) (rad2 P (i / m)) e n * psf_light (psf (i mod m)) (X e n) (Y e n)))).
        intros i Hi. apply in_seq in Hi. apply on_plane_scal. specialize (HL sid i Hs ltac:(lia)). cbv zeta in HL. rewrite (Tb i ltac:(lia)) in HL. exact HL.
    + rewrite EL. apply columns_ext. intros sid Hs. rewrite <- columns_scal. apply columns_ext. intros i Hi. rewrite (Tb i Hi). change (sersic_radius_bin (for_radius (i / m) (psf (i mod m)))) with (i / m)%nat. ring.
Qed.
(** C79: the whole PSF has the sum of its amplitudes, the galaxy the sum of its
    components: one each, if those are normalised. *)
Theorem C79_sums : forall radii r2 g m psf w, k_q g <> 0 -> (forall k, (k < radii)%nat -> 0 < r2 k) -> 0 < w -> (forall j, (j < m)%nat -> wide (psf j) w) ->
  on_plane (galaxy_light radii r2 g) (columns radii (mixture_amplitudes g)) /\ on_plane (whole_psf m psf) (columns m (fun j => p_amp (psf j))).
Proof.
  intros radii r2 g m psf w Hq Hr W HW. assert (one : PSFGaussian) by exact (mkPSF 1 0 0 w w 0 0). assert (Ww : wide (mkPSF 1 0 0 w w 0 0) w) by (unfold wide; cbn; repeat split; lra). split.
  - apply on_plane_ext with (fun e n => fold_right Rplus 0 (map (fun k => mixture_amplitudes g k * profile (k_q g) (k_pa g) (r2 k) e n) (seq 0 radii))); [reflexivity|].
    replace (columns radii (mixture_amplitudes g)) with (fold_right Rplus 0 (map (fun k => mixture_amplitudes g k * 1) (seq 0 radii))) by (apply columns_ext; intros; ring).
    apply (on_plane_sum (fun k e n => mixture_amplitudes g k * profile (k_q g) (k_pa g) (r2 k) e n) (fun k => mixture_amplitudes g k * 1)). intros k Hk. apply in_seq in Hk. apply on_plane_scal. exact (proj1 (C79_unit (k_q g) (k_pa g) (r2 k) _ w Hq (Hr k ltac:(lia)) W Ww)).
  - apply (on_plane_sum (fun j => psf_light (psf j)) (fun j => p_amp (psf j))). intros j Hj. apply in_seq in Hj. exact (proj2 (C79_unit 1 0 1 (psf j) w ltac:(lra) ltac:(lra) W (HW j ltac:(lia)))).
Qed.

(** Case: two radii, a PSF of two components, one galaxy. *)
Definition two_psf (j : nat) : PSFGaussian := match j with 0%nat => mkPSF (3 / 4) 0 0 1 1 0 0 | _ => mkPSF (/ 4) 0 0 4 4 1 0 end.
Definition two_by_two : Patch :=
  mkPatch (fun _ => 3) (fun _ => 1) (fun _ => 0) (fun _ => 0) (fun _ => 0%nat) (fun _ => 1%nat) (fun _ => 0%nat) (fun _ => 1%nat) 1 (fun k => INR (S k))
    (fun i => match (i mod 4)%nat with 0%nat => 2 | 3%nat => 3 | _ => 0 end) (fun _ => 0) (fun _ => 0) (fun i => match (i mod 4)%nat with 0%nat => 2 | 3%nat => 3 | _ => 0 end) (fun _ => 1)
    (fun _ => 4%nat) (fun i => for_radius (i / 2) (two_psf (i mod 2))) (fun _ => 0%nat).
Definition disc (_ : nat) : KSource := mkKS 1 0 (/ 2) 1 (fun _ => 5) (fun k => match k with 0%nat => / 3 | _ => 2 / 3 end) (fun _ => 0) (fun _ => 0).
Lemma mixture_case : full_table two_by_two 0 0 2 2 two_psf /\ columns 2 (fun j => p_amp (two_psf j)) = 1 /\ columns 2 (mixture_amplitudes (disc 0)) = 1 /\
  exists L, total (fun g => brightness g 1 2) (CreateImageGaussians two_by_two 0 0 disc) = 5 * L /\
    on_plane (fun e n => galaxy_light 2 (rad2 two_by_two) (disc 0) e n * whole_psf 2 two_psf (1 - (2 + (2 * e + 0 * n))) (2 - (0 + (0 * e + 3 * n)))) L.
Proof.
  assert (T : full_table two_by_two 0 0 2 2 two_psf).
  { split; [reflexivity|]. intros k j Hk Hj. destruct k as [|[|k]]; [| |lia]; (destruct j as [|[|j]]; [| |lia]); reflexivity. }
  split; [exact T|]. split; [unfold columns; cbn; lra|]. split; [unfold columns; cbn; lra|].
  destruct (C79_mixture two_by_two 0 0 disc 2 2 two_psf (1 / 2) 1 2 ltac:(lra) T) as (L & A & B).
  - intros j Hj. destruct j as [|[|j]]; [| |lia]; unfold wide; cbn; repeat split; lra.
  - intros k Hk. change (rad2 two_by_two k) with (INR (S k)). apply lt_0_INR. lia.
  - intros sid Hs. cbn. lra.
  - exists (L 0%nat). split.
    + rewrite B. unfold columns. change (n_sources two_by_two) with 1%nat. cbn [seq map fold_right]. change (P_G two_by_two 0) with 1. change (k_fluxes (disc 0) 0) with 5. ring.
    + specialize (A 0%nat ltac:(change (0 < 1)%nat; lia)). cbv zeta in A. eapply on_plane_ext; [|exact A]. intros e n. cbv beta. f_equal.
      assert (SX : source_x two_by_two 0 0 (disc 0) = 2 * (1 - 0) + 0 * (0 - 0) + 0) by reflexivity. assert (SY : source_y two_by_two 0 0 (disc 0) = 0 * (1 - 0) + 3 * (0 - 0) + 0) by reflexivity. rewrite SX, SY.
      change (v11 (pixels_of two_by_two 0 0)) with 2. change (v12 (pixels_of two_by_two 0 0)) with 0. change (v21 (pixels_of two_by_two 0 0)) with 0. change (v22 (pixels_of two_by_two 0 0)) with 3. f_equal; ring.
Qed.

Print Assumptions C79_mixture.
Print Assumptions C79_sums.
