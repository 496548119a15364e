(** A concrete case for C23: the patch of C22_case and the source of C21_kernel_case. *)
From Verif Require Import Np NpFacts KernelModel KernelFacts KernelJac KernelSum KernelProps KernelGrad KernelMask KernelCase SlowModel SlowProps.
From Coq Require Import Reals Lra Permutation.
Open Scope R_scope.

Definition toy_source : slow_source := mkSS 0 0 1 0 2 [1] [4] [1] [4].
Definition toy_stamp : stamp := mkStamp (M22 1 0 0 1) (M22 1 0 0 1) (0, 0) (0, 0) 1 [(1, (0, 0), M22 1 0 0 1)].
Definition toy_ksource : KSource := mkKS 0 0 1 0 (fun _ => 2) (fun _ => 4) (fun _ => 4) (fun _ => 1).
Lemma toy_same_inputs : same_inputs (toy 7 false) 0 0 0 toy_ksource toy_source toy_stamp.
Proof.
  constructor; try reflexivity.
  - repeat split.
  - intros i Hi. simpl in Hi. destruct i; [|lia]. simpl. repeat split; ring.
  - intros al m c [E|[]]. injection E as <- <- <-. reflexivity.
Qed.
Lemma toy_slow_gaussian : exists A, A <> 0 /\ slow_gaussian toy_source toy_stamp 1 4 (1, (0, 0), M22 1 0 0 1) = mkSG A 0 0 (1/2) 0 (1/2) [].
Proof.
  unfold slow_gaussian. cbv zeta. 
  assert (HT : slow_T toy_source toy_stamp = M22 1 0 0 1).
  { unfold slow_T. rewrite dot_dot_mul. exact toy_T. }
  rewrite HT.
  assert (Hf : fast_inv (mplus (matmul_matmul (M22 1 0 0 1) (covariance 1) (transpose (M22 1 0 0 1))) (M22 1 0 0 1)) = M22 (1/2) 0 0 (1/2)).
  { unfold fast_inv, mplus, matmul_matmul, dot2, covariance, transpose. cbn [v11 v12 v21 v22]. f_equal; field. }
  rewrite Hf. exists (2 * 1 * 4 * 1 * sqrt (1/4) / (2 * PI)). split.
  - assert (0 < sqrt (1/4)) by (apply sqrt_lt_R0; lra). pose proof PI_RGT_0.
    apply Rgt_not_eq. apply Rdiv_lt_0_compat; nra.
  - cbn [v11 v12 v21 v22 fst snd ss_ra ss_dec ss_flux toy_source toy_stamp st_crval st_crpix dpix_dsky photocounts].
    unfold fast_det. cbn [v11 v12 v21 v22]. f_equal; try ring. do 3 f_equal. field.
Qed.
(** All hypotheses of the three theorems hold at pixel (1, 0), so image and gradient agree there. *)
Example C23_case :
  fst (slow_render toy_source toy_stamp 1 0) = rendered 1 0 (ConvolveOneSource (toy 7 false) 0 0 0 1 toy_ksource) /\
  snd (slow_render toy_source toy_stamp 1 0) =
    ComputeGaussianDerivative 1 0 (- (1/2)) (ConvolveOneSource (toy 7 false) 0 0 0 1 toy_ksource) (repeat 0 NPARAMS).
Proof.
  destruct toy_slow_gaussian as (A & HA & E).
  assert (HG : forall gs, In gs (convert_to_gaussians toy_source toy_stamp) -> g_amp gs = A /\ g_xcen gs = 0 /\ g_ycen gs = 0 /\ g_fxx gs = 1/2 /\ g_fxy gs = 0 /\ g_fyy gs = 1/2).
  { intros gs [<-|[]]. cbn [g_amp g_xcen g_ycen g_fxx g_fxy g_fyy]. rewrite E. cbn. auto 10. }
  split.
  - rewrite (C23_same_image _ _ _ _ _ _ _ toy_same_inputs 1 0).
    assert (Z : forall l, (forall gs, In gs l -> g_xcen gs = 0 /\ g_ycen gs = 0 /\ g_fxx gs = 1/2 /\ g_fxy gs = 0 /\ g_fyy gs = 1/2) ->
      fold_right Rplus 0 (map (fun gs => if Rlt_dec MAX_EXP_ARG (g_fxx gs * (1 - g_xcen gs) ^ 2 + g_fyy gs * (0 - g_ycen gs) ^ 2 + 2 * g_fxy gs * (1 - g_xcen gs) * (0 - g_ycen gs))
        then fst (compute_gaussian gs 1 0) else 0) l) = 0).
    { induction l as [|x l IH]; intros H; auto. cbn [map fold_right]. rewrite IH by (intros; apply H; simpl; auto).
      destruct (H x (or_introl eq_refl)) as (-> & -> & -> & -> & ->). destruct (Rlt_dec _ _) as [HL|_]; [unfold MAX_EXP_ARG in HL; lra|ring]. }
    rewrite Z; [ring_simplify; reflexivity|]. intros gs Hgs. destruct (HG gs Hgs) as (_ & ? & ? & ? & ? & ?). auto 10.
  - apply (C23_same_gradient _ _ _ _ _ _ _ toy_same_inputs 1 0).
    + simpl. lra.
    + intros a [<-|[]]. lra.
    + intros p _. simpl. unfold psf_pd. simpl. repeat split; lra.
    + intros gs Hgs. destruct (HG gs Hgs) as (E1 & E2 & E3 & E4 & E5 & E6). unfold beyond_cutoff, MAX_EXP_ARG. rewrite E1, E2, E3, E4, E5, E6.
      split; [lra|]. split; auto. lra.
Qed.
