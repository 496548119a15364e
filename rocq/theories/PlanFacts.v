(** Closed forms of the two work plans. *)
From Verif Require Import Np NpFacts KernelModel KernelSum SlowModel SlowProps SlowGrad SceneModel PlanModel.
From Coq Require Import Reals Lra.
Open Scope R_scope.

Lemma total_sumR {A} (f : A -> R) l : total (map f l) = sumR f l.
Proof. induction l as [|a l IH]; auto. simpl. rewrite IH. reflexivity. Qed.
Lemma total_app a b : total (a ++ b) = total a + total b.
Proof. induction a as [|x a IH]; simpl; [unfold total; simpl; ring|]. unfold total in *. simpl. rewrite IH. ring. Qed.
Lemma total_zeros {A} (l : list A) : total (map (fun _ => 0) l) = 0.
Proof. induction l as [|a l IH]; auto. unfold total in *. simpl. rewrite IH. ring. Qed.
Lemma sumR_swap {A B} (f : A -> B -> R) l m : sumR (fun a => sumR (f a) m) l = sumR (fun b => sumR (fun a => f a b) l) m.
Proof.
  induction l as [|a l IH].
  - symmetry. apply sumR_zero. auto.
  - rewrite sumR_cons, IH, <- sumR_plus. apply sumR_ext. intros b _. now rewrite sumR_cons.
Qed.

(** What a Gaussian contributes to the derivative in parameter [p] at a pixel *)
Definition shaped (g : SlowGaussian) : Prop := List.length (derivs g) = 7%nat /\ List.Forall (fun r => List.length r = 6%nat) (derivs g).
Definition at_pixel (gs : gig) (q : spixel) : R * list R := compute_gig gs (q_x q) (q_y q).

Lemma gig_image gs x y : fst (compute_gig gs x y) = sumR (fun g => fst (compute_gaussian g x y)) gs.
Proof.
  unfold compute_gig.
  destruct (fold_obs (fun acc g => let out := compute_gaussian g x y in (fst acc + fst out, row_add (snd acc) (matvec (derivs g) (snd out))))
    (fun _ => True) fst (fun g => fst (compute_gaussian g x y)) gs) with (s := (0, repeat 0 7)) as [_ E]; auto. etransitivity; [exact E|]. simpl. ring.
Qed.
Lemma work_residual_closed gs q : work_residual gs q = - fst (at_pixel gs q).
Proof.
  unfold at_pixel. rewrite gig_image. unfold work_residual.
  destruct (fold_obs (fun acc g => acc - fst (compute_gaussian g (q_x q) (q_y q))) (fun _ => True) (fun s => s)
    (fun g => - 1 * fst (compute_gaussian g (q_x q) (q_y q))) gs) with (s := 0) as [_ E]; auto.
  { intros. split; auto. ring. } rewrite E, sumR_scal. ring.
Qed.
Lemma work_gradients_closed gs q : work_gradients gs q = snd (at_pixel gs q).
Proof.
  unfold at_pixel, work_gradients, compute_gig.
  assert (H : forall a z, fold_left (fun acc g => row_add acc (matvec (derivs g) (snd (compute_gaussian g (q_x q) (q_y q))))) gs a =
    snd (fold_left (fun acc g => let out := compute_gaussian g (q_x q) (q_y q) in
               (fst acc + fst out, row_add (snd acc) (matvec (derivs g) (snd out)))) gs (z, a))); [|apply H].
  induction gs as [|g gs IH]; intros a z; auto. cbn [fold_left fst snd]. cbv zeta. apply IH.
Qed.
Lemma fast_residual_closed active fixed q : fast_residual active fixed q = q_value q - sumR (fun gs => fst (at_pixel gs q)) (active ++ fixed).
Proof.
  unfold fast_residual.
  destruct (fold_obs (fun r gs => fold_left (fun r g => r - fst (compute_gaussian g (q_x q) (q_y q))) gs r) (fun _ => True) (fun s => s)
    (fun gs => - 1 * fst (at_pixel gs q)) (active ++ fixed)) with (s := q_value q) as [_ E]; auto.
  { intros s gs _ _. split; auto. unfold at_pixel. rewrite gig_image.
    destruct (fold_obs (fun acc g => acc - fst (compute_gaussian g (q_x q) (q_y q))) (fun _ => True) (fun s => s)
      (fun g => - 1 * fst (compute_gaussian g (q_x q) (q_y q))) gs) with (s := s) as [_ E]; auto.
    { intros. split; auto. ring. } rewrite E, sumR_scal. ring. }
  rewrite E, sumR_scal. unfold gig. ring.
Qed.
Lemma work_chi_closed active fixed q : work_chi active fixed q = (q_value q - sumR (fun gs => fst (at_pixel gs q)) active) * q_ierr q.
Proof.
  unfold work_chi. rewrite total_app, total_zeros, total_sumR. f_equal.
  rewrite (sumR_ext _ (fun gs => -1 * fst (at_pixel gs q))) by (intros gs _; rewrite work_residual_closed; ring). rewrite sumR_scal. ring.
Qed.
Lemma fast_chi_closed active fixed q : fast_chi active fixed q = (q_value q - sumR (fun gs => fst (at_pixel gs q)) (active ++ fixed)) * q_ierr q.
Proof. unfold fast_chi. now rewrite fast_residual_closed. Qed.

(** matvec is linear *)
Lemma matvec_nth m v p : (p < List.length m)%nat -> nth p (matvec m v) 0 = fold_right Rplus 0 (map (fun x => fst x * snd x) (combine (nth p m []) v)).
Proof.
  intros H. unfold matvec. set (F := fun row : list R => _). rewrite (nth_indep _ 0 (F [])) by (now rewrite map_length).
  rewrite map_nth. reflexivity.
Qed.
Lemma dot_sum {A} (row : list R) (n : nat) (f : A -> list R) (w : A -> R) (l : list A) : List.length row = n ->
  (forall a, In a l -> List.length (f a) = n) ->
  fold_right Rplus 0 (map (fun x => fst x * snd x) (combine row (map (fun k => sumR (fun a => nth k (f a) 0 * w a) l) (seq 0 n)))) =
  sumR (fun a => fold_right Rplus 0 (map (fun x => fst x * snd x) (combine row (f a))) * w a) l.
Proof.
  intros <-. revert f. induction row as [|r row IH]; intros f Hf.
  - simpl. symmetry. apply sumR_zero. intros. ring.
  - cbn [List.length seq map combine fold_right fst snd]. rewrite <- seq_shift, map_map.
    specialize (IH (fun a => tl (f a))). rewrite (map_ext (fun k => sumR (fun a => nth (S k) (f a) 0 * w a) l) (fun k => sumR (fun a => nth k (tl (f a)) 0 * w a) l)).
    2:{ intros k. apply sumR_ext. intros a _. now destruct (f a); destruct k. }
    rewrite IH. 2:{ intros a Ha. specialize (Hf a Ha). destruct (f a); simpl in *; lia. }
    rewrite <- sumR_scal, <- sumR_plus. apply sumR_ext. intros a Ha. specialize (Hf a Ha). destruct (f a) as [|x fa]; [easy|].
    cbn [combine map fold_right fst snd nth tl]. ring.
Qed.
Lemma gauss_six g x y : List.length (snd (compute_gaussian g x y)) = 6%nat.
Proof. reflexivity. Qed.

Lemma fast_row_closed active fixed px gs : List.Forall shaped gs ->
  fold_left (fun acc g => row_add acc (matvec (derivs g) (against_chivar active fixed px g))) gs (repeat 0 7) =
  map (fun k => sumR (fun q => nth k (snd (at_pixel gs q)) 0 * fast_chivar active fixed q) px) (seq 0 7).
Proof.
  intros HF. rewrite List.Forall_forall in HF.
  set (stp := fun acc g => row_add acc (matvec (derivs g) (against_chivar active fixed px g))).
  assert (HM : forall g, In g gs -> List.length (matvec (derivs g) (against_chivar active fixed px g)) = 7%nat).
  { intros g Hg. unfold matvec. rewrite map_length. apply HF, Hg. }
  assert (HL : forall acc, List.length acc = 7%nat -> List.length (fold_left stp gs acc) = 7%nat).
  { clear HF. induction gs as [|g gs' IH]; intros acc HA; auto. simpl. apply IH; [intros; apply HM; simpl; auto|].
    unfold stp. rewrite row_add_length; rewrite ?HM; simpl; auto. }
  apply (nth_ext _ _ 0 0); [rewrite HL by reflexivity; now rewrite map_length, seq_length|].
  intros p Hp. rewrite HL in Hp by reflexivity.
  destruct (fold_obs stp (fun l => List.length l = 7%nat) (fun l => nth p l 0)
    (fun g => sumR (fun q => nth p (matvec (derivs g) (snd (compute_gaussian g (q_x q) (q_y q)))) 0 * fast_chivar active fixed q) px) gs)
    with (s := repeat 0 7) as [_ E]; [|reflexivity|].
  { intros s g Hg Hs. unfold stp. split; [rewrite row_add_length; rewrite ?HM; auto|].
    rewrite row_add_nth by (rewrite ?HM; auto; lia). f_equal. destruct (HF g Hg) as [S1 S2].
    rewrite matvec_nth by lia. unfold against_chivar. rewrite (map_ext _ (fun k => sumR (fun q => nth k (snd (compute_gaussian g (q_x q) (q_y q))) 0 * fast_chivar active fixed q) px))
      by (intros k; now rewrite total_sumR).
    rewrite (dot_sum (nth p (derivs g) []) 6 (fun q => snd (compute_gaussian g (q_x q) (q_y q))) (fast_chivar active fixed) px).
    - apply sumR_ext. intros q _. rewrite matvec_nth by lia. reflexivity.
    - rewrite List.Forall_forall in S2. apply S2, nth_In. lia.
    - intros; apply gauss_six. }
  rewrite E. rewrite nth_repeat, Rplus_0_l.
  set (F := fun k => sumR (fun q => nth k (snd (at_pixel gs q)) 0 * fast_chivar active fixed q) px).
  rewrite (nth_indep _ 0 (F 0%nat)) by (rewrite map_length, seq_length; auto). rewrite map_nth, seq_nth by auto. unfold F. simpl (0 + p)%nat.
  rewrite sumR_swap. apply sumR_ext. intros q _. unfold at_pixel.
  assert (H7 : List.Forall (fun g => List.length (derivs g) = 7%nat) gs) by (apply List.Forall_forall; intros g Hg; apply HF, Hg).
  destruct (gig_closed gs (q_x q) (q_y q) H7) as (_ & _ & E3). rewrite E3 by auto.
  rewrite Rmult_comm, <- sumR_scal. apply sumR_ext. intros; ring.
Qed.
Lemma convert_shaped s st : List.Forall shaped (convert_to_gaussians s st).
Proof.
  apply List.Forall_forall. intros g. unfold convert_to_gaussians. rewrite in_flat_map. intros ((((r & a) & n) & h) & _ & H).
  apply in_map_iff in H as ([[al m] c] & <- & _). unfold shaped, slow_jacobian. cbn [derivs]. split; [reflexivity|]. repeat constructor.
Qed.

(** The value and the gradient both plans give when there is no fixed source *)
Definition chi_at (active : list gig) (q : spixel) : R := (q_value q - sumR (fun gs => fst (at_pixel gs q)) active) * q_ierr q.
Definition plan_value (px : list spixel) (active : list gig) : R := - (1/2) * sumR (fun q => chi_at active q * chi_at active q) px.
Definition plan_gradient (px : list spixel) (active : list gig) (gs : gig) : list R :=
  map (fun k => sumR (fun q => nth k (snd (at_pixel gs q)) 0 * (chi_at active q * q_ierr q)) px) (seq 0 7).
Lemma work_closed px active fixed : work_lnlike px active fixed = (plan_value px active, map (plan_gradient px active) active).
Proof.
  unfold work_lnlike, plan_value. f_equal.
  - rewrite total_sumR. f_equal. apply sumR_ext. intros q _. now rewrite work_chi_closed.
  - apply map_ext. intros gs. apply map_ext. intros k. rewrite total_sumR. apply sumR_ext. intros q _.
    now rewrite work_chi_closed, work_gradients_closed.
Qed.
Lemma fast_closed px active : List.Forall (List.Forall shaped) active ->
  fast_lnlike px active [] = (plan_value px active, map (plan_gradient px active) active).
Proof.
  intros HF. unfold fast_lnlike, plan_value. f_equal.
  - rewrite total_sumR. f_equal. apply sumR_ext. intros q _. rewrite fast_chi_closed, app_nil_r. reflexivity.
  - apply map_ext_in. intros gs Hgs. rewrite List.Forall_forall in HF. rewrite fast_row_closed by auto. apply map_ext. intros k.
    apply sumR_ext. intros q _. unfold fast_chivar. rewrite fast_chi_closed, app_nil_r. reflexivity.
Qed.
