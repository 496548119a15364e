(** C30: least squares for one band. *)
From Verif Require Import Np NpFacts KernelModel KernelSum DeviceModel LinOptModel.
From Coq Require Import Reals Lra.
Open Scope R_scope.

(** Weighted sum of squares of [y - fixed - sum_i g_i X_i] over the pixels *)
Definition chi2 (X : list (list R)) (w y fixed : list R) (g : list R) : R :=
  sumR (fun p => ((nth p y 0 - nth p fixed 0 - sumR (fun i => nth i g 0 * nth p (nth i X []) 0) (seq 0 (List.length X))) * nth p w 0) ^ 2)
    (seq 0 (List.length y)).
(** A design matrix with [m] pixels per row *)
Definition rectangular (m : nat) (X : list (list R)) : Prop := Forall (fun row => List.length row = m) X.
(** What is required of np.linalg.solve: an answer solves the system *)
Definition solves (linalg_solve : list (list R) -> list R -> option (list R)) : Prop :=
  forall A b x, linalg_solve A b = Some x -> List.length x = List.length b /\
    forall i row bi, nth_error A i = Some row -> nth_error b i = Some bi ->
      sumR (fun j => nth j row 0 * nth j x 0) (seq 0 (List.length row)) = bi.

Lemma sum_swap {A B} (F : A -> B -> R) l m : sumR (fun a => sumR (F a) m) l = sumR (fun b => sumR (fun a => F a b) l) m.
Proof.
  induction l as [|a l IH].
  - rewrite (sumR_zero _ m); auto.
  - rewrite sumR_cons, IH. rewrite <- sumR_plus. apply sumR_ext. intros b _. now rewrite sumR_cons.
Qed.
Lemma sum_nonneg {A} (f : A -> R) l : (forall a, In a l -> 0 <= f a) -> 0 <= sumR f l.
Proof. induction l as [|a l IH]; intros H; [unfold sumR; simpl; lra|]. rewrite sumR_cons. pose proof (H a (or_introl eq_refl)). pose proof (IH (fun b Hb => H b (or_intror Hb))). lra. Qed.
Lemma sum_zero_all {A} (f : A -> R) l : (forall a, In a l -> 0 <= f a) -> sumR f l = 0 -> forall a, In a l -> f a = 0.
Proof.
  induction l as [|a l IH]; intros H H0 b Hb; [easy|]. rewrite sumR_cons in H0.
  pose proof (H a (or_introl eq_refl)). pose proof (sum_nonneg f l (fun b Hb => H b (or_intror Hb))).
  destruct Hb as [<-|Hb]; [lra|]. apply IH; auto; [intros; apply H; simpl; auto|lra].
Qed.
Lemma vmul_length a b : List.length a = List.length b -> List.length (vmul a b) = List.length a.
Proof. intros H. unfold vmul. rewrite map_length, combine_length. lia. Qed.
Lemma vsub_length a b : List.length a = List.length b -> List.length (vsub a b) = List.length a.
Proof. intros H. unfold vsub. rewrite map_length, combine_length. lia. Qed.
Lemma vmul_nth a : forall b i, List.length a = List.length b -> nth i (vmul a b) 0 = nth i a 0 * nth i b 0.
Proof. induction a as [|x a IH]; intros [|y b] i H; try discriminate; destruct i; simpl; try ring; apply IH; auto. Qed.
Lemma vsub_nth a : forall b i, List.length a = List.length b -> nth i (vsub a b) 0 = nth i a 0 - nth i b 0.
Proof. induction a as [|x a IH]; intros [|y b] i H; try discriminate; destruct i; simpl; try ring; apply IH; auto. Qed.
Lemma sumR_seq_shift f n : sumR f (seq 1 n) = sumR (fun i => f (S i)) (seq 0 n).
Proof. rewrite <- seq_shift, sumR_map. reflexivity. Qed.
Lemma sum_list l : fold_right Rplus 0 l = sumR (fun i => nth i l 0) (seq 0 (List.length l)).
Proof. induction l as [|x l IH]; auto. cbn [fold_right List.length seq]. rewrite sumR_cons, sumR_seq_shift, IH. reflexivity. Qed.
Lemma dot_sum a b : List.length a = List.length b -> dot a b = sumR (fun p => nth p a 0 * nth p b 0) (seq 0 (List.length a)).
Proof.
  intros H. unfold dot. rewrite sum_list, vmul_length by auto. apply sumR_ext. intros i _. now apply vmul_nth.
Qed.

Section Band.
Variable linalg_solve : list (list R) -> list R -> option (list R).
Hypothesis solver : solves linalg_solve.
Variables (X : list (list R)) (w y : list R).
Hypothesis rect : rectangular (List.length y) X.
Hypothesis wlen : List.length w = List.length y.
Notation M := (List.length y).
Notation N := (List.length X).
Definition noimage : list R := repeat 0 M.
Lemma row_len i : (i < N)%nat -> List.length (nth i X []) = M.
Proof. intros Hi. unfold rectangular in rect. rewrite Forall_forall in rect. apply rect. now apply nth_In. Qed.
(** Entry (i, p) of the weighted design matrix *)
Definition xw (i p : nat) : R := nth p (nth i X []) 0 * nth p w 0.
Lemma weighted_dot i b : (i < N)%nat -> List.length b = M -> dot (vmul (nth i X []) w) b = sumR (fun p => xw i p * nth p b 0) (seq 0 M).
Proof.
  intros Hi Hb. pose proof (row_len i Hi). rewrite dot_sum; rewrite vmul_length by congruence; [|congruence]. rewrite H. apply sumR_ext. intros p _. rewrite vmul_nth by congruence. reflexivity.
Qed.
Notation Xp := (map (fun row => vmul row w) X).
Notation ATA := (map (fun r => map (dot r) Xp) Xp).
Lemma xp_nth i : (i < N)%nat -> nth i Xp [] = vmul (nth i X []) w.
Proof. intros Hi. rewrite (nth_indep _ [] ((fun row => vmul row w) [])) by now rewrite map_length. apply (map_nth (fun row => vmul row w)). Qed.
Lemma ata_entry i j : (i < N)%nat -> (j < N)%nat -> nth j (nth i ATA []) 0 = sumR (fun p => xw i p * xw j p) (seq 0 M).
Proof.
  intros Hi Hj. rewrite (nth_indep ATA [] ((fun r => map (dot r) Xp) [])) by now rewrite !map_length. rewrite (map_nth (fun r => map (dot r) Xp)).
  rewrite (nth_indep _ 0 (dot (nth i Xp []) [])) by now rewrite !map_length. rewrite (map_nth (dot (nth i Xp []))). rewrite !xp_nth by auto.
  rewrite weighted_dot by (auto; rewrite vmul_length; rewrite row_len; auto; congruence). apply sumR_ext. intros p _. rewrite vmul_nth by (rewrite row_len; auto). reflexivity.
Qed.
Lemma ata_shape : List.length ATA = N /\ forall i, (i < N)%nat -> List.length (nth i ATA []) = N.
Proof.
  rewrite !map_length. split; auto. intros i Hi. rewrite (nth_indep ATA [] ((fun r => map (dot r) Xp) [])) by now rewrite !map_length.
  rewrite (map_nth (fun r => map (dot r) Xp)). now rewrite !map_length.
Qed.

Variable fixedX : option (list R).
Hypothesis fixlen : match fixedX with Some f => List.length f = M | None => True end.
Notation fx := (match fixedX with Some f => f | None => noimage end).
Notation yp := (vmul (match fixedX with Some f => vsub y f | None => y end) w).
Lemma yp_len : List.length yp = M.
Proof. destruct fixedX; rewrite vmul_length; try rewrite vsub_length; auto; congruence. Qed.
Lemma fx_len : List.length fx = M.
Proof. destruct fixedX; auto. unfold noimage. now rewrite repeat_length. Qed.
Lemma yp_nth p : (p < M)%nat -> nth p yp 0 = (nth p y 0 - nth p fx 0) * nth p w 0.
Proof.
  intros Hp. rewrite vmul_nth by (destruct fixedX; try rewrite vsub_length; auto; congruence). f_equal. destruct fixedX; [rewrite vsub_nth by auto; reflexivity|].
  unfold noimage. rewrite nth_repeat. ring.
Qed.
(** The weighted residual of flux vector [g] at pixel [p] *)
Definition wres (g : list R) (p : nat) : R := nth p yp 0 - sumR (fun i => nth i g 0 * xw i p) (seq 0 N).
Lemma chi2_wres g : chi2 X w y fx g = sumR (fun p => wres g p * wres g p) (seq 0 M).
Proof.
  apply sumR_ext. intros p Hp. apply in_seq in Hp. unfold wres. rewrite yp_nth by lia.
  set (s := sumR (fun i => nth i g 0 * nth p (nth i X []) 0) (seq 0 N)).
  replace (sumR (fun i => nth i g 0 * xw i p) (seq 0 N)) with (nth p w 0 * s).
  - ring.
  - unfold s. rewrite <- sumR_scal. apply sumR_ext. intros i _. unfold xw. ring.
Qed.
Lemma orthogonal f A : optimize_one_band linalg_solve X w y fixedX = Some (f, A) -> A = ATA /\ List.length f = N /\ forall i, (i < N)%nat -> sumR (fun p => wres f p * xw i p) (seq 0 M) = 0.
Proof.
  unfold optimize_one_band. destruct (linalg_solve _ _) as [f'|] eqn:Es; [|discriminate]. intros H. injection H as <- <-.
  destruct (solver _ _ _ Es) as [L S]. rewrite !map_length in L. split; [reflexivity|]. split; auto. intros i Hi.
  destruct ata_shape as [LA LR].
  assert (Ei : nth_error ATA i = Some (nth i ATA [])) by (apply nth_error_nth'; rewrite LA; auto).
  assert (Bi : nth_error (map (fun r => dot r yp) Xp) i = Some (dot (vmul (nth i X []) w) yp)).
  { rewrite nth_error_map. assert (Exi : nth_error Xp i = Some (vmul (nth i X []) w)) by (rewrite <- xp_nth by auto; apply nth_error_nth'; now rewrite map_length). now rewrite Exi. }
  specialize (S i _ _ Ei Bi). rewrite (LR i Hi) in S. rewrite weighted_dot in S by (auto; apply yp_len).
  unfold wres. replace (sumR (fun p => (nth p yp 0 - sumR (fun j => nth j f' 0 * xw j p) (seq 0 N)) * xw i p) (seq 0 M))
    with (sumR (fun p => xw i p * nth p yp 0) (seq 0 M) - sumR (fun p => sumR (fun j => nth j f' 0 * (xw i p * xw j p)) (seq 0 N)) (seq 0 M)).
  - rewrite sum_swap. rewrite <- S. apply Rminus_diag_eq. apply sumR_ext. intros j Hj. apply in_seq in Hj. rewrite sumR_scal, ata_entry by lia. ring.
  - unfold Rminus. rewrite <- (Rmult_1_l (sumR (fun p => sumR _ _) _)). rewrite <- Ropp_mult_distr_l_reverse. rewrite <- sumR_scal, <- sumR_plus. apply sumR_ext. intros p _.
    rewrite (sumR_ext (fun j => nth j f' 0 * (xw i p * xw j p)) (fun j => xw i p * (nth j f' 0 * xw j p))) by (intros; ring). rewrite sumR_scal. ring.
Qed.

(** The change of the residual from [f] to [g] *)
Definition shift (f g : list R) (p : nat) : R := sumR (fun i => (nth i f 0 - nth i g 0) * xw i p) (seq 0 N).
Lemma wres_shift f g p : wres g p = wres f p + shift f g p.
Proof.
  unfold wres, shift. rewrite (sumR_ext (fun i => (nth i f 0 - nth i g 0) * xw i p) (fun i => nth i f 0 * xw i p + -1 * (nth i g 0 * xw i p))) by (intros; ring).
  rewrite sumR_plus, sumR_scal. ring.
Qed.
Lemma pythagoras f A g : optimize_one_band linalg_solve X w y fixedX = Some (f, A) ->
  chi2 X w y fx g = chi2 X w y fx f + sumR (fun p => shift f g p * shift f g p) (seq 0 M).
Proof.
  intros H. destruct (orthogonal f A H) as (_ & _ & Ho). rewrite !chi2_wres.
  assert (C : sumR (fun p => wres f p * shift f g p) (seq 0 M) = 0).
  { unfold shift. rewrite (sumR_ext _ (fun p => sumR (fun i => (nth i f 0 - nth i g 0) * (wres f p * xw i p)) (seq 0 N))).
    - rewrite sum_swap. apply sumR_zero. intros i Hi. apply in_seq in Hi. rewrite sumR_scal, Ho by lia. ring.
    - intros p _. rewrite <- sumR_scal. apply sumR_ext. intros; ring. }
  rewrite (sumR_ext (fun p => wres g p * wres g p) (fun p => (wres f p * wres f p + shift f g p * shift f g p) + 2 * (wres f p * shift f g p))).
  - rewrite !sumR_plus, sumR_scal, C. ring.
  - intros p _. rewrite (wres_shift f g p). ring.
Qed.

(** The returned fluxes minimise chi^2 over all flux vectors, of any length. *)
Theorem C30_least_squares : forall f A, optimize_one_band linalg_solve X w y fixedX = Some (f, A) ->
  List.length f = List.length X /\ forall g, chi2 X w y fx f <= chi2 X w y fx g.
Proof.
  intros f A H. split; [apply (orthogonal f A H)|]. intros g. rewrite (pythagoras f A g H).
  pose proof (sum_nonneg (fun p => shift f g p * shift f g p) (seq 0 M)) as Hs. cbv beta in Hs. assert (forall a, In a (seq 0 M) -> 0 <= shift f g a * shift f g a) by (intros; nra). specialize (Hs H0). lra.
Qed.
(** They are the only minimum if the precision matrix is regular. *)
Theorem C30_unique : forall f A, optimize_one_band linalg_solve X w y fixedX = Some (f, A) ->
  (forall z, List.length z = List.length X -> (forall i, (i < List.length X)%nat -> sumR (fun j => nth j (nth i A []) 0 * nth j z 0) (seq 0 (List.length X)) = 0) -> forall i, nth i z 0 = 0) ->
  forall g, List.length g = List.length X -> chi2 X w y fx g <= chi2 X w y fx f -> g = f.
Proof.
  intros f A H Hreg g Lg Hle. destruct (orthogonal f A H) as (EA & Lf & _). rewrite (pythagoras f A g H) in Hle.
  assert (Hn : forall a, In a (seq 0 M) -> 0 <= shift f g a * shift f g a) by (intros; nra).
  pose proof (sum_nonneg _ _ Hn) as Hs. assert (H0 : sumR (fun p => shift f g p * shift f g p) (seq 0 M) = 0) by lra.
  pose proof (sum_zero_all _ _ Hn H0) as Hz. set (z := vsub f g). assert (Lz : List.length z = N) by (unfold z; rewrite vsub_length; congruence).
  assert (Z : forall i, nth i z 0 = 0).
  { apply Hreg; auto. intros i Hi. rewrite (sumR_ext _ (fun j => sumR (fun p => nth j z 0 * (xw i p * xw j p)) (seq 0 M))).
    - rewrite <- (sum_swap (fun p j => nth j z 0 * (xw i p * xw j p))). apply sumR_zero. intros p Hp.
      rewrite (sumR_ext _ (fun j => xw i p * ((nth j f 0 - nth j g 0) * xw j p))) by (intros j _; unfold z; rewrite vsub_nth by congruence; ring).
      rewrite sumR_scal. fold (shift f g p). specialize (Hz p Hp). cbv beta in Hz. assert (shift f g p = 0) by nra. rewrite H1. ring.
    - intros j Hj. apply in_seq in Hj. rewrite EA, ata_entry by lia. rewrite sumR_scal. ring. }
  apply (nth_ext _ _ 0 0); [congruence|]. intros i _. specialize (Z i). unfold z in Z. rewrite vsub_nth in Z by congruence. lra.
Qed.
(** The precision matrix: square, symmetric, positive semi-definite. *)
Theorem C30_precision : forall f A, optimize_one_band linalg_solve X w y fixedX = Some (f, A) ->
  List.length A = List.length X /\ Forall (fun row => List.length row = List.length X) A /\
  (forall i j, (i < List.length X)%nat -> (j < List.length X)%nat -> nth j (nth i A []) 0 = nth i (nth j A []) 0) /\
  forall z, 0 <= sumR (fun i => sumR (fun j => nth i z 0 * nth j (nth i A []) 0 * nth j z 0) (seq 0 (List.length X))) (seq 0 (List.length X)).
Proof.
  intros f A H. destruct (orthogonal f A H) as (EA & _ & _). destruct ata_shape as [LA LR]. rewrite EA. split; [exact LA|]. split.
  { apply Forall_forall. intros r Hr. apply (In_nth _ _ []) in Hr. destruct Hr as (i & Hi & <-). apply LR. now rewrite LA in Hi. }
  split.
  - intros i j Hi Hj. rewrite !ata_entry by auto. apply sumR_ext. intros; ring.
  - intros z. set (v := fun p => sumR (fun i => nth i z 0 * xw i p) (seq 0 N)).
    replace (sumR _ (seq 0 N)) with (sumR (fun p => v p * v p) (seq 0 M)); [apply sum_nonneg; intros; nra|].
    unfold v at 1. rewrite (sumR_ext _ (fun p => sumR (fun i => nth i z 0 * xw i p * v p) (seq 0 N))).
    + rewrite sum_swap. apply sumR_ext. intros i Hi. apply in_seq in Hi. unfold v.
      rewrite (sumR_ext _ (fun p => sumR (fun j => nth i z 0 * nth j z 0 * (xw i p * xw j p)) (seq 0 N))).
      * rewrite sum_swap. apply sumR_ext. intros j Hj. apply in_seq in Hj. rewrite ata_entry by lia. rewrite sumR_scal. ring.
      * intros p _. rewrite <- sumR_scal. apply sumR_ext. intros; ring.
    + intros p _. rewrite Rmult_comm, <- sumR_scal. apply sumR_ext. intros; ring.
Qed.
(** The precision matrix is the curvature of chi^2 around the returned fluxes. *)
Theorem C30_curvature : forall f A, optimize_one_band linalg_solve X w y fixedX = Some (f, A) ->
  forall g, chi2 X w y fx g = chi2 X w y fx f +
    sumR (fun i => sumR (fun j => (nth i g 0 - nth i f 0) * nth j (nth i A []) 0 * (nth j g 0 - nth j f 0)) (seq 0 (List.length X))) (seq 0 (List.length X)).
Proof.
  intros f A H g. rewrite (pythagoras f A g H). destruct (orthogonal f A H) as (EA & _ & _). rewrite EA. f_equal.
  rewrite (sumR_ext _ (fun p => sumR (fun i => (nth i f 0 - nth i g 0) * xw i p * shift f g p) (seq 0 N))).
  - rewrite sum_swap. apply sumR_ext. intros i Hi. apply in_seq in Hi. unfold shift.
    rewrite (sumR_ext _ (fun p => sumR (fun j => (nth i g 0 - nth i f 0) * (nth j g 0 - nth j f 0) * (xw i p * xw j p)) (seq 0 N))).
    + rewrite sum_swap. apply sumR_ext. intros j Hj. apply in_seq in Hj. rewrite ata_entry by lia. rewrite sumR_scal. ring.
    + intros p _. rewrite <- sumR_scal. apply sumR_ext. intros; ring.
  - intros p _. unfold shift at 1. rewrite Rmult_comm, <- sumR_scal. apply sumR_ext. intros; ring.
Qed.
End Band.

(** Pixels with zero weight have no influence on the fluxes or the precision: their
    data, fixed image and design entries can be anything. *)
Theorem C30_masked : forall linalg_solve X X' w y y', rectangular (List.length y) X -> rectangular (List.length y) X' ->
  List.length w = List.length y -> List.length y' = List.length y -> List.length X' = List.length X ->
  (forall p, nth p w 0 <> 0 -> nth p y' 0 = nth p y 0 /\ forall i, nth p (nth i X' []) 0 = nth p (nth i X []) 0) ->
  optimize_one_band linalg_solve X' w y' None = optimize_one_band linalg_solve X w y None.
Proof.
  intros linalg_solve X X' w y y' RX RX' Lw Ly LX H.
  assert (G : forall a b, List.length a = List.length w -> List.length b = List.length w -> (forall p, nth p w 0 <> 0 -> nth p a 0 = nth p b 0) -> vmul a w = vmul b w).
  { clear. intros a b La Lb H. apply (nth_ext _ _ 0 0); [rewrite !vmul_length; congruence|]. intros p _. rewrite !vmul_nth by congruence.
    destruct (Req_dec (nth p w 0) 0) as [->|N]; [ring|]. now rewrite (H p N). }
  assert (Ey : vmul y' w = vmul y w) by (apply G; try congruence; intros p Hp; apply (H p Hp)).
  assert (EX : map (fun row => vmul row w) X' = map (fun row => vmul row w) X).
  { apply (nth_ext _ _ [] []); [now rewrite !map_length|]. intros i Hi. rewrite map_length in Hi.
    rewrite (nth_indep _ [] ((fun row => vmul row w) [])) by now rewrite map_length. rewrite (map_nth (fun row => vmul row w)).
    rewrite (nth_indep (map _ X) [] ((fun row => vmul row w) [])) by (rewrite map_length; congruence). rewrite (map_nth (fun row => vmul row w)).
    unfold rectangular in *. rewrite Forall_forall in RX, RX'. apply G.
    - rewrite Lw. apply RX'. now apply nth_In.
    - rewrite Lw. apply RX. apply nth_In. congruence.
    - intros p Hp. apply (H p Hp). }
  unfold optimize_one_band. cbv zeta. now rewrite Ey, EX.
Qed.
