(** EvaluateProposal as sums over exposures, pixels and Gaussians. *)
From Verif Require Import Np NpFacts KernelModel KernelFacts KernelJac.
From Coq Require Import Reals Lra Permutation.
From Coquelicot Require Import Coquelicot.
Open Scope R_scope.

Definition sumR {A} (f : A -> R) (l : list A) : R := fold_right (fun a s => f a + s) 0 l.
Arguments sumR : simpl never.
Lemma sumR_cons {A} (f : A -> R) a l : sumR f (a :: l) = f a + sumR f l.
Proof. reflexivity. Qed.
Lemma sumR_app {A} (f : A -> R) l m : sumR f (l ++ m) = sumR f l + sumR f m.
Proof. induction l as [|a l IH]; simpl; [unfold sumR; simpl; ring|]. rewrite !sumR_cons, IH. ring. Qed.
Lemma sumR_ext {A} (f g : A -> R) l : (forall a, In a l -> f a = g a) -> sumR f l = sumR g l.
Proof. induction l as [|a l IH]; simpl; intros H; auto. rewrite !sumR_cons, IH by auto. now rewrite H by auto. Qed.
Lemma sumR_map {A B} (h : A -> B) (f : B -> R) l : sumR f (map h l) = sumR (fun a => f (h a)) l.
Proof. induction l as [|a l IH]; simpl; auto. now rewrite !sumR_cons, IH. Qed.
Lemma sumR_flat {A B} (h : A -> list B) (f : B -> R) l : sumR f (flat_map h l) = sumR (fun a => sumR f (h a)) l.
Proof. induction l as [|a l IH]; simpl; auto. now rewrite sumR_app, sumR_cons, IH. Qed.
Lemma sumR_scal {A} (c : R) (f : A -> R) l : sumR (fun a => c * f a) l = c * sumR f l.
Proof. induction l as [|a l IH]; simpl; [unfold sumR; simpl; ring|]. rewrite !sumR_cons, IH. ring. Qed.
Lemma sumR_zero {A} (f : A -> R) l : (forall a, In a l -> f a = 0) -> sumR f l = 0.
Proof. induction l as [|a l IH]; simpl; intros H; auto. rewrite sumR_cons, IH, H by auto. ring. Qed.
Lemma sumR_plus {A} (f g : A -> R) l : sumR (fun a => f a + g a) l = sumR f l + sumR g l.
Proof. induction l as [|a l IH]; simpl; [unfold sumR; simpl; ring|]. rewrite !sumR_cons, IH. ring. Qed.
Lemma sumR_single {A} (f : A -> R) l (a : A) (eqA : forall x y : A, {x = y} + {x <> y}) :
  NoDup l -> In a l -> (forall x, In x l -> x <> a -> f x = 0) -> sumR f l = f a.
Proof.
  induction l as [|x l IH]; simpl; intros Hn Hin H; [easy|]. inversion Hn; subst. rewrite sumR_cons.
  destruct (eqA x a) as [->|Hx].
  - rewrite sumR_zero; [ring|]. intros y Hy. apply H; auto. intros ->. contradiction.
  - destruct Hin as [->|Hin]; [congruence|]. rewrite IH; auto. rewrite H by auto. ring.
Qed.
Lemma sumR_perm {A} (f : A -> R) l m : Permutation l m -> sumR f l = sumR f m.
Proof. induction 1; simpl; rewrite ?sumR_cons; try lra. Qed.
Lemma sumR_filter {A} (f : A -> R) (c : A -> bool) l : (forall a, c a = false -> f a = 0) -> sumR f (filter c l) = sumR f l.
Proof.
  intros H. induction l as [|a l IH]; simpl; auto. destruct (c a) eqn:E; rewrite ?sumR_cons, IH; auto. rewrite (H a E). ring.
Qed.
Lemma sumR_derive {A} (F : A -> R -> R) (d : A -> R) (l : list A) (t0 : R) :
  (forall a, In a l -> is_derive (F a) t0 (d a)) -> is_derive (fun t => sumR (fun a => F a t) l) t0 (sumR d l).
Proof.
  induction l as [|a l IH]; intros H.
  - change (is_derive (fun _ : R => 0) t0 0). apply @is_derive_const.
  - apply (is_derive_plus (F a) (fun t => sumR (fun a => F a t) l)); [apply H; simpl; auto|apply IH; intros; apply H; simpl; auto].
Qed.

(** A fold whose observation [obs] grows by [f a] at every step. *)
Lemma fold_obs {S A} (step : S -> A -> S) (Inv : S -> Prop) (obs : S -> R) (f : A -> R) l :
  (forall s a, In a l -> Inv s -> Inv (step s a) /\ obs (step s a) = obs s + f a) ->
  forall s, Inv s -> Inv (fold_left step l s) /\ obs (fold_left step l s) = obs s + sumR f l.
Proof.
  induction l as [|a l IH]; simpl; intros H s Hs; [split; auto; unfold sumR; simpl; ring|].
  destruct (H s a (or_introl eq_refl) Hs) as [H1 H2].
  destruct (IH (fun s a Ha => H s a (or_intror Ha)) _ H1) as [H3 H4]. split; auto. rewrite H4, H2, sumR_cons. ring.
Qed.

Lemma residual_closed xp yp d gs : ComputeResidualImage xp yp d gs = d - sumR (residual_term xp yp) gs.
Proof.
  unfold ComputeResidualImage.
  destruct (fold_obs (fun residual g => residual - residual_term xp yp g) (fun _ => True) (fun s => s)
              (fun g => - residual_term xp yp g) gs) with (s := d) as [_ E]; auto.
  rewrite E. replace (sumR (fun g => - residual_term xp yp g) gs) with (-1 * sumR (residual_term xp yp) gs); [ring|].
  rewrite <- sumR_scal. apply sumR_ext. intros; ring.
Qed.

Lemma row_add_length a b : List.length a = List.length b -> List.length (row_add a b) = List.length a.
Proof. intros H. unfold row_add. rewrite map_length, combine_length. lia. Qed.
Lemma row_add_nth a b j : List.length a = List.length b -> (j < List.length a)%nat -> nth j (row_add a b) 0 = nth j a 0 + nth j b 0.
Proof.
  revert b j. induction a as [|x a IH]; intros [|y b] j; simpl; intros HL Hj; try lia. destruct j; [reflexivity|]. apply IH; lia.
Qed.

Lemma deriv_closed xp yp r gs acc : List.length acc = 7%nat ->
  List.length (ComputeGaussianDerivative xp yp r gs acc) = 7%nat /\
  forall j, (j < 7)%nat ->
    nth j (ComputeGaussianDerivative xp yp r gs acc) 0 = nth j acc 0 + sumR (fun g => nth j (derivative_row xp yp r g) 0) gs.
Proof.
  intros HL. unfold ComputeGaussianDerivative. split.
  - revert acc HL. induction gs as [|g gs IH]; simpl; intros acc HL; auto. apply IH. rewrite row_add_length; auto. now rewrite derivative_row_length.
  - intros j Hj.
    destruct (fold_obs (fun acc g => row_add acc (derivative_row xp yp r g)) (fun l => List.length l = 7%nat) (fun l => nth j l 0)
              (fun g => nth j (derivative_row xp yp r g) 0) gs) with (s := acc) as [_ E]; auto.
    intros s a _ Hs. split; [rewrite row_add_length; auto; now rewrite derivative_row_length|].
    apply row_add_nth; rewrite ?derivative_row_length; lia.
Qed.

Lemma add_at_length l i v : List.length (add_at l i v) = List.length l.
Proof. unfold add_at. apply upd_length. Qed.
Lemma add_at_nth l i v k : (i < List.length l)%nat -> nth k (add_at l i v) 0 = nth k l 0 + (if Nat.eqb k i then v else 0).
Proof.
  intros Hi. unfold add_at. pose proof (nth_error_upd i (nth i l 0 + v) l k) as E.
  destruct (Nat.eqb_spec k i) as [->|Hk].
  - rewrite Nat.eqb_refl in E. destruct (Nat.ltb_spec i (List.length l)); [|lia]. apply nth_error_nth with (d := 0) in E. exact E.
  - destruct (Nat.eqb_spec i k); [congruence|]. rewrite Rplus_0_r.
    destruct (nth_error l k) eqn:Ek.
    + rewrite (nth_error_nth _ _ _ E), (nth_error_nth _ _ _ Ek). reflexivity.
    + assert (Hk' : (List.length l <= k)%nat) by (now apply nth_error_None). rewrite !nth_overflow; auto. rewrite upd_length; auto.
Qed.

(** The block of one galaxy in imageGauss. *)
Lemma blocks {A} (F : nat -> list A) n m g k : (forall i, List.length (F i) = n) -> (g < k)%nat ->
  firstn n (skipn (g * n) (flat_map F (seq m k))) = F (m + g)%nat.
Proof.
  intros HF. revert m g. induction k as [|k IH]; intros m g Hg; [lia|]. cbn [seq flat_map]. destruct g as [|g].
  - simpl. rewrite firstn_app, HF, Nat.sub_diag, firstn_all2 by (rewrite HF; lia). rewrite Nat.add_0_r. simpl. now rewrite app_nil_r.
  - rewrite skipn_app, HF. replace (S g * n - n)%nat with (g * n)%nat by lia. rewrite skipn_all2 by (rewrite HF; lia). simpl app.
    rewrite IH by lia. f_equal. lia.
Qed.

Section Kernel.
Context (P : Patch) (b : nat) (src : nat -> KSource).
Hypothesis max_sources : (n_sources P <= MAXSOURCES)%nat.
Let N := n_psf_per_source P b.
Definition gauss (e sid p : nat) : ImageGaussian :=
  let psf := psfgauss P (psfgauss_start P e + p) in
  GetGaussianAndJacobian (pix_gaussian P b e sid (src sid) psf) psf.
Lemma convolve_map e sid : ConvolveOneSource P b e sid N (src sid) = map (gauss e sid) (seq 0 N).
Proof. reflexivity. Qed.

Lemma galaxy_block e g : (g < n_sources P)%nat ->
  firstn N (skipn (g * N) (CreateImageGaussians P b e src)) = map (gauss e g) (seq 0 N).
Proof.
  intros Hg. unfold CreateImageGaussians. fold N.
  pose proof (blocks (fun sid => ConvolveOneSource P b e sid N (src sid)) N 0 g (n_sources P)) as B. simpl in B. rewrite B; auto.
  intros i. rewrite convolve_map, map_length, seq_length. reflexivity.
Qed.

Definition model_at (e pix : nat) : R :=
  sumR (fun sid => sumR (fun p => residual_term (P_xpix P pix) (P_ypix P pix) (gauss e sid p)) (seq 0 N)) (seq 0 (n_sources P)).
Definition residual_at (e pix : nat) : R := P_data P pix - model_at e pix.
Lemma residual_at_correct e pix :
  ComputeResidualImage (P_xpix P pix) (P_ypix P pix) (P_data P pix) (CreateImageGaussians P b e src) = residual_at e pix.
Proof.
  rewrite residual_closed. unfold residual_at, model_at, CreateImageGaussians. rewrite sumR_flat. f_equal.
  apply sumR_ext. intros sid _. fold N. rewrite convolve_map, sumR_map. reflexivity.
Qed.
Definition chi2_at (e pix : nat) : R :=
  (residual_at e pix * P_ierr P pix - P_data P pix * P_ierr P pix) * (residual_at e pix * P_ierr P pix + P_data P pix * P_ierr P pix).
Definition grad_at (e pix s j : nat) : R :=
  sumR (fun p => nth j (derivative_row (P_xpix P pix) (P_ypix P pix) (residual_at e pix * P_ierr P pix * P_ierr P pix) (gauss e s p)) 0) (seq 0 N).

Lemma inner_j (d : list R) gal l i : (gal < n_sources P)%nat -> List.length l = (NPARAMS * MAXSOURCES)%nat ->
  let l' := fold_left (fun pd j => add_at pd (gal * NPARAMS + j) (nth j d 0)) (seq 0 NPARAMS) l in
  List.length l' = (NPARAMS * MAXSOURCES)%nat /\
  nth i l' 0 = nth i l 0 + (if Nat.eqb (i / 7) gal then nth (i mod 7) d 0 else 0).
Proof.
  intros Hg HL l'. unfold l'.
  destruct (fold_obs (fun pd j => add_at pd (gal * NPARAMS + j) (nth j d 0)) (fun l => List.length l = (NPARAMS * MAXSOURCES)%nat)
             (fun l => nth i l 0) (fun j => if Nat.eqb i (gal * NPARAMS + j) then nth j d 0 else 0) (seq 0 NPARAMS)) with (s := l) as [H1 H2]; auto.
  - intros s a Ha Hs. rewrite add_at_length. split; auto. apply in_seq in Ha. unfold NPARAMS, MAXSOURCES in *. apply add_at_nth. lia.
  - split; auto. rewrite H2. f_equal. unfold NPARAMS. destruct (Nat.eqb_spec (i / 7) gal) as [<-|Hne].
    + rewrite (sumR_single _ _ (i mod 7)%nat Nat.eq_dec).
      * replace (i / 7 * 7 + i mod 7)%nat with i by (pose proof (Nat.div_mod_eq i 7); lia). now rewrite Nat.eqb_refl.
      * apply seq_NoDup.
      * apply in_seq. pose proof (Nat.mod_upper_bound i 7). lia.
      * intros x Hx Hne. destruct (Nat.eqb_spec i (i / 7 * 7 + x)); auto. exfalso. apply Hne. pose proof (Nat.div_mod_eq i 7). lia.
    + apply sumR_zero. intros x Hx. apply in_seq in Hx. destruct (Nat.eqb_spec i (gal * 7 + x)); auto. exfalso. apply Hne.
      subst i. rewrite Nat.div_add_l by lia. rewrite Nat.div_small by lia. lia.
Qed.

Lemma pixel_pass_obs e pix acc : List.length (snd acc) = (NPARAMS * MAXSOURCES)%nat ->
  let acc' := pixel_pass P N (CreateImageGaussians P b e src) acc pix in
  List.length (snd acc') = (NPARAMS * MAXSOURCES)%nat /\
  fst acc' = fst acc + chi2_at e pix /\
  forall s j, (s < n_sources P)%nat -> (j < 7)%nat -> nth (s * 7 + j) (snd acc') 0 = nth (s * 7 + j) (snd acc) 0 + grad_at e pix s j.
Proof.
  intros HL acc'. unfold acc', pixel_pass. cbv zeta. rewrite residual_at_correct. cbn [fst snd].
  set (r2 := residual_at e pix * P_ierr P pix * P_ierr P pix).
  set (dd := fun gal => ComputeGaussianDerivative (P_xpix P pix) (P_ypix P pix) r2
                  (firstn N (skipn (gal * N) (CreateImageGaussians P b e src))) (repeat 0 NPARAMS)).
  set (step := fun pd gal => fold_left (fun pd j => add_at pd (gal * NPARAMS + j) (nth j (dd gal) 0)) (seq 0 NPARAMS) pd).
  assert (St : forall i, List.length (fold_left step (seq 0 (n_sources P)) (snd acc)) = (NPARAMS * MAXSOURCES)%nat /\
     nth i (fold_left step (seq 0 (n_sources P)) (snd acc)) 0 =
     nth i (snd acc) 0 + sumR (fun gal => if Nat.eqb (i / 7) gal then nth (i mod 7) (dd gal) 0 else 0) (seq 0 (n_sources P))).
  { intros i. apply (fold_obs step (fun l => List.length l = (NPARAMS * MAXSOURCES)%nat) (fun l => nth i l 0)); auto.
    intros l gal Hgal Hl. apply in_seq in Hgal. apply inner_j; auto; lia. }
  split; [apply (St 0%nat)|]. split; [reflexivity|]. intros s j Hs Hj. destruct (St (s * 7 + j)%nat) as [_ E].
  unfold step, dd in E. unfold dd in *. etransitivity; [exact E|]. f_equal.
  rewrite (sumR_single _ _ s Nat.eq_dec).
  - rewrite Nat.div_add_l by lia. rewrite Nat.div_small, Nat.add_0_r, Nat.eqb_refl by lia.
    rewrite Nat.add_comm, Nat.mod_add by lia. rewrite Nat.mod_small by lia. rewrite galaxy_block by auto.
    destruct (deriv_closed (P_xpix P pix) (P_ypix P pix) r2 (map (gauss e s) (seq 0 N)) (repeat 0 NPARAMS)) as [_ K]; [reflexivity|].
    rewrite K by auto. unfold grad_at. rewrite sumR_map. fold r2.
    replace (nth j (repeat 0 NPARAMS) 0) with 0 by (do 7 (destruct j as [|j]; [reflexivity|]); lia). ring.
  - apply seq_NoDup.
  - apply in_seq. lia.
  - intros x Hx Hne. rewrite Nat.div_add_l by lia. rewrite Nat.div_small, Nat.add_0_r by lia.
    destruct (Nat.eqb_spec s x); [congruence|reflexivity].
Qed.

Lemma exposure_pass_obs e acc : List.length (snd acc) = (NPARAMS * MAXSOURCES)%nat ->
  let acc' := exposure_pass P b src acc e in
  List.length (snd acc') = (NPARAMS * MAXSOURCES)%nat /\
  fst acc' = fst acc + sumR (fun p => chi2_at e (exposure_start P e + p)) (seq 0 (exposure_N P e)) /\
  forall s j, (s < n_sources P)%nat -> (j < 7)%nat -> nth (s * 7 + j) (snd acc') 0 =
    nth (s * 7 + j) (snd acc) 0 + sumR (fun p => grad_at e (exposure_start P e + p) s j) (seq 0 (exposure_N P e)).
Proof.
  intros HL acc'. unfold acc', exposure_pass. cbv zeta. fold N.
  set (step := fun acc p => pixel_pass P N (CreateImageGaussians P b e src) acc (exposure_start P e + p)).
  set (Inv := fun a : R * list R => List.length (snd a) = (NPARAMS * MAXSOURCES)%nat).
  assert (H : forall a p, Inv a -> Inv (step a p)).
  { intros a p Ha. apply (pixel_pass_obs e _ a Ha). }
  split; [|split].
  - apply (fold_obs step Inv (fun _ => 0) (fun _ => 0)); auto. intros s a _ Hs. split; auto. ring.
  - apply (fold_obs step Inv fst (fun p => chi2_at e (exposure_start P e + p))); auto.
    intros s a _ Hs. split; auto. apply (pixel_pass_obs e _ s Hs).
  - intros s j Hs Hj. apply (fold_obs step Inv (fun a => nth (s * 7 + j) (snd a) 0) (fun p => grad_at e (exposure_start P e + p) s j)); auto.
    intros a p _ Ha. split; auto. now apply (pixel_pass_obs e _ a Ha).
Qed.

Definition exposures : list nat := map (fun e => (band_start P b + e)%nat) (seq 0 (band_N P b)).
Definition pixels (e : nat) : list nat := map (fun p => (exposure_start P e + p)%nat) (seq 0 (exposure_N P e)).

Lemma evaluate_closed :
  List.length (snd (EvaluateProposal P b src)) = (NPARAMS * MAXSOURCES)%nat /\
  fst (EvaluateProposal P b src) = sumR (fun e => sumR (chi2_at e) (pixels e)) exposures /\
  forall s j, (s < n_sources P)%nat -> (j < 7)%nat ->
    nth (s * 7 + j) (snd (EvaluateProposal P b src)) 0 = sumR (fun e => sumR (fun pix => grad_at e pix s j) (pixels e)) exposures.
Proof.
  unfold EvaluateProposal.
  set (step := fun acc e => exposure_pass P b src acc (band_start P b + e)).
  set (Inv := fun a : R * list R => List.length (snd a) = (NPARAMS * MAXSOURCES)%nat).
  assert (H : forall a p, Inv a -> Inv (step a p)).
  { intros a p Ha. apply (exposure_pass_obs _ a Ha). }
  assert (H0 : Inv (0, repeat 0 (NPARAMS * MAXSOURCES))) by (apply repeat_length).
  split; [|split].
  - apply (fold_obs step Inv (fun _ => 0) (fun _ => 0)); auto. intros s a _ Hs. split; auto. ring.
  - destruct (fold_obs step Inv fst (fun e => sumR (chi2_at (band_start P b + e)) (pixels (band_start P b + e))) (seq 0 (band_N P b)))
      with (s := (0, repeat 0 (NPARAMS * MAXSOURCES))) as [_ E]; auto.
    + intros s a _ Hs. split; auto. unfold pixels. rewrite sumR_map. apply (exposure_pass_obs _ s Hs).
    + rewrite E. unfold exposures. rewrite sumR_map. cbn [fst]. ring.
  - intros s j Hs Hj.
    destruct (fold_obs step Inv (fun a => nth (s * 7 + j) (snd a) 0)
      (fun e => sumR (fun pix => grad_at (band_start P b + e) pix s j) (pixels (band_start P b + e))) (seq 0 (band_N P b)))
      with (s := (0, repeat 0 (NPARAMS * MAXSOURCES))) as [_ E]; auto.
    + intros a p _ Ha. split; auto. unfold pixels. rewrite sumR_map. now apply (exposure_pass_obs _ a Ha).
    + rewrite E. unfold exposures. rewrite sumR_map. cbn [snd].
      replace (nth (s * 7 + j) (repeat 0 (NPARAMS * MAXSOURCES)) 0) with 0; [ring|].
      symmetry. apply (repeat_spec (NPARAMS * MAXSOURCES) 0). apply nth_In. rewrite repeat_length. unfold NPARAMS, MAXSOURCES in *. lia.
Qed.
End Kernel.
