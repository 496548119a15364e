(** C58: what blur_psf_data does to the stored mixture *)
From Coquelicot Require Import Coquelicot.
From Coq Require Import Reals Lra Lia.
From Coq Require Import ZArith List String.
From Verif Require Import Np NpFacts EmModel PsfConvModel PsfConvFacts PsfHmcFacts PsfHmcProps.
Import ListNotations.
Open Scope R_scope.

Ltac same_exp := match goal with |- context [exp ?u] => match goal with |- context [exp ?v] => lazymatch v with u => fail | _ => replace v with u by (field; lra) end end end.

Definition lx (mx my A B c x y : R) : R := (B * (x - mx) - c * (y - my)) / (A * B - c ^ 2).
Definition ly (mx my A B c x y : R) : R := (A * (y - my) - c * (x - mx)) / (A * B - c ^ 2).
Lemma gauss_x a mx my A B c x y : 0 < A * B - c ^ 2 ->
  is_derive (fun x => gauss a mx my A B c x y) x (- gauss a mx my A B c x y * lx mx my A B c x y).
Proof.
  intros HD. unfold gauss, lx. set (D := A * B - c ^ 2) in *. assert (P := PI_RGT_0). assert (Q := sqrt_lt_R0 _ HD). clearbody D.
  auto_derive; [exact I|]. same_exp. match goal with |- context [exp ?u] => generalize (exp u) end. intros e. field. split; lra.
Qed.
Lemma gauss_y a mx my A B c x y : 0 < A * B - c ^ 2 ->
  is_derive (fun y => gauss a mx my A B c x y) y (- gauss a mx my A B c x y * ly mx my A B c x y).
Proof.
  intros HD. unfold gauss, ly. set (D := A * B - c ^ 2) in *. assert (P := PI_RGT_0). assert (Q := sqrt_lt_R0 _ HD). clearbody D.
  auto_derive; [exact I|]. same_exp. match goal with |- context [exp ?u] => generalize (exp u) end. intros e. field. split; lra.
Qed.
Lemma gauss_xx a mx my A B c x y : 0 < A * B - c ^ 2 ->
  is_derive (fun x => - gauss a mx my A B c x y * lx mx my A B c x y) x
    (gauss a mx my A B c x y * (lx mx my A B c x y ^ 2 - B / (A * B - c ^ 2))).
Proof.
  intros HD.
  assert (L : is_derive (fun x => lx mx my A B c x y) x (B / (A * B - c ^ 2))).
  { unfold lx. auto_derive; [exact I|]. field. lra. }
  assert (G := gauss_x a mx my A B c x y HD).
  evar_last. { apply @is_derive_mult; [apply @is_derive_opp; exact G | exact L | intros; apply Rmult_comm]. }
  unfold plus, mult, opp; cbn. ring.
Qed.
Lemma gauss_yy a mx my A B c x y : 0 < A * B - c ^ 2 ->
  is_derive (fun y => - gauss a mx my A B c x y * ly mx my A B c x y) y
    (gauss a mx my A B c x y * (ly mx my A B c x y ^ 2 - A / (A * B - c ^ 2))).
Proof.
  intros HD.
  assert (L : is_derive (fun y => ly mx my A B c x y) y (A / (A * B - c ^ 2))).
  { unfold ly. auto_derive; [exact I|]. field. lra. }
  assert (G := gauss_y a mx my A B c x y HD).
  evar_last. { apply @is_derive_mult; [apply @is_derive_opp; exact G | exact L | intros; apply Rmult_comm]. }
  unfold plus, mult, opp; cbn. ring.
Qed.
Lemma gauss_b a mx my cxx cyy c b x y : let A := cxx + b ^ 2 in let B := cyy + b ^ 2 in 0 < A * B - c ^ 2 ->
  is_derive (fun b => gauss a mx my (cxx + b ^ 2) (cyy + b ^ 2) c x y) b
    (b * (gauss a mx my A B c x y * (lx mx my A B c x y ^ 2 - B / (A * B - c ^ 2)) +
          gauss a mx my A B c x y * (ly mx my A B c x y ^ 2 - A / (A * B - c ^ 2)))).
Proof.
  intros A B HD. unfold gauss, lx, ly.
  assert (P := PI_RGT_0).
  assert (SD : is_derive (fun b => sqrt ((cxx + b ^ 2) * (cyy + b ^ 2) - c ^ 2)) b (b * (A + B) / sqrt (A * B - c ^ 2))).
  { assert (Q := sqrt_lt_R0 _ HD). unfold A, B in *. auto_derive.
    - replace ((cxx + b * (b * 1)) * (cyy + b * (b * 1)) + - (c * (c * 1))) with ((cxx + b ^ 2) * (cyy + b ^ 2) - c ^ 2) by ring. exact HD.
    - replace ((cxx + b * (b * 1)) * (cyy + b * (b * 1)) + - (c * (c * 1))) with ((cxx + b ^ 2) * (cyy + b ^ 2) - c ^ 2) by ring.
      field. lra. }
  set (D := A * B - c ^ 2) in *.
  assert (Q := sqrt_lt_R0 _ HD). assert (QQ := sqrt_sqrt _ (Rlt_le _ _ HD)).
  assert (F : is_derive (fun b => a / (2 * PI * sqrt ((cxx + b ^ 2) * (cyy + b ^ 2) - c ^ 2))) b (- (a / (2 * PI * sqrt D)) * (b * (A + B) / D))).
  { apply is_derive_ext_loc with (f := fun b => a / (2 * PI) * / sqrt ((cxx + b ^ 2) * (cyy + b ^ 2) - c ^ 2)).
    - assert (C : continuous (fun b => (cxx + b ^ 2) * (cyy + b ^ 2) - c ^ 2) b).
      { apply (ex_derive_continuous (fun b => (cxx + b ^ 2) * (cyy + b ^ 2) - c ^ 2)). auto_derive. exact I. }
      assert (L : locally b (fun t => 0 < (cxx + t ^ 2) * (cyy + t ^ 2) - c ^ 2)).
      { apply (C (fun z => 0 < z)). apply open_gt. exact HD. }
      eapply filter_imp; [|exact L]. intros t Ht. cbv beta in Ht. assert (Qt := sqrt_lt_R0 _ Ht). match goal with |- @eq _ ?l ?r => change (@eq R l r) end. field. split; lra.
    - evar_last.
      { apply is_derive_scal. apply is_derive_inv; [exact SD | fold A B D; lra]. }
      fold A B D. change (a / (2 * PI) * (- (b * (A + B) / sqrt D) / sqrt D ^ 2) = - (a / (2 * PI * sqrt D)) * (b * (A + B) / D)).
      clear SD. clearbody D A B. set (s := sqrt D) in *. clearbody s. rewrite <- QQ. field. split; lra. }
  assert (G : is_derive (fun b => exp (- (1 / 2) * (((cyy + b ^ 2) * (x - mx) ^ 2 - 2 * c * (x - mx) * (y - my) + (cxx + b ^ 2) * (y - my) ^ 2) / ((cxx + b ^ 2) * (cyy + b ^ 2) - c ^ 2)))) b
    (b * (((B * (x - mx) - c * (y - my)) / D) ^ 2 + ((A * (y - my) - c * (x - mx)) / D) ^ 2) *
     exp (- (1 / 2) * ((B * (x - mx) ^ 2 - 2 * c * (x - mx) * (y - my) + A * (y - my) ^ 2) / D)))).
  { evar_last.
    { apply is_derive_comp with (f := exp) (g := fun b => - (1 / 2) * (((cyy + b ^ 2) * (x - mx) ^ 2 - 2 * c * (x - mx) * (y - my) + (cxx + b ^ 2) * (y - my) ^ 2) / ((cxx + b ^ 2) * (cyy + b ^ 2) - c ^ 2))).
      - apply is_derive_exp.
      - instantiate (1 := b * (((B * (x - mx) - c * (y - my)) / D) ^ 2 + ((A * (y - my) - c * (x - mx)) / D) ^ 2)).
        unfold D, A, B in *. auto_derive.
        + replace ((cxx + b * (b * 1)) * (cyy + b * (b * 1)) + - (c * (c * 1))) with ((cxx + b ^ 2) * (cyy + b ^ 2) - c ^ 2) by ring. lra.
        + field. lra. }
    unfold scal; simpl; unfold mult; simpl. fold A B D. reflexivity. }
  evar_last.
  { apply @is_derive_mult; [exact F | exact G | intros; apply Rmult_comm]. }
  match goal with |- plus (mult ?p ?q) (mult ?r ?s) = ?t => change (p * q + r * s = t) end.
  cbv beta. change (cxx + b ^ 2) with A. change (cyy + b ^ 2) with B. change (A * B - c ^ 2) with D.
  clear F G SD. clearbody D A B.
  match goal with |- context [exp ?u] => generalize (exp u) end. intros e. field. split; lra.
Qed.

(** Differentiating the sum over the gaussians *)
Lemma rsum_derive {T} (f : T -> R -> R) (f' : T -> R) l x : (forall g, In g l -> is_derive (f g) x (f' g)) ->
  is_derive (fun t => rsum (map (fun g => f g t) l)) x (rsum (map f' l)).
Proof.
  induction l as [|g l IH]; intros H; cbn.
  - exact (is_derive_const 0 x).
  - apply @is_derive_plus; [apply H; left; reflexivity | apply IH; intros; apply H; right; assumption].
Qed.
Lemma blur_det g b : positive g -> 0 < (g_xx g + b ^ 2) * (g_yy g + b ^ 2) - g_xy g ^ 2.
Proof. intros (H1 & H2 & H3). assert (0 <= b ^ 2) by apply pow2_ge_0. set (t := b ^ 2) in *. clearbody t. nra. Qed.

(** The value at (x, y) of the mixture blurred by [b] *)
Definition blurred (gs : list grow) (b x y : R) : R := rsum (map (row_dens x y) (blur_psf_data b gs)).
(** Blurring keeps the amplitudes and centres; by nothing it does nothing; by [b] and then by [c] is by the root of the sum
    of the squares; and the value everywhere changes with [b] as the heat equation says, du/db = b (d2u/dx2 + d2u/dy2)
    (du/dt = (1/2) (d2u/dx2 + d2u/dy2) for t = b^2), which is smoothing by a round gaussian of width [b]. *)
Theorem C58_blur : forall gs, Forall positive gs ->
  (forall b, map g_amp (blur_psf_data b gs) = map g_amp gs /\ map g_x (blur_psf_data b gs) = map g_x gs /\
             map g_y (blur_psf_data b gs) = map g_y gs /\ Forall positive (blur_psf_data b gs)) /\
  (forall x y, blurred gs 0 x y = rsum (map (row_dens x y) gs)) /\
  (forall b c, blur_psf_data c (blur_psf_data b gs) = blur_psf_data (sqrt (b ^ 2 + c ^ 2)) gs) /\
  (forall b x y, exists ux uy uxx uyy,
     (forall x', is_derive (fun t => blurred gs b t y) x' (ux x')) /\ is_derive ux x uxx /\
     (forall y', is_derive (fun t => blurred gs b x t) y' (uy y')) /\ is_derive uy y uyy /\
     is_derive (fun t => blurred gs t x y) b (b * (uxx + uyy))).
Proof.
  intros gs HG. rewrite Forall_forall in HG. split; [|split; [|split]].
  - intros b. unfold blur_psf_data. rewrite !map_map. repeat split; try reflexivity.
    apply Forall_forall. intros g Hg. apply in_map_iff in Hg. destruct Hg as (g0 & <- & H0).
    assert (K := blur_det g0 b (HG _ H0)). destruct (HG _ H0) as (P1 & P2 & P3). assert (0 <= b ^ 2) by apply pow2_ge_0.
    unfold positive. cbn [g_xx g_yy g_xy]. repeat split; lra.
  - intros x y. unfold blurred, blur_psf_data. rewrite map_map. f_equal. apply map_ext. intros g. unfold row_dens. cbn [g_amp g_x g_y g_xx g_yy g_xy].
    replace (g_xx g + 0 ^ 2) with (g_xx g) by ring. replace (g_yy g + 0 ^ 2) with (g_yy g) by ring. reflexivity.
  - intros b c. unfold blur_psf_data. rewrite map_map. apply map_ext. intros g. cbn [g_amp g_x g_y g_xx g_yy g_xy g_bin].
    rewrite pow2_sqrt by (assert (0 <= b ^ 2) by apply pow2_ge_0; assert (0 <= c ^ 2) by apply pow2_ge_0; lra).
    f_equal; ring.
  - intros b x y.
    set (G := fun g b x y => gauss (g_amp g) (g_x g) (g_y g) (g_xx g + b ^ 2) (g_yy g + b ^ 2) (g_xy g) x y).
    set (LX := fun g x y => lx (g_x g) (g_y g) (g_xx g + b ^ 2) (g_yy g + b ^ 2) (g_xy g) x y).
    set (LY := fun g x y => ly (g_x g) (g_y g) (g_xx g + b ^ 2) (g_yy g + b ^ 2) (g_xy g) x y).
    set (D := fun g => (g_xx g + b ^ 2) * (g_yy g + b ^ 2) - g_xy g ^ 2).
    assert (E : forall b x y, blurred gs b x y = rsum (map (fun g => G g b x y) gs)).
    { intros b' x' y'. unfold blurred, blur_psf_data. rewrite map_map. reflexivity. }
    exists (fun x' => rsum (map (fun g => - G g b x' y * LX g x' y) gs)), (fun y' => rsum (map (fun g => - G g b x y' * LY g x y') gs)),
      (rsum (map (fun g => G g b x y * (LX g x y ^ 2 - (g_yy g + b ^ 2) / D g)) gs)),
      (rsum (map (fun g => G g b x y * (LY g x y ^ 2 - (g_xx g + b ^ 2) / D g)) gs)).
    split; [|split; [|split; [|split]]].
    + intros x'. apply is_derive_ext with (f := fun t => rsum (map (fun g => G g b t y) gs)); [intros; symmetry; apply E|].
      apply (rsum_derive (fun g t => G g b t y)). intros g Hg. apply gauss_x, blur_det, HG, Hg.
    + apply (rsum_derive (fun g t => - G g b t y * LX g t y)). intros g Hg. apply gauss_xx, blur_det, HG, Hg.
    + intros y'. apply is_derive_ext with (f := fun t => rsum (map (fun g => G g b x t) gs)); [intros; symmetry; apply E|].
      apply (rsum_derive (fun g t => G g b x t)). intros g Hg. apply gauss_y, blur_det, HG, Hg.
    + apply (rsum_derive (fun g t => - G g b x t * LY g x t)). intros g Hg. apply gauss_yy, blur_det, HG, Hg.
    + apply is_derive_ext with (f := fun t => rsum (map (fun g => G g t x y) gs)); [intros; symmetry; apply E|].
      evar_last.
      { apply (rsum_derive (fun g t => G g t x y)). intros g Hg. apply gauss_b, blur_det, HG, Hg. }
      rewrite (rsum_scale (fun g => gauss (g_amp g) (g_x g) (g_y g) (g_xx g + b ^ 2) (g_yy g + b ^ 2) (g_xy g) x y *
          (lx (g_x g) (g_y g) (g_xx g + b ^ 2) (g_yy g + b ^ 2) (g_xy g) x y ^ 2 - (g_yy g + b ^ 2) / ((g_xx g + b ^ 2) * (g_yy g + b ^ 2) - g_xy g ^ 2)) +
          gauss (g_amp g) (g_x g) (g_y g) (g_xx g + b ^ 2) (g_yy g + b ^ 2) (g_xy g) x y *
          (ly (g_x g) (g_y g) (g_xx g + b ^ 2) (g_yy g + b ^ 2) (g_xy g) x y ^ 2 - (g_xx g + b ^ 2) / ((g_xx g + b ^ 2) * (g_yy g + b ^ 2) - g_xy g ^ 2)))).
      f_equal. clear. induction gs as [|g gs IH]; cbn [map rsum fold_right]; [unfold rsum; cbn; lra|].
      unfold rsum in *. cbn [fold_right]. rewrite IH. unfold G, LX, LY, D. ring.
Qed.
Print Assumptions C58_blur.
