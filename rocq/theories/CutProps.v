(** C83: cutting a postage stamp out of an image. *)
From Verif Require Import Np WcsModel StampModel CutModel.
From Coq Require Import Reals Lra Lia.
Open Scope R_scope.

Lemma int_part_between v : IZR (Int_part v) <= v < IZR (Int_part v) + 1.
Proof. pose proof (base_Int_part v). lra. Qed.
Lemma int_part_is v z : IZR z <= v < IZR z + 1 -> Int_part v = z.
Proof.
  intros H. pose proof (int_part_between v). assert (A : IZR z < IZR (Int_part v) + 1) by lra. assert (B : IZR (Int_part v) < IZR z + 1) by lra.
  rewrite <- plus_IZR in A, B. apply lt_IZR in A, B. lia.
Qed.
Lemma slice_nth {A} (l : list A) (a b : Z) k : (0 <= a)%Z -> (a <= b <= Z.of_nat (List.length l))%Z -> (k < Z.to_nat (b - a))%nat ->
  nth_error (slice a b l) k = nth_error l (Z.to_nat a + k).
Proof.
  intros H0 H1 Hk. unfold slice, slice_end. rewrite (proj2 (Z.ltb_ge a 0)), (proj2 (Z.ltb_ge b 0)) by lia. rewrite !Nat.min_r by lia.
  assert (F : forall n (m : list A) k, (k < n)%nat -> nth_error (firstn n m) k = nth_error m k) by (induction n as [|n IH]; intros [|x m] [|j] Hj; cbn; try lia; auto; apply IH; lia).
  rewrite F by lia. generalize (Z.to_nat a) as n. clear. intros n. revert l. induction n as [|n IH]; intros [|x l]; cbn; auto. now destruct k.
Qed.
Lemma slice_len {A} (l : list A) (a b : Z) : List.length (slice a b l) = slice_length (List.length l) a b.
Proof.
  unfold slice, slice_length. rewrite firstn_length, skipn_length. assert (H : (slice_end (List.length l) b <= List.length l)%nat) by (unfold slice_end; destruct (Z.ltb_spec b 0); lia). lia.
Qed.
(** [a]: what was asked for; the ends of the slice when the centre is far enough from the low edge *)
Lemma ends a c n : (1 <= a)%nat -> / 2 * INR a <= c -> c + / 2 * INR a < INR n + 1 ->
  exists x0, (x0 + a <= n)%nat /\ INR x0 <= c - / 2 * INR a < INR x0 + 1 /\ trunc (c - / 2 * INR a) = Z.of_nat x0 /\ trunc (c + / 2 * INR a) = Z.of_nat (x0 + a).
Proof.
  intros Ha Hl Hh. pose proof (int_part_between (c - / 2 * INR a)) as B. set (z := Int_part (c - / 2 * INR a)) in *.
  assert (Hz : (0 <= z)%Z). { assert (A : IZR (-1) < IZR z) by lra. apply lt_IZR in A. lia. }
  exists (Z.to_nat z). assert (E : INR (Z.to_nat z) = IZR z) by (rewrite INR_IZR_INZ, Z2Nat.id by lia; reflexivity).
  assert (Hn : (Z.to_nat z + a <= n)%nat). { apply Nat.lt_succ_r. apply INR_lt. rewrite S_INR, plus_INR, E. lra. }
  split; [exact Hn|]. split; [rewrite E; lra|]. assert (P : 0 <= INR a) by apply pos_INR. split.
  - unfold trunc. destruct (Rle_dec 0 (c - / 2 * INR a)); [|lra]. fold z. lia.
  - unfold trunc. destruct (Rle_dec 0 (c + / 2 * INR a)); [|lra]. apply int_part_is. rewrite <- INR_IZR_INZ, plus_INR, E. lra.
Qed.
(** The arrays: row and column *)
Definition at2 {A} (a : list (list A)) (i j : nat) : option A := match nth_error a i with Some row => nth_error row j | None => None end.
Definition shape {A} (a : list (list A)) (n m : nat) : Prop := List.length a = n /\ forall row, In row a -> List.length row = m.
Lemma masked2_at vs es i j v e : at2 vs i j = Some v -> at2 es i j = Some e -> at2 (masked2 vs es) i j = Some (masked v e).
Proof.
  unfold at2, masked2. intros H1 H2. destruct (nth_error vs i) as [r|] eqn:Er; [|discriminate]. destruct (nth_error es i) as [q|] eqn:Eq; [|discriminate].
  assert (C : forall {X Y} (a : list X) (b : list Y) n x y, nth_error a n = Some x -> nth_error b n = Some y -> nth_error (combine a b) n = Some (x, y)).
  { clear. induction a as [|x a IH]; intros [|y b] [|n] u v H1 H2; cbn in *; try discriminate; [congruence|auto]. }
  rewrite nth_error_map, (C _ _ _ _ _ _ _ Er Eq). cbn [option_map fst snd]. rewrite nth_error_map, (C _ _ _ _ _ _ _ H1 H2). reflexivity.
Qed.
Lemma at2_map {A B} (f : A -> B) a i j : at2 (map (map f) a) i j = option_map f (at2 a i j).
Proof. unfold at2. rewrite nth_error_map. destruct (nth_error a i) as [row|]; [|reflexivity]. cbn [option_map]. apply nth_error_map. Qed.
Lemma slice2_at {A} (a : list (list A)) n m x0 y0 s t i j : shape a n m -> (x0 + s <= n)%nat -> (y0 + t <= m)%nat -> (i < s)%nat -> (j < t)%nat ->
  at2 (slice2 (Z.of_nat x0, Z.of_nat y0) (Z.of_nat (x0 + s), Z.of_nat (y0 + t)) a) i j = at2 a (x0 + i) (y0 + j).
Proof.
  intros [Hn Hm] Hx Hy Hi Hj. unfold at2, slice2. cbn [fst snd]. rewrite nth_error_map, slice_nth by lia. rewrite Nat2Z.id. destruct (nth_error a (x0 + i)) as [row|] eqn:E; [|reflexivity]. cbn [option_map].
  rewrite slice_nth; [now rewrite Nat2Z.id|lia|rewrite (Hm row) by (now apply nth_error_In in E); lia|lia].
Qed.
Lemma at2_some {A} (a : list (list A)) n m i j : shape a n m -> (i < n)%nat -> (j < m)%nat -> exists v, at2 a i j = Some v.
Proof.
  intros [Hn Hm] Hi Hj. unfold at2. destruct (nth_error a i) as [row|] eqn:E; [|apply nth_error_None in E; lia]. apply nth_error_In in E. specialize (Hm row E).
  destruct (nth_error row j) as [v|] eqn:F; [eauto|apply nth_error_None in F; lia].
Qed.
Lemma masked_spec v e : (forall r, e = Fin r -> r <> 0 -> masked v e = (v, Fin (1 / r))) /\ (e = Fin 0 \/ e = Nan -> masked v e = (Fin 0, Fin 0)) /\ (e = Inf -> masked v e = (v, Fin 0)) /\
  exists w, snd (masked v e) = Fin w.
Proof.
  unfold masked. split; [|split; [|split]].
  - intros r -> H. cbn [reciprocal]. destruct (Req_EM_T r 0); [contradiction|reflexivity].
  - intros [-> | ->]; cbn [reciprocal]; [destruct (Req_EM_T 0 0); [reflexivity|lra]|reflexivity].
  - intros ->. reflexivity.
  - destruct e as [r| |]; cbn [reciprocal]; [destruct (Req_EM_T r 0)| |]; cbn [finite snd]; eauto.
Qed.

(** Of the code without the line that raises. A stamp of a by b pixels around a centre that far from the edges is made and has that shape: its pixels are those of the
    image and of the uncertainties from a corner on, the weights are finite, zero where the uncertainty is zero or nan (and
    the value zero), the coordinates of a pixel are its row and column, the reference pixel is moved by the corner and is
    within a pixel and a half of the centre, and the matrix inverts that of the header *)
Theorem C83_cut_partial : forall n0 n1 im err CD center a b, shape im n0 n1 -> shape err n0 n1 -> (1 <= a)%nat -> (1 <= b)%nat -> det CD <> 0 ->
  / 2 * INR a <= v0 center -> v0 center + / 2 * INR a < INR n0 + 1 -> / 2 * INR b <= v1 center -> v1 center + / 2 * INR b < INR n1 + 1 ->
  exists c x0 y0, cut false n0 n1 im err CD center (V (INR a) (INR b)) = Some c /\ c_nx c = a /\ c_ny c = b /\
    INR x0 <= v0 center - / 2 * INR a < INR x0 + 1 /\ INR y0 <= v1 center - / 2 * INR b < INR y0 + 1 /\
    (forall i j, (i < a)%nat -> (j < b)%nat -> exists v e, at2 im (x0 + i) (y0 + j) = Some v /\ at2 err (x0 + i) (y0 + j) = Some e /\
       (forall r, e = Fin r -> r <> 0 -> at2 (c_values c) i j = Some v /\ at2 (c_ierr c) i j = Some (Fin (1 / r))) /\
       (e = Fin 0 \/ e = Nan -> at2 (c_values c) i j = Some (Fin 0) /\ at2 (c_ierr c) i j = Some (Fin 0)) /\
       (e = Inf -> at2 (c_values c) i j = Some v /\ at2 (c_ierr c) i j = Some (Fin 0)) /\
       at2 (c_xpix c) i j = Some i /\ at2 (c_ypix c) i j = Some j) /\
    c_crval c = V (INR x0 + v0 (c_crpix c)) (INR y0 + v1 (c_crpix c)) /\
    (0 <= v0 center - v0 (c_crval c) < 3 / 2 /\ 0 <= v1 center - v1 (c_crval c) < 3 / 2) /\
    mm CD (c_scale c) = eye /\ c_center c = center.
Proof.
  intros n0 n1 im err CD center a b Si Se Ha Hb Hd X1 X2 Y1 Y2. destruct (ends a (v0 center) n0 Ha X1 X2) as (x0 & Nx & Bx & Tx & Ux). destruct (ends b (v1 center) n1 Hb Y1 Y2) as (y0 & Ny & By & Ty & Uy).
  assert (Ei : exists i, inv CD = Some i /\ mm CD (mm i eye) = eye).
  { unfold inv. destruct (Req_EM_T (det CD) 0) as [|_]; [contradiction|]. eexists. split; [reflexivity|]. unfold mm, mscal, eye, det in *. cbn [m00 m01 m10 m11]. f_equal; field; exact Hd. }
  destruct Ei as (inv_ & Einv & Emm). unfold cut. rewrite Einv. unfold low_end, high_end. cbn [v0 v1]. rewrite Tx, Ty, Ux, Uy. cbn [fst snd].
  assert (SL : forall x s n, (x + s <= n)%nat -> slice_length n (Z.of_nat x) (Z.of_nat (x + s)) = s).
  { intros x s n H. unfold slice_length, slice_end. rewrite (proj2 (Z.ltb_ge _ 0)), (proj2 (Z.ltb_ge _ 0)) by lia. rewrite !Nat2Z.id. lia. }
  rewrite (SL x0 a n0 Nx), (SL y0 b n1 Ny). eexists. exists x0, y0. split; [reflexivity|]. cbn [c_nx c_ny c_values c_ierr c_xpix c_ypix c_crval c_crpix c_scale c_center vadd v0 v1].
  split; [reflexivity|]. split; [reflexivity|]. split; [exact Bx|]. split; [exact By|]. split.
  - intros i j Hi Hj. destruct (at2_some im n0 n1 (x0 + i) (y0 + j) Si ltac:(lia) ltac:(lia)) as (v & Ev). destruct (at2_some err n0 n1 (x0 + i) (y0 + j) Se ltac:(lia) ltac:(lia)) as (e & Ee).
    exists v, e. split; [exact Ev|]. split; [exact Ee|]. destruct (masked_spec v e) as (M1 & M2 & M3 & _).
    pose proof (masked2_at _ _ i j v e (eq_trans (slice2_at im n0 n1 x0 y0 a b i j Si Nx Ny Hi Hj) Ev) (eq_trans (slice2_at err n0 n1 x0 y0 a b i j Se Nx Ny Hi Hj) Ee)) as E.
    rewrite !at2_map, E. cbn [option_map]. split; [intros r H1 H2; rewrite (M1 r H1 H2); auto|]. split; [intros H; rewrite (M2 H); auto|]. split; [intros H; rewrite (M3 H); auto|].
    assert (Q : forall n k, (k < n)%nat -> nth_error (seq 0 n) k = Some k). { intros n k Hk. rewrite (nth_error_nth' _ 0%nat) by now rewrite seq_length. now rewrite seq_nth. }
    unfold at2, xpix, ypix, grid, meshgrid. cbn [fst snd]. rewrite !nth_error_map, !Q by assumption. cbn [option_map]. rewrite nth_error_map, !Q by assumption. auto.
  - rewrite <- !INR_IZR_INZ. unfold vadd. cbn [v0 v1]. split; [apply f_equal2; ring|]. pose proof (int_part_between (/ 2 * INR a)) as C1. pose proof (int_part_between (/ 2 * INR b)) as C2.
    assert (Hf : forall n, / 2 * INR n - IZR (Int_part (/ 2 * INR n)) <= / 2).
    { intros n. destruct (Nat.Even_or_Odd n) as [[k ->]|[k ->]]; [rewrite (int_part_is _ (Z.of_nat k))|rewrite (int_part_is _ (Z.of_nat k))]; rewrite <- ?INR_IZR_INZ, ?plus_INR, ?mult_INR; cbn [INR]; lra. }
    pose proof (Hf a). pose proof (Hf b). split; [split; lra|]. split; [exact Emm|reflexivity].
Qed.
Print Assumptions C83_cut_partial.

(** Asking for a stamp raises, whatever the image and the centre; and were all attributes to be set, the caller would still get
    no stamp, and an error for a centre on the sky *)
Theorem C83_nothing_refuted : forall celestial n0 n1 im err CD center size,
  extract_stamp stamp_properties celestial n0 n1 im err CD center size = None /\ forall properties, (forall c, extract_stamp properties celestial n0 n1 im err CD center size <> Some (Some c)) /\ extract_stamp properties true n0 n1 im err CD center size = None.
Proof.
  intros celestial n0 n1 im err CD center size. split; [reflexivity|]. intros properties. unfold extract_stamp. destruct (forallb _ attributes_set); [|split; [discriminate|reflexivity]].
  split; [|reflexivity]. intros c. destruct (cut celestial n0 n1 im err CD center size); discriminate.
Qed.
Print Assumptions C83_nothing_refuted.

(** A centre in the image that is nearer to its low edge than half the size of the stamp, by a pixel or more: no pixels *)
Theorem C83_low_edge_refuted : forall n0 n1 im err CD center a b c, shape im n0 n1 -> 0 <= v0 center -> v0 center - / 2 * INR a <= -1 -> (a <= n0)%nat ->
  cut false n0 n1 im err CD center (V (INR a) b) = Some c -> c_nx c = 0%nat /\ c_values c = [].
Proof.
  intros n0 n1 im err CD center a b c [Hn _] Hc Hl Ha H. unfold cut in H. destruct (inv CD) as [i|]; [|discriminate]. injection H as <-. cbn [c_nx c_values v0 v1 low_end high_end fst snd].
  set (lo := trunc (v0 center - / 2 * INR a)). set (hi := trunc (v0 center + / 2 * INR a)). assert (P : 0 <= INR a) by apply pos_INR.
  assert (Elo : (lo = - Int_part (- (v0 center - / 2 * INR a)))%Z) by (unfold lo, trunc; destruct (Rle_dec 0 (v0 center - / 2 * INR a)); [lra|reflexivity]).
  assert (Ehi : hi = Int_part (v0 center + / 2 * INR a)) by (unfold hi, trunc; destruct (Rle_dec 0 (v0 center + / 2 * INR a)); [reflexivity|lra]).
  pose proof (int_part_between (- (v0 center - / 2 * INR a))) as B1. pose proof (int_part_between (v0 center + / 2 * INR a)) as B2. rewrite <- Ehi in B2.
  assert (B3 : - IZR lo <= - (v0 center - / 2 * INR a) < - IZR lo + 1) by (rewrite Elo, opp_IZR, Ropp_involutive; exact B1).
  assert (L0 : (lo < 0)%Z) by (assert (Q : IZR lo < IZR 0) by lra; apply lt_IZR in Q; exact Q).
  assert (L1 : (hi - lo <= Z.of_nat a)%Z) by (apply le_IZR; rewrite minus_IZR, <- INR_IZR_INZ; lra).
  assert (L2 : (0 <= hi)%Z) by (assert (Q : IZR (-1) < IZR hi) by lra; apply lt_IZR in Q; lia).
  assert (E : slice_length n0 lo hi = 0%nat) by (unfold slice_length, slice_end; rewrite (proj2 (Z.ltb_lt lo 0) L0), (proj2 (Z.ltb_ge hi 0) L2); lia).
  split; [exact E|]. assert (Es : slice lo hi im = []) by (apply length_zero_iff_nil; rewrite slice_len, Hn; exact E).
  unfold slice2. cbn [low_end high_end fst snd v0 v1]. fold lo hi. rewrite Es. reflexivity.
Qed.
Print Assumptions C83_low_edge_refuted.

(** The rows of a FITS image are its second axis and the stamp takes them for the first: of an image with light in one pixel
    only, off the diagonal by the size of the stamp, the stamp around this pixel has none *)
Theorem C83_axes_refuted : forall n im err CD x y s c, shape im n n -> shape err n n -> (2 <= s)%nat -> (x + s <= y \/ y + s <= x)%nat ->
  / 2 * INR s <= INR x -> INR x + / 2 * INR s < INR n + 1 -> / 2 * INR s <= INR y -> INR y + / 2 * INR s < INR n + 1 ->
  (forall i j, (i < n)%nat -> (j < n)%nat -> (i, j) <> (x, y) -> fits_pixel im i j = Some (Fin 0)) ->
  cut false n n im err CD (V (INR x) (INR y)) (V (INR s) (INR s)) = Some c -> forall i j, (i < s)%nat -> (j < s)%nat -> at2 (c_values c) i j = Some (Fin 0).
Proof.
  intros n im err CD x y s c Si Se Hs Hxy X1 X2 Y1 Y2 Hz Hc i j Hi Hj.
  assert (Hd : det CD <> 0) by (intros E; unfold cut, inv in Hc; destruct (Req_EM_T (det CD) 0); [discriminate|contradiction]).
  destruct (C83_cut_partial n n im err CD (V (INR x) (INR y)) s s Si Se ltac:(lia) ltac:(lia) Hd X1 X2 Y1 Y2) as (c' & x0 & y0 & E & _ & _ & Bx & By & P & _).
  rewrite Hc in E. injection E as <-. cbn [v0 v1] in *. destruct (P i j Hi Hj) as (v & e & Ev & _ & P1 & P2 & P3 & _).
  assert (Ez : v = Fin 0).
  { unfold at2 in Ev. assert (R0 : (x0 + i < n)%nat) by (destruct (Nat.lt_ge_cases (x0 + i) n) as [L|L]; [exact L|]; rewrite (proj2 (nth_error_None im (x0 + i))) in Ev by (rewrite (proj1 Si); exact L); discriminate).
    assert (C0 : (y0 + j < n)%nat). { destruct (nth_error im (x0 + i)) as [row|] eqn:Er; [|discriminate]. apply nth_error_In in Er. rewrite <- (proj2 Si row Er). apply nth_error_Some. rewrite Ev. discriminate. }
    specialize (Hz (y0 + j)%nat (x0 + i)%nat C0 R0). unfold fits_pixel in Hz. rewrite Ev in Hz. enough (N : (y0 + j, x0 + i)%nat <> (x, y)) by (specialize (Hz N); congruence).
    intros F. injection F as F1 F2. assert (Hs2 : 2 <= INR s) by (apply (le_INR 2 s); exact Hs).
    assert (G1 : INR y0 + INR j = INR x) by (rewrite <- plus_INR; now f_equal). assert (G2 : INR x0 + INR i = INR y) by (rewrite <- plus_INR; now f_equal).
    assert (G3 : INR j <= INR s - 1) by (apply le_INR in Hj; rewrite S_INR in Hj; lra). assert (G4 : INR i <= INR s - 1) by (apply le_INR in Hi; rewrite S_INR in Hi; lra).
    pose proof (pos_INR i). pose proof (pos_INR j). destruct Hxy as [L|L]; apply le_INR in L; rewrite plus_INR in L; lra. }
  subst v. destruct e as [r| |]; [destruct (Req_EM_T r 0) as [->|Hr]|apply P3; reflexivity|apply P2; auto].
  - apply P2. auto.
  - exact (proj1 (P1 r eq_refl Hr)).
Qed.
Print Assumptions C83_axes_refuted.

(** A value that is nan with a good uncertainty is kept, with its weight *)
Theorem C83_nan_refuted : forall n0 n1 im err CD center a b c i j r, shape im n0 n1 -> shape err n0 n1 -> (1 <= a)%nat -> (1 <= b)%nat ->
  / 2 * INR a <= v0 center -> v0 center + / 2 * INR a < INR n0 + 1 -> / 2 * INR b <= v1 center -> v1 center + / 2 * INR b < INR n1 + 1 ->
  (forall i j, (i < n0)%nat -> (j < n1)%nat -> at2 im i j = Some Nan /\ at2 err i j = Some (Fin r)) -> 0 < r -> (i < a)%nat -> (j < b)%nat ->
  cut false n0 n1 im err CD center (V (INR a) (INR b)) = Some c -> at2 (c_values c) i j = Some Nan /\ exists w, at2 (c_ierr c) i j = Some (Fin w) /\ 0 < w.
Proof.
  intros n0 n1 im err CD center a b c i j r Si Se Ha Hb X1 X2 Y1 Y2 Hv Hr Hi Hj Hc.
  assert (Hd : det CD <> 0) by (intros E; unfold cut, inv in Hc; destruct (Req_EM_T (det CD) 0); [discriminate|contradiction]).
  destruct (C83_cut_partial n0 n1 im err CD center a b Si Se Ha Hb Hd X1 X2 Y1 Y2) as (c' & x0 & y0 & E & _ & _ & Bx & By & P & _). rewrite Hc in E. injection E as <-.
  destruct (P i j Hi Hj) as (v & e & Ev & Ee & P1 & _).
  assert (R0 : (x0 + i < n0)%nat) by (unfold at2 in Ev; destruct (Nat.lt_ge_cases (x0 + i) n0) as [L|L]; [exact L|]; rewrite (proj2 (nth_error_None im (x0 + i))) in Ev by (rewrite (proj1 Si); exact L); discriminate).
  assert (C0 : (y0 + j < n1)%nat). { unfold at2 in Ev. destruct (nth_error im (x0 + i)) as [row|] eqn:Er; [|discriminate]. apply nth_error_In in Er. rewrite <- (proj2 Si row Er). apply nth_error_Some. rewrite Ev. discriminate. }
  destruct (Hv _ _ R0 C0) as [V1 V2]. rewrite V1 in Ev. rewrite V2 in Ee. injection Ev as <-. injection Ee as <-. destruct (P1 r eq_refl ltac:(lra)) as [Q1 Q2]. split; [exact Q1|]. exists (1 / r). split; [exact Q2|].
  apply Rdiv_lt_0_compat; lra.
Qed.
Print Assumptions C83_nan_refuted.
