(** C72: when a panel of two parameters is drawn at all. *)
From Coq Require Import Reals.
From Verif Require Import Np.
From Coq Require Import Lra Lia Psatz.
From Verif Require Import QuantModel CornerModel CornerFacts CornerProps CornerCase.
Import ListNotations.
Open Scope R_scope.

Lemma enough_bins s : 2 <= s \/ 0 < s <= 1 -> exists n sigma, bins2 s = Some (n, sigma) /\ (2 <= n)%nat.
Proof.
  intros H. assert (E : exists n sigma, bins2 s = Some (n, sigma)).
  { unfold bins2. destruct (Rlt_dec 1 s); [eauto|]. destruct (Rle_dec s 0); [exfalso; lra|eauto]. }
  destruct E as (n & sigma & E). exists n, sigma. split; [exact E|]. destruct (C72_smoothing s n sigma E) as (Hn & K1 & K2).
  assert (P : 0 < INR n) by (apply lt_0_INR; exact Hn). destruct (Nat.le_gt_cases 2 n) as [C|C]; [exact C|]. exfalso. assert (N : n = 1%nat) by lia. subst n. cbn [INR] in *. destruct H as [H|H].
  - destruct K1 as [_ K1]; [lra|]. lra.
  - destruct K2 as (_ & -> & K2); [lra|]. assert (Rabs (2 / 1 - s) = 2 - s) as A by (rewrite Rabs_right; lra). rewrite A in K2. lra.
Qed.
Lemma extended_made p n : (2 <= n)%nat -> exists l, extended (centres (edges p n)) = Some l.
Proof.
  intros H. assert (L : List.length (centres (edges p n)) = n).
  { unfold centres, edges. destruct (outer p) as [a b]. rewrite !map_length, !seq_length. lia. }
  destruct (centres (edges p n)) as [|u [|w l]]; cbn in L; try lia. cbn [extended]. eauto.
Qed.
(** With a weight for every sample, none negative, and some of it in the ranges, at least two bins a side, and a smoothing
    that keeps counts counts, the panel is drawn. *)
Theorem C72_drawn rounds kde2 argsort default p q a b c e x y weights sx sy levels : range_of p a b -> range_of q c e ->
  let lv := match levels with None => default_levels | Some l => l end in
  (2 <= sx \/ 0 < sx <= 1) -> (2 <= sy \/ 0 < sy <= 1) -> List.length y = List.length x -> List.length (weights_of x weights) = List.length x ->
  (forall w, In w (weights_of x weights) -> 0 <= w) -> 0 < mass x y (weights_of x weights) (fun u v => in_range a b u && in_range c e v) ->
  (forall s s' H, (forall h, In h (concat H) -> 0 <= h) -> 0 < sumr (concat H) -> (forall h, In h (concat (kde2 s s' H)) -> 0 <= h) /\ 0 < sumr (concat (kde2 s s' H))) ->
  (forall l, In l lv -> 0 <= l < 1) -> (List.length lv * (List.length lv - 1) <= 2 * rounds)%nat ->
  exists r, twodhist rounds kde2 argsort default x y weights (Some [inl p; inl q]) (sx, sy) levels = Some r.
Proof.
  intros Rp Rq lv Hsx Hsy Ly Lw Hw Hm Hk Hl Hr. unfold twodhist, get_spans. cbn [List.length Nat.eqb combine mapM span_of fst snd].
  destruct (enough_bins sx Hsx) as (nx & s1 & -> & Nx). destruct (enough_bins sy Hsy) as (ny & s2 & -> & Ny). cbv zeta. fold lv.
  assert (E : exists H0, histogram2d (edges p nx) (edges q ny) x y weights = Some H0).
  { unfold histogram2d. rewrite Ly, Nat.eqb_refl. unfold weighted. destruct weights as [w|]; [|eauto]. cbn [weights_of] in Lw. rewrite combine_length, Ly, Nat.min_id, Lw, Nat.eqb_refl. eauto. }
  destruct E as (H0 & E). rewrite E. destruct (C72_counts p q a b c e nx ny x y weights H0 Rp Rq ltac:(lia) ltac:(lia) E) as (_ & LH & LR & C & T).
  assert (N0 : forall h, In h (concat H0) -> 0 <= h).
  { intros h Hh. apply in_concat in Hh. destruct Hh as (r & Hr0 & Hh). destruct (In_nth _ _ [] Hr0) as (i & Hi & Ei). pose proof (LR r Hr0) as Lr. destruct (In_nth _ _ 0 Hh) as (j & Hj & Ej).
    assert (A : h = at2 H0 i j) by (unfold at2; rewrite Ei; now rewrite Ej). rewrite A, C by lia. unfold mass. apply sumr_nonneg. intros v Hv. apply in_map_iff in Hv. destruct Hv as ([[u w] t] & <- & Ht). cbn [fst snd].
    destruct (_ && _)%bool; [|lra]. apply Hw. exact (in_combine_r _ _ _ _ Ht). }
  destruct (Hk s1 s2 H0 N0) as (K1 & K2); [rewrite T; exact Hm|].
  destruct (C72_contours rounds (kde2 s1 s2 H0) lv K1 K2 Hl Hr) as (V & _ & _ & EV & _). rewrite EV.
  destruct (extended_made p nx Nx) as (x2 & ->). destruct (extended_made q ny Ny) as (y2 & ->). eauto.
Qed.
Print Assumptions C72_drawn.
(** Two samples of weight one and three in the unit square, smoothed by nothing *)
Example C72_drawn_case : exists r, twodhist 6 same ids (999 / 1000) [1 / 4; 3 / 4] [1 / 4; 3 / 4] (Some [1; 3]) (Some [inl (0, 1); inl (1, 0)]) (2, 1 / 5) None = Some r.
Proof.
  apply (C72_drawn _ _ _ _ _ _ 0 1 0 1); [split; [lra|now left]|split; [lra|now right]|lra|lra|reflexivity|reflexivity|intros w [<-|[<-|[]]]; lra| |intros s s' H N P; unfold same; auto|intros l Hl; pose proof (proj1 (proj2 (proj2 C72_default_levels)) l Hl); lra|].
  - assert (I : forall u, 0 <= u <= 1 -> in_range 0 1 u = true).
    { intros u Hu. unfold in_range. destruct (Rle_dec 0 u); [|lra]. destruct (Rle_dec u 1); [reflexivity|lra]. }
    unfold mass. cbn [weights_of combine map fst snd]. rewrite !I by lra. cbn [andb sumr fold_right]. lra.
  - rewrite (proj1 C72_default_levels). lia.
Qed.
