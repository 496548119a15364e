(** C72: corner plots show the density of the samples, with contours that enclose the fractions asked for. *)
From Verif Require Import Np.
From Coq Require Import Reals Permutation Lra Lia Psatz.
From Verif Require Import QuantModel QuantFacts CornerModel CornerFacts.
Open Scope R_scope.

(** ** What the bins hold *)
(** Bin i of n equal parts of [a, b], the last one closed *)
Definition cell (a b : R) (n i : nat) (x : R) : bool :=
  if Rle_dec (a + INR i * (b - a) / INR n) x then
    if Rlt_dec x (a + INR (i + 1) * (b - a) / INR n) then true else if Nat.eqb (i + 1) n then (if Req_EM_T x b then true else false) else false
  else false.
Definition range_of (p : R * R) (a b : R) : Prop := a < b /\ (p = (a, b) \/ p = (b, a)).
Lemma range_outer p a b : range_of p a b -> outer p = (a, b).
Proof.
  intros [H [->| ->]]; unfold outer, sort_pair; cbn [fst snd].
  - rewrite Rmin_left, Rmax_right by lra. destruct (Req_EM_T a b); [lra|reflexivity].
  - rewrite Rmin_right, Rmax_left by lra. destruct (Req_EM_T a b); [lra|reflexivity].
Qed.
Lemma bool_eq (x y : bool) : (x = true <-> y = true) -> x = y.
Proof. destruct x, y; intuition congruence. Qed.
Lemma cell_bin p a b n i x : range_of p a b -> (i < n)%nat -> in_bin (edges p n) i x = cell a b n i x.
Proof.
  intros H Hi. apply bool_eq. rewrite (in_bin_spec p n a b i x (range_outer _ _ _ H) Hi). unfold cell.
  assert (E : forall k, a + INR k * ((b - a) / INR n) = a + INR k * (b - a) / INR n) by (intros; unfold Rdiv; ring). rewrite !E.
  destruct (Rle_dec _ x); [|split; [tauto|discriminate]]. destruct (Rlt_dec x _); [tauto|]. destruct (Nat.eqb_spec (i + 1) n); [destruct (Req_EM_T x b)|]; intuition (try discriminate; try contradiction).
Qed.
Definition weights_of {A} (xs : list A) (ws : option (list R)) : list R := match ws with None => map (fun _ => 1) xs | Some w => w end.
Lemma combine_ones {A} (xs : list A) : combine xs (map (fun _ => 1) xs) = map (fun x => (x, 1)) xs.
Proof. induction xs as [|x xs IH]; [reflexivity|]. cbn [map combine]. now rewrite IH. Qed.
Lemma weighted_spec {A} (xs : list A) ws r : weighted xs ws = Some r -> r = combine xs (weights_of xs ws) /\ List.length (weights_of xs ws) = List.length xs.
Proof.
  unfold weighted, weights_of. destruct ws as [w|].
  - destruct (Nat.eqb_spec (List.length xs) (List.length w)) as [E|]; [|discriminate]. intros K. injection K as <-. auto.
  - intros K. injection K as <-. rewrite map_length, combine_ones. auto.
Qed.
Definition mass (xs ys ws : list R) (f : R -> R -> bool) : R :=
  sumr (map (fun t => if f (fst (fst t)) (snd (fst t)) then snd t else 0) (combine (combine xs ys) ws)).
Definition mass1 (xs ws : list R) (f : R -> bool) : R := sumr (map (fun t => if f (fst t) then snd t else 0) (combine xs ws)).
Lemma nth_map_seq {A} (f : nat -> A) n k d : (k < n)%nat -> nth k (map f (seq 0 n)) d = f k.
Proof. intros H. apply nth_error_nth. now rewrite nth_error_map, (nth_error_nth' _ 0%nat), seq_nth by (rewrite ?seq_length; lia). Qed.
(** Each entry is the weight of the samples in its cell; together they are the weight of the samples within the ranges *)
Theorem C72_counts p q a b c d nx ny xs ys ws H : range_of p a b -> range_of q c d -> (0 < nx)%nat -> (0 < ny)%nat ->
  histogram2d (edges p nx) (edges q ny) xs ys ws = Some H ->
  List.length ys = List.length xs /\ List.length H = nx /\ (forall r, In r H -> List.length r = ny) /\
  (forall i j, (i < nx)%nat -> (j < ny)%nat -> at2 H i j = mass xs ys (weights_of xs ws) (fun x y => cell a b nx i x && cell c d ny j y)) /\
  sumr (concat H) = mass xs ys (weights_of xs ws) (fun x y => in_range a b x && in_range c d y).
Proof.
  intros Rp Rq Hx Hy. unfold histogram2d. destruct (Nat.eqb_spec (List.length xs) (List.length ys)) as [L|]; [|discriminate].
  destruct (weighted (combine xs ys) ws) as [xw|] eqn:W; [|discriminate]. intros K. injection K as <-.
  apply weighted_spec in W. destruct W as [W Lw].
  assert (Ew : weights_of (combine xs ys) ws = weights_of xs ws).
  { unfold weights_of. destruct ws; [reflexivity|]. clear - L. revert ys L. induction xs as [|x xs IH]; intros [|y ys] L; try discriminate; [reflexivity|]. cbn [combine map]. f_equal. apply IH. cbn in L. lia. }
  rewrite Ew in W. rewrite !edges_length. replace (nx + 1 - 1)%nat with nx by lia. replace (ny + 1 - 1)%nat with ny by lia.
  split; [congruence|]. split; [now rewrite map_length, seq_length|]. split.
  { intros r Hr. apply in_map_iff in Hr. destruct Hr as (i & <- & _). now rewrite map_length, seq_length. }
  split.
  - intros i j Hi Hj. unfold at2. rewrite nth_map_seq by exact Hi. rewrite nth_map_seq by exact Hj. rewrite W. unfold mass. apply sumr_ext. intros t _.
    now rewrite (cell_bin p a b), (cell_bin q c d) by assumption.
  - rewrite sumr_concat, map_map, W. unfold mass.
    set (xw' := combine (combine xs ys) (weights_of xs ws)).
    rewrite (sumr_ext _ (fun i => sumr (map (fun t => if in_bin (edges p nx) i (fst (fst t)) then (if in_range c d (snd (fst t)) then snd t else 0) else 0) xw'))).
    + rewrite sumr_swap. apply sumr_ext. intros t _. rewrite (bins_sum p nx a b _ _ (range_outer _ _ _ Rp) Hx). unfold within. destruct (in_range a b _), (in_range c d _); reflexivity.
    + intros i _. rewrite sumr_swap. apply sumr_ext. intros t _. destruct (in_bin (edges p nx) i (fst (fst t))); cbn [andb].
      * apply (bins_sum q ny c d _ _ (range_outer _ _ _ Rq) Hy).
      * apply sumr_map_zero.
Qed.
Theorem C72_counts_1d p a b n xs ws h : range_of p a b -> (0 < n)%nat -> histogram (edges p n) xs ws = Some h ->
  List.length h = n /\ (forall i, (i < n)%nat -> nth i h 0 = mass1 xs (weights_of xs ws) (cell a b n i)) /\ sumr h = mass1 xs (weights_of xs ws) (in_range a b).
Proof.
  intros Rp Hn. unfold histogram. destruct (weighted xs ws) as [xw|] eqn:W; [|discriminate]. intros K. injection K as <-. apply weighted_spec in W. destruct W as [-> _].
  rewrite edges_length. replace (n + 1 - 1)%nat with n by lia. split; [now rewrite map_length, seq_length|]. split.
  - intros i Hi. rewrite nth_map_seq by exact Hi. unfold mass1. apply sumr_ext. intros t _. now rewrite (cell_bin p a b).
  - rewrite sumr_swap. unfold mass1. apply sumr_ext. intros t _. apply (bins_sum p n a b _ _ (range_outer _ _ _ Rp) Hn).
Qed.

(** ** The contours *)
(** c is the density at which the densest bins hold the fraction v: a are the densest bins, together at most the fraction,
    one more would exceed it, and c is the least of them (the greatest of all when there are none) *)
Definition encloses (H : list (list R)) (v c : R) : Prop :=
  exists a b, Permutation (concat H) (a ++ b) /\ (forall y, In y a -> c <= y) /\ (forall y, In y b -> y <= c) /\
    ((a = [] /\ In c b) \/ (In c a /\ sumr a <= v * sumr (concat H))) /\
    (forall x, In x b -> (forall y, In y b -> y <= x) -> v * sumr (concat H) < sumr a + x).
Lemma level_encloses_exact H v : (forall x, In x (concat H) -> 0 <= x) -> 0 < sumr (concat H) -> encloses H v (level_value (descending (concat H)) v).
Proof.
  intros Hp Ht. destruct (descending_spec (concat H)) as [Ds P]. set (d := descending (concat H)) in *.
  assert (Sd : sumr d = sumr (concat H)) by now apply sumr_perm.
  assert (Hd : forall x, In x d -> 0 <= x) by (intros x Hx; apply Hp; now apply (Permutation_in _ P)).
  destruct (level_split d v Hd ltac:(lra)) as (a & b & E & L & A & B). rewrite L. rewrite Sd in A, B. clear L. exists a, b.
  split; [rewrite <- E; now symmetry|]. destruct a as [|a0 a1].
  - cbn [app] in E. subst b. destruct d as [|x d']; [rewrite <- Sd in Ht; unfold sumr in Ht; cbn in Ht; lra|]. cbn [hd]. split; [intros ? []|]. split; [|split].
    + intros y [<-|Hy]; [lra|]. now apply (descends_le _ [] x d' Ds eq_refl).
    + left. split; [reflexivity|now left].
    + intros y Hy Hm. specialize (B x d' eq_refl). specialize (Hm x (or_introl eq_refl)). lra.
  - set (a := a0 :: a1) in *. assert (Na : a <> []) by discriminate. destruct (last_split a Na) as [a' Ea].
    assert (E' : d = (a' ++ last a 0 :: b)%list) by (rewrite E, Ea at 1; rewrite <- app_assoc; reflexivity).
    destruct (descends_le _ a' _ b Ds E') as [D1 D2]. split; [|split; [|split]].
    + intros y Hy. rewrite Ea in Hy. apply in_app_or in Hy. destruct Hy as [Hy|[<-|[]]]; [now apply D2|lra].
    + exact D1.
    + right. split; [rewrite Ea at 2; apply in_or_app; right; now left|now apply A].
    + intros x Hx Hm. destruct b as [|y b']; [contradiction|]. specialize (B y b' eq_refl). specialize (Hm y (or_introl eq_refl)). lra.
Qed.
Lemma filter_perm (f : R -> bool) l l' : Permutation l l' -> Permutation (filter f l) (filter f l').
Proof.
  intros P. induction P; cbn [filter]; try reflexivity.
  - destruct (f x); [now apply perm_skip|exact IHP].
  - destruct (f x), (f y); try reflexivity. apply perm_swap.
  - etransitivity; eassumption.
Qed.
(** The bins denser than the level hold at most the fraction; with any thinner bin added they hold more.  The level is
    positive, so that no empty region is enclosed *)
Theorem C72_levels H v : (forall x, In x (concat H) -> 0 <= x) -> 0 < sumr (concat H) -> 0 <= v ->
  let c := level_value (descending (concat H)) v in
  encloses H v c /\ In c (concat H) /\
  sumr (filter (fun h => if Rlt_dec c h then true else false) (concat H)) <= v * sumr (concat H) /\
  (forall h, In h (concat H) -> h < c -> v * sumr (concat H) < sumr (filter (fun h' => if Rle_dec h h' then true else false) (concat H))) /\
  (v < 1 -> 0 < c).
Proof.
  intros Hp Ht Hv c. destruct (descending_spec (concat H)) as [Ds P].
  assert (Sd : sumr (descending (concat H)) = sumr (concat H)) by now apply sumr_perm.
  assert (Hd : forall x, In x (descending (concat H)) -> 0 <= x) by (intros x Hx; apply Hp; now apply (Permutation_in _ P)).
  destruct (level_encloses _ v c Ds Hd ltac:(lra) Hv eq_refl) as (I & U & M & Z). rewrite Sd in *.
  assert (PF : forall f, sumr (filter f (descending (concat H))) = sumr (filter f (concat H))).
  { intros f. now apply sumr_perm, filter_perm. }
  rewrite PF in U. split; [now apply level_encloses_exact|]. split; [now apply (Permutation_in _ P)|]. split; [exact U|]. split; [|exact Z].
  intros h Hh Hc. specialize (M h (Permutation_in _ (Permutation_sym P) Hh) Hc). now rewrite PF in M.
Qed.
(** The region of a larger fraction contains that of a smaller one *)
Theorem C72_nested H v v' : (forall x, In x (concat H) -> 0 <= x) -> 0 < sumr (concat H) -> v <= v' ->
  level_value (descending (concat H)) v' <= level_value (descending (concat H)) v.
Proof.
  intros Hp Ht Hv. destruct (descending_spec (concat H)) as [Ds P]. apply level_antitone; auto.
  - intros x Hx. apply Hp. now apply (Permutation_in _ P).
  - rewrite (sumr_perm _ _ P). exact Ht.
Qed.
Lemma untie_distinct n v : sorted v -> NoDup v -> untie n v = Some v.
Proof.
  intros _ Hn. assert (S : untie_step v = None).
  { induction v as [|a [|b t] IH]; try reflexivity. rewrite untie_cons. inversion Hn as [|? ? Hi Hr]; subst. destruct (Req_EM_T a b) as [->|]; [exfalso; apply Hi; now left|]. now rewrite IH. }
  destruct n; cbn [untie]; now rewrite S.
Qed.
(** With samples within the ranges the levels are found: they are the densities that enclose the fractions, increasing,
    and where two coincide made smaller by a part in ten thousand a few times *)
Theorem C72_contours rounds H levels : (forall x, In x (concat H) -> 0 <= x) -> 0 < sumr (concat H) -> (forall l, In l levels -> 0 <= l < 1) ->
  (List.length levels * (List.length levels - 1) <= 2 * rounds)%nat ->
  exists V C U, contour_levels rounds H levels = Some V /\ Forall2 (encloses H) levels C /\ sorted V /\ Permutation V U /\
    List.length U = List.length levels /\
    (forall i, (i < List.length levels)%nat -> exists k, (k <= List.length levels - 1 - i)%nat /\ nth i U 0 = nth i (sort C) 0 * (1 - 1 / 10000) ^ k) /\
    (forall x, In x V -> 0 < x /\ exists h, In h (concat H) /\ x <= h) /\
    (NoDup C -> V = sort C).
Proof.
  intros Hp Ht Hl Hr. set (C := map (level_value (descending (concat H))) levels).
  assert (LC : List.length (sort C) = List.length levels) by (rewrite sort_length; unfold C; now rewrite map_length).
  assert (Pos : forall x, In x (sort C) -> 0 < x /\ In x (concat H)).
  { intros x Hx. apply (Permutation_in _ (sort_perm C)) in Hx. unfold C in Hx. apply in_map_iff in Hx. destruct Hx as (l & <- & Hx). destruct (Hl l Hx) as [L0 L1].
    destruct (C72_levels H l Hp Ht L0) as (_ & I & _ & _ & Z). split; [now apply Z|exact I]. }
  destruct (runs_exists (sort C) (fun x Hx => proj1 (Pos x Hx))) as (k & h & U & K & Lk & _ & LU & Un). rewrite LC in *.
  assert (Un' : untie rounds (sort C) = Some U) by (apply (runs_untie _ _ _ _ K); lia).
  exists (sort U), C, U. split; [unfold contour_levels; cbv zeta; fold C; now rewrite Un'|]. split.
  { unfold C. clear - Hp Ht. induction levels as [|l t IH]; cbn [map]; constructor; [now apply level_encloses_exact|exact IH]. }
  split; [apply sort_sorted|]. split; [apply sort_perm|]. split; [exact LU|]. split; [exact Un|]. split.
  - intros x Hx. apply (Permutation_in _ (sort_perm U)) in Hx. apply (In_nth _ _ 0) in Hx. destruct Hx as (i & Hi & <-). rewrite LU in Hi.
    destruct (Un i Hi) as (c & _ & ->). destruct (Pos (nth i (sort C) 0) ltac:(apply nth_In; lia)) as [P1 P2]. pose proof shrink_pos as Sp.
    assert (0 < shrink ^ c) by (apply pow_lt; lra). assert (shrink ^ c <= 1) by (rewrite <- (pow1 c); apply pow_incr; lra). split; [now apply Rmult_lt_0_compat|]. exists (nth i (sort C) 0). split; [exact P2|]. nra.
  - intros Nd. assert (Ns : NoDup (sort C)) by (apply (Permutation_NoDup (Permutation_sym (sort_perm C)) Nd)).
    rewrite (untie_distinct rounds _ (sort_sorted C) Ns) in Un'. injection Un' as <-. apply (sorted_unique _ _ (sort_sorted _) (sort_sorted _)). apply sort_perm.
Qed.
(** Without samples in the ranges the loop that separates equal levels never ends *)
Theorem C72_hang_refuted H levels rounds : (forall x, In x (concat H) -> x = 0) -> (2 <= List.length levels)%nat -> contour_levels rounds H levels = None.
Proof.
  intros Hz Hl. unfold contour_levels. cbv zeta.
  assert (Z : forall v, level_value (descending (concat H)) v = 0).
  { intros v. destruct (descending_spec (concat H)) as [_ P]. assert (Hd : forall x, In x (descending (concat H)) -> x = 0) by (intros x Hx; apply Hz; now apply (Permutation_in _ P)).
    set (d := descending (concat H)) in *. unfold level_value, below. assert (S : sumr d = 0). { clear - Hd. induction d as [|x d IH]; [reflexivity|]. rewrite sumr_cons, IH by (intros; apply Hd; now right). rewrite (Hd x (or_introl eq_refl)). ring. }
    rewrite S. destruct (Req_EM_T 0 0); [|lra]. assert (M : forall (l : list R) acc, masked l (map (fun _ => false) (cumsum_from acc l)) = []) by (induction l as [|x l IH]; intros; [reflexivity|]; cbn; apply IH).
    rewrite M. destruct d as [|x d]; [reflexivity|]. cbn [hd]. apply Hd. now left. }
  assert (E : sort (map (level_value (descending (concat H))) levels) = repeat 0 (List.length levels)).
  { apply sorted_unique; [apply sort_sorted| |].
    - intros i j _ Hj. rewrite !nth_repeat. lra.
    - rewrite sort_perm. clear - Z. induction levels as [|l t IH]; [reflexivity|]. cbn [map List.length repeat]. rewrite Z. now constructor. }
  rewrite E. rewrite stuck; [reflexivity|]. destruct levels as [|l [|l' t]]; cbn in Hl; try lia. exists [], (repeat 0 (List.length t)). reflexivity.
Qed.
Lemma concat_zero H : (forall r, In r H -> forall x, In x r -> x = 0) -> forall x, In x (concat H) -> x = 0.
Proof. intros Hz x Hx. apply in_concat in Hx. destruct Hx as (r & Hr & Hx). now apply (Hz r). Qed.
Theorem C72_no_samples_refuted rounds kde2 argsort default p q a b c d x y weights sx sy levels :
  range_of p a b -> range_of q c d ->
  (forall s s' G, (forall r, In r G -> forall v, In v r -> v = 0) -> forall r, In r (kde2 s s' G) -> forall v, In v r -> v = 0) ->
  (forall u v, In (u, v) (combine x y) -> ~ (a <= u <= b /\ c <= v <= d)) -> match levels with None => True | Some l => (2 <= List.length l)%nat end ->
  twodhist rounds kde2 argsort default x y weights (Some [inl p; inl q]) (sx, sy) levels = None.
Proof.
  intros Rp Rq Kz Out Lv. unfold twodhist, get_spans. cbn [List.length Nat.eqb combine mapM span_of fst snd].
  destruct (bins2 sx) as [[nx s1]|]; [|reflexivity]. destruct (bins2 sy) as [[ny s2]|]; [|reflexivity].
  destruct (histogram2d (edges p nx) (edges q ny) x y weights) as [H0|] eqn:E; [|reflexivity].
  rewrite C72_hang_refuted; [reflexivity| |destruct levels; [exact Lv|unfold default_levels; cbn; lia]].
  apply concat_zero. apply Kz. intros r Hr v Hv. revert E. unfold histogram2d. destruct (Nat.eqb _ _); [|discriminate].
  destruct (weighted (combine x y) weights) as [xw|] eqn:W; [|discriminate]. intros K. injection K as <-. apply weighted_spec in W. destruct W as [W _].
  apply in_map_iff in Hr. destruct Hr as (i & <- & Hi). apply in_map_iff in Hv. destruct Hv as (j & <- & Hj). apply in_seq in Hi, Hj. rewrite edges_length in Hi, Hj.
  rewrite (sumr_ext _ (fun _ => 0)); [apply sumr_map_zero|]. intros [[u v] w] Ht. cbn [fst snd]. rewrite W in Ht. apply in_combine_l in Ht. specialize (Out u v Ht).
  destruct (in_bin (edges p nx) i u) eqn:B1; [|reflexivity]. destruct (in_bin (edges q ny) j v) eqn:B2; [|reflexivity]. exfalso. apply Out.
  destruct (bins_partition p nx a b u (range_outer _ _ _ Rp) ltac:(lia)) as [_ Q1]. destruct (bins_partition q ny c d v (range_outer _ _ _ Rq) ltac:(lia)) as [_ Q2].
  split.
  - destruct (in_range a b u) eqn:I; [now apply within_spec in I|]. rewrite Q1 in B1; [discriminate| |lia]. intros N. apply within_spec in N. unfold within in N. congruence.
  - destruct (in_range c d v) eqn:I; [now apply within_spec in I|]. rewrite Q2 in B2; [discriminate| |lia]. intros N. apply within_spec in N. unfold within in N. congruence.
Qed.

(** ** The numbers of bins *)
Lemma int_part_bounds v : IZR (Int_part v) <= v < IZR (Int_part v) + 1.
Proof. destruct (base_Int_part v). lra. Qed.
Lemma int_part_unique v z : IZR z <= v < IZR z + 1 -> Int_part v = z.
Proof.
  intros H. pose proof (int_part_bounds v). assert (IZR z < IZR (Int_part v) + 1) by lra. assert (IZR (Int_part v) < IZR z + 1) by lra.
  rewrite <- plus_IZR in *. apply lt_IZR in H1, H2. lia.
Qed.
Lemma round_even_near v : Rabs (IZR (round_even v) - v) <= 1 / 2.
Proof.
  unfold round_even. cbv zeta. pose proof (int_part_bounds v) as B. set (f := Int_part v) in *.
  destruct (Rlt_dec (v - IZR f) (1 / 2)); [apply Rabs_le; lra|]. destruct (Rlt_dec (1 / 2) (v - IZR f)); [rewrite plus_IZR; apply Rabs_le; lra|].
  destruct (Z.even f); rewrite ?plus_IZR; apply Rabs_le; lra.
Qed.
Lemma abs_le_inv u v : Rabs u <= v -> - v <= u <= v.
Proof. unfold Rabs. destruct (Rcase_abs u); lra. Qed.
Lemma INR_to_nat z : (0 <= z)%Z -> INR (Z.to_nat z) = IZR z.
Proof. intros H. rewrite INR_IZR_INZ, Z2Nat.id; auto. Qed.
(** Above one the smoothing is the number of bins and nothing is smoothed; up to one it is the width of the filter as a
    fraction of the span, up to the rounding of the number of bins *)
Theorem C72_smoothing s n sigma : bins2 s = Some (n, sigma) ->
  (0 < n)%nat /\ (1 < s -> sigma = 0 /\ INR n <= s < INR n + 1) /\ (s <= 1 -> 0 < s /\ sigma = 2 /\ Rabs (sigma / INR n - s) <= s / (2 * INR n)).
Proof.
  unfold bins2. destruct (Rlt_dec 1 s) as [G|G].
  - intros K. injection K as <- <-. pose proof (int_part_bounds s) as B.
    assert (1 <= Int_part s)%Z by (apply le_IZR; assert (IZR 1 < IZR (Int_part s + 1)) by (rewrite plus_IZR; lra); apply lt_IZR in H; apply IZR_le; lia).
    split; [lia|]. split; [|lra]. intros _. split; [reflexivity|]. rewrite INR_to_nat by lia. lra.
  - destruct (Rle_dec s 0) as [Z|Z]; [discriminate|]. intros K. injection K as <- <-. pose proof (round_even_near (2 / s)) as B.
    assert (2 <= 2 / s). { apply (Rmult_le_reg_r s); [lra|]. unfold Rdiv. rewrite Rmult_assoc, Rinv_l; lra. }
    apply abs_le_inv in B. assert (1 <= round_even (2 / s))%Z. { apply le_IZR. assert (IZR 1 < IZR (round_even (2 / s))) by lra. apply lt_IZR in H0. apply IZR_le. lia. }
    set (z := round_even (2 / s)) in *. split; [lia|]. split; [lra|]. intros _. split; [lra|]. split; [reflexivity|]. rewrite INR_to_nat by lia.
    assert (Hz : 1 <= IZR z) by now apply IZR_le. replace (2 / IZR z - s) with ((2 / s - IZR z) * (s / IZR z)) by (field; lra).
    rewrite Rabs_mult, (Rabs_pos_eq (s / IZR z)) by (apply Rmult_le_pos; [lra|left; apply Rinv_0_lt_compat; lra]).
    replace (s / (2 * IZR z)) with (1 / 2 * (s / IZR z)) by (field; lra). apply Rmult_le_compat_r; [apply Rmult_le_pos; [lra|left; apply Rinv_0_lt_compat; lra]|]. apply Rabs_le. lra.
Qed.
(** Between one and two there is one bin, and that raises *)
Theorem C72_one_bin_refuted rounds kde2 argsort default x y weights span sx sy levels : 1 < sx < 2 -> twodhist rounds kde2 argsort default x y weights span (sx, sy) levels = None.
Proof.
  intros H. unfold twodhist. destruct (get_spans _ _ _ _ _) as [[|px [|py [|? ?]]]|]; try reflexivity. cbn [fst snd].
  assert (B : bins2 sx = Some (1%nat, 0)). { unfold bins2. destruct (Rlt_dec 1 sx); [|lra]. now rewrite (int_part_unique sx 1) by lra. }
  rewrite B. destruct (bins2 sy) as [[ny s2]|]; [|reflexivity]. destruct (histogram2d _ _ _ _ _) as [H0|]; [|reflexivity]. cbv zeta. destruct (contour_levels _ _ _); [|reflexivity].
  assert (E : extended (centres (edges px 1)) = None) by (unfold centres; rewrite edges_length; reflexivity). now rewrite E.
Qed.
(** A smoothing above one is rounded for the marginal and cut off for the joint density: their bins differ *)
Theorem C72_bins_refuted n s kde1 x weights span peak e h : (1 <= n)%nat -> INR n + 1 / 2 < s < INR n + 1 ->
  bins2 s = Some (n, 0) /\ (marginal kde1 x weights span s peak = Some (e, h) -> List.length e = (n + 1 + 1)%nat).
Proof.
  intros Hn H. assert (1 <= INR n) by (apply (le_INR 1); lia). assert (I : Int_part s = Z.of_nat n) by (apply int_part_unique; rewrite <- INR_IZR_INZ; lra).
  split.
  - unfold bins2. destruct (Rlt_dec 1 s); [|lra]. now rewrite I, Nat2Z.id.
  - unfold marginal. destruct (Rlt_dec 1 s); [|lra]. cbv zeta.
    assert (E : Z.to_nat (round_even s) = (n + 1)%nat). { unfold round_even. cbv zeta. rewrite I, <- INR_IZR_INZ. destruct (Rlt_dec _ _); [lra|]. destruct (Rlt_dec _ _); [|lra]. lia. }
    rewrite E. destruct (histogram _ x weights) as [h0|]; [|discriminate]. destruct (scaled_weights weights h0 peak) as [w|]; [|discriminate].
    destruct (histogram _ x w); [|discriminate]. intros K. injection K as <- _. now rewrite edges_length.
Qed.

(** ** The density drawn *)
Lemma centres_length e : List.length (centres e) = (List.length e - 1)%nat.
Proof. unfold centres. now rewrite map_length, seq_length. Qed.
Lemma centres_nth p a b n k : outer p = (a, b) -> (k < n)%nat -> nth k (centres (edges p n)) 0 = a + (INR k + 1 / 2) * (b - a) / INR n.
Proof.
  intros E H. assert (0 < INR n) by (apply lt_0_INR; lia). unfold centres. rewrite edges_length. replace (n + 1 - 1)%nat with n by lia. rewrite nth_map_seq by exact H.
  rewrite (edges_nth p n a b (k + 1) E), (edges_nth p n a b k E), plus_INR by lia. cbn [INR]. field. lra.
Qed.
Lemma extended_eq c e : extended c = Some e -> (2 <= List.length c)%nat /\
  e = ([nth 0 c 0 + -2 * (nth 1 c 0 - nth 0 c 0); nth 0 c 0 + -1 * (nth 1 c 0 - nth 0 c 0)] ++ c ++
       [nth (List.length c - 1) c 0 + 1 * (nth (List.length c - 1) c 0 - nth (List.length c - 2) c 0); nth (List.length c - 1) c 0 + 2 * (nth (List.length c - 1) c 0 - nth (List.length c - 2) c 0)])%list.
Proof. unfold extended. destruct c as [|c0 [|c1 t]]; [discriminate|discriminate|]. intros K. split; [cbn; lia|]. injection K as <-. reflexivity. Qed.
Lemma extended_spec p a b n e : outer p = (a, b) -> extended (centres (edges p n)) = Some e ->
  List.length e = (n + 4)%nat /\ (2 <= n)%nat /\ forall i, (i < n + 4)%nat -> nth i e 0 = a + (INR i - 3 / 2) * (b - a) / INR n.
Proof.
  intros E K. pose proof (centres_length (edges p n)) as L. rewrite edges_length in L. replace (n + 1 - 1)%nat with n in L by lia.
  pose proof (fun k => centres_nth p a b n k E) as N. set (c := centres (edges p n)) in *. apply extended_eq in K. rewrite L in K. destruct K as [Hn ->]. assert (Pn : 0 < INR n) by (apply lt_0_INR; lia).
  assert (NL : nth (n - 1) c 0 = a + (INR n - 1 + 1 / 2) * (b - a) / INR n) by (rewrite N by lia; rewrite minus_INR by lia; reflexivity).
  assert (NL' : nth (n - 2) c 0 = a + (INR n - 2 + 1 / 2) * (b - a) / INR n) by (rewrite N by lia; rewrite minus_INR by lia; reflexivity).
  split; [rewrite !app_length, L; cbn [List.length]; lia|]. split; [exact Hn|].
  rewrite NL, NL', (N 0%nat), (N 1%nat) by lia. clearbody c. intros [|[|i]] Hi; cbn [app nth].
  - cbn [INR]. field. lra.
  - cbn [INR]. field. lra.
  - destruct (Nat.lt_ge_cases i n) as [G|G].
    + rewrite app_nth1 by lia. rewrite N by exact G. rewrite !S_INR. field. lra.
    + rewrite app_nth2 by lia. rewrite L. assert (C : (i = n \/ i = n + 1)%nat) by lia. destruct C as [-> | ->].
      * rewrite Nat.sub_diag. cbn [nth]. rewrite !S_INR. field. lra.
      * replace (n + 1 - n)%nat with 1%nat by lia. cbn [nth]. rewrite !S_INR, plus_INR. cbn [INR]. field. lra.
Qed.
Lemma padded_inner H nx ny i j : (0 < nx)%nat -> (0 < ny)%nat -> (1 <= i <= nx + 2)%nat -> (1 <= j <= ny + 2)%nat ->
  padded H nx ny i j = at2 H (Nat.min (i - 2) (nx - 1)) (Nat.min (j - 2) (ny - 1)).
Proof.
  intros Hx Hy Hi Hj. unfold padded, inner.
  assert (Ci : (i = 1 \/ i = nx + 2 \/ 2 <= i < nx + 2)%nat) by lia. assert (Cj : (j = 1 \/ j = ny + 2 \/ 2 <= j < ny + 2)%nat) by lia.
  destruct (Nat.eqb_spec i 1), (Nat.eqb_spec i (nx + 2)), (Nat.eqb_spec j 1), (Nat.eqb_spec j (ny + 2)), (Nat.leb_spec 2 i), (Nat.ltb_spec i (nx + 2)), (Nat.leb_spec 2 j), (Nat.ltb_spec j (ny + 2)); cbn [andb]; try lia; f_equal; lia.
Qed.
Lemma padded_ring H nx ny i j : (i = 0 \/ i = nx + 3 \/ j = 0 \/ j = ny + 3)%nat -> padded H nx ny i j = minimum (concat H).
Proof.
  intros C. unfold padded, inner.
  destruct (Nat.eqb_spec i 1), (Nat.eqb_spec i (nx + 2)), (Nat.eqb_spec j 1), (Nat.eqb_spec j (ny + 2)), (Nat.leb_spec 2 i), (Nat.ltb_spec i (nx + 2)), (Nat.leb_spec 2 j), (Nat.ltb_spec j (ny + 2)); cbn [andb]; try lia; reflexivity.
Qed.
(** The values given to matplotlib: at the centre of a bin its (smoothed) density, one more row and column of the same
    beyond the edges, then the least density *)
Theorem C72_density rounds kde2 argsort default p q a b c e x y weights sx sy levels r : range_of p a b -> range_of q c e ->
  twodhist rounds kde2 argsort default x y weights (Some [inl p; inl q]) (sx, sy) levels = Some r ->
  exists nx ny s1 s2 H0, bins2 sx = Some (nx, s1) /\ bins2 sy = Some (ny, s2) /\ (2 <= nx)%nat /\ (2 <= ny)%nat /\
    histogram2d (edges p nx) (edges q ny) x y weights = Some H0 /\
    List.length (d_x r) = (nx + 4)%nat /\ List.length (d_y r) = (ny + 4)%nat /\
    (forall i, (i < nx + 4)%nat -> nth i (d_x r) 0 = a + (INR i - 3 / 2) * (b - a) / INR nx) /\
    (forall j, (j < ny + 4)%nat -> nth j (d_y r) 0 = c + (INR j - 3 / 2) * (e - c) / INR ny) /\
    List.length (d_h r) = (ny + 4)%nat /\ (forall l, In l (d_h r) -> List.length l = (nx + 4)%nat) /\
    (forall i j, (1 <= i <= nx + 2)%nat -> (1 <= j <= ny + 2)%nat -> at2 (d_h r) j i = at2 (kde2 s1 s2 H0) (Nat.min (i - 2) (nx - 1)) (Nat.min (j - 2) (ny - 1))) /\
    (forall i j, (i < nx + 4)%nat -> (j < ny + 4)%nat -> (i = 0 \/ i = nx + 3 \/ j = 0 \/ j = ny + 3)%nat -> at2 (d_h r) j i = minimum (concat (kde2 s1 s2 H0))) /\
    contour_levels rounds (kde2 s1 s2 H0) (match levels with None => default_levels | Some l => l end) = Some (d_levels r) /\
    d_clevels r = 0 :: d_levels r ++ [maximum (concat (kde2 s1 s2 H0)) * (1 + 1 / 10000)].
Proof.
  intros Rp Rq. unfold twodhist, get_spans. cbn [List.length Nat.eqb combine mapM span_of fst snd].
  destruct (bins2 sx) as [[nx s1]|] eqn:Bx; [|discriminate]. destruct (bins2 sy) as [[ny s2]|] eqn:By; [|discriminate].
  destruct (histogram2d (edges p nx) (edges q ny) x y weights) as [H0|] eqn:E; [|discriminate]. cbv zeta.
  destruct (contour_levels rounds _ _) as [v|] eqn:Ev; [|discriminate].
  destruct (extended (centres (edges p nx))) as [x2|] eqn:Ex; [|discriminate]. destruct (extended (centres (edges q ny))) as [y2|] eqn:Ey; [|discriminate].
  intros K. injection K as <-. cbn [d_x d_y d_h d_levels d_clevels].
  destruct (extended_spec _ _ _ _ _ (range_outer _ _ _ Rp) Ex) as (Lx & Nx & Xn). destruct (extended_spec _ _ _ _ _ (range_outer _ _ _ Rq) Ey) as (Ly & Ny & Yn).
  exists nx, ny, s1, s2, H0. repeat split; auto.
  - unfold padded_T. now rewrite map_length, seq_length.
  - intros l Hl. unfold padded_T in Hl. apply in_map_iff in Hl. destruct Hl as (j & <- & _). now rewrite map_length, seq_length.
  - intros i j Hi Hj. unfold at2 at 1, padded_T. rewrite nth_map_seq by lia. rewrite nth_map_seq by lia. apply padded_inner; lia.
  - intros i j Hi Hj C. unfold at2 at 1, padded_T. rewrite nth_map_seq by lia. rewrite nth_map_seq by lia. now apply padded_ring.
Qed.
Lemma fold_max_spec l : forall x, (forall y, In y (x :: l) -> y <= fold_left Rmax l x) /\ In (fold_left Rmax l x) (x :: l).
Proof.
  induction l as [|z l IH]; intros x; cbn [fold_left]; [split; [intros y [<-|[]]; lra|now left]|].
  destruct (IH (Rmax x z)) as [A B]. split.
  - intros y [<-|[<-|Hy]]; [apply Rle_trans with (Rmax x z); [apply Rmax_l|apply A; now left]|apply Rle_trans with (Rmax x z); [apply Rmax_r|apply A; now left]|apply A; now right].
  - destruct B as [B|B]; [|right; now right]. rewrite <- B. unfold Rmax. destruct (Rle_dec x z); [right; now left|now left].
Qed.
Lemma maximum_spec l : l <> [] -> (forall y, In y l -> y <= maximum l) /\ In (maximum l) l.
Proof. destruct l as [|x l]; [contradiction|]. intros _. apply fold_max_spec. Qed.
(** The filled regions: from zero, through the levels in increasing order, to above every density *)
Theorem C72_fills rounds H levels V : (forall x, In x (concat H) -> 0 <= x) -> 0 < sumr (concat H) -> (forall l, In l levels -> 0 <= l < 1) ->
  contour_levels rounds H levels = Some V ->
  let f := 0 :: V ++ [maximum (concat H) * (1 + 1 / 10000)] in
  sorted f /\ List.length f = (List.length levels + 2)%nat /\ (forall x, In x V -> 0 < x < maximum (concat H) * (1 + 1 / 10000)) /\ forall h, In h (concat H) -> 0 <= h < maximum (concat H) * (1 + 1 / 10000).
Proof.
  intros Hp Ht Hl E f.
  assert (E' : exists V' C U, contour_levels (rounds + List.length levels * List.length levels) H levels = Some V' /\ V' = V /\ Permutation V' U /\ List.length U = List.length levels /\ sorted V' /\ (forall x, In x V' -> 0 < x /\ exists h, In h (concat H) /\ x <= h) /\ C = U).
  { destruct (C72_contours (rounds + List.length levels * List.length levels) H levels Hp Ht Hl) as (V' & C & U & K & _ & S & P & L & _ & B & _); [nia|].
    exists V', U, U. split; [exact K|]. split; [|repeat split; auto; intros; now apply B].
    revert E K. unfold contour_levels. cbv zeta. set (v := sort _). assert (M : forall n m v w, untie n v = Some w -> untie (n + m) v = Some w).
    { clear. induction n as [|n IH]; intros m v w; cbn [untie Nat.add]; destruct (untie_step v) eqn:S; try discriminate; [|apply IH|intros K; exact K]. intros K. destruct m; cbn [untie]; now rewrite S. }
    destruct (untie rounds v) as [w|] eqn:W; [|discriminate]. rewrite (M _ _ _ _ W). congruence. }
  destruct E' as (V' & C & U & _ & -> & P & L & S & B & _).
  assert (Ne : concat H <> []) by (intros Z; rewrite Z in Ht; unfold sumr in Ht; cbn in Ht; lra). destruct (maximum_spec (concat H) Ne) as [Mx Mi].
  set (M := maximum (concat H)) in *. assert (Mp : 0 < M).
  { destruct (Rle_lt_dec M 0) as [G|G]; [|exact G]. exfalso. assert (Z : forall l, (forall y, In y l -> y <= M) -> sumr l <= 0). { induction l as [|y l IH]; intros Hy; [unfold sumr; cbn; lra|]. rewrite sumr_cons. pose proof (Hy y (or_introl eq_refl)). specialize (IH (fun z Hz => Hy z (or_intror Hz))). lra. }
    specialize (Z _ Mx). lra. }
  assert (BV : forall x, In x V -> 0 < x < M * (1 + 1 / 10000)). { intros x Hx. destruct (B x Hx) as (B1 & h & Hh & B2). specialize (Mx h Hh). lra. }
  split; [|split; [|split; [exact BV|intros h Hh; specialize (Mx h Hh); specialize (Hp h Hh); lra]]].
  - unfold f. apply sorted_cons. split.
    + intros y Hy. apply in_app_or in Hy. destruct Hy as [Hy|[<-|[]]]; [destruct (BV y Hy); lra|lra].
    + clear - S BV. induction V as [|x V IH]; [apply sorted_cons; split; [intros ? []|intros i j _ Hj; cbn in Hj; lia]|]. cbn [app]. apply sorted_cons in S. destruct S as [S1 S2]. apply sorted_cons. split.
      * intros y Hy. apply in_app_or in Hy. destruct Hy as [Hy|[<-|[]]]; [now apply S1|]. destruct (BV x (or_introl eq_refl)). lra.
      * apply IH; [exact S2|]. intros y Hy. apply BV. now right.
  - unfold f. cbn [List.length]. rewrite app_length, (Permutation_length P), L. cbn. lia.
Qed.
(** One colour for each of them, more opaque where denser, up to less than that of the colour asked for *)
Theorem C72_colours alpha n : 0 < alpha -> List.length (opacities alpha n) = (n + 1)%nat /\ nth 0 (opacities alpha n) 0 = 0 /\
  (forall i, (i < n)%nat -> nth i (opacities alpha n) 0 < nth (i + 1) (opacities alpha n) 0) /\ forall i, (i <= n)%nat -> nth i (opacities alpha n) 0 = alpha * INR i / INR (n + 1) /\ nth i (opacities alpha n) 0 < alpha.
Proof.
  intros Ha. assert (Pn : 0 < INR (n + 1)) by (apply lt_0_INR; lia).
  assert (N : forall i, (i <= n)%nat -> nth i (opacities alpha n) 0 = alpha * (INR i / INR (n + 1))) by (intros i Hi; unfold opacities; apply (nth_map_seq (fun i => alpha * (INR i / INR (n + 1)))); lia).
  split; [unfold opacities; now rewrite map_length, seq_length|]. split; [rewrite N by lia; cbn [INR]; unfold Rdiv; ring|]. split.
  - intros i Hi. rewrite !N by lia. apply Rmult_lt_compat_l; [exact Ha|]. apply Rmult_lt_compat_r; [now apply Rinv_0_lt_compat|]. apply lt_INR. lia.
  - intros i Hi. rewrite N by lia. split; [unfold Rdiv; ring|]. rewrite <- (Rmult_1_r alpha) at 2. apply Rmult_lt_compat_l; [exact Ha|].
    apply (Rmult_lt_reg_r (INR (n + 1))); [exact Pn|]. unfold Rdiv. rewrite Rmult_assoc, Rinv_l by lra. assert (INR i < INR (n + 1)) by (apply lt_INR; lia). lra.
Qed.
(** The default fractions are those of a two-dimensional Gaussian within 1/2, 1, 3/2 and 2 standard deviations *)
Theorem C72_default_levels : List.length default_levels = 4%nat /\ (forall k, (k < 4)%nat -> nth k default_levels 0 = 1 - exp (- ((INR k + 1) / 2) ^ 2 / 2)) /\
  (forall l, In l default_levels -> 0 < l < 1) /\ forall i j, (i < j < 4)%nat -> nth i default_levels 0 < nth j default_levels 0.
Proof.
  assert (N : forall k, (k < 4)%nat -> nth k default_levels 0 = 1 - exp (- ((INR k + 1) / 2) ^ 2 / 2)).
  { intros k Hk. destruct k as [|[|[|[|k]]]]; [| | | |lia]; unfold default_levels; cbn [map nth]; (do 2 f_equal); cbn [INR]; field. }
  assert (Lt : forall u v, 0 <= u < v -> exp (- v ^ 2 / 2) < exp (- u ^ 2 / 2)) by (intros u v H; apply exp_increasing; nra).
  split; [reflexivity|]. split; [exact N|]. split.
  - intros l Hl. apply (In_nth _ _ 0) in Hl. destruct Hl as (k & Hk & <-). change (List.length default_levels) with 4%nat in Hk. rewrite N by exact Hk. pose proof (pos_INR k). specialize (Lt 0 ((INR k + 1) / 2) ltac:(lra)).
    replace (- 0 ^ 2 / 2) with 0 in Lt by field. rewrite exp_0 in Lt. pose proof (exp_pos (- ((INR k + 1) / 2) ^ 2 / 2)). lra.
  - intros i j Hij. rewrite !N by lia. assert (INR i < INR j) by (apply lt_INR; lia). pose proof (pos_INR i). specialize (Lt ((INR i + 1) / 2) ((INR j + 1) / 2) ltac:(lra)). lra.
Qed.

(** After the loop the levels can coincide all the same: the first of two equal ones, made smaller, may meet a third, and the
    last sort brings them together *)
Theorem C72_coincide_refuted : exists H levels, (forall x, In x (concat H) -> 0 < x) /\ (forall l, In l levels -> 0 < l < 1) /\ sorted levels /\ NoDup levels /\
  contour_levels 6 H levels = Some [19998; 19998; 19999; 20000].
Proof.
  exists [[20000; 19998]; [19998; 19999]], [1 / 10; 3 / 10; 6 / 10; 8 / 10].
  split; [cbn; intros x Hx; repeat (destruct Hx as [<-|Hx]; [lra|]); contradiction|].
  split; [cbn; intros x Hx; repeat (destruct Hx as [<-|Hx]; [lra|]); contradiction|].
  assert (Sn : sorted []) by (intros i j _ Hj; cbn in Hj; lia).
  split. { repeat (apply sorted_cons; split; [intros y Hy; cbn in Hy; repeat (destruct Hy as [<-|Hy]; [lra|]); contradiction|]). exact Sn. }
  split. { repeat (constructor; [cbn; intros Hy; repeat (destruct Hy as [Hy|Hy]; [lra|]); contradiction|]). constructor. }
  assert (D : descending (concat [[20000; 19998]; [19998; 19999]]) = [20000; 19999; 19998; 19998]).
  { unfold descending. cbn [concat app]. cbn [sort insert]. repeat (destruct (Rle_dec _ _) as [?G|?G]; [try lra|try lra]; cbn [insert]). all: reflexivity. }
  unfold contour_levels. cbv zeta. rewrite D.
  assert (T : sumr [20000; 19999; 19998; 19998] = 79995) by (unfold sumr; cbn; lra).
  assert (L : map (level_value [20000; 19999; 19998; 19998]) [1 / 10; 3 / 10; 6 / 10; 8 / 10] = [20000; 20000; 19999; 19998]).
  { unfold level_value, below. rewrite T. destruct (Req_EM_T 79995 0) as [Z|_]; [lra|]. cbn [map cumsum_from].
    repeat match goal with |- context [Rle_dec ?a ?b] => let G := fresh in destruct (Rle_dec a b) as [G|G]; [try (exfalso; revert G; lra)|try (exfalso; apply G; lra)] end. reflexivity. }
  rewrite L. assert (S1 : sort [20000; 20000; 19999; 19998] = [19998; 19999; 20000; 20000]).
  { cbn [sort insert]. repeat (destruct (Rle_dec _ _) as [?G|?G]; [try lra|try lra]; cbn [insert]). all: reflexivity. }
  rewrite S1. cbn [untie]. rewrite !untie_cons.
  repeat match goal with |- context [Req_EM_T ?a ?b] => let G := fresh in destruct (Req_EM_T a b) as [G|G]; [try (exfalso; revert G; lra)|try (exfalso; apply G; lra)] end.
  replace (20000 * shrink) with 19998 by (unfold shrink; lra). cbn [untie]. rewrite !untie_cons.
  repeat match goal with |- context [Req_EM_T ?a ?b] => let G := fresh in destruct (Req_EM_T a b) as [G|G]; [try (exfalso; revert G; lra)|try (exfalso; apply G; lra)] end.
  cbn [untie_step]. f_equal. cbn [sort insert]. repeat (destruct (Rle_dec _ _) as [?G|?G]; [try lra|try lra]; cbn [insert]). all: reflexivity.
Qed.

(** ** Marginals *)
Lemma centre_own_bin p a b n k i : outer p = (a, b) -> (k < n)%nat -> (i < n)%nat -> in_bin (edges p n) i (nth k (centres (edges p n)) 0) = Nat.eqb i k.
Proof.
  intros E Hk Hi. destruct (outer_lt _ _ _ E) as (Hab & _). assert (Pn : 0 < INR n) by (apply lt_0_INR; lia). apply bool_eq. rewrite (in_bin_spec p n a b i _ E Hi), (centres_nth p a b n k E Hk), Nat.eqb_eq.
  assert (Pd : 0 < (b - a) / INR n) by (apply Rdiv_lt_0_compat; lra). set (d := (b - a) / INR n) in *.
  replace (a + (INR k + 1 / 2) * (b - a) / INR n) with (a + (INR k + 1 / 2) * d) by (unfold d, Rdiv; ring). rewrite plus_INR. cbn [INR]. split.
  - intros [L [U|[Ei U]]].
    + assert (INR i <= INR k + 1 / 2) by nra. assert (INR k + 1 / 2 < INR i + 1) by nra.
      destruct (Nat.lt_trichotomy i k) as [G|[G|G]]; [|exact G|]; exfalso; apply le_INR in G; rewrite S_INR in G; lra.
    + exfalso. assert (Eb : b = a + INR n * d) by (unfold d; field; lra). assert (INR k + 1 <= INR n) by (rewrite <- S_INR; apply le_INR; lia). nra.
  - intros ->. split; [nra|]. left. nra.
Qed.
Lemma rebin p a b n w : outer p = (a, b) -> List.length w = n -> histogram (edges p n) (centres (edges p n)) (Some w) = Some w.
Proof.
  intros E Lw. assert (Lc : List.length (centres (edges p n)) = n) by (rewrite centres_length, edges_length; lia).
  unfold histogram, weighted. rewrite Lc, Lw, Nat.eqb_refl, edges_length. replace (n + 1 - 1)%nat with n by lia. f_equal.
  apply (nth_ext _ _ 0 0); [now rewrite map_length, seq_length|]. intros i Hi. rewrite map_length, seq_length in Hi. rewrite nth_map_seq by exact Hi.
  set (c := centres (edges p n)) in *.
  assert (Q : combine c w = map (fun k => (nth k c 0, nth k w 0)) (seq 0 n)).
  { apply (nth_ext _ _ (0, 0) (0, 0)); [now rewrite combine_length, map_length, seq_length, Lc, Lw, Nat.min_id|]. intros k Hk. rewrite combine_length, Lc, Lw, Nat.min_id in Hk. rewrite combine_nth by congruence. now rewrite nth_map_seq. }
  rewrite Q, map_map. cbn [fst snd]. apply (sumr_one _ n i); [exact Hi| |].
  - unfold c. now rewrite (centre_own_bin p a b), Nat.eqb_refl.
  - intros k Hk Hne. unfold c. rewrite (centre_own_bin p a b) by assumption. destruct (Nat.eqb_spec i k); [congruence|reflexivity].
Qed.
(** What is drawn is the smoothed histogram, or the histogram itself when a number of bins is asked for *)
Theorem C72_marginal kde1 x weights span a b s n h0 : range_of span a b -> (forall k l, List.length (kde1 k l) = List.length l) ->
  histogram (edges span n) x weights = Some h0 ->
  (0 < s <= 1 -> n = Z.to_nat (round_even (10 / s)) -> marginal kde1 x weights span s None = Some (edges span n, kde1 10 h0) /\ (10 <= n)%nat /\ Rabs (10 / INR n - s) <= s / (2 * INR n)) /\
  (1 < s -> n = Z.to_nat (round_even s) -> marginal kde1 x weights span s None = Some (edges span n, h0)).
Proof.
  intros Rp Kl E. pose proof (range_outer _ _ _ Rp) as O. split; intros Hs Hn.
  - assert (B0 : 10 <= 10 / s). { apply (Rmult_le_reg_r s); [lra|]. unfold Rdiv. rewrite Rmult_assoc, Rinv_l; lra. }
    pose proof (round_even_near (10 / s)) as B. apply abs_le_inv in B. set (z := round_even (10 / s)) in *.
    assert (Hz : (10 <= z)%Z). { assert (IZR 9 < IZR z) by lra. apply lt_IZR in H. lia. }
    assert (IZ : INR n = IZR z) by (rewrite Hn; apply INR_to_nat; lia). split; [|split].
    + unfold marginal. destruct (Rlt_dec 1 s); [lra|]. destruct (Rle_dec s 0); [lra|]. fold z. rewrite <- Hn. cbv zeta. rewrite E.
      assert (Lk : List.length (kde1 10 h0) = n). { rewrite Kl. destruct (C72_counts_1d span a b n x weights h0 Rp ltac:(lia) E) as [L _]. exact L. }
      rewrite (rebin span a b n _ O Lk). cbn [scaled_weights]. now rewrite (rebin span a b n _ O Lk).
    + lia.
    + rewrite IZ. assert (Hz' : 10 <= IZR z) by now apply IZR_le. replace (10 / IZR z - s) with ((10 / s - IZR z) * (s / IZR z)) by (field; lra).
      rewrite Rabs_mult, (Rabs_pos_eq (s / IZR z)) by (apply Rmult_le_pos; [lra|left; apply Rinv_0_lt_compat; lra]).
      replace (s / (2 * IZR z)) with (1 / 2 * (s / IZR z)) by (field; lra). apply Rmult_le_compat_r; [apply Rmult_le_pos; [lra|left; apply Rinv_0_lt_compat; lra]|]. apply Rabs_le. lra.
  - unfold marginal. destruct (Rlt_dec 1 s); [|lra]. cbv zeta. rewrite <- Hn, E. cbn [scaled_weights]. now rewrite E.
Qed.
Lemma maximum_scale l c : l <> [] -> 0 <= c -> maximum (map (fun v => v * c) l) = maximum l * c.
Proof.
  intros Hl Hc. destruct (maximum_spec l Hl) as [A B]. assert (Hm : map (fun v => v * c) l <> []) by (destruct l; [contradiction|discriminate]). destruct (maximum_spec _ Hm) as [A' B'].
  apply Rle_antisym.
  - apply in_map_iff in B'. destruct B' as (v & <- & Hv). apply Rmult_le_compat_r; [exact Hc|]. now apply A.
  - apply A'. apply in_map_iff. exists (maximum l). split; [reflexivity|exact B].
Qed.
(** A peak asked for is the height of the highest bin *)
Theorem C72_peak kde1 x weights span a b s n h0 p : range_of span a b -> (forall k l, List.length (kde1 k l) = List.length l) ->
  0 < s <= 1 -> n = Z.to_nat (round_even (10 / s)) -> histogram (edges span n) x weights = Some h0 -> 0 < maximum (kde1 10 h0) -> 0 <= p ->
  exists h, marginal kde1 x weights span s (Some p) = Some (edges span n, h) /\ List.length h = n /\ maximum h = p /\ forall i, (i < n)%nat -> nth i h 0 = nth i (kde1 10 h0) 0 * (p / maximum (kde1 10 h0)).
Proof.
  intros Rp Kl Hs Hn E Hm Hp. pose proof (range_outer _ _ _ Rp) as O. destruct (proj1 (C72_marginal kde1 x weights span a b s n h0 Rp Kl E) Hs Hn) as (_ & H10 & _).
  assert (Lk : List.length (kde1 10 h0) = n). { rewrite Kl. destruct (C72_counts_1d span a b n x weights h0 Rp ltac:(lia) E) as [L _]. exact L. }
  set (M := maximum (kde1 10 h0)) in *. set (w := map (fun v => v * p / M) (kde1 10 h0)).
  assert (Ew : w = map (fun v => v * (p / M)) (kde1 10 h0)) by (apply map_ext; intros; unfold Rdiv; ring).
  exists w. assert (Lw : List.length w = n) by (unfold w; now rewrite map_length). split; [|split; [exact Lw|split]].
  - unfold marginal. destruct (Rlt_dec 1 s); [lra|]. destruct (Rle_dec s 0); [lra|]. rewrite <- Hn. cbv zeta. rewrite E, (rebin span a b n _ O Lk). cbn [scaled_weights]. fold M. fold w. now rewrite (rebin span a b n _ O Lw).
  - rewrite Ew, maximum_scale; [fold M; field; lra| |].
    + intros Z. rewrite Z in Lk. cbn in Lk. lia.
    + apply Rmult_le_pos; [exact Hp|left; now apply Rinv_0_lt_compat].
  - intros i Hi. rewrite Ew. rewrite (nth_indep _ 0 ((fun v => v * (p / M)) 0)) by (rewrite map_length; lia). now rewrite (map_nth (fun v => v * (p / M))).
Qed.
(** With a number of bins and without weights it raises *)
Theorem C72_peak_refuted kde1 x span s p : 1 < s -> marginal kde1 x None span s (Some p) = None.
Proof. intros H. unfold marginal. destruct (Rlt_dec 1 s); [|lra]. cbv zeta. now destruct (histogram _ x None). Qed.

(** ** The panels *)
(** One triangle and the diagonal: the sample of the column across, that of the row up *)
Theorem C72_panels n upper i j g : In (i, j, g) (panels n upper) <->
  (i < n /\ j < n)%nat /\ ((i = j /\ g = Marginal i) \/ ((if upper then (i < j)%nat else (j < i)%nat) /\ g = Joint j i)).
Proof.
  unfold panels. rewrite in_flat_map. split.
  - intros (i' & Hi & [K|K]).
    + injection K as -> <- <-. apply in_seq in Hi. split; [lia|now left].
    + apply in_flat_map in K. destruct K as (j' & Hj & K). apply in_seq in Hi, Hj.
      destruct (Nat.leb_spec i' j'), (Nat.leb_spec j' i'), upper; cbn [andb negb] in K; try contradiction; destruct K as [K|[]]; injection K as -> -> <-; (split; [lia|]); right; split; (lia || reflexivity).
  - intros ([Hi Hj] & [[-> ->]|[C ->]]).
    + exists j. split; [apply in_seq; lia|now left].
    + exists i. split; [apply in_seq; lia|]. right. apply in_flat_map. exists j. split; [apply in_seq; lia|].
      destruct upper; (destruct (Nat.leb_spec i j), (Nat.leb_spec j i); cbn [andb negb]; try lia; now left).
Qed.
(** Each panel is drawn once *)
Theorem C72_once n upper : NoDup (panels n upper).
Proof.
  unfold panels. assert (G : forall l, NoDup l -> NoDup (flat_map (fun i => (i, i, Marginal i) :: flat_map (fun j => if (i <=? j)%nat && negb upper then [] else if (j <=? i)%nat && upper then [] else [(i, j, Joint j i)]) (seq 0 n)) l)).
  { assert (R : forall i g, In g (flat_map (fun j => if (i <=? j)%nat && negb upper then [] else if (j <=? i)%nat && upper then [] else [(i, j, Joint j i)]) (seq 0 n)) -> exists j, g = (i, j, Joint j i)).
    { intros i g Hg. apply in_flat_map in Hg. destruct Hg as (j & _ & Hg). exists j. destruct (_ && _); [contradiction|]. destruct (_ && _); [contradiction|]. destruct Hg as [<-|[]]. reflexivity. }
    assert (N1 : forall i m, NoDup m -> NoDup (flat_map (fun j => if (i <=? j)%nat && negb upper then [] else if (j <=? i)%nat && upper then [] else [(i, j, Joint j i)]) m)).
    { intros i m. induction m as [|j m IH]; intros Hm; cbn [flat_map]; [constructor|]. inversion Hm as [|? ? Hj Hm']; subst. specialize (IH Hm').
      destruct ((i <=? j)%nat && negb upper); [exact IH|]. destruct ((j <=? i)%nat && upper); [exact IH|]. cbn [app]. constructor; [|exact IH]. intros K. apply in_flat_map in K. destruct K as (j' & Hj' & K).
      destruct (_ && _) in K; [contradiction|]. destruct (_ && _) in K; [contradiction|]. destruct K as [K|[]]. injection K as -> _. contradiction. }
    induction l as [|i l IH]; intros Hl; cbn [flat_map]; [constructor|]. inversion Hl as [|? ? Hi Hl']; subst. specialize (IH Hl').
    assert (Tail : forall g, In g (flat_map (fun i => (i, i, Marginal i) :: flat_map (fun j => if (i <=? j)%nat && negb upper then [] else if (j <=? i)%nat && upper then [] else [(i, j, Joint j i)]) (seq 0 n)) l) -> exists i', In i' l /\ fst (fst g) = i').
    { intros g Hg. apply in_flat_map in Hg. destruct Hg as (i' & Hi' & [<-|Hg]); exists i'; (split; [exact Hi'|]); [reflexivity|]. destruct (R _ _ Hg) as [j ->]. reflexivity. }
    cbn [app]. constructor.
    - intros K. apply in_app_or in K. destruct K as [K|K]; [destruct (R _ _ K) as [j Ej]; discriminate|]. destruct (Tail _ K) as (i' & Hi' & Ei). cbn in Ei. congruence.
    - generalize (N1 i (seq 0 n) (seq_NoDup n 0)). generalize (R i). generalize (flat_map (fun j => if (i <=? j)%nat && negb upper then [] else if (j <=? i)%nat && upper then [] else [(i, j, Joint j i)]) (seq 0 n)).
      intros m Rm Nm. induction m as [|g m IHm]; [exact IH|]. cbn [app]. inversion Nm as [|? ? Hg Nm']; subst. constructor; [|apply IHm; [intros g' Hg'; apply Rm; now right|exact Nm']].
      intros K. apply in_app_or in K. destruct K as [K|K]; [contradiction|]. destruct (Tail _ K) as (i' & Hi' & Ei). destruct (Rm g (or_introl eq_refl)) as [j ->]. cbn in Ei. congruence. }
  apply G, seq_NoDup.
Qed.
(** Points are overplotted on the joint panels and no others *)
Theorem C72_scatter n upper i j g : In (i, j, g) (scattered n upper) <-> In (i, j, g) (panels n upper) /\ i <> j.
Proof.
  rewrite C72_panels. unfold scattered. rewrite in_flat_map. split.
  - intros (i' & Hi & K). apply in_flat_map in K. destruct K as (j' & Hj & K). apply in_seq in Hi, Hj.
    destruct (Nat.leb_spec i' j'), (Nat.leb_spec j' i'), upper; cbn [andb negb orb] in K; try contradiction; destruct K as [K|[]]; injection K as -> -> <-; (split; [|lia]); (split; [lia|]); right; split; (lia || reflexivity).
  - intros (([Hi Hj] & [[-> _]|[C ->]]) & Hne); [contradiction|]. exists i. split; [apply in_seq; lia|]. apply in_flat_map. exists j. split; [apply in_seq; lia|].
    destruct upper; (destruct (Nat.leb_spec i j), (Nat.leb_spec j i); cbn [andb negb orb]; try lia; now left).
Qed.
(** A panel is hidden when nothing is drawn on it; a label names what is drawn along its axis; every parameter has one *)
Theorem C72_labels labels n upper : List.length labels = n ->
  (forall i j, (i < n)%nat -> (j < n)%nat -> (hidden upper i j = false <-> exists g, In (i, j, g) (panels n upper))) /\
  (forall i j h v, In (i, j, Joint h v) (panels n upper) ->
     (xlabel labels n upper i j = None \/ xlabel labels n upper i j = nth_error labels h) /\ (ylabel labels n upper i j = None \/ ylabel labels n upper i j = nth_error labels v)) /\
  (forall i k, In (i, i, Marginal k) (panels n upper) -> ylabel labels n upper i i = None /\ (xlabel labels n upper i i = None \/ xlabel labels n upper i i = nth_error labels k)) /\
  (forall k, (k < n)%nat -> exists i s, nth_error labels k = Some s /\ xlabel labels n upper i k = Some s) /\
  (forall k, (if upper then k + 1 < n else 0 < k < n)%nat -> exists j s, nth_error labels k = Some s /\ ylabel labels n upper k j = Some s).
Proof.
  intros L. assert (Def : forall k, (k < n)%nat -> exists s, nth_error labels k = Some s). { intros k Hk. destruct (nth_error labels k) eqn:E; [eauto|]. apply nth_error_None in E. lia. }
  split; [|split; [|split; [|split]]].
  - intros i j Hi Hj. split.
    + intros Hh. destruct (Nat.eq_dec i j) as [->|Hne]; [exists (Marginal j); apply C72_panels; auto|]. exists (Joint j i). apply C72_panels. split; [auto|]. right. split; [|reflexivity].
      unfold hidden in Hh. destruct upper, (Nat.ltb_spec j i), (Nat.ltb_spec i j); cbn in Hh; try discriminate; lia.
    + intros (g & Hg). apply C72_panels in Hg. destruct Hg as (_ & [[-> _]|[C _]]); unfold hidden; [rewrite Nat.ltb_irrefl; reflexivity|]. destruct upper, (Nat.ltb_spec j i), (Nat.ltb_spec i j); cbn; try lia; reflexivity.
  - intros i j h v Hg. apply C72_panels in Hg. destruct Hg as (_ & [[_ K]|[_ K]]); [discriminate|]. injection K as -> ->. unfold xlabel, ylabel. destruct (hidden upper i j); [auto|]. split; destruct (_ || _); auto.
  - intros i k Hg. apply C72_panels in Hg. destruct Hg as ((Hi & _) & [[_ K]|[_ K]]); [|discriminate]. injection K as ->. unfold xlabel, ylabel. split.
    + destruct (hidden upper i i); [reflexivity|]. destruct (Nat.eqb_spec (i + 1) n), (Nat.ltb_spec (i + 1) n), (Nat.eqb_spec i 0), (Nat.ltb_spec 0 i), upper; cbn; try lia; reflexivity.
    + destruct (hidden upper i i); [auto|]. destruct (_ || _); auto.
  - intros k Hk. destruct (Def k Hk) as [s Es]. destruct upper.
    + exists k, s. split; [exact Es|]. unfold xlabel, hidden. rewrite Nat.ltb_irrefl, Nat.eqb_refl. cbn. exact Es.
    + exists (n - 1)%nat, s. split; [exact Es|]. unfold xlabel, hidden. replace (n - 1 + 1)%nat with n by lia. rewrite Nat.eqb_refl. destruct (Nat.ltb_spec k (n - 1)), (Nat.ltb_spec (n - 1) k); cbn; try lia; destruct (Nat.eqb_spec k (n - 1)); cbn; exact Es.
  - intros k Hk. destruct upper.
    + destruct (Def k ltac:(lia)) as [s Es]. exists (n - 1)%nat, s. split; [exact Es|]. unfold ylabel, hidden. replace (n - 1 + 1)%nat with n by lia. rewrite Nat.eqb_refl.
      destruct (Nat.ltb_spec (n - 1) k), (Nat.ltb_spec k (n - 1)), (Nat.ltb_spec (k + 1) n); cbn; try lia; exact Es.
    + destruct (Def k ltac:(lia)) as [s Es]. exists 0%nat, s. split; [exact Es|]. unfold ylabel, hidden. cbn [Nat.eqb]. destruct (Nat.ltb_spec 0 k), (Nat.ltb_spec k 0); cbn; try lia; rewrite ?orb_true_r, ?andb_false_r; cbn; exact Es.
Qed.
(** The true values of the other parameters are drawn on the marginal of a parameter, and none on a joint panel *)
Theorem C72_truths_refuted n truths : (forall i j l, In (i, j, l) (truth_lines n truths) -> i = j) /\
  (forall i j t, (j < i < n)%nat -> nth_error truths j = Some (Some t) -> In (i, i, Vertical t) (truth_lines n truths)) /\
  (forall i t, (0 < i < n)%nat -> nth_error truths i = Some (Some t) -> In (i, i, Vertical t) (truth_lines n truths) /\ In (i, i, Horizontal t) (truth_lines n truths)).
Proof.
  unfold truth_lines. split; [|split].
  - intros i j l H. apply in_flat_map in H. destruct H as (k & _ & H). apply in_map_iff in H. destruct H as (l' & E & _). congruence.
  - intros i j t Hj Ht. apply in_flat_map. exists i. split; [apply in_seq; lia|]. apply in_map_iff. exists (Vertical t). split; [reflexivity|]. apply in_or_app. right. apply in_flat_map. exists j. split; [apply in_seq; lia|]. rewrite Ht. now left.
  - intros i t Hi Ht. split; apply in_flat_map; exists i; (split; [apply in_seq; lia|]); apply in_map_iff.
    + exists (Vertical t). split; [reflexivity|]. apply in_or_app. left. rewrite Ht. now left.
    + exists (Horizontal t). split; [reflexivity|]. apply in_or_app. right. apply in_flat_map. exists 0%nat. split; [apply in_seq; lia|]. apply in_or_app. right. rewrite Ht. now left.
Qed.

Print Assumptions C72_counts. Print Assumptions C72_counts_1d. Print Assumptions C72_levels. Print Assumptions C72_nested. Print Assumptions C72_contours.
Print Assumptions C72_hang_refuted. Print Assumptions C72_no_samples_refuted. Print Assumptions C72_smoothing. Print Assumptions C72_one_bin_refuted. Print Assumptions C72_bins_refuted.
Print Assumptions C72_density. Print Assumptions C72_fills. Print Assumptions C72_colours. Print Assumptions C72_default_levels. Print Assumptions C72_coincide_refuted.
Print Assumptions C72_marginal. Print Assumptions C72_peak. Print Assumptions C72_peak_refuted. Print Assumptions C72_panels. Print Assumptions C72_once. Print Assumptions C72_scatter. Print Assumptions C72_labels. Print Assumptions C72_truths_refuted.
