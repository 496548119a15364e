(** Facts about histograms, density levels and the loop that separates equal levels (C72). *)
From Verif Require Import Np.
From Coq Require Import Reals Permutation Lra Lia Psatz.
From Verif Require Import QuantModel QuantFacts CornerModel.
Open Scope R_scope.

(** ** Sums *)
Lemma sumr_app a b : sumr (a ++ b) = sumr a + sumr b.
Proof. unfold sumr. induction a as [|x a IH]; cbn [app fold_right]; [lra|]. rewrite IH. lra. Qed.
Lemma sumr_cons x a : sumr (x :: a) = x + sumr a.
Proof. reflexivity. Qed.
Lemma sumr_perm a b : Permutation a b -> sumr a = sumr b.
Proof. unfold sumr. intros H. induction H; cbn [fold_right]; lra. Qed.
Lemma sumr_nonneg a : (forall x, In x a -> 0 <= x) -> 0 <= sumr a.
Proof. unfold sumr. induction a as [|x a IH]; intros H; cbn [fold_right]; [lra|]. pose proof (H x (or_introl eq_refl)). specialize (IH (fun y Hy => H y (or_intror Hy))). lra. Qed.
Lemma sumr_map_plus {A} (f g : A -> R) l : sumr (map (fun x => f x + g x) l) = sumr (map f l) + sumr (map g l).
Proof. unfold sumr. induction l as [|x l IH]; cbn [map fold_right]; [lra|]. rewrite IH. lra. Qed.
Lemma sumr_map_zero {A} (l : list A) : sumr (map (fun _ => 0) l) = 0.
Proof. unfold sumr. induction l as [|x l IH]; cbn [map fold_right]; [lra|]. rewrite IH. lra. Qed.
Lemma sumr_map_scale {A} c (f : A -> R) l : sumr (map (fun x => c * f x) l) = c * sumr (map f l).
Proof. unfold sumr. induction l as [|x l IH]; cbn [map fold_right]; [lra|]. rewrite IH. lra. Qed.
Lemma sumr_swap {A B} (f : A -> B -> R) l m : sumr (map (fun a => sumr (map (f a) m)) l) = sumr (map (fun b => sumr (map (fun a => f a b) l)) m).
Proof.
  induction l as [|a l IH]; cbn [map].
  - symmetry. apply (sumr_map_zero m).
  - rewrite sumr_cons, IH, <- sumr_map_plus. f_equal.
Qed.
Lemma sumr_concat l : sumr (concat l) = sumr (map sumr l).
Proof. induction l as [|a l IH]; cbn [concat map]; [reflexivity|]. now rewrite sumr_app, sumr_cons, IH. Qed.
Lemma sumr_ext {A} (f g : A -> R) l : (forall x, In x l -> f x = g x) -> sumr (map f l) = sumr (map g l).
Proof. intros H. f_equal. now apply map_ext_in. Qed.
Lemma sumr_one (f : nat -> R) n k v : (k < n)%nat -> f k = v -> (forall i, (i < n)%nat -> i <> k -> f i = 0) -> sumr (map f (seq 0 n)) = v.
Proof.
  intros Hk Hv H0. replace n with (k + S (n - k - 1))%nat by lia. rewrite seq_app, map_app, sumr_app. cbn [seq map]. rewrite sumr_cons, Nat.add_0_l, Hv.
  rewrite (sumr_ext f (fun _ => 0) (seq 0 k)); [|intros x Hx; apply in_seq in Hx; apply H0; lia].
  rewrite (sumr_ext f (fun _ => 0) (seq (S k) (n - k - 1))); [|intros x Hx; apply in_seq in Hx; apply H0; lia].
  rewrite !sumr_map_zero. lra.
Qed.

(** ** Bins *)
Lemma outer_lt p a b : outer p = (a, b) -> a < b /\ a <= Rmin (fst p) (snd p) /\ Rmax (fst p) (snd p) <= b.
Proof.
  unfold outer, sort_pair. assert (Rmin (fst p) (snd p) <= Rmax (fst p) (snd p)) by (apply Rle_trans with (fst p); [apply Rmin_l|apply Rmax_l]).
  destruct (Req_EM_T _ _) as [E|E]; intros K; injection K as <- <-; lra.
Qed.
Lemma edges_length p n : List.length (edges p n) = (n + 1)%nat.
Proof. unfold edges. destruct (outer p). now rewrite map_length, seq_length. Qed.
Lemma edges_nth p n a b k : outer p = (a, b) -> (k <= n)%nat -> nth k (edges p n) 0 = a + INR k * ((b - a) / INR n).
Proof.
  intros E H. unfold edges. rewrite E. apply nth_error_nth. rewrite nth_error_map, (nth_error_nth' _ 0%nat), seq_nth by (rewrite ?seq_length; lia). reflexivity.
Qed.
Lemma in_bin_spec p n a b k x : outer p = (a, b) -> (k < n)%nat ->
  in_bin (edges p n) k x = true <-> a + INR k * ((b - a) / INR n) <= x /\ (x < a + INR (k + 1) * ((b - a) / INR n) \/ ((k + 1)%nat = n /\ x = b)).
Proof.
  intros E H. assert (Hn : 0 < INR n) by (apply lt_0_INR; lia). unfold in_bin. rewrite (edges_nth p n a b k E), (edges_nth p n a b (k + 1) E), edges_length by lia.
  assert (L : (k + 1)%nat = n -> a + INR (k + 1) * ((b - a) / INR n) = b) by (intros ->; field; lra).
  destruct (Rle_dec _ x) as [L1|L1]; [|split; [discriminate|intros [? _]; contradiction]].
  destruct (Rlt_dec x _) as [L2|L2]; [tauto|]. destruct (Nat.eqb_spec (k + 2) (n + 1)) as [Ek|Ek].
  - specialize (L ltac:(lia)). rewrite L in *. destruct (Req_EM_T x b) as [Ex|Ex].
    + split; [intros _|reflexivity]. split; [exact L1|right; split; [lia|exact Ex]].
    + split; [discriminate|]. intros [_ [K|[_ K]]]; contradiction.
  - split; [discriminate|]. intros [_ [K|[K _]]]; [contradiction|lia].
Qed.
(** Every value of the range is in one bin, any other in none *)
Lemma bins_partition p n a b x : outer p = (a, b) -> (0 < n)%nat ->
  (a <= x <= b -> exists k, (k < n)%nat /\ in_bin (edges p n) k x = true /\ forall i, (i < n)%nat -> i <> k -> in_bin (edges p n) i x = false) /\
  (~ a <= x <= b -> forall i, (i < n)%nat -> in_bin (edges p n) i x = false).
Proof.
  intros E Hn. destruct (outer_lt _ _ _ E) as (Hab & _ & _). assert (Hn' : 0 < INR n) by (apply lt_0_INR; lia).
  set (d := (b - a) / INR n). assert (Hd : 0 < d) by (apply Rdiv_lt_0_compat; lra). assert (End : a + INR n * d = b) by (unfold d; field; lra).
  assert (Mono : forall i j, (i <= j)%nat -> a + INR i * d <= a + INR j * d). { intros i j H. apply le_INR in H. apply Rplus_le_compat_l, Rmult_le_compat_r; lra. }
  split.
  - intros [L U]. destruct (Req_EM_T x b) as [Ex|Ex].
    + exists (n - 1)%nat. split; [lia|]. split.
      * apply (in_bin_spec p n a b); [exact E|lia|]. fold d. split; [rewrite Ex, <- End; apply Mono; lia|]. right. split; [lia|exact Ex].
      * intros i Hi Hk. apply not_true_is_false. intros K. apply (in_bin_spec p n a b) in K; [|exact E|exact Hi]. fold d in K. destruct K as [_ [K|[K _]]]; [|lia].
        pose proof (Mono (i + 1)%nat n ltac:(lia)). lra.
    + set (v := (x - a) / d). assert (Hv : 0 <= v) by (unfold v; apply Rmult_le_pos; [lra|left; apply Rinv_0_lt_compat; lra]).
      assert (Xv : x = a + v * d) by (unfold v; field; lra).
      destruct (floorn_spec v Hv) as [F1 F2]. set (k := floorn v) in *.
      assert (Kx : a + INR k * d <= x) by (rewrite Xv; apply Rplus_le_compat_l, Rmult_le_compat_r; lra).
      assert (Kx' : x < a + INR (k + 1) * d). { rewrite plus_INR. cbn [INR]. rewrite Xv. apply Rplus_lt_compat_l, Rmult_lt_compat_r; lra. }
      assert (Hk : (k < n)%nat). { destruct (Nat.lt_ge_cases k n) as [|G]; [assumption|]. exfalso. pose proof (Mono n k G). lra. }
      exists k. split; [exact Hk|]. split; [apply (in_bin_spec p n a b); [exact E|exact Hk|]; fold d; tauto|].
      intros i Hi Hne. apply not_true_is_false. intros K. apply (in_bin_spec p n a b) in K; [|exact E|exact Hi]. fold d in K. destruct K as [K1 [K2|[_ K2]]]; [|contradiction].
      destruct (Nat.lt_ge_cases i k) as [G|G]; [pose proof (Mono (i + 1)%nat k ltac:(lia))|pose proof (Mono (k + 1)%nat i ltac:(lia))]; lra.
  - intros N i Hi. apply not_true_is_false. intros K. apply N. apply (in_bin_spec p n a b) in K; [|exact E|exact Hi]. fold d in K.
    pose proof (Mono 0%nat i ltac:(lia)) as M0. cbn [INR] in M0. pose proof (Mono (i + 1)%nat n ltac:(lia)). destruct K as [K1 [K2|[_ K2]]]; lra.
Qed.
Definition within (a b x : R) : bool := in_range a b x.
Lemma within_spec a b x : within a b x = true <-> a <= x <= b.
Proof. unfold within, in_range. destruct (Rle_dec a x), (Rle_dec x b); split; try discriminate; try tauto; lra. Qed.
Lemma bins_sum p n a b x w : outer p = (a, b) -> (0 < n)%nat ->
  sumr (map (fun k => if in_bin (edges p n) k x then w else 0) (seq 0 n)) = if within a b x then w else 0.
Proof.
  intros E Hn. destruct (bins_partition p n a b x E Hn) as [P Q]. destruct (within a b x) eqn:W.
  - apply within_spec in W. destruct (P W) as (k & Hk & B & O). apply (sumr_one _ n k); [exact Hk|now rewrite B|]. intros i Hi Hne. now rewrite O.
  - assert (N : ~ a <= x <= b) by (intros K; apply within_spec in K; congruence).
    rewrite (sumr_ext _ (fun _ => 0)); [apply sumr_map_zero|]. intros i Hi. apply in_seq in Hi. now rewrite Q by (try assumption; lia).
Qed.

(** ** Density levels *)
Definition descends (d : list R) : Prop := forall a x b y c, d = (a ++ x :: b ++ y :: c)%list -> y <= x.
Lemma sorted_app_cons : forall (s : list R) a x b y c, sorted s -> s = (a ++ x :: b ++ y :: c)%list -> x <= y.
Proof.
  intros s a x b y c Hs ->. specialize (Hs (List.length a) (List.length a + 1 + List.length b)%nat ltac:(lia)).
  rewrite !app_length in Hs. cbn [List.length] in Hs. rewrite app_length in Hs. cbn [List.length] in Hs. specialize (Hs ltac:(lia)).
  rewrite app_nth2, Nat.sub_diag in Hs by lia. cbn [nth] in Hs. rewrite app_nth2 in Hs by lia.
  replace (List.length a + 1 + List.length b - List.length a)%nat with (S (List.length b)) in Hs by lia. cbn [nth] in Hs.
  rewrite app_nth2, Nat.sub_diag in Hs by lia. exact Hs.
Qed.
Lemma descending_spec l : descends (descending l) /\ Permutation (descending l) l.
Proof.
  split.
  - intros a x b y c E. apply (sorted_app_cons (sort l) (rev c) y (rev b) x (rev a) (sort_sorted l)).
    unfold descending in E. rewrite <- (rev_involutive (sort l)), E, rev_app_distr. cbn [rev]. rewrite rev_app_distr. cbn [rev]. rewrite <- !app_assoc. reflexivity.
  - unfold descending. rewrite <- Permutation_rev. apply sort_perm.
Qed.
Lemma mask_split tot v : forall d acc, (forall x, In x d -> 0 <= x) -> 0 < tot ->
  exists a b, d = (a ++ b)%list /\
    masked d (map (fun s => if Req_EM_T tot 0 then false else if Rle_dec (s / tot) v then true else false) (cumsum_from acc d)) = a /\
    (a <> [] -> acc + sumr a <= v * tot) /\ (forall x b', b = x :: b' -> v * tot < acc + sumr a + x).
Proof.
  assert (Ok : forall s, 0 < tot -> (s / tot <= v <-> s <= v * tot)).
  { intros s Ht. split; intros H; [apply (Rmult_le_compat_r tot) in H; [|lra]; unfold Rdiv in H; rewrite Rmult_assoc, Rinv_l in H; lra|].
    apply (Rmult_le_reg_r tot); [exact Ht|]. unfold Rdiv. rewrite Rmult_assoc, Rinv_l; lra. }
  induction d as [|x d IH]; intros acc Hd Ht.
  - exists [], []. cbn. repeat split; try easy.
  - cbn [cumsum_from map masked]. destruct (Req_EM_T tot 0) as [|_]; [lra|].
    pose proof (Hd x (or_introl eq_refl)) as Hx. destruct (Rle_dec ((acc + x) / tot) v) as [L|L].
    + destruct (IH (acc + x) (fun y Hy => Hd y (or_intror Hy)) Ht) as (a & b & E & M & A & B). exists (x :: a), b.
      split; [now rewrite E|]. split. { f_equal. rewrite <- M. reflexivity. }
      apply (Ok _ Ht) in L. rewrite sumr_cons. split.
      * intros _. destruct a as [|y a]; [unfold sumr; cbn; lra|]. specialize (A ltac:(discriminate)). lra.
      * intros z b' Eb. specialize (B z b' Eb). lra.
    + exists [], (x :: d). split; [reflexivity|]. split.
      * assert (F : forall d acc', acc + x <= acc' -> (forall y, In y d -> 0 <= y) ->
          masked d (map (fun s => if Rle_dec (s / tot) v then true else false) (cumsum_from acc' d)) = []).
        { induction d0 as [|y d0 IH0]; intros acc' Ha Hd0; [reflexivity|]. cbn [cumsum_from map masked].
          pose proof (Hd0 y (or_introl eq_refl)). destruct (Rle_dec ((acc' + y) / tot) v) as [L0|L0].
          - exfalso. apply L. apply (Ok _ Ht). apply (Ok _ Ht) in L0. lra.
          - apply IH0; [lra|intros z Hz; apply Hd0; now right]. }
        apply F; [lra|intros y Hy; apply Hd; now right].
      * split; [congruence|]. intros y b' Eb. injection Eb as <- <-. unfold sumr. cbn.
        destruct (Rlt_le_dec (v * tot) (acc + 0 + x)) as [|G]; [assumption|]. exfalso. apply L. apply (Ok _ Ht). lra.
Qed.
(** The split of the descending densities at a level *)
Lemma level_split d v : (forall x, In x d -> 0 <= x) -> 0 < sumr d ->
  exists a b, d = (a ++ b)%list /\ level_value d v = (match a with [] => hd 0 d | _ => last a 0 end) /\
    (a <> [] -> sumr a <= v * sumr d) /\ (forall x b', b = x :: b' -> v * sumr d < sumr a + x).
Proof.
  intros Hd Ht. destruct (mask_split (sumr d) v d 0 Hd Ht) as (a & b & E & M & A & B). exists a, b. split; [exact E|]. split.
  - unfold level_value, below. cbv zeta. rewrite M. now destruct a.
  - rewrite !Rplus_0_l in *. split; [intros K; specialize (A K); lra|]. intros x b' Eb. specialize (B x b' Eb). lra.
Qed.
Lemma last_split (a : list R) : a <> [] -> exists a', a = (a' ++ [last a 0])%list.
Proof. intros H. exists (removelast a). now apply app_removelast_last. Qed.
Lemma descends_le d a x b : descends d -> d = (a ++ x :: b)%list -> (forall y, In y b -> y <= x) /\ (forall y, In y a -> x <= y).
Proof.
  intros H E. split; intros y Hy; apply in_split in Hy; destruct Hy as (l1 & l2 & Ey).
  - apply (H a x l1 y l2). now rewrite E, Ey.
  - apply (H l1 y l2 x b). rewrite E, Ey, <- app_assoc. reflexivity.
Qed.
Definition gtb (c x : R) : bool := if Rlt_dec c x then true else false.
Definition geb (c x : R) : bool := if Rle_dec c x then true else false.
Lemma filter_sum_le f a : (forall x, In x a -> 0 <= x) -> sumr (filter f a) <= sumr a.
Proof.
  induction a as [|x a IH]; intros H; cbn [filter]; [lra|]. pose proof (H x (or_introl eq_refl)). specialize (IH (fun y Hy => H y (or_intror Hy))). destruct (f x); rewrite ?sumr_cons; lra.
Qed.
Lemma filter_none {A} (f : A -> bool) a : (forall x, In x a -> f x = false) -> filter f a = [].
Proof. induction a as [|x a IH]; intros H; cbn [filter]; [reflexivity|]. rewrite (H x (or_introl eq_refl)). apply IH. intros y Hy. apply H. now right. Qed.
Lemma filter_all {A} (f : A -> bool) a : (forall x, In x a -> f x = true) -> filter f a = a.
Proof. induction a as [|x a IH]; intros H; cbn [filter]; [reflexivity|]. rewrite (H x (or_introl eq_refl)). f_equal. apply IH. intros y Hy. apply H. now right. Qed.
(** What a level encloses, for densities in descending order *)
Lemma level_encloses d v c : descends d -> (forall x, In x d -> 0 <= x) -> 0 < sumr d -> 0 <= v -> c = level_value d v ->
  In c d /\ sumr (filter (gtb c) d) <= v * sumr d /\
  (forall h, In h d -> h < c -> v * sumr d < sumr (filter (geb h) d)) /\ (v < 1 -> 0 < c).
Proof.
  intros Ds Hd Ht Hv Ec. destruct (level_split d v Hd Ht) as (a & b & E & L & A & B). rewrite <- Ec in L. clear Ec.
  assert (Hna : forall x, In x a -> 0 <= x) by (intros x Hx; apply Hd; rewrite E; apply in_or_app; now left).
  assert (Hnb : forall x, In x b -> 0 <= x) by (intros x Hx; apply Hd; rewrite E; apply in_or_app; now right).
  assert (Up : forall h x b', b = x :: b' -> In h d -> (forall y, In y a -> h <= y) -> h <= x -> v * sumr d < sumr (filter (geb h) d)).
  { intros h x b' Eb Ih Ha Hx. rewrite E at 2. rewrite filter_app, sumr_app, Eb. cbn [filter]. rewrite (filter_all _ a).
    - unfold geb at 1. destruct (Rle_dec h x); [|contradiction]. rewrite sumr_cons. specialize (B x b' Eb).
      assert (0 <= sumr (filter (geb h) b')) by (apply sumr_nonneg; intros y Hy; apply filter_In in Hy; apply Hnb; rewrite Eb; right; tauto). lra.
    - intros y Hy. unfold geb. destruct (Rle_dec h y); [reflexivity|]. exfalso. specialize (Ha y Hy). contradiction. }
  destruct a as [|a0 a1].
  - cbn [app] in E. subst b. destruct d as [|x d']; [unfold sumr in Ht; cbn in Ht; lra|]. cbn [hd] in L. subst c.
    destruct (descends_le _ [] x d' Ds eq_refl) as [D1 _].
    split; [now left|]. split; [|split].
    + rewrite filter_none; [unfold sumr at 1; cbn [fold_right]; apply Rmult_le_pos; lra|]. intros y [<-|Hy]; unfold gtb; destruct (Rlt_dec _ _); try reflexivity; exfalso; [lra|]. specialize (D1 y Hy). lra.
    + intros h Ih Hh. apply (Up h x d' eq_refl Ih); [intros y []|lra].
    + intros _. destruct (Rle_lt_dec x 0) as [G|G]; [|exact G]. exfalso. assert (Z : sumr (x :: d') <= 0); [|lra].
      clear - D1 G. assert (forall l, (forall y, In y l -> y <= 0) -> sumr l <= 0). { induction l as [|y l IH]; intros H; [unfold sumr; cbn; lra|]. rewrite sumr_cons. pose proof (H y (or_introl eq_refl)). specialize (IH (fun z Hz => H z (or_intror Hz))). lra. }
      apply H. intros y [<-|Hy]; [exact G|]. specialize (D1 y Hy). lra.
  - set (a := a0 :: a1) in *. assert (Na : a <> []) by discriminate. destruct (last_split a Na) as [a' Ea]. change (c = last a 0) in L. rewrite <- L in Ea.
    assert (E' : d = (a' ++ c :: b)%list) by (rewrite E, Ea at 1; rewrite <- app_assoc; reflexivity).
    destruct (descends_le _ a' c b Ds E') as [D1 D2]. specialize (A Na).
    assert (Hac : forall y, In y a -> c <= y). { intros y Hy. rewrite Ea in Hy. apply in_app_or in Hy. destruct Hy as [Hy|[<-|[]]]; [now apply D2|lra]. }
    split; [rewrite E'; apply in_or_app; right; now left|]. split; [|split].
    + rewrite E at 1. rewrite filter_app, sumr_app, (filter_none _ b).
      * pose proof (filter_sum_le (gtb c) a Hna). unfold sumr at 2. cbn [fold_right]. lra.
      * intros y Hy. unfold gtb. destruct (Rlt_dec c y); [|reflexivity]. specialize (D1 y Hy). lra.
    + intros h Ih Hh. assert (Ib : In h b). { rewrite E in Ih. apply in_app_or in Ih. destruct Ih as [Ih|Ih]; [|exact Ih]. specialize (Hac h Ih). lra. }
      destruct b as [|x b']; [contradiction|]. apply (Up h x b' eq_refl Ih).
      * intros y Hy. specialize (Hac y Hy). lra.
      * destruct Ib as [->|Ib]; [lra|]. destruct (descends_le d a x b' Ds E) as [D3 _]. now apply D3.
    + intros Hv1. destruct (Rle_lt_dec c 0) as [G|G]; [|exact G]. exfalso.
      assert (Zb : sumr b <= 0). { clear - D1 G. induction b as [|y l IH]; [unfold sumr; cbn; lra|]. rewrite sumr_cons. pose proof (D1 y (or_introl eq_refl)). specialize (IH (fun z Hz => D1 z (or_intror Hz))). lra. }
      assert (S : sumr d = sumr a + sumr b) by (rewrite E, sumr_app; reflexivity). nra.
Qed.
Lemma level_antitone d v v' : descends d -> (forall x, In x d -> 0 <= x) -> 0 < sumr d -> v <= v' -> level_value d v' <= level_value d v.
Proof.
  intros Ds Hd Ht Hv. destruct (level_split d v Hd Ht) as (a & b & E & L & A & B). destruct (level_split d v' Hd Ht) as (a' & b' & E' & L' & A' & B').
  rewrite L, L'. clear L L'.
  assert (Top : forall x, In x d -> x <= hd 0 d). { intros x Hx. destruct d as [|y d]; [contradiction|]. cbn [hd]. destruct Hx as [<-|Hx]; [lra|]. apply (descends_le _ [] y d Ds eq_refl). exact Hx. }
  destruct a as [|x a].
  - apply Top. destruct a' as [|y a']; [destruct d as [|z d]; [unfold sumr in Ht; cbn in Ht; lra|now left]|].
    rewrite E'. apply in_or_app. left. destruct (last_split (y :: a') ltac:(discriminate)) as [w Ew]. rewrite Ew at 2. apply in_or_app. right. now left.
  - destruct a' as [|y a'].
    + exfalso. cbn [app] in E'. assert (Hx : b' = x :: (a ++ b)%list) by (rewrite <- E', E; reflexivity). specialize (B' x _ Hx). unfold sumr at 2 in B'. cbn [fold_right] in B'.
      specialize (A ltac:(discriminate)). rewrite sumr_cons in A. assert (0 <= sumr a) by (apply sumr_nonneg; intros z Hz; apply Hd; rewrite E; apply in_or_app; left; now right).
      assert (v * sumr d <= v' * sumr d) by (apply Rmult_le_compat_r; lra). lra.
    + (* the longer prefix ends with the smaller value *)
      set (p := x :: a) in *. set (q := y :: a') in *. assert (Np : p <> []) by discriminate. assert (Nq : q <> []) by discriminate.
      destruct (Nat.le_gt_cases (List.length p) (List.length q)) as [G|G].
      * assert (Pre : exists r, q = (p ++ r)%list).
        { exists (skipn (List.length p) q). rewrite <- (firstn_skipn (List.length p) q) at 1. f_equal.
          assert (F : firstn (List.length p) d = p) by (rewrite E, firstn_app, Nat.sub_diag, firstn_all; cbn; now rewrite app_nil_r).
          rewrite <- F at 2. rewrite E', firstn_app. replace (List.length p - List.length q)%nat with 0%nat by lia. cbn [firstn]. now rewrite app_nil_r. }
        destruct Pre as [r Er]. destruct (last_split p Np) as [p' Ep]. destruct r as [|z r].
        { rewrite app_nil_r in Er. rewrite Er. lra. }
        destruct (last_split (z :: r) ltac:(discriminate)) as [r' Er'].
        assert (Lq : last q 0 = last (z :: r) 0). { rewrite Er, Er'. rewrite app_assoc, !last_last. reflexivity. }
        rewrite Lq. apply (Ds p' (last p 0) r' (last (z :: r) 0) b'). rewrite E', Er. rewrite Ep at 1. rewrite Er' at 1. rewrite <- !app_assoc. reflexivity.
      * exfalso. assert (Pre : exists z r, p = (q ++ z :: r)%list).
        { assert (F : firstn (List.length q) p = q).
          { assert (F0 : firstn (List.length q) d = q) by (rewrite E', firstn_app, Nat.sub_diag, firstn_all; cbn; now rewrite app_nil_r).
            rewrite <- F0 at 2. rewrite E, firstn_app. replace (List.length q - List.length p)%nat with 0%nat by lia. cbn [firstn]. now rewrite app_nil_r. }
          destruct (skipn (List.length q) p) as [|z r] eqn:Es.
          - exfalso. assert (List.length (skipn (List.length q) p) = 0%nat) by now rewrite Es. rewrite skipn_length in H. lia.
          - exists z, r. rewrite <- (firstn_skipn (List.length q) p), F, Es. reflexivity. }
        destruct Pre as (z & r & Ep). specialize (A Np). rewrite Ep, sumr_app, sumr_cons in A.
        assert (Hb : b' = z :: (r ++ b)%list). { rewrite E, Ep, <- app_assoc in E'. apply app_inv_head in E'. now rewrite <- E'. }
        specialize (B' z _ Hb). assert (0 <= sumr r) by (apply sumr_nonneg; intros t Ht'; apply Hd; rewrite E, Ep; apply in_or_app; left; apply in_or_app; right; now right).
        assert (v * sumr d <= v' * sumr d) by (apply Rmult_le_compat_r; lra). lra.
Qed.

(** ** The loop *)
(** [runs v k h w]: the loop takes v to w in k rounds, h of them at the head *)
Inductive runs : list R -> nat -> nat -> list R -> Prop :=
| runs_done v : untie_step v = None -> runs v 0 0 v
| runs_step v v' k h w : untie_step v = Some v' -> runs v' k h w -> runs v (S k) (if Req_EM_T (hd 0 v) (hd 0 v') then h else S h) w.
Lemma runs_untie v k h w : runs v k h w -> forall n, (k <= n)%nat -> untie n v = Some w.
Proof.
  induction 1 as [v Hv|v v' k h w Hv H IH]; intros n Hn.
  - destruct n; cbn [untie]; now rewrite Hv.
  - destruct n as [|n]; [lia|]. cbn [untie]. rewrite Hv. apply IH. lia.
Qed.
Lemma untie_cons a b t : untie_step (a :: b :: t) = if Req_EM_T a b then Some (a * shrink :: b :: t) else match untie_step (b :: t) with Some t' => Some (a :: t') | None => None end.
Proof. reflexivity. Qed.
Lemma step_length v v' : untie_step v = Some v' -> List.length v' = List.length v.
Proof.
  revert v'. induction v as [|a [|b t] IH]; intros v' H; [discriminate H|discriminate H|]. rewrite untie_cons in H. destruct (Req_EM_T a b); [injection H as <-; reflexivity|].
  destruct (untie_step (b :: t)) as [t'|] eqn:E; [|discriminate]. injection H as <-. cbn [List.length]. f_equal. now apply IH.
Qed.
Lemma shrink_pos : 0 < shrink < 1. Proof. unfold shrink. lra. Qed.
Lemma step_pos v v' : (forall x, In x v -> 0 < x) -> untie_step v = Some v' -> forall x, In x v' -> 0 < x.
Proof.
  revert v'. induction v as [|a [|b t] IH]; intros v' Hp H; [discriminate H|discriminate H|]. rewrite untie_cons in H. pose proof shrink_pos as Sp. destruct (Req_EM_T a b).
  - injection H as <-. intros x [<-|Hx]; [apply Rmult_lt_0_compat; [apply Hp; now left|lra]|apply Hp; now right].
  - destruct (untie_step (b :: t)) as [t'|] eqn:E; [|discriminate]. injection H as <-. intros x [<-|Hx]; [apply Hp; now left|]. apply (IH t'); auto. intros y Hy. apply Hp. now right.
Qed.
(** One more element in front *)
Lemma runs_cons l k h w : runs l k h w -> l <> [] -> (forall x, In x l -> 0 < x) -> forall a, 0 < a ->
  exists c, runs (a :: l) (k + c) c (a * shrink ^ c :: w) /\ (c <= h + (if Req_EM_T a (hd 0%R l) then 1 else 0))%nat.
Proof.
  pose proof shrink_pos as Sp. induction 1 as [l Hl|l l' k h w Hl H IH]; intros Nl Hp a Ha.
  - destruct l as [|b t]; [contradiction|]. cbn [hd].
    assert (Stop : forall a, a <> b -> untie_step (a :: b :: t) = None). { intros a0 Hne. rewrite untie_cons. destruct (Req_EM_T a0 b); [contradiction|]. now rewrite Hl. }
    destruct (Req_EM_T a b) as [E|E].
    + exists 1%nat. split; [|lia]. assert (Hn : a * shrink <> b) by nra.
      assert (St : untie_step (a :: b :: t) = Some (a * shrink :: b :: t)) by (rewrite untie_cons; destruct (Req_EM_T a b); [reflexivity|contradiction]).
      pose proof (runs_step _ _ _ _ _ St (runs_done _ (Stop _ Hn))) as K. cbn [hd] in K. destruct (Req_EM_T a (a * shrink)) as [X|X]; [nra|].
      replace (a * shrink ^ 1) with (a * shrink) by ring. exact K.
    + exists 0%nat. split; [|lia]. replace (a * shrink ^ 0) with a by ring. apply runs_done. now apply Stop.
  - assert (Nl' : l' <> []) by (intros ->; apply step_length in Hl; destruct l; [contradiction|discriminate Hl]).
    assert (Hp' : forall x, In x l' -> 0 < x) by now apply (step_pos l).
    specialize (IH Nl' Hp'). destruct l as [|b t]; [contradiction|]. destruct l' as [|b' t']; [contradiction|]. cbn [hd] in *.
    assert (Hb : 0 < b) by (apply Hp; now left).
    assert (Pass : forall a, a <> b -> untie_step (a :: b :: t) = Some (a :: b' :: t')). { intros a0 Hne. rewrite untie_cons. destruct (Req_EM_T a0 b); [contradiction|]. now rewrite Hl. }
    destruct (Req_EM_T a b) as [E|E].
    + assert (Hn : a * shrink <> b) by nra. assert (Ha' : 0 < a * shrink) by nra.
      destruct (IH (a * shrink) Ha') as (c & K & Hc). exists (S c). split.
      * assert (St : untie_step (a :: b :: t) = Some (a * shrink :: b :: t)) by (rewrite untie_cons; destruct (Req_EM_T a b); [reflexivity|contradiction]).
        pose proof (runs_step _ _ _ _ _ (Pass _ Hn) K) as K1. cbn [hd] in K1. destruct (Req_EM_T (a * shrink) (a * shrink)) as [_|X]; [|contradiction].
        pose proof (runs_step _ _ _ _ _ St K1) as K2. cbn [hd] in K2. destruct (Req_EM_T a (a * shrink)) as [X|_]; [nra|].
        replace (S k + S c)%nat with (S (S (k + c))) by lia. replace (a * shrink ^ S c) with (a * shrink * shrink ^ c) by (cbn [pow]; ring). exact K2.
      * destruct (Req_EM_T b b') as [Eb|Eb].
        -- destruct (Req_EM_T (a * shrink) b'); [exfalso; nra|]. lia.
        -- destruct (Req_EM_T (a * shrink) b'); lia.
    + destruct (IH a Ha) as (c & K & Hc). exists c. split.
      * pose proof (runs_step _ _ _ _ _ (Pass _ E) K) as K1. cbn [hd] in K1. destruct (Req_EM_T a a) as [_|X]; [|contradiction]. exact K1.
      * destruct (Req_EM_T b b') as [Eb|Eb].
        -- destruct (Req_EM_T a b'); [exfalso; congruence|]. lia.
        -- destruct (Req_EM_T a b'); lia.
Qed.
(** The loop ends: n(n-1)/2 rounds are enough, and entry i is made smaller at most n-1-i times *)
Lemma runs_exists v : (forall x, In x v -> 0 < x) -> exists k h w, runs v k h w /\ (2 * k <= List.length v * (List.length v - 1))%nat /\ (h <= List.length v - 1)%nat /\
  List.length w = List.length v /\ forall i, (i < List.length v)%nat -> exists c, (c <= List.length v - 1 - i)%nat /\ nth i w 0 = nth i v 0 * shrink ^ c.
Proof.
  induction v as [|a v IH]; intros Hp.
  - exists 0%nat, 0%nat, []. split; [now apply runs_done|]. cbn. repeat split; try lia.
  - destruct v as [|b t].
    + exists 0%nat, 0%nat, [a]. split; [now apply runs_done|]. cbn. repeat split; try lia. intros i Hi. assert (i = 0%nat) by lia. subst i. exists 0%nat. split; [lia|]. cbn. ring.
    + destruct IH as (k & h & w & K & Lk & Lh & Lw & Wn); [intros x Hx; apply Hp; now right|].
      destruct (runs_cons _ _ _ _ K ltac:(discriminate) (fun x Hx => Hp x (or_intror Hx)) a (Hp a (or_introl eq_refl))) as (c & K' & Hc).
      assert (Hc' : (c <= S h)%nat) by (destruct (Req_EM_T a (hd 0 (b :: t))); lia).
      exists (k + c)%nat, c, (a * shrink ^ c :: w). split; [exact K'|]. set (n := List.length (b :: t)) in *. change (List.length (a :: b :: t)) with (S n).
      assert (Pn : (1 <= n)%nat) by (unfold n; cbn; lia).
      split; [nia|]. split; [lia|]. split; [cbn [List.length]; now rewrite Lw|]. intros [|i] Hi; cbn [nth].
      * exists c. split; [lia|reflexivity].
      * destruct (Wn i ltac:(lia)) as (c' & Lc' & E). exists c'. split; [lia|exact E].
Qed.
(** Two zeros side by side keep it going *)
Lemma stuck_step v : (exists a b, v = (a ++ 0 :: 0 :: b)%list) -> exists v', untie_step v = Some v' /\ exists a b, v' = (a ++ 0 :: 0 :: b)%list.
Proof.
  intros (a & b & ->). induction a as [|x a IH]; cbn [app].
  - rewrite untie_cons. destruct (Req_EM_T 0 0); [|lra]. eexists. split; [reflexivity|]. exists [], b. cbn. f_equal. ring.
  - destruct IH as (v' & S & a' & b' & ->). destruct a as [|y a]; cbn [app] in *.
    + rewrite untie_cons. destruct (Req_EM_T x 0).
      * eexists. split; [reflexivity|]. exists [x * shrink], b. reflexivity.
      * rewrite S. eexists. split; [reflexivity|]. exists (x :: a'), b'. reflexivity.
    + rewrite untie_cons. destruct (Req_EM_T x y).
      * eexists. split; [reflexivity|]. exists (x * shrink :: y :: a), b. reflexivity.
      * rewrite S. eexists. split; [reflexivity|]. exists (x :: a'), b'. reflexivity.
Qed.
Lemma stuck n : forall v, (exists a b, v = (a ++ 0 :: 0 :: b)%list) -> untie n v = None.
Proof.
  induction n as [|n IH]; intros v H; destruct (stuck_step v H) as (v' & S & H'); cbn [untie]; rewrite S; [reflexivity|]. now apply IH.
Qed.
