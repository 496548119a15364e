(** C53: percentiles and weighted quantiles of samples. *)
From Coq Require Import Reals Lra Permutation.
From Verif Require Import Np NpFacts QuantModel QuantFacts.
Open Scope R_scope.

Lemma in_range_spec a b x : in_range a b x = true <-> a <= x <= b.
Proof. unfold in_range. destruct (Rle_dec a x), (Rle_dec x b); split; intros; try discriminate; auto; lra. Qed.
Lemma sort_ne x : x <> [] -> sort x <> [].
Proof. intros H E. apply H. apply length_zero_iff_nil. rewrite <- (sort_length x), E. reflexivity. Qed.
Lemma percentiles_spec x qs vs : percentiles x qs = Some vs <-> x <> [] /\ (forall q, In q qs -> 0 <= q <= 100) /\ vs = map (percentile x) qs.
Proof.
  unfold percentiles. destruct x as [|x0 x]; [split; [discriminate|intros (H & _); congruence]|]. destruct (forallb (in_range 0 100) qs) eqn:E.
  - rewrite forallb_forall in E. split; [intros H; injection H as <-|intros (_ & _ & ->); reflexivity]. split; [discriminate|]. split; [|reflexivity]. intros q Hq. now apply in_range_spec, E.
  - split; [discriminate|]. intros (_ & H & _). exfalso. assert (forallb (in_range 0 100) qs = true); [|congruence]. apply forallb_forall. intros q Hq. now apply in_range_spec, H.
Qed.
Lemma index_range n q : 0 <= q <= 100 -> 0 <= INR n * (q / 100) <= INR n.
Proof. intros H. pose proof (pos_INR n). assert (0 <= q / 100 <= 1) by lra. nra. Qed.
Lemma percentile_between x q : x <> [] -> 0 <= q <= 100 -> let v := INR (List.length x - 1) * (q / 100) in between (sort x) (floorn v) (v - INR (floorn v)) (percentile x q).
Proof. intros Hx Hq. unfold percentile. apply at_pos_between; [now apply sort_ne|]. rewrite sort_length. now apply index_range. Qed.

(** The percentiles are found for samples and percentiles from 0 to 100; each is the value
    at its fractional position in the sorted samples, and they come in the order asked for. *)
Theorem C53_percentile : forall x qs, ((exists vs, percentiles x qs = Some vs) <-> x <> [] /\ forall q, In q qs -> 0 <= q <= 100) /\
  forall vs, percentiles x qs = Some vs -> List.length vs = List.length qs /\
    exists s, Permutation s x /\ sorted s /\ forall k q v, nth_error qs k = Some q -> nth_error vs k = Some v ->
      exists j t, between s j t v /\ INR j + t = INR (List.length x - 1) * (q / 100).
Proof.
  intros x qs. split.
  - split; [intros (vs & H); apply percentiles_spec in H; tauto|]. intros [H1 H2]. exists (map (percentile x) qs). now apply percentiles_spec.
  - intros vs H. apply percentiles_spec in H. destruct H as (Hx & Hq & ->). split; [apply map_length|]. exists (sort x). split; [apply sort_perm|]. split; [apply sort_sorted|].
    intros k q v Hk Hv. rewrite nth_error_map, Hk in Hv. injection Hv as <-. exists (floorn (INR (List.length x - 1) * (q / 100))), (INR (List.length x - 1) * (q / 100) - INR (floorn (INR (List.length x - 1) * (q / 100)))).
    split; [|ring]. apply percentile_between; [exact Hx|]. apply Hq. exact (nth_error_In _ _ Hk).
Qed.
(** The order of the samples does not matter. *)
Theorem C53_order : forall x y qs, Permutation x y -> percentiles x qs = percentiles y qs.
Proof.
  intros x y qs P. assert (Es : sort x = sort y) by (apply sorted_unique; auto using sort_sorted; rewrite !sort_perm; exact P). pose proof (Permutation_length P) as L.
  unfold percentiles, percentile. rewrite Es, L. destruct x, y; auto; discriminate.
Qed.
(** A larger percentile is no smaller a value. *)
Theorem C53_monotone : forall x qs vs i j q q' v v', percentiles x qs = Some vs -> nth_error qs i = Some q -> nth_error qs j = Some q' -> nth_error vs i = Some v -> nth_error vs j = Some v' ->
  q <= q' -> v <= v'.
Proof.
  intros x qs vs i j q q' v v' H Hi Hj Vi Vj Hqq. apply percentiles_spec in H. destruct H as (Hx & Hq & ->). rewrite nth_error_map, Hi in Vi. rewrite nth_error_map, Hj in Vj. injection Vi as <-. injection Vj as <-.
  pose proof (Hq q (nth_error_In _ _ Hi)) as A. pose proof (Hq q' (nth_error_In _ _ Hj)) as B. destruct (index_range (List.length x - 1) q A) as [I1 I2]. destruct (index_range (List.length x - 1) q' B) as [I3 I4]. unfold percentile.
  apply at_pos_mono; [now apply sort_ne|apply sort_sorted|exact I1| |now rewrite sort_length]. pose proof (pos_INR (List.length x - 1)). apply Rmult_le_compat_l; lra.
Qed.
(** The 0th percentile is the smallest sample and the 100th the largest. *)
Theorem C53_ends : forall x, x <> [] -> exists a b, percentiles x [0; 100] = Some [a; b] /\ In a x /\ In b x /\ forall y, In y x -> a <= y <= b.
Proof.
  intros x Hx. exists (percentile x 0), (percentile x 100). split; [apply percentiles_spec; split; [exact Hx|]; split; [|reflexivity]; intros q [<-|[<-|[]]]; lra|].
  assert (L : (0 < List.length (sort x))%nat) by (rewrite sort_length; destruct x; [congruence|cbn; lia]).
  assert (E0 : percentile x 0 = nth 0 (sort x) 0).
  { unfold percentile, at_pos. replace (INR (List.length x - 1) * (0 / 100)) with (INR 0) by (cbn [INR]; field). rewrite (floorn_unique (INR 0) 0) by lra. ring. }
  assert (E1 : percentile x 100 = nth (List.length (sort x) - 1) (sort x) 0).
  { unfold percentile, at_pos. replace (INR (List.length x - 1) * (100 / 100)) with (INR (List.length x - 1)) by field. rewrite (floorn_unique (INR (List.length x - 1)) (List.length x - 1)) by lra. rewrite sort_length. ring. }
  rewrite E0, E1. assert (P := sort_perm x). split; [apply (Permutation_in _ P), nth_In; lia|]. split; [apply (Permutation_in _ P), nth_In; lia|].
  intros y Hy. apply (Permutation_in _ (Permutation_sym P)) in Hy. apply (In_nth _ _ 0) in Hy. destruct Hy as (k & Hk & <-). split; apply (sort_sorted x); lia.
Qed.
(** More than (n-1)q/100 samples are no larger, and more than (n-1)(1-q/100) no smaller. *)
Theorem C53_counts : forall x qs vs k q v, percentiles x qs = Some vs -> nth_error qs k = Some q -> nth_error vs k = Some v ->
  INR (List.length x - 1) * (q / 100) < INR (count (fun y => leb y v) x) /\ INR (List.length x - 1) * (1 - q / 100) < INR (count (fun y => leb v y) x).
Proof.
  intros x qs vs k q v H Hk Hv. apply percentiles_spec in H. destruct H as (Hx & Hq & ->). rewrite nth_error_map, Hk in Hv. injection Hv as <-. pose proof (Hq q (nth_error_In _ _ Hk)) as A.
  destruct (index_range (List.length x - 1) q A) as [I1 I2]. set (p := INR (List.length x - 1) * (q / 100)) in *. pose proof (percentile_between x q Hx A) as B. cbv zeta in B. fold p in B. set (v := percentile x q) in *.
  destruct (floorn_spec p I1) as [F1 F2]. set (j := floorn p) in *. pose proof (sort_sorted x) as Hs. destruct (between_bounds _ _ _ _ Hs B) as (B1 & _ & B2 & _). rewrite <- !(count_perm _ _ _ (sort_perm x)).
  assert (Ls := sort_length x). destruct B as (Bj & Bt & Bv).
  assert (C1 : (j + 1 <= count (fun y => leb y v) (sort x))%nat).
  { replace (j + 1)%nat with (Nat.min (j + 1) (List.length (sort x))) by lia. apply count_firstn. intros i Hi Hl. apply leb_true. assert (nth i (sort x) 0 <= nth j (sort x) 0) by (apply Hs; lia). lra. }
  apply le_INR in C1. rewrite plus_INR in C1. cbn [INR] in C1. split; [lra|].
  replace (INR (List.length x - 1) * (1 - q / 100)) with (INR (List.length x - 1) - p) by (unfold p; ring). destruct (Req_EM_T (p - INR j) 0) as [Z|Z].
  - assert (Ev : v = nth j (sort x) 0) by (destruct Bv as [[_ E]|[_ E]]; [rewrite E, Z; ring|exact E]).
    assert (C2 : (List.length (sort x) - j <= count (fun y => leb v y) (sort x))%nat). { apply count_skipn. intros i Hi Hl. apply leb_true. rewrite Ev. apply Hs; lia. }
    apply le_INR in C2. rewrite minus_INR, Ls in C2 by lia. rewrite minus_INR in * by lia. cbn [INR] in *. lra.
  - assert (C2 : (List.length (sort x) - (j + 1) <= count (fun y => leb v y) (sort x))%nat). { apply count_skipn. intros i Hi Hl. apply leb_true. apply B2. lia. }
    apply le_INR in C2. rewrite minus_INR, plus_INR, Ls in C2 by lia. rewrite minus_INR in * by lia. cbn [INR] in *. lra.
Qed.
(** Percentiles follow shifts and changes of units. *)
Theorem C53_affine : forall x qs vs a b, 0 < a -> percentiles x qs = Some vs -> percentiles (map (fun y => a * y + b) x) qs = Some (map (fun v => a * v + b) vs).
Proof.
  intros x qs vs a b Ha H. apply percentiles_spec in H. destruct H as (Hx & Hq & ->). apply percentiles_spec. split; [destruct x; [congruence|discriminate]|]. split; [exact Hq|]. rewrite map_map. apply map_ext_in. intros q Hin. symmetry.
  set (f := fun y => a * y + b). assert (Nf : forall s i, (i < List.length s)%nat -> nth i (map f s) 0 = f (nth i s 0)). { intros s i Hi. rewrite (nth_indep _ 0 (f 0)) by (rewrite map_length; exact Hi). apply map_nth. }
  assert (Es : sort (map f x) = map f (sort x)).
  { apply sorted_unique; [apply sort_sorted| |rewrite sort_perm; apply Permutation_map, Permutation_sym, sort_perm]. intros i j Hij Hj. rewrite map_length in Hj. rewrite !Nf by lia. unfold f. pose proof (sort_sorted x i j Hij Hj). nra. }
  unfold percentile. rewrite Es, map_length. set (p := INR (List.length x - 1) * (q / 100)). pose proof (index_range (List.length x - 1) q (Hq q Hin)) as I. fold p in I. pose proof (floorn_le p _ I) as Lj.
  assert (L : (0 < List.length x)%nat) by (destruct x; [congruence|cbn; lia]). unfold at_pos. rewrite map_length, sort_length. rewrite !Nf by (rewrite sort_length; lia). unfold f. ring.
Qed.

(** ** Weighted quantiles *)
Definition argsorts (argsort : list R -> list nat) (x : list R) : Prop := Permutation (argsort x) (seq 0 (List.length x)) /\ sorted (take x (argsort x)).
Lemma take_perm x idx : Permutation idx (seq 0 (List.length x)) -> Permutation (take x idx) x.
Proof.
  intros P. unfold take. rewrite P. clear P. assert (E : map (fun i => nth i x 0) (seq 0 (List.length x)) = x); [|now rewrite E].
  apply (nth_ext _ _ 0 0); [now rewrite map_length, seq_length|]. intros k Hk. rewrite map_length, seq_length in Hk. rewrite (nth_indep _ 0 (nth 0 x 0)) by (rewrite map_length, seq_length; exact Hk).
  rewrite (map_nth (fun i => nth i x 0) (seq 0 (List.length x)) O k). now rewrite seq_nth.
Qed.
Lemma take_length x idx : List.length (take x idx) = List.length idx.
Proof. apply map_length. Qed.
Lemma take_In x idx y : (forall i, In i idx -> (i < List.length x)%nat) -> In y (take x idx) -> In y x.
Proof. intros H Hy. apply in_map_iff in Hy. destruct Hy as (i & <- & Hi). apply nth_In. now apply H. Qed.

(** A quantile found with weights, for one probability *)
Lemma weighted_spec argsort x q w vs : argsorts argsort x -> (forall a, In a w -> 0 <= a) -> quantile1 argsort x q (Some w) = Some vs ->
  let s := take x (argsort x) in let sw := take w (argsort x) in
  List.length s = List.length x /\ List.length sw = List.length x /\ 0 < prefix sw (List.length x - 1) /\ (2 <= List.length x)%nat /\ List.length vs = List.length q /\
  forall k p v, nth_error q k = Some p -> nth_error vs k = Some v -> 0 <= p <= 1 /\
    exists j t, between s j t v /\ prefix sw j / prefix sw (List.length x - 1) <= p /\
      ((j + 1 < List.length x)%nat -> p < prefix sw (j + 1) / prefix sw (List.length x - 1) /\
         t = (p - prefix sw j / prefix sw (List.length x - 1)) / (prefix sw (j + 1) / prefix sw (List.length x - 1) - prefix sw j / prefix sw (List.length x - 1))) /\
      ((j + 1 = List.length x)%nat -> t = 0).
Proof.
  intros [P Hs] Hw H s sw. unfold quantile1 in H. destruct (forallb (in_range 0 1) q) eqn:Eq; [|discriminate]. destruct (Nat.eqb_spec (List.length x) (List.length w)) as [Lw|]; [|discriminate].
  fold sw in H. fold s in H. destruct (cdf_of sw) as [cdf|] eqn:Ec; [|discriminate]. destruct (cdf_spec sw cdf Ec) as (L2 & Nz & Lc & Hc).
  assert (Li : List.length (argsort x) = List.length x) by (rewrite (Permutation_length P); apply seq_length). assert (Ls : List.length s = List.length x) by (unfold s; rewrite take_length; exact Li).
  assert (Lsw : List.length sw = List.length x) by (unfold sw; rewrite take_length; exact Li). rewrite Lsw in *.
  assert (Wn : forall a, In a sw -> 0 <= a). { intros a Ha. apply Hw. apply (take_In w (argsort x)); [|exact Ha]. intros i Hi. apply (Permutation_in _ P) in Hi. apply in_seq in Hi. lia. }
  assert (Pp : 0 < prefix sw (List.length x - 1)). { pose proof (prefix_mono sw 0 (List.length x - 1) Wn ltac:(lia)) as K. change (prefix sw 0) with 0 in K. destruct K as [K|K]; [exact K|congruence]. }
  split; [exact Ls|]. split; [reflexivity|]. split; [exact Pp|]. split; [exact L2|].
  assert (Hm : List.length vs = List.length q /\ forall k p v, nth_error q k = Some p -> nth_error vs k = Some v -> interp p (combine cdf s) = Some v).
  { clear -H. revert vs H. induction q as [|p0 q IH]; intros vs H; cbn [mapM] in H; [injection H as <-; split; auto; intros [|k]; discriminate|]. destruct (interp p0 (combine cdf s)) as [v0|] eqn:E0; [|discriminate]. destruct (mapM _ q) as [vs'|]; [|discriminate].
    injection H as <-. destruct (IH vs' eq_refl) as [L K]. split; [cbn; now rewrite L|]. intros [|k] p v Hp Hv; cbn in *; [congruence|exact (K k p v Hp Hv)]. }
  destruct Hm as [Lv Hm]. split; [exact Lv|]. intros k p v Hp Hv. specialize (Hm k p v Hp Hv). assert (Rp : 0 <= p <= 1). { apply in_range_spec. rewrite forallb_forall in Eq. apply Eq. exact (nth_error_In _ _ Hp). } split; [exact Rp|].
  destruct cdf as [|c0 cdf]; [cbn in Lc; lia|]. destruct s as [|s0 s'] eqn:Es; [cbn in Ls; lia|]. cbn [combine interp] in Hm. assert (C0 : c0 = 0). { specialize (Hc O ltac:(lia)). cbn in Hc. rewrite Hc. unfold prefix. cbn. unfold Rdiv. ring. }
  destruct (Rlt_dec p c0) as [Hlt|Hlt]; [lra|]. injection Hm as Hm. destruct (interp_from_spec p (combine cdf s') c0 s0 ltac:(lra)) as (j & Hj & K1 & K2).
  assert (Lcs : List.length cdf = List.length s') by (cbn in Lc, Ls; lia). assert (Ef : c0 :: map fst (combine cdf s') = c0 :: cdf) by (f_equal; clear -Lcs; revert s' Lcs; induction cdf as [|c l IH]; intros [|y s'] L; cbn in *; try discriminate; auto; f_equal; apply IH; lia).
  assert (Ff : s0 :: map snd (combine cdf s') = s0 :: s') by (f_equal; clear -Lcs; revert s' Lcs; induction cdf as [|c l IH]; intros [|y s'] L; cbn in *; try discriminate; auto; f_equal; apply IH; lia).
  rewrite Ef, Ff in K2. rewrite Ef in K1. assert (Lcomb : List.length (combine cdf s') = (List.length x - 1)%nat) by (rewrite combine_length; cbn in Lc; lia). rewrite Lcomb in *. rewrite Hm in K2.
  rewrite Hc in K1 by lia. destruct K2 as [[E V]|(E & X & V)].
  - exists j, 0. split; [|split; [exact K1|]]; [|split; [intros; lia|auto]]. split; [lia|]. split; [lra|]. right. split; [lia|exact V].
  - rewrite !Hc in X by lia. rewrite !Hc in V by lia. exists j, ((p - prefix sw j / prefix sw (List.length x - 1)) / (prefix sw (j + 1) / prefix sw (List.length x - 1) - prefix sw j / prefix sw (List.length x - 1))).
    split; [|split; [exact K1|]; split; [intros _; split; [exact X|reflexivity]|intros; lia]]. split; [lia|]. split.
    + set (d := prefix sw (j + 1) / prefix sw (List.length x - 1) - prefix sw j / prefix sw (List.length x - 1)). assert (Dp : 0 < d) by (unfold d; lra). assert (Np : 0 <= p - prefix sw j / prefix sw (List.length x - 1) < d) by (unfold d; lra).
      split; [apply Rmult_le_pos; [lra|left; now apply Rinv_0_lt_compat]|]. apply (Rmult_lt_reg_r d); [exact Dp|]. unfold Rdiv. rewrite Rmult_assoc, Rinv_l by lra. lra.
    + left. split; [lia|exact V].
Qed.
(** Weighted quantiles lie between two samples and grow with the probability. *)
Theorem C53_weighted : forall argsort x q w vs, argsorts argsort x -> (forall a, In a w -> 0 <= a) -> quantile1 argsort x q (Some w) = Some vs ->
  List.length vs = List.length q /\
  (forall k v, nth_error vs k = Some v -> exists a b, In a x /\ In b x /\ a <= v <= b) /\
  (forall i j p p' v v', nth_error q i = Some p -> nth_error q j = Some p' -> nth_error vs i = Some v -> nth_error vs j = Some v' -> p <= p' -> v <= v').
Proof.
  intros argsort x q w vs HA Hw H. destruct (weighted_spec argsort x q w vs HA Hw H) as (Ls & Lsw & Pp & L2 & Lv & K). destruct HA as [P Hs]. set (s := take x (argsort x)) in *. set (sw := take w (argsort x)) in *.
  assert (Ps : Permutation s x) by now apply take_perm. split; [exact Lv|]. split.
  - intros k v Hv. destruct (nth_error q k) as [p|] eqn:Hp; [|apply nth_error_None in Hp; assert (k < List.length vs)%nat by (apply nth_error_Some; congruence); lia].
    destruct (K k p v Hp Hv) as (_ & j & t & B & _). destruct (between_bounds _ _ _ _ Hs B) as (_ & _ & _ & B1 & B2). exists (nth 0 s 0), (nth (List.length s - 1) s 0). split; [apply (Permutation_in _ Ps), nth_In; lia|]. split; [apply (Permutation_in _ Ps), nth_In; lia|]. lra.
  - intros i i' p p' v v' Hp Hp' Hv Hv' Hpp. destruct (K i p v Hp Hv) as (_ & j & t & B & C1 & C2 & C3). destruct (K i' p' v' Hp' Hv') as (_ & j' & t' & B' & D1 & D2 & D3).
    assert (Wn : forall a, In a sw -> 0 <= a). { intros a Ha. apply Hw. apply (take_In w (argsort x)); [|exact Ha]. intros m Hm. apply (Permutation_in _ P) in Hm. apply in_seq in Hm. unfold quantile1 in H. destruct (forallb (in_range 0 1) q); [|discriminate]. destruct (Nat.eqb_spec (List.length x) (List.length w)); [lia|discriminate]. }
    apply (between_mono s j t v j' t' v' Hs B B'). pose proof (proj1 B) as J. pose proof (proj1 B') as J'. rewrite Ls in J, J'. destruct (Nat.lt_trichotomy j j') as [L|[E|L]]; [left; exact L| |].
    + subst j'. right. split; [reflexivity|]. destruct (Nat.eq_dec (j + 1) (List.length x)) as [E|E]; [rewrite C3, D3 by exact E; lra|]. destruct (C2 ltac:(lia)) as [X1 ->]. destruct (D2 ltac:(lia)) as [X2 ->].
      apply Rmult_le_compat_r; [left; apply Rinv_0_lt_compat; lra|lra].
    + exfalso. destruct (D2 ltac:(lia)) as [X _]. pose proof (prefix_mono sw (j' + 1) j Wn ltac:(lia)) as M. apply (Rmult_le_compat_r (/ prefix sw (List.length x - 1))) in M; [|left; now apply Rinv_0_lt_compat]. unfold Rdiv in *. lra.
Qed.
(** They are found for positive weights and two samples or more. *)
Theorem C53_weighted_found : forall argsort x q w, argsorts argsort x -> (2 <= List.length x)%nat -> List.length w = List.length x -> (forall a, In a w -> 0 < a) -> (forall p, In p q -> 0 <= p <= 1) ->
  exists vs, quantile1 argsort x q (Some w) = Some vs.
Proof.
  intros argsort x q w [P Hs] L2 Lw Hw Hq. unfold quantile1. assert (E : forallb (in_range 0 1) q = true) by (apply forallb_forall; intros p Hp; apply in_range_spec; auto). rewrite E, (proj2 (Nat.eqb_eq _ _) (eq_sym Lw)).
  set (sw := take w (argsort x)). assert (Li : List.length (argsort x) = List.length x) by (rewrite (Permutation_length P); apply seq_length). assert (Lsw : List.length sw = List.length x) by (unfold sw; rewrite take_length; exact Li).
  assert (Wp : forall a, In a sw -> 0 < a). { intros a Ha. apply Hw. apply (take_In w (argsort x)); [|exact Ha]. intros i Hi. apply (Permutation_in _ P) in Hi. apply in_seq in Hi. lia. }
  assert (Pp : 0 < prefix sw (List.length sw - 1)). { destruct sw as [|a [|b sw']] eqn:Es; try (cbn in Lsw; lia). pose proof (prefix_mono (a :: b :: sw') 1 (List.length (a :: b :: sw') - 1) (fun y Hy => Rlt_le _ _ (Wp y Hy)) ltac:(cbn; lia)) as M. assert (0 < a) by (apply Wp; now left). unfold prefix in M at 1. cbn [firstn total] in M. lra. }
  destruct (cdf_some sw ltac:(lia) ltac:(lra)) as (cdf & Ec). rewrite Ec. destruct (cdf_spec sw cdf Ec) as (_ & _ & Lc & _).
  clear -Lc Lsw L2 Li. induction q as [|p q IH]; [exists []; reflexivity|]. destruct IH as (vs & IH). cbn [mapM]. rewrite IH.
  destruct cdf as [|c0 cdf]; [cbn in Lc; lia|]. destruct (take x (argsort x)) as [|s0 s] eqn:Es; [exfalso; assert (Hz : List.length (take x (argsort x)) = O) by (now rewrite Es); rewrite take_length in Hz; lia|]. cbn [combine interp]. destruct (Rlt_dec p c0); eauto.
Qed.
(** With equal weights they are the percentiles. *)
Theorem C53_equal_weights : forall argsort x q c, argsorts argsort x -> (2 <= List.length x)%nat -> 0 < c ->
  quantile1 argsort x q (Some (repeat c (List.length x))) = quantile1 argsort x q None.
Proof.
  intros argsort x q c HA L2 Hc. destruct (forallb (in_range 0 1) q) eqn:Eq; [|unfold quantile1; now rewrite Eq]. rewrite forallb_forall in Eq. assert (Hq : forall p, In p q -> 0 <= p <= 1) by (intros p Hp; apply in_range_spec; auto).
  destruct (C53_weighted_found argsort x q (repeat c (List.length x)) HA L2 (repeat_length _ _)) as (vs & E); [intros a Ha; apply repeat_spec in Ha; lra|exact Hq|]. rewrite E.
  assert (Hrep : forall a, In a (repeat c (List.length x)) -> 0 <= a) by (intros a Ha; apply repeat_spec in Ha; lra).
  destruct (weighted_spec argsort x q _ vs HA Hrep E) as (Ls & Lsw & Pp & _ & Lv & K). destruct HA as [P Hs]. set (s := take x (argsort x)) in *.
  assert (Esw : take (repeat c (List.length x)) (argsort x) = repeat c (List.length x)).
  { apply (nth_ext _ _ 0 0); [rewrite repeat_length; exact Lsw|]. intros k Hk. rewrite Lsw in Hk. assert (In (nth k (take (repeat c (List.length x)) (argsort x)) 0) (repeat c (List.length x))).
    { apply (take_In _ (argsort x)); [|apply nth_In; lia]. intros i Hi. rewrite repeat_length. apply (Permutation_in _ P) in Hi. apply in_seq in Hi. lia. }
    apply repeat_spec in H. rewrite H. assert (In (nth k (repeat c (List.length x)) 0) (repeat c (List.length x))) by (apply nth_In; rewrite repeat_length; exact Hk). apply repeat_spec in H0. congruence. }
  rewrite Esw in *. set (n := List.length x) in *. unfold quantile1. assert (Eq' : forallb (in_range 0 1) q = true) by (apply forallb_forall; exact Eq). rewrite Eq'. symmetry. apply percentiles_spec. split; [intros ->; cbn in *; lia|]. split.
  { intros y Hy. apply in_map_iff in Hy. destruct Hy as (p & <- & Hp). specialize (Hq p Hp). lra. }
  apply nth_error_ext. intros k. rewrite map_map, nth_error_map. destruct (nth_error q k) as [p|] eqn:Hp; cbn [option_map]; [|apply nth_error_None in Hp; apply nth_error_None; lia].
  destruct (nth_error vs k) as [v|] eqn:Hv; [|apply nth_error_None in Hv; assert (k < List.length q)%nat by (apply nth_error_Some; congruence); lia]. f_equal. destruct (K k p v Hp Hv) as (Rp & j & t & B & C1 & C2 & C3).
  assert (Es : sort x = s) by (apply sorted_unique; auto using sort_sorted; rewrite sort_perm; apply Permutation_sym; now apply take_perm). unfold percentile. rewrite Es. fold n. replace (INR (n - 1) * (100 * p / 100)) with (INR (n - 1) * p) by field.
  assert (Hn : 0 < INR (n - 1)) by (apply lt_0_INR; lia). pose proof (proj1 B) as J. rewrite Ls in J. rewrite !prefix_const in C1 by lia. replace (INR j * c / (INR (n - 1) * c)) with (INR j / INR (n - 1)) in * by (field; lra).
  assert (F1 : INR j <= INR (n - 1) * p). { apply (Rmult_le_reg_r (/ INR (n - 1))); [now apply Rinv_0_lt_compat|]. replace (INR (n - 1) * p * / INR (n - 1)) with p by (field; lra). exact C1. }
  assert (Hb : 0 <= INR (n - 1) * p <= INR (List.length s - 1)) by (rewrite Ls; fold n; nra). pose proof (at_pos_between s (INR (n - 1) * p) ltac:(intros Z; rewrite Z in Ls; cbn in Ls; lia) Hb) as B'.
  assert (Both : floorn (INR (n - 1) * p) = j /\ (INR (n - 1) * p - INR j = t)).
  { destruct (Nat.eq_dec (j + 1) n) as [E1|E1].
    - assert (Jn : INR j = INR (n - 1)) by (f_equal; lia). assert (Ep : INR (n - 1) * p = INR j) by nra. split; [apply floorn_unique; rewrite Ep; lra|]. rewrite C3 by exact E1. lra.
    - destruct (C2 ltac:(lia)) as [X T]. rewrite !prefix_const in X, T by lia. replace (INR (j + 1) * c / (INR (n - 1) * c)) with ((INR j + 1) / INR (n - 1)) in * by (rewrite plus_INR; cbn [INR]; field; lra).
      assert (F2 : INR (n - 1) * p < INR j + 1). { apply (Rmult_lt_reg_r (/ INR (n - 1))); [now apply Rinv_0_lt_compat|]. replace (INR (n - 1) * p * / INR (n - 1)) with p by (field; lra). exact X. }
      split; [apply floorn_unique; lra|]. rewrite ?(prefix_const c n (j + 1)) in T by lia. replace (INR (j + 1) * c / (INR (n - 1) * c)) with ((INR j + 1) / INR (n - 1)) in T by (rewrite plus_INR; cbn [INR]; field; lra). replace (INR j * c / (INR (n - 1) * c)) with (INR j / INR (n - 1)) in T by (field; lra). rewrite T. field. lra. }
  destruct Both as [Bj Bt]. rewrite Bj, Bt in B'. assert (A : v <= at_pos s (INR (n - 1) * p)) by (apply (between_mono s j t _ j t _ Hs B B'); right; split; [reflexivity|lra]). assert (A' : at_pos s (INR (n - 1) * p) <= v) by (apply (between_mono s j t _ j t _ Hs B' B); right; split; [reflexivity|lra]). lra.
Qed.
(** Only ratios of weights matter. *)
Theorem C53_weight_scale : forall argsort x q w c, 0 < c -> quantile1 argsort x q (Some (map (Rmult c) w)) = quantile1 argsort x q (Some w).
Proof.
  intros argsort x q w c Hc. unfold quantile1. rewrite map_length. assert (E : cdf_of (take (map (Rmult c) w) (argsort x)) = cdf_of (take w (argsort x))); [|now rewrite E].
  assert (Et : take (map (Rmult c) w) (argsort x) = map (Rmult c) (take w (argsort x))). { unfold take. rewrite map_map. apply map_ext. intros i. replace 0 with (c * 0) at 1 by ring. apply map_nth. } rewrite Et. generalize (take w (argsort x)). intros l. unfold cdf_of.
  assert (Ecs : forall l a, cumsum_from (c * a) (map (Rmult c) l) = map (Rmult c) (cumsum_from a l)). { clear. induction l as [|y l IH]; intros a; [reflexivity|]. cbn [map cumsum_from]. rewrite <- Rmult_plus_distr_l, IH. reflexivity. }
  assert (Ec0 : cumsum_from 0 (map (Rmult c) l) = map (Rmult c) (cumsum_from 0 l)) by (rewrite <- Ecs; f_equal; ring). rewrite Ec0. clear Ec0. assert (Er : forall l : list R, removelast (map (Rmult c) l) = map (Rmult c) (removelast l)). { clear. induction l as [|y [|z l] IH]; auto. cbn [map removelast] in *. now rewrite IH. }
  rewrite !Er. generalize (removelast (cumsum_from 0 l)). intros l'. clear l Et. rename l' into l. destruct l as [|y l]; [reflexivity|]. assert (El : last (map (Rmult c) (y :: l)) 0 = c * last (y :: l) 0). { clear -Hc. revert y. induction l as [|z l IH]; intros y; [reflexivity|]. exact (IH z). }
  change (map (Rmult c) (y :: l)) with (c * y :: map (Rmult c) l) in El |- *. rewrite El. destruct (Req_EM_T (c * last (y :: l) 0) 0) as [Z|Z], (Req_EM_T (last (y :: l) 0) 0) as [Z'|Z']; [reflexivity|exfalso; apply Rmult_integral in Z; lra|exfalso; apply Z; rewrite Z'; ring|].
  f_equal. f_equal. change (c * y :: map (Rmult c) l) with (map (Rmult c) (y :: l)). rewrite map_map. apply map_ext. intros v. field. split; [exact Z'|lra].
Qed.
(** The weight of the largest sample is not used at all. *)
Theorem C53_last_weight_refuted : forall argsort x q w w', argsorts argsort x -> List.length w = List.length x -> List.length w' = List.length x ->
  (forall i, i <> last (argsort x) O -> nth i w 0 = nth i w' 0) -> quantile1 argsort x q (Some w) = quantile1 argsort x q (Some w').
Proof.
  intros argsort x q w w' [P _] L L' H. unfold quantile1. rewrite L, L'. assert (E : cdf_of (take w (argsort x)) = cdf_of (take w' (argsort x))); [|now rewrite E].
  assert (Erc : forall l a, removelast (cumsum_from a l) = cumsum_from a (removelast l)). { clear. induction l as [|y [|z l] IH]; intros a; auto. change (removelast (y :: z :: l)) with (y :: removelast (z :: l)). cbn [cumsum_from] in *. rewrite <- IH. reflexivity. }
  assert (Nd : NoDup (argsort x)) by (apply (Permutation_NoDup (Permutation_sym P)), seq_NoDup).
  assert (Et : removelast (take w (argsort x)) = removelast (take w' (argsort x))); [|unfold cdf_of; now rewrite !Erc, Et]. clear -Nd H. unfold take. induction (argsort x) as [|i [|k l] IH]; auto.
  change (removelast (map (fun i0 => nth i0 w 0) (i :: k :: l))) with (nth i w 0 :: removelast (map (fun i0 => nth i0 w 0) (k :: l))). change (removelast (map (fun i0 => nth i0 w' 0) (i :: k :: l))) with (nth i w' 0 :: removelast (map (fun i0 => nth i0 w' 0) (k :: l))).
  inversion Nd as [|? ? Ni Nd']; subst. f_equal; [|apply IH; [exact H|exact Nd']]. apply H. intros E. apply Ni. rewrite E. change (last (i :: k :: l) O) with (last (k :: l) O). clear. revert k. induction l as [|m l IH]; intros k; [now left|]. right. exact (IH m).
Qed.

(** ** Spans *)
Lemma count_both p r l : (count p l + count r l <= List.length l + count (fun y => p y && r y)%bool l)%nat.
Proof. unfold count. induction l as [|y l IH]; cbn; [lia|]. destruct (p y), (r y); cbn [List.length andb]; lia. Qed.
(** The span for a fraction holds that fraction of the samples, less one at most on
    each side; a span given as a pair is kept. *)
Theorem C53_spans : forall argsort default span samples, (forall sp, span = Some sp -> List.length sp = List.length samples) ->
  (forall x, In x samples -> x <> []) -> 0 <= default <= 1 -> (forall sp f, span = Some sp -> In (inr f) sp -> 0 <= f <= 1) ->
  exists out, get_spans argsort default span samples None = Some out /\ List.length out = List.length samples /\
    forall i x a b, nth_error samples i = Some x -> nth_error out i = Some (a, b) ->
      (forall sp p, span = Some sp -> nth_error sp i = Some (inl p) -> (a, b) = p) /\
      (forall f, match span with None => Some (inr default) | Some sp => nth_error sp i end = Some (inr f) ->
         a <= b /\ f * INR (List.length x - 1) - 1 < INR (count (fun y => leb a y && leb y b)%bool x)).
Proof.
  intros argsort default span samples Hlen Hne Hd Hf. unfold get_spans. set (sp := match span with None => map (fun _ => inr default) samples | Some s => s end).
  assert (Ls : List.length sp = List.length samples) by (unfold sp; destruct span; [auto|apply map_length]). rewrite (proj2 (Nat.eqb_eq _ _) Ls).
  assert (Hsp : forall f, In (inr f) sp -> 0 <= f <= 1). { unfold sp. destruct span as [s|]; [intros f H; exact (Hf s f eq_refl H)|]. intros f H. apply in_map_iff in H. destruct H as (y & E & _). injection E as <-. exact Hd. }
  assert (One : forall e x, x <> [] -> (forall f, e = inr f -> 0 <= f <= 1) -> exists a b, span_of argsort x None e = Some (a, b) /\ (forall p, e = inl p -> (a, b) = p) /\
            (forall f, e = inr f -> a <= b /\ f * INR (List.length x - 1) - 1 < INR (count (fun y => leb a y && leb y b)%bool x))).
  { intros [p|f] x Hx Hr; [exists (fst p), (snd p); destruct p; repeat split; try discriminate; intros q E; injection E as <-; reflexivity|]. specialize (Hr f eq_refl). cbn [span_of]. unfold quantile1.
    assert (E : forallb (in_range 0 1) [1 / 2 - 1 / 2 * f; 1 / 2 + 1 / 2 * f] = true) by (apply forallb_forall; intros p [<-|[<-|[]]]; apply in_range_spec; lra). rewrite E. cbn [map].
    set (qs := [100 * (1 / 2 - 1 / 2 * f); 100 * (1 / 2 + 1 / 2 * f)]). set (a := percentile x (100 * (1 / 2 - 1 / 2 * f))). set (b := percentile x (100 * (1 / 2 + 1 / 2 * f))).
    assert (Ep : percentiles x qs = Some [a; b]). { apply percentiles_spec. split; [exact Hx|]. split; [|reflexivity]. intros q [<-|[<-|[]]]; lra. } rewrite Ep. exists a, b. split; [reflexivity|]. split; [discriminate|].
    intros f' Ef. injection Ef as <-. split; [exact (C53_monotone x qs [a; b] 0 1 _ _ a b Ep eq_refl eq_refl eq_refl eq_refl ltac:(lra))|].
    destruct (C53_counts x qs [a; b] 0 _ a Ep eq_refl eq_refl) as [_ C1]. destruct (C53_counts x qs [a; b] 1 _ b Ep eq_refl eq_refl) as [C2 _].
    pose proof (count_both (fun y => leb a y) (fun y => leb y b) x) as CB. apply le_INR in CB. rewrite !plus_INR in CB. assert (L : (1 <= List.length x)%nat) by (destruct x; [congruence|cbn; lia]). rewrite minus_INR in * by exact L. cbn [INR] in *. nra. }
  assert (G : forall sp samples, List.length sp = List.length samples -> (forall f, In (inr f) sp -> 0 <= f <= 1) -> (forall x, In x samples -> x <> []) -> exists out, mapM (fun sx => span_of argsort (snd sx) None (fst sx)) (combine sp samples) = Some out /\ List.length out = List.length samples /\
            forall i x a b e, nth_error samples i = Some x -> nth_error out i = Some (a, b) -> nth_error sp i = Some e -> (forall p, e = inl p -> (a, b) = p) /\ (forall f, e = inr f -> a <= b /\ f * INR (List.length x - 1) - 1 < INR (count (fun y => leb a y && leb y b)%bool x))).
  { clear -One. induction sp as [|e sp IH]; intros [|x samples] L Hs Hx; try discriminate; [exists []; split; [reflexivity|]; split; [reflexivity|]; intros [|i]; discriminate|].
    destruct (One e x (Hx x (or_introl eq_refl))) as (a & b & E & O1 & O2); [intros f ->; apply Hs; now left|]. destruct (IH samples) as (out & Eo & Lo & Ho); [cbn in L; lia|intros f Hf; apply Hs; now right|intros y Hy; apply Hx; now right|].
    exists ((a, b) :: out). cbn [combine mapM fst snd]. rewrite E, Eo. split; [reflexivity|]. split; [cbn; now rewrite Lo|]. intros [|i] x' a' b' e' H1 H2 H3; cbn in *; [injection H1 as <-; injection H2 as <- <-; injection H3 as <-; split; [exact O1|exact O2]|exact (Ho i x' a' b' e' H1 H2 H3)]. }
  destruct (G sp samples Ls Hsp Hne) as (out & E & Lo & Ho). exists out. split; [exact E|]. split; [exact Lo|]. intros i x a b Hx Hab. destruct (nth_error sp i) as [e|] eqn:Es; [|apply nth_error_None in Es; assert (i < List.length samples)%nat by (apply nth_error_Some; congruence); lia].
  destruct (Ho i x a b e Hx Hab Es) as [O1 O2]. split.
  - intros s p -> Hp. unfold sp in Es. rewrite Hp in Es. injection Es as <-. now apply O1.
  - intros f Hf'. apply O2. unfold sp in Es. destruct span as [s|]; [congruence|]. rewrite nth_error_map, Hx in Es. cbn in Es. congruence.
Qed.

(** ** The catalog of percentiles *)
Theorem C53_catalog : forall V qs (cat : list (string * column V)),
  ((exists e, pctile_cat qs cat = Some e) <-> forall n s, In (n, Sampled s) cat -> (forall q, In q qs -> 0 <= q <= 100) /\ ~ In [] s) /\
  forall e scols, pctile_cat qs cat = Some (e, scols) -> map fst e = map fst cat /\
    (forall n, In n scols <-> exists s, In (n, Sampled s) cat) /\
    (forall i n v, nth_error cat i = Some (n, Scalar v) -> nth_error e i = Some (n, Scalar v)) /\
    (forall i n s, nth_error cat i = Some (n, Sampled s) -> exists es, nth_error e i = Some (n, Sampled es) /\ List.length es = List.length s /\
       forall r x, nth_error s r = Some x -> exists vs, nth_error es r = Some vs /\ percentiles x qs = Some vs).
Proof.
  intros V qs cat.
  assert (Rows : forall s es, mapM (fun x => percentiles x qs) s = Some es -> List.length es = List.length s /\ forall r x, nth_error s r = Some x -> exists vs, nth_error es r = Some vs /\ percentiles x qs = Some vs).
  { induction s as [|x s IH]; intros es H; cbn [mapM] in H; [injection H as <-; split; auto; intros [|r]; discriminate|]. destruct (percentiles x qs) as [vs|] eqn:Ex; [|discriminate]. destruct (mapM _ s) as [t|]; [|discriminate]. injection H as <-. destruct (IH t eq_refl) as [L K].
    split; [cbn; now rewrite L|]. intros [|r] y Hy; cbn in *; [injection Hy as <-; eauto|exact (K r y Hy)]. }
  assert (Some_rows : (forall q, In q qs -> 0 <= q <= 100) -> forall s, ~ In [] s -> exists es, mapM (fun x => percentiles x qs) s = Some es).
  { intros Hq. induction s as [|x s IH]; intros H; [exists []; reflexivity|]. destruct IH as (es & IH); [intros K; apply H; now right|]. cbn [mapM]. assert (Ex : percentiles x qs = Some (map (percentile x) qs)) by (apply percentiles_spec; split; [intros ->; apply H; now left|auto]). rewrite Ex, IH. eauto. }
  split.
  - unfold pctile_cat. split.
    + intros (e & H) n s Hin. destruct (mapM _ cat) as [l|] eqn:E; [|discriminate]. clear H. revert l E. induction cat as [|[m c] cat IH]; intros l E; [destruct Hin|]. cbn [mapM fst snd] in E.
      destruct (pctile_column qs c) as [c'|] eqn:Ec; [|discriminate]. cbn [option_map] in E. destruct (mapM _ cat) as [l'|]; [|discriminate]. destruct Hin as [Hin|Hin]; [|exact (IH Hin l' eq_refl)]. injection Hin as -> ->.
      cbn [pctile_column] in Ec. destruct (forallb (in_range 0 100) qs) eqn:Eq; [|discriminate]. destruct (mapM (fun x => percentiles x qs) s) as [es|] eqn:Em; [|discriminate]. split; [intros q Hq; rewrite forallb_forall in Eq; now apply in_range_spec, Eq|].
      intros K. apply In_nth_error in K. destruct K as (r & K). destruct (proj2 (Rows s es Em) r [] K) as (vs & _ & X). apply percentiles_spec in X. now destruct X.
    + intros H. assert (G : exists l, mapM (fun nc => option_map (pair (fst nc)) (pctile_column qs (snd nc))) cat = Some l); [|destruct G as (l & ->); eauto].
      induction cat as [|[m c] cat IH]; [exists []; reflexivity|]. destruct IH as (l & IH); [intros n s Hin; apply (H n s); now right|]. cbn [mapM fst snd]. rewrite IH. destruct c as [v|s]; [eexists; reflexivity|]. destruct (H m s (or_introl eq_refl)) as [Hq Hn]. cbn [pctile_column].
      assert (Eq : forallb (in_range 0 100) qs = true) by (apply forallb_forall; intros q Hqq; apply in_range_spec; auto). rewrite Eq. destruct (Some_rows Hq s Hn) as (es & ->). eexists. reflexivity.
  - intros e scols H. unfold pctile_cat in H. destruct (mapM _ cat) as [l|] eqn:E; [|discriminate]. injection H as -> <-. split; [|split; [|split]].
    + revert e E. induction cat as [|[m c] cat IH]; intros e E; cbn [mapM fst snd] in E; [injection E as <-; reflexivity|]. destruct (pctile_column qs c); [|discriminate]. cbn [option_map] in E. destruct (mapM _ cat) as [l'|]; [|discriminate]. injection E as <-. cbn. f_equal. now apply IH.
    + intros n. split.
      * intros Hn. apply in_map_iff in Hn. destruct Hn as ((m & c) & <- & Hn). apply filter_In in Hn. destruct Hn as [Hn Hc]. destruct c as [v|s]; [discriminate|]. eauto.
      * intros (s & Hs). apply in_map_iff. exists (n, Sampled s). split; [reflexivity|]. apply filter_In. auto.
    + revert e E. induction cat as [|[m c] cat IH]; intros e E; cbn [mapM fst snd] in E; [intros [|i]; discriminate|]. destruct (pctile_column qs c) as [c'|] eqn:Ec; [|discriminate]. cbn [option_map] in E. destruct (mapM _ cat) as [l'|]; [|discriminate]. injection E as <-.
      intros [|i] n v Hi; cbn in *; [injection Hi as -> ->; injection Ec as <-; reflexivity|exact (IH l' eq_refl i n v Hi)].
    + revert e E. induction cat as [|[m c] cat IH]; intros e E; cbn [mapM fst snd] in E; [intros [|i]; discriminate|]. destruct (pctile_column qs c) as [c'|] eqn:Ec; [|discriminate]. cbn [option_map] in E. destruct (mapM _ cat) as [l'|]; [|discriminate]. injection E as <-.
      intros [|i] n s Hi; cbn in *; [|exact (IH l' eq_refl i n s Hi)]. injection Hi as -> ->. cbn [pctile_column] in Ec. destruct (forallb (in_range 0 100) qs); [|discriminate]. destruct (mapM (fun x => percentiles x qs) s) as [es|] eqn:Em; [|discriminate]. injection Ec as <-. destruct (Rows s es Em) as [L K]. exists es. auto.
Qed.
Print Assumptions C53_percentile.
Print Assumptions C53_order.
Print Assumptions C53_monotone.
Print Assumptions C53_ends.
Print Assumptions C53_counts.
Print Assumptions C53_affine.
Print Assumptions C53_weighted.
Print Assumptions C53_weighted_found.
Print Assumptions C53_equal_weights.
Print Assumptions C53_weight_scale.
Print Assumptions C53_last_weight_refuted.
Print Assumptions C53_spans.
Print Assumptions C53_catalog.
