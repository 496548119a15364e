(** Half-planes: feasibility in the plane, and the separating axis theorem. *)
From Verif Require Import Np NpFacts KernelSum StoreModel RegionModel RegionFacts.
From Coq Require Import Reals Lra Psatz.
Open Scope R_scope.

(** ** One dimension: p x <= q *)
Lemma line_feasible (l : list (R * R)) :
  (exists x, forall pq, In pq l -> fst pq * x <= snd pq) \/
  (exists pq, In pq l /\ fst pq = 0 /\ snd pq < 0) \/
  (exists u v, In u l /\ In v l /\ 0 < fst u /\ fst v < 0 /\ - fst v * snd u + fst u * snd v < 0).
Proof.
  induction l as [|[p q] l IH]; [left; exists 0; intros pq []|].
  destruct IH as [(x & Hx)|[(pq & H1 & H2)|(u & v & H1 & H2 & H3)]]; [|right; left; exists pq; simpl; tauto|right; right; exists u, v; simpl; tauto].
  destruct (Rle_dec (p * x) q) as [Hok|Hbad]; [left; exists x; intros pq [<-|H]; simpl; auto|].
  destruct (Rtotal_order p 0) as [Hp|[Hp|Hp]].
  - (* a lower bound q / p above x: move to it *)
    destruct (List.Forall_Exists_dec (fun pq : R * R => fst pq * (q / p) <= snd pq) (fun pq => Rle_dec _ _) l) as [F|F].
    + rewrite List.Forall_forall in F. left. exists (q / p). intros pq [<-|H]; simpl; auto. apply Req_le. field. lra.
    + apply List.Exists_exists in F. destruct F as ([a b] & Hin & Hf). simpl in Hf. right. right. exists (a, b), (p, q). simpl. pose proof (Hx _ Hin) as Hab. simpl in Hab.
      assert (Hxl : x < q / p). { apply (Rmult_lt_reg_r (- p)); [lra|]. unfold Rdiv. replace (q * / p * - p) with (- q) by (field; lra). lra. }
      assert (Ha : 0 < a) by nra. repeat split; auto; try lra.
      assert (Hm : a * (q / p) * - p > b * - p) by nra. replace (a * (q / p) * - p) with (- a * q) in Hm by (field; lra). lra.
  - subst p. right. left. exists (0, q). simpl. repeat split; auto; lra.
  - destruct (List.Forall_Exists_dec (fun pq : R * R => fst pq * (q / p) <= snd pq) (fun pq => Rle_dec _ _) l) as [F|F].
    + rewrite List.Forall_forall in F. left. exists (q / p). intros pq [<-|H]; simpl; auto. apply Req_le. field. lra.
    + apply List.Exists_exists in F. destruct F as ([a b] & Hin & Hf). simpl in Hf. right. right. exists (p, q), (a, b). simpl. pose proof (Hx _ Hin) as Hab. simpl in Hab.
      assert (Hxl : q / p < x). { apply (Rmult_lt_reg_r p); [lra|]. unfold Rdiv. replace (q * / p * p) with q by (field; lra). lra. }
      assert (Ha : a < 0) by nra. repeat split; auto; try lra.
      assert (Hm : a * (q / p) * p > b * p) by nra. replace (a * (q / p) * p) with (a * q) in Hm by (field; lra). lra.
Qed.

(** ** The plane: nx x + ny y <= c *)
Definition plane := (R * R * R)%type.
Definition holds (h : plane) (q : point) : Prop := fst (fst h) * fst q + snd (fst h) * snd q <= snd h.
Notation hx h := (fst (fst h)).
Notation hy h := (snd (fst h)).

(** One-dimensional consequences, with the two planes and weights they come from *)
Definition derived (l : list plane) (pq : R * R) : Prop := exists h k a b, In h l /\ In k l /\ 0 <= a /\ 0 <= b /\
  a * hy h + b * hy k = 0 /\ fst pq = a * hx h + b * hx k /\ snd pq = a * snd h + b * snd k.
Definition pairs (l : list plane) : list (R * R) :=
  flat_map (fun h => (if Req_EM_T (hy h) 0 then [(hx h, snd h)] else []) ++
    flat_map (fun k => if Rlt_dec 0 (hy h) then if Rlt_dec (hy k) 0 then [(- hy k * hx h + hy h * hx k, - hy k * snd h + hy h * snd k)] else [] else []) l) l.
Lemma pairs_derived l pq : In pq (pairs l) -> derived l pq.
Proof.
  unfold pairs. rewrite in_flat_map. intros (h & Hh & H). apply in_app_or in H. destruct H as [H|H].
  - destruct (Req_EM_T (hy h) 0) as [E|]; [|destruct H]. destruct H as [<-|[]]. exists h, h, 1, 0. simpl. repeat split; auto; try lra; rewrite ?E; ring.
  - apply in_flat_map in H. destruct H as (k & Hk & H). destruct (Rlt_dec 0 (hy h)); [|destruct H]. destruct (Rlt_dec (hy k) 0); [|destruct H]. destruct H as [<-|[]].
    exists h, k, (- hy k), (hy h). simpl. repeat split; auto; try lra; ring.
Qed.
(** Certificate of infeasibility *)
Definition certificate (l : list plane) : Prop := exists h1 h2 h3 h4 a1 a2 a3 a4, (In h1 l /\ In h2 l /\ In h3 l /\ In h4 l) /\ (0 <= a1 /\ 0 <= a2 /\ 0 <= a3 /\ 0 <= a4) /\
  a1 * hx h1 + a2 * hx h2 + a3 * hx h3 + a4 * hx h4 = 0 /\ a1 * hy h1 + a2 * hy h2 + a3 * hy h3 + a4 * hy h4 = 0 /\
  a1 * snd h1 + a2 * snd h2 + a3 * snd h3 + a4 * snd h4 < 0.
Lemma plane_feasible l : (exists q, forall h, In h l -> holds h q) \/ certificate l.
Proof.
  destruct (line_feasible (pairs l)) as [(x & Hx)|[(pq & H1 & H2 & H3)|(u & v & H1 & H2 & H3 & H4 & H5)]].
  - destruct (line_feasible (map (fun h => (hy h, snd h - hx h * x)) l)) as [(y & Hy)|[(pq & H1 & H2 & H3)|(u & v & H1 & H2 & H3 & H4 & H5)]].
    + left. exists (x, y). intros h Hh. unfold holds. simpl. specialize (Hy _ (in_map _ _ _ Hh)). simpl in Hy. lra.
    + exfalso. apply in_map_iff in H1. destruct H1 as (h & <- & Hh). simpl in H2, H3. specialize (Hx (hx h, snd h)). simpl in Hx.
      enough (hx h * x <= snd h) by lra. apply Hx. unfold pairs. apply in_flat_map. exists h. split; auto. apply in_or_app. left. destruct (Req_EM_T (hy h) 0); [simpl; auto|contradiction].
    + exfalso. apply in_map_iff in H1, H2. destruct H1 as (h & <- & Hh), H2 as (k & <- & Hk). simpl in H3, H4, H5.
      specialize (Hx (- hy k * hx h + hy h * hx k, - hy k * snd h + hy h * snd k)). simpl in Hx.
      enough ((- hy k * hx h + hy h * hx k) * x <= - hy k * snd h + hy h * snd k) by nra. apply Hx. unfold pairs. apply in_flat_map. exists h. split; auto. apply in_or_app. right.
      apply in_flat_map. exists k. split; auto. destruct (Rlt_dec 0 (hy h)); [|contradiction]. destruct (Rlt_dec (hy k) 0); [|contradiction]. simpl. auto.
  - right. apply pairs_derived in H1. destruct H1 as (h & k & a & b & Hh & Hk & Ha & Hb & E1 & E2 & E3). exists h, k, h, k, a, b, 0, 0. rewrite E2 in H2. rewrite E3 in H3. repeat split; auto; lra.
  - right. apply pairs_derived in H1, H2. destruct H1 as (h & k & a & b & Hh & Hk & Ha & Hb & E1 & E2 & E3), H2 as (h' & k' & a' & b' & Hh' & Hk' & Ha' & Hb' & E1' & E2' & E3').
    rewrite E2, E2', E3, E3' in *. set (s := - (a' * hx h' + b' * hx k')) in *. set (t := a * hx h + b * hx k) in *.
    assert (Hs : 0 < s) by (unfold s; lra). exists h, k, h', k', (s * a), (s * b), (t * a'), (t * b').
    split; [auto|]. split; [repeat split; apply Rmult_le_pos; lra|]. split; [|split].
    + replace (s * a * hx h + s * b * hx k + t * a' * hx h' + t * b' * hx k') with (s * t + t * (a' * hx h' + b' * hx k')) by (unfold t; ring). unfold s. ring.
    + replace (s * a * hy h + s * b * hy k + t * a' * hy h' + t * b' * hy k') with (s * (a * hy h + b * hy k) + t * (a' * hy h' + b' * hy k')) by ring. rewrite E1, E1'. ring.
    + unfold s in *. lra.
Qed.

(** ** Linear dependence *)
Lemma dep1 (a b : R) : exists s t, s * a + t * b = 0 /\ (s <> 0 \/ t <> 0).
Proof. destruct (Req_dec a 0) as [->|Ha]; [exists 1, 0; split; [ring|lra]|exists b, (- a); split; [ring|lra]]. Qed.
Lemma dep2 (a1 b1 a2 b2 a3 b3 : R) : exists t1 t2 t3, t1 * a1 + t2 * a2 + t3 * a3 = 0 /\ t1 * b1 + t2 * b2 + t3 * b3 = 0 /\ (t1 <> 0 \/ t2 <> 0 \/ t3 <> 0).
Proof.
  destruct (Req_dec a1 0) as [E1|N1]; [destruct (Req_dec a2 0) as [E2|N2]|].
  - destruct (dep1 b1 b2) as (s & t & H & Hn). exists s, t, 0. subst. repeat split; [ring|lra|tauto].
  - destruct (dep1 b1 (b3 - a3 / a2 * b2)) as (s & t & H & Hn). exists s, (- (t * a3) / a2), t. subst a1. repeat split; [field; auto| |tauto].
    replace (s * b1 + - (t * a3) / a2 * b2 + t * b3) with (s * b1 + t * (b3 - a3 / a2 * b2)) by (field; auto). exact H.
  - destruct (dep1 (b2 - a2 / a1 * b1) (b3 - a3 / a1 * b1)) as (s & t & H & Hn). exists (- (s * a2 + t * a3) / a1), s, t. repeat split; [field; auto| |tauto].
    replace (- (s * a2 + t * a3) / a1 * b1 + s * b2 + t * b3) with (s * (b2 - a2 / a1 * b1) + t * (b3 - a3 / a1 * b1)) by (field; auto). exact H.
Qed.
Lemma dep3 (u1 u2 u3 u4 : plane) : exists t1 t2 t3 t4, t1 * hx u1 + t2 * hx u2 + t3 * hx u3 + t4 * hx u4 = 0 /\ t1 * hy u1 + t2 * hy u2 + t3 * hy u3 + t4 * hy u4 = 0 /\
  t1 * snd u1 + t2 * snd u2 + t3 * snd u3 + t4 * snd u4 = 0 /\ (t1 <> 0 \/ t2 <> 0 \/ t3 <> 0 \/ t4 <> 0).
Proof.
  destruct u1 as [[a1 b1] c1], u2 as [[a2 b2] c2], u3 as [[a3 b3] c3], u4 as [[a4 b4] c4]. cbn [fst snd].
  destruct (Req_dec a1 0) as [E1|N1]; [destruct (Req_dec a2 0) as [E2|N2]; [destruct (Req_dec a3 0) as [E3|N3]|]|].
  - destruct (dep2 b1 c1 b2 c2 b3 c3) as (t1 & t2 & t3 & H1 & H2 & Hn). exists t1, t2, t3, 0. subst. repeat split; try lra; tauto.
  - destruct (dep2 b1 c1 b2 c2 (b4 - a4 / a3 * b3) (c4 - a4 / a3 * c3)) as (t1 & t2 & t4 & H1 & H2 & Hn). exists t1, t2, (- (t4 * a4) / a3), t4. subst a1 a2. repeat split; [field; auto| | |tauto].
    + replace (t1 * b1 + t2 * b2 + - (t4 * a4) / a3 * b3 + t4 * b4) with (t1 * b1 + t2 * b2 + t4 * (b4 - a4 / a3 * b3)) by (field; auto). exact H1.
    + replace (t1 * c1 + t2 * c2 + - (t4 * a4) / a3 * c3 + t4 * c4) with (t1 * c1 + t2 * c2 + t4 * (c4 - a4 / a3 * c3)) by (field; auto). exact H2.
  - destruct (dep2 b1 c1 (b3 - a3 / a2 * b2) (c3 - a3 / a2 * c2) (b4 - a4 / a2 * b2) (c4 - a4 / a2 * c2)) as (t1 & t3 & t4 & H1 & H2 & Hn). exists t1, (- (t3 * a3 + t4 * a4) / a2), t3, t4. subst a1. repeat split; [field; auto| | |tauto].
    + replace (t1 * b1 + - (t3 * a3 + t4 * a4) / a2 * b2 + t3 * b3 + t4 * b4) with (t1 * b1 + t3 * (b3 - a3 / a2 * b2) + t4 * (b4 - a4 / a2 * b2)) by (field; auto). exact H1.
    + replace (t1 * c1 + - (t3 * a3 + t4 * a4) / a2 * c2 + t3 * c3 + t4 * c4) with (t1 * c1 + t3 * (c3 - a3 / a2 * c2) + t4 * (c4 - a4 / a2 * c2)) by (field; auto). exact H2.
  - destruct (dep2 (b2 - a2 / a1 * b1) (c2 - a2 / a1 * c1) (b3 - a3 / a1 * b1) (c3 - a3 / a1 * c1) (b4 - a4 / a1 * b1) (c4 - a4 / a1 * c1)) as (t2 & t3 & t4 & H1 & H2 & Hn).
    exists (- (t2 * a2 + t3 * a3 + t4 * a4) / a1), t2, t3, t4. repeat split; [field; auto| | |tauto].
    + replace (- (t2 * a2 + t3 * a3 + t4 * a4) / a1 * b1 + t2 * b2 + t3 * b3 + t4 * b4) with (t2 * (b2 - a2 / a1 * b1) + t3 * (b3 - a3 / a1 * b1) + t4 * (b4 - a4 / a1 * b1)) by (field; auto). exact H1.
    + replace (- (t2 * a2 + t3 * a3 + t4 * a4) / a1 * c1 + t2 * c2 + t3 * c3 + t4 * c4) with (t2 * (c2 - a2 / a1 * c1) + t3 * (c3 - a3 / a1 * c1) + t4 * (c4 - a4 / a1 * c1)) by (field; auto). exact H2.
Qed.
(** Non-negative weights can be moved along a direction with a positive entry until one vanishes. *)
Lemma move (a t : list R) : List.length a = List.length t -> List.Forall (fun x => 0 <= x) a -> (exists i, 0 < nth i t 0) ->
  exists r, 0 <= r /\ (forall i, 0 <= nth i a 0 - r * nth i t 0) /\ exists i, (i < List.length a)%nat /\ nth i a 0 - r * nth i t 0 = 0.
Proof.
  revert t. induction a as [|x a IH]; intros [|y t] HL HF (i & Hi); try discriminate; [destruct i; simpl in Hi; lra|].
  inversion HF as [|? ? Hx HF']; subst. simpl in HL. injection HL as HL.
  destruct (List.Exists_dec (fun y => 0 < y) t (fun y => Rlt_dec 0 y)) as [Hex|Hno].
  - assert (He : exists i, 0 < nth i t 0) by (apply List.Exists_exists in Hex; destruct Hex as (z & Hz & Hp); apply (In_nth _ _ 0) in Hz; destruct Hz as (j & _ & <-); eauto).
    destruct (IH t HL HF' He) as (r & Hr & Hall & j & Hj & Ej). destruct (Rle_dec 0 (x - r * y)) as [Hok|Hbad].
    + exists r. split; auto. split; [intros [|k]; simpl; auto|]. exists (S j). simpl. split; [lia|auto].
    + assert (Hy : 0 < y) by nra. exists (x / y). assert (Hxy : 0 <= x / y) by (apply Rmult_le_pos; [auto|left; now apply Rinv_0_lt_compat]). split; auto.
      assert (Hle : x / y <= r) by (apply (Rmult_le_reg_r y); auto; unfold Rdiv; rewrite Rmult_assoc, Rinv_l by lra; lra).
      split; [intros [|k]; simpl; [unfold Rdiv; rewrite Rmult_assoc, Rinv_l by lra; lra|]|exists 0%nat; simpl; split; [lia|field; lra]].
      specialize (Hall k). destruct (Rle_dec 0 (nth k t 0)); [nra|]. assert (0 <= nth k a 0); [|nra].
      destruct (Nat.lt_ge_cases k (List.length a)); [rewrite List.Forall_forall in HF'; apply HF'; now apply nth_In|rewrite nth_overflow by auto; lra].
  - assert (Hn : forall k, nth k t 0 <= 0).
    { intros k. destruct (Nat.lt_ge_cases k (List.length t)); [|rewrite nth_overflow by auto; lra]. apply Rnot_lt_le. intros Hp. apply Hno. apply List.Exists_exists. exists (nth k t 0). split; [now apply nth_In|auto]. }
    destruct i as [|i]; simpl in Hi; [|specialize (Hn i); lra]. exists (x / y). assert (Hxy : 0 <= x / y) by (apply Rmult_le_pos; [auto|left; now apply Rinv_0_lt_compat]). split; auto.
    split; [intros [|k]; simpl; [unfold Rdiv; rewrite Rmult_assoc, Rinv_l by lra; lra|]|exists 0%nat; simpl; split; [lia|field; lra]].
    specialize (Hn k). assert (0 <= nth k a 0); [|nra]. destruct (Nat.lt_ge_cases k (List.length a)); [rewrite List.Forall_forall in HF'; apply HF'; now apply nth_In|rewrite nth_overflow by auto; lra].
Qed.
Definition certificate3 (l : list plane) : Prop := exists h1 h2 h3 a1 a2 a3, (In h1 l /\ In h2 l /\ In h3 l) /\ (0 <= a1 /\ 0 <= a2 /\ 0 <= a3) /\
  a1 * hx h1 + a2 * hx h2 + a3 * hx h3 = 0 /\ a1 * hy h1 + a2 * hy h2 + a3 * hy h3 = 0 /\ a1 * snd h1 + a2 * snd h2 + a3 * snd h3 < 0.
Lemma three_suffice l : certificate l -> certificate3 l.
Proof.
  intros (h1 & h2 & h3 & h4 & a1 & a2 & a3 & a4 & (I1 & I2 & I3 & I4) & (P1 & P2 & P3 & P4) & Ex & Ey & Ec).
  destruct (dep3 h1 h2 h3 h4) as (s1 & s2 & s3 & s4 & Dx & Dy & Dc & Dn).
  assert (Ht : exists t1 t2 t3 t4, t1 * hx h1 + t2 * hx h2 + t3 * hx h3 + t4 * hx h4 = 0 /\ t1 * hy h1 + t2 * hy h2 + t3 * hy h3 + t4 * hy h4 = 0 /\
    t1 * snd h1 + t2 * snd h2 + t3 * snd h3 + t4 * snd h4 = 0 /\ (0 < t1 \/ 0 < t2 \/ 0 < t3 \/ 0 < t4)).
  { destruct (Rlt_dec 0 s1); [exists s1, s2, s3, s4; tauto|]. destruct (Rlt_dec 0 s2); [exists s1, s2, s3, s4; tauto|]. destruct (Rlt_dec 0 s3); [exists s1, s2, s3, s4; tauto|]. destruct (Rlt_dec 0 s4); [exists s1, s2, s3, s4; tauto|].
    exists (- s1), (- s2), (- s3), (- s4). repeat split; lra. }
  destruct Ht as (t1 & t2 & t3 & t4 & Tx & Ty & Tc & Tp).
  destruct (move (a1 :: a2 :: a3 :: a4 :: nil) (t1 :: t2 :: t3 :: t4 :: nil) eq_refl) as (r & Hr & Hall & i & Hi & E0).
  { repeat (apply List.Forall_cons; [assumption|]). apply List.Forall_nil. }
  { destruct Tp as [H|[H|[H|H]]]; [exists 0%nat|exists 1%nat|exists 2%nat|exists 3%nat]; exact H. }
  pose proof (Hall 0%nat) as N1. pose proof (Hall 1%nat) as N2. pose proof (Hall 2%nat) as N3. pose proof (Hall 3%nat) as N4. cbn [nth] in N1, N2, N3, N4. cbn [List.length] in Hi.
  set (b1 := a1 - r * t1) in *. set (b2 := a2 - r * t2) in *. set (b3 := a3 - r * t3) in *. set (b4 := a4 - r * t4) in *.
  assert (Bx : b1 * hx h1 + b2 * hx h2 + b3 * hx h3 + b4 * hx h4 = 0).
  { transitivity ((a1 * hx h1 + a2 * hx h2 + a3 * hx h3 + a4 * hx h4) - r * (t1 * hx h1 + t2 * hx h2 + t3 * hx h3 + t4 * hx h4)); [unfold b1, b2, b3, b4; ring|]. rewrite Ex, Tx. ring. }
  assert (By : b1 * hy h1 + b2 * hy h2 + b3 * hy h3 + b4 * hy h4 = 0).
  { transitivity ((a1 * hy h1 + a2 * hy h2 + a3 * hy h3 + a4 * hy h4) - r * (t1 * hy h1 + t2 * hy h2 + t3 * hy h3 + t4 * hy h4)); [unfold b1, b2, b3, b4; ring|]. rewrite Ey, Ty. ring. }
  assert (Bc : b1 * snd h1 + b2 * snd h2 + b3 * snd h3 + b4 * snd h4 < 0).
  { replace (b1 * snd h1 + b2 * snd h2 + b3 * snd h3 + b4 * snd h4) with ((a1 * snd h1 + a2 * snd h2 + a3 * snd h3 + a4 * snd h4) - r * (t1 * snd h1 + t2 * snd h2 + t3 * snd h3 + t4 * snd h4)) by (unfold b1, b2, b3, b4; ring). rewrite Tc. lra. }
  assert (Hz : b1 = 0 \/ b2 = 0 \/ b3 = 0 \/ b4 = 0) by (destruct i as [|[|[|[|i]]]]; cbn [nth] in E0; [left|right; left|right; right; left|right; right; right|lia]; exact E0).
  clearbody b1 b2 b3 b4. destruct Hz as [E|[E|[E|E]]]; rewrite E in *.
  - exists h2, h3, h4, b2, b3, b4. repeat split; auto; lra.
  - exists h1, h3, h4, b1, b3, b4. repeat split; auto; lra.
  - exists h1, h2, h4, b1, b2, b4. repeat split; auto; lra.
  - exists h1, h2, h3, b1, b2, b3. repeat split; auto; lra.
Qed.

(** ** Convex polygons *)
(** [o] is 1 for counter-clockwise, -1 for clockwise order. *)
Definition orientation (o : R) : Prop := o = 1 \/ o = -1.
Definition convex (o : R) (poly : list point) : Prop := forall e p, In e (edges poly) -> In p poly -> 0 <= o * side p e.
Definition in_region (o : R) (poly : list point) (q : point) : Prop := forall e, In e (edges poly) -> 0 <= o * side q e.
Lemma side_normal q e : side q e = project (normal e) (fst e) - project (normal e) q.
Proof. unfold side, normal, project. simpl. ring. Qed.
Definition plane_of (o : R) (e : point * point) : plane := ((o * fst (normal e), o * snd (normal e)), o * project (normal e) (fst e)).
Lemma plane_side o e q : holds (plane_of o e) q <-> 0 <= o * side q e.
Proof. unfold holds, plane_of. simpl. rewrite side_normal. unfold project, normal. simpl. split; intros; lra. Qed.

Definition lin (h : plane) (p : point) : R := hx h * fst p + hy h * snd p.
Lemma two_one (X Y : list point) h1 h2 h3 a1 a2 a3 : (forall p, In p X -> holds h1 p /\ holds h2 p) -> (forall q, In q Y -> holds h3 q) ->
  0 <= a1 -> 0 <= a2 -> 0 <= a3 -> a1 * hx h1 + a2 * hx h2 + a3 * hx h3 = 0 -> a1 * hy h1 + a2 * hy h2 + a3 * hy h3 = 0 -> a1 * snd h1 + a2 * snd h2 + a3 * snd h3 < 0 ->
  forall p q, In p X -> In q Y -> lin h3 q < lin h3 p.
Proof.
  intros HX HY P1 P2 P3 Ex Ey Ec p q Hp Hq. destruct (HX p Hp) as [B1 B2]. pose proof (HY q Hq) as B3. unfold holds in B1, B2, B3. unfold lin.
  assert (E : a1 * (hx h1 * fst p + hy h1 * snd p) + a2 * (hx h2 * fst p + hy h2 * snd p) + a3 * (hx h3 * fst p + hy h3 * snd p) = 0).
  { transitivity ((a1 * hx h1 + a2 * hx h2 + a3 * hx h3) * fst p + (a1 * hy h1 + a2 * hy h2 + a3 * hy h3) * snd p); [ring|]. rewrite Ex, Ey. ring. }
  assert (M1 : a1 * (hx h1 * fst p + hy h1 * snd p) <= a1 * snd h1) by (apply Rmult_le_compat_l; auto).
  assert (M2 : a2 * (hx h2 * fst p + hy h2 * snd p) <= a2 * snd h2) by (apply Rmult_le_compat_l; auto).
  assert (M3 : a3 * (hx h3 * fst q + hy h3 * snd q) <= a3 * snd h3) by (apply Rmult_le_compat_l; auto).
  assert (D : a3 * ((hx h3 * fst q + hy h3 * snd q) - (hx h3 * fst p + hy h3 * snd p)) < 0) by lra.
  apply Rnot_le_lt. intros Hc. assert (0 <= a3 * ((hx h3 * fst q + hy h3 * snd q) - (hx h3 * fst p + hy h3 * snd p))) by (apply Rmult_le_pos; lra). lra.
Qed.
Lemma lin_plane o e p : lin (plane_of o e) p = o * project (normal e) p.
Proof. unfold lin, plane_of, project. simpl. ring. Qed.

(** If no edge of either polygon separates them, the polygons share a point. *)
Lemma separating_axis o1 o2 a b : orientation o1 -> orientation o2 -> a <> nil -> b <> nil -> convex o1 a -> convex o2 b ->
  (forall e, In e (edges a) \/ In e (edges b) -> ~ separates a b (normal e)) -> exists q, in_region o1 a q /\ in_region o2 b q.
Proof.
  intros O1 O2 Ha Hb Ca Cb Hsep. set (l := map (plane_of o1) (edges a) ++ map (plane_of o2) (edges b)).
  destruct (plane_feasible l) as [(q & Hq)|Hc].
  { exists q. split; intros e He; apply plane_side, Hq; unfold l; apply in_or_app; [left|right]; now apply in_map. }
  exfalso. apply three_suffice in Hc. destruct Hc as (h1 & h2 & h3 & a1 & a2 & a3 & (I1 & I2 & I3) & (P1 & P2 & P3) & Ex & Ey & Ec).
  assert (Hin : forall h, In h l -> (exists e, In e (edges a) /\ h = plane_of o1 e /\ forall p, In p a -> holds h p) \/ (exists e, In e (edges b) /\ h = plane_of o2 e /\ forall p, In p b -> holds h p)).
  { intros h Hh. unfold l in Hh. apply in_app_or in Hh. destruct Hh as [Hh|Hh]; apply in_map_iff in Hh; destruct Hh as (e & <- & He); [left|right]; exists e; repeat split; auto; intros p Hp; apply plane_side; auto. }
  assert (FB : forall X h3 e, (forall p q, In p a -> In q b -> lin h3 q < lin h3 p) -> h3 = plane_of o2 e -> In e (edges b) -> X).
  { intros X h e Hl -> He. exfalso. apply (Hsep e); auto. destruct O2 as [-> | ->]; [right|left]; intros p q Hp Hq; specialize (Hl p q Hp Hq); rewrite !lin_plane in Hl; lra. }
  assert (FA : forall X h3 e, (forall p q, In p b -> In q a -> lin h3 q < lin h3 p) -> h3 = plane_of o1 e -> In e (edges a) -> X).
  { intros X h e Hl -> He. exfalso. apply (Hsep e); auto. destruct O1 as [-> | ->]; [left|right]; intros p q Hp Hq; specialize (Hl q p Hq Hp); rewrite !lin_plane in Hl; lra. }
  destruct a as [|pa ta] eqn:Ea; [easy|]. destruct b as [|pb tb] eqn:Eb; [easy|]. rewrite <- Ea, <- Eb in *.
  assert (Pa : In pa a) by (rewrite Ea; simpl; auto). assert (Pb : In pb b) by (rewrite Eb; simpl; auto).
  destruct (Hin h1 I1) as [(e1 & E1 & Q1 & B1)|(e1 & E1 & Q1 & B1)], (Hin h2 I2) as [(e2 & E2 & Q2 & B2)|(e2 & E2 & Q2 & B2)], (Hin h3 I3) as [(e3 & E3 & Q3 & B3)|(e3 & E3 & Q3 & B3)].
  - assert (lin h3 pa < lin h3 pa) by (apply (two_one a a h1 h2 h3 a1 a2 a3); auto). lra.
  - apply (FB _ h3 e3); auto. apply (two_one a b h1 h2 h3 a1 a2 a3); auto.
  - apply (FB _ h2 e2); auto. apply (two_one a b h1 h3 h2 a1 a3 a2); auto; lra.
  - apply (FA _ h1 e1); auto. apply (two_one b a h2 h3 h1 a2 a3 a1); auto; lra.
  - apply (FB _ h1 e1); auto. apply (two_one a b h2 h3 h1 a2 a3 a1); auto; lra.
  - apply (FA _ h2 e2); auto. apply (two_one b a h1 h3 h2 a1 a3 a2); auto; lra.
  - apply (FA _ h3 e3); auto. apply (two_one b a h1 h2 h3 a1 a2 a3); auto.
  - assert (lin h3 pb < lin h3 pb) by (apply (two_one b b h1 h2 h3 a1 a2 a3); auto). lra.
Qed.

(** ** Hulls *)
Inductive hull (poly : list point) : point -> Prop :=
| hull_vertex p : In p poly -> hull poly p
| hull_segment p q t : hull poly p -> hull poly q -> 0 <= t <= 1 -> hull poly (t * fst p + (1 - t) * fst q, t * snd p + (1 - t) * snd q).
Lemma hull_project poly n c : (forall p, In p poly -> project n p < c) -> forall q, hull poly q -> project n q < c.
Proof.
  intros H q Hq. induction Hq as [p Hp|p q t _ IHp _ IHq Ht]; auto. unfold project in *. simpl.
  replace (fst n * (t * fst p + (1 - t) * fst q) + snd n * (t * snd p + (1 - t) * snd q)) with (t * (fst n * fst p + snd n * snd p) + (1 - t) * (fst n * fst q + snd n * snd q)) by ring.
  destruct (Req_dec t 0) as [->|]; [lra|]. assert (t * (fst n * fst p + snd n * snd p) < t * c) by (apply Rmult_lt_compat_l; lra).
  assert ((1 - t) * (fst n * fst q + snd n * snd q) <= (1 - t) * c) by (apply Rmult_le_compat_l; lra). lra.
Qed.
Lemma hull_between poly n c : (forall p, In p poly -> c <= project n p) -> forall q, hull poly q -> c <= project n q.
Proof.
  intros H q Hq. induction Hq as [p Hp|p q t _ IHp _ IHq Ht]; auto. unfold project in *. simpl.
  replace (fst n * (t * fst p + (1 - t) * fst q) + snd n * (t * snd p + (1 - t) * snd q)) with (t * (fst n * fst p + snd n * snd p) + (1 - t) * (fst n * fst q + snd n * snd q)) by ring.
  assert (t * c <= t * (fst n * fst p + snd n * snd p)) by (apply Rmult_le_compat_l; lra).
  assert ((1 - t) * c <= (1 - t) * (fst n * fst q + snd n * snd q)) by (apply Rmult_le_compat_l; lra). lra.
Qed.
(** Every vertex off an edge is strictly on its inner side. *)
Definition strictly_convex (o : R) (poly : list point) : Prop := orientation o /\ (3 <= List.length poly)%nat /\
  forall i j e p, nth_error (edges poly) i = Some e -> nth_error poly j = Some p -> j <> i -> j <> (S i mod List.length poly)%nat -> 0 < o * side p e.
Lemma edge_nth poly i e : nth_error (edges poly) i = Some e -> nth_error poly i = Some (fst e) /\ nth_error poly (S i mod List.length poly) = Some (snd e).
Proof.
  intros H. destruct poly as [|p0 l]; [destruct i; discriminate|]. assert (Hi : (i < S (List.length l))%nat) by (change (S (List.length l)) with (List.length (p0 :: l)); rewrite <- edges_length; apply nth_error_Some; congruence).
  assert (G : forall {A B} (a : list A) (b : list B) i e, nth_error (combine a b) i = Some e -> nth_error a i = Some (fst e) /\ nth_error b i = Some (snd e)).
  { clear. intros A B a. induction a as [|x a IH]; intros [|y b] [|i] e H; simpl in *; try discriminate; [injection H as <-; auto|apply IH; auto]. }
  apply G in H. destruct H as [H1 H2]. split; auto. simpl List.length. destruct (Nat.eq_dec i (List.length l)) as [->|Hne].
  - rewrite Nat.mod_same by lia. rewrite nth_error_app2, Nat.sub_diag in H2 by lia. exact H2.
  - rewrite Nat.mod_small by lia. simpl. rewrite nth_error_app1 in H2 by lia. exact H2.
Qed.
Lemma side_ends p p' : side p (p, p') = 0 /\ side p' (p, p') = 0.
Proof. unfold side. simpl. split; ring. Qed.
Lemma strictly_is_convex o poly : strictly_convex o poly -> convex o poly.
Proof.
  intros (O & L & H) e p He Hp. apply In_nth_error in He, Hp. destruct He as (i & He), Hp as (j & Hp). destruct (edge_nth _ _ _ He) as [F1 F2].
  destruct e as [u v]. simpl in F1, F2. destruct (side_ends u v) as [S1 S2].
  destruct (Nat.eq_dec j i) as [->|N1]; [assert (p = u) as -> by congruence; rewrite S1; lra|].
  destruct (Nat.eq_dec j (S i mod List.length poly)) as [->|N2]; [assert (p = v) as -> by congruence; rewrite S2; lra|]. left. eapply H; eauto.
Qed.
Lemma crossing (s : point -> R) : forall l x, 0 <= s x -> s (List.last l x) <= 0 -> l <> nil -> exists i u v, nth_error (x :: l) i = Some u /\ nth_error l i = Some v /\ 0 <= s u /\ s v <= 0.
Proof.
  induction l as [|y l IH]; intros x Hx Hl Hne; [easy|]. destruct (Rle_dec (s y) 0) as [Hy|Hy]; [exists 0%nat, x, y; simpl; auto|].
  destruct l as [|z l]; [simpl in Hl; lra|]. destruct (IH y) as (i & u & v & H1 & H2 & H3 & H4); [lra| |discriminate|].
  - refine (Rle_trans _ _ _ _ Hl). apply Req_le. f_equal. clear. revert z. induction l as [|w l IHl]; intros z; auto. simpl. apply (IHl w).
  - exists (S i), u, v. auto.
Qed.
Lemma triangle_hull o poly p u v q : orientation o -> In p poly -> In u poly -> In v poly -> 0 < o * side p (u, v) ->
  0 <= o * side q (p, u) -> 0 <= o * side q (u, v) -> 0 <= o * side q (v, p) -> hull poly q.
Proof.
  intros O Hp Hu Hv HA H1 H2 H3. set (A := o * side p (u, v)) in *. set (w0 := o * side q (u, v)) in *. set (wu := o * side q (v, p)) in *. set (wv := o * side q (p, u)) in *.
  assert (HS : w0 + wu + wv = A) by (unfold w0, wu, wv, A, side; simpl; ring).
  assert (Hx : A * fst q = w0 * fst p + wu * fst u + wv * fst v) by (unfold w0, wu, wv, A, side; simpl; ring).
  assert (Hy : A * snd q = w0 * snd p + wu * snd u + wv * snd v) by (unfold w0, wu, wv, A, side; simpl; ring).
  clearbody A w0 wu wv. destruct (Req_dec (wu + wv) 0) as [E0|N0].
  - assert (wu = 0) by lra. assert (wv = 0) by lra. subst wu wv. assert (w0 = A) by lra. subst w0. assert (E : q = p); [|subst; now apply hull_vertex].
    destruct p as [px py], q as [qx qy]. simpl in *. f_equal; apply (Rmult_eq_reg_l A); lra.
  - set (m := (wu / (wu + wv) * fst u + (1 - wu / (wu + wv)) * fst v, wu / (wu + wv) * snd u + (1 - wu / (wu + wv)) * snd v)).
    assert (Hpos : 0 < wu + wv) by lra. assert (Hinv : 0 < / (wu + wv)) by now apply Rinv_0_lt_compat. assert (HinvA : 0 < / A) by now apply Rinv_0_lt_compat.
    assert (Hm : hull poly m).
    { apply hull_segment; try now apply hull_vertex. split; [apply Rmult_le_pos; lra|]. apply (Rmult_le_reg_r (wu + wv)); auto. unfold Rdiv. rewrite Rmult_assoc, Rinv_l by lra. lra. }
    assert (E : q = (w0 / A * fst p + (1 - w0 / A) * fst m, w0 / A * snd p + (1 - w0 / A) * snd m)).
    { destruct q as [qx qy]. unfold m. simpl in *. f_equal; apply (Rmult_eq_reg_l A); try lra; [rewrite Hx|rewrite Hy]; rewrite <- HS; field; split; lra. }
    rewrite E. apply hull_segment; auto; [now apply hull_vertex|]. split; [apply Rmult_le_pos; lra|]. apply (Rmult_le_reg_r A); auto. unfold Rdiv. rewrite Rmult_assoc, Rinv_l by lra. lra.
Qed.
Lemma side_swap q p u : side q (p, u) = - side q (u, p).
Proof. unfold side. simpl. ring. Qed.
Lemma region_hull o poly q : strictly_convex o poly -> in_region o poly q -> hull poly q.
Proof.
  intros (O & L & H) Hq. destruct poly as [|p0 [|p1 l]]; simpl in L; try lia.
  assert (He0 : nth_error (edges (p0 :: p1 :: l)) 0 = Some (p0, p1)) by reflexivity.
  set (n := List.length l). assert (Hlast : In (List.last l p1, p0) (edges (p0 :: p1 :: l))).
  { clear -L. change (edges (p0 :: p1 :: l)) with ((p0, p1) :: combine (p1 :: l) (l ++ [p0])). right.
    generalize p1 as x. induction l as [|y l IH]; intros x; [simpl; auto|]. change (combine (x :: y :: l) ((y :: l) ++ [p0])) with ((x, y) :: combine (y :: l) (l ++ [p0])). right.
    destruct l as [|z l]; [simpl; auto|]. assert (EL : List.last (y :: z :: l) x = List.last (z :: l) y) by (simpl; clear; revert z; induction l as [|w l IHl]; intros z; auto; simpl; apply (IHl w)). rewrite EL. apply IH. simpl in *. lia. }
  destruct (crossing (fun p => o * side q (p0, p)) l p1) as (i & u & v & H1 & H2 & H3 & H4).
  - apply (Hq (p0, p1)). now left.
  - specialize (Hq _ Hlast). rewrite side_swap. lra.
  - intros ->. simpl in L. lia.
  - assert (Hi : (i < n)%nat) by (apply nth_error_Some; unfold n; congruence).
    assert (Hu : nth_error (p0 :: p1 :: l) (S i) = Some u) by exact H1. assert (Hv : nth_error (p0 :: p1 :: l) (S (S i)) = Some v) by exact H2.
    assert (He : exists e, nth_error (edges (p0 :: p1 :: l)) (S i) = Some e).
    { destruct (nth_error (edges (p0 :: p1 :: l)) (S i)) eqn:E; eauto. apply nth_error_None in E. rewrite edges_length in E. simpl in E. unfold n in Hi. lia. }
    destruct He as (e & He). destruct (edge_nth _ _ _ He) as [F1 F2]. rewrite Nat.mod_small in F2 by (simpl; unfold n in Hi; lia).
    assert (e = (u, v)) as -> by (destruct e; simpl in *; congruence).
    apply (triangle_hull o _ p0 u v); auto; try (eapply nth_error_In; eauto; fail); [now left| | |].
    + apply (H (S i) 0%nat (u, v) p0); auto. rewrite Nat.mod_small by (simpl; unfold n in Hi; lia). lia.
    + apply Hq. eapply nth_error_In; eauto.
    + rewrite side_swap. lra.
Qed.
Lemma hull_region o poly q : convex o poly -> hull poly q -> in_region o poly q.
Proof.
  intros C Hq e He. rewrite side_normal. set (n := (- o * fst (normal e), - o * snd (normal e))).
  assert (B : - o * project (normal e) (fst e) <= project n q).
  { apply (hull_between poly); auto. intros p Hp. specialize (C e p He Hp). rewrite side_normal in C. unfold n, project in *. simpl in *. lra. }
  unfold n, project in *. simpl in *. lra.
Qed.
