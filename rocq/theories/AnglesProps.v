(** C32: position angles. *)
From Verif Require Import Np NpFacts AnglesModel.
From Coq Require Import Reals Lra ZArith Psatz.
Open Scope R_scope.

Definition principal (x : R) : Prop := - (PI / 2) <= x <= PI / 2.

(** The loop acts on each angle by itself: stopping early stops at a fixed point. *)
Lemma settled_fixed pa : settled pa = true -> map wrap_step pa = pa.
Proof.
  unfold settled. rewrite forallb_forall. intros H. rewrite <- (map_id pa) at 2. apply map_ext_in. intros x Hx. specialize (H x Hx). unfold wrap_step.
  destruct (Rlt_dec (PI / 2) x); [discriminate|]. destruct (Rlt_dec x (PI / 2)); [discriminate|reflexivity].
Qed.
Lemma iter_map {A} (f : A -> A) n l : Nat.iter n (map f) l = map (Nat.iter n f) l.
Proof. induction n as [|n IH]; simpl; [now rewrite map_id|]. rewrite IH, map_map. reflexivity. Qed.
Lemma iter_succ {A} (f : A -> A) n x : Nat.iter (S n) f x = Nat.iter n f (f x).
Proof. induction n as [|n IH]; simpl in *; [reflexivity|]. now rewrite IH. Qed.
Lemma wrap_iter n : forall pa, wrap n pa = map (Nat.iter n wrap_step) pa.
Proof.
  induction n as [|n IH]; intros pa; simpl; [now rewrite map_id|]. destruct (settled pa) eqn:E.
  - pose proof (settled_fixed _ E) as F. change (map (fun r => wrap_step (Nat.iter n wrap_step r)) pa) with (map (Nat.iter (S n) wrap_step) pa). rewrite <- iter_map.
    assert (G : forall m, Nat.iter m (map wrap_step) pa = pa) by (induction m as [|m IHm]; simpl; [|rewrite IHm]; auto). now rewrite G.
  - rewrite IH, map_map. apply map_ext. intros x. symmetry. apply iter_succ.
Qed.

(** Each step changes the angle by a multiple of pi. *)
Lemma iter_multiple n x : exists k : Z, Nat.iter n wrap_step x = x + IZR k * PI.
Proof.
  induction n as [|n (k & IH)]; [exists 0%Z; simpl; lra|]. cbn [Nat.iter nat_rect]. change (nat_rect (fun _ => R) x (fun _ => wrap_step) n) with (Nat.iter n wrap_step x). rewrite IH. unfold wrap_step.
  destruct (Rlt_dec _ _); [exists (k - 1)%Z; rewrite minus_IZR; lra|]. destruct (Rlt_dec _ _); [exists (k + 1)%Z; rewrite plus_IZR; lra|]. exists k. lra.
Qed.
(** What rotation and reversal should give, up to a multiple of pi *)
Definition turned (from_deg rotate reverse : bool) (x : R) : R :=
  (if reverse then -1 else 1) * ((if from_deg then x * (PI / 180) else x) + (if rotate then PI / 2 else 0)).
Theorem C32_multiple_of_pi : forall from_deg rotate reverse max_try pa,
  Forall2 (fun x y => exists k : Z, y = turned from_deg rotate reverse x + IZR k * PI) pa (convert_pa from_deg rotate reverse max_try pa).
Proof.
  intros from_deg rotate reverse max_try pa. unfold convert_pa. rewrite wrap_iter. induction pa as [|x pa IH].
  - destruct from_deg, rotate, reverse; constructor.
  - assert (H : forall f g h : R -> R, Forall2 (fun x y => exists k : Z, y = turned from_deg rotate reverse x + IZR k * PI) pa (map f (map g (map h pa))) -> 
      (exists k : Z, f (g (h x)) = turned from_deg rotate reverse x + IZR k * PI) -> Forall2 (fun x y => exists k : Z, y = turned from_deg rotate reverse x + IZR k * PI) (x :: pa) (map f (map g (map h (x :: pa))))) by (intros; simpl; constructor; auto).
    destruct (iter_multiple max_try (if from_deg then deg2rad x else x)) as (k & Hk). unfold turned.
    assert (R : exists j : Z, rotate_pa (Nat.iter max_try wrap_step (if from_deg then deg2rad x else x)) = (if from_deg then deg2rad x else x) + PI / 2 + IZR j * PI).
    { rewrite Hk. unfold rotate_pa. destruct (Rlt_dec _ _); [exists (k - 1)%Z; rewrite minus_IZR; lra|exists k; lra]. }
    destruct R as (j & Hj). unfold deg2rad in *.
    destruct from_deg, rotate, reverse; simpl map in *; (constructor; [|exact IH]); unfold turned; first [rewrite Hj|rewrite Hk]; first [exists k; lra|exists j; lra|exists (- k)%Z; rewrite opp_IZR; lra|exists (- j)%Z; rewrite opp_IZR; lra].
Qed.

(** Rotation and reversal keep the principal interval. *)
Lemma rotate_principal x : - PI <= x <= PI -> principal (rotate_pa x).
Proof. pose proof PI_RGT_0. unfold principal, rotate_pa. intros Hx. destruct (Rlt_dec 0 x); lra. Qed.
Lemma principal_rest x (rotate reverse : bool) : principal x -> principal ((if reverse then fun x : R => x * -1 else fun x : R => x) ((if rotate then rotate_pa else fun x : R => x) x)).
Proof.
  intros H. pose proof PI_RGT_0. assert (principal ((if rotate then rotate_pa else fun x : R => x) x)). { destruct rotate; auto. apply rotate_principal. unfold principal in H. lra. }
  revert H1. generalize ((if rotate then rotate_pa else fun x : R => x) x). intros y Hy. destruct reverse; auto. unfold principal in *. lra.
Qed.

(** ** Which angles end in the principal interval *)
Section Walk.
Lemma step_up x : x < PI / 2 -> wrap_step x = x + PI.
Proof. intros H. unfold wrap_step. destruct (Rlt_dec _ _); [lra|]. destruct (Rlt_dec _ _); [auto|lra]. Qed.
Lemma step_down x : PI / 2 < x -> wrap_step x = x - PI.
Proof. intros H. unfold wrap_step. destruct (Rlt_dec _ _); [auto|lra]. Qed.
Lemma step_half : wrap_step (PI / 2) = PI / 2.
Proof. unfold wrap_step. destruct (Rlt_dec (PI / 2) (PI / 2)); [lra|reflexivity]. Qed.
(** An angle inside moves out and back. *)
Lemma inside_even r n : - (PI / 2) < r < PI / 2 -> Nat.even n = true -> Nat.iter n wrap_step r = r.
Proof.
  intros H He. apply Nat.even_spec in He. destruct He as (m & ->). pose proof PI_RGT_0. induction m as [|m IH]; [reflexivity|]. replace (2 * S m)%nat with (S (S (2 * m))) by lia. rewrite !iter_succ. rewrite (step_up r), (step_down (r + PI)) by lra.
  replace (r + PI - PI) with r by lra. exact IH.
Qed.
Lemma inside_odd r n : - (PI / 2) < r < PI / 2 -> Nat.even n = false -> Nat.iter n wrap_step r = r + PI.
Proof.
  intros H Ho. destruct n as [|n]; [discriminate|]. rewrite Nat.even_succ, <- Nat.negb_even in Ho. cbn [Nat.iter nat_rect]. change (nat_rect (fun _ => R) r (fun _ => wrap_step) n) with (Nat.iter n wrap_step r).
  rewrite inside_even by (auto; destruct (Nat.even n); auto; discriminate). apply step_up. lra.
Qed.
(** From k turns away, k steps lead inside. *)
Lemma walk_up k : forall r n, - (PI / 2) < r <= PI / 2 -> (k <= n)%nat -> Nat.iter n wrap_step (r - INR k * PI) = Nat.iter (n - k) wrap_step r.
Proof.
  pose proof PI_RGT_0. induction k as [|k IH]; intros r n Hr Hn; [simpl INR; rewrite Nat.sub_0_r; f_equal; lra|].
  destruct n as [|n]; [lia|]. rewrite iter_succ. pose proof (pos_INR k). rewrite S_INR. rewrite step_up by nra. replace (r - (INR k + 1) * PI + PI) with (r - INR k * PI) by ring. rewrite IH by (auto; lia). f_equal.
Qed.
Lemma walk_down k : forall r n, - (PI / 2) < r <= PI / 2 -> (k <= n)%nat -> Nat.iter n wrap_step (r + INR k * PI) = Nat.iter (n - k) wrap_step r.
Proof.
  pose proof PI_RGT_0. induction k as [|k IH]; intros r n Hr Hn; [simpl INR; rewrite Nat.sub_0_r; f_equal; lra|].
  destruct n as [|n]; [lia|]. rewrite iter_succ. pose proof (pos_INR k). rewrite S_INR. rewrite step_down by nra. replace (r + (INR k + 1) * PI - PI) with (r + INR k * PI) by ring. rewrite IH by (auto; lia). f_equal.
Qed.
Lemma far_up k n r : - (PI / 2) < r <= PI / 2 -> (n <= k)%nat -> Nat.iter n wrap_step (r - INR k * PI) = r - INR (k - n) * PI.
Proof.
  pose proof PI_RGT_0. revert k. induction n as [|n IH]; intros k Hr Hn; [rewrite Nat.sub_0_r; reflexivity|]. destruct k as [|k]; [lia|]. rewrite iter_succ. pose proof (pos_INR k). rewrite S_INR, step_up by nra.
  replace (r - (INR k + 1) * PI + PI) with (r - INR k * PI) by ring. rewrite IH by (auto; lia). reflexivity.
Qed.
Lemma far_down k n r : - (PI / 2) < r <= PI / 2 -> (n <= k)%nat -> Nat.iter n wrap_step (r + INR k * PI) = r + INR (k - n) * PI.
Proof.
  pose proof PI_RGT_0. revert k. induction n as [|n IH]; intros k Hr Hn; [rewrite Nat.sub_0_r; reflexivity|]. destruct k as [|k]; [lia|]. rewrite iter_succ. pose proof (pos_INR k). rewrite S_INR, step_down by nra.
  replace (r + (INR k + 1) * PI - PI) with (r + INR k * PI) by ring. rewrite IH by (auto; lia). reflexivity.
Qed.
End Walk.
(** [k] is the number of half turns between the angle and the open interval.  The angle
    ends inside exactly when the passes suffice to get there and an even number of them
    is left over; with the default of four, when k is 0, 2 or 4 on either side. *)
Theorem C32_principal_iff : forall max_try r k x, - (PI / 2) < r < PI / 2 -> x = r + INR k * PI \/ x = r - INR k * PI ->
  exists y, convert_pa false false false max_try [x] = [y] /\ (principal y <-> (k <= max_try)%nat /\ Nat.even (max_try - k) = true).
Proof.
  intros n r k x Hr Hx. unfold convert_pa. rewrite wrap_iter. eexists. split; [reflexivity|]. pose proof PI_RGT_0 as P.
  destruct (le_lt_dec k n) as [Hk|Hk].
  - assert (E : Nat.iter n wrap_step x = Nat.iter (n - k) wrap_step r) by (destruct Hx as [-> | ->]; [apply walk_down|apply walk_up]; lra || auto). rewrite E.
    destruct (Nat.even (n - k)) eqn:Ee; [rewrite inside_even by auto|rewrite inside_odd by auto]; unfold principal; split; intros HH; try lra; try (destruct HH; discriminate). auto.
  - assert (E : Nat.iter n wrap_step x = r + INR (k - n) * PI \/ Nat.iter n wrap_step x = r - INR (k - n) * PI) by (destruct Hx as [-> | ->]; [left; apply far_down|right; apply far_up]; lra || lia).
    assert (1 <= INR (k - n)) by (change 1 with (INR 1); apply le_INR; lia). unfold principal. split; [|lia]. intros HH. exfalso. destruct E as [E|E]; rewrite E in HH; nra.
Qed.
(** Angles already in the interval, with any number of passes that is even *)
Theorem C32_kept_partial : forall rotate reverse max_try pa, Nat.even max_try = true -> List.Forall principal pa ->
  List.Forall principal (convert_pa false rotate reverse max_try pa).
Proof.
  intros rotate reverse n pa He H. unfold convert_pa. rewrite wrap_iter. rewrite List.Forall_forall in *. intros y Hy.
  assert (K : forall x, principal x -> principal (Nat.iter n wrap_step x)).
  { intros x Hx. pose proof PI_RGT_0. unfold principal in Hx. destruct (Req_dec x (PI / 2)) as [->|N1].
    - assert (E : forall m, Nat.iter m wrap_step (PI / 2) = PI / 2) by (induction m as [|m IH]; [auto|rewrite iter_succ, step_half; auto]). rewrite E. unfold principal. lra.
    - destruct (Req_dec x (- (PI / 2))) as [->|N2].
      + destruct n as [|n]; [unfold principal; simpl; lra|]. rewrite iter_succ, step_up by lra. replace (- (PI / 2) + PI) with (PI / 2) by lra.
        assert (E : forall m, Nat.iter m wrap_step (PI / 2) = PI / 2) by (induction m as [|m IH]; [auto|rewrite iter_succ, step_half; auto]). rewrite E. unfold principal. lra.
      + rewrite inside_even by (auto; lra). unfold principal. lra. }
  assert (E : exists x, In x pa /\ y = (if reverse then fun x : R => x * -1 else fun x : R => x) ((if rotate then rotate_pa else fun x : R => x) (Nat.iter n wrap_step x))).
  { destruct rotate, reverse; rewrite ?map_map in Hy; apply in_map_iff in Hy; destruct Hy as (x & <- & Hx); eauto. }
  destruct E as (x & Hx & ->). apply principal_rest. auto.
Qed.
(** The claim is false: 135 degrees is returned as it is, and so is minus 135 degrees
    turned to 225. *)
Theorem C32_unwrapped_refuted : convert_pa false false false default_max_try [3 * PI / 4; - (3 * PI / 4)] = [3 * PI / 4; 5 * PI / 4] /\
  ~ principal (3 * PI / 4) /\ ~ principal (5 * PI / 4).
Proof.
  pose proof PI_RGT_0. unfold principal. split; [|split; lra]. unfold convert_pa, default_max_try. rewrite wrap_iter. cbn [map]. f_equal; [|f_equal].
  - replace (3 * PI / 4) with (- (PI / 4) + INR 1 * PI) at 1 by (simpl; field). rewrite walk_down by (lra || lia). change (4 - 1)%nat with 3%nat. rewrite inside_odd by (auto; lra). field.
  - replace (- (3 * PI / 4)) with (PI / 4 - INR 1 * PI) by (simpl; field). rewrite walk_up by (lra || lia). change (4 - 1)%nat with 3%nat. rewrite inside_odd by (auto; lra). field.
Qed.

(** rectify_catalog: rotation brings clipped angles into the interval, without rotation
    they stay within the clip range. *)
Theorem C32_rectify_rotate : forall lo hi reverse pa, - PI <= lo -> lo <= hi -> hi <= PI -> List.Forall principal (rectify_pa lo hi true reverse pa) /\
  (List.Forall (fun x => lo <= x <= hi) pa -> Forall2 (fun x y => exists k : Z, y = turned false true reverse x + IZR k * PI) pa (rectify_pa lo hi true reverse pa)).
Proof.
  intros lo hi reverse pa H1 H2 H3. assert (C : forall x, lo <= clip x lo hi <= hi). { intros x. unfold clip, Rmin, Rmax. destruct (Rle_dec x lo); destruct (Rle_dec _ hi); lra. } split.
  - rewrite List.Forall_forall. intros y Hy. unfold rectify_pa in Hy.
    assert (E : exists x, y = (if reverse then fun x : R => x * -1 else fun x : R => x) (rotate_pa (clip x lo hi))) by (destruct reverse; rewrite ?map_map in Hy; apply in_map_iff in Hy; destruct Hy as (x & <- & _); eauto).
    destruct E as (x & ->). assert (P : principal (rotate_pa (clip x lo hi))) by (apply rotate_principal; specialize (C x); lra). apply (principal_rest _ false reverse P).
  - intros H. induction H as [|x pa Hx H IH]; [unfold rectify_pa; destruct reverse; constructor|].
    assert (Ec : clip x lo hi = x) by (unfold clip; rewrite Rmax_left, Rmin_left; lra).
    unfold rectify_pa in *. destruct reverse; cbn [map]; (constructor; [|exact IH]); rewrite Ec; unfold rotate_pa, turned; destruct (Rlt_dec 0 x);
      first [exists 0%Z; lra|exists 1%Z; lra|exists (-1)%Z; lra].
Qed.
Example C32_case : - (PI / 2) < 0 < PI / 2 /\ (2 <= default_max_try)%nat /\ Nat.even (default_max_try - 2) = true /\ ~ principal (0 + INR 2 * PI) /\
  convert_pa false false false default_max_try [0 + INR 2 * PI] = [0].
Proof.
  pose proof PI_RGT_0. split; [lra|]. split; [unfold default_max_try; lia|]. split; [reflexivity|]. split; [unfold principal; simpl; lra|].
  unfold convert_pa, default_max_try. rewrite wrap_iter. cbn [map]. rewrite walk_down by (lra || lia). rewrite inside_even by (auto; lra). reflexivity.
Qed.
Example C32_kept_case : List.Forall principal [0; PI / 4; - (PI / 2)].
Proof. pose proof PI_RGT_0. repeat (apply List.Forall_cons; [unfold principal; lra|]). apply List.Forall_nil. Qed.
Example C32_rectify_case : - PI <= -2 /\ -2 <= 2 /\ 2 <= PI.
Proof. pose proof PI2_3_2. lra. Qed.
Print Assumptions C32_multiple_of_pi.
Print Assumptions C32_principal_iff.
Print Assumptions C32_kept_partial.
Print Assumptions C32_unwrapped_refuted.
Print Assumptions C32_rectify_rotate.
