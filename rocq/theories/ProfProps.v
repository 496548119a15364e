(** C73: profiles and pictures of mixtures show what they say. *)
From Coq Require Import Reals.
From Coquelicot Require Import Coquelicot.
From Verif Require Import Np.
From Coq Require Import Permutation Lra Lia Psatz.
From Verif Require Import CornerModel CornerFacts CornerProps ProfModel.
Import ListNotations.
Open Scope R_scope.

(** ** Sersic profiles *)
(** The regularised incomplete gamma function of one shape and its inverse *)
Record gamma_spec (a : R) (G Gi : R -> R -> R) (gam : R) : Prop := {
  g_zero : G a 0 = 0;
  g_pos : 0 < gam;
  g_derive : forall x, 0 < x -> is_derive (G a) x (Rpower x (a - 1) * exp (- x) / gam);
  g_right : forall e, 0 < e -> exists d, 0 < d /\ forall x, 0 < x < d -> Rabs (G a x) < e;
  g_inv : forall p, 0 <= p < 1 -> 0 <= Gi a p /\ G a (Gi a p) = p;
  g_limit : forall e, 0 < e -> exists M, forall x, M < x -> Rabs (G a x - 1) < e }.
Lemma power_pos x a : 0 < x -> power x a = Rpower x a.
Proof. intros H. unfold power. destruct (Rlt_dec 0 x); [reflexivity|contradiction]. Qed.
Lemma Rpower_pos x a : 0 < Rpower x a. Proof. unfold Rpower. apply exp_pos. Qed.
Lemma inv_pos a G Gi gam p : gamma_spec a G Gi gam -> 0 < p < 1 -> 0 < Gi a p.
Proof.
  intros S Hp. destruct (g_inv _ _ _ _ S p ltac:(lra)) as [A B]. destruct A as [A|A]; [exact A|]. exfalso. rewrite <- A, (g_zero _ _ _ _ S) in B. lra.
Qed.
(** The rise of the function *)
Lemma G_increasing a G Gi gam x y : gamma_spec a G Gi gam -> 0 < x < y -> G a x < G a y.
Proof.
  intros S H. apply (incr_function (G a) 0 p_infty (fun x => Rpower x (a - 1) * exp (- x) / gam)); cbn; try lra; auto.
  - intros z Hz _. now apply (g_derive _ _ _ _ S).
  - intros z Hz _. apply Rdiv_lt_0_compat; [|apply (g_pos _ _ _ _ S)]. apply Rmult_lt_0_compat; [apply Rpower_pos|apply exp_pos].
Qed.
Lemma G_bounds a G Gi gam x : gamma_spec a G Gi gam -> 0 < x -> 0 < G a x < 1.
Proof.
  intros S H. split.
  - destruct (Rlt_le_dec 0 (G a x)) as [|L]; [assumption|]. exfalso. pose proof (G_increasing _ _ _ _ (x / 2) x S ltac:(lra)) as I.
    assert (E : 0 < - G a (x / 2)) by lra. destruct (g_right _ _ _ _ S _ E) as (d & Hd & Lim). set (z := Rmin (x / 4) (d / 2)).
    assert (Hz : 0 < z) by (unfold z; apply Rmin_glb_lt; lra). assert (z <= x / 4) by apply Rmin_l. assert (z <= d / 2) by apply Rmin_r.
    specialize (Lim z ltac:(lra)). pose proof (G_increasing _ _ _ _ z (x / 2) S ltac:(lra)) as I2. assert (G a z < 0) by lra. rewrite Rabs_left in Lim by assumption. lra.
  - destruct (Rlt_le_dec (G a x) 1) as [|L]; [assumption|]. exfalso. pose proof (G_increasing _ _ _ _ x (2 * x) S ltac:(lra)) as I.
    assert (E : 0 < G a (2 * x) - 1) by lra. destruct (g_limit _ _ _ _ S _ E) as (M & Lim). set (z := Rmax (4 * x) (M + 1)). assert (4 * x <= z) by apply Rmax_l. assert (M + 1 <= z) by apply Rmax_r.
    specialize (Lim z ltac:(lra)). pose proof (G_increasing _ _ _ _ (2 * x) z S ltac:(lra)) as I2. rewrite Rabs_pos_eq in Lim by lra. lra.
Qed.
Section Sersic.
Variables (G Gi : R -> R -> R) (gam n rh : R).
Hypothesis Sp : gamma_spec (2 * n) G Gi gam.
Hypothesis Hn : 0 < n. Hypothesis Hrh : 0 < rh.
Notation alpha := (Gi (2 * n) (1 / 2)).
Lemma alpha_pos : 0 < alpha. Proof. apply (inv_pos _ _ _ _ _ Sp). lra. Qed.
Lemma r0_pos : 0 < r0_of Gi n rh.
Proof. unfold r0_of. rewrite power_pos by apply alpha_pos. apply Rdiv_lt_0_compat; [exact Hrh|apply Rpower_pos]. Qed.
Lemma scaled r : 0 < r -> power (r / r0_of Gi n rh) (1 / n) = power (r / rh) (1 / n) * alpha.
Proof.
  intros Hr. pose proof alpha_pos as Ha. rewrite (power_pos (r / r0_of Gi n rh)) by (apply Rdiv_lt_0_compat; [exact Hr|exact r0_pos]). rewrite (power_pos (r / rh)) by now apply Rdiv_lt_0_compat.
  unfold r0_of. rewrite (power_pos _ n Ha). replace (r / (rh / Rpower alpha n)) with (r / rh * Rpower alpha n) by (assert (0 < Rpower alpha n) by apply Rpower_pos; field; repeat split; lra).
  rewrite <- Rpower_mult_distr; [|now apply Rdiv_lt_0_compat|apply Rpower_pos]. rewrite Rpower_mult. replace (n * (1 / n)) with 1 by (field; lra). now rewrite Rpower_1.
Qed.
End Sersic.
(** One at the half-light radius, positive, decreasing outwards *)
Theorem C73_profile G Gi gam n rh : gamma_spec (2 * n) G Gi gam -> 0 < n -> 0 < rh ->
  sersic_plain Gi n rh rh = 1 /\ (forall x, 0 < sersic_plain Gi n rh x) /\ (forall x y, 0 <= x < y -> sersic_plain Gi n rh y < sersic_plain Gi n rh x).
Proof.
  intros S Hn Hr. pose proof (r0_pos G Gi gam n rh S Hr) as H0. split; [|split].
  - unfold sersic_plain. rewrite (scaled G Gi gam n rh S Hn Hr rh Hr). replace (rh / rh) with 1 by (field; lra). rewrite power_pos by lra.
    unfold Rpower. rewrite ln_1, Rmult_0_r, exp_0, Rmult_1_l. replace (- Gi (2 * n) (1 / 2) + Gi (2 * n) (1 / 2)) with 0 by ring. apply exp_0.
  - intros x. apply exp_pos.
  - intros x y H. apply exp_increasing. apply Rplus_lt_compat_r. apply Ropp_lt_contravar.
    assert (0 < y / r0_of Gi n rh) by (apply Rdiv_lt_0_compat; lra). rewrite (power_pos (y / _)) by assumption. unfold power. destruct (Rlt_dec 0 (x / r0_of Gi n rh)) as [P|P]; [|apply Rpower_pos].
    apply exp_increasing. apply Rmult_lt_compat_l; [apply Rdiv_lt_0_compat; lra|]. apply ln_increasing; [exact P|]. apply Rmult_lt_compat_r; [now apply Rinv_0_lt_compat|lra].
Qed.
(** The curve of enclosed light grows by the light of each ring, r times the profile, from nothing at the centre to one *)
Theorem C73_enclosed_light G Gi gam n rh : gamma_spec (2 * n) G Gi gam -> 0 < n -> 0 < rh ->
  (exists c, 0 < c /\ forall r, 0 < r -> is_derive (cfd_sersic Gi G n rh) r (c * (2 * PI * r * sersic_plain Gi n rh r))) /\
  cfd_sersic Gi G n rh 0 = 0 /\ (forall r, 0 < r -> 0 < cfd_sersic Gi G n rh r < 1) /\ (forall e, 0 < e -> exists M, forall r, M < r -> Rabs (cfd_sersic Gi G n rh r - 1) < e).
Proof.
  intros S Hn Hr. pose proof (alpha_pos G Gi gam n S) as Ha. pose proof (r0_pos G Gi gam n rh S Hr) as H0. pose proof (g_pos _ _ _ _ S) as Hg.
  set (al := Gi (2 * n) (1 / 2)) in *. set (r0 := r0_of Gi n rh) in *. pose proof PI_RGT_0 as Hpi.
  assert (X : forall r, 0 < r -> 0 < power (r / rh) (1 / n) * al). { intros r H. rewrite power_pos by now apply Rdiv_lt_0_compat. apply Rmult_lt_0_compat; [apply Rpower_pos|exact Ha]. }
  split; [|split; [|split]].
  - exists (/ (gam * n * r0 ^ 2 * (2 * PI) * exp al)). assert (0 < exp al) by apply exp_pos. assert (0 < r0 ^ 2) by (apply pow_lt; exact H0).
    assert (Hc : 0 < gam * n * r0 ^ 2 * (2 * PI) * exp al) by (repeat (apply Rmult_lt_0_compat; try assumption); lra).
    split; [now apply Rinv_0_lt_compat|]. intros r Hr1. set (u := power (r / rh) (1 / n) * al). assert (Hu : 0 < u) by now apply X.
    assert (Eu : u = Rpower (r / r0) (1 / n)). { unfold u. rewrite <- (power_pos (r / r0)) by now apply Rdiv_lt_0_compat. symmetry. apply (scaled G Gi gam n rh S Hn Hr r Hr1). }
    assert (Dx : is_derive (fun r => power (r / rh) (1 / n) * al) r (u / (n * r))).
    { apply (is_derive_ext_loc (fun r => exp (1 / n * ln (r / rh)) * al)).
      - exists (mkposreal r Hr1). intros y Hy. change (Rabs (y - r) < r) in Hy. apply Rabs_def2 in Hy. rewrite power_pos by (apply Rdiv_lt_0_compat; lra). reflexivity.
      - auto_derive; [apply Rdiv_lt_0_compat; lra|]. unfold u. rewrite power_pos by now apply Rdiv_lt_0_compat. unfold Rpower. unfold Rdiv. set (e := exp _). field. lra. }
    unfold cfd_sersic. fold al. pose proof (is_derive_comp (G (2 * n)) (fun r => power (r / rh) (1 / n) * al) r _ _ (g_derive _ _ _ _ S u Hu) Dx) as K. cbn beta in K.
    change scal with Rmult in K. unfold sersic_plain. fold al. fold r0. rewrite power_pos by now apply Rdiv_lt_0_compat. rewrite <- Eu.
    match goal with |- is_derive _ _ ?v => match type of K with is_derive _ _ ?w => replace v with w; [exact K|] end end.
    change (scal (u / (n * r)) (Rpower u (2 * n - 1) * exp (- u) / gam)) with (u / (n * r) * (Rpower u (2 * n - 1) * exp (- u) / gam)).
    assert (Pu : u * Rpower u (2 * n - 1) = (r / r0) ^ 2). { rewrite <- (Rpower_1 u Hu) at 1. rewrite <- Rpower_plus. replace (1 + (2 * n - 1)) with (2 * n) by ring. rewrite Eu at 1. rewrite Rpower_mult. replace (1 / n * (2 * n)) with (INR 2) by (cbn; field; lra). rewrite Rpower_pow by now apply Rdiv_lt_0_compat. reflexivity. }
    replace (u / (n * r) * (Rpower u (2 * n - 1) * exp (- u) / gam)) with (u * Rpower u (2 * n - 1) * exp (- u) / (gam * n * r)) by (field; lra).
    rewrite Pu, exp_plus. field. repeat split; lra.
  - unfold cfd_sersic, power. destruct (Rlt_dec 0 (0 / rh)) as [L|L]; [exfalso; unfold Rdiv in L; rewrite Rmult_0_l in L; lra|]. rewrite Rmult_0_l. apply (g_zero _ _ _ _ S).
  - intros r H. unfold cfd_sersic. fold al. apply (G_bounds _ _ _ _ _ S). now apply X.
  - intros e He. destruct (g_limit _ _ _ _ S e He) as (M & L). set (M' := Rmax M 1).
    exists (rh * Rpower (M' / al) n). intros r H. unfold cfd_sersic. fold al. apply L. assert (1 <= M') by apply Rmax_r. assert (M <= M') by apply Rmax_l. assert (P : 0 < M' / al) by (apply Rdiv_lt_0_compat; lra).
    assert (Rr : 0 < rh * Rpower (M' / al) n) by (apply Rmult_lt_0_compat; [exact Hr|apply Rpower_pos]). assert (Hr' : 0 < r / rh) by (apply Rdiv_lt_0_compat; lra).
    rewrite power_pos by exact Hr'. apply Rle_lt_trans with M'; [assumption|]. replace M' with (M' / al * al) at 1 by (field; lra). apply Rmult_lt_compat_r; [exact Ha|].
    rewrite <- (Rpower_1 (M' / al) P) at 1. replace 1 with (n * (1 / n)) at 1 by (field; lra). rewrite <- Rpower_mult. unfold Rpower at 1 3. apply exp_increasing. apply Rmult_lt_compat_l; [apply Rdiv_lt_0_compat; lra|].
    apply ln_increasing; [apply Rpower_pos|]. apply (Rmult_lt_reg_l rh); [exact Hr|]. replace (rh * (r / rh)) with r by (field; lra). exact H.
Qed.
(** The radius of a fraction encloses that fraction, the one of a half is the half-light radius *)
Theorem C73_radius_of_fraction G Gi gam n rh f : gamma_spec (2 * n) G Gi gam -> 0 < n -> 0 < rh -> 0 < f < 1 ->
  exists r, rfrac_from_halfn Gi f n rh = Some r /\ 0 < r /\ cfd_sersic Gi G n rh r = f /\ (f = 1 / 2 -> r = rh) /\ (forall k, 0 < k -> rfrac_from_halfn Gi f n (k * rh) = Some (k * r)).
Proof.
  intros S Hn Hr Hf. pose proof (alpha_pos G Gi gam n S) as Ha. pose proof (inv_pos _ _ _ _ f S Hf) as Hb. pose proof (r0_pos G Gi gam n rh S Hr) as H0.
  unfold rfrac_from_halfn. destruct (Rlt_dec f 1); [|lra]. set (be := Gi (2 * n) f) in *. set (al := Gi (2 * n) (1 / 2)) in *.
  assert (E : r0_of Gi n rh * power be n = rh * (Rpower be n / Rpower al n)). { unfold r0_of. fold al. rewrite !power_pos by assumption. field. apply Rgt_not_eq, Rpower_pos. }
  rewrite E. assert (Pq : 0 < Rpower be n / Rpower al n) by (apply Rdiv_lt_0_compat; apply Rpower_pos).
  exists (rh * (Rpower be n / Rpower al n)). split; [reflexivity|]. split; [now apply Rmult_lt_0_compat|]. split; [|split].
  - unfold cfd_sersic. fold al. replace (rh * (Rpower be n / Rpower al n) / rh) with (Rpower be n * Rpower (/ al) n).
    + rewrite power_pos by (apply Rmult_lt_0_compat; apply Rpower_pos). rewrite <- Rpower_mult_distr by apply Rpower_pos. rewrite !Rpower_mult. replace (n * (1 / n)) with 1 by (field; lra).
      rewrite !Rpower_1 by (try assumption; now apply Rinv_0_lt_compat). replace (be * / al * al) with be by (field; lra). apply (g_inv _ _ _ _ S f). lra.
    + replace (Rpower (/ al) n) with (/ Rpower al n). * field. split; [apply Rgt_not_eq, Rpower_pos|lra]. * unfold Rpower. rewrite ln_Rinv by exact Ha. rewrite <- exp_Ropp. f_equal. ring.
  - intros ->. fold al in be. unfold be. fold al. field. apply Rgt_not_eq, Rpower_pos.
  - intros k Hk. f_equal. unfold r0_of. fold al. rewrite !power_pos by assumption. field. apply Rgt_not_eq, Rpower_pos.
Qed.
(** The smoothed profile is the plain one without smoothing, beyond fifteen dispersions, and where the series failed; beyond
    one dispersion it never falls below two thirds of the plain one *)
Theorem C73_smoothed Gi series n rh sigma x :
  (sigma <= 0 \/ sigma * 15 <= x \/ series n rh sigma x = None -> sersic_profile Gi series n rh sigma x = sersic_plain Gi n rh x) /\
  (0 < sigma -> x < sigma * 15 -> forall v, series n rh sigma x = Some v -> x <= sigma \/ sersic_plain Gi n rh x <= 3 / 2 * v -> sersic_profile Gi series n rh sigma x = v) /\
  (sigma < x -> 2 / 3 * sersic_plain Gi n rh x <= sersic_profile Gi series n rh sigma x).
Proof.
  assert (P : 0 < sersic_plain Gi n rh x) by apply exp_pos. unfold sersic_profile. cbv zeta. set (s := sersic_plain Gi n rh x) in *.
  split; [|split].
  - intros C. destruct (Rle_dec sigma 0); [reflexivity|]. destruct (Rlt_dec x (sigma * 15)); [|reflexivity]. destruct C as [C|[C|C]]; [lra|lra|]. now rewrite C.
  - intros H1 H2 v E C. destruct (Rle_dec sigma 0); [lra|]. destruct (Rlt_dec x (sigma * 15)); [|lra]. rewrite E. destruct (Rlt_dec (3 / 2 * v) s); [|reflexivity]. destruct (Rlt_dec sigma x); [|reflexivity]. destruct C; lra.
  - intros H. destruct (Rle_dec sigma 0); [lra|]. destruct (Rlt_dec x (sigma * 15)); [|lra]. destruct (series n rh sigma x) as [v|]; [|lra]. destruct (Rlt_dec (3 / 2 * v) s); [|lra]. destruct (Rlt_dec sigma x); [lra|contradiction].
Qed.
(** The density of one point is too large by the square root of two pi *)
Theorem C73_normal_refuted sxx sxy syy x y : let det := sxx * syy - sxy * sxy in 0 < det ->
  normal_at sxx sxy syy x y = sqrt (2 * PI) * (exp (- (syy * x ^ 2 - 2 * sxy * x * y + sxx * y ^ 2) / (2 * det)) / (2 * PI * sqrt det)).
Proof.
  intros det Hd. pose proof PI_RGT_0 as Hpi. unfold normal_at. cbv zeta. fold det. rewrite sqrt_mult by lra.
  assert (Q : 0 < sqrt (2 * PI)) by (apply sqrt_lt_R0; lra). assert (D : 0 < sqrt det) by now apply sqrt_lt_R0. assert (E : 2 * PI = sqrt (2 * PI) * sqrt (2 * PI)) by (rewrite sqrt_sqrt; lra).
  rewrite E at 3. replace (- (1 / 2) * (x * (syy / det * x - sxy / det * y) + y * (- sxy / det * x + sxx / det * y))) with (- (syy * x ^ 2 - 2 * sxy * x * y + sxx * y ^ 2) / (2 * det)) by (field; lra).
  field. lra.
Qed.
(** ** The table of amplitudes *)
Theorem C73_table n rh a : sumr a <> 0 -> sumr (skipn 2 (table_row n rh a)) = 1 /\ List.length (table_row n rh a) = (2 + List.length a)%nat /\
  forall i, nth i (skipn 2 (table_row n rh a)) 0 = nth i a 0 / sumr a.
Proof.
  intros H. unfold table_row. cbn [app skipn]. split; [|split].
  - rewrite (sumr_ext _ (fun v => / sumr a * v)) by (intros; unfold Rdiv; ring). rewrite sumr_map_scale, map_id. field. exact H.
  - cbn [List.length]. now rewrite map_length.
  - intros i. rewrite <- (map_nth (fun v => v / sumr a)). f_equal. unfold Rdiv. ring.
Qed.
(** The dispersions are not told apart by their columns: all below 0.05 are written 0.0 *)
Theorem C73_columns_refuted r : 0 <= r < 1 / 20 -> tenths r = 0%Z.
Proof.
  intros H. unfold tenths, round_even. rewrite (int_part_unique (10 * r) 0) by lra. cbv zeta. destruct (Rlt_dec _ _) as [|N]; [reflexivity|]. exfalso. apply N. lra.
Qed.

(** ** The best sample *)
Lemma argmin_from_spec l : forall best v i, (best < i)%nat ->
  (argmin_from best v i l = best /\ forall k, (k < List.length l)%nat -> v <= nth k l 0) \/
  exists k, (k < List.length l)%nat /\ argmin_from best v i l = (i + k)%nat /\ nth k l 0 < v /\ (forall m, (m < List.length l)%nat -> nth k l 0 <= nth m l 0) /\ forall m, (m < k)%nat -> nth k l 0 < nth m l 0.
Proof.
  induction l as [|x l IH]; intros best v i Hb; cbn [argmin_from List.length].
  - left. split; [reflexivity|]. intros k Hk. lia.
  - destruct (Rlt_dec x v) as [L|L].
    + right. destruct (IH i x (S i) ltac:(lia)) as [[E A]|(k & Hk & E & Lk & A & B)].
      * exists 0%nat. split; [lia|]. split; [lia|]. cbn [nth]. split; [exact L|]. split; [|intros m Hm; lia]. intros [|m] Hm; cbn [nth]; [lra|]. apply A. lia.
      * exists (S k). split; [lia|]. split; [lia|]. cbn [nth]. split; [lra|]. split; intros [|m] Hm; cbn [nth]; try lra; [apply A; lia|apply B; lia].
    + destruct (IH best v (S i) ltac:(lia)) as [[E A]|(k & Hk & E & Lk & A & B)].
      * left. split; [exact E|]. intros [|m] Hm; cbn [nth]; [lra|]. apply A. lia.
      * right. exists (S k). split; [lia|]. split; [lia|]. cbn [nth]. split; [exact Lk|]. split; intros [|m] Hm; cbn [nth]; try lra; [apply A; lia|apply B; lia].
Qed.
Lemma argmin_spec l k : argmin l = Some k -> (k < List.length l)%nat /\ (forall m, (m < List.length l)%nat -> nth k l 0 <= nth m l 0) /\ forall m, (m < k)%nat -> nth k l 0 < nth m l 0.
Proof.
  destruct l as [|x l]; [discriminate|]. cbn [argmin]. intros K. injection K as K. destruct (argmin_from_spec l 0 x 1 ltac:(lia)) as [[E A]|(j & Hj & E & Lj & A & B)]; rewrite K in E; clear K; subst k.
  - cbn [List.length nth]. split; [lia|]. split; [|intros m Hm; lia]. intros [|m] Hm; cbn [nth]; [lra|]. apply A. lia.
  - cbn [List.length]. split; [lia|]. split; intros [|m] Hm; cbn [nth Nat.add]; try lra; [apply A; lia|apply B; lia].
Qed.
(** All parameters of the best fit are those of one sample, the first of greatest posterior *)
Theorem C73_best {V : Type} (samples : list (string * list V)) nlnp : nlnp <> [] -> (forall s, In s samples -> List.length (snd s) = List.length nlnp) ->
  exists k best, infer true samples nlnp = Some best /\ (k < List.length nlnp)%nat /\ (forall m, (m < List.length nlnp)%nat -> nth k nlnp 0 <= nth m nlnp 0) /\ (forall m, (m < k)%nat -> nth k nlnp 0 < nth m nlnp 0) /\
    Forall2 (fun s b => fst b = fst s /\ nth_error (snd s) k = Some (snd b)) samples best.
Proof.
  intros Hne Hl. unfold infer. destruct (argmin nlnp) as [k|] eqn:E; [|destruct nlnp; [contradiction|discriminate]]. destruct (argmin_spec _ _ E) as (Hk & A & B). exists k.
  assert (M : exists best, mapM (fun s => match nth_error (snd s) k with Some v => Some (fst s, v) | None => None end) samples = Some best /\ Forall2 (fun s b => fst b = fst s /\ nth_error (snd s) k = Some (snd b)) samples best).
  { clear - Hl Hk. induction samples as [|s t IH]; [exists []; split; [reflexivity|constructor]|]. destruct IH as (best & E & F); [intros; apply Hl; now right|]. cbn [mapM].
    destruct (nth_error (snd s) k) as [v|] eqn:N; [|apply nth_error_None in N; rewrite (Hl s (or_introl eq_refl)) in N; lia]. rewrite E. exists ((fst s, v) :: best). split; [reflexivity|]. constructor; [split; [reflexivity|exact N]|exact F]. }
  destruct M as (best & M & F). exists best. auto.
Qed.

(** ** Enclosed light *)
Lemma linspace_edges a b n : a < b -> (2 <= n)%nat -> linspace a b n = edges (a, b) (n - 1).
Proof. intros H Hn. unfold linspace, edges. rewrite (range_outer (a, b) a b (conj H (or_introl eq_refl))). f_equal. f_equal. lia. Qed.
Lemma cumsum_length acc l : List.length (cumsum_ acc l) = List.length l.
Proof. revert acc. induction l as [|x l IH]; intros acc; cbn; [reflexivity|]. now rewrite IH. Qed.
Lemma cumsum_nth l : forall acc k, (k < List.length l)%nat -> nth k (cumsum_ acc l) 0 = acc + sumr (firstn (S k) l).
Proof.
  induction l as [|x l IH]; intros acc k Hk; [cbn in Hk; lia|]. cbn [cumsum_ firstn]. rewrite sumr_cons. destruct k as [|k]; cbn [nth].
  - cbn [firstn]. unfold sumr. cbn. lra.
  - cbn [List.length] in Hk. rewrite IH by lia. lra.
Qed.
Lemma firstn_map_seq (f : nat -> R) n k : (k <= n)%nat -> firstn k (map f (seq 0 n)) = map f (seq 0 k).
Proof. intros H. rewrite firstn_map. f_equal. replace n with (k + (n - k))%nat by lia. rewrite seq_app, firstn_app, seq_length, Nat.sub_diag. cbn [firstn]. rewrite app_nil_r. apply firstn_all2. now rewrite seq_length. Qed.
(** The first bins together: everything below an edge *)
Lemma first_bins a b n k x w : a < b -> (k < n)%nat -> a <= x ->
  sumr (map (fun i => if in_bin (edges (a, b) n) i x then w else 0) (seq 0 (S k))) =
  if Rlt_dec x (a + INR (k + 1) * ((b - a) / INR n)) then w else if Nat.eqb (k + 1) n then (if Req_EM_T x b then w else 0) else 0.
Proof.
  intros Hab Hk Hx. pose proof (range_outer (a, b) a b (conj Hab (or_introl eq_refl))) as O. assert (Pn : 0 < INR n) by (apply lt_0_INR; lia).
  set (d := (b - a) / INR n). assert (Hd : 0 < d) by (apply Rdiv_lt_0_compat; lra). assert (Eb : b = a + INR n * d) by (unfold d; field; lra).
  assert (Mono : forall i j, (i <= j)%nat -> a + INR i * d <= a + INR j * d). { intros i j H. apply le_INR in H. apply Rplus_le_compat_l, Rmult_le_compat_r; lra. }
  assert (In_k : forall j, (j < n)%nat -> in_bin (edges (a, b) n) j x = true -> (forall i, (i < n)%nat -> i <> j -> in_bin (edges (a, b) n) i x = false)).
  { intros j Hj B i Hi Hne. destruct (bins_partition (a, b) n a b x O ltac:(lia)) as [P Q]. destruct (within a b x) eqn:W.
    - apply within_spec in W. destruct (P W) as (j' & Hj' & B' & U). assert (j = j') by (destruct (Nat.eq_dec j j'); [assumption|]; rewrite U in B by assumption; discriminate). subst j'. now apply U.
    - rewrite Q in B; [discriminate| |exact Hj]. intros K. apply within_spec in K. congruence. }
  assert (Zero : (forall i, (i <= k)%nat -> in_bin (edges (a, b) n) i x = false) -> sumr (map (fun i => if in_bin (edges (a, b) n) i x then w else 0) (seq 0 (S k))) = 0).
  { intros Z. rewrite (sumr_ext _ (fun _ => 0)); [apply sumr_map_zero|]. intros i Hi. apply in_seq in Hi. now rewrite Z by lia. }
  destruct (Rlt_dec x (a + INR (k + 1) * d)) as [L|L].
  - assert (W : a <= x <= b). { split; [exact Hx|]. rewrite Eb. pose proof (Mono (k + 1)%nat n ltac:(lia)). lra. }
    destruct (bins_partition (a, b) n a b x O ltac:(lia)) as [P _]. destruct (P W) as (j & Hj & B & U).
    assert (Hjk : (j <= k)%nat). { destruct (Nat.le_gt_cases j k) as [|G]; [assumption|]. exfalso. apply (in_bin_spec (a, b) n a b j x O Hj) in B. fold d in B. destruct B as [B _]. pose proof (Mono (k + 1)%nat j ltac:(lia)). lra. }
    apply (sumr_one _ (S k) j); [lia|now rewrite B|]. intros i Hi Hne. now rewrite U by (try assumption; lia).
  - destruct (Nat.eqb_spec (k + 1) n) as [En|En]; [destruct (Req_EM_T x b) as [Ex|Ex]|].
    + assert (B : in_bin (edges (a, b) n) k x = true). { apply (in_bin_spec (a, b) n a b k x O Hk). fold d. split; [|right; auto]. rewrite Ex, Eb. apply Mono. lia. }
      apply (sumr_one _ (S k) k); [lia|now rewrite B|]. intros i Hi Hne. now rewrite (In_k k Hk B) by (try assumption; lia).
    + apply Zero. intros i Hi. apply not_true_is_false. intros B. apply (in_bin_spec (a, b) n a b i x O ltac:(lia)) in B. fold d in B. destruct B as [_ [B|[_ B]]]; [|contradiction]. pose proof (Mono (i + 1)%nat (k + 1)%nat ltac:(lia)). lra.
    + apply Zero. intros i Hi. apply not_true_is_false. intros B. apply (in_bin_spec (a, b) n a b i x O ltac:(lia)) in B. fold d in B. destruct B as [_ [B|[B _]]]; [|lia]. pose proof (Mono (i + 1)%nat (k + 1)%nat ltac:(lia)). lra.
Qed.
Lemma minimum_spec l : l <> [] -> (forall y, In y l -> minimum l <= y) /\ In (minimum l) l.
Proof.
  destruct l as [|x l]; [contradiction|]. intros _. cbn [minimum]. revert x. induction l as [|z l IH]; intros x; cbn [fold_left]; [split; [intros y [<-|[]]; lra|now left]|].
  destruct (IH (Rmin x z)) as [A B]. split.
  - intros y [<-|[<-|Hy]]; [apply Rle_trans with (Rmin x z); [apply A; now left|apply Rmin_l]|apply Rle_trans with (Rmin x z); [apply A; now left|apply Rmin_r]|apply A; now right].
  - destruct B as [B|B]; [|right; now right]. rewrite <- B. unfold Rmin. destruct (Rle_dec x z); [now left|right; now left].
Qed.
Definition light (r values : list R) (f : R -> bool) : R := sumr (map (fun p => if f (fst p) then snd p else 0) (combine r values)).
Lemma radius_dist cx cy pix : map (fun p => dist_euc cx cy (fst p) (snd p)) pix = map (radius cx cy) pix.
Proof. apply map_ext. intros p. unfold dist_euc, radius, Rsqr. f_equal. ring. Qed.
(** The curves are the light of the pixels nearer than each radius (the last includes those at it), in units of the light of
    the image within half its width when asked for *)
Theorem C73_enclosed pix data model nx cx cy n rn rr eed eem : (2 <= n)%nat -> minimum (map (fun p => dist_euc cx cy (fst p) (snd p)) pix) < maximum (map (fun p => dist_euc cx cy (fst p) (snd p)) pix) / (14 / 10) ->
  ee_plot pix data model nx cx cy n rn = Some (rr, eed, eem) ->
  let r := map (fun p => dist_euc cx cy (fst p) (snd p)) pix in
  let unit := if rn then light r data (fun v => if Rlt_dec v (nx / 2) then true else false) else 1 in
  List.length rr = n /\ List.length eed = (n - 1)%nat /\ List.length eem = (n - 1)%nat /\
  nth 0 rr 0 = minimum r /\ nth (n - 1) rr 0 = maximum r / (14 / 10) /\
  forall k, (k < n - 1)%nat ->
    nth k eed 0 = light r data (fun v => if Rlt_dec v (nth (k + 1) rr 0) then true else if Nat.eqb (k + 2) n then (if Req_EM_T v (nth (k + 1) rr 0) then true else false) else false) / unit /\
    nth k eem 0 = light r model (fun v => if Rlt_dec v (nth (k + 1) rr 0) then true else if Nat.eqb (k + 2) n then (if Req_EM_T v (nth (k + 1) rr 0) then true else false) else false) / unit.
Proof.
  rewrite radius_dist. intros Hn. unfold ee_plot. generalize (map (radius cx cy) pix) as r. cbv zeta. intros r Hlt E. set (unit := if rn then light r data _ else 1). revert E.
  assert (Nr : r <> []) by (intros Z; rewrite Z in Hlt; cbn in Hlt; lra). destruct (minimum_spec r Nr) as [Mn _].
  set (lo := minimum r) in *. set (hi := maximum r / (14 / 10)) in *. assert (Hm : forall (A : Type) (u v : A), match r with [] => u | _ :: _ => v end = v) by (intros; destruct r; [contradiction|reflexivity]). rewrite Hm. clear Hm. destruct (Rlt_dec hi lo); [lra|].
  rewrite (linspace_edges lo hi n Hlt Hn). set (N := (n - 1)%nat) in *. assert (HN : (0 < N)%nat) by (unfold N; lia). assert (PN : 0 < INR N) by now apply lt_0_INR.
  pose proof (conj Hlt (or_introl eq_refl) : range_of (lo, hi) lo hi) as Rg. pose proof (range_outer _ _ _ Rg) as O.
  destruct (histogram (edges (lo, hi) N) r (Some data)) as [hD|] eqn:HD; [|discriminate]. destruct (histogram (edges (lo, hi) N) r (Some model)) as [hM|] eqn:HM; [|discriminate].
  intros K. injection K as <- <- <-.
  assert (Core : forall vals h k, histogram (edges (lo, hi) N) r (Some vals) = Some h -> (k < N)%nat ->
    List.length h = N /\ nth k (cumsum_ 0 h) 0 = light r vals (fun v => if Rlt_dec v (nth (k + 1) (edges (lo, hi) N) 0) then true else if Nat.eqb (k + 2) n then (if Req_EM_T v (nth (k + 1) (edges (lo, hi) N) 0) then true else false) else false)).
  { intros vals h k Eh Hk. destruct (C72_counts_1d _ _ _ _ _ _ _ Rg HN Eh) as (Lh & _ & _). split; [exact Lh|]. rewrite cumsum_nth by lia. rewrite Rplus_0_l.
    unfold histogram in Eh. destruct (weighted r (Some vals)) as [xw|] eqn:W; [|discriminate]. injection Eh as <-. apply weighted_spec in W. destruct W as [W _]. cbn [weights_of] in W.
    rewrite edges_length. replace (N + 1 - 1)%nat with N by lia. rewrite firstn_map_seq by lia. rewrite sumr_swap, W. unfold light. apply sumr_ext. intros [v w] Hv. cbn [fst snd].
    assert (Hv' : lo <= v) by (apply Mn; now apply in_combine_l in Hv). rewrite (first_bins lo hi N k v w Hlt Hk Hv'). rewrite (edges_nth _ _ _ _ (k + 1) O) by lia.
    destruct (Rlt_dec v _); [reflexivity|]. replace (k + 2 =? n)%nat with (k + 1 =? N)%nat by (destruct (Nat.eqb_spec (k + 1) N), (Nat.eqb_spec (k + 2) n); try reflexivity; unfold N in *; lia).
    destruct (Nat.eqb_spec (k + 1) N) as [Ek|]; [|reflexivity]. rewrite Ek. replace (lo + INR N * ((hi - lo) / INR N)) with hi by (field; lra). destruct (Req_EM_T v hi); reflexivity. }
  assert (Lc : forall l : list R, List.length (if rn then map (fun v => v / sumr (map (fun p => if Rlt_dec (fst p) (nx / 2) then snd p else 0) (combine r data))) l else l) = List.length l) by (intros; destruct rn; [apply map_length|reflexivity]).
  rewrite !Lc, !cumsum_length. destruct (Core data hD 0%nat HD HN) as [LD _]. destruct (Core model hM 0%nat HM HN) as [LM _].
  split; [rewrite edges_length; unfold N; lia|]. split; [exact LD|]. split; [exact LM|]. split; [rewrite (edges_nth _ _ _ _ 0 O) by lia; cbn [INR]; ring|]. split; [rewrite (edges_nth _ _ _ _ N O) by lia; field; lra|].
  assert (Un : forall l k, (k < List.length l)%nat -> nth k (if rn then map (fun v => v / sumr (map (fun p => if Rlt_dec (fst p) (nx / 2) then snd p else 0) (combine r data))) l else l) 0 = nth k l 0 / unit).
  { intros l k Hk. unfold unit. destruct rn; [|field]. rewrite (nth_indep _ 0 ((fun v => v / sumr (map (fun p => if Rlt_dec (fst p) (nx / 2) then snd p else 0) (combine r data))) 0)) by now rewrite map_length.
    rewrite (map_nth (fun v => v / _)). f_equal. unfold light. apply sumr_ext. intros p _. now destruct (Rlt_dec (fst p) (nx / 2)). }
  intros k Hk. rewrite !Un by (rewrite cumsum_length; lia). destruct (Core data hD k HD Hk) as [_ ->]. destruct (Core model hM k HM Hk) as [_ ->]. split; reflexivity.
Qed.
(** An image whose nearest pixel is farther than the farthest over 1.4 raises *)
Theorem C73_narrow_refuted pix data model nx cx cy n rn : maximum (map (fun p => dist_euc cx cy (fst p) (snd p)) pix) / (14 / 10) < minimum (map (fun p => dist_euc cx cy (fst p) (snd p)) pix) -> ee_plot pix data model nx cx cy n rn = None.
Proof. rewrite radius_dist. intros H. unfold ee_plot. destruct (map (radius cx cy) pix) as [|r1 rt] eqn:E; [reflexivity|]. destruct (Rlt_dec _ _); [reflexivity|contradiction]. Qed.
Lemma combine_at {A B : Type} (l : list A) : forall (m : list B) k a b, nth_error l k = Some a -> nth_error m k = Some b -> nth_error (combine l m) k = Some (a, b).
Proof. induction l as [|x l IH]; intros [|y m] [|k] a b Ha Hb; try discriminate; cbn in *; [congruence|now apply IH]. Qed.
(** The residual shown is the difference of model and image, in percent of the brightest pixel *)
Theorem C73_residual model data k m d : nth_error model k = Some m -> nth_error data k = Some d -> 0 < maximum data ->
  exists c, nth_error (display_chi model data) k = Some c /\ m - d = c / 100 * maximum data.
Proof.
  intros Hm Hd Hp. unfold display_chi. rewrite nth_error_map, (combine_at _ _ _ _ _ Hm Hd). cbn [option_map fst snd].
  eexists. split; [reflexivity|]. field. lra.
Qed.

(** ** Ellipses *)
(** The one-sigma contour of a Gaussian of given mean, dispersions and correlation *)
Definition on_contour (mx my sx sy rho : R) (p : R * R) : Prop :=
  ((fst p - mx) / sx) ^ 2 - 2 * rho * ((fst p - mx) / sx) * ((snd p - my) / sy) + ((snd p - my) / sy) ^ 2 = 1 - rho ^ 2.
(** What the decomposition gives for a positive definite matrix *)
Definition eigen_spec (eig : eigen) : Prop := forall a b c, 0 < a -> 0 < c -> b ^ 2 < a * c ->
  let '((l0, l1), (v0, v1)) := eig a b c in
  (v0 <> 0 \/ v1 <> 0) /\ a * v0 + b * v1 = l0 * v0 /\ b * v0 + c * v1 = l0 * v1 /\ l0 + l1 = a + c /\ l0 * l1 = a * c - b ^ 2.
Lemma ellipse_contour eig mx my sx sy rho t : eigen_spec eig -> 0 < sx -> 0 < sy -> -1 < rho < 1 -> on_contour mx my sx sy rho (boundary (ellipse_of eig mx my sx sy rho) t).
Proof.
  intros S Hx Hy Hr. assert (Hr2 : rho ^ 2 < 1) by nra.
  unfold ellipse_of. specialize (S (sx ^ 2) (rho * sx * sy) (sy ^ 2)). assert (P : 0 < (sx * sy) ^ 2) by (apply pow_lt; now apply Rmult_lt_0_compat).
  assert (D : (rho * sx * sy) ^ 2 < sx ^ 2 * sy ^ 2) by (replace ((rho * sx * sy) ^ 2) with (rho ^ 2 * (sx * sy) ^ 2) by ring; replace (sx ^ 2 * sy ^ 2) with (1 * (sx * sy) ^ 2) by ring; now apply Rmult_lt_compat_r).
  assert (Px : 0 < sx ^ 2) by now apply pow_lt. assert (Py : 0 < sy ^ 2) by now apply pow_lt. specialize (S Px Py D).
  destruct (eig (sx ^ 2) (rho * sx * sy) (sy ^ 2)) as [[l0 l1] [v0 v1]]. destruct S as (Hv & E0 & E1 & Tr & Dt).
  set (a := sx ^ 2) in *. set (b := rho * sx * sy) in *. set (c := sy ^ 2) in *.
  assert (Pl : 0 < l0 * l1) by (rewrite Dt; lra). assert (L0 : 0 < l0). { destruct (Rlt_le_dec 0 l0); [assumption|]. exfalso. assert (0 < l1) by lra. assert (l0 * l1 <= 0 * l1) by (apply Rmult_le_compat_r; lra). lra. }
  assert (L1 : 0 < l1). { destruct (Rlt_le_dec 0 l1); [assumption|]. exfalso. assert (l0 * l1 <= l0 * 0) by (apply Rmult_le_compat_l; lra). lra. }
  assert (Pv : 0 < v0 ^ 2 + v1 ^ 2). { pose proof (pow2_ge_0 v0). pose proof (pow2_ge_0 v1). destruct Hv as [Hv|Hv]; apply pow2_gt_0 in Hv; lra. }
  set (len := sqrt (v0 ^ 2 + v1 ^ 2)). assert (Pn : 0 < len) by now apply sqrt_lt_R0. assert (En : len * len = v0 ^ 2 + v1 ^ 2) by (apply sqrt_sqrt; lra).
  set (p := v0 / len). set (q := v1 / len). assert (U : p ^ 2 + q ^ 2 = 1). { unfold p, q. replace ((v0 / len) ^ 2 + (v1 / len) ^ 2) with ((v0 ^ 2 + v1 ^ 2) / (len * len)) by (field; lra). rewrite En. field. lra. }
  assert (F0 : a * p + b * q = l0 * p). { unfold p, q. replace (a * (v0 / len) + b * (v1 / len)) with ((a * v0 + b * v1) / len) by (field; lra). rewrite E0. field. lra. }
  assert (F1 : b * p + c * q = l0 * q). { unfold p, q. replace (b * (v0 / len) + c * (v1 / len)) with ((b * v0 + c * v1) / len) by (field; lra). rewrite E1. field. lra. }
  assert (A : a = l0 * p ^ 2 + l1 * q ^ 2). { transitivity (p * (a * p + b * q) - q * (b * p + c * q) + (a + c) * q ^ 2); [|rewrite F0, F1, <- Tr; ring]. replace a with (a * (p ^ 2 + q ^ 2)) at 1 by (rewrite U; ring). ring. }
  assert (C : c = l0 * q ^ 2 + l1 * p ^ 2). { transitivity (q * (b * p + c * q) - p * (a * p + b * q) + (a + c) * p ^ 2); [|rewrite F0, F1, <- Tr; ring]. replace c with (c * (p ^ 2 + q ^ 2)) at 1 by (rewrite U; ring). ring. }
  assert (B : b = (l0 - l1) * (p * q)). { transitivity (p * (b * p + c * q) + q * (a * p + b * q) - (a + c) * (p * q)); [|rewrite F0, F1, <- Tr; ring]. replace b with (b * (p ^ 2 + q ^ 2)) at 1 by (rewrite U; ring). ring. }
  unfold on_contour, boundary. cbn [e_x e_y e_w e_h e_cos e_sin fst snd]. set (uu := 2 * sqrt l0 / 2 * cos t). set (w := 2 * sqrt l1 / 2 * sin t).
  assert (U2 : uu ^ 2 = l0 * cos t ^ 2). { unfold uu. replace ((2 * sqrt l0 / 2 * cos t) ^ 2) with (sqrt l0 * sqrt l0 * cos t ^ 2) by field. rewrite sqrt_sqrt; lra. }
  assert (W2 : w ^ 2 = l1 * sin t ^ 2). { unfold w. replace ((2 * sqrt l1 / 2 * sin t) ^ 2) with (sqrt l1 * sqrt l1 * sin t ^ 2) by field. rewrite sqrt_sqrt; lra. }
  set (dx := uu * p - w * q). set (dy := uu * q + w * p). replace (mx + uu * p - w * q - mx) with dx by (unfold dx; ring). replace (my + uu * q + w * p - my) with dy by (unfold dy; ring).
  assert (Q : c * dx ^ 2 - 2 * b * dx * dy + a * dy ^ 2 = l0 * l1).
  { transitivity ((l1 * uu ^ 2 + l0 * w ^ 2) * (p ^ 2 + q ^ 2) ^ 2). { rewrite A, B, C. unfold dx, dy. ring. } rewrite U, U2, W2. pose proof (sin2_cos2 t) as T. unfold Rsqr in T. replace ((l1 * (l0 * cos t ^ 2) + l0 * (l1 * sin t ^ 2)) * 1 ^ 2) with (l0 * l1 * (sin t * sin t + cos t * cos t)) by ring. rewrite T. ring. }
  apply (Rmult_eq_reg_l (a * c)); [|apply Rgt_not_eq, Rmult_lt_0_compat; assumption].
  transitivity (c * dx ^ 2 - 2 * b * dx * dy + a * dy ^ 2). { unfold a, b, c. field. lra. } rewrite Q, Dt. unfold a, b, c. ring.
Qed.
(** A row of the fit by EM: its ellipse is the one-sigma contour, with the first coordinate upwards *)
Theorem C73_ellipse_em eig a m0 m1 s0 s1 rho : eigen_spec eig -> 0 < s0 -> 0 < s1 -> -1 < rho < 1 ->
  exists e, draw_em eig [a; m0; m1; s0; s1; rho] = Some e /\ forall t, on_contour m0 m1 s0 s1 rho (snd (boundary e t), fst (boundary e t)).
Proof.
  intros S H0 H1 Hr. eexists. split; [reflexivity|]. intros t. pose proof (ellipse_contour eig m1 m0 s1 s0 rho t S H1 H0 Hr) as K. unfold on_contour in *. cbn [fst snd] in *. rewrite <- K. ring.
Qed.
Lemma dispersion eig a b sy q sx : 0 < sx -> sy <> None \/ q <> None -> forall rho, exists e s, draw_hmc eig a b sx sy q rho = Some e /\ e = ellipse_of eig a b s sx rho /\ (forall v, sy = Some v -> s = v) /\ (forall v, sy = None -> q = Some v -> s = sx * v).
Proof. intros Hx H rho. unfold draw_hmc. destruct sy as [v|]; [|destruct q as [v|]; [|destruct H; contradiction]]; (eexists; eexists; split; [reflexivity|]; split; [reflexivity|]; split; intros; congruence). Qed.
(** The ellipse of a sampled Gaussian has its dispersions exchanged, its centre not: it is the contour of another Gaussian,
    and unless the dispersions are equal part of it is off the Gaussian's own *)
Theorem C73_ellipse_hmc_refuted eig x y sx sy rho : eigen_spec eig -> 0 < sx -> 0 < sy -> -1 < rho < 1 ->
  exists e, draw_hmc eig x y sx (Some sy) None rho = Some e /\ draw_hmc eig x y sx None (Some (sy / sx)) rho = Some e /\ (forall t, on_contour x y sy sx rho (boundary e t)) /\
    (sx <> sy -> exists t, ~ on_contour x y sx sy rho (boundary e t)).
Proof.
  intros S Hx Hy Hr. exists (ellipse_of eig x y sy sx rho). split; [reflexivity|]. split; [unfold draw_hmc; replace (sx * (sy / sx)) with sy by (field; lra); reflexivity|].
  assert (K : forall t, on_contour x y sy sx rho (boundary (ellipse_of eig x y sy sx rho) t)) by (intros; now apply ellipse_contour). split; [exact K|]. intros Hne.
  set (e := ellipse_of eig x y sy sx rho) in *.
  destruct (Classical_Prop.classic (exists t, ~ on_contour x y sx sy rho (boundary e t))) as [|N]; [assumption|]. exfalso.
  assert (A : forall t, on_contour x y sx sy rho (boundary e t)) by (intros t; destruct (Classical_Prop.classic (on_contour x y sx sy rho (boundary e t))); [assumption|exfalso; apply N; now exists t]).
  assert (E : forall t, (fst (boundary e t) - x) ^ 2 = (snd (boundary e t) - y) ^ 2).
  { intros t. specialize (A t). specialize (K t). unfold on_contour in A, K. set (dx := fst (boundary e t) - x) in *. set (dy := snd (boundary e t) - y) in *.
    assert (Z : (dx ^ 2 - dy ^ 2) * (sy ^ 2 - sx ^ 2) = 0).
    { transitivity (((dx / sx) ^ 2 - 2 * rho * (dx / sx) * (dy / sy) + (dy / sy) ^ 2 - ((dx / sy) ^ 2 - 2 * rho * (dx / sy) * (dy / sx) + (dy / sx) ^ 2)) * (sx ^ 2 * sy ^ 2)); [field; lra|]. rewrite A, K. ring. }
    apply Rmult_integral in Z. destruct Z as [Z|Z]; [lra|]. exfalso. apply Hne. assert (F : (sy - sx) * (sy + sx) = 0) by (rewrite <- Z; ring). apply Rmult_integral in F. destruct F; lra. }
  (* at t = 0, pi / 2 and pi / 4 *)
  unfold e, ellipse_of, boundary in E. specialize (S (sy ^ 2) (rho * sy * sx) (sx ^ 2)).
  assert (P : 0 < (sy * sx) ^ 2) by (apply pow_lt; now apply Rmult_lt_0_compat). assert (Hr2 : rho ^ 2 < 1) by nra.
  assert (D : (rho * sy * sx) ^ 2 < sy ^ 2 * sx ^ 2) by (replace ((rho * sy * sx) ^ 2) with (rho ^ 2 * (sy * sx) ^ 2) by ring; replace (sy ^ 2 * sx ^ 2) with (1 * (sy * sx) ^ 2) by ring; now apply Rmult_lt_compat_r).
  specialize (S ltac:(now apply pow_lt) ltac:(now apply pow_lt) D). destruct (eig (sy ^ 2) (rho * sy * sx) (sx ^ 2)) as [[l0 l1] [v0 v1]]. destruct S as (Hv & E0 & E1 & Tr & Dt).
  cbn [e_x e_y e_w e_h e_cos e_sin fst snd] in E.
  assert (Px : 0 < sx ^ 2) by now apply pow_lt. assert (Py : 0 < sy ^ 2) by now apply pow_lt.
  assert (Pl : 0 < l0 * l1) by (rewrite Dt; lra). assert (L0 : 0 < l0). { destruct (Rlt_le_dec 0 l0); [assumption|]. exfalso. assert (0 < l1) by lra. assert (l0 * l1 <= 0 * l1) by (apply Rmult_le_compat_r; lra). lra. }
  assert (L1 : 0 < l1). { destruct (Rlt_le_dec 0 l1); [assumption|]. exfalso. assert (l0 * l1 <= l0 * 0) by (apply Rmult_le_compat_l; lra). lra. }
  set (p := v0 / _) in *. set (q := v1 / _) in *. assert (S0 : 0 < sqrt l0) by now apply sqrt_lt_R0. assert (S1 : 0 < sqrt l1) by now apply sqrt_lt_R0.
  assert (Pv : 0 < v0 ^ 2 + v1 ^ 2). { pose proof (pow2_ge_0 v0). pose proof (pow2_ge_0 v1). destruct Hv as [Hv|Hv]; apply pow2_gt_0 in Hv; lra. }
  assert (U : p ^ 2 + q ^ 2 = 1). { unfold p, q. set (len := sqrt (v0 ^ 2 + v1 ^ 2)). assert (Pn : 0 < len) by now apply sqrt_lt_R0. assert (En : len * len = v0 ^ 2 + v1 ^ 2) by (apply sqrt_sqrt; lra). replace ((v0 / len) ^ 2 + (v1 / len) ^ 2) with ((v0 ^ 2 + v1 ^ 2) / (len * len)) by (field; lra). rewrite En. field. lra. }
  assert (Q0 : p ^ 2 = q ^ 2). { specialize (E 0). rewrite cos_0, sin_0 in E. apply (Rmult_eq_reg_l (sqrt l0 ^ 2)); [|apply Rgt_not_eq, pow_lt; exact S0]. transitivity ((x + 2 * sqrt l0 / 2 * 1 * p - 2 * sqrt l1 / 2 * 0 * q - x) ^ 2); [field|]. rewrite E. field. }
  assert (Q1 : p * q = 0).
  { specialize (E (PI / 4)). rewrite cos_PI4, sin_PI4 in E. set (h := 1 / sqrt 2) in *. assert (Hh : h <> 0) by (unfold h; apply Rgt_not_eq, Rdiv_lt_0_compat; [lra|apply sqrt_lt_R0; lra]).
    assert (F : sqrt l0 * sqrt l1 * h ^ 2 * (4 * (p * q)) = 0).
    { transitivity (sqrt l0 ^ 2 * h ^ 2 * (p ^ 2 - q ^ 2) + sqrt l1 ^ 2 * h ^ 2 * (q ^ 2 - p ^ 2) - ((x + 2 * sqrt l0 / 2 * h * p - 2 * sqrt l1 / 2 * h * q - x) ^ 2 - (y + 2 * sqrt l0 / 2 * h * q + 2 * sqrt l1 / 2 * h * p - y) ^ 2)); [field|]. rewrite E, Q0. ring. }
    apply Rmult_integral in F. destruct F as [F|F]; [|lra]. exfalso. apply Rmult_integral in F. destruct F as [F|F]; [apply Rmult_integral in F; destruct F; lra|]. now apply (pow_nonzero h 2) in F. }
  assert (Q2 : p ^ 2 = 1 / 2) by lra. assert (Q3 : (p * q) ^ 2 = 1 / 4) by (replace ((p * q) ^ 2) with (p ^ 2 * q ^ 2) by ring; rewrite <- Q0, Q2; field). rewrite Q1 in Q3. lra.
Qed.
Print Assumptions C73_profile. Print Assumptions C73_enclosed_light. Print Assumptions C73_radius_of_fraction. Print Assumptions C73_smoothed.
Print Assumptions C73_normal_refuted. Print Assumptions C73_table. Print Assumptions C73_columns_refuted. Print Assumptions C73_best.
Print Assumptions C73_enclosed. Print Assumptions C73_narrow_refuted. Print Assumptions C73_residual. Print Assumptions C73_ellipse_em. Print Assumptions C73_ellipse_hmc_refuted.
