(** Facts for C64: central differences and the cache while check_grad runs. *)
From Coquelicot Require Import Coquelicot.
From Coq Require Import Reals Lra Lia.
From Verif Require Import Np NpFacts PosteriorModel PosteriorSpec PosteriorFacts DriverModel.
Open Scope R_scope.

Lemma reqb_true : forall x y, reqb x y = true <-> x = y.
Proof. intros. unfold reqb. destruct (Req_EM_T x y); split; congruence. Qed.

(** ** Central differences *)
Lemma taylor2 : forall g c d, 0 < d -> (forall t k, (k <= 3)%nat -> ex_derive_n g k t) ->
  exists u, c < u < c + d /\ g (c + d) = g c + d * Derive g c + d ^ 2 / 2 * Derive_n g 2 c + d ^ 3 / 6 * Derive_n g 3 u.
Proof.
  intros g c d Hd H. destruct (Taylor_Lagrange g 2 c (c + d)) as (u & Hu & E); [lra|intros; apply H; lia|].
  exists u. split; [exact Hu|]. rewrite E. replace (c + d - c) with d by ring.
  unfold sum_f_R0. change (Derive_n g 0 c) with (g c). change (Derive_n g 1 c) with (Derive g c).
  assert (F2 : INR (Factorial.fact 2) = 2) by (cbn; lra). assert (F3 : INR (Factorial.fact 3) = 6) by (cbn; lra).
  rewrite F2, F3. assert (F0 : INR (Factorial.fact 0) = 1) by (cbn; lra). assert (F1 : INR (Factorial.fact 1) = 1) by (cbn; lra).
  rewrite F0, F1. field.
Qed.
Lemma central_difference : forall g c d M, 0 < d -> (forall t k, (k <= 3)%nat -> ex_derive_n g k t) ->
  (forall t, c - d <= t <= c + d -> Rabs (Derive_n g 3 t) <= M) ->
  Rabs ((g (c + d) - g (c - d)) / (2 * d) - Derive g c) <= M / 6 * d ^ 2.
Proof.
  intros g c d M Hd H HM.
  destruct (taylor2 g c d Hd H) as (u & Hu & E).
  destruct (taylor2 (fun t => g (- t)) (- c) d Hd) as (v & Hv & E').
  { intros t k Hk. apply ex_derive_n_comp_opp. exists (mkposreal 1 Rlt_0_1). intros y _ j Hj. apply H. lia. }
  change (Derive (fun t => g (- t)) (- c)) with (Derive_n (fun t => g (- t)) 1 (- c)) in E'.
  rewrite !Derive_n_comp_opp in E' by (exists (mkposreal 1 Rlt_0_1); intros y _ j Hj; apply H; lia).
  rewrite Ropp_involutive in E'. change (Derive_n g 1 c) with (Derive g c) in E'.
  replace (- (- c + d)) with (c - d) in E' by ring.
  assert (B1 := HM u ltac:(lra)). assert (B2 := HM (- v) ltac:(lra)).
  apply Rabs_le_between in B1. apply Rabs_le_between in B2.
  set (A3 := Derive_n g 3 u) in *. set (B3 := Derive_n g 3 (- v)) in *.
  replace ((g (c + d) - g (c - d)) / (2 * d) - Derive g c) with ((A3 + B3) / 2 * (d ^ 2 / 6)).
  2:{ rewrite E, E'. field. lra. }
  assert (0 <= d ^ 2 / 6) by nra. rewrite Rabs_mult, (Rabs_pos_eq (d ^ 2 / 6)) by assumption.
  replace (M / 6 * d ^ 2) with (M * (d ^ 2 / 6)) by field.
  apply Rmult_le_compat_r; [assumption|]. apply Rabs_le. lra.
Qed.

(** ** The cache *)
Section Check.
Context {P : Type} (evalf : bool -> P -> list R -> option (R * list R)) (neg : R -> R).
Context (sw : bool) (pr : P) (n : nat) (f : list R -> R) (gr : list R -> list R).
Hypothesis Hev : forall v, List.length v = n -> evalf sw pr v = Some (f v, gr v).
Notation state := (post (V := R) (P := P)).
(** The posterior of this switch and prior; its last vector, if any, was not changed since *)
Definition same_settings (s : state) : Prop := sampling_sw s = sw /\ prior_fn s = pr.
Definition held (s : state) (next : nat) : Prop :=
  exists id, c_z s = Ref id /\ (id < next)%nat /\ List.length (heap s id) = n /\ c_lnp s = Some (f (heap s id), gr (heap s id)).
Lemma ask_same : forall (s : state) next z r, same_settings s -> held s next -> List.length (heap s z) = n -> (z < next)%nat ->
  exists s', ask reqb (-99) neg evalf s r z = (s', reply neg r (Some (f (heap s z), gr (heap s z)))) /\
    same_settings s' /\ held s' next /\ heap s' = heap s.
Proof.
  intros s next z r (H1 & H2) (id & Hz & Hid & Hl & Hc) Hzl Hzn. unfold ask, changed. rewrite Hz.
  destruct (differs reqb (heap s z) (heap s id)) eqn:D.
  - rewrite H1, H2, Hev by assumption. eexists. split; [reflexivity|]. split; [split; reflexivity|]. split; [|reflexivity].
    exists z. cbn. auto.
  - assert (E : heap s z = heap s id).
    { eapply differs_false; [|lia|exact D]. intros x y E. apply reqb_true. exact E. }
    rewrite Hc. exists s. rewrite E. split; [reflexivity|]. split; [split; assumption|]. split; [|reflexivity].
    exists id. auto.
Qed.
Lemma ask_copy : forall (s : state) next v, same_settings s -> held s next -> List.length v = n ->
  exists s', ask reqb (-99) neg evalf (fst (step reqb (-99) neg evalf s (Write next v))) Value next = (s', AnsV (f v)) /\
    same_settings s' /\ held s' (S next) /\ (forall i, (i < next)%nat -> heap s' i = heap s i).
Proof.
  intros s next v (H1 & H2) (id & Hz & Hid & Hl & Hc) Hv.
  set (s1 := fst (step reqb (-99) neg evalf s (Write next v))).
  assert (Hh : forall i, (i < next)%nat -> heap s1 i = heap s i).
  { intros i Hi. cbn. destruct (Nat.eqb_spec i next); [lia|reflexivity]. }
  assert (Hn : heap s1 next = v) by (cbn; rewrite Nat.eqb_refl; reflexivity).
  destruct (ask_same s1 (S next) next Value) as (s' & E & A & B & C).
  - split; assumption.
  - exists id. rewrite (Hh id Hid). cbn [s1 fst step c_z c_lnp]. repeat split; auto.
  - rewrite Hn. exact Hv.
  - lia.
  - exists s'. rewrite Hn in E. split; [exact E|]. split; [exact A|]. split; [exact B|]. intros i Hi. rewrite C. apply Hh. exact Hi.
Qed.
Definition quotient (z0 : list R) (i : nat) (d : R) : R :=
  (f (upd i (nth i z0 0 + d) z0) - f (upd i (nth i z0 0 - d) z0)) / (2 * d).
Lemma check_loop_spec : forall delta (s : state) next z0 i, same_settings s -> held s next -> List.length z0 = n ->
  (i + List.length delta <= n)%nat ->
  exists s' l, check_loop evalf neg s next z0 i delta = (s', Some l) /\ List.length l = List.length delta /\
    (forall k, (k < List.length delta)%nat -> nth k l 0 = quotient z0 (i + k) (nth k delta 0)) /\
    same_settings s' /\ (exists next', held s' next' /\ (next <= next')%nat) /\ (forall j, (j < next)%nat -> heap s' j = heap s j).
Proof.
  induction delta as [|dp rest IH]; intros s next z0 i Hs Hh Hz Hi; cbn [check_loop List.length] in *.
  - exists s, []. repeat split; auto; try (intros; lia); try (exists next; split; [assumption|lia]); apply Hs.
  - destruct (Nat.ltb_spec i (List.length z0)); [|lia].
    destruct (ask_copy s next (upd i (nth i z0 0 - dp) z0) Hs Hh) as (s1 & E1 & A1 & B1 & C1); [rewrite upd_len; exact Hz|].
    rewrite E1.
    assert (Ehi : upd i (nth i (upd i (nth i z0 0 - dp) z0) 0 + 2 * dp) (upd i (nth i z0 0 - dp) z0) = upd i (nth i z0 0 + dp) z0).
    { rewrite upd_upd, nth_updd by lia. rewrite Nat.eqb_refl. f_equal. ring. }
    rewrite Ehi.
    destruct (ask_copy s1 (S next) (upd i (nth i z0 0 + dp) z0) A1 B1) as (s2 & E2 & A2 & B2 & C2); [rewrite upd_len; exact Hz|].
    rewrite E2.
    destruct (IH s2 (S (S next)) z0 (S i) A2 B2 Hz ltac:(lia)) as (s3 & l & E3 & L3 & N3 & A3 & (n3 & B3 & Hn3) & C3).
    rewrite E3. exists s3, ((f (upd i (nth i z0 0 + dp) z0) - f (upd i (nth i z0 0 - dp) z0)) / (2 * dp) :: l).
    split; [reflexivity|]. split; [cbn; lia|]. split.
    + intros [|k] Hk; cbn [nth]; [rewrite Nat.add_0_r; reflexivity|]. rewrite N3 by lia. f_equal. lia.
    + split; [exact A3|]. split; [exists n3; split; [exact B3|lia]|].
      intros j Hj. rewrite C3 by lia. rewrite C2 by lia. apply C1. exact Hj.
Qed.
End Check.
