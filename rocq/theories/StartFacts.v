(** Facts about starting values. *)
From Coq Require Import Reals List Lra Lia Psatz Sorted.
From Verif Require Import EmModel EmFacts EmProps StartModel.
Import ListNotations.
Open Scope R_scope.

Lemma sum_minus {A} (f g : A -> R) l : sum (fun a => f a - g a) l = sum f l - sum g l.
Proof. rewrite (sum_ext _ (fun a => f a + -1 * g a)) by (intros; ring). rewrite sum_plus, sum_scal. ring. Qed.
Lemma sum_div {A} (f : A -> R) k l : sum (fun a => f a / k) l = sum f l / k.
Proof. rewrite (sum_ext _ (fun a => / k * f a)) by (intros; unfold Rdiv; ring). rewrite sum_scal. unfold Rdiv. ring. Qed.
Lemma cauchy {A} (w u v : A -> R) l : (forall a, In a l -> 0 <= w a) -> 0 < sum (fun a => w a * v a ^ 2) l ->
  sum (fun a => w a * u a * v a) l ^ 2 <= sum (fun a => w a * u a ^ 2) l * sum (fun a => w a * v a ^ 2) l.
Proof.
  intros W HC. set (A2 := sum (fun a => w a * u a ^ 2) l). set (B := sum (fun a => w a * u a * v a) l). set (C := sum (fun a => w a * v a ^ 2) l) in *.
  assert (H : 0 <= sum (fun a => w a * (u a - B / C * v a) ^ 2) l).
  { apply sum_nonneg. intros a Ha. apply Rmult_le_pos; [auto|]. apply pow2_ge_0. }
  rewrite (sum_ext _ (fun a => w a * u a ^ 2 + ((-2 * (B / C)) * (w a * u a * v a) + (B / C) ^ 2 * (w a * v a ^ 2)))) in H by (intros; ring).
  rewrite sum_plus, sum_plus, !sum_scal in H. fold A2 B C in H.
  replace (A2 + (-2 * (B / C) * B + (B / C) ^ 2 * C)) with ((A2 * C - B ^ 2) / C) in H by (field; lra).
  assert (0 <= A2 * C - B ^ 2); [|lra]. replace (A2 * C - B ^ 2) with ((A2 * C - B ^ 2) / C * C) by (field; lra). apply Rmult_le_pos; lra.
Qed.
Lemma mean_zero (f : pixel -> R) im : sum pd im <> 0 -> sum (fun p => pd p * (f p - sum (fun p => pd p * f p) im / sum pd im)) im = 0.
Proof.
  intros H. set (m := sum (fun p => pd p * f p) im / sum pd im).
  rewrite (sum_ext _ (fun p => pd p * f p - m * pd p)) by (intros; ring). rewrite sum_minus, sum_scal. unfold m. field. auto.
Qed.
(** A weighted variance is positive exactly when the pixels with weight differ *)
Lemma spread_pos (f : pixel -> R) im m : (forall p, In p im -> 0 <= pd p) ->
  (exists p p', In p im /\ In p' im /\ 0 < pd p /\ 0 < pd p' /\ f p <> f p') -> 0 < sum (fun p => pd p * (f p - m) ^ 2) im.
Proof.
  intros D (p & p' & I & I' & P & P' & N).
  assert (G : forall q, In q im -> 0 <= pd q * (f q - m) ^ 2) by (intros q Hq; apply Rmult_le_pos; [auto|apply pow2_ge_0]).
  pose proof (sum_nonneg _ _ G) as [H|H]; [auto|]. symmetry in H. exfalso. pose proof (sum_nonneg_zero _ _ G H) as Z.
  assert (f p = m). { pose proof (Z p I) as E. cbv beta in E. apply Rmult_integral in E as [E|E]; [lra|]. nra. }
  assert (f p' = m). { pose proof (Z p' I') as E. cbv beta in E. apply Rmult_integral in E as [E|E]; [lra|]. nra. }
  congruence.
Qed.
Lemma spread_inv (f : pixel -> R) im : (forall p, In p im -> 0 <= pd p) -> 0 < sum pd im ->
  0 < sum (fun p => pd p * (f p - sum (fun p => pd p * f p) im / sum pd im) ^ 2) im ->
  exists p p', In p im /\ In p' im /\ 0 < pd p /\ 0 < pd p' /\ f p <> f p'.
Proof.
  intros D T H. set (m := sum (fun p => pd p * f p) im / sum pd im) in *.
  assert (E : exists p, In p im /\ 0 < pd p).
  { destruct (Exists_dec (fun p => 0 < pd p) im (fun p => Rlt_dec 0 (pd p))) as [E|E]; [apply Exists_exists in E; auto|]. exfalso.
    assert (Z : sum pd im = 0); [|lra]. rewrite (sum_ext _ (fun _ => 0)); [apply sum_zero|]. intros p Hp. pose proof (D p Hp).
    destruct (Rlt_dec 0 (pd p)); [|lra]. exfalso. apply E, Exists_exists. eauto. }
  destruct E as (p & Ip & Pp).
  destruct (Exists_dec (fun q => 0 < pd q /\ f q <> f p) im) as [X|X].
  { intros q. destruct (Rlt_dec 0 (pd q)); [|right; tauto]. destruct (Req_EM_T (f q) (f p)); [right; tauto|left; tauto]. }
  - apply Exists_exists in X as (q & Iq & Pq & Nq). exists q, p. repeat split; auto.
  - exfalso. assert (Y : forall q, In q im -> pd q * f q = f p * pd q).
    { intros q Iq. destruct (Rlt_dec 0 (pd q)) as [P|P]; [|pose proof (D q Iq); replace (pd q) with 0 by lra; ring].
      destruct (Req_EM_T (f q) (f p)) as [->|N]; [ring|]. exfalso. apply X, Exists_exists. eauto. }
    assert (Em : m = f p). { unfold m. rewrite (sum_ext _ (fun q => f p * pd q)) by auto. rewrite sum_scal. field. lra. }
    assert (Z : sum (fun q => pd q * (f q - m) ^ 2) im = 0); [|lra].
    rewrite (sum_ext _ (fun _ => 0)); [apply sum_zero|]. intros q Iq. rewrite Em. specialize (Y q Iq).
    replace (pd q * (f q - f p) ^ 2) with ((pd q * f q - f p * pd q) * (f q - f p)) by ring. rewrite Y. ring.
Qed.

Lemma easy_spec im c : (forall p, In p im -> 0 <= pd p) -> easy_init im = Some c ->
  amp c = sum pd im /\ 0 < amp c /\ mx c = sum (fun p => pd p * px p) im / sum pd im /\ my c = sum (fun p => pd p * py p) im / sum pd im /\
  0 < sx c /\ 0 < sy c /\ rho c ^ 2 <= 1 /\
  sum (fun p => pd p * (px p - mx c) ^ 2) im = sum pd im * sx c ^ 2 /\ sum (fun p => pd p * (py p - my c) ^ 2) im = sum pd im * sy c ^ 2 /\
  sum (fun p => pd p * (px p - mx c) * (py p - my c)) im = sum pd im * (rho c * sx c * sy c).
Proof.
  intros D H. unfold easy_init in H. destruct (Req_EM_T (sum pd im) 0) as [|T]; [discriminate|].
  assert (T0 : 0 < sum pd im) by (pose proof (sum_nonneg pd im D); lra).
  destruct (mean_params im) as [m1 m2] eqn:Em. unfold mean_params in Em. injection Em as E1 E2. cbn [fst snd] in H.
  set (vx := sum (fun p => pd p * (px p - m1) ^ 2) im / sum pd im) in *. set (vy := sum (fun p => pd p * (py p - m2) ^ 2) im / sum pd im) in *.
  destruct (Rlt_dec vx 0) as [|V1]; [discriminate|]. destruct (Rlt_dec vy 0) as [|V2]; [discriminate|].
  destruct (Req_EM_T (sqrt vx) 0) as [|S1]; [discriminate|]. destruct (Req_EM_T (sqrt vy) 0) as [|S2]; [discriminate|].
  injection H as <-. cbn [amp mx my sx sy rho].
  pose proof (sqrt_pos vx). pose proof (sqrt_pos vy).
  assert (P1 : sqrt vx ^ 2 = vx) by (apply pow2_sqrt; lra). assert (P2 : sqrt vy ^ 2 = vy) by (apply pow2_sqrt; lra).
  assert (W1 : sum (fun p => pd p * (px p - m1) ^ 2) im = sum pd im * vx) by (unfold vx; field; auto).
  assert (W2 : sum (fun p => pd p * (py p - m2) ^ 2) im = sum pd im * vy) by (unfold vy; field; auto).
  assert (Q1 : 0 < vx) by nra. assert (Q2 : 0 < vy) by nra.
  set (w := sum (fun p => pd p * (px p - m1) * (py p - m2)) im).
  assert (Er : sum (fun p => pd p * (px p - m1) * (py p - m2) / sum pd im) im / (sqrt vx * sqrt vy) = w / sum pd im / (sqrt vx * sqrt vy)).
  { rewrite (sum_div (fun p => pd p * (px p - m1) * (py p - m2))). reflexivity. }
  rewrite Er. split; [reflexivity|]. split; [lra|]. split; [auto|]. split; [auto|]. split; [lra|]. split; [lra|]. split; [|split; [now rewrite P1|split; [now rewrite P2|]]].
  - assert (HC : w ^ 2 <= sum pd im * vx * (sum pd im * vy)).
    { rewrite <- W1, <- W2. apply cauchy; [auto|]. rewrite W2. apply Rmult_lt_0_compat; lra. }
    replace ((w / sum pd im / (sqrt vx * sqrt vy)) ^ 2) with (w ^ 2 / (sum pd im * sqrt vx ^ 2 * (sum pd im * sqrt vy ^ 2))) by (field; repeat split; lra). rewrite P1, P2.
    assert (0 < sum pd im * vx * (sum pd im * vy)) by (apply Rmult_lt_0_compat; apply Rmult_lt_0_compat; assumption).
    apply Rmult_le_reg_r with (sum pd im * vx * (sum pd im * vy)); [auto|]. rewrite Rmult_1_l. unfold Rdiv. rewrite Rmult_assoc, Rinv_l by lra. lra.
  - field. repeat split; lra.
Qed.
Lemma easy_defined im : (forall p, In p im -> 0 <= pd p) ->
  (exists p p', In p im /\ In p' im /\ 0 < pd p /\ 0 < pd p' /\ px p <> px p') ->
  (exists p p', In p im /\ In p' im /\ 0 < pd p /\ 0 < pd p' /\ py p <> py p') -> exists c, easy_init im = Some c.
Proof.
  intros D X Y. assert (T0 : 0 < sum pd im).
  { destruct X as (p & _ & Ip & _ & Pp & _). apply Rlt_le_trans with (pd p); auto. now apply sum_member. }
  unfold easy_init. destruct (Req_EM_T (sum pd im) 0); [lra|]. destruct (mean_params im) as [m1 m2]. cbn [fst snd].
  pose proof (spread_pos px im m1 D X) as V1. pose proof (spread_pos py im m2 D Y) as V2.
  assert (Q1 : 0 < sum (fun p => pd p * (px p - m1) ^ 2) im / sum pd im) by (apply Rdiv_lt_0_compat; auto).
  assert (Q2 : 0 < sum (fun p => pd p * (py p - m2) ^ 2) im / sum pd im) by (apply Rdiv_lt_0_compat; auto).
  pose proof (sqrt_lt_R0 _ Q1). pose proof (sqrt_lt_R0 _ Q2).
  repeat match goal with |- context [Rlt_dec ?a 0] => destruct (Rlt_dec a 0); [lra|] end.
  repeat match goal with |- context [Req_EM_T ?a 0] => destruct (Req_EM_T a 0); [lra|] end. eauto.
Qed.
Lemma easy_good im c : (forall p, In p im -> 0 <= pd p) -> easy_init im = Some c -> finite_comp c = true -> good c.
Proof. intros D E F. destruct (easy_spec im c D E) as (_ & A & _ & _ & X & Y & _). apply finite_comp_iff in F as (_ & _ & F). unfold good. auto. Qed.
Lemma residual_more im c : good c -> im <> [] -> (forall p, In p im -> 0 <= pd p) ->
  (forall p, In p (next_residual c im) -> 0 <= pd p) /\ sum pd im < sum pd (next_residual c im).
Proof.
  intros G N D. split.
  - intros p Hp. apply in_map_iff in Hp as (q & <- & Hq). cbn [pd]. pose proof (D q Hq). pose proof (mvn_pos (px q) (py q) c G). lra.
  - assert (E : sum pd (next_residual c im) = sum pd im + sum (fun p => mvn_pdf (px p) (py p) c) im).
    { rewrite <- sum_plus. clear N D. induction im as [|q im IH]; [now rewrite !sum_nil|]. unfold next_residual in *. cbn [map]. rewrite !sum_cons, IH. cbn [pd]. ring. }
    rewrite E. pose proof (sum_pos (fun p => mvn_pdf (px p) (py p) c) im N (fun p _ => mvn_pos _ _ c G)). lra.
Qed.
Lemma greedy_spec : forall n im cs, (forall p, In p im -> 0 <= pd p) -> greedy n im = Some cs -> length cs = n /\ Sorted Rlt (map amp cs) /\
  match cs with [] => True | c :: _ => amp c = sum pd im /\ 0 < amp c end.
Proof.
  induction n as [|n IH]; intros im cs D H; [injection H as <-; repeat split; constructor|]. cbn [greedy] in H.
  destruct (easy_init im) as [c|] eqn:Ec; [|discriminate]. destruct (easy_spec im c D Ec) as (A1 & A2 & _).
  destruct n as [|n]; [injection H as <-; repeat split; auto; repeat constructor|].
  destruct (finite_comp c) eqn:F; [|discriminate]. destruct (greedy (S n) (next_residual c im)) as [l|] eqn:El; [|discriminate]. injection H as <-.
  assert (N : im <> []). { intros ->. rewrite sum_nil in A1. lra. }
  destruct (residual_more im c (easy_good im c D Ec F) N D) as (D' & M).
  destruct (IH _ _ D' El) as (L & S0 & Hd). split; [cbn; now rewrite L|]. split; [|auto]. cbn [map]. constructor; [auto|].
  destruct l as [|c' l]; [constructor|]. cbn [map]. constructor. destruct Hd. lra.
Qed.

(** ** argmin *)
Lemma first_nan_none l : first_nan l = None -> Forall (fun o => o <> None) l.
Proof. induction l as [|[x|] l IH]; cbn; intros H; [constructor| |discriminate]. destruct (first_nan l); [discriminate|]. constructor; [discriminate|auto]. Qed.
Lemma first_nan_some l k : first_nan l = Some k -> nth_error l k = Some None.
Proof. revert k. induction l as [|[x|] l IH]; cbn; intros k H; [discriminate| |now injection H as <-]. destruct (first_nan l); [|discriminate]. injection H as <-. cbn. auto. Qed.
Lemma least_spec : forall (l pre : list (option R)) best v, nth_error pre best = Some (Some v) -> Forall (fun o => o <> None) l ->
  (forall i x, nth_error pre i = Some (Some x) -> v <= x) ->
  exists w, nth_error (pre ++ l) (least_from best v (length pre) l) = Some (Some w) /\ forall i x, nth_error (pre ++ l) i = Some (Some x) -> w <= x.
Proof.
  induction l as [|o l IH]; intros pre best v Hb HF Hl.
  - rewrite app_nil_r. exists v. auto.
  - inversion HF as [|? ? Ho HF']; subst. destruct o as [x|]; [|congruence]. cbn [least_from].
    assert (B : (best < length pre)%nat) by (apply nth_error_Some; congruence).
    replace (pre ++ Some x :: l) with ((pre ++ [Some x]) ++ l) by (now rewrite <- app_assoc).
    assert (L : length (pre ++ [Some x]) = S (length pre)) by (rewrite app_length; cbn; lia). rewrite <- L.
    assert (K : forall i y, nth_error (pre ++ [Some x]) i = Some (Some y) -> nth_error pre i = Some (Some y) \/ y = x).
    { intros i y Hi. destruct (Nat.lt_ge_cases i (length pre)); [rewrite nth_error_app1 in Hi by auto; auto|].
      rewrite nth_error_app2 in Hi by auto. destruct (i - length pre)%nat as [|k]; cbn in Hi; [right; congruence|destruct k; discriminate]. }
    destruct (Rlt_dec x v) as [Hx|Hx].
    + apply IH; auto. * rewrite nth_error_app2 by lia. now rewrite Nat.sub_diag. * intros i y Hi. destruct (K i y Hi) as [P| ->]; [specialize (Hl i y P)|]; lra.
    + apply IH; auto. * rewrite nth_error_app1 by auto. auto. * intros i y Hi. destruct (K i y Hi) as [P| ->]; [now apply (Hl i)|lra].
Qed.
Lemma argmin_spec l k : np_argmin l = Some k ->
  (nth_error l k = Some None) \/ (Forall (fun o => o <> None) l /\ exists w, nth_error l k = Some (Some w) /\ forall x, In (Some x) l -> w <= x).
Proof.
  destruct l as [|x t]; [discriminate|]. unfold np_argmin. destruct (first_nan (x :: t)) as [j|] eqn:E.
  - intros H. injection H as <-. left. now apply first_nan_some.
  - pose proof (first_nan_none _ E) as F. destruct x as [v|]; [|discriminate]. intros H. injection H as <-. right. split; [auto|].
    inversion F as [|? ? _ F']; subst. destruct (least_spec t [Some v] 0 v eq_refl F') as (w & W1 & W2).
    { intros i x Hi. destruct i as [|i]; cbn in Hi; [injection Hi as <-; lra|destruct i; discriminate]. }
    exists w. split; [exact W1|]. intros x Hx. apply In_nth_error in Hx as (i & Hi). now apply (W2 i).
Qed.
