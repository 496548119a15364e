(** Cases for C69. *)
From Coq Require Import Reals List String Bool Arith Lra Lia Psatz Permutation Sorted.
From Verif Require Import Np KernelModel KernelSum SlowModel QuantModel QuantFacts QuantProps HalfModel HalfFacts HalfProps.
Import ListNotations.
Open Scope R_scope.

(** An order of the indices by the numbers they stand for *)
Fixpoint ins (x : list R) (i : nat) (l : list nat) : list nat :=
  match l with [] => [i] | j :: t => if Rle_dec (nth i x 0) (nth j x 0) then i :: l else j :: ins x i t end.
Definition argsort0 (x : list R) : list nat := fold_right (ins x) [] (seq 0 (List.length x)).
Lemma ins_perm x i l : Permutation (ins x i l) (i :: l).
Proof. induction l as [|j l IH]; cbn; [reflexivity|]. destruct Rle_dec; [reflexivity|]. rewrite IH. constructor. Qed.
Lemma ins_take x i l : take x (ins x i l) = insert (nth i x 0) (take x l).
Proof. induction l as [|j l IH]; cbn; [reflexivity|]. destruct Rle_dec; [reflexivity|]. cbn. f_equal. exact IH. Qed.
Lemma argsort0_sorts x : argsorts argsort0 x.
Proof.
  unfold argsorts, argsort0. generalize (seq 0 (List.length x)). intros l. split.
  - induction l as [|i l IH]; cbn; [reflexivity|]. rewrite ins_perm. now constructor.
  - assert (E : take x (fold_right (ins x) [] l) = sort (take x l)); [|rewrite E; apply sort_sorted].
    induction l as [|i l IH]; [reflexivity|]. cbn [fold_right]. rewrite ins_take, IH. reflexivity.
Qed.

(** A 3 x 3 stamp with a bar of light: 2 in the middle, 3 in the two pixels beside it. *)
Definition bar : list R := [0; 3; 0; 0; 2; 0; 0; 3; 0].
Definition order1 : list nat := [4; 1; 7; 3; 5; 0; 2; 6; 8]%nat.
Definition order2 : list nat := [4; 3; 5; 1; 7; 0; 2; 6; 8]%nat.
Lemma grid3 : grid 3 3 = [(0, 0); (0, 1); (0, 2); (1, 0); (1, 1); (1, 2); (2, 0); (2, 1); (2, 2)].
Proof. unfold grid. cbn [seq flat_map map app INR]. repeat f_equal; lra. Qed.
Lemma bar_centre : centre (grid 3 3) bar = (1, 1).
Proof. rewrite grid3. unfold centre, light, bar. cbn [combine map fold_right fst snd]. f_equal; field. Qed.
Lemma bar_dist : map (dist (centre (grid 3 3) bar)) (grid 3 3) = [sqrt 2; 1; sqrt 2; 1; 0; 1; sqrt 2; 1; sqrt 2].
Proof.
  rewrite bar_centre, grid3. unfold dist. cbn [map fst snd].
  assert (E2 : forall a b, a = 1 \/ a = Ropp 1 -> b = 1 \/ b = Ropp 1 -> sqrt (a ^ 2 + b ^ 2) = sqrt 2) by (intros a b [->| ->] [->| ->]; f_equal; lra).
  assert (E1 : forall a b, a ^ 2 + b ^ 2 = 1 -> sqrt (a ^ 2 + b ^ 2) = 1) by (intros a b ->; apply sqrt_1).
  assert (E0 : sqrt ((1 - 1) ^ 2 + (1 - 1) ^ 2) = 0) by (replace ((1 - 1) ^ 2 + (1 - 1) ^ 2) with 0 by ring; apply sqrt_0).
  rewrite E0. rewrite (E2 (0 - 1) (0 - 1)), (E2 (0 - 1) (2 - 1)), (E2 (2 - 1) (0 - 1)), (E2 (2 - 1) (2 - 1)) by lra.
  rewrite (E1 (0 - 1) (1 - 1)), (E1 (1 - 1) (0 - 1)), (E1 (1 - 1) (2 - 1)), (E1 (2 - 1) (1 - 1)) by lra. reflexivity.
Qed.
Lemma sqrt2_gt : 1 < sqrt 2.
Proof. rewrite <- sqrt_1 at 1. apply sqrt_lt_1; lra. Qed.
Lemma bar_argsorts o : o = order1 \/ o = order2 -> argsorts (fun _ => o) (map (dist (centre (grid 3 3) bar)) (grid 3 3)).
Proof.
  intros Ho. rewrite bar_dist. split.
  - cbn [List.length seq]. apply NoDup_Permutation.
    + destruct Ho as [-> | ->]; repeat constructor; cbn; lia.
    + apply (seq_NoDup 9 0).
    + intros i. destruct Ho as [-> | ->]; cbn; lia.
  - assert (E : take [sqrt 2; 1; sqrt 2; 1; 0; 1; sqrt 2; 1; sqrt 2] o = [0; 1; 1; 1; 1; sqrt 2; sqrt 2; sqrt 2; sqrt 2]) by (destruct Ho as [-> | ->]; reflexivity).
    rewrite E. pose proof sqrt2_gt. repeat (apply sorted_cons; split; [cbn; intuition lra|]). intros i j _ Hj. cbn in Hj. lia.
Qed.
Lemma bar_radius : half_radius (fun _ => order1) (grid 3 3) bar = Some (2 / 3) /\ half_radius (fun _ => order2) (grid 3 3) bar = Some 1.
Proof.
  assert (T : sum_list bar = 8) by (unfold sum_list, bar; cbn; lra).
  split; rewrite half_closed by (rewrite grid3; reflexivity); rewrite T; destruct (Req_EM_T 8 0); try lra; cbv zeta; rewrite bar_dist; unfold pairs, order1, order2, bar; cbn [map fst snd nth cumsum_from combine interp interp_from].
  - destruct Rlt_dec; [lra|]. destruct Rlt_dec; [|lra]. f_equal. field.
  - destruct Rlt_dec; [lra|]. destruct Rlt_dec; [lra|]. destruct Rlt_dec; [lra|]. destruct Rlt_dec; [|lra]. f_equal. field.
Qed.

(** The order in which pixels at one distance are counted changes the answer: two orders, both
    by increasing distance, of one image. *)
Theorem C69_ties_refuted : exists xy im o1 o2 r1 r2, (forall v, In v im -> 0 <= v) /\
  argsorts (fun _ => o1) (map (dist (centre xy im)) xy) /\ argsorts (fun _ => o2) (map (dist (centre xy im)) xy) /\
  half_radius (fun _ => o1) xy im = Some r1 /\ half_radius (fun _ => o2) xy im = Some r2 /\ r1 < r2.
Proof.
  exists (grid 3 3), bar, order1, order2, (2 / 3), 1. split; [unfold bar; cbn; intros v Hv; intuition lra|].
  split; [apply bar_argsorts; auto|]. split; [apply bar_argsorts; auto|]. split; [apply bar_radius|]. split; [apply bar_radius|lra].
Qed.
Print Assumptions C69_ties_refuted.

(** C69_half applies: with the first order 2 of 8 are nearer than 2/3, 8 within 1. *)
Example half_applies : List.length bar = List.length (grid 3 3) /\ Forall (fun v => 0 <= v) bar /\ argsorts (fun _ => order1) (map (dist (centre (grid 3 3) bar)) (grid 3 3)) /\
  half_radius (fun _ => order1) (grid 3 3) bar = Some (2 / 3) /\ light (grid 3 3) bar (fun _ => 1) = 8 /\ light_inside (grid 3 3) bar (2 / 3) = 2.
Proof.
  split; [rewrite grid3; reflexivity|]. split; [unfold bar; repeat constructor; lra|]. split; [apply bar_argsorts; auto|]. split; [apply bar_radius|].
  split; [rewrite light_total by (rewrite grid3; reflexivity); unfold sum_list, bar; cbn; lra|].
  unfold light_inside. rewrite bar_centre.
  assert (E : map (dist (1, 1)) (grid 3 3) = [sqrt 2; 1; sqrt 2; 1; 0; 1; sqrt 2; 1; sqrt 2]) by (rewrite <- bar_centre; apply bar_dist).
  rewrite grid3 in *. cbn [map] in E. injection E as E1 E2 E3 E4 E5 E6 E7 E8 E9. unfold light, bar. cbn [combine map fold_right fst snd].
  rewrite E1, E2, E3, E4, E5, E6, E7, E8, E9. pose proof sqrt2_gt. repeat (destruct Rlt_dec; try lra).
Qed.

(** A chain of three samples of one source, one of them burnt in, every sample asked for. *)
Definition row (a f : R) : frow := mkF 0 0 1 0 1 a [("F1"%string, f)].
Definition st0 : stamp := mkStamp (M22 1 0 0 1) (M22 1 0 0 1) (1, 1) (0, 0) 1 [(1, (0, 0), M22 2 0 0 2)].
Definition cv0 : canvas := mkCanvas 3 3 "F1" st0.
Definition amps0 (n r : R) : list R := [1].
Lemma amps0_pos n r : Forall (fun a => 0 <= a) (amps0 n r).
Proof. repeat constructor; lra. Qed.
Example chain_applies : let samples := [[row 1 1]; [row 1 2]; [row 2 3]] in
  exists r1 r2, combined_rhalf [1] amps0 amps0 amps0 argsort0 samples 2 cv0 "F1" (fun l => l) 1 = (Some [r1; r2], set_psf cv0 None) /\
    (forall r, argsorts argsort0 r) /\ 0 <= photocounts (cv_stamp cv0) /\
    (forall cat rw v, In cat samples -> In rw cat -> In ("F1"%string, v) (f_flux rw) -> 0 <= v).
Proof.
  intros samples. do 2 eexists. split; [unfold combined_rhalf, samples; cbn -[half_radius render grid]; cbn [render cv_filter set_psf String.eqb Ascii.eqb Bool.eqb]; cbn -[half_radius grid slow_render]; reflexivity|].
  split; [apply argsort0_sorts|]. split; [cbn; lra|]. intros cat rw v Hc Hr Hf. unfold samples in Hc. cbn in Hc.
  destruct Hc as [<-|[<-|[<-|[]]]]; destruct Hr as [<-|[]]; destruct Hf as [E|[]]; injection E as <-; lra.
Qed.
(** Another band: the answer is there for F1, and raises when F2 is asked for. *)
Example other_band : let rw := mkF 0 0 1 0 1 1 [("F1"%string, 1); ("F2"%string, 1)] in
  fst (forcepho_slow_model [1] amps0 amps0 amps0 [rw] cv0 "F2" None) = None /\ fst (forcepho_slow_model [1] amps0 amps0 amps0 [rw] cv0 "F1" None) <> None.
Proof. split; [apply C69_band_refuted; discriminate|]. cbn. discriminate. Qed.
Example stamp_changed : snd (forcepho_slow_model [1] amps0 amps0 amps0 [] cv0 "F1" None) <> cv0.
Proof. apply C69_stamp_refuted. cbn. intros E. injection E as E _. lra. Qed.
