(** Cases for C72. *)
From Verif Require Import Np.
From Coq Require Import Reals Permutation Lra Lia Psatz.
From Verif Require Import QuantModel QuantFacts CornerModel CornerFacts CornerProps.
Open Scope R_scope.

Definition box : R * R := (2, 0).
Example box_range : range_of box 0 2.
Proof. split; [lra|]. now right. Qed.
Definition same (s s' : R) (H : list (list R)) := H.
Definition ids (l : list R) : list nat := seq 0 (List.length l).
Example two_bins : bins2 2 = Some (2%nat, 0).
Proof. unfold bins2. destruct (Rlt_dec 1 2); [|lra]. now rewrite (int_part_unique 2 2) by lra. Qed.
(** Three samples, one of them beyond the range *)
Definition xs := [1 / 2; 3 / 2; 5]. Definition ys := [1 / 2; 2; 1].
Example counted : exists H, histogram2d (edges box 2) (edges box 2) xs ys None = Some H /\ sumr (concat H) = 2 /\ (forall x, In x (concat H) -> 0 <= x) /\ at2 H 0 0 = 1 /\ at2 H 1 1 = 1.
Proof.
  destruct (histogram2d (edges box 2) (edges box 2) xs ys None) as [H|] eqn:E; [|discriminate]. exists H. split; [reflexivity|].
  destruct (C72_counts box box 0 2 0 2 2 2 xs ys None H box_range box_range ltac:(lia) ltac:(lia) E) as (_ & LH & Lr & Cs & T).
  assert (Nn : forall f, 0 <= mass xs ys (weights_of xs None) f). { intros f. unfold mass. apply sumr_nonneg. intros v Hv. apply in_map_iff in Hv. destruct Hv as ([[u w] t] & <- & Ht). cbn in Ht. destruct (f _ _); cbn; [|lra]. repeat (destruct Ht as [Ht|Ht]; [injection Ht as _ _ <-; lra|]). contradiction. }
  split; [|split; [|split]].
  - rewrite T. unfold mass, xs, ys, weights_of, in_range. cbn. repeat (match goal with |- context [Rle_dec ?a ?b] => let G := fresh in destruct (Rle_dec a b) as [G|G]; [try (exfalso; revert G; lra)|try (exfalso; apply G; lra)] end; cbn). lra.
  - intros x Hx. apply in_concat in Hx. destruct Hx as (r & Hr & Hx). apply (In_nth _ _ []) in Hr. destruct Hr as (i & Hi & Er). apply (In_nth _ _ 0) in Hx. destruct Hx as (j & Hj & <-). rewrite <- Er in *.
    rewrite (Lr (nth i H [])) in Hj by (apply nth_In; exact Hi). rewrite LH in Hi. change (0 <= at2 H i j). rewrite Cs by assumption. apply Nn.
  - rewrite Cs by lia. unfold mass, xs, ys, weights_of, cell. cbn.
    repeat (match goal with |- context [Rle_dec ?a ?b] => let G := fresh in destruct (Rle_dec a b) as [G|G]; [try (exfalso; revert G; lra)|try (exfalso; apply G; lra)] | |- context [Rlt_dec ?a ?b] => let G := fresh in destruct (Rlt_dec a b) as [G|G]; [try (exfalso; revert G; lra)|try (exfalso; apply G; lra)] end; cbn). lra.
  - rewrite Cs by lia. unfold mass, xs, ys, weights_of, cell. cbn.
    repeat (match goal with |- context [Rle_dec ?a ?b] => let G := fresh in destruct (Rle_dec a b) as [G|G]; [try (exfalso; revert G; lra)|try (exfalso; apply G; lra)] | |- context [Rlt_dec ?a ?b] => let G := fresh in destruct (Rlt_dec a b) as [G|G]; [try (exfalso; revert G; lra)|try (exfalso; apply G; lra)] | |- context [Req_EM_T ?a ?b] => let G := fresh in destruct (Req_EM_T a b) as [G|G]; [try (exfalso; revert G; lra)|try (exfalso; apply G; lra)] end; cbn). lra.
Qed.
(** The joint density of these is drawn, with the default levels; both counts are one, so that the four levels coincide and
    are separated *)
Example drawn : exists r, twodhist 6 same ids (999 / 1000) xs ys None (Some [inl box; inl box]) (2, 2) None = Some r.
Proof.
  destruct counted as (H & E & T & Nn & _). unfold twodhist, get_spans. cbn [List.length Nat.eqb combine mapM span_of fst snd]. rewrite two_bins, E. cbv zeta. unfold same.
  destruct C72_default_levels as (L & _ & B & _).
  destruct (C72_contours 6 H default_levels Nn ltac:(lra) (fun l Hl => conj (Rlt_le _ _ (proj1 (B l Hl))) (proj2 (B l Hl))) ltac:(rewrite L; lia)) as (V & _ & _ & EV & _). rewrite EV.
  assert (X : exists e, extended (centres (edges box 2)) = Some e) by (unfold centres; rewrite edges_length; cbn [Nat.add Nat.sub seq map]; unfold extended; eexists; reflexivity).
  destruct X as [e Ex]. rewrite Ex. eexists. reflexivity.
Qed.
(** Nothing in the range: no number of rounds suffices *)
Example hangs rounds : twodhist rounds same ids (999 / 1000) [5; 6] [5; 6] None (Some [inl box; inl box]) (2, 2) None = None.
Proof.
  apply (C72_no_samples_refuted rounds same ids (999 / 1000) box box 0 2 0 2); [apply box_range|apply box_range|intros s s' G Hz; exact Hz| |exact I].
  intros u v Hin. cbn in Hin. destruct Hin as [K|[K|[]]]; injection K as <- <-; lra.
Qed.
(** Three densities and half of their sum: the first, 3 of 6, holds the half *)
Example half_level : level_value (descending (concat [[1; 3]; [2]])) (1 / 2) = 3.
Proof.
  assert (D : descending (concat [[1; 3]; [2]]) = [3; 2; 1]). { unfold descending. cbn [concat app sort insert]. repeat (destruct (Rle_dec _ _) as [?G|?G]; [try lra|try lra]; cbn [insert]). all: reflexivity. }
  rewrite D. assert (T : sumr [3; 2; 1] = 6) by (unfold sumr; cbn; lra). unfold level_value, below. rewrite T. destruct (Req_EM_T 6 0) as [Z|_]; [lra|]. cbn [map cumsum_from].
  repeat match goal with |- context [Rle_dec ?a ?b] => let G := fresh in destruct (Rle_dec a b) as [G|G]; [try (exfalso; revert G; lra)|try (exfalso; apply G; lra)] end. reflexivity.
Qed.
(** The marginal with a peak *)
Example peak_case : exists h0, histogram (edges box 10) xs None = Some h0 /\ 0 < maximum h0 /\ round_even (10 / 1) = 10%Z.
Proof.
  destruct (histogram (edges box 10) xs None) as [h0|] eqn:E; [|discriminate]. exists h0. split; [reflexivity|].
  destruct (C72_counts_1d box 0 2 10 xs None h0 box_range ltac:(lia) E) as (L & _ & T). split.
  - destruct (Rle_lt_dec (maximum h0) 0) as [G|G]; [|exact G]. exfalso. assert (Ne : h0 <> []) by (intros ->; discriminate). destruct (maximum_spec h0 Ne) as [A _].
    assert (S : sumr h0 <= 0). { clear - A G. assert (H : forall y, In y h0 -> y <= 0) by (intros y Hy; specialize (A y Hy); lra). clear A G. induction h0 as [|y l IH]; [unfold sumr; cbn; lra|]. rewrite sumr_cons. pose proof (H y (or_introl eq_refl)). specialize (IH (fun z Hz => H z (or_intror Hz))). lra. }
    rewrite T in S. revert S. unfold mass1, xs, weights_of, in_range. cbn. repeat (match goal with |- context [Rle_dec ?a ?b] => let G := fresh in destruct (Rle_dec a b) as [G|G]; [try (exfalso; revert G; lra)|try (exfalso; apply G; lra)] end; cbn). lra.
  - unfold round_even. cbv zeta. rewrite (int_part_unique (10 / 1) 10) by lra. destruct (Rlt_dec _ _) as [_|N]; [reflexivity|]. exfalso. apply N. lra.
Qed.
Example peak_drawn : exists h, marginal (fun _ l => l) xs None box 1 (Some 7) = Some (edges box 10, h) /\ maximum h = 7.
Proof.
  destruct peak_case as (h0 & E & M & R). assert (E10 : 10%nat = Z.to_nat (round_even (10 / 1))) by now rewrite R.
  destruct (C72_peak (fun _ l => l) xs None box 0 2 1 10 h0 7 box_range (fun _ _ => eq_refl) ltac:(lra) E10 E M ltac:(lra)) as (h & K & _ & P & _). exists h. auto.
Qed.
Example three_panels : panels 3 false = [(0, 0, Marginal 0); (1, 1, Marginal 1); (1, 0, Joint 0 1); (2, 2, Marginal 2); (2, 0, Joint 0 2); (2, 1, Joint 1 2)]%nat.
Proof. reflexivity. Qed.
Example three_labels : xlabel ["ra"; "dec"; "flux"]%string 3 true 1 1 = Some "dec"%string /\ ylabel ["ra"; "dec"; "flux"]%string 3 true 0 2 = Some "ra"%string /\ ylabel ["ra"; "dec"; "flux"]%string 3 false 2 0 = Some "flux"%string.
Proof. repeat split; reflexivity. Qed.
Example two_truths : In (1%nat, 1%nat, Vertical 5) (truth_lines 2 [Some 5; None]).
Proof. destruct (C72_truths_refuted 2 [Some 5; None]) as (_ & T & _). now apply (T 1%nat 0%nat); [lia|]. Qed.
