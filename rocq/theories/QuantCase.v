(** Concrete cases for C53. *)
From Coq Require Import Reals Lra Lia Permutation.
From Verif Require Import Np QuantModel QuantFacts QuantProps.
Open Scope R_scope.
Lemma sort_321 : sort [3; 1; 2] = [1; 2; 3].
Proof. cbn [sort insert]. repeat (destruct Rle_dec; try lra; cbn [insert]); reflexivity. Qed.
(** Three samples out of order: the quartile is half way between two of them. *)
Example C53_percentile_case : percentiles [3; 1; 2] [25; 50] = Some [3 / 2; 2].
Proof.
  apply percentiles_spec. split; [discriminate|]. split; [intros q [<-|[<-|[]]]; lra|]. cbn [map]. unfold percentile. rewrite sort_321. change (INR (List.length [3; 1; 2] - 1)) with (1 + 1). unfold at_pos.
  rewrite (floorn_unique ((1 + 1) * (25 / 100)) 0) by (cbn [INR]; lra). rewrite (floorn_unique ((1 + 1) * (50 / 100)) 1) by (cbn [INR]; lra). cbn [nth Nat.add Nat.min List.length Nat.sub INR]. f_equal; [field|f_equal; field].
Qed.
(** The conclusions of C53_monotone and C53_counts for it *)
Example C53_monotone_case : 3 / 2 <= 2 /\ 1 < INR (count (fun y => leb y 2) [3; 1; 2]).
Proof.
  split; [exact (C53_monotone [3; 1; 2] [25; 50] [3 / 2; 2] 0 1 25 50 _ _ C53_percentile_case eq_refl eq_refl eq_refl eq_refl ltac:(lra))|].
  pose proof (proj1 (C53_counts [3; 1; 2] [25; 50] [3 / 2; 2] 1 50 2 C53_percentile_case eq_refl eq_refl)) as H. change (INR (List.length [3; 1; 2] - 1)) with (1 + 1) in H. lra.
Qed.
(** Magnitudes reversed in order give the same; in other units they scale. *)
Example C53_order_case : percentiles [1; 2; 3] [25; 50] = Some [3 / 2; 2].
Proof. rewrite (C53_order [1; 2; 3] [3; 1; 2]); [exact C53_percentile_case|]. apply Permutation_sym. change [1; 2; 3] with ([1; 2] ++ [3]). apply Permutation_cons_append. Qed.
Example C53_affine_case : percentiles [3 * 3 + 1; 3 * 1 + 1; 3 * 2 + 1] [25; 50] = Some [3 * (3 / 2) + 1; 3 * 2 + 1].
Proof. exact (C53_affine [3; 1; 2] [25; 50] _ 3 1 ltac:(lra) C53_percentile_case). Qed.

(** ** Weights *)
Definition ids (x : list R) : list nat := seq 0 (List.length x).
Lemma ids_012 : argsorts ids [0; 1; 2].
Proof. split; [reflexivity|]. intros i j Hij Hj. change (take [0; 1; 2] (ids [0; 1; 2])) with [0; 1; 2] in *. cbn [List.length] in Hj. destruct i as [|[|[|i]]], j as [|[|[|j]]]; cbn [nth]; try lia; lra. Qed.
Example C53_weighted_case : exists vs, quantile1 ids [0; 1; 2] [1 / 4; 1 / 2] (Some [1; 3; 2]) = Some vs /\ List.length vs = 2%nat.
Proof.
  destruct (C53_weighted_found ids [0; 1; 2] [1 / 4; 1 / 2] [1; 3; 2] ids_012) as (vs & E); [cbn; lia|reflexivity|intros a [<-|[<-|[<-|[]]]]; lra|intros p [<-|[<-|[]]]; lra|].
  exists vs. split; [exact E|]. apply (C53_weighted ids _ _ _ vs ids_012) in E; [|intros a [<-|[<-|[<-|[]]]]; lra]. now destruct E.
Qed.
Lemma median_012 : quantile1 ids [0; 1; 2] [1 / 2] None = Some [1].
Proof.
  unfold quantile1. cbn [forallb map]. rewrite (proj2 (in_range_spec 0 1 (1 / 2))) by lra. cbn [andb]. apply percentiles_spec. split; [discriminate|]. split; [intros q [<-|[]]; lra|]. cbn [map]. f_equal. unfold percentile.
  assert (E : sort [0; 1; 2] = [0; 1; 2]) by (cbn [sort insert]; repeat (destruct Rle_dec; try lra; cbn [insert]); reflexivity). rewrite E. change (INR (List.length [0; 1; 2] - 1)) with (1 + 1). unfold at_pos. rewrite (floorn_unique _ 1) by (cbn [INR]; lra).
  cbn [nth Nat.add Nat.min List.length Nat.sub INR]. field.
Qed.
(** However much of the weight is on the largest sample, it is not the median. *)
Theorem C53_heavy_refuted : forall W, quantile1 ids [0; 1; 2] [1 / 2] (Some [1; 1; W]) = Some [1].
Proof.
  intros W. rewrite (C53_last_weight_refuted ids [0; 1; 2] [1 / 2] [1; 1; W] (repeat 1 (List.length [0; 1; 2])) ids_012 eq_refl eq_refl); [|intros [|[|[|i]]] H; try reflexivity; exfalso; apply H; reflexivity].
  rewrite (C53_equal_weights ids [0; 1; 2] [1 / 2] 1 ids_012); [exact median_012|cbn; lia|lra].
Qed.
Print Assumptions C53_heavy_refuted.

(** ** Spans and catalogs *)
Example C53_spans_case : exists out, get_spans ids (999 / 1000) (Some [inr 1; inl (0, 5)]) [[3; 1; 2]; [7]] None = Some out /\ nth_error out 1 = Some (0, 5) /\
  exists a b, nth_error out 0 = Some (a, b) /\ 1 < INR (count (fun y => leb a y && leb y b)%bool [3; 1; 2]).
Proof.
  destruct (C53_spans ids (999 / 1000) (Some [inr 1; inl (0, 5)]) [[3; 1; 2]; [7]]) as (out & E & L & H); [intros sp Hs; injection Hs as <-; reflexivity|intros x [<-|[<-|[]]]; discriminate|lra|intros sp f Hs; injection Hs as <-; intros [Hf|[Hf|[]]]; [injection Hf as <-; lra|discriminate]|].
  exists out. split; [exact E|]. destruct out as [|[a b] [|[c d] [|]]]; try discriminate L. split; [cbn; f_equal; exact (proj1 (H 1%nat [7] c d eq_refl eq_refl) _ (0, 5) eq_refl eq_refl)|].
  exists a, b. split; [reflexivity|]. destruct (proj2 (H 0%nat [3; 1; 2] a b eq_refl eq_refl) 1 eq_refl) as [_ K]. change (INR (List.length [3; 1; 2] - 1)) with (1 + 1) in K. 
  eapply Rle_lt_trans; [|exact K]. lra.
Qed.
Example C53_catalog_case : exists e, pctile_cat [25; 50] [("id"%string, Scalar [7%nat]); ("F090W"%string, Sampled [[3; 1; 2]])] = Some (e, ["F090W"%string]) /\
  nth_error e 0 = Some ("id"%string, Scalar [7%nat]) /\ nth_error e 1 = Some ("F090W"%string, Sampled [[3 / 2; 2]]).
Proof.
  set (cat := [("id"%string, Scalar [7%nat]); ("F090W"%string, Sampled [[3; 1; 2]])]). destruct (C53_catalog nat [25; 50] cat) as [K H]. destruct (proj2 K) as ((e & sc) & E); [intros n s [Hn|[Hn|[]]]; [discriminate|]; injection Hn as <- <-; split; [intros q [<-|[<-|[]]]; lra|intros [Hx|[]]; discriminate]|].
  assert (sc = ["F090W"%string]) as -> by (unfold pctile_cat in E; destruct (mapM _ cat); [|discriminate]; injection E as _ <-; reflexivity). destruct (H e _ E) as (_ & _ & H3 & H4). exists e. split; [exact E|]. split; [exact (H3 0%nat _ _ eq_refl)|].
  destruct (H4 1%nat _ _ eq_refl) as (es & E1 & L & R). destruct (R 0%nat [3; 1; 2] eq_refl) as (vs & V & P). rewrite C53_percentile_case in P. injection P as <-. destruct es as [|v [|]]; try discriminate L. injection V as ->. exact E1.
Qed.
