(** C52: where the sampler starts and what the result says of it. *)
From Coq Require Import Reals Lra.
From Verif Require Import Np NpFacts SceneModel SceneSpec SceneFacts SceneProps PosteriorModel PosteriorSpec PosteriorFacts PosteriorProps KernelSum LinOptModel LinOptProps LinOptCase FitModel FitFacts FitProps FitHand FitCase.
Open Scope R_scope.

(** For every sampler: it is called once, with the posterior in the unbounded coordinates, at the point that stands for the
    given start, for the given number of draws and the first of the warmup windows; the result holds the given start and the
    number of its parameters, and row by row what the samples stand for. Without a warmup window there is no result. *)
Theorem C52_start : forall nuts p lo up q draws discard, tr p = Bounded lo up -> box lo up q -> within lo up q ->
  run_lmc nuts p q draws [] discard = None /\
  forall w ws, exists res stats trace x0, run_lmc nuts p q draws (w :: ws) discard = Some (res, stats) /\
    l_ndim res = List.length lo /\ l_ndim res = List.length up /\ l_start res = q /\
    List.length x0 = List.length q /\ transform (Bounded lo up) x0 = q /\
    nuts (lnprob p) (lnprob_grad p) x0 draws w discard = (trace, stats) /\ List.length (l_chain res) = List.length trace /\
    forall i z, nth_error trace i = Some z -> nth_error (l_chain res) i = Some (transform (Bounded lo up) z).
Proof.
  intros nuts p lo up q draws discard T Hb Hin. split; [reflexivity|]. intros w ws. destruct (transform_inverse lo up q Hb Hin) as [L0 E0]. unfold run_lmc. rewrite T.
  destruct (nuts (lnprob p) (lnprob_grad p) (inverse_transform (Bounded lo up) q) draws w discard) as [trace stats] eqn:En.
  exists (mkLmc (List.length q) q (map (transform (Bounded lo up)) trace)), stats, trace, (inverse_transform (Bounded lo up) q). cbn [l_ndim l_start l_chain].
  destruct Hb as (B1 & B2 & _). split; [reflexivity|]. split; [congruence|]. split; [congruence|]. split; [reflexivity|]. split; [exact L0|]. split; [exact E0|]. split; [exact En|]. split; [apply map_length|].
  intros i z Hz. now rewrite nth_error_map, Hz.
Qed.
Print Assumptions C52_start.
Example C52_start_case : exists res stats, run_lmc case_nuts case_p [1 / 2] 2 [0%nat] true = Some (res, stats) /\ l_ndim res = 1%nat /\ l_start res = [1 / 2].
Proof.
  destruct (C52_start case_nuts case_p [0] [1] [1 / 2] 2 true eq_refl (box1 [1 / 2] eq_refl) half_within) as [_ K]. destruct (K 0%nat []) as (res & stats & _ & _ & E & N & _ & S0 & _). exists res, stats. auto.
Qed.
