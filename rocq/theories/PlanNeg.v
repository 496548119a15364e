(** C51: the negative of the reference likelihood, which is what a minimiser is given. *)
From Coquelicot Require Import Coquelicot.
From Verif Require Import Np NpFacts KernelModel KernelJac KernelSum SlowModel SlowProps SlowGrad SceneModel SceneSpec SceneFacts
  PlanModel PlanFacts PlanScene PlanGrad PlanProps PlanCase.
From Coq Require Import Reals Lra.
Open Scope R_scope.

Section Neg.
Context (gal_radii : list R) (amps dan dar : R -> R -> list R) (simple_radii : list R) (qf paf : R -> R -> R).
Hypothesis HT : tables_fit gal_radii amps dan dar.
Let neg := negative_lnlike_multi gal_radii amps dan dar simple_radii qf paf.
(** It is half the chi-square of all plans, and what comes with it is the derivative of it by every parameter *)
Theorem C51_negative : forall kw sc plans Theta, seen_by_all sc plans -> kw <> Some false -> (SceneSpec.total sc <= List.length Theta)%nat ->
  (forall sc', set_all_source_params sc Theta = Some sc' -> smooth_scene gal_radii amps dan dar simple_radii sc' plans) ->
  exists sc' v g, neg kw Theta sc plans = Some (v, g) /\ List.length g = List.length Theta /\ set_all_source_params sc Theta = Some sc' /\
    2 * v = sumR (fun p => chi2_of (pl_pixels p) (map (fun s => class_src gal_radii amps dan dar simple_radii (s_kind s) (attributes s (pl_filter p))) sc') (pl_stamp p)) plans /\
    forall k, (k < List.length Theta)%nat -> exists F,
      (forall t, exists g', neg kw (upd k t Theta) sc plans = Some (F t, g')) /\ is_derive F (nth k Theta 0) (nth k g 0).
Proof.
  intros kw sc plans Theta HS Hkw HL HSm. destruct (C51_value gal_radii amps dan dar simple_radii qf paf kw sc plans Theta HS Hkw HL) as (sc' & g1 & kw1 & E1 & E2).
  destruct (C51_gradient gal_radii amps dan dar simple_radii qf paf HT kw sc plans Theta HS Hkw HL HSm) as (v & g & kw' & G1 & G2 & G3).
  rewrite G1 in E2. injection E2 as Ev Eg Ek. exists sc', (- v), (map Ropp g). split; [exact (negative_multi _ _ _ _ _ _ _ _ _ _ _ _ _ _ G1)|]. split; [rewrite map_length; exact G2|]. split; [exact E1|]. split.
  - rewrite Ev. clear. induction plans as [|p l IH]; [unfold sumR; cbn; lra|]. rewrite !sumR_cons. rewrite <- IH. lra.
  - intros k Hk. destruct (G3 k Hk) as (F & F1 & F2). exists (fun t => - F t). split.
    + intros t. destruct (F1 t) as (g' & kw2 & F3). exists (map Ropp g'). exact (negative_multi _ _ _ _ _ _ _ _ _ _ _ _ _ _ F3).
    + rewrite (nth_indep (map Ropp g) 0 (Ropp 0)) by (rewrite map_length, G2; exact Hk). rewrite map_nth. exact (is_derive_opp F _ _ F2).
Qed.
End Neg.
Print Assumptions C51_negative.
Example C51_negative_case : exists v g, negative_lnlike_multi [] no_tables no_tables no_tables [] (fun _ _ => 1) (fun _ _ => 0) None two_theta two_stars two_plans = Some (v, g) /\ List.length g = 6%nat.
Proof.
  destruct C51_case as (HS & HL & HSm & HF & _). destruct (C51_negative [] no_tables no_tables no_tables [] (fun _ _ => 1) (fun _ _ => 0) HF None two_stars two_plans two_theta HS ltac:(discriminate) (Nat.eq_le_incl _ _ (eq_sym HL)) HSm) as (_ & v & g & E & L & _). eauto.
Qed.
