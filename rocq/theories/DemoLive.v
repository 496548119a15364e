(** C74: when spans of several runs and panels of traces are made at all. *)
From Verif Require Import Np.
From Coq Require Import Reals Lra Lia.
From Verif Require Import QuantModel QuantFacts QuantProps ChainFacts DemoModel DemoProps.
Import ListNotations.
Open Scope R_scope.

(** Runs of the same number of parameters, each with a sample, have common spans, one for every parameter. *)
Theorem C74_multispan_made : forall argsort default parsets k, parsets <> [] -> 0 <= default <= 1 ->
  (forall x, In x parsets -> List.length x = k /\ forall c, In c x -> c <> []) ->
  exists out, multispan argsort default parsets = Some out /\ List.length out = k.
Proof.
  intros argsort default parsets k Hn Hd Hx.
  assert (G : forall x, In x parsets -> exists sp, get_spans argsort default None x None = Some sp /\ List.length sp = k).
  { intros x Hi. destruct (Hx x Hi) as [L Hc]. destruct (C53_spans argsort default None x) as (sp & E & Ls & _); [discriminate|exact Hc|exact Hd|discriminate|]. exists sp. split; [exact E|congruence]. }
  unfold multispan. destruct (ChainFacts.mapM_total (fun x => get_spans argsort default None x None) parsets) as (r & Er); [intros x Hi; destruct (G x Hi) as (sp & E & _); eauto|].
  rewrite Er. assert (Hr : forall u, In u r -> List.length u = k).
  { intros u Hu. apply In_nth_error in Hu. destruct Hu as (i & Hi). destruct (ChainFacts.mapM_nth _ _ _ Er) as [L N].
    destruct (nth_error parsets i) as [x|] eqn:Ex; [|apply nth_error_None in Ex; assert (i < List.length r)%nat by (apply nth_error_Some; congruence); lia].
    destruct (G x (nth_error_In _ _ Ex)) as (sp & E & Ls). destruct (N i x Ex) as (y & Hy & Hy'). congruence. }
  destruct r as [|s t].
  { exfalso. destruct parsets as [|x parsets]; [now apply Hn|]. destruct (ChainFacts.mapM_nth _ _ _ Er) as [L _]. discriminate L. }
  assert (F : forallb (fun u => Nat.eqb (List.length u) (List.length s)) t = true).
  { apply forallb_forall. intros u Hu. apply Nat.eqb_eq. rewrite (Hr u (or_intror Hu)), (Hr s (or_introl eq_refl)). reflexivity. }
  rewrite F. eexists. split; [reflexivity|]. pose proof (Hr s (or_introl eq_refl)) as Ls.
  assert (Ht : forall u, In u t -> List.length u = k) by (intros u Hu; apply Hr; now right). clear -Ls Ht. revert s Ls. induction t as [|u t IH]; intros s Ls; cbn [fold_left]; [exact Ls|].
  apply IH; [intros v Hv; apply Ht; now right|]. rewrite map_length, combine_length, Ls, (Ht u (or_introl eq_refl)). lia.
Qed.
Print Assumptions C74_multispan_made.
(** Traces are drawn whenever there is an axis for each column, a sample of it, and the limits and truths asked for. *)
Theorem C74_trace_made : forall span (bands shapes : list string) (show_shapes : bool) axes chain bounds truth,
  let cols := if show_shapes then (bands ++ shapes)%list else bands in
  0 <= span <= 1 -> (1 <= List.length cols <= axes)%nat -> (forall c, In c cols -> exists xx, chain c = Some xx /\ xx <> []) ->
  (forall bd c, bounds = Some bd -> In c cols -> exists lim, bd c = Some lim) -> (forall t c, truth = Some t -> In c cols -> exists v, t c = Some v) ->
  exists panels, show_chain span bands shapes show_shapes axes chain bounds truth = Some panels /\ List.length panels = List.length cols.
Proof.
  intros span bands shapes show_shapes axes chain bounds truth cols Hs Hl Hc Hb Ht. unfold show_chain. fold cols.
  rewrite (proj2 (Nat.leb_le 1 _)), (proj2 (Nat.leb_le _ axes)) by lia. cbn [andb].
  match goal with |- exists p, mapM ?f cols = _ /\ _ => destruct (ChainFacts.mapM_total f cols) as (r & Er) end.
  - intros c HI. destruct (Hc c HI) as (xx & -> & Hx).
    assert (E : percentiles xx [100 * (1 / 2 - 1 / 2 * span); 100 * (1 / 2 + 1 / 2 * span)] = Some (map (percentile xx) [100 * (1 / 2 - 1 / 2 * span); 100 * (1 / 2 + 1 / 2 * span)])).
    { apply percentiles_spec. split; [exact Hx|]. split; [|reflexivity]. intros q [<-|[<-|[]]]; lra. }
    rewrite E. cbn [map]. destruct bounds as [bd|]; [destruct (Hb bd c eq_refl HI) as (lim & ->)|]; (destruct truth as [t|]; [destruct (Ht t c eq_refl HI) as (v & ->)|]); eauto.
  - rewrite Er. exists r. split; [reflexivity|]. now destruct (ChainFacts.mapM_nth _ _ _ Er) as [L _].
Qed.
Print Assumptions C74_trace_made.

(** Two runs of two parameters; and two bands on two axes, the truth known *)
Example C74_multispan_made_case : exists out, multispan (fun x => seq 0 (List.length x)) (9 / 10) [[[1; 2]; [5]]; [[0; 4; 2]; [6; 7]]] = Some out /\ List.length out = 2%nat.
Proof. apply C74_multispan_made; [discriminate|lra|]. intros x [<-|[<-|[]]]; (split; [reflexivity|]); intros c [<-|[<-|[]]]; discriminate. Qed.
Example C74_trace_made_case : exists panels, show_chain (9 / 10) ["F090W"; "F200W"]%string ["q"]%string false 2 (fun _ => Some [1; 2; 3]) None (Some (fun _ => Some 2)) = Some panels /\ List.length panels = 2%nat.
Proof.
  apply (C74_trace_made (9 / 10) ["F090W"; "F200W"]%string ["q"]%string false 2 (fun _ => Some [1; 2; 3]) None (Some (fun _ => Some 2))); [lra|cbn; lia| |discriminate|].
  - intros c _. exists [1; 2; 3]. split; [reflexivity|discriminate].
  - intros t c H _. injection H as <-. eauto.
Qed.
