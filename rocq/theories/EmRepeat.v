(** C47: one answer for every start that gives one, in the order of the starts. *)
From Verif Require Import Np EmModel EmProps.
From Coq Require Import Reals Lra Lia Sorting.
Open Scope R_scope.

(** The answers are those of the starts whose fit ends, each once and in order: a strictly increasing list of the numbers of
    the starts, every start with an answer among them *)
Theorem C47_repeats : forall im thresh limit inits, exists at_,
  Sorting.Sorted.StronglySorted lt at_ /\
  Forall2 (fun k a => exists init, nth_error inits k = Some init /\ em_fit im thresh limit init = Some a) at_ (em_repeats im thresh limit inits) /\
  (forall k init, nth_error inits k = Some init -> em_fit im thresh limit init <> None -> In k at_).
Proof.
  intros im thresh limit inits. unfold em_repeats. induction inits as [|i t (at_ & S1 & F & A)]; cbn [flat_map].
  - exists []. split; [constructor|]. split; [constructor|]. intros [|k] init H; discriminate.
  - assert (SS : StronglySorted lt (map S at_)).
    { clear - S1. induction S1 as [|a l Sl IH Fl]; cbn [map]; constructor; [exact IH|]. rewrite Forall_forall in *. intros x Hx. apply in_map_iff in Hx. destruct Hx as (y & <- & Hy). specialize (Fl y Hy). lia. }
    assert (FF : Forall2 (fun k a => exists init, nth_error (i :: t) k = Some init /\ em_fit im thresh limit init = Some a) (map S at_) (flat_map (fun i => match em_fit im thresh limit i with Some a => [a] | None => [] end) t)).
    { clear - F. induction F as [|k a l l' H F IH]; cbn [map]; constructor; [exact H|exact IH]. }
    destruct (em_fit im thresh limit i) as [a|] eqn:E.
    + exists (O :: map S at_). split; [constructor; [exact SS|]; rewrite Forall_forall; intros x Hx; apply in_map_iff in Hx; destruct Hx as (y & <- & Hy); lia|].
      split; [cbn [app]; constructor; [exists i; split; [reflexivity|exact E]|exact FF]|].
      intros [|k] init H N; [now left|]. right. apply in_map. exact (A k init H N).
    + exists (map S at_). split; [exact SS|]. split; [exact FF|]. intros [|k] init H N; [cbn in H; injection H as <-; contradiction|]. apply in_map. exact (A k init H N).
Qed.
Print Assumptions C47_repeats.
(** Starts of which none ends, and no passes at all: no answers *)
Example C47_repeats_case : exists im init, em_repeats im 0 7 [init; init; init] = [] /\ forall init', em_repeats im 0 0 [init'] = [].
Proof. destruct C47_no_answer_refuted as (im & init & _ & _ & H). exists im, init. split; [apply (H 7%nat)|reflexivity]. Qed.
