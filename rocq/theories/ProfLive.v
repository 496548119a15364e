(** C73: when curves of enclosed light are drawn at all. *)
From Coq Require Import Reals.
From Verif Require Import Np.
From Coq Require Import Lra Lia.
From Verif Require Import CornerModel CornerFacts CornerProps ProfModel ProfProps ProfCase.
Import ListNotations.
Open Scope R_scope.

(** They are drawn for a value of each image in every pixel, if the pixels reach from the smallest radius
    to at least 1.4 times it, and not otherwise. *)
Theorem C73_enclosed_made : forall pix data model nx cx cy n rn, pix <> [] ->
  let r := map (fun p => dist_euc cx cy (fst p) (snd p)) pix in
  (exists out, ee_plot pix data model nx cx cy n rn = Some out) <->
  minimum r <= maximum r / (14 / 10) /\ List.length data = List.length pix /\ List.length model = List.length pix.
Proof.
  intros pix data model nx cx cy n rn Hp r. unfold ee_plot. assert (Er : map (radius cx cy) pix = r) by (unfold r; rewrite <- radius_dist; reflexivity). rewrite Er. clear Er. cbv zeta.
  assert (Hr : List.length r = List.length pix) by apply map_length. destruct r as [|r0 r']; [destruct pix; [contradiction|discriminate]|]. set (r := r0 :: r') in *.
  destruct (Rlt_dec (maximum r / (14 / 10)) (minimum r)) as [L|L].
  - split; [intros (out & K); discriminate|]. intros [K _]. lra.
  - unfold histogram, weighted. rewrite Hr. destruct (Nat.eqb_spec (List.length pix) (List.length data)) as [E1|E1]; [destruct (Nat.eqb_spec (List.length pix) (List.length model)) as [E2|E2]|].
    + split; [intros _; repeat split; [lra|congruence|congruence]|intros _; eauto].
    + split; [intros (out & K); discriminate|]. intros (_ & _ & K). congruence.
    + split; [intros (out & K); discriminate|]. intros (_ & K & _). congruence.
Qed.
Print Assumptions C73_enclosed_made.
(** Four pixels and an image of three *)
Example C73_enclosed_made_case : ~ exists out, ee_plot pix [4; 3; 2] [8; 6; 4; 2] 8 0 0 3 true = Some out.
Proof. intros K. apply C73_enclosed_made in K; [|discriminate]. destruct K as (_ & K & _). discriminate K. Qed.
