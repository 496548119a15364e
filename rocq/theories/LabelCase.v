(** Cases for C81, on the patch of two exposures of C22. *)
From Coq Require Import Reals Lra Lia Psatz List ZArith Permutation.
From Verif Require Import Np NpFacts KernelModel KernelFacts KernelSum KernelMask TwinProps LabelProps.
Import ListNotations.
Open Scope R_scope.

Definition gal (ra dec q pa flux : R) : KSource := mkKS ra dec q pa (fun _ => flux) (fun _ => 1) (fun _ => 0) (fun _ => 0).
Definition field_of (P : Patch) (srcs : nat -> KSource) : list R := residual_image P 0 0 srcs ++ residual_image P 0 1 srcs.
(** A galaxy of flux 5 entered as two, of flux 2 and 3. *)
Definition whole (_ : nat) : KSource := gal 1 0 (/ 2) 0 5.
Definition parts (g : nat) : KSource := match g with 0%nat => gal 1 0 (/ 2) 0 2 | _ => gal 1 0 (/ 2) 0 3 end.
Definition P2 : Patch := relabel 2 (fun _ => 0%nat) (toy 7 false).
Lemma parts_case : field_of P2 parts = field_of (toy 7 false) whole /\ fst (EvaluateProposal P2 0 parts) = fst (EvaluateProposal (toy 7 false) 0 whole) /\
  nth (1 * 7 + 0) (snd (EvaluateProposal P2 0 parts)) 0 = nth 0 (snd (EvaluateProposal (toy 7 false) 0 whole)) 0 /\
  5 * nth (1 * 7 + 3) (snd (EvaluateProposal P2 0 parts)) 0 = 3 * nth 3 (snd (EvaluateProposal (toy 7 false) 0 whole)) 0.
Proof.
  destruct (C81_parts 2 (fun _ => 0%nat) (toy 7 false) 0 whole parts) as (A & B & C).
  - change (1 <= 30)%nat. lia.
  - unfold MAXSOURCES. lia.
  - intros g Hg. split; [change (0 < 1)%nat; lia|]. destruct g as [|[|g]]; [| |lia]; repeat split.
  - intros s Hs. change (s < 1)%nat in Hs. destruct s; [|lia]. unfold flux_of_parts. cbn [seq map fold_right Nat.eqb parts gal k_fluxes whole]. ring.
  - fold P2 in A, B, C. unfold field_of. rewrite !A. split; [reflexivity|]. split; [exact B|]. split.
    + destruct (C 1%nat 0%nat ltac:(lia) ltac:(lia)) as (K & _). exact (K eq_refl).
    + destruct (C 1%nat 3%nat ltac:(lia) ltac:(lia)) as (_ & K & _). exact (K ltac:(discriminate)).
Qed.
(** Two different galaxies, exchanged. *)
Definition pair (g : nat) : KSource := match g with 0%nat => gal 1 0 (/ 2) 0 2 | _ => gal 0 1 1 0 3 end.
Definition swap (g : nat) : nat := match g with 0%nat => 1%nat | _ => 0%nat end.
Lemma order_case : field_of (relabel 2 swap P2) (fun g => pair (swap g)) = field_of P2 pair /\
  nth (0 * 7 + 4) (snd (EvaluateProposal (relabel 2 swap P2) 0 (fun g => pair (swap g)))) 0 = nth (1 * 7 + 4) (snd (EvaluateProposal P2 0 pair)) 0.
Proof.
  destruct (C81_order swap P2 0 pair) as (A & _ & C).
  - change (2 <= 30)%nat. lia.
  - change (n_sources P2) with 2%nat. cbn. apply perm_swap.
  - change (n_sources P2) with 2%nat in *. unfold field_of. rewrite !A. split; [reflexivity|]. apply (C 0%nat 4%nat); lia.
Qed.
(** The sky turned by a quarter: east for north. *)
Lemma axes_case : let P := toy 7 false in let P' := turn_sky (PI / 2) (fun _ => 0) P in let src' := fun _ : nat => gal 0 1 (/ 2) (PI / 2) 5 in
  field_of P' src' = field_of P whole /\ nth 2 (snd (EvaluateProposal P' 0 src')) 0 = nth 1 (snd (EvaluateProposal P 0 whole)) 0.
Proof.
  intros P P' src'. destruct (C81_axes (PI / 2) (fun _ => 0) P 0 whole src') as (A & _ & C).
  - change (1 <= 30)%nat. lia.
  - intros e g _. unfold moved, src', whole. cbn [gal k_ra k_dec]. change (P_crval P) with (fun _ : nat => 0). cbv beta. rewrite cos_PI2, sin_PI2. split; ring.
  - intros g _. unfold same_but_turned, src', whole. cbn [gal k_q k_pa k_fluxes]. repeat split. ring.
  - fold P' in A, C. unfold field_of. rewrite !A. split; [reflexivity|]. destruct (C 0%nat ltac:(change (0 < 1)%nat; lia)) as (_ & _ & K & _). rewrite cos_PI2, sin_PI2 in K. change (nth 2 (snd (EvaluateProposal P' 0 src')) 0 = 1 * nth 1 (snd (EvaluateProposal P 0 whole)) 0 + 0 * nth 2 (snd (EvaluateProposal P 0 whole)) 0) in K. rewrite K. ring.
Qed.
