(** Cases for C55: numbers and array contents are integers and lists of integers. *)
From Verif Require Import Np NpFacts ResultModel ResultFacts ResultProps ResultLoad ResultTask.
Open Scope nat_scope.

Notation cval := (value Z (list Z)).
Notation catt := (attributes Z (list Z)).

(** A stand-in for make_chaincat that keeps the chain, for one source *)
Definition case_cc (c : cval) (bs : list string) (a r : cval) (ss : list string) : option cval :=
  match c with Arr _ (Blob b) => Some (arr ([1], b)) | _ => None end.
Definition case_sample (c a : cval) : option cval := match c with Arr _ (Blob b) => Some (arr ([1], [last b 0%Z])) | _ => None end.
Definition case_patch : patch := mkPatch (N:=Z) (B:=list Z) ["F1"; "F2"]%string ["ra"; "dec"]%string ([2], [10; 20]%Z) 7%Z 100%Z ["e1"; "e2"; "e3"]%string.
Definition case_out : catt := [("ndim", Number 4%Z); ("chain", arr ([3; 4], [1; 2; 3; 4; 5; 6; 7; 8; 9; 10; 11; 12]%Z)); ("message", Text "done"); ("precisions", ListOf [2; 1; 1] [5; 6]%Z)]%string.

Lemma case_cc_arr : forall c bs a r ss v, case_cc c bs a r ss = Some v -> exists d b, v = arr (d, b) /\ d <> [].
Proof. intros c bs a r ss v H. unfold case_cc in H. destruct c as [d c|?|?|?|? ?|? ? ?| |]; try discriminate. destruct c; try discriminate. injection H as <-. do 2 eexists. split; [reflexivity|discriminate]. Qed.
Lemma case_sample_arr : forall c a v, case_sample c a = Some v -> exists d b, v = arr (d, b) /\ d <> [].
Proof. intros c a v H. unfold case_sample in H. destruct c as [d c|?|?|?|? ?|? ? ?| |]; try discriminate. destruct c; try discriminate. injection H as <-. do 2 eexists. split; [reflexivity|discriminate]. Qed.

Definition case_filled : option catt := fill case_cc Z.of_nat case_sample case_out (circle_dict 1%Z 2%Z 3%Z) ([1], [42]%Z) None (Some ([2], [1; 2]%Z)) None (Some 5%Z) case_patch.

Lemma case_out_keys : NoDup (map fst case_out).
Proof. vm_compute. repeat (constructor; [cbn; intuition congruence|]). constructor. Qed.
Lemma case_out_dim : dimensioned case_out.
Proof. intros k d c H. unfold case_out in H. cbn [getattr] in H. repeat (destruct (String.eqb _ _) in H; [try discriminate; unfold arr in H; injection H as <- _; discriminate|]). discriminate. Qed.

(** The hypotheses of C55_task, and what is read back: the fixed sources were None *)
Example C55_task_case : exists o f l, case_filled = Some o /\ write_to_disk 64 "out/p5_samples.h5" o (Some "{}"%string) = Some f /\ load case_cc f [] = Some l /\
  getattr l "bands" = Some (TextList ["F1"; "F2"]%string) /\ getattr l "final" = Some (arr ([1], [12%Z])) /\ getattr l "fixed" = None /\ getattr l "big" = Some (arr ([2], [1; 2]%Z)) /\ getattr l "patchID" = Some (Number 5%Z) /\ getattr l "precisions" = Some (arr ([2; 1; 1], [5; 6]%Z)).
Proof. do 3 eexists. split; [vm_compute; reflexivity|]. split; [vm_compute; reflexivity|]. split; [vm_compute; reflexivity|]. repeat split. Qed.
Definition case_o : catt := match case_filled with Some o => o | None => [] end.
Definition case_f : h5 Z (list Z) := match write_to_disk 64 "out/p5_samples.h5" case_o (Some "{}"%string) with Some f => f | None => mkH5 [] [] end.
Example C55_task_used : exists l, load case_cc case_f [] = Some l /\ getattr l "region" = Some (Circle (Number 1%Z) (Number 2%Z) (Number 3%Z)).
Proof.
  destruct (C55_task case_cc 64 "out/p5_samples.h5" Z.of_nat case_sample case_out ([3; 4], [1; 2; 3; 4; 5; 6; 7; 8; 9; 10; 11; 12]%Z) ([1], [42]%Z) None (Some ([2], [1; 2]%Z)) None (Some 5%Z) case_patch 1%Z 2%Z 3%Z (Some "{}"%string) case_o case_f
    case_out_keys case_out_dim eq_refl) as (l & cc & fin & L & _ & _ & R & _); [discriminate|discriminate| |discriminate|discriminate|exact case_cc_arr|exact case_sample_arr|vm_compute; reflexivity|vm_compute; reflexivity|].
  - intros x E. injection E as <-. discriminate.
  - exists l. split; [exact L|exact R].
Qed.

(** Saving, loading, saving and loading *)
Example C55_again_case : exists o f l f' l', case_filled = Some o /\ dump_to_h5 64 "out/a.h5" o = (Some f, Done ["fixed"%string]) /\ load case_cc f [] = Some l /\
  dump_to_h5 64 "out/a.h5" l = (Some f', Done ["region"%string]) /\ load case_cc f' [] = Some l' /\ getattr l' "bands" = getattr l "bands" /\ getattr l "bands" = Some (TextList ["F1"; "F2"]%string).
Proof. do 5 eexists. split; [vm_compute; reflexivity|]. split; [vm_compute; reflexivity|]. split; [vm_compute; reflexivity|]. split; [vm_compute; reflexivity|]. split; [vm_compute; reflexivity|]. split; reflexivity. Qed.

(** A complete save *)
Example C55_complete_case : exists f, dump_to_h5 64 "out/a.h5" case_out = (Some f, Done []) /\ exists o', read_from_h5 [] f = Some o' /\ getattr o' "ndim" = Some (Number 4%Z).
Proof.
  eexists. split; [vm_compute; reflexivity|]. destruct (C55_kept 64 "out/a.h5" case_out _ [] case_out_keys case_out_dim eq_refl) as (o' & R & _ & _ & K & _). exists o'. split; [exact R|]. apply K. reflexivity.
Qed.

(** Two bands of twenty sources: 6400 bytes in a room of 64 *)
Example C55_large_list_case : exists f msgs, dump_to_h5 64 "out/a.h5" [("precisions"%string, ListOf [2; 20; 20] [1]%Z : cval)] = (Some f, Done msgs) /\ msgs = ["precisions"%string] /\ load case_cc f [] = Some [].
Proof. do 2 eexists. split; [vm_compute; reflexivity|]. split; reflexivity. Qed.
Example C55_text_array_case : exists f, dump_to_h5 64 "out/a.h5" [("ndim"%string, Number 4%Z : cval); ("id", Arr [1] (Texts ["A"])); ("chain", arr ([1], [1%Z]))]%string = (Some f, Raised "id"%string) /\ getattr (sets f) "chain" = None.
Proof. eexists. split; [vm_compute; reflexivity|]. reflexivity. Qed.
Example C55_scalar_array_case : exists f msgs, dump_to_h5 64 "out/a.h5" [("fun"%string, Arr [] (Blob [3%Z]) : cval)] = (Some f, Done msgs) /\ load case_cc f [] = None.
Proof. do 2 eexists. split; [vm_compute; reflexivity|]. reflexivity. Qed.
Example C55_bare_name_case : has_slash "samples.h5" = false /\ has_slash "out/samples.h5" = true.
Proof. split; reflexivity. Qed.
(** A rectangle *)
Definition case_rect : catt := setall [("chain", arr ([1; 4], [1; 2; 3; 4]%Z)); ("bandlist", bytes_of ["F1"]); ("shapenames", bytes_of ["ra"]); ("active", arr ([1], [7%Z])); ("reference_coordinates", arr ([2], [0; 0]%Z))]%string (rectangle_dict 1 2 3 4)%Z.
Example C55_rectangle_case : exists f l, dump_to_h5 64 "out/a.h5" case_rect = (Some f, Done []) /\ load case_cc f [] = Some l /\ getattr l "bands" = Some (TextList ["F1"]%string) /\ getattr l "chaincat" = None.
Proof. do 2 eexists. split; [vm_compute; reflexivity|]. split; [vm_compute; reflexivity|]. split; reflexivity. Qed.
Example C55_none_case : exists o f msgs, case_filled = Some o /\ getattr o "fixed" = Some Nothing /\ dump_to_h5 64 "out/a.h5" o = (Some f, Done msgs).
Proof. do 3 eexists. split; [vm_compute; reflexivity|]. split; vm_compute; reflexivity. Qed.
