(** C66: answers of another form than the loop takes apart end the child. *)
From Verif Require Import Np NpFacts DispatchModel DispatchSpec DispatchFacts ChildModel ChildFacts ChildProps.
Import ListNotations.

(** The work must give back three things, of which the first has three and the second four parts: when a
    child answers at all, the work gave just that, on the task's own four entries, and the answer carries
    what was made of it.  Anything more or less ends the child without an answer. *)
Theorem C66_form : forall work fill task ans, child_answer work fill task = Some ans ->
  exists r a f b out step stats model r' a' f' b' final covs,
    getitem task "region" = Some r /\ getitem task "active" = Some a /\ getitem task "fixed" = Some f /\ getitem task "bounds" = Some b /\
    work (Tuple [r; a; f; b]) = Some (Tuple [Tuple [out; step; stats]; Tuple [r'; a'; f'; b']; model]) /\
    fill out [r'; a'; f'; model; b'; step; stats] = Some (final, covs) /\
    ans = Dict [("out", out); ("covs", covs); ("final", final)]%string.
Proof.
  intros work fill task ans H. unfold child_answer in H.
  destruct (getitem task "region") as [r|] eqn:E1; [|discriminate].
  destruct (getitem task "active") as [a|] eqn:E2; [|discriminate].
  destruct (getitem task "fixed") as [f|] eqn:E3; [|discriminate].
  destruct (getitem task "bounds") as [b|] eqn:E4; [|discriminate].
  destruct (work _) as [w|] eqn:Ew; [|discriminate].
  assert (U : forall n v l, unpack n v = Some l -> v = Tuple l /\ List.length l = n).
  { intros n v l K. unfold unpack in K. destruct v; try discriminate.
    destruct (Nat.eqb_spec (List.length l0) n); [|discriminate]. injection K as <-. auto. }
  destruct (unpack 3 w) as [l|] eqn:Eu; [|discriminate]. apply U in Eu as [-> Hl].
  destruct l as [|fit [|scene [|model [|]]]]; try discriminate.
  destruct (unpack 4 scene) as [ls|] eqn:Es; [|discriminate]. apply U in Es as [-> Hs].
  destruct ls as [|r' [|a' [|f' [|b' [|]]]]]; try discriminate.
  destruct (unpack 3 fit) as [lf|] eqn:Ef; [|discriminate]. apply U in Ef as [-> Hf].
  destruct lf as [|out [|step [|stats [|]]]]; try discriminate.
  destruct (fill _ _) as [[final covs]|] eqn:Ei; [|discriminate]. injection H as <-.
  exists r, a, f, b, out, step, stats, model, r', a', f', b', final, covs. repeat split; auto.
Qed.
Print Assumptions C66_form.

(** Work that answers with four things instead of three: no answer, while three give one. *)
Example C66_form_case :
  let task := Dict [("region", Obj 1); ("active", Obj 2); ("fixed", Obj 3); ("bounds", Obj 4)]%string in
  let fit := Tuple [Obj 5; Obj 6; Obj 7] in
  let fill := fun (_ : value) (_ : list value) => Some (Obj 8, Obj 9) in
  child_answer (fun v => Some (Tuple [fit; v; Obj 10; Obj 11])) fill task = None /\
  exists ans, child_answer (fun v => Some (Tuple [fit; v; Obj 10])) fill task = Some ans.
Proof. split; [reflexivity|eexists; reflexivity]. Qed.
