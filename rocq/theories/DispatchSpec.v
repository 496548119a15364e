(** Vocabulary for C12 and C13. *)
From Verif Require Import Np SuperSceneModel SuperSceneSpec DispatchModel.

(** What MPI promises when asked about [q]'s outstanding requests: distinct,
    existing requests, and at least one when the call waits. *)
Definition mpi_reports {T} (q : queue T) (mode : blocking_mode) (done : list nat) : Prop :=
  NoDup done /\ (forall i, In i done -> i < List.length (irecv_handles q)) /\
  (mode = Blocking -> irecv_handles q <> [] -> done <> []).

(** Histories of a queue. *)
Inductive qevent (T : Type) := Submitted (h : handle T) | Collected (hs : list (handle T)).
Arguments Submitted {T}. Arguments Collected {T}.
Inductive qhistory {T} (n : nat) : list (qevent T) -> queue T -> Prop :=
| qh_new : qhistory n [] (new_queue n)
| qh_submit : forall evs q task tag q' child,
    qhistory n evs q -> submit q task tag = Some (q', child) ->
    qhistory n (evs ++ [Submitted (mkHandle child tag task)]) q'
| qh_collect : forall evs q mode done q' res,
    qhistory n evs q -> mpi_reports q mode done -> collect q mode done = Some (q', res) ->
    qhistory n (evs ++ [Collected res]) q'.
Fixpoint all_submitted {T} (evs : list (qevent T)) : list (handle T) :=
  match evs with
  | [] => []
  | Submitted h :: t => h :: all_submitted t
  | Collected _ :: t => all_submitted t
  end.
Fixpoint all_returned {T} (evs : list (qevent T)) : list (handle T) :=
  match evs with
  | [] => []
  | Submitted _ :: t => all_returned t
  | Collected hs :: t => hs ++ all_returned t
  end.

(** Children answer with rows for exactly the active sources they were given. *)
Definition answers_ok (ans : handle patch -> answer) : Prop :=
  forall h, ids (final (ans h)) = ids (p_active (h_task h)).

(** Executions of the parent loop with [n] children: the trace lists, for every
    pass, the task counter and the collected results. *)
Inductive run (e : env) (c : config) (label : nat -> string) (draws : Z)
          (ans : handle patch -> answer) (n : nat) (s0 : state)
  : list (nat * list (handle patch)) -> parent -> Prop :=
| run_start : run e c label draws ans n s0 [] (mkParent s0 (new_queue n) 0)
| run_step : forall tr st seeds done s1 q1 tid mode st' results,
    run e c label draws ans n s0 tr st ->
    undone c (sceneDB st) = true -> seeds <> [] ->
    submit_phase e c st seeds = Ready s1 q1 tid mode -> mpi_reports q1 mode done ->
    loop_body e c label draws ans st seeds done = Next st' results ->
    run e c label draws ans n s0 (tr ++ [(tid, results)]) st'.

(** How many of the results concern source [j]. *)
Definition count_for (j : nat) (hs : list (handle patch)) : Z :=
  Z.of_nat (List.length (filter (fun h => memZ (Z.of_nat j) (ids (p_active (h_task h)))) hs)).
Definition collected (tr : list (nat * list (handle patch))) : list (handle patch) := concat (map snd tr).
