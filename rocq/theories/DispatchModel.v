(** Model of the MPI work queue and of the parent's event loop:
    /repo/forcepho/dispatcher.py, class MPIQueue (29-153) and do_parent (156-246).

    MPI itself is represented by its contract: a request posted by [irecv] with
    source=child completes with the answer of that child to the task it was sent,
    at a moment MPI chooses.  The choice is an argument (the list of completed
    request positions, in the order MPI reports them); the answer is represented
    by the request (child, tag, task) that it answers.  Buffer sizes, logging and
    timing are not modelled; neither is the warning of lines 102-103. *)
From Verif Require Import Np SuperSceneModel.

Section Queue.
Context {T : Type}.

(** An outstanding request: line 137, [comm.irecv(source=child, tag=tag)] for the
    task sent in line 134. *)
Record handle := mkHandle { h_child : nat; h_tag : nat; h_task : T }.

(** MPIQueue attributes 56-61 *)
Record queue := mkQueue {
  irecv_handles : list handle;
  busy : list nat;
  idle : list nat;
  n_children : nat
}.

(** __init__ 54-65 *)
Definition new_queue (n : nat) : queue := mkQueue [] [] (seq 1 n) n.

(** submit 113-140; [None] is either RuntimeError (125-126) or ValueError (132-133). *)
Definition submit (q : queue) (task : T) (tag : nat) : option (queue * nat) :=
  match idle q with
  | [] => None
  | child :: rest =>
    if memn child (busy q) then None
    else Some (mkQueue (irecv_handles q ++ [mkHandle child tag task]) (busy q ++ [child]) rest
                       (n_children q), child)
  end.

(** The argument [blocking] of collect: False, True or 'all'. *)
Inductive blocking_mode := NonBlocking | Blocking | BlockAll.

(** [l.pop(i)] / [del l[i]] *)
Fixpoint remove_nth {A} (i : nat) (l : list A) : list A :=
  match l, i with
  | [], _ => []
  | _ :: t, O => t
  | h :: t, S j => h :: remove_nth j t
  end.

(** [sorted(indices, reverse=True)] *)
Fixpoint insert_desc (i : nat) (l : list nat) : list nat :=
  match l with
  | [] => [i]
  | j :: t => if Nat.leb j i then i :: l else j :: insert_desc i t
  end.
Definition sorted_reverse (l : list nat) : list nat := fold_right insert_desc [] l.

(** The loop of lines 98-105. *)
Fixpoint pop_loop (inds : list nat) (q : queue) : option queue :=
  match inds with
  | [] => Some q
  | i :: t =>
    match nth_error (busy q) i, nth_error (irecv_handles q) i with
    | Some c, Some _ =>
      pop_loop t (mkQueue (remove_nth i (irecv_handles q)) (remove_nth i (busy q)) (idle q ++ [c])
                          (n_children q))
    | _, _ => None
    end
  end.

Fixpoint nodupb (l : list nat) : bool :=
  match l with [] => true | x :: t => negb (memn x t) && nodupb t end.

(** collect 67-111.  [done] is what MPI reports as completed (for 'all' it is
    ignored: waitall completes every request).  With no outstanding request a
    blocking call raises RuntimeError (85-86) and a non-blocking one iterates
    over the [None] that testsome returns, a TypeError; both are [None]. The
    assertion of line 109 is also [None]. *)
Definition collect (q : queue) (mode : blocking_mode) (done : list nat) : option (queue * list handle) :=
  match irecv_handles q, mode with
  | [], BlockAll => Some (q, [])
  | [], _ => None
  | _, _ =>
    let inds := match mode with BlockAll => seq 0 (List.length (irecv_handles q)) | _ => done end in
    match fancy_get (irecv_handles q) inds, pop_loop (sorted_reverse inds) q with
    | Some results, Some q' => if nodupb (idle q') then Some (q', results) else None
    | _, _ => None
    end
  end.

(** closeout 142-153: [Some] lists the children that are sent the kill message. *)
Definition closeout (q : queue) : option (list nat) :=
  if negb (Nat.eqb (List.length (idle q)) (n_children q)) then None
  else if negb (Nat.eqb (List.length (irecv_handles q)) 0) then None
  else Some (seq 1 (n_children q)).
End Queue.
Arguments handle : clear implicits.
Arguments queue : clear implicits.

(** ** do_parent *)

(** The state of the loop 189-230: the scene server, the queue, the task counter.
    A task (the [chore] of 210-212) is represented by the patch it carries;
    [patchcat] (213-215) only records and is not modelled. *)
Record parent := mkParent {
  sceneDB : state;
  pqueue : queue patch;
  taskid : nat
}.

(** [for _ in range(ntry): checkout_region() ... break], 194-199, for the seeds
    drawn in the successive attempts. *)
Inductive attempt := NoRegion | Region (s : state) (p : patch) | AttemptCrash.
Fixpoint try_checkout (e : env) (c : config) (s : state) (seeds : list nat) : attempt :=
  match seeds with
  | [] => NoRegion
  | k :: t =>
    match checkout_region e c s k with
    | CoGranted s' p => Region s' p
    | CoRefused s' => try_checkout e c s' t
    | CoCrash => AttemptCrash
    end
  end.

(** What a child computed for a task: the fitted rows and covariances. *)
Record answer := mkAnswer { final : list row; covs : option (list matrix) }.

(** Decimal rendering of a task number is left abstract: task labels are the
    numbers themselves turned into a string by [label]. *)
(** Lines 226-230, [checkin_region(result['final'], result['out'].fixed,
    sampling_draws, block_covs=result['covs'], taskID=taskid)] with the loop's
    current [taskid]. *)
Fixpoint checkin_all (c : config) (label : nat -> string) (draws : Z) (tid : nat)
         (ans : handle patch -> answer) (s : state) (results : list (handle patch)) : option state :=
  match results with
  | [] => Some s
  | h :: t =>
    match checkin_region c s (final (ans h)) (Some (p_fixed (h_task h)))
            (mkArgs draws (covs (ans h)) None (Some (label tid))) with
    | None => None
    | Some s' => checkin_all c label draws tid ans s' t
    end
  end.

Inductive iteration :=
| Next (p : parent) (collected : list (handle patch))
| QueueError          (* exception from submit or collect *)
| ServerError.        (* exception from checkout, sparse or check-in *)

(** First half of the loop body, 191-222: generate a patch, submit it, decide
    whether to wait.  (When no region was found the decision is to wait whatever
    [sparse] says; it cannot raise there, the catalog being nonempty.)  [seeds]: the seeds drawn by the (at most ntry) attempts. *)
Inductive phase1 :=
| Ready (s : state) (q : queue patch) (tid : nat) (mode : blocking_mode)
| Phase1QueueError
| Phase1ServerError.
Definition submit_phase (e : env) (c : config) (st : parent) (seeds : list nat) : phase1 :=
  match try_checkout e c (sceneDB st) seeds with
  | AttemptCrash => Phase1ServerError
  | NoRegion => Ready (sceneDB st) (pqueue st) (taskid st) Blocking
  | Region s1 p =>
    match submit (pqueue st) p (S (taskid st)) with
    | None => Phase1QueueError
    | Some (q1, _) =>
      match sparse c s1 with
      | None => Phase1ServerError
      | Some sp => Ready s1 q1 (S (taskid st))
                     (if Nat.eqb (List.length (idle q1)) 0 || negb sp then Blocking else NonBlocking)
      end
    end
  end.

(** The whole body, 191-230. [done]: the requests MPI reports complete. *)
Definition loop_body (e : env) (c : config) (label : nat -> string) (draws : Z)
           (ans : handle patch -> answer) (st : parent) (seeds : list nat) (done : list nat) : iteration :=
  match submit_phase e c st seeds with
  | Phase1QueueError => QueueError
  | Phase1ServerError => ServerError
  | Ready s1 q1 tid mode =>
    match collect q1 mode done with
    | None => QueueError
    | Some (q', results) =>
      match checkin_all c label draws tid ans s1 results with
      | None => ServerError
      | Some s' => Next (mkParent s' q' tid) results
      end
    end
  end.

(** After the loop, 232-246: collect the stragglers (their check-in is commented
    out) and close the queue. *)
Definition finish (st : parent) (done : list nat) : option (parent * list (handle patch) * list nat) :=
  match collect (pqueue st) BlockAll done with
  | None => None
  | Some (q', results) =>
    match closeout q' with
    | None => None
    | Some killed => Some (mkParent (sceneDB st) q' (taskid st), results, killed)
    end
  end.
