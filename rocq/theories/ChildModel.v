(** The children of a parallel run and the messages between them and the parent:
    /repo/forcepho/dispatcher.py, do_child (249-300), dummy_work (303-317), the sends and receives of
    MPIQueue (submit 113-140, collect 67-111, closeout 142-153).

    MPI is represented by mailboxes: a message sent to a process waits until that process receives it,
    messages between two processes with the same tag stay in order, nothing is lost or invented.  The parent and
    its children run at their own pace: a run is any interleaving of their steps.  Building the patch
    maker (256-260), logging, sleeping and the size of the buffers are not modelled. *)
From Verif Require Import Np DispatchModel.
Import ListNotations.

(** ** What a child computes for a task *)
(** Python values as far as they are taken apart here; [Obj] is anything that is only passed on *)
Inductive value :=
| Obj (k : nat)
| Tuple (l : list value)
| Dict (l : list (string * value))
| Namespace (l : list (string * value)).
Fixpoint lookup (k : string) (l : list (string * value)) : option value :=
  match l with [] => None | (k', v) :: t => if String.eqb k k' then Some v else lookup k t end.
(** v[key] for a string: KeyError, or TypeError for a tuple, are [None] *)
Definition getitem (v : value) (key : string) : option value := match v with Dict l => lookup key l | _ => None end.
(** Unpacking into n names; a Namespace is not iterable *)
Definition unpack (n : nat) (v : value) : option (list value) :=
  match v with Tuple l => if Nat.eqb (List.length l) n then Some l else None | _ => None end.

(** dummy_work 303-317; the Namespace has its attributes in the order they are set *)
Definition dummy_work (task : value) : option value :=
  match getitem task "active", getitem task "fixed" with
  | Some a, Some f => Some (Namespace [("niter", Obj 75); ("active", a); ("fixed", f)]%string)
  | _, _ => None
  end.

Section Answer.
(** [work] 269; [fill]: out.fill(region, active, fixed, model, bounds, step, stats), line 285, of
    fitting.Result *)
Variable work : value -> option value.
Variable fill : value -> list value -> option (value * value).
(** Lines 279-291: the answer to a task *)
Definition child_answer (task : value) : option value :=
  match getitem task "region", getitem task "active", getitem task "fixed", getitem task "bounds" with
  | Some r, Some a, Some f, Some b =>
    match work (Tuple [r; a; f; b]) with
    | Some w =>
      match unpack 3 w with
      | Some [fit; scene; model] =>
        match unpack 4 scene, unpack 3 fit with
        | Some [region; active; fixed; bounds], Some [out; step; stats] =>
          match fill out [region; active; fixed; model; bounds; step; stats] with
          | Some (final, covs) => Some (Dict [("out", out); ("covs", covs); ("final", final)]%string)
          | None => None
          end
        | _, _ => None
        end
      | _ => None
      end
    | None => None
    end
  | _, _, _, _ => None
  end.
End Answer.
(** do_child as it is, line 269 *)
Definition do_child_answer (fill : value -> list value -> option (value * value)) (task : value) : option value := child_answer dummy_work fill task.

(** ** Parent, children and mailboxes *)
Section System.
Context {T A : Type}.
(** What a child makes of a task; [None]: an exception, which ends the child *)
Variable answer : T -> option A.

(** Where a child is in its loop 272-298: in recv; with a task; between the answer and the end of
    patcher.free(); behind the loop; ended by an exception *)
Inductive phase := Listening | Working (tag : nat) (task : T) | Freeing | Stopped | Crashed.
Record system := mkSystem {
  s_queue : queue T;
  s_down : nat -> list (nat * option T);     (* sent to a child, not yet received: tag and task; [None] is the kill message *)
  s_child : nat -> phase;
  s_up : nat -> list (nat * A);              (* sent by a child, not yet received *)
  s_closed : bool                            (* the parent has returned from closeout *)
}.
Definition setf {B} (f : nat -> B) (c : nat) (v : B) : nat -> B := fun x => if Nat.eqb x c then v else f x.
Definition start (n : nat) : system := mkSystem (new_queue n) (fun _ => []) (fun _ => Listening) (fun _ => []) false.

(** The message that completes an irecv(source=child, tag=tag): the first with that tag *)
Fixpoint take (tag : nat) (l : list (nat * A)) : option (A * list (nat * A)) :=
  match l with
  | [] => None
  | (t, a) :: r => if Nat.eqb t tag then Some (a, r)
                   else match take tag r with Some (b, r') => Some (b, (t, a) :: r') | None => None end
  end.
(** The answers that complete a list of requests; [None] when one of them is not there yet *)
Fixpoint take_all (hs : list (handle T)) (up : nat -> list (nat * A)) : option (list A * (nat -> list (nat * A))) :=
  match hs with
  | [] => Some ([], up)
  | h :: t =>
    match take (h_tag h) (up (h_child h)) with
    | Some (a, r) => match take_all t (setf up (h_child h) r) with Some (l, up') => Some (a :: l, up') | None => None end
    | None => None
    end
  end.

(** submit 113-140 *)
Definition parent_submit (s : system) (task : T) (tag : nat) : option (system * nat) :=
  match submit (s_queue s) task tag with
  | Some (q, c) => Some (mkSystem q (setf (s_down s) c (s_down s c ++ [(tag, Some task)])) (s_child s) (s_up s) (s_closed s), c)
  | None => None
  end.
(** collect 67-111 when MPI reports [done]; [None]: an exception, or MPI cannot report this (yet) *)
Definition parent_collect (s : system) (mode : blocking_mode) (done : list nat) : option (system * list (handle T * A)) :=
  match collect (s_queue s) mode done with
  | Some (q, hs) =>
    match take_all hs (s_up s) with
    | Some (l, up) => Some (mkSystem q (s_down s) (s_child s) up (s_closed s), combine hs l)
    | None => None
    end
  | None => None
  end.
(** closeout 142-153, the last thing the parent does *)
Definition kill_all (l : list nat) (down : nat -> list (nat * option T)) : nat -> list (nat * option T) :=
  fold_left (fun d c => setf d c (d c ++ [(0, None)])) l down.
Definition parent_close (s : system) : option system :=
  match closeout (s_queue s) with
  | Some l => Some (mkSystem (s_queue s) (kill_all l (s_down s)) (s_child s) (s_up s) true)
  | None => None
  end.
(** One step of child c: recv 275-282; work, 284-291, and the answer, 294, with the tag of the task;
    patcher.free(), 298 *)
Definition child_step (s : system) (c : nat) : option system :=
  match s_child s c with
  | Listening =>
    match s_down s c with
    | [] => None
    | (tag, m) :: r =>
      Some (mkSystem (s_queue s) (setf (s_down s) c r)
              (setf (s_child s) c (match m with Some task => Working tag task | None => Stopped end)) (s_up s) (s_closed s))
    end
  | Working tag task =>
    match answer task with
    | Some a => Some (mkSystem (s_queue s) (s_down s) (setf (s_child s) c Freeing) (setf (s_up s) c (s_up s c ++ [(tag, a)])) (s_closed s))
    | None => Some (mkSystem (s_queue s) (s_down s) (setf (s_child s) c Crashed) (s_up s) (s_closed s))
    end
  | Freeing => Some (mkSystem (s_queue s) (s_down s) (setf (s_child s) c Listening) (s_up s) (s_closed s))
  | Stopped | Crashed => None
  end.
End System.
Arguments system : clear implicits.
Arguments phase : clear implicits.

(** submit with the tag it has by default, MPI.ANY_TAG: a tag that a message cannot carry, so the send of
    line 134 raises; line 125 has taken the child off the idle list by then *)
Definition submit_any {T} (q : queue T) : option (queue T) :=
  match idle q with
  | [] => None
  | child :: rest => if memn child (busy q) then None else Some (mkQueue (irecv_handles q) (busy q) rest (n_children q))
  end.
