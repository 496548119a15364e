(** Vocabulary for C14, C15, C16, C35 and C44. *)
From Verif Require Import Np SceneModel.

Section S.
Context {V : Type}.
(** As its constructor makes it: one flux entry per filter. *)
Definition well_made (s : source V) : Prop := List.length (flux s) = List.length (filternames s).
(** What a source of each class is described by, in order, behind the fluxes. *)
Definition described_by (s : source V) : list V :=
  match s_kind s with
  | Star => [s_ra s; s_dec s]
  | GalaxyNS | SimpleGalaxy => [s_ra s; s_dec s; s_q s; s_pa s]
  | ShearNS => [s_ra s; s_dec s; s_ep s; s_ec s]
  | Shear => [s_ra s; s_dec s; s_ep s; s_ec s; s_sersic s; s_rhalf s]
  | Galaxy => [s_ra s; s_dec s; s_q s; s_pa s; s_sersic s; s_rhalf s]
  | BaseSource => [s_ra s; s_dec s; s_q s; s_pa s; s_rhalf s; s_sersic s]
  end.
(** The attributes that do not describe a source of the class. *)
Definition not_described_by (s : source V) : list V :=
  match s_kind s with
  | Star => [s_q s; s_pa s; s_sersic s; s_rhalf s; s_ep s; s_ec s]
  | GalaxyNS | SimpleGalaxy => [s_sersic s; s_rhalf s; s_ep s; s_ec s]
  | ShearNS => [s_q s; s_pa s; s_sersic s; s_rhalf s]
  | Shear => [s_q s; s_pa s]
  | Galaxy | BaseSource => [s_ep s; s_ec s]
  end.
Definition same_object (s s' : source V) : Prop :=
  s_kind s' = s_kind s /\ filternames s' = filternames s /\ fixed s' = fixed s /\
  not_described_by s' = not_described_by s.
(** Number of parameters of one source / of a scene's active sources *)
Definition size (s : source V) : nat := List.length (filternames s) + List.length (described_by s).
Definition offset (sc : list (source V)) (i : nat) : nat :=
  list_sum (map size (filter (fun s => negb (fixed s)) (firstn i sc))).
Definition total (sc : list (source V)) : nat := offset sc (List.length sc).
End S.
