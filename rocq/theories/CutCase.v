(** C83: cases. *)
From Verif Require Import Np WcsModel StampModel CutModel CutProps.
From Coq Require Import Reals Lra Lia.
Open Scope R_scope.

Definition plane (n : nat) (f : nat -> nat -> value) : list (list value) := map (fun i => map (f i) (seq 0 n)) (seq 0 n).
Lemma plane_shape n f : shape (plane n f) n n.
Proof. split; [unfold plane; now rewrite map_length, seq_length|]. intros row H. apply in_map_iff in H. destruct H as (i & <- & _). now rewrite map_length, seq_length. Qed.
Lemma plane_at n f i j : (i < n)%nat -> (j < n)%nat -> at2 (plane n f) i j = Some (f i j).
Proof.
  intros Hi Hj. unfold at2, plane. assert (Q : forall k, (k < n)%nat -> nth_error (seq 0 n) k = Some k) by (intros k Hk; rewrite (nth_error_nth' _ 0%nat) by (now rewrite seq_length); now rewrite seq_nth).
  rewrite nth_error_map, Q by exact Hi. cbn [option_map]. rewrite nth_error_map, Q by exact Hj. reflexivity.
Qed.
Definition ramp := plane 8 (fun i j => Fin (INR i + 10 * INR j)).
Definition errors := plane 8 (fun i j => if Nat.eqb i 3 then Fin 0 else Fin 2).
Definition degrees : m2 := M (/ 3600) 0 0 (/ 3600).
(** Three by four pixels around (4.2, 5), the rows 2 to 4 and the columns 3 to 6; the row 3 has no uncertainty *)
Example C83_cut_case : exists c, cut false 8 8 ramp errors degrees (V (42 / 10) 5) (V (INR 3) (INR 4)) = Some c /\ c_nx c = 3%nat /\ c_ny c = 4%nat /\
  at2 (c_values c) 0 1 = Some (Fin (INR 2 + 10 * INR 4)) /\ at2 (c_ierr c) 0 1 = Some (Fin (1 / 2)) /\ at2 (c_values c) 1 1 = Some (Fin 0) /\ at2 (c_ierr c) 1 1 = Some (Fin 0) /\
  c_crval c = V 3 5.
Proof.
  destruct (C83_cut_partial 8 8 ramp errors degrees (V (42 / 10) 5) 3 4 (plane_shape _ _) (plane_shape _ _)) as (c & x0 & y0 & E & Nx & Ny & Bx & By & P & Cv & D & _); cbn [v0 v1] in *; try lia; try (unfold det, degrees; cbn [m00 m01 m10 m11]; lra); try (cbn; lra).
  assert (x0 = 2 /\ y0 = 3)%nat as [-> ->].
  { cbn [INR] in Bx, By. assert (A1 : (x0 < 3)%nat) by (apply INR_lt; cbn; lra). assert (A2 : (1 < x0)%nat) by (apply INR_lt; cbn; lra). assert (A3 : (y0 < 4)%nat) by (apply INR_lt; cbn; lra). assert (A4 : (2 < y0)%nat) by (apply INR_lt; cbn; lra). lia. }
  exists c. split; [exact E|]. split; [exact Nx|]. split; [exact Ny|].
  destruct (P 0%nat 1%nat) as (v & e & V1 & V2 & P1 & _); [lia|lia|]. unfold ramp, errors in V1, V2. rewrite plane_at in V1, V2 by lia. injection V1 as <-. injection V2 as <-. destruct (P1 2 eq_refl ltac:(lra)) as [Q1 Q2]. split; [exact Q1|]. split; [exact Q2|].
  destruct (P 1%nat 1%nat) as (v & e & W1 & W2 & _ & P2 & _); [lia|lia|]. unfold errors in W2. rewrite plane_at in W2 by lia. injection W2 as <-. destruct (P2 (or_introl eq_refl)) as [Q3 Q4]. split; [exact Q3|]. split; [exact Q4|].
  unfold cut in E. destruct (inv degrees); [|discriminate]. injection E as <-. cbn [c_crval c_crpix v0 v1] in Cv |- *. rewrite Cv. assert (I1 : Int_part (/ 2 * INR 3) = 1%Z) by (apply int_part_is; cbn; lra). assert (I2 : Int_part (/ 2 * INR 4) = 2%Z) by (apply int_part_is; cbn; lra). cbn [INR] in *. rewrite I1, I2. f_equal; lra.
Qed.
(** Four by four around (1, 5) in the same image: no rows *)
Example C83_low_edge_case : exists c, cut false 8 8 ramp errors degrees (V 1 5) (V (INR 4) (INR 4)) = Some c /\ c_values c = [].
Proof.
  destruct (cut false 8 8 ramp errors degrees (V 1 5) (V (INR 4) (INR 4))) as [c|] eqn:E.
  - exists c. split; [reflexivity|]. apply (C83_low_edge_refuted 8 8 ramp errors degrees (V 1 5) 4 (INR 4) c (plane_shape _ _)); [cbn; lra|cbn; lra|lia|exact E].
  - exfalso. unfold cut, inv in E. destruct (Req_EM_T (det degrees) 0) as [Z|]; [|discriminate]. unfold det, degrees in Z. cbn [m00 m01 m10 m11] in Z. lra.
Qed.
(** A star at (5, 12): the stamp of four by four around it is empty of light *)
Definition star := plane 20 (fun i j => if Nat.eqb i 12 && Nat.eqb j 5 then Fin 1 else Fin 0).
Example C83_axes_case : fits_pixel star 5 12 = Some (Fin 1) /\ exists c, cut false 20 20 star (plane 20 (fun _ _ => Fin 1)) degrees (V (INR 5) (INR 12)) (V (INR 4) (INR 4)) = Some c /\
  forall i j, (i < 4)%nat -> (j < 4)%nat -> at2 (c_values c) i j = Some (Fin 0).
Proof.
  split; [exact (plane_at 20 _ 12 5 ltac:(lia) ltac:(lia))|]. destruct (cut false 20 20 star _ degrees _ _) as [c|] eqn:E.
  - exists c. split; [reflexivity|]. apply (C83_axes_refuted 20 star (plane 20 (fun _ _ => Fin 1)) degrees 5 12 4 c (plane_shape _ _) (plane_shape _ _)); try exact E; try lia; try (cbn; lra).
    intros i j Hi Hj N. unfold star. change (fits_pixel ?a i j) with (at2 a j i). rewrite plane_at by assumption. destruct (Nat.eqb_spec j 12), (Nat.eqb_spec i 5); subst; cbn [andb]; try reflexivity. now elim N.
  - exfalso. unfold cut, inv in E. destruct (Req_EM_T (det degrees) 0) as [Z|]; [|discriminate]. unfold det, degrees in Z. cbn [m00 m01 m10 m11] in Z. lra.
Qed.
Example C83_nan_case : forall i j, (i < 8)%nat -> (j < 8)%nat -> at2 (plane 8 (fun _ _ => Nan)) i j = Some Nan /\ at2 (plane 8 (fun _ _ => Fin 1)) i j = Some (Fin 1).
Proof. intros i j Hi Hj. now rewrite !plane_at. Qed.
