(** C83: the high edge. *)
From Verif Require Import Np WcsModel StampModel CutModel CutProps CutCase.
From Coq Require Import Reals Lra Lia.
Open Scope R_scope.

(** A centre in the image nearer to its high edge than half the size of the stamp: the stamp is short, down to the edge, and
    its reference pixel is where it would be in a whole one *)
Theorem C83_high_edge_refuted : forall n0 n1 im err CD center a b c, shape im n0 n1 -> / 2 * INR a <= v0 center -> v0 center < INR n0 -> INR n0 + 1 <= v0 center + / 2 * INR a ->
  cut false n0 n1 im err CD center (V (INR a) b) = Some c -> exists x0, INR x0 <= v0 center - / 2 * INR a < INR x0 + 1 /\ (c_nx c + x0 = n0)%nat /\ (c_nx c < a)%nat /\
    v0 (c_crval c) = INR x0 + v0 (c_crpix c) /\ v0 (c_crpix c) <= / 2 * INR a < v0 (c_crpix c) + 1.
Proof.
  intros n0 n1 im err CD center a b c [Hn _] Hl Hc Hh H. unfold cut in H. destruct (inv CD) as [i|]; [|discriminate]. injection H as <-. cbn [c_nx c_crval c_crpix v0 v1 low_end high_end fst snd vadd].
  pose proof (int_part_between (v0 center - / 2 * INR a)) as B1. pose proof (int_part_between (v0 center + / 2 * INR a)) as B2. pose proof (int_part_between (/ 2 * INR a)) as B3. assert (P : 0 <= INR a) by apply pos_INR.
  unfold trunc. destruct (Rle_dec 0 (v0 center - / 2 * INR a)) as [_|]; [|lra]. destruct (Rle_dec 0 (v0 center + / 2 * INR a)) as [_|]; [|lra].
  set (z := Int_part (v0 center - / 2 * INR a)) in *. set (h := Int_part (v0 center + / 2 * INR a)) in *.
  assert (Z0 : (0 <= z)%Z) by (assert (Q : IZR (-1) < IZR z) by lra; apply lt_IZR in Q; lia).
  assert (Zn : (z < Z.of_nat n0)%Z) by (apply lt_IZR; rewrite <- INR_IZR_INZ; lra).
  assert (Hn0 : (Z.of_nat n0 < h)%Z). { assert (Q : IZR (Z.of_nat n0) < IZR h) by (rewrite <- INR_IZR_INZ; lra). apply lt_IZR in Q. exact Q. }
  assert (E : INR (Z.to_nat z) = IZR z) by (rewrite INR_IZR_INZ, Z2Nat.id by lia; reflexivity).
  assert (L : slice_length n0 z h = (n0 - Z.to_nat z)%nat) by (unfold slice_length, slice_end; rewrite (proj2 (Z.ltb_ge z 0) Z0), (proj2 (Z.ltb_ge h 0)) by lia; lia).
  exists (Z.to_nat z). rewrite E, L. split; [exact B1|]. split; [lia|]. split; [|split; [ring|exact B3]].
  apply INR_lt. rewrite minus_INR by lia. rewrite E. lra.
Qed.
Print Assumptions C83_high_edge_refuted.
Example C83_high_edge_case : exists c, cut false 8 8 ramp errors degrees (V 7 4) (V (INR 6) (INR 4)) = Some c /\ c_nx c = 4%nat.
Proof.
  destruct (cut false 8 8 ramp errors degrees (V 7 4) (V (INR 6) (INR 4))) as [c|] eqn:E.
  - exists c. split; [reflexivity|]. destruct (C83_high_edge_refuted 8 8 ramp errors degrees (V 7 4) 6 (INR 4) c (plane_shape _ _)) as (x0 & B & N & _); [cbn; lra|cbn; lra|cbn; lra|exact E|].
    cbn [v0 INR] in B. assert (A1 : (x0 < 5)%nat) by (apply INR_lt; cbn; lra). assert (A2 : (3 < x0)%nat) by (apply INR_lt; cbn; lra). lia.
  - exfalso. unfold cut, inv in E. destruct (Req_EM_T (det degrees) 0) as [Z|]; [|discriminate]. unfold det, degrees in Z. cbn [m00 m01 m10 m11] in Z. lra.
Qed.
