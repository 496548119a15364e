(** C58: concrete fits meeting the hypotheses of the theorems *)
From Coq Require Import Reals Lra Lia.
From Coq Require Import ZArith List String Ascii Permutation Bool Sorted.
From Verif Require Import Np NpFacts EmModel PsfConvModel PsfConvFacts PsfHmcFacts PsfConvProps PsfHmcProps PsfBlur.
Import ListNotations.
Open Scope R_scope.

(** An argsort: indices by insertion *)
Fixpoint ins (l : list R) (i : nat) (o : list nat) : list nat :=
  match o with
  | [] => [i]
  | j :: t => if Rle_dec (nth i l 0) (nth j l 0) then i :: j :: t else j :: ins l i t
  end.
Definition rargsort (l : list R) : list nat := fold_right (ins l) [] (seq 0 (List.length l)).
Lemma ins_perm l i o : Permutation (ins l i o) (i :: o).
Proof.
  induction o as [|j t IH]; cbn; [reflexivity|]. destruct Rle_dec; [reflexivity|].
  rewrite IH. apply perm_swap.
Qed.
Lemma ins_sorted l i o : Sorted (fun i j => nth i l 0 <= nth j l 0) o -> Sorted (fun i j => nth i l 0 <= nth j l 0) (ins l i o).
Proof.
  induction o as [|j t IH]; intros S; cbn; [repeat constructor|]. destruct Rle_dec as [h|h]; [constructor; [exact S | constructor; exact h]|].
  apply Sorted_inv in S. destruct S as [S1 S2]. constructor; [apply IH, S1|].
  destruct t as [|k t]; cbn; [constructor; lra|]. inversion S2; subst. destruct Rle_dec; constructor; lra.
Qed.
Lemma rargsort_ok l : Permutation (rargsort l) (seq 0 (List.length l)) /\ Sorted (fun i j => nth i l 0 <= nth j l 0) (rargsort l).
Proof.
  unfold rargsort. generalize (seq 0 (List.length l)). intros o. induction o as [|i o [IH1 IH2]]; cbn; [split; constructor|]. split.
  - rewrite ins_perm. constructor. exact IH1.
  - apply ins_sorted, IH2.
Qed.

(** Two gaussians of an EM fit, one of them correlated *)
Definition em_a := Build_comp (3 / 4) 103 105 2 3 (1 / 2).
Definition em_b := Build_comp (1 / 4) 100 104 5 4 0.
Lemma em_proper : Forall proper [em_a; em_b].
Proof. unfold proper. repeat constructor; cbn; lra. Qed.
Example detector_case : exists p ts, get_psf (Some (Pickle [(2%nat, [flat_map six [em_a; em_b]])])) 1 0 (Some 2%nat) 8 104 = Some p /\
  as_tuplelist p = Some ts /\ map (fun t : tuple6 => let '(a, _, _, _, _, _) := t in a) ts = [3 / 4; 1 / 4] /\
  forall X Y, rsum (map (fun t => dens t X Y) ts) = 8 ^ 2 * mix (104 + 8 * Y) (104 + 8 * X) [em_a; em_b].
Proof. apply (C58_detector [flat_map six [em_a; em_b]] 2 0 [em_a; em_b] 1 8 104 eq_refl); [lra | exact em_proper]. Qed.
Example newstyle_case : exists ps, newstyle_parameters [flat_map six [em_a; em_b]] 2 2 8 (209, 209)%nat (Some 50) = Some ps /\
  nth_error ps 1 = Some [zero_row; zero_row].
Proof.
  destruct (C58_newstyle_partial [[em_a; em_b]] 2 2 8 209 (Some 50)) as (ps & H & _ & _ & Z); [lra | cbn; lia | repeat constructor; cbn; lra|].
  exists ps. split; [exact H|]. apply Z. cbn. lia.
Qed.

(** A fit with two positive gaussians, one negative gaussian and a background *)
Definition fit : dict :=
  [("a", Sc (9 / 10)); ("bg", Sc (1 / 100)); ("weight", Vec [3 / 5; 2 / 5]); ("x", Vec [20; 21]); ("y", Vec [22; 20]);
   ("rho", Vec [0; 1 / 2]); ("sx", Vec [1; 4]); ("q", Vec [1; 2]);
   ("weight_m", Vec [1 / 20]); ("x_m", Vec [24]); ("y_m", Vec [20]); ("rho_m", Vec [0]); ("sx_m", Vec [2]); ("q_m", Vec [1])]%string.
Lemma fit_sampled : sampled 2 1 false true fit.
Proof.
  split; [cbn; reflexivity|].
  unfold psf_sites. cbn [Nat.ltb Nat.leb app map]. repeat (constructor; [cbn; eexists; split; reflexivity|]). constructor.
Qed.
Lemma fit_range : in_range (fit_best false 1 fit).
Proof.
  intros k l H. cbn [fit_best] in H.
  split; intros K; cbn in K; repeat (destruct K as [<- | K]; [cbn in H; injection H as <-; repeat constructor; lra|]); contradiction.
Qed.
Example stored_case : exists best model ps scale,
  rectify (fit_best false 1 fit) [(20, 20); (21, 20)] = Some (best, model) /\
  convert_psf_data rargsort best 20 20 1 2 4 = Some (ps, scale) /\
  exists g row, by_name "F090W" (fst (package_output [] "F090W" ps false)) = Some g /\ nth_error (b_parameters g) 0 = Some row /\
    List.length (filter (fun g => Nat.eqb (g_bin g) 1) row) = 3%nat /\
    rsum (map g_amp (filter (fun g => Nat.eqb (g_bin g) 1) row)) = 17 / 20.
Proof.
  destruct (C58_stored 2 1 false true 1 fit rargsort 1 2 4 20 20 [(20, 20); (21, 20)] [] "F090W" (le_n _) fit_sampled fit_range
              (fun l => proj1 (rargsort_ok l)) ltac:(lra)) as (best & model & ps & scale & H1 & _ & H2 & g & G1 & G2 & G3).
  exists best, model, ps, scale. split; [exact H1|]. split; [exact H2|].
  destruct (b_parameters g) as [|row rest] eqn:E; [discriminate G2|].
  exists g, row. split; [exact G1|]. rewrite E. split; [reflexivity|].
  destruct (G3 0%nat 1%nat row eq_refl ltac:(lia)) as (_ & L & _). split; [exact L|].
  destruct (C58_flux 2 1 false true 1 fit rargsort 1 2 4 20 20 [(20, 20); (21, 20)] [] "F090W"%string best model ps scale [3 / 5; 2 / 5] (9 / 10) [1 / 20]
              (le_n _) fit_sampled fit_range (fun l => proj1 (rargsort_ok l)) eq_refl ltac:(cbn; lra) eq_refl eq_refl H1 H2 false (or_intror eq_refl)) as [_ F].
  rewrite (F g 0%nat 1%nat row); [cbn; lra | exact G1 | rewrite E; reflexivity | lia].
Qed.
(** The rows of one cell with decreasing amplitude *)
Example order_case : exists ps scale, convert_psf_data rargsort fit 20 20 1 2 4 = Some (ps, scale) /\ 0 <= scale /\
  exists bins rows, In bins (q_cells ps) /\ In rows bins /\ Sorted (fun g h => g_amp h <= g_amp g) rows /\ List.length rows = 2%nat.
Proof.
  assert (E : rargsort [3 / 5; 2 / 5] = [1; 0]%nat).
  { unfold rargsort. cbn [List.length seq fold_right ins]. destruct Rle_dec as [h|h]; [cbn in h; lra | reflexivity]. }
  assert (OK := rargsort_ok). revert E OK. generalize rargsort. intros f E OK.
  assert (C : exists ps rows, convert_psf_data f fit 20 20 1 2 4 = Some (ps, 9 / 10) /\ q_cells ps = [rows] /\
            exists r1 r2, rows = [r1; r2] /\ List.length r1 = 2%nat).
  { unfold convert_psf_data. cbn. rewrite E. cbn. eexists _, _. split; [reflexivity|]. split; [reflexivity|]. eexists _, _. split; reflexivity. }
  destruct C as (ps & rows & C & Q & r1 & r2 & -> & L). exists ps, (9 / 10). split; [exact C|]. split; [lra|].
  exists [r1; r2], r1. rewrite Q. split; [left; reflexivity|]. split; [left; reflexivity|]. split; [|exact L].
  eapply (C58_order f fit 20 20 1 2 4 _ _ _ _ OK C); [lra | rewrite Q; left; reflexivity | left; reflexivity].
Qed.
Example one_case : sampled 1 0 true false [("x", Vec [3]); ("y", Vec [3]); ("rho", Vec [0]); ("sx", Vec [2]); ("q", Vec [1])]%string.
Proof. split; [cbn; reflexivity|]. unfold psf_sites. cbn. repeat (constructor; [cbn; eexists; split; reflexivity|]). constructor. Qed.

(** Combining two files; and two that cannot be combined *)
Example combine_case : let g := mkGroup [] 0 in
  combine_psfdatasets [] [[("f090w", g)]; [("f115W", g); ("F200W", g)]]%string = Some [("F090W", g); ("F115W", g); ("F200W", g)]%string /\
  combine_psfdatasets [] [[("f090w", g)]; [("F090W", g)]]%string = None.
Proof. split; reflexivity. Qed.

(** An image of 5 columns and 4 rows with a border of one pixel *)
Example image_case : let im := read_image (mkFits 5 4 (map (fun y => map (fun x => INR (10 * y + x)) (seq 0 5)) (seq 0 4))) 1 in
  inx im = 3%nat /\ iny im = 2%nat /\ idata im = map INR [11; 21; 12; 22; 13; 23]%nat /\ pixels_of im = map (fun p => (INR (fst p), INR (snd p))) [(0, 0); (0, 1); (1, 0); (1, 1); (2, 0); (2, 1)]%nat.
Proof. repeat split; reflexivity. Qed.

(** Two gaussians to be rescaled and blurred *)
Definition two := [mkGrow (3 / 4) 0 0 1 2 (1 / 2) 0; mkGrow (1 / 4) 1 0 9 8 0 0].
Lemma two_positive : Forall positive two.
Proof. unfold two, positive. repeat constructor; cbn; lra. Qed.
Example blur_case : blur_psf_data 3 (blur_psf_data 4 two) = blur_psf_data 5 two /\
  map g_xx (blur_psf_data 5 two) = [1 + 5 ^ 2; 9 + 5 ^ 2].
Proof.
  split; [|reflexivity]. destruct (C58_blur two two_positive) as (_ & _ & H & _). rewrite H.
  replace (4 ^ 2 + 3 ^ 2) with (5 ^ 2) by ring. rewrite sqrt_pow2 by lra. reflexivity.
Qed.
Example scaled_case : exists ps, convert_psf_data rargsort (scale_psf_data two 20 20 2) 20 20 1 1 1 = Some (ps, 1) /\ List.length (q_cells ps) = 1%nat.
Proof.
  destruct (C58_scaled rargsort two 20 20 2 1 1 (fun l => proj1 (rargsort_ok l)) ltac:(lra) two_positive) as (ps & H & L & _).
  exists ps. auto.
Qed.
