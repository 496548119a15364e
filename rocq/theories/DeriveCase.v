(** Concrete cases for C54. *)
From Coq Require Import Reals Lra Permutation.
From Verif Require Import Np DeriveModel DeriveProps DeriveUnc.
From Verif Require FitModel.
Open Scope R_scope.
(** Three sources with two samples each; one pair is combined *)
Definition src (id : string) (f ra dec : list R) : crow := mkRow (Txt id) [("F090W"%string, f); ("ra"%string, ra); ("dec"%string, dec)].
Definition case_rows : list crow := [src "1" [1; 2] [359; 359] [0; 0]; src "2" [3; 4] [1; 1] [2; 2]; src "3" [5; 6] [7; 7] [8; 8]].
Definition case_ftext (i : ident) : option string := Some (text i ++ ".0")%string.
Definition case_groups : list (ident * list ident) := [(Txt "10", [Num 1; Num 2]); (Txt "11", [Txt "3"])].
Lemma case_chains : has_chains 2 (["F090W"%string] ++ ["ra"; "dec"]%string) case_rows.
Proof. intros r c [<-|[<-|[<-|[]]]] [<-|[<-|[<-|[]]]]; eexists; split; reflexivity. Qed.
Example C54_combined_case : exists out hdr, combine_chains case_ftext case_rows ["F090W"%string] case_groups = Some (out, hdr) /\ map o_id out = ["10.0"; "11.0"]%string /\ field hdr "G10" = Some "1,2"%string.
Proof.
  destruct (C54_combined case_ftext case_rows ["F090W"%string] case_groups 2 case_chains) as [K1 K2]. destruct (proj2 K2) as ((out & hdr) & E).
  - split; [discriminate|]. split; [repeat constructor; cbn; intuition discriminate|]. intros g sub [H|[H|[]]]; injection H as <- <-; (split; [discriminate|]); intros s Hs; cbn in Hs.
    + destruct Hs as [<-|[<-|[]]]; [exists (src "1" [1; 2] [359; 359] [0; 0])|exists (src "2" [3; 4] [1; 1] [2; 2])]; split; try reflexivity; cbn; auto.
    + destruct Hs as [<-|[]]. exists (src "3" [5; 6] [7; 7] [8; 8]). split; [cbn; auto|reflexivity].
  - exists out, hdr. split; [exact E|]. destruct (K1 out hdr E) as [L N]. destruct out as [|o [|o' [|]]]; try discriminate L. destruct (N 0%nat _ _ eq_refl) as (x & ms & X1 & X2 & _). destruct (N 1%nat _ _ eq_refl) as (y & ms' & Y1 & Y2 & _). injection X1 as <-. injection Y1 as <-. injection X2 as X2. injection Y2 as Y2.
    split; [cbn; now rewrite <- X2, <- Y2|]. exact (C54_header _ _ _ _ _ _ (Txt "10") [Num 1; Num 2] E ltac:(repeat constructor; cbn; intuition discriminate) (or_introl eq_refl)).
Qed.
Lemma case_ids : NoDup (map r_id case_rows).
Proof. repeat constructor; cbn; intuition discriminate. Qed.
(** All three are in a group: no flux is lost. *)
Example C54_conserved_case : exists out hdr vs, combine_chains case_ftext case_rows ["F090W"%string] case_groups = Some (out, hdr) /\ List.length vs = List.length out /\ total vs = 12.
Proof.
  destruct C54_combined_case as (out & hdr & E & _). exists out, hdr. destruct (C54_conserved case_ftext case_rows ["F090W"%string] case_groups 2 out hdr "F090W" 1 case_chains E case_ids (Permutation_refl _) (or_introl eq_refl) ltac:(auto)) as (vs & Ev & T). exists vs. split; [exact E|]. split.
  - apply (f_equal (@List.length _)) in Ev. rewrite !map_length in Ev. auto.
  - rewrite T. unfold total. cbn. lra.
Qed.
(** Members in the other order: the same row. *)
Example C54_order_case : forall o o' h h', combine_chains case_ftext case_rows ["F090W"%string] [(Txt "10", [Num 1; Num 2])] = Some ([o], h) -> combine_chains case_ftext case_rows ["F090W"%string] [(Txt "10", [Num 2; Num 1])] = Some ([o'], h') -> o = o'.
Proof. intros o o' h h' H H'. apply (C54_order case_ftext case_rows ["F090W"%string] 2 (Txt "10") [Num 1; Num 2] [Num 2; Num 1] o o' case_chains case_ids); [constructor|eauto|eauto]. Qed.
Example C54_wrap_case : exists out hdr o l, combine_chains case_ftext case_rows ["F090W"%string] case_groups = Some (out, hdr) /\ nth_error out 0 = Some o /\ field (o_cols o) "ra" = Some l /\ nth_error l 1 = Some (Some 180).
Proof.
  destruct C54_combined_case as (out & hdr & E & Hid & _). destruct out as [|o out]; [discriminate|]. exists (o :: out), hdr, o.
  destruct (C54_wrap_refuted case_ftext case_rows ["F090W"%string] case_groups 2 _ hdr 0 (Txt "10") (Num 1) (Num 2) (src "1" [1; 2] [359; 359] [0; 0]) (src "2" [3; 4] [1; 1] [2; 2]) o 1 359 case_chains case_ids E eq_refl eq_refl) as (l & L1 & L2); try reflexivity; try (cbn; tauto); [auto|cbn; lra|]. exists l. auto.
Qed.
(** The same with the ids as integers *)
Example C54_integer_ids_case : combine_chains case_ftext [mkRow (Num 1) (r_cols (src "1" [1; 2] [359; 359] [0; 0]))] ["F090W"%string] [(Txt "10", [Num 1])] = None.
Proof. apply (C54_integer_ids_refuted _ _ _ _ (Txt "10") (Num 1) []); [intros r [<-|[]]; eexists; reflexivity|now left]. Qed.

(** Two runs appended *)
Definition run (k : nat) : list (hdu nat) := [mkHdu "PRIMARY" None; mkHdu "MOMENT" (Some [k]); mkHdu "SAMPLES" (Some [k + 1]); mkHdu "BEST" (Some [k + 2]); mkHdu "PERCENTILES" (Some [k + 3])]%nat%string.
Example C54_append_case : exists out, append_catalogs [run 0; run 10] = Some out /\ by_name out "BEST" = Some (mkHdu "BEST" (Some [2; 12]))%nat.
Proof. eexists. split; reflexivity. Qed.
Example C54_append_hyp : forall f ext, In f [run 0; run 10] -> In ext xtensions -> exists h d, by_name f ext = Some h /\ h_data h = Some d.
Proof. intros f ext [<-|[<-|[]]] [<-|[<-|[<-|[<-|[]]]]]; do 2 eexists; split; reflexivity. Qed.
Example C54_append_unnamed_case : append_catalogs [[mkHdu "PRIMARY" None; mkHdu "" (Some [1]); mkHdu "" (Some [2]); mkHdu "" (Some [3]); mkHdu "" (Some [4])]]%nat = None.
Proof. eapply (C54_append_unnamed_refuted nat _ _ (mkHdu "PRIMARY" None)); [now left|reflexivity|reflexivity|intros x Hx; cbn in Hx; repeat destruct Hx as [<-|Hx]; try discriminate; contradiction]. Qed.

(** Three sources, two of them in one patch *)
Definition case_patch : patchfile := mkPatch [2; 0]%Z ["a"%string] [("a"%string, [9; 4000])] (Some [[[1; 0]; [0; 1 / 4]]]).
Definition pinv2 (m : list (list R)) : list (list R) := [[1; 0]; [0; 4]].
Example C54_uncertainties_case : exists U f x, flux_unc_linear pinv2 1000 ["a"%string] [("a"%string, [4000; 16; 9])] [case_patch] = Some U /\ entry U "a" 0 = Some (Some x) /\ sigma_at pinv2 1000 case_patch "a" 0 f x /\ f <= 1000 * x /\ entry U "a" 1 = Some (Some 4).
Proof.
  destruct (C54_uncertainties pinv2 1000 ["a"%string] [("a"%string, [4000; 16; 9])] [case_patch] ["a"%string] 3) as (U & E & _ & A & B).
  - split; [reflexivity|]. intros b [<-|[]]. eexists. split; reflexivity.
  - auto.
  - intros p [<-|[]]. split; [repeat constructor; cbn; intuition discriminate|]. split; [intros i [<-|[<-|[]]]; lia|]. split; [repeat constructor; auto|]. eexists. split; [reflexivity|]. intros [|[|i]] b Hb; try discriminate. injection Hb as <-. split; [now left|]. do 2 eexists. repeat split; reflexivity.
  - destruct (A [] case_patch [] "a"%string 0%nat eq_refl) as (f & x & X1 & X2); [split; cbn; auto|intros p []|]. exists U, f, x. split; [exact E|]. split; [exact X2|]. split; [exact X1|]. split; [apply (C54_snr pinv2 1000 case_patch "a" 0 f x); [lra|exact X1]|].
    rewrite (B "a"%string 1%nat [4000; 16; 9]); [|intros p [<-|[]] [_ Hc]; cbn in Hc; intuition discriminate|now left|reflexivity]. rewrite (C54_default [4000; 16; 9] 1 16 eq_refl) by lra. destruct (Rlt_dec (1 / 4) 16); [|lra]. do 2 f_equal. replace 16 with (4 * 4) by ring. apply sqrt_square. lra.
Qed.
Example C54_missing_case : flux_unc_linear pinv2 1000 ["a"%string] [("a"%string, [4000; 16; 9])] [case_patch; mkPatch [1]%Z ["a"%string] [("a"%string, [16])] None] = None.
Proof. apply (C54_missing_refuted _ _ _ _ _ (mkPatch [1]%Z ["a"%string] [("a"%string, [16])] None)); [cbn; auto|reflexivity|discriminate]. Qed.
