(** C28: the S/N cap.  C46: storing an exposure again. *)
From Verif Require Import Np NpFacts StoreModel StoreFacts StoreProps StoreAdd.
From Coq Require Import ZArith Reals Lra.
From Flocq Require Import Core.Core IEEE754.BinarySingleNaN.
Close Scope R_scope.
Open Scope nat_scope.

(** Capping again changes nothing, in any arithmetic (also with rounding). *)
Theorem C28_idempotent {V} (zero : V) gt mul div truthy m data ierr : List.length ierr = List.length data ->
  let cap := cap_snr zero gt mul div truthy m data in cap (cap ierr) = cap ierr.
Proof.
  intros Hl. cbv zeta. unfold cap_snr. revert ierr Hl. induction data as [|d data IH]; intros [|i ierr] Hl; simpl in *; try discriminate; auto.
  f_equal; [|apply IH; lia]. unfold cap_pixel. destruct m as [m|]; auto. destruct (truthy m); auto.
  destruct (gt i zero && gt (mul d i) m) eqn:E; [|now rewrite E]. destruct (gt (div m d) zero && gt (mul d (div m d)) m); reflexivity.
Qed.

Section Reals.
Open Scope R_scope.
Definition gtR (a b : R) : bool := if Rlt_dec b a then true else false.
Definition truthyR (m : R) : bool := if Req_EM_T m 0 then false else true.
Notation cap S := (cap_snr 0 gtR Rmult Rdiv truthyR (Some S)).
Lemma cap_at S data ierr k d i : nth_error data k = Some d -> nth_error ierr k = Some i ->
  nth_error (cap S data ierr) k = Some (cap_pixel 0 gtR Rmult Rdiv truthyR (Some S) d i).
Proof.
  unfold cap_snr. intros H1 H2. rewrite nth_error_map. enough (E : nth_error (combine data ierr) k = Some (d, i)) by now rewrite E.
  revert data ierr H1 H2. induction k; intros [|a data] [|b ierr] H1 H2; simpl in *; try discriminate; [congruence|auto].
Qed.
(** For a positive cap and non-negative inverse errors: no pixel's S/N exceeds the cap,
    pixels not above it keep their inverse error, and the masked pixels are the same.
    Missing from the full claim: the bound on |data|, see C28_negative_refuted. *)
Theorem C28_cap_partial S data ierr k d i : 0 < S -> nth_error data k = Some d -> nth_error ierr k = Some i -> 0 <= i ->
  exists i', nth_error (cap S data ierr) k = Some i' /\
    d * i' <= S /\ (0 <= d -> Rabs d * i' <= S) /\ (Rabs d * i <= S -> i' = i) /\ (d * i <= S -> i' = i) /\
    (S < d * i -> d * i' = S) /\ 0 <= i' <= i /\ (i' = 0 <-> i = 0).
Proof.
  intros HS H1 H2 Hi. eexists. split; [apply cap_at; eauto|]. unfold cap_pixel, truthyR, gtR.
  destruct (Req_EM_T S 0) as [E|_]; [lra|]. destruct (Rlt_dec 0 i) as [Hi0|Hi0]; simpl.
  - destruct (Rlt_dec S (d * i)) as [Hc|Hc].
    + assert (Hd : 0 < d). { destruct (Rlt_dec 0 d); auto. exfalso. assert (d * i <= 0) by (assert (0 <= (-d) * i) by (apply Rmult_le_pos; lra); lra). lra. }
      assert (Ed : d * (S / d) = S) by (field; lra). assert (Hq : 0 < S / d) by (apply Rdiv_lt_0_compat; lra).
      split; [lra|]. split; [intros _; rewrite Rabs_pos_eq by lra; lra|]. split; [rewrite Rabs_pos_eq by lra; lra|]. split; [lra|]. split; [lra|].
      assert (Hle : S / d <= i). { apply Rmult_le_reg_l with d; auto. lra. } split; [lra|]. split; lra.
    + split; [lra|]. split; [intros Hd; rewrite Rabs_pos_eq by lra; lra|]. repeat split; auto; try lra.
  - assert (i = 0) by lra. subst i. rewrite !Rmult_0_r. repeat split; auto; try lra.
Qed.
(** The bound fails for negative pixels. *)
Theorem C28_negative_refuted : exists S d i i', 0 < S /\ 0 < i /\ cap S [d] [i] = [i'] /\ S < Rabs d * i'.
Proof.
  exists 5, (-10), 1, 1. split; [lra|]. split; [lra|]. split.
  - unfold cap_snr. cbn [combine map fst snd]. f_equal. unfold cap_pixel, truthyR, gtR. destruct (Req_EM_T 5 0); [lra|]. destruct (Rlt_dec 5 (-10 * 1)); [lra|]. destruct (Rlt_dec 0 1); reflexivity.
  - rewrite Rabs_left by lra. lra.
Qed.
Example C28_case : exists i', nth_error (cap 10 [4; 100] [2; 1]) 1 = Some i' /\ 100 * i' = 10 /\ nth_error (cap 10 [4; 100] [2; 1]) 0 = Some 2.
Proof.
  destruct (C28_cap_partial 10 [4; 100] [2; 1] 1 100 1) as (i' & H & _ & _ & _ & _ & Hc & _); [lra|reflexivity|reflexivity|lra|].
  destruct (C28_cap_partial 10 [4; 100] [2; 1] 0 4 2) as (j' & H' & _ & _ & _ & Hu & _); [lra|reflexivity|reflexivity|lra|].
  exists i'. rewrite H' , Hu by lra. split; auto. split; auto. apply Hc. lra.
Qed.
End Reals.

(** C46 *)
Section Again.
Context (prec emax prec' emax' : Z) (Hp : FLX.Prec_gt_0 prec) (He : Prec_lt_emax prec emax)
        (Hp' : FLX.Prec_gt_0 prec') (He' : Prec_lt_emax prec' emax').
Lemma one_pixel_again o p : o_bkg _ _ o = false -> o_fluxcal _ _ o = None ->
  one_pixel prec emax Hp He o (one_pixel prec emax Hp He o p) = one_pixel prec emax Hp He o p.
Proof.
  intros Hb Hc. unfold one_pixel at 1 3, calibrate. rewrite Hc.
  assert (E : one_pixel prec emax Hp He o p = apply_mask prec emax (unusable prec emax (subtract prec emax Hp He o p) || flag_set prec emax o (subtract prec emax Hp He o p)) (subtract prec emax Hp He o p)) by (unfold one_pixel, calibrate; now rewrite Hc).
  rewrite E. unfold subtract. rewrite Hb. set (u := mkPixel prec emax (p_im _ _ p) (p_ierr _ _ p) (fzero prec emax) (p_flag _ _ p)).
  set (m := unusable prec emax u || flag_set prec emax o u).
  assert (Em : apply_mask prec emax m u = if m then mkPixel _ _ (fzero prec emax) (fzero prec emax) (fzero prec emax) (p_flag _ _ p) else u) by (unfold apply_mask; destruct m; reflexivity).
  rewrite Em. destruct m eqn:Emm; cbn [p_im p_ierr p_bkg p_flag].
  - set (z := mkPixel prec emax (fzero prec emax) (fzero prec emax) (fzero prec emax) (p_flag _ _ p)). unfold apply_mask. destruct (unusable prec emax z || flag_set prec emax o z); reflexivity.
  - change (mkPixel prec emax (p_im _ _ u) (p_ierr _ _ u) (fzero prec emax) (p_flag _ _ u)) with u. fold m. rewrite Emm. unfold apply_mask. reflexivity.
Qed.
(** Without background and calibration, storing the same image set again stores the same
    data.  Missing: the other options, see C46_background_refuted. *)
Theorem C46_store_again_partial s nside o im sp im' : proper_mask prec emax o -> o_bkg _ _ o = false -> o_fluxcal _ _ o = None ->
  add_exposure prec emax prec' emax' Hp He Hp' He' s nside o im = Some (sp, im') ->
  add_exposure prec emax prec' emax' Hp He Hp' He' s nside o im' = Some (sp, im').
Proof.
  intros Hm Hb Hc H. unfold add_exposure in *. rewrite processed_proper in * by auto.
  assert (E : im' = map (map (one_pixel prec emax Hp He o)) im).
  { destruct (shape _) in H. destruct (_ && _)%bool in H; [|discriminate]. destruct (forallb _ _) in H; [|discriminate]. congruence. }
  assert (E2 : map (map (one_pixel prec emax Hp He o)) im' = im').
  { rewrite E, map_map. apply map_ext. intros r. rewrite map_map. apply map_ext. intros p. now apply one_pixel_again. }
  rewrite E2. rewrite <- E in H. exact H.
Qed.
End Again.

(** The caller's image is changed in place, so storing the same image set a second time
    subtracts the background twice (and replaces the first data with the result). *)
Import F32.
Theorem C46_background_refuted : exists sp im' sp' im'',
  add 1 (1, 1) (opts true NoMask 0%Z None) [[px two one one 0%Z]] = Some (sp, im') /\
  add 1 (1, 1) (opts true NoMask 0%Z None) im' = Some (sp', im'') /\
  option_map (fun v => B2SF v) (get3 sp 0 0 0) = Some (B2SF one) /\ option_map (fun v => B2SF v) (get3 sp' 0 0 0) = Some (B2SF zero).
Proof.
  set (o := opts true NoMask 0%Z None). set (im := [[px two one one 0%Z]]).
  assert (E1 : option_map (fun r => (map (map (map (fun v => B2SF v))) (fst r))) (add 1 (1, 1) o im) = Some [[[B2SF one; B2SF one]]]) by (vm_compute; reflexivity).
  assert (E2 : option_map (fun r => (map (map (map (fun v => B2SF v))) (fst r))) (match add 1 (1, 1) o im with Some r => add 1 (1, 1) o (snd r) | None => None end) = Some [[[B2SF zero; B2SF one]]]) by (vm_compute; reflexivity).
  destruct (add 1 (1, 1) o im) as [[sp im']|]; [|discriminate]. cbn [snd] in E2. destruct (add 1 (1, 1) o im') as [[sp' im'']|] eqn:E; [|discriminate].
  exists sp, im', sp', im''. split; [reflexivity|]. split; [exact E|]. cbn [option_map fst] in E1, E2.
  assert (F1 : map (map (map (fun v => B2SF v))) sp = [[[B2SF one; B2SF one]]]) by congruence. assert (F2 : map (map (map (fun v => B2SF v))) sp' = [[[B2SF zero; B2SF one]]]) by congruence.
  assert (Hg : forall arr : list (list (list f32)), option_map (fun v => B2SF v) (get3 arr 0 0 0) = get3 (map (map (map (fun v => B2SF v))) arr) 0 0 0).
  { intros [|[|[|v l] r] a]; reflexivity. }
  rewrite !Hg, F1, F2. split; reflexivity.
Qed.
Example C46_case : o_bkg _ _ (opts false BoolMask 0%Z None) = false /\ option_map (fun r => map (map (map (fun v => B2SF v))) (fst r)) (add 1 (1, 2) (opts false BoolMask 0%Z None) [[px two one zero 0%Z; px two one zero 1%Z]])
  = Some [[[B2SF two; B2SF one]; [B2SF zero; B2SF zero]]].
Proof. split; [reflexivity|]. vm_compute. reflexivity. Qed.
Print Assumptions C27_stored_pixels_partial.
Print Assumptions C27_refusal.
Print Assumptions C27_accepts_any_values.
Print Assumptions C28_idempotent.
Print Assumptions C28_cap_partial.
Print Assumptions C46_store_again_partial.
