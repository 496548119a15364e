(** Concrete skies for the linked server: cases meeting the theorems'
    hypotheses, and witnesses for the claims that are false of the code. *)
From Verif Require Import Np NpFacts SuperSceneModel SuperSceneSpec SuperSceneFacts SuperSceneExamples
     LinkedModel LinkedSpec LinkedFacts LinkedScene LinkedHist.
From Coq Require Import Relations Qabs Lqa.
Open Scope nat_scope.

Definition line_lenv (xs : list Q) : lenv := mkLEnv (line_env xs) (fun k => (nth k xs 0%Q, 0%Q)).
Lemma line_lenv_ok xs : lenv_ok (List.length xs) (line_lenv xs).
Proof.
  split.
  - exact (line_env_ok xs).
  - intros. apply Qabs_nonneg.
  - intros. cbn [le line_lenv line_env distance_to coord fst].
    rewrite (Qabs_Qminus (nth i xs 0%Q) (nth j xs 0%Q)). reflexivity.
  - intros. cbn [le line_lenv line_env distance_to coord fst]. setoid_replace (nth i xs 0 - nth i xs 0)%Q with 0%Q by ring. reflexivity.
Qed.

Definition lrow (x rh : Q) : row := ex_row x rh.
Definition lcat (l : list (Q * Q)) : list row := map (fun xr => lrow (fst xr) (snd xr)) l.
Definition lstart (l : list (Q * Q)) : state := ingest (lcat l) (map (fun _ => []) l) (map (fun _ => []) l).
Definition lcfg (maxact : nat) (B : Q) (str : bool) (r : option (list Q)) : lconfig :=
  mkLConfig (mkConfig ["F200W"%string] 256 (1#2) maxact 1 B 5 1) (3#10) str r.

Definition lgranted_state (r : lcheckout_result) (d : state) : state :=
  match r with LCoGranted s _ => s | LCoRefused s => s | LCoCrash => d end.
Definition lgranted_patch (r : lcheckout_result) : lpatch :=
  match r with LCoGranted _ p => p | _ => mkLPatch ((0, 0), 0)%Q [] None end.

(** ** Wide radii: links that are not found, or found from one side only. *)
Definition wide : list (Q * Q) := [(0, 100); (150, 100)]%Q.
Definition wide_e := line_lenv (map fst wide).
Definition wide_c := lcfg 5 8 true (Some (map snd wide)).
Lemma wide_touch : touch wide_e wide_c (lstart wide) 0 1.
Proof. unfold touch. simpl. split; [lia|]. split; [lia|]. split; [lia|]. vm_compute. reflexivity. Qed.
Lemma wide_roi : roi_ok wide_c (lstart wide).
Proof. intros k Hk. destruct k as [|[|k]]; [| |simpl in Hk; lia]; eexists; split; try reflexivity; discriminate. Qed.

Definition oneway : list (Q * Q) := [(0, 1); (12, 100)]%Q.
Definition oneway_e := line_lenv (map fst oneway).
Definition oneway_c := lcfg 5 8 true (Some (map snd oneway)).
Lemma oneway_roi : roi_ok oneway_c (lstart oneway).
Proof. intros k Hk. destruct k as [|[|k]]; [| |simpl in Hk; lia]; eexists; split; try reflexivity; discriminate. Qed.
Definition oneway_co := Eval vm_compute in lcheckout_region oneway_e oneway_c (lstart oneway) 0 None.
Lemma oneway_repeats : ids (lp_active (lgranted_patch oneway_co)) = [0; 1; 0]%Z.
Proof. reflexivity. Qed.

(** ** A long chain, larger than a patch: the same source handed out twice. *)
Definition long : list (Q * Q) := map (fun k => (inject_Z (Z.of_nat k), 6#10)) (seq 0 10).
Definition long_e := line_lenv (map fst long).
Definition long_c := lcfg 6 2 true (Some (map snd long)).
Definition long_co1 := Eval vm_compute in lcheckout_region long_e long_c (lstart long) 0 None.
Definition long_s1 := Eval vm_compute in lgranted_state long_co1 (lstart long).
Definition long_p1 := Eval vm_compute in lgranted_patch long_co1.
Definition long_co2 := Eval vm_compute in lcheckout_region long_e long_c long_s1 8 None.
Definition long_s2 := Eval vm_compute in lgranted_state long_co2 (lstart long).
Definition long_p2 := Eval vm_compute in lgranted_patch long_co2.
Lemma long_history : lhistory long_e long_c (lstart long) [LEvOut long_p1; LEvOut long_p2] long_s2 [long_p1; long_p2].
Proof.
  apply (lh_grant long_e long_c (lstart long) [LEvOut long_p1] long_s1 [long_p1] 8 None).
  - apply (lh_grant long_e long_c (lstart long) [] (lstart long) [] 0 None); [constructor|]. vm_compute. reflexivity.
  - vm_compute. reflexivity.
Qed.
Lemma long_ids : ids (lp_active long_p1) = [0; 1; 2; 3; 4; 5]%Z /\ ids (lp_active long_p2) = [8; 7; 9; 6; 5; 4]%Z.
Proof. split; reflexivity. Qed.

(** ** Radii that follow the catalog: groups fit at ingest, but a check-in
    changes them. *)
Definition live : list (Q * Q) := [(0, 3); (6, 1); (13#2, 1#10); (11#2, 1#10); (9, 1#10)]%Q.
Definition live_e := line_lenv (map fst live).
Definition live_c := lcfg 3 4 true None.
Definition live_co1 := Eval vm_compute in lcheckout_region live_e live_c (lstart live) 1 None.
Definition live_s1 := Eval vm_compute in lgranted_state live_co1 (lstart live).
Definition live_p1 := Eval vm_compute in lgranted_patch live_co1.
Definition live_co2 := Eval vm_compute in lcheckout_region live_e live_c live_s1 0 None.
Definition live_s2 := Eval vm_compute in lgranted_state live_co2 (lstart live).
Definition live_p2 := Eval vm_compute in lgranted_patch live_co2.
Definition live_ret := Eval vm_compute in
  map (fun r => if (source_index r =? 1)%Z then setcol "rhalf" r 4%Q else r) (lp_active live_p1).
Definition live_s3 := Eval vm_compute in
  match checkin_region (base live_c) live_s2 live_ret (lp_fixed live_p1) ex_args with Some s => s | None => lstart live end.
Definition live_co3 := Eval vm_compute in lcheckout_region live_e live_c live_s3 4 None.
Definition live_s4 := Eval vm_compute in lgranted_state live_co3 (lstart live).
Definition live_p3 := Eval vm_compute in lgranted_patch live_co3.
Lemma live_history :
  lhistory live_e live_c (lstart live)
    [LEvOut live_p1; LEvOut live_p2; LEvIn live_ret ex_args; LEvOut live_p3] live_s4 [live_p2; live_p3].
Proof.
  apply (lh_grant live_e live_c (lstart live) [LEvOut live_p1; LEvOut live_p2; LEvIn live_ret ex_args] live_s3 [live_p2] 4 None);
    [|vm_compute; reflexivity].
  apply (lh_in live_e live_c (lstart live) [LEvOut live_p1; LEvOut live_p2] live_s2 [] live_p1 [live_p2] live_ret ex_args);
    [|reflexivity|vm_compute; reflexivity].
  apply (lh_grant live_e live_c (lstart live) [LEvOut live_p1] live_s1 [live_p1] 0 None); [|vm_compute; reflexivity].
  apply (lh_grant live_e live_c (lstart live) [] (lstart live) [] 1 None); [constructor|vm_compute; reflexivity].
Qed.
Lemma live_ids : ids (lp_active live_p1) = [1; 2; 3]%Z /\ ids (lp_active live_p2) = [0]%Z /\
  ids (lp_active live_p3) = [4; 1; 0]%Z.
Proof. repeat split; reflexivity. Qed.

(** ** A well behaved sky: two pairs and a loner. *)
Definition good : list (Q * Q) := [(0, 1); (1, 1); (10, 1); (11, 1); (30, 1)]%Q.
Definition good_e := line_lenv (map fst good).
Definition good_c := lcfg 3 5 true (Some (map snd good)).
Lemma good_roi : roi_ok good_c (lstart good).
Proof.
  intros k Hk. do 5 (destruct k as [|k]; [eexists; split; [reflexivity|discriminate]|]). simpl in Hk; lia.
Qed.
Lemma good_small : small_roi good_c (lstart good).
Proof.
  intros k Hk. do 5 (destruct k as [|k]; [discriminate|]). simpl in Hk; lia.
Qed.
Lemma good_touch i j : touch good_e good_c (lstart good) i j ->
  In (i, j) [(0, 1); (1, 0); (2, 3); (3, 2)].
Proof.
  intros (H1 & H2 & H3 & H4). change (List.length (sourcecat (lstart good))) with 5 in *.
  destruct i as [|[|[|[|[|i]]]]]; try lia; destruct j as [|[|[|[|[|j]]]]]; try lia;
    simpl; auto 6; exfalso; apply Qlt_alt in H4; vm_compute in H4; discriminate.
Qed.
Definition good_group (i : nat) : list nat :=
  match i with 0 => [0; 1] | 1 => [0; 1] | 2 => [2; 3] | 3 => [2; 3] | _ => [i] end.
Lemma good_linked i j : linked good_e good_c (lstart good) i j -> In j (good_group i).
Proof.
  intros H. apply clos_rt_rtn1 in H. induction H as [|y z Hyz H IH].
  - destruct i as [|[|[|[|i]]]]; simpl; auto.
  - apply good_touch in Hyz. simpl in Hyz.
    destruct Hyz as [E|[E|[E|[E|[]]]]]; injection E as <- <-;
      destruct i as [|[|[|[|i]]]]; simpl in *; lia.
Qed.
Lemma good_fit i group : i < 5 -> NoDup group ->
  (forall x, In x group -> linked good_e good_c (lstart good) i x) -> List.length group <= 3.
Proof.
  intros _ Hnd H. apply Nat.le_trans with (List.length (good_group i)).
  - apply NoDup_incl_length; auto. intros x Hx. now apply good_linked, H.
  - destruct i as [|[|[|[|i]]]]; simpl; lia.
Qed.
Definition good_co1 := Eval vm_compute in lcheckout_region good_e good_c (lstart good) 0 None.
Definition good_s1 := Eval vm_compute in lgranted_state good_co1 (lstart good).
Definition good_p1 := Eval vm_compute in lgranted_patch good_co1.
Definition good_co2 := Eval vm_compute in lcheckout_region good_e good_c good_s1 2 None.
Definition good_s2 := Eval vm_compute in lgranted_state good_co2 (lstart good).
Definition good_p2 := Eval vm_compute in lgranted_patch good_co2.
Lemma good_history : lhistory good_e good_c (lstart good) [LEvOut good_p1; LEvOut good_p2; LEvRefused]
                       good_s2 [good_p1; good_p2].
Proof.
  apply (lh_refuse good_e good_c (lstart good) [LEvOut good_p1; LEvOut good_p2] good_s2 _ 1 None); [|vm_compute; reflexivity].
  apply (lh_grant good_e good_c (lstart good) [LEvOut good_p1] good_s1 [good_p1] 2 None).
  - apply (lh_grant good_e good_c (lstart good) [] (lstart good) [] 0 None); [constructor|]. vm_compute. reflexivity.
  - vm_compute. reflexivity.
Qed.
