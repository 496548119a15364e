(** C30: when the fit of the fluxes gives no answer (optimize_fluxes). *)
From Verif Require Import Np NpFacts KernelModel KernelSum PackModel DeviceModel DeviceProps DeviceZero DeviceCase LinOptModel LinOptProps LinOptDevice LinOptCase.
From Coq Require Import Reals Lra.
Open Scope R_scope.

Lemma dot_sym : forall a b, dot a b = dot b a.
Proof.
  unfold dot, vmul. induction a as [|x a IH]; intros [|y b]; try reflexivity. cbn [combine map fold_right fst snd]. rewrite IH. ring.
Qed.
Lemma bands_fail ls l : forall i n, optimize_bands ls i l = inr n ->
  (i <= n < i + List.length l)%nat /\ exists w X y, nth_error l (n - i) = Some (w, X, y) /\ optimize_one_band ls X w y None = None.
Proof.
  induction l as [|[[w X] y] l IH]; intros i n H; [discriminate|]. cbn [optimize_bands] in H.
  destruct (optimize_one_band ls X w y None) as [[f p]|] eqn:E1.
  - destruct (optimize_bands ls (S i) l) as [[fs ps]|j] eqn:E2; [discriminate|]. injection H as <-.
    destruct (IH _ _ E2) as (Hb & w' & X' & y' & Hn & Ho). split; [simpl; lia|]. exists w', X', y'. split; [|exact Ho].
    replace (j - i)%nat with (S (j - S i))%nat by lia. exact Hn.
  - injection H as <-. split; [simpl; lia|]. exists w, X, y. rewrite Nat.sub_diag. split; [reflexivity|exact E1].
Qed.
(** C30: the fit is given up only when the solver refuses a square system, and the
    number reported is that of a band: a solver that answers every square system never
    leaves the fluxes without a value. *)
Theorem C30_failure : forall linalg_solve E gpu st active st' n,
  optimize_fluxes linalg_solve E gpu st active = Some (st', inr n) ->
  exists A b, linalg_solve A b = None /\ List.length A = List.length b /\ (forall r, In r A -> List.length r = List.length A) /\
    (forall i j, (i < List.length A)%nat -> (j < List.length A)%nat -> nth j (nth i A []) 0 = nth i (nth j A []) 0) /\
    (n < List.length (bandlist (pk E)))%nat.
Proof.
  intros ls E gpu st active st' n H. unfold optimize_fluxes in H. destruct (design_matrix E gpu st active None) as [[[s1 Xes] ys]|] eqn:Ed; [|discriminate].
  injection H as _ H. apply bands_fail in H. destruct H as (Hb & w & X & y & Hn & Ho).
  assert (LX : List.length Xes = List.length (bandlist (pk E))).
  { unfold design_matrix in Ed. destruct (retrieve_data gpu st) as [yy|]; [|discriminate]. destruct (design_loop _ _ _ _ _ _) as [[s2 rows]|]; [|discriminate].
    injection Ed as _ <- _. now rewrite map_length, seq_length. }
  rewrite !combine_length, LX in Hb.
  unfold optimize_one_band in Ho. cbv zeta in Ho. set (Xp := map (fun row => vmul row w) X) in Ho.
  exists (map (fun r => map (dot r) Xp) Xp), (map (fun r => dot r (vmul y w)) Xp). 
  destruct (ls (map (fun r => map (dot r) Xp) Xp) (map (fun r => dot r (vmul y w)) Xp)) as [f|]; [discriminate|]. split; [reflexivity|].
  split; [now rewrite !map_length|]. split; [intros r Hr; apply in_map_iff in Hr; destruct Hr as (x & <- & _); now rewrite !map_length|].
  split; [|lia]. rewrite map_length. intros i j Hi Hj.
  assert (G : forall a c, (a < List.length Xp)%nat -> (c < List.length Xp)%nat -> nth c (nth a (map (fun r => map (dot r) Xp) Xp) []) 0 = dot (nth a Xp []) (nth c Xp [])).
  { intros a c Ha Hc. rewrite (nth_indep _ [] (map (dot []) Xp)) by (now rewrite map_length). rewrite (map_nth (fun r => map (dot r) Xp)).
    rewrite (nth_indep _ 0 (dot (nth a Xp []) [])) by (now rewrite map_length). now rewrite map_nth. }
  rewrite !G by assumption. apply dot_sym.
Qed.
(** A solver that refuses every system: the fit of DeviceCase is given up in its only band. *)
Definition refuse (A : list (list R)) (b : list R) : option (list R) := None.
Lemma refuse_solves : solves refuse.
Proof. intros A b x H. discriminate. Qed.
Example C30_failure_case : forall gpu, exists st1 st2 n, optimize_fluxes refuse case_env gpu st1 (repeat case_row 1) = Some (st2, inr n) /\
  (n < List.length (bandlist (pk case_env)))%nat.
Proof.
  intros gpu. destruct (C30_prepared Rminus ("a"%string :: nil) (case_exposure :: nil) None case_env gpu case_built refuse refuse_solves case_state (5 :: nil) (repeat case_row 1) (Some (repeat case_row 1)) None 2 None (repeat case_row 1)
    eq_refl eq_refl eq_refl (Nat.lt_0_succ 1) (case_nonempty 0) (case_fluxes 1) (case_group 0) I (LinOptCase.nonzero 1)) as (st1 & sc & data & st2 & res & _ & _ & H3 & _ & _ & Hr).
  destruct res as [[fs ps]|n].
  - exfalso. assert (Hfs : fs = []).
    { unfold optimize_fluxes in H3. destruct (design_matrix case_env gpu st1 (repeat case_row 1) None) as [[[s Xes] ys]|]; [|discriminate].
      destruct (combine (combine (split_band (pk case_env) (pk_ierr (pk case_env))) Xes) ys) as [|[[w X] y] t]; cbn [optimize_bands] in H3.
      - now injection H3 as _ <- _.
      - discriminate. }
    destruct (Hr 0%nat "a"%string eq_refl) as (f & Hf & _). rewrite Hfs in Hf. discriminate.
  - exists st1, st2, n. split; [exact H3|]. destruct (C30_failure _ _ _ _ _ _ _ H3) as (_ & _ & _ & _ & _ & _ & Hn). exact Hn.
Qed.
Print Assumptions C30_failure.
