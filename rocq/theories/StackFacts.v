From Verif Require Import Np NpFacts SceneModel.

Section Stack.
Context {V : Type} (zero : V) (add : V -> V -> V).

Lemma enumerate_from {A} (l : list A) : enumerate l = combine (seq 0 (List.length l)) l.
Proof. reflexivity. Qed.

Lemma vadd_length (a b : list V) : List.length (vadd add a b) = Nat.min (List.length a) (List.length b).
Proof. unfold vadd. now rewrite map_length, combine_length. Qed.
Lemma vadd_nth (a b : list V) j : j < List.length a -> j < List.length b ->
  nth j (vadd add a b) zero = add (nth j a zero) (nth j b zero).
Proof.
  revert b j. induction a as [|x a IH]; intros [|y b] [|j] Ha Hb; simpl in *; try lia; auto.
  apply IH; lia.
Qed.
Lemma nth_upd (l : list V) i x j : i < List.length l ->
  nth j (upd i x l) zero = if Nat.eqb i j then x else nth j l zero.
Proof.
  revert i j. induction l as [|y l IH]; intros [|i] [|j] H; simpl in *; try lia; auto.
  apply IH. lia.
Qed.

Lemma stack_row_spec nb b g d : List.length g = nb + 6 -> List.length d = 7 -> b < nb ->
  List.length (stack_row add nb b g d) = nb + 6 /\
  forall j, j < nb + 6 -> nth j (stack_row add nb b g d) zero =
    if Nat.ltb j nb then (if Nat.eqb b j then add (nth j g zero) (nth 0 d zero) else nth j g zero)
    else add (nth j g zero) (nth (S (j - nb)) d zero).
Proof.
  intros Hg Hd Hb. destruct d as [|d0 d]; [discriminate|]. simpl in Hd.
  unfold stack_row. simpl tl.
  assert (HL : List.length (firstn nb g ++ vadd add (skipn nb g) d) = nb + 6).
  { rewrite app_length, firstn_length, vadd_length, skipn_length. lia. }
  destruct (nth_error (firstn nb g ++ vadd add (skipn nb g) d) b) as [v|] eqn:E.
  2:{ apply nth_error_None in E. lia. }
  split; [now rewrite upd_length|]. intros j Hj. rewrite nth_upd by lia.
  assert (Hin : forall j, j < nb -> nth j (firstn nb g ++ vadd add (skipn nb g) d) zero = nth j g zero).
  { intros i Hi. rewrite app_nth1 by (rewrite firstn_length; lia).
    rewrite <- (firstn_skipn nb g) at 2. now rewrite app_nth1 by (rewrite firstn_length; lia). }
  apply nth_error_nth with (d := zero) in E. rewrite Hin in E by lia.
  destruct (Nat.ltb_spec j nb).
  - destruct (Nat.eqb_spec b j) as [->|]; [now rewrite <- E|]. now apply Hin.
  - destruct (Nat.eqb_spec b j); [lia|].
    rewrite app_nth2 by (rewrite firstn_length; lia). rewrite firstn_length, Nat.min_l by lia.
    rewrite vadd_nth by (rewrite ?skipn_length; lia). simpl. f_equal.
    rewrite <- (firstn_skipn nb g) at 2. rewrite app_nth2 by (rewrite firstn_length; lia).
    rewrite firstn_length, Nat.min_l by lia. reflexivity.
Qed.

(** The rows evolve independently. *)
Definition row_pass (nb s : nat) (g : list V) (bd : nat * list (list V)) : list V :=
  stack_row add nb (fst bd) g (nth s (snd bd) []).

Lemma stack_pass_rows nb ns passes : forall grads,
  List.length grads = ns -> Forall (fun bd : nat * list (list V) => List.length (snd bd) = ns) passes ->
  List.length (fold_left (stack_pass add nb) passes grads) = ns /\
  forall s, s < ns -> nth s (fold_left (stack_pass add nb) passes grads) [] =
    fold_left (row_pass nb s) passes (nth s grads []).
Proof.
  induction passes as [|bd passes IH]; intros grads HL Hf; simpl; auto.
  inversion Hf as [|? ? Hbd Hf']; subst.
  assert (HL' : List.length (stack_pass add nb grads bd) = List.length grads).
  { unfold stack_pass. rewrite map_length, combine_length. lia. }
  destruct (IH (stack_pass add nb grads bd)) as [K1 K2]; auto.
  split; auto. intros s Hs. rewrite K2 by auto. f_equal. unfold stack_pass, row_pass.
  rewrite nth_indep with (d' := stack_row add nb (fst bd) [] []).
  2:{ rewrite map_length, combine_length. lia. }
  rewrite (map_nth (fun p => stack_row add nb (fst bd) (fst p) (snd p)) _ ([], []) s).
  rewrite combine_nth by auto. reflexivity.
Qed.

Lemma fold_left_length_inv nb s passes : forall g,
  List.length g = nb + 6 ->
  Forall (fun bd : nat * list (list V) => fst bd < nb /\ List.length (nth s (snd bd) []) = 7) passes ->
  List.length (fold_left (row_pass nb s) passes g) = nb + 6.
Proof.
  induction passes as [|bd passes IH]; intros g Hg Hf; simpl; auto. inversion Hf as [|? ? [H1 H2] Hf']; subst.
  apply IH; auto. unfold row_pass. now apply stack_row_spec.
Qed.

Lemma row_fold_shape nb s K : forall start g j,
  List.length g = nb + 6 -> start + List.length K <= nb -> nb <= j < nb + 6 ->
  Forall (fun D : list (list V) => List.length (nth s D []) = 7) K ->
  nth j (fold_left (row_pass nb s) (combine (seq start (List.length K)) K) g) zero =
  fold_left add (map (fun D => nth (S (j - nb)) (nth s D []) zero) K) (nth j g zero).
Proof.
  induction K as [|D K IH]; intros start g j Hg Hs Hj Hf; simpl; auto.
  inversion Hf as [|? ? H1 Hf']; subst. simpl in Hs.
  destruct (stack_row_spec nb start g (nth s D [])) as [K1 K2]; auto; [lia|].
  rewrite IH; auto; try lia.
  f_equal. unfold row_pass. simpl fst. simpl snd. rewrite K2 by lia.
  destruct (Nat.ltb_spec j nb); [lia|reflexivity].
Qed.

Lemma row_fold_flux nb s K : forall start g j,
  List.length g = nb + 6 -> start + List.length K <= nb -> j < nb ->
  Forall (fun D : list (list V) => List.length (nth s D []) = 7) K ->
  nth j (fold_left (row_pass nb s) (combine (seq start (List.length K)) K) g) zero =
  if Nat.leb start j && Nat.ltb j (start + List.length K)
  then add (nth j g zero) (nth 0 (nth s (nth (j - start) K []) []) zero) else nth j g zero.
Proof.
  induction K as [|D K IH]; intros start g j Hg Hs Hj Hf; simpl.
  - destruct (Nat.leb_spec start j), (Nat.ltb_spec j (start + 0)); simpl; auto; lia.
  - inversion Hf as [|? ? H1 Hf']; subst. simpl in Hs.
    destruct (stack_row_spec nb start g (nth s D [])) as [K1 K2]; auto; [lia|].
    rewrite IH; auto; [|lia].
    unfold row_pass. simpl fst. simpl snd. rewrite K2 by lia.
    destruct (Nat.ltb_spec j nb); [|lia].
    destruct (Nat.eqb_spec start j) as [->|Hne].
    + rewrite Nat.sub_diag. destruct (Nat.leb_spec (S j) j); [lia|]. simpl.
      destruct (Nat.leb_spec j j); [|lia]. destruct (Nat.ltb_spec j (j + S (List.length K))); [|lia]. reflexivity.
    + destruct (Nat.leb_spec (S start) j); simpl.
      * destruct (Nat.leb_spec start j); [|lia]. simpl.
        replace (start + S (List.length K)) with (S (start + List.length K)) by lia.
        destruct (Nat.ltb j (S (start + List.length K))); auto.
        replace (j - start) with (S (j - S start)) by lia. reflexivity.
      * destruct (Nat.leb_spec start j); simpl; auto. lia.
Qed.

Lemma concat_nth_const n (ll : list (list V)) : forall s j,
  Forall (fun l => List.length l = n) ll -> s < List.length ll -> j < n ->
  nth (s * n + j) (concat ll) zero = nth j (nth s ll []) zero.
Proof.
  induction ll as [|l ll IH]; intros s j Hf Hs Hj; simpl in Hs; [lia|].
  inversion Hf; subst. destruct s as [|s]; simpl.
  - now rewrite app_nth1.
  - rewrite app_nth2 by lia. rewrite <- IH by (auto; lia). f_equal. lia.
Qed.

(** A kernel response for [nb] bands and [ns] sources. *)
Definition response_shape (nb ns : nat) (K : list (list (list V))) : Prop :=
  List.length K = nb /\ Forall (fun D => List.length D = ns /\ Forall (fun d => List.length d = 7) D) K.

Lemma stack_entries ns nb K : response_shape nb ns K ->
  List.length (stack_grad zero add ns nb K) = ns * (nb + 6) /\
  forall s, s < ns ->
    (forall b, b < nb -> nth (s * (nb + 6) + b) (stack_grad zero add ns nb K) zero
                       = add zero (nth 0 (nth s (nth b K []) []) zero)) /\
    (forall p, p < 6 -> nth (s * (nb + 6) + (nb + p)) (stack_grad zero add ns nb K) zero
                      = fold_left add (map (fun D => nth (S p) (nth s D []) zero) K) zero).
Proof.
  intros [HK Hf]. unfold stack_grad. change (NPARAMS - 1) with 6.
  set (g0 := repeat (repeat zero (nb + 6)) ns).
  assert (Hg0 : List.length g0 = ns) by apply repeat_length.
  assert (Hpass : Forall (fun bd : nat * list (list V) => List.length (snd bd) = ns) (enumerate K)).
  { apply Forall_forall. intros [b D] Hin. apply in_combine_r in Hin. rewrite Forall_forall in Hf. now apply Hf. }
  destruct (stack_pass_rows nb ns (enumerate K) g0 Hg0 Hpass) as [HL Hrow].
  assert (Hseven : forall s, s < ns -> Forall (fun D : list (list V) => List.length (nth s D []) = 7) K).
  { intros s Hs. apply Forall_forall. intros D HD. rewrite Forall_forall in Hf. destruct (Hf D HD) as [H1 H2].
    rewrite Forall_forall in H2. apply H2. apply nth_In. lia. }
  assert (Hlen0 : forall s, s < ns -> nth s g0 [] = repeat zero (nb + 6)).
  { intros s Hs. unfold g0. apply (repeat_spec ns). apply nth_In. rewrite repeat_length. lia. }
  assert (Hrows : Forall (fun l => List.length l = nb + 6) (fold_left (stack_pass add nb) (enumerate K) g0)).
  { apply Forall_forall. intros l Hl. apply In_nth with (d := []) in Hl as (s & Hs & <-). rewrite HL in Hs.
    rewrite Hrow by auto. apply fold_left_length_inv.
    - rewrite Hlen0 by auto. apply repeat_length.
    - apply Forall_forall. intros [b D] Hin. simpl. split.
      + apply in_combine_l, in_seq in Hin. lia.
      + apply in_combine_r in Hin. specialize (Hseven s Hs). rewrite Forall_forall in Hseven. auto. }
  split.
  { transitivity (List.length (fold_left (stack_pass add nb) (enumerate K) g0) * (nb + 6)); [|now rewrite HL].
    clear -Hrows. revert Hrows. generalize (fold_left (stack_pass add nb) (enumerate K) g0).
    induction l as [|x l IH]; intros H; simpl; auto. inversion H; subst. rewrite app_length, IH; auto. }
  intros s Hs. split.
  - intros b Hb. rewrite concat_nth_const by (auto; lia). rewrite Hrow, Hlen0 by auto. unfold enumerate.
    rewrite row_fold_flux; auto; [|apply repeat_length|lia].
    rewrite Nat.sub_0_r. destruct (Nat.ltb_spec b (0 + List.length K)); [|lia]. simpl.
    f_equal. rewrite nth_repeat. reflexivity.
  - intros p Hp. rewrite concat_nth_const by (auto; lia). rewrite Hrow, Hlen0 by auto. unfold enumerate.
    rewrite row_fold_shape; auto; [|apply repeat_length|lia|lia].
    replace (nb + p - nb) with p by lia. now rewrite nth_repeat.
Qed.
End Stack.
