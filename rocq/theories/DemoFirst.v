(** C74: what the first run of a grid with a file sets for the whole catalog. *)
From Verif Require Import Np DemoModel DemoProps.
From Coq Require Import Reals Lra Lia.
Open Scope R_scope.

Lemma store_length n l v : store n l = Some v -> List.length v = n.
Proof.
  unfold store. destruct (Nat.eqb_spec (List.length l) n) as [E|E]; intros H; [injection H as <-; exact E|].
  destruct l as [|x [|]]; try discriminate. injection H as <-. apply repeat_length.
Qed.
Lemma columns_length n s cols vs : mapM (fun c => match column_of c (s_chains s) with Some ls => store_sources n ls | None => None end) cols = Some vs ->
  List.length vs = List.length cols /\ Forall (fun v => List.length v = n) vs.
Proof.
  revert vs. induction cols as [|c cols IH]; intros vs H; cbn [mapM] in H; [injection H as <-; split; [reflexivity|constructor]|].
  destruct (column_of c (s_chains s)) as [ls|]; [|discriminate]. destruct (store_sources n ls) as [v|] eqn:E; [|discriminate].
  destruct (mapM _ cols) as [ws|]; [|discriminate]. injection H as <-. destruct (IH ws eq_refl) as [L F]. split; [cbn [List.length]; now rewrite L|]. constructor; [|exact F].
  destruct ls as [|l [|]]; try discriminate. exact (store_length _ _ _ E).
Qed.
Definition sized (n : nat) (cols : list string) (r : srow) : Prop :=
  List.length (c_lnp r) = n /\ List.length (c_cols r) = List.length cols /\ Forall (fun c => List.length c = n) (c_cols r).
Lemma rows_sized n cols : forall files p rows, catalog_rows n cols p files = Some rows -> List.length rows = List.length files /\ Forall (sized n cols) rows.
Proof.
  assert (B : sized n cols (blank n cols)).
  { unfold sized, blank. cbn [c_lnp c_cols]. rewrite repeat_length, map_length. split; [reflexivity|]. split; [reflexivity|]. rewrite Forall_forall. intros c Hc. apply in_map_iff in Hc. destruct Hc as (x & <- & _). apply repeat_length. }
  induction files as [|f t IH]; intros p rows H; cbn [catalog_rows] in H; [injection H as <-; split; [reflexivity|constructor]|].
  destruct (match f with Some s => _ | None => _ end) as [r|] eqn:E; [|discriminate]. destruct (catalog_rows n cols (S p) t) as [rs|] eqn:Er; [|discriminate]. injection H as <-.
  destruct (IH _ _ Er) as [L F]. split; [cbn [List.length]; now rewrite L|]. constructor; [|exact F].
  destruct f as [s|]; [|injection E as <-; exact B]. destruct (Nat.eqb (s_n s) n); [|injection E as <-; exact B].
  destruct (store n (last_n n (s_lnp s))) as [l|] eqn:El; [|discriminate]. destruct (mapM _ cols) as [vs|] eqn:Ev; [|discriminate]. injection E as <-. unfold sized. cbn [c_lnp c_cols].
  split; [exact (store_length _ _ _ El)|exact (columns_length _ _ _ _ Ev)].
Qed.
(** Every row of the catalog has as many samples as the first run that has a file kept, in every column that was asked for,
    and this first run is always in the catalog under its own number *)
Theorem C74_first : forall cols before s after rows, make_catalog cols (repeat None before ++ Some s :: after) = Some rows ->
  List.length rows = (before + S (List.length after))%nat /\
  (forall r, In r rows -> List.length (c_lnp r) = s_n s /\ List.length (c_cols r) = List.length cols /\ forall c, In c (c_cols r) -> List.length c = s_n s) /\
  exists r, nth_error rows before = Some r /\ c_id r = Z.of_nat before /\ c_wall r = s_wall s.
Proof.
  intros cols before s after rows H. unfold make_catalog in H.
  assert (E : first_file (repeat None before ++ Some s :: after) = Some s) by (clear; induction before as [|b IH]; [reflexivity|exact IH]). rewrite E in H. clear E.
  destruct (rows_sized _ _ _ _ _ H) as [L F]. rewrite app_length, repeat_length in L. split; [exact L|]. split.
  - rewrite Forall_forall in F. intros r Hr. destruct (F r Hr) as (A & B & C). rewrite Forall_forall in C. auto.
  - enough (G : forall p rows, catalog_rows (s_n s) cols p (repeat None before ++ Some s :: after) = Some rows -> exists r, nth_error rows before = Some r /\ c_id r = Z.of_nat (p + before) /\ c_wall r = s_wall s) by exact (G 0%nat rows H).
    clear. induction before as [|b IH]; intros p rows H; cbn [repeat app catalog_rows] in H.
    + rewrite Nat.eqb_refl in H. destruct (store _ _) as [l|]; [|discriminate]. destruct (mapM _ cols) as [vs|]; [|discriminate]. destruct (catalog_rows _ _ _ after) as [rs|]; [|discriminate]. injection H as <-.
      eexists. split; [reflexivity|]. cbn [c_id c_wall]. rewrite Nat.add_0_r. auto.
    + destruct (catalog_rows _ _ (S p) _) as [rs|] eqn:Er; [|discriminate]. injection H as <-. destruct (IH _ _ Er) as (r & A & B & C). exists r. cbn [nth_error]. rewrite Nat.add_succ_r. auto.
Qed.
Print Assumptions C74_first.
(** A run that says it kept n samples and has one of each: the one value fills the row *)
Theorem C74_single : forall cols s v, (1 <= s_n s)%nat -> s_lnp s = [v] -> (forall c, In c cols -> exists x, column_of c (s_chains s) = Some [[x]]) ->
  exists r, make_catalog cols [Some s] = Some [r] /\ (forall k, (k < s_n s)%nat -> nth_error (c_lnp r) k = Some v) /\
    Forall2 (fun c col => exists x, column_of c (s_chains s) = Some [[x]] /\ forall k, (k < s_n s)%nat -> nth_error col k = Some x) cols (c_cols r).
Proof.
  intros cols s v Hn Hl Hc. unfold make_catalog. cbn [first_file catalog_rows]. rewrite Nat.eqb_refl, Hl.
  assert (Rp : forall (x : R) k, (k < s_n s)%nat -> nth_error (repeat x (s_n s)) k = Some x).
  { intros x k Hk. rewrite (nth_error_nth' _ x) by now rewrite repeat_length. f_equal. apply (repeat_spec (s_n s)). apply nth_In. now rewrite repeat_length. }
  assert (T : forall x : R, store (s_n s) (last_n (s_n s) [x]) = Some (repeat x (s_n s))).
  { intros x. unfold last_n, store. destruct (s_n s) as [|[|m]]; [lia|reflexivity|reflexivity]. }
  rewrite T. assert (M : exists vs, mapM (fun c => match column_of c (s_chains s) with Some ls => store_sources (s_n s) ls | None => None end) cols = Some vs /\
    Forall2 (fun c col => exists x, column_of c (s_chains s) = Some [[x]] /\ forall k, (k < s_n s)%nat -> nth_error col k = Some x) cols vs).
  { clear - Hc Rp T. induction cols as [|c cols IH]; [exists []; split; [reflexivity|constructor]|]. destruct IH as (vs & E & F); [intros; apply Hc; now right|]. destruct (Hc c (or_introl eq_refl)) as (x & Ex).
    cbn [mapM]. rewrite E, Ex. cbn [store_sources]. rewrite T. eexists. split; [reflexivity|]. constructor; [|exact F]. exists x. split; [exact Ex|]. intros k Hk. apply Rp. exact Hk. }
  destruct M as (vs & -> & F). eexists. split; [reflexivity|]. cbn [c_lnp c_cols]. split; [intros k Hk; apply Rp; exact Hk|exact F].
Qed.
Print Assumptions C74_single.
Example C74_first_case : exists rows, make_catalog ["CLEAR"%string] (repeat None 2 ++ [Some (mkS 2 7 [1; 2; 3] [("CLEAR"%string, [[4; 5; 6]])]); Some (mkS 1 5 [] [])]) = Some rows /\
  map c_id rows = [-1; -1; 2; -1]%Z /\ map (fun r => List.length (c_lnp r)) rows = [2; 2; 2; 2]%nat.
Proof. eexists. split; [reflexivity|]. split; reflexivity. Qed.
Example C74_single_case : exists r, make_catalog ["CLEAR"%string] [Some (mkS 3 7 [1] [("CLEAR"%string, [[4]])])] = Some [r] /\ c_lnp r = [1; 1; 1] /\ c_cols r = [[4; 4; 4]].
Proof. eexists. split; [reflexivity|]. split; reflexivity. Qed.
