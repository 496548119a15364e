(** C37: command lines that are not understood are refused. *)
From Verif Require Import Np NpFacts ConfigModel ConfigProps.
From Coq Require Import Ascii.
Open Scope string_scope.
Import ListNotations.

(** A word before the first option: nothing is read. *)
Theorem C37_stray : forall files ps prog w rest, prefix "--" w = false ->
  parse_merge files ps (prog :: w :: rest) = None.
Proof.
  intros files ps prog w rest Hw. unfold parse_merge, new_args, parse_args. cbn [tl].
  assert (E : group (w :: rest) = (w :: fst (group rest), snd (group rest))).
  { unfold group at 1. cbn [fold_right]. fold (group rest). unfold is_opt. now rewrite Hw. }
  rewrite E. cbn [option_map]. destruct (group []) as [[|x l] gs]; [|reflexivity]. now destruct (option_map _ _).
Qed.
Print Assumptions C37_stray.

Lemma split_none t : ~ In "="%char (list_ascii_of_string t) -> split_eq t = (t, None).
Proof.
  induction t as [|a t IH]; simpl; intros H; [reflexivity|].
  destruct (Ascii.eqb_spec a "="%char) as [->|Hne]; [exfalso; auto|]. rewrite IH by auto. reflexivity.
Qed.
Lemma prefix_same t : prefix t t = true.
Proof. induction t as [|a t IH]; simpl; [reflexivity|]. destruct (ascii_dec a a); [exact IH|congruence]. Qed.
Lemma grouped argv t : In t argv -> is_opt t = true -> exists args, In (t, args) (snd (group argv)).
Proof.
  induction argv as [|u argv IH]; [contradiction|]. intros [->|Hin] Ht; unfold group; cbn [fold_right]; fold (group argv).
  - rewrite Ht. exists (fst (group argv)). simpl. auto.
  - destruct (IH Hin Ht) as (args & K). destruct (is_opt u); exists args; simpl; auto.
Qed.
Lemma mapM_in_none {A B} (f : A -> option B) l x : In x l -> f x = None -> mapM f l = None.
Proof.
  induction l as [|y l IH]; simpl; intros Hi Hn; [contradiction|]. destruct Hi as [->|Hi].
  - now rewrite Hn.
  - rewrite IH by auto. now destruct (f y).
Qed.

(** An option that is neither the name of a parameter nor the beginning of one: nothing is read, whatever
    else the line says. *)
Theorem C37_unknown : forall files ps prog argv t, In t argv -> prefix "--" t = true ->
  ~ In "="%char (list_ascii_of_string t) -> (forall o, In o ps -> prefix t ("--" ++ oname o) = false) ->
  parse_merge files ps (prog :: argv) = None.
Proof.
  intros files ps prog argv t Hin Ht Heq Hno. unfold parse_merge, new_args. cbn [tl].
  assert (E : parse_args ps argv = None).
  { unfold parse_args. destruct (grouped argv t Hin Ht) as (args & K).
    destruct (group argv) as [[|x l] gs]; [|reflexivity]. cbn [snd] in K.
    rewrite (mapM_in_none _ _ _ K); [reflexivity|]. unfold parse_group. cbn [fst].
    assert (Ef : forall u, (forall o, In o ps -> String.eqb (dashed o) u = false) -> find (fun o => String.eqb (dashed o) u) ps = None).
    { intros u Hu. destruct (find _ ps) as [o|] eqn:Eo; [|reflexivity]. apply find_some in Eo as [K1 K2].
      rewrite (Hu o K1) in K2. discriminate. }
    assert (Hd : forall o, In o ps -> String.eqb (dashed o) t = false).
    { intros o Ho. apply String.eqb_neq. intros E. specialize (Hno o Ho). fold (dashed o) in Hno.
      rewrite E, prefix_same in Hno. discriminate. }
    unfold resolve. rewrite (Ef t Hd), (split_none t Heq), (Ef t Hd).
    assert (En : filter (fun o => prefix t (dashed o)) ps = []).
    { clear -Hno. induction ps as [|o ps IH]; cbn [filter]; [reflexivity|].
      change (dashed o) with ("--" ++ oname o). rewrite (Hno o (or_introl eq_refl)). apply IH. intros; apply Hno; simpl; auto. }
    rewrite En. reflexivity. }
  rewrite E. simpl. now destruct (parse_args ps []).
Qed.
Print Assumptions C37_unknown.

(** An option with another number of arguments than it takes: nothing is read. *)
Theorem C37_count : forall files ps prog o args rest,
  wf_parser ps -> In o ps -> (forall a, In a args -> prefix "--" a = false) ->
  (forall a l, rest = a :: l -> prefix "--" a = true) ->
  (onargs o = One /\ List.length args <> 1%nat \/ exists n, onargs o = Exactly n /\ List.length args <> n) ->
  parse_merge files ps (prog :: ("--" ++ oname o) :: args ++ rest) = None.
Proof.
  intros files ps prog o args rest W Ho Ha Hr Hc. unfold parse_merge, new_args. cbn [tl].
  assert (E : parse_args ps (("--" ++ oname o) :: args ++ rest) = None).
  { unfold parse_args.
    assert (Eg : group (("--" ++ oname o) :: (args ++ rest)%list) = ([], ("--" ++ oname o, args) :: snd (group rest))).
    { assert (Er : fst (group rest) = []).
      { destruct rest as [|a l]; [reflexivity|]. unfold group. cbn [fold_right]. unfold is_opt at 1. now rewrite (Hr a l eq_refl). }
      assert (Ea : group (args ++ rest) = (args, snd (group rest))).
      { clear -Ha Er. induction args as [|a args IH]; cbn [app].
        - now rewrite <- Er, <- surjective_pairing.
        - unfold group. cbn [fold_right]. fold (group (args ++ rest)). rewrite IH by (intros; apply Ha; simpl; auto).
          unfold is_opt. rewrite (Ha a) by (simpl; auto). reflexivity. }
      unfold group. cbn [fold_right]. fold (group (args ++ rest)). rewrite Ea, is_opt_dash. reflexivity. }
    rewrite Eg. cbn [mapM]. 
    assert (Ep : parse_group ps ("--" ++ oname o, args) = None).
    { unfold parse_group. cbn [fst snd]. unfold resolve.
      destruct (find (fun o0 => String.eqb (dashed o0) ("--" ++ oname o)) ps) as [o'|] eqn:Ef.
      - apply find_some in Ef as [K1 K2]. apply String.eqb_eq in K2.
        assert (o' = o).
        { assert (En : oname o' = oname o) by (unfold dashed in K2; simpl in K2; congruence).
          destruct W as [W _]. clear -W K1 Ho En. induction ps as [|x ps IH]; [contradiction|]. simpl in W.
          inversion W as [|? ? W1 W2]; subst. destruct K1 as [->|K1], Ho as [->|Ho]; auto; exfalso; apply W1.
          - rewrite En. now apply in_map.
          - rewrite <- En. now apply in_map. }
        subst o'. destruct Hc as [[-> Hl]|(n & -> & Hl)]; cbn [count_ok].
        + destruct (Nat.eqb_spec (List.length args) 1); [contradiction|reflexivity].
        + destruct (Nat.eqb_spec (List.length args) n); [contradiction|reflexivity].
      - exfalso. apply (find_none _ _ Ef) in Ho. unfold dashed in Ho. rewrite String.eqb_refl in Ho. discriminate. }
    rewrite Ep. reflexivity. }
  rewrite E. simpl. now destruct (parse_args ps []).
Qed.
Print Assumptions C37_count.

(** A stray word, an unknown option and one argument too many, on the parser with the two options. *)
Example C37_strict_case : wf_parser two_opts /\
  parse_merge (fun _ => None) two_opts ["prog"; "word"] = None /\
  parse_merge (fun _ => None) two_opts ["prog"; "--seed"; "7"] = None /\
  parse_merge (fun _ => None) two_opts ["prog"; "--outbase"; "here"; "there"] = None.
Proof.
  assert (W : wf_parser two_opts).
  { split; [repeat constructor; simpl; intuition discriminate|]. intros o [<-|[<-|[]]]; simpl; intuition discriminate. }
  split; [exact W|]. split; [exact (C37_stray (fun _ => None) two_opts "prog" "word" [] eq_refl)|]. split.
  - apply (C37_unknown (fun _ => None) two_opts "prog" ["--seed"; "7"] "--seed"); simpl; auto.
    + intuition discriminate.
    + intros o [<-|[<-|[]]]; reflexivity.
  - apply (C37_count (fun _ => None) two_opts "prog" (ConfigProps.one "outbase" (VStr "output/")) ["here"; "there"] []); simpl; auto.
    + intros a [<-|[<-|[]]]; reflexivity.
    + intros a l H; discriminate.
Qed.
