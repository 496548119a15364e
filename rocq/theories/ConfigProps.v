(** C37: where the value of an option comes from. *)
From Verif Require Import Np NpFacts ConfigModel.
From Coq Require Import Ascii.
Open Scope string_scope.

(** ** What the user writes: options one after the other, each under its own name or an
    abbreviation, with its arguments after it or one after '=' *)
Record item := mkItem { it_opt : opt; it_spell : string; it_joined : bool; it_args : list string }.
Definition render (it : item) : list string :=
  if it_joined it then ["--" ++ it_spell it ++ "=" ++ String.concat "" (it_args it)] else ("--" ++ it_spell it) :: it_args it.
Definition exact (it : item) : Prop := it_spell it = oname (it_opt it).
Definition abbreviates (ps : parser) (it : item) : Prop :=
  (forall o, In o ps -> oname o <> it_spell it) /\ (forall o, In o ps -> prefix (it_spell it) (oname o) = true <-> o = it_opt it).
Fixpoint has_eq (s : string) : Prop := match s with EmptyString => False | String c t => c = "="%char \/ has_eq t end.
Definition wf_parser (ps : parser) : Prop := NoDup (map oname ps) /\ forall o, In o ps -> ~ has_eq (oname o).
Definition wf_item (ps : parser) (it : item) : Prop :=
  In (it_opt it) ps /\ (exact it \/ abbreviates ps it) /\ oconv (it_opt it) (it_args it) <> None /\
  if it_joined it then one_arg (onargs (it_opt it)) = true /\ List.length (it_args it) = 1%nat
  else count_ok (onargs (it_opt it)) (it_args it) = true /\ forall a, In a (it_args it) -> is_opt a = false.
(** The value the command line gives for an option: that of its last appearance *)
Definition given (items : list item) (k : string) : option value :=
  fold_left (fun acc it => if String.eqb (oname (it_opt it)) k then oconv (it_opt it) (it_args it) else acc) items None.
Definition default (ps : parser) (k : string) : option value := option_map odef (find (fun o => String.eqb (oname o) k) ps).
(** command line, else file, else default; null stands for nothing *)
Definition chosen (cli file def : option value) : option value :=
  match cli with Some VNone | None => match file with Some VNone | None => def | v => v end | v => v end.
Definition full (it : item) : Prop := exact it /\ it_joined it = false.
(** The option was written in full, separate from its value, at least once. *)
Definition written (items : list item) (k : string) : bool :=
  existsb (fun it => negb (it_joined it) && String.eqb (it_spell it) k)%bool items.

(** ** Namespaces *)
Lemma get_put ns j v k : get (put ns j v) k = if String.eqb j k then Some v else get ns k.
Proof.
  induction ns as [|[i w] t IH]; simpl; auto. destruct (String.eqb_spec i j) as [->|N]; simpl.
  - destruct (String.eqb_spec j k); auto.
  - destruct (String.eqb_spec i k) as [->|N']; auto. destruct (String.eqb_spec j k); congruence.
Qed.
Lemma put_keys ns j v k : In k (map fst (put ns j v)) <-> k = j \/ In k (map fst ns).
Proof.
  induction ns as [|[i w] t IH]; simpl; [intuition|]. destruct (String.eqb_spec i j) as [->|N]; simpl; [intuition congruence|]. rewrite IH. intuition congruence.
Qed.
Lemma put_nodup ns j v : NoDup (map fst ns) -> NoDup (map fst (put ns j v)).
Proof.
  induction ns as [|[i w] t IH]; simpl; intros H; [constructor; auto; constructor|]. inversion H; subst. destruct (String.eqb_spec i j) as [->|N]; simpl; constructor; auto. rewrite put_keys. intuition congruence.
Qed.
Lemma put_all_nodup kvs : forall ns, NoDup (map fst ns) -> NoDup (map fst (put_all ns kvs)).
Proof. induction kvs as [|kv kvs IH]; intros ns H; simpl; auto. apply IH, put_nodup, H. Qed.
Lemma get_put_all kvs : forall ns k, get (put_all ns kvs) k = fold_left (fun acc kv => if String.eqb (fst kv) k then Some (snd kv) else acc) kvs (get ns k).
Proof. induction kvs as [|kv kvs IH]; intros ns k; [reflexivity|]. change (put_all ns (kv :: kvs)) with (put_all (put ns (fst kv) (snd kv)) kvs). rewrite IH, get_put. reflexivity. Qed.
Lemma get_none_in ns k : get ns k = None <-> ~ In k (map fst ns).
Proof. induction ns as [|[j v] t IH]; simpl; [intuition|]. destruct (String.eqb_spec j k); [subst; intuition congruence|]. rewrite IH. intuition. Qed.
Lemma get_filter P ns k : get (filter (fun kv : string * value => P (fst kv)) ns) k = if P k then get ns k else None.
Proof.
  induction ns as [|[j v] t IH]; simpl; [now destruct (P k)|]. destruct (P j) eqn:E; simpl; destruct (String.eqb_spec j k) as [->|N]; rewrite ?E; auto. now rewrite IH, E.
Qed.
Lemma filter_nodup P (ns : namespace) : NoDup (map fst ns) -> NoDup (map fst (filter (fun kv : string * value => P (fst kv)) ns)).
Proof.
  induction ns as [|[j v] t IH]; simpl; auto. intros H. inversion H; subst. destruct (P j); auto. simpl. constructor; auto. intros X. apply in_map_iff in X. destruct X as ((a, b) & E & X). apply filter_In in X. simpl in E. subst. apply H2. apply in_map_iff. exists (j, b). tauto.
Qed.
Lemma get_update ns d k : NoDup (map fst d) -> get (update_config ns (Some d)) k = chosen (get d k) None (get ns k).
Proof.
  revert ns. unfold update_config. induction d as [|[j v] d IH]; intros ns H; [reflexivity|]. inversion H; subst. cbn [fold_left get fst snd]. rewrite IH by auto. destruct (String.eqb_spec j k) as [->|N].
  - assert (E : get d k = None) by (apply get_none_in; auto). rewrite E. destruct v; cbn [chosen]; auto; now rewrite get_put, String.eqb_refl.
  - destruct v; auto; rewrite get_put; destruct (String.eqb_spec j k); try contradiction; reflexivity.
Qed.

(** ** The command line *)
Lemma append_inj_l a : forall b c, a ++ b = a ++ c -> b = c.
Proof. induction a as [|x a IH]; simpl; intros b c H; auto. injection H as H. auto. Qed.
Lemma prefix_dash s t : prefix ("--" ++ s) ("--" ++ t) = prefix s t.
Proof. simpl. reflexivity. Qed.
Lemma prefix_noeq s : forall t, prefix s t = true -> ~ has_eq t -> ~ has_eq s.
Proof. induction s as [|c s IH]; intros [|d t] H N; simpl in *; auto; [discriminate|]. destruct (ascii_dec c d); [subst|discriminate]. intros [->|X]; [tauto|]. exact (IH t H ltac:(tauto) X). Qed.
Lemma prefix_refl s : prefix s s = true.
Proof. induction s; simpl; auto. destruct (ascii_dec a a); [auto|contradiction]. Qed.
Lemma split_noeq s : ~ has_eq s -> split_eq s = (s, None).
Proof.
  induction s as [|c s IH]; simpl; intros H; auto. rewrite IH by tauto. destruct (Ascii.eqb_spec c "="%char); [tauto|reflexivity].
Qed.
Lemma split_joined s v : ~ has_eq s -> split_eq (s ++ "=" ++ v) = (s, Some v).
Proof.
  induction s as [|c s IH]; intros H; [reflexivity|]. cbn [append split_eq has_eq] in *. rewrite IH by tauto. destruct (Ascii.eqb_spec c "="%char); [tauto|reflexivity].
Qed.
Lemma has_eq_joined s v : has_eq (s ++ "=" ++ v).
Proof. induction s as [|c s IH]; [left; reflexivity|right; exact IH]. Qed.
Lemma dash_noeq s : ~ has_eq s -> ~ has_eq ("--" ++ s).
Proof. simpl. intuition discriminate. Qed.
Lemma filter_unique {A} (P : A -> bool) l x : NoDup l -> In x l -> P x = true -> (forall y, In y l -> P y = true -> y = x) -> filter P l = [x].
Proof.
  induction l as [|y l IH]; intros H Hi Hx Hu; [contradiction|]. inversion H; subst. simpl. destruct Hi as [->|Hi].
  - rewrite Hx. f_equal. assert (G : forall z, In z l -> P z = false). { intros z Hz. destruct (P z) eqn:E; auto. exfalso. apply H2. rewrite <- (Hu z); simpl; auto. } clear - G. induction l as [|z l IH]; simpl; auto. rewrite (G z) by (simpl; auto). apply IH. intros; apply G; simpl; auto.
  - destruct (P y) eqn:E; [exfalso; apply H2; rewrite (Hu y); simpl; auto|]. apply IH; auto. intros; apply Hu; simpl; auto.
Qed.
Lemma find_named ps o : NoDup (map oname ps) -> In o ps -> find (fun o' => String.eqb (oname o') (oname o)) ps = Some o.
Proof.
  induction ps as [|p ps IH]; intros H Hi; [contradiction|]. inversion H; subst. simpl. destruct Hi as [->|Hi]; [now rewrite String.eqb_refl|]. destruct (String.eqb_spec (oname p) (oname o)) as [E|N]; auto. exfalso. apply H2. rewrite E. now apply in_map.
Qed.
Lemma find_none' {A} (P : A -> bool) l : (forall x, In x l -> P x = false) -> find P l = None.
Proof. induction l as [|x l IH]; simpl; intros H; auto. rewrite (H x) by auto. apply IH. auto. Qed.
Lemma find_ext' {A} (P Q : A -> bool) l : (forall x, In x l -> P x = Q x) -> find P l = find Q l.
Proof. induction l as [|x l IH]; simpl; intros H; auto. rewrite (H x) by auto. destruct (Q x); auto. Qed.
Lemma eqb_dash a b : String.eqb ("--" ++ a) ("--" ++ b) = String.eqb a b.
Proof. reflexivity. Qed.
Lemma spell_noeq ps it : wf_parser ps -> wf_item ps it -> ~ has_eq (it_spell it).
Proof.
  intros [_ W] (Hi & [E|[_ P]] & _); [rewrite E; auto|]. apply (prefix_noeq _ (oname (it_opt it))); auto. now apply P.
Qed.
(** The name part of a token finds the option. *)
Lemma resolve_name ps it : wf_parser ps -> wf_item ps it ->
  match find (fun o => String.eqb (dashed o) ("--" ++ it_spell it)) ps with
  | Some o => o = it_opt it
  | None => filter (fun o => prefix ("--" ++ it_spell it) (dashed o)) ps = [it_opt it]
  end.
Proof.
  intros [ND W] (Hi & [E|[N P]] & _).
  - rewrite (find_ext' _ (fun o' => String.eqb (oname o') (oname (it_opt it)))) by (intros; unfold dashed; now rewrite eqb_dash, E). now rewrite find_named.
  - rewrite find_none' by (intros o Ho; unfold dashed; rewrite eqb_dash; apply String.eqb_neq, N, Ho). apply filter_unique; auto; [now apply NoDup_map_inv in ND| |].
    + unfold dashed. rewrite prefix_dash. now apply P.
    + intros o Ho. unfold dashed. rewrite prefix_dash. apply P, Ho.
Qed.
Lemma resolve_item ps it : wf_parser ps -> wf_item ps it ->
  resolve ps (hd "" (render it)) = Some (it_opt it, if it_joined it then Some (String.concat "" (it_args it)) else None).
Proof.
  intros W I. pose proof (resolve_name ps it W I) as R. pose proof (spell_noeq ps it W I) as NE. unfold render. destruct (it_joined it) eqn:Ej; cbn [hd]; unfold resolve.
  - rewrite find_none'. 2: { intros o Ho. apply String.eqb_neq. intros E. assert (X : has_eq (dashed o)) by (rewrite E; exact (has_eq_joined ("--" ++ it_spell it) _)). revert X. apply dash_noeq. apply W, Ho. }
    change ("--" ++ it_spell it ++ "=" ++ String.concat "" (it_args it)) with (("--" ++ it_spell it) ++ "=" ++ String.concat "" (it_args it)). rewrite split_joined by now apply dash_noeq.
    destruct (find _ ps); [now subst|]. now rewrite R.
  - rewrite split_noeq by now apply dash_noeq. destruct (find _ ps); [now subst|]. now rewrite R.
Qed.
Lemma is_opt_dash s : is_opt ("--" ++ s) = true.
Proof. unfold is_opt. simpl. now destruct s. Qed.
Definition tail_args (it : item) : list string := if it_joined it then [] else it_args it.
Lemma group_args args rest : (forall a, In a args -> is_opt a = false) -> group (args ++ rest) = ((args ++ fst (group rest))%list, snd (group rest)).
Proof.
  induction args as [|a args IH]; intros H; simpl; [now destruct (group rest)|]. rewrite (H a) by (simpl; auto). unfold group in *. rewrite IH by (intros; apply H; simpl; auto). reflexivity.
Qed.
Lemma group_opt s rest : group (("--" ++ s) :: rest) = ([], ("--" ++ s, fst (group rest)) :: snd (group rest)).
Proof. unfold group at 1. cbn [fold_right]. now rewrite is_opt_dash. Qed.
Lemma group_items ps items : (forall it, In it items -> wf_item ps it) -> group (flat_map render items) = ([], map (fun it => (hd "" (render it), tail_args it)) items).
Proof.
  induction items as [|it items IH]; intros H; [reflexivity|]. cbn [flat_map map]. assert (I : wf_item ps it) by (apply H; simpl; auto). specialize (IH (fun i Hi => H i (or_intror Hi))).
  unfold tail_args at 1. unfold render at 1. destruct I as (_ & _ & _ & J). destruct (it_joined it) eqn:Ej.
  - unfold group in *. cbn [fold_right app]. rewrite IH. cbn [fst snd is_opt]. replace (hd "" (render it)) with ("--" ++ it_spell it ++ "=" ++ String.concat "" (it_args it)) by (unfold render; now rewrite Ej). now rewrite is_opt_dash.
  - destruct J as [_ J]. cbn [app]. rewrite group_opt. cbn [snd fst]. rewrite group_args, IH by auto. cbn [fst snd]. rewrite app_nil_r. replace (hd "" (render it)) with ("--" ++ it_spell it) by (unfold render; now rewrite Ej). reflexivity.
Qed.
Definition item_value (it : item) : value := match oconv (it_opt it) (it_args it) with Some v => v | None => VNone end.
Lemma parse_item ps it : wf_parser ps -> wf_item ps it -> parse_group ps (hd "" (render it), tail_args it) = Some (oname (it_opt it), item_value it).
Proof.
  intros W I. unfold parse_group. cbn [fst snd]. rewrite (resolve_item ps it W I). destruct I as (_ & _ & C & J). unfold tail_args, item_value. destruct (it_joined it).
  - destruct J as [J L]. rewrite J. destruct (it_args it) as [|a [|b l]]; try discriminate. cbn [String.concat]. destruct (oconv (it_opt it) [a]) eqn:E; [reflexivity|contradiction].
  - destruct J as [J _]. rewrite J. destruct (oconv _ _); [reflexivity|contradiction].
Qed.
Lemma parse_items ps items : wf_parser ps -> (forall it, In it items -> wf_item ps it) ->
  parse_args ps (flat_map render items) = Some (put_all (defaults ps) (map (fun it => (oname (it_opt it), item_value it)) items)).
Proof.
  intros W H. unfold parse_args. rewrite (group_items ps) by auto. assert (E : mapM (parse_group ps) (map (fun it => (hd "" (render it), tail_args it)) items) = Some (map (fun it => (oname (it_opt it), item_value it)) items)); [|now rewrite E].
  apply mapM_Some. induction items as [|it items IH]; simpl; constructor; [apply parse_item; simpl in *; auto|apply IH; simpl in *; auto].
Qed.
Lemma get_defaults ps k : NoDup (map oname ps) -> get (defaults ps) k = default ps k.
Proof.
  intros H. unfold defaults, default. rewrite get_put_all. cbn [get]. assert (G : forall l acc, NoDup (map oname l) -> fold_left (fun acc kv => if String.eqb (fst kv) k then Some (snd kv) else acc) (map (fun o => (oname o, odef o)) l) acc = match find (fun o => String.eqb (oname o) k) l with Some o => Some (odef o) | None => acc end).
  { clear. induction l as [|o l IH]; intros acc H; [reflexivity|]. inversion H; subst. cbn [map fold_left find fst snd]. rewrite IH by auto. destruct (String.eqb_spec (oname o) k) as [<-|N]; auto. rewrite find_none'; auto. intros o' Ho. apply String.eqb_neq. intros E. apply H2. rewrite <- E. now apply in_map. }
  rewrite G by auto. now destruct (find _ ps).
Qed.
Lemma get_parsed ps items k : NoDup (map oname ps) -> (forall it, In it items -> wf_item ps it) ->
  get (put_all (defaults ps) (map (fun it => (oname (it_opt it), item_value it)) items)) k = match given items k with Some v => Some v | None => default ps k end.
Proof.
  intros W H. rewrite get_put_all, get_defaults by auto. unfold given. assert (G : forall acc acc' : option value, acc = match acc' with Some v => Some v | None => default ps k end ->
    fold_left (fun acc kv => if String.eqb (fst kv) k then Some (snd kv) else acc) (map (fun it => (oname (it_opt it), item_value it)) items) acc = match fold_left (fun acc it => if String.eqb (oname (it_opt it)) k then oconv (it_opt it) (it_args it) else acc) items acc' with Some v => Some v | None => default ps k end).
  { induction items as [|it items IH]; intros acc acc' E; [exact E|]. cbn [map fold_left fst snd]. apply IH; [intros; apply H; simpl; auto|]. destruct (String.eqb _ k); auto. unfold item_value. destruct (H it (or_introl eq_refl)) as (_ & _ & C & _). destruct (oconv _ _); [reflexivity|contradiction]. }
  apply G. reflexivity.
Qed.
Lemma in_argv_written ps items k : wf_parser ps -> (forall it, In it items -> wf_item ps it) -> ~ has_eq k -> in_argv (flat_map render items) k = written items k.
Proof.
  intros W H NE. unfold in_argv, written. induction items as [|it items IH]; [reflexivity|]. cbn [flat_map existsb]. rewrite existsb_app, IH by (intros; apply H; simpl; auto). f_equal.
  destruct (H it (or_introl eq_refl)) as (_ & _ & _ & J). unfold render. destruct (it_joined it) eqn:Ej; cbn [existsb negb andb].
  - rewrite orb_false_r. apply String.eqb_neq. intros E. apply (dash_noeq k NE). rewrite E. exact (has_eq_joined ("--" ++ it_spell it) _).
  - rewrite eqb_dash, (String.eqb_sym k). destruct J as [_ J]. assert (G : existsb (String.eqb ("--" ++ k)) (it_args it) = false); [|now rewrite G, orb_false_r].
    apply not_true_iff_false. intros X. apply existsb_exists in X. destruct X as (a & Ha & X). apply String.eqb_eq in X. specialize (J a Ha). rewrite <- X, is_opt_dash in J. discriminate.
Qed.
Lemma given_option ps items k v : (forall it, In it items -> wf_item ps it) -> given items k = Some v -> exists o, In o ps /\ oname o = k.
Proof.
  intros H. unfold given. assert (G : forall acc : option value, (acc <> None -> exists o, In o ps /\ oname o = k) -> fold_left (fun acc it => if String.eqb (oname (it_opt it)) k then oconv (it_opt it) (it_args it) else acc) items acc <> None -> exists o, In o ps /\ oname o = k).
  { induction items as [|it items IH]; intros acc Ha; [exact Ha|]. cbn [fold_left]. apply IH; [intros; apply H; simpl; auto|]. destruct (String.eqb_spec (oname (it_opt it)) k); auto. intros _. exists (it_opt it). split; auto. apply H. simpl. auto. }
  intros E. apply (G None); [congruence|]. rewrite E. discriminate.
Qed.
Lemma written_given ps items k : wf_parser ps -> (forall it, In it items -> wf_item ps it) -> (exists o, In o ps /\ oname o = k) -> written items k = true -> given items k <> None.
Proof.
  intros W H (o & Ho & Eo) X. unfold written in X. apply existsb_exists in X. destruct X as (it & Hi & X). apply andb_prop in X. destruct X as [_ X]. apply String.eqb_eq in X.
  assert (En : oname (it_opt it) = k). { destruct (H it Hi) as (_ & [E|[N _]] & _); [congruence|]. exfalso. apply (N o); congruence. }
  unfold given. assert (K : forall l acc, (forall i, In i l -> wf_item ps i) -> acc <> None -> fold_left (fun acc it => if String.eqb (oname (it_opt it)) k then oconv (it_opt it) (it_args it) else acc) l acc <> None).
  { clear. induction l as [|i l IH]; intros acc H Ha; [exact Ha|]. simpl. apply IH; [intros; apply H; simpl; auto|]. destruct (String.eqb _ k); auto. apply (H i). simpl. auto. }
  clear X. assert (G : forall acc : option value, fold_left (fun acc it => if String.eqb (oname (it_opt it)) k then oconv (it_opt it) (it_args it) else acc) items acc <> None); [|apply G].
  induction items as [|i items IH]; intros acc; [contradiction|]. cbn [fold_left]. destruct Hi as [->|Hi].
  - apply K; [intros; apply H; simpl; auto|]. rewrite En, String.eqb_refl. apply (H it). simpl. auto.
  - apply IH; auto. intros; apply H; simpl; auto.
Qed.

(** ** Precedence *)
Definition cli (items : list item) (k : string) : option value := if written items k then given items k else None.
(** Which configuration file is read, given what the command line is taken to say *)
Definition names_file (files : value -> option namespace) (c : option value) (y : namespace) : Prop :=
  match c with Some VNone | None => y = [] | Some f => files f = Some y end.
(** For every parser, every command line of options, abbreviated or not, joined with '=' or
    not, and every file: the value of each option, and of each other name, is exactly
    this.  An option counts as given only if its full name is somewhere a token of its own,
    and then its last appearance, of any spelling, decides. *)
Theorem C37_exact_partial : forall files ps prog items y,
  wf_parser ps -> (forall it, In it items -> wf_item ps it) ->
  names_file files (chosen (cli items "config_file") None (default ps "config_file")) y -> NoDup (map fst y) ->
  exists ns, parse_merge files ps (prog :: flat_map render items) = Some ns /\
    forall k, get ns k = chosen (cli items k) (get y k) (default ps k).
Proof.
  intros files ps prog items y W H Hf NDy. unfold parse_merge, new_args. cbn [tl]. rewrite (parse_items ps items W H). change (parse_args ps []) with (Some (defaults ps)). cbn [option_map].
  set (oconf := put_all (defaults ps) _) in *. set (clargs := filter _ oconf).
  assert (NDd : NoDup (map fst (defaults ps))) by (apply put_all_nodup; constructor).
  assert (NDc : NoDup (map fst clargs)) by (apply filter_nodup, put_all_nodup; exact NDd).
  assert (Gc : forall k, get clargs k = cli items k \/ (get clargs k = None /\ cli items k = None)).
  { intros k. unfold clargs. rewrite (get_filter (fun k => in_argv (flat_map render items) k)). unfold oconf. rewrite get_parsed by (auto; apply W). unfold cli.
    destruct (find (fun o => String.eqb (oname o) k) ps) as [o|] eqn:Eo.
    - apply find_some in Eo. destruct Eo as [Ho Eo]. apply String.eqb_eq in Eo. subst k. rewrite (in_argv_written ps) by (auto; now apply W). destruct (written items (oname o)) eqn:Ew; auto. left.
      pose proof (written_given ps items _ W H (ex_intro _ o (conj Ho eq_refl)) Ew). destruct (given items (oname o)); [auto|contradiction].
    - assert (Eg : given items k = None). { destruct (given items k) eqn:E; auto. destruct (given_option _ _ _ _ H E) as (o & Ho & Ek). pose proof (find_none _ _ Eo o Ho) as X. simpl in X. rewrite Ek, String.eqb_refl in X. discriminate. }
      rewrite Eg. unfold default. rewrite Eo. cbn [option_map]. destruct (in_argv _ k), (written items k); auto. }
  assert (Gc' : forall k, get clargs k = cli items k) by (intros k; destruct (Gc k) as [E|[E1 E2]]; congruence).
  assert (Ecf : match get_none clargs "config_file" with VNone => get_none (defaults ps) "config_file" | v => v end = match chosen (cli items "config_file") None (default ps "config_file") with Some v => v | None => VNone end).
  { unfold get_none. rewrite Gc', get_defaults by apply W. destruct (cli items "config_file") as [[]|]; cbn [chosen]; auto. }
  rewrite Ecf. assert (U : forall ns0, (forall k, get ns0 k = chosen None (get y k) (default ps k)) -> forall k, get (update_config ns0 (Some clargs)) k = chosen (cli items k) (get y k) (default ps k)).
  { intros ns0 H0 k. rewrite get_update, Gc', H0 by auto. destruct (cli items k) as [[]|]; reflexivity. }
  assert (Uy : forall k, get (update_config (defaults ps) (Some y)) k = chosen None (get y k) (default ps k)).
  { intros k. rewrite get_update, get_defaults by (auto; apply W). destruct (get y k) as [[]|]; reflexivity. }
  destruct (chosen (cli items "config_file") None (default ps "config_file")) as [f|]; cbn [names_file] in Hf.
  - destruct f; cbn [names_file] in Hf; [subst y; eexists; split; [reflexivity|]; apply U; intros k; cbn; apply get_defaults, W|..]; rewrite Hf; eexists; (split; [reflexivity|]); apply U, Uy.
  - subst y. eexists. split; [reflexivity|]. apply U. intros k. cbn. apply get_defaults, W.
Qed.
(** When every option is written in full and apart from its value, that is the claim:
    command line, else file, else default. *)
Theorem C37_precedence_partial : forall files ps prog items y,
  wf_parser ps -> (forall it, In it items -> wf_item ps it) -> (forall it, In it items -> full it) ->
  names_file files (chosen (given items "config_file") None (default ps "config_file")) y -> NoDup (map fst y) ->
  exists ns, parse_merge files ps (prog :: flat_map render items) = Some ns /\
    forall k, get ns k = chosen (given items k) (get y k) (default ps k).
Proof.
  intros files ps prog items y W H F Hf ND. assert (E : forall k, cli items k = given items k).
  { intros k. unfold cli. destruct (written items k) eqn:Ew; auto. unfold given. assert (G : forall acc : option value, acc = fold_left (fun acc it => if String.eqb (oname (it_opt it)) k then oconv (it_opt it) (it_args it) else acc) items acc); [|apply G].
    clear H Hf. induction items as [|it items IH]; intros acc; [reflexivity|]. cbn [fold_left]. unfold written in *. cbn [existsb] in Ew. apply orb_false_iff in Ew. destruct Ew as [E1 E2]. destruct (F it (or_introl eq_refl)) as [Ex Ej]. rewrite Ej, Ex in E1. cbn [negb andb] in E1. rewrite E1. apply IH; auto. intros; apply F; simpl; auto. }
  destruct (C37_exact_partial files ps prog items y W H) as (ns & E1 & E2); [now rewrite E|auto|]. exists ns. split; auto. intros k. now rewrite E2, E.
Qed.

(** ** Spellings that are accepted and then ignored *)
Definition one (k : string) (d : value) : opt := mkOpt k One (fun a => match a with [s] => Some (VStr s) | _ => None end) d.
Definition two_opts : parser := [one "outbase" (VStr "output/"); one "config_file" VNone].
(** '--outbase=here' is parsed and dropped: the default stands; the same for an
    abbreviation.  '--config_file=f' is dropped too, and no file is read. *)
Theorem C37_joined_refuted : forall files dflt_given v,
  let it := mkItem (one "outbase" (VStr dflt_given)) "outbase" true [v] in
  let ps := [one "outbase" (VStr dflt_given)] in
  wf_parser ps /\ wf_item ps it /\ given [it] "outbase" = Some (VStr v) /\
  exists ns, parse_merge files ps ("prog" :: render it) = Some ns /\ get ns "outbase" = Some (VStr dflt_given).
Proof.
  intros files d v it ps. assert (W : wf_parser ps). { split; [repeat constructor; auto|]. intros o [<-|[]]. simpl. intuition discriminate. }
  assert (I : wf_item ps it). { split; [left; reflexivity|]. split; [left; reflexivity|]. split; [discriminate|]. split; reflexivity. }
  split; auto. split; auto. split; [reflexivity|]. destruct (C37_exact_partial files ps "prog" [it] []) as (ns & E & G); auto; [intros i [<-|[]]; auto|reflexivity|constructor|].
  exists ns. cbn [flat_map] in E. rewrite app_nil_r in E. split; auto. now rewrite G.
Qed.
Theorem C37_abbreviation_refuted : forall files v, is_opt v = false ->
  let it := mkItem (one "outbase" (VStr "output/")) "out" false [v] in
  wf_parser two_opts /\ wf_item two_opts it /\ given [it] "outbase" = Some (VStr v) /\
  exists ns, parse_merge files two_opts ("prog" :: render it) = Some ns /\ get ns "outbase" = Some (VStr "output/").
Proof.
  intros files v Hv it. assert (W : wf_parser two_opts). { split; [repeat constructor; simpl; intuition discriminate|]. intros o [<-|[<-|[]]]; simpl; intuition discriminate. }
  assert (I : wf_item two_opts it). { split; [left; reflexivity|]. split; [right; split; [intros o [<-|[<-|[]]]; discriminate|intros o [<-|[<-|[]]]; simpl; split; try discriminate; reflexivity]|]. split; [discriminate|]. split; [reflexivity|]. intros a [<-|[]]. exact Hv. }
  split; auto. split; auto. split; [reflexivity|]. destruct (C37_exact_partial files two_opts "prog" [it] []) as (ns & E & G); auto; [intros i [<-|[]]; auto|reflexivity|constructor|].
  exists ns. cbn [flat_map] in E. rewrite app_nil_r in E. split; auto. now rewrite G.
Qed.
Theorem C37_joined_config_file_refuted : forall files f,
  let it := mkItem (one "config_file" VNone) "config_file" true [f] in
  wf_item two_opts it /\ exists ns, parse_merge files two_opts ("prog" :: render it) = Some ns /\ get ns "outbase" = Some (VStr "output/").
Proof.
  intros files f it. assert (W : wf_parser two_opts). { split; [repeat constructor; simpl; intuition discriminate|]. intros o [<-|[<-|[]]]; simpl; intuition discriminate. }
  assert (I : wf_item two_opts it). { split; [right; left; reflexivity|]. split; [left; reflexivity|]. split; [discriminate|]. split; reflexivity. }
  split; auto. destruct (C37_exact_partial files two_opts "prog" [it] []) as (ns & E & G); auto; [intros i [<-|[]]; auto|reflexivity|constructor|].
  exists ns. cbn [flat_map] in E. rewrite app_nil_r in E. split; auto. now rewrite G.
Qed.
(** read_config given a whole parsed command line, as dispatcher.py does, lets every
    default that is not None override the file, though nothing was given on the command line. *)
Theorem C37_read_config_refuted : forall files f y ps o, files f = Some y -> wf_parser ps -> In o ps -> odef o <> VNone ->
  exists args ns, parse_args ps [] = Some args /\ read_merge files f (Some args) = Some ns /\ get ns (oname o) = Some (odef o).
Proof.
  intros files f y ps o Hf W Ho Hd. exists (defaults ps). unfold read_merge. rewrite Hf. eexists. split; [reflexivity|]. split; [reflexivity|].
  rewrite get_update by (apply put_all_nodup; constructor). rewrite get_defaults by apply W. unfold default. rewrite find_named by (auto; apply W). cbn [option_map]. destruct (odef o); auto. contradiction.
Qed.

(** ** After the merge *)
(** rectify_config changes no value but strings (shell variables, store paths, dtypes) and lists (to arrays). *)
Lemma mapM_get expand dtypes ns r k : mapM (fun kv : string * value => option_map (pair (fst kv)) (rectify_value expand dtypes (fst kv) (snd kv))) ns = Some r ->
  match get ns k with Some v => exists w, rectify_value expand dtypes k v = Some w /\ get r k = Some w | None => get r k = None end.
Proof.
  intros H. apply mapM_Some in H. induction H as [|[j v] [j' w] ns r E _ IH]; [reflexivity|]. cbn [fst snd] in E. destruct (rectify_value expand dtypes j v) as [w'|] eqn:Ev; [|discriminate]. cbn in E. injection E as <- <-. cbn [get]. destruct (String.eqb_spec j k) as [->|N]; eauto.
Qed.
Definition is_store (k : string) : bool := existsb (String.eqb k) storefiles.
Lemma join_store_get d attrs : forall ns r k, fold_left (join_store d) attrs (Some ns) = Some r -> NoDup attrs ->
  get r k = if existsb (String.eqb k) attrs then match get ns k with Some (VStr n) => Some (VStr (path_join d n)) | v => v end else get ns k.
Proof.
  induction attrs as [|a attrs IH]; intros ns r k H ND; [injection H as <-; reflexivity|]. inversion ND; subst. cbn [fold_left] in H. unfold join_store at 2 in H.
  assert (NN : forall l, fold_left (join_store d) l None <> Some r) by (clear; induction l as [|x l IH]; simpl; [discriminate|exact IH]).
  assert (Na : existsb (String.eqb a) attrs = false) by (apply not_true_iff_false; intros X; apply existsb_exists in X; destruct X as (x & Hx & X); apply String.eqb_eq in X; subst; contradiction).
  destruct (get ns a) as [v|] eqn:Ea.
  - destruct v; try (exfalso; exact (NN _ H)). rewrite (IH _ _ k H) by auto. rewrite get_put. cbn [existsb]. rewrite (String.eqb_sym k a). destruct (String.eqb_spec a k) as [<-|N]; cbn [orb]; auto. now rewrite Na, Ea.
  - rewrite (IH _ _ k H) by auto. cbn [existsb]. destruct (String.eqb_spec k a) as [->|N]; cbn [orb]; auto. now rewrite Na, Ea.
Qed.
(** The store directory in force *)
Definition store_dir (ns : namespace) : option string := match get ns "store_directory" with Some (VStr d) => if String.eqb d "" then None else Some d | _ => None end.
Theorem C37_rectified : forall expand dtypes ns r k, rectify_config expand dtypes ns = Some r ->
  match get ns k with
  | None => get r k = None
  | Some v => exists w, get r k = Some w /\
    match v with
    | VStr s => if has_dtype k then option_map VDtype (dtypes s) = Some w
                else w = VStr (expand (match is_store k, store_dir ns with true, Some d => path_join d s | _, _ => s end))
    | VList l => w = VArray l
    | v => w = v
    end
  end.
Proof.
  intros expand dtypes ns r k H. unfold rectify_config in H. destruct (join_stores ns) as [ns'|] eqn:Ej; [|discriminate]. pose proof (mapM_get _ _ _ _ k H) as G.
  assert (J : get ns' k = match is_store k, store_dir ns, get ns k with true, Some d, Some (VStr n) => Some (VStr (path_join d n)) | _, _, v => v end).
  { unfold join_stores in Ej. unfold store_dir. destruct (get ns "store_directory") as [[| d | | | |]|]; try discriminate; try (injection Ej as <-; destruct (is_store k); reflexivity).
    destruct (String.eqb d ""); [injection Ej as <-; destruct (is_store k); reflexivity|]. rewrite (join_store_get _ _ _ _ k Ej) by (repeat constructor; simpl; intuition discriminate). unfold is_store. destruct (existsb _ _); auto. }
  assert (SD : is_store k = true -> has_dtype k = false). { unfold is_store, storefiles. cbn [existsb]. rewrite orb_false_r. intros X. apply orb_prop in X. destruct X as [X|X]; [|apply orb_prop in X; destruct X as [X|X]]; apply String.eqb_eq in X; subst; reflexivity. }
  rewrite J in G. destruct (get ns k) as [v|].
  - destruct v as [|s|q|l|l|s]; try (assert (G' : exists w, rectify_value expand dtypes k _ = Some w /\ get r k = Some w) by (destruct (is_store k), (store_dir ns); exact G); clear G; destruct G' as (w & E & G); exists w; split; auto; unfold rectify_value in E; destruct (has_dtype k); congruence).
    destruct (has_dtype k) eqn:Ed.
    + destruct (is_store k); [now specialize (SD eq_refl)|]. destruct G as (w & E & G). exists w. split; auto. unfold rectify_value in E. rewrite Ed in E. exact E.
    + destruct (is_store k); [destruct (store_dir ns)|]; destruct G as (w & E & G); exists w; (split; auto); unfold rectify_value in E; rewrite Ed in E; congruence.
  - destruct (is_store k), (store_dir ns); exact G.
Qed.
(** With a store directory in the file and a store left at its default of None, the
    configuration cannot be read: joining the path raises TypeError, which is not caught. *)
Theorem C37_store_directory_refuted : forall expand dtypes ns d, get ns "store_directory" = Some (VStr d) -> d <> "" ->
  get ns "pixelstorefile" = Some VNone -> rectify_config expand dtypes ns = None.
Proof.
  intros expand dtypes ns d E N P. unfold rectify_config, join_stores. rewrite E. destruct (String.eqb_spec d ""); [contradiction|]. cbn [storefiles fold_left]. unfold join_store at 3. rewrite P. reflexivity.
Qed.
(** The bounds passed on are the configured ones that are not None, and nothing else. *)
Theorem C37_bounds_kwargs : forall ns k, get (make_bounds_kwargs ns) k =
  if existsb (String.eqb k) ["sqrtq_range"; "sersic_range"; "rhalf_range"; "pa_range"; "dpos"; "n_sig_flux"; "n_pix"; "pixscale"]
  then match get ns k with Some VNone | None => None | v => v end else None.
Proof.
  intros ns k. unfold make_bounds_kwargs. fold bound_fields. assert (G : forall l kw, NoDup l -> get (fold_left (fun kw f => match get_none ns f with VNone => kw | v => put kw f v end) l kw) k = if existsb (String.eqb k) l then match get ns k with Some VNone | None => get kw k | v => v end else get kw k).
  { induction l as [|f l IH]; intros kw ND; [reflexivity|]. inversion ND; subst. cbn [fold_left existsb]. rewrite IH by auto. destruct (String.eqb_spec k f) as [->|N]; cbn [orb].
    - assert (Nf : existsb (String.eqb f) l = false) by (apply not_true_iff_false; intros X; apply existsb_exists in X; destruct X as (x & Hx & X); apply String.eqb_eq in X; subst; contradiction). rewrite Nf. unfold get_none. destruct (get ns f) as [[]|]; auto; now rewrite get_put, String.eqb_refl.
    - assert (E : get (match get_none ns f with VNone => kw | v => put kw f v end) k = get kw k). { destruct (get_none ns f); auto; rewrite get_put; destruct (String.eqb_spec f k); congruence. } now rewrite E. }
  rewrite G; [reflexivity|]. unfold bound_fields. repeat constructor; simpl; intuition discriminate.
Qed.
(** A command line, a file and defaults that all speak. *)
Definition case_parser : parser := [one "outbase" (VStr "output/"); one "peak_catalog" (VStr ""); one "config_file" VNone; mkOpt "bandlist" Star (fun a => Some (VList (map VStr a))) (VList [VStr "F200W"])].
Definition case_files (v : value) : option namespace := match v with VStr f => if String.eqb f "my.yml" then Some [("outbase", VStr "fileout"); ("peak_catalog", VStr "cat.fits"); ("extra", VNum 3)] else None | _ => None end.
Definition case_items : list item := [mkItem (one "config_file" VNone) "config_file" false ["my.yml"]; mkItem (mkOpt "bandlist" Star (fun a => Some (VList (map VStr a))) (VList [VStr "F200W"])) "bandlist" false ["A"; "B"]; mkItem (one "outbase" (VStr "output/")) "outbase" false ["x"]; mkItem (one "outbase" (VStr "output/")) "outbase" false ["y"]].
Example C37_case : wf_parser case_parser /\ (forall it, In it case_items -> wf_item case_parser it /\ full it) /\
  names_file case_files (chosen (given case_items "config_file") None (default case_parser "config_file")) [("outbase", VStr "fileout"); ("peak_catalog", VStr "cat.fits"); ("extra", VNum 3)] /\
  option_map (fun ns => map (get ns) ["outbase"; "peak_catalog"; "bandlist"; "extra"]) (parse_merge case_files case_parser ("prog" :: flat_map render case_items)) =
  Some [Some (VStr "y"); Some (VStr "cat.fits"); Some (VList [VStr "A"; VStr "B"]); Some (VNum 3)].
Proof.
  split; [|split; [|split; reflexivity]].
  - split; [repeat constructor; simpl; intuition discriminate|]. intros o [<-|[<-|[<-|[<-|[]]]]]; simpl; intuition discriminate.
  - intros it H. destruct H as [<-|[<-|[<-|[<-|[]]]]]; (split; [|split; reflexivity]); (split; [simpl; tauto|]); (split; [left; reflexivity|]); (split; [discriminate|]); (split; [reflexivity|]); simpl; intuition; subst; reflexivity.
Qed.
Print Assumptions C37_exact_partial.
Print Assumptions C37_precedence_partial.
Print Assumptions C37_joined_refuted.
Print Assumptions C37_abbreviation_refuted.
Print Assumptions C37_joined_config_file_refuted.
Print Assumptions C37_read_config_refuted.
Print Assumptions C37_rectified.
Print Assumptions C37_store_directory_refuted.
Print Assumptions C37_bounds_kwargs.

(** Where a store file ends up, for a non-empty store directory [d]: an absolute
    path stays as it is, any other is put below [d] with one slash between. *)
Theorem C37_store_path : forall expand dtypes ns r d k s,
  rectify_config expand dtypes ns = Some r -> In k ["pixelstorefile"; "metastorefile"; "psfstorefile"]%string ->
  get ns "store_directory" = Some (VStr d) -> d <> ""%string -> get ns k = Some (VStr s) ->
  ((exists t, s = ("/" ++ t)%string) -> get r k = Some (VStr (expand s))) /\
  ((forall t, s <> ("/" ++ t)%string) ->
     (forall u, d = (u ++ "/")%string -> get r k = Some (VStr (expand (d ++ s)%string))) /\
     ((forall u, d <> (u ++ "/")%string) -> get r k = Some (VStr (expand (d ++ "/" ++ s)%string)))).
Proof.
  intros expand dtypes ns r d k s H Hk Hd Hne Hs.
  pose proof (C37_rectified expand dtypes ns r k H) as R. rewrite Hs in R. destruct R as (w & Hw & R).
  assert (T : has_dtype k = false) by (destruct Hk as [<-|[<-|[<-|[]]]]; reflexivity). rewrite T in R.
  assert (I : is_store k = true) by (destruct Hk as [<-|[<-|[<-|[]]]]; reflexivity). rewrite I in R.
  unfold store_dir in R. rewrite Hd in R. destruct (String.eqb_spec d "") as [->|_]; [congruence|]. subst w.
  assert (Sl : forall u, ends_slash (u ++ "/")%string = true).
  { intros u. unfold ends_slash. assert (L : String.length (u ++ "/") = S (String.length u)).
    { induction u as [|c u IH]; cbn; auto. }
    rewrite L. replace (S (String.length u) - 1) with (String.length u) by lia. clear L.
    assert (G : String.get (String.length u) (u ++ "/") = Some "/"%char) by (induction u as [|c u IH]; cbn; auto).
    rewrite G. reflexivity. }
  assert (Sr : ends_slash d = true -> exists u, d = (u ++ "/")%string).
  { clear. unfold ends_slash. induction d as [|c d IH]; [discriminate|]. destruct d as [|c' d].
    - cbn. destruct (Ascii.eqb_spec c "/") as [->|]; [|discriminate]. exists ""%string. reflexivity.
    - intros E. destruct IH as [u Hu].
      + cbn [String.length] in *. replace (S (S (String.length d)) - 1) with (S (String.length d)) in E by lia.
        replace (S (String.length d) - 1) with (String.length d) by lia. exact E.
      + exists (String c u). cbn. now rewrite <- Hu. }
  assert (Pre : forall s, prefix "/" s = true -> exists t, s = ("/" ++ t)%string).
  { intros [|c t]; [discriminate|]. unfold prefix. destruct (ascii_dec "/" c) as [<-|]; [|discriminate]. exists t. reflexivity. }
  rewrite Hw. unfold path_join. split; [|intros N; split].
  - intros (t & ->). assert (P : prefix "/" ("/" ++ t) = true) by (destruct t; reflexivity). rewrite P. reflexivity.
  - intros u ->. rewrite Sl. rewrite orb_true_r. destruct (prefix "/" s) eqn:P; [|reflexivity].
    apply Pre in P. destruct P as [t P]. exfalso. apply (N t P).
  - intros Nd. destruct (String.eqb_spec d "") as [->|_]; [congruence|]. destruct (ends_slash d); [destruct Sr as [u Hu]; auto; exfalso; apply (Nd u Hu)|].
    cbn [orb]. destruct (prefix "/" s) eqn:P; [|reflexivity].
    apply Pre in P. destruct P as [t P]. exfalso. apply (N t P).
Qed.
Print Assumptions C37_store_path.
Example store_path_case : let ns := [("store_directory", VStr "out/"); ("pixelstorefile", VStr "p.h5"); ("metastorefile", VStr "/m.json")]%string in
  option_map (fun r => (get r "pixelstorefile", get r "metastorefile")) (rectify_config (fun s => s) (fun _ => None) ns)
  = Some (Some (VStr "out/p.h5"), Some (VStr "/m.json"))%string.
Proof. vm_compute. reflexivity. Qed.
