(** Lemmas for C63. *)
From Coq Require Import List String Ascii Bool Arith ZArith QArith Lia.
From Verif Require Import Np NpFacts SuperSceneModel SuperSceneSpec SuperSceneHist IdentModel IdentFacts CatalogModel CatalogFacts StateModel.
Import ListNotations.
Open Scope nat_scope.

(** ** Strings *)
Lemma sapp_assoc (a b c : string) : ((a ++ b) ++ c = a ++ b ++ c)%string.
Proof. induction a; cbn; congruence. Qed.
Lemma sapp_nil (a : string) : (a ++ "" = a)%string.
Proof. induction a; cbn; congruence. Qed.
Lemma sapp_length (a b : string) : String.length (a ++ b) = String.length a + String.length b.
Proof. induction a; cbn; congruence. Qed.
Lemma sapp_inv_head (a b c : string) : (a ++ b = a ++ c)%string -> b = c.
Proof. induction a as [|x a IH]; cbn; intros H; [exact H|]. apply IH. congruence. Qed.
Lemma sapp_inv_tail (a b x y : string) : (a ++ x = b ++ y)%string -> String.length x = String.length y -> a = b /\ x = y.
Proof.
  revert b. induction a as [|c a IH]; intros [|e b] H L; cbn in H.
  - auto.
  - exfalso. apply (f_equal String.length) in H. cbn in H. rewrite sapp_length in H. lia.
  - exfalso. apply (f_equal String.length) in H. cbn in H. rewrite sapp_length in H. lia.
  - injection H as -> H. destruct (IH b H L) as [-> ->]. auto.
Qed.
Lemma contains_tail pat c s : contains pat (String c s) = false -> contains pat s = false.
Proof. cbn [contains]. intros H. now apply orb_false_iff in H. Qed.
Lemma contains_suffix pat u s : contains pat (u ++ s) = false -> contains pat s = false.
Proof. induction u as [|c u IH]; [auto|]. intros H. apply IH. now apply contains_tail in H. Qed.
Lemma prefix_app_true pat u s : prefix pat u = true -> prefix pat (u ++ s) = true.
Proof.
  revert u. induction pat as [|c p IH]; intros u H; [now destruct (u ++ s)%string|]. destruct u as [|e u]; [discriminate|]. cbn [prefix String.append] in *.
  destruct (ascii_dec c e); [auto|discriminate].
Qed.
Lemma contains_prefix pat u s : contains pat (u ++ s) = false -> contains pat u = false.
Proof.
  induction u as [|c u IH].
  - destruct pat; [|reflexivity]. intros H. destruct s; discriminate.
  - intros H. cbn [contains String.append] in *. apply orb_false_iff in H. destruct H as [H1 H2].
    change (String c (u ++ s)) with (String c u ++ s)%string in H1. rewrite (IH H2), orb_false_r. destruct (prefix pat (String c u)) eqn:E; [|reflexivity]. now rewrite (prefix_app_true _ _ s E) in H1.
Qed.
(** Replacing the ending *)
Lemma replace_ending new u : contains ".fits" u = false -> replace ".fits" new (u ++ ".fits") = (u ++ new)%string.
Proof.
  induction u as [|c u IH]; intros H.
  - pose proof (replace_first ".fits" new "" ltac:(discriminate)) as E. cbn [String.append] in E |- *. rewrite E. apply sapp_nil.
  - cbn [contains] in H. apply orb_false_iff in H. destruct H as [H1 H2]. unfold replace in *.
    change (String c u ++ ".fits")%string with (String c (u ++ ".fits")). cbn [replace_from].
    pose proof (prefix_fits_app c u "" H1) as P. cbn [String.append] in P. rewrite P. cbn [String.append]. f_equal. now apply IH.
Qed.
(** A slash ends every occurrence *)
Fixpoint slashless (s : string) : bool := match s with EmptyString => true | String c t => negb (Ascii.eqb c "/") && slashless t end.
Lemma prefix_slash pat u s : slashless pat = true -> prefix pat (u ++ String "/" s) = prefix pat u.
Proof.
  revert u. induction pat as [|c p IH]; intros u H; [now destruct u|]. cbn [slashless] in H. apply andb_true_iff in H. destruct H as [H1 H2].
  destruct u as [|e u]; cbn [prefix String.append].
  - destruct (ascii_dec c "/") as [->|]; [discriminate|reflexivity].
  - destruct (ascii_dec c e); [now apply IH|reflexivity].
Qed.
Lemma prefix_length pat s : prefix pat s = true -> String.length pat <= String.length s.
Proof.
  revert s. induction pat as [|c p IH]; intros s H; [cbn; lia|]. destruct s as [|e s]; [discriminate|]. cbn [prefix] in H. destruct (ascii_dec c e); [|discriminate].
  apply IH in H. cbn. lia.
Qed.
Lemma replace_slash c p new : slashless (String c p) = true -> forall u k s, k <= String.length u ->
  replace_from (String c p) new k (u ++ String "/" s) = (replace_from (String c p) new k u ++ String "/" (replace_from (String c p) new 0 s))%string.
Proof.
  intros Hp. induction u as [|e u IH]; intros k s Hk.
  - cbn in Hk. assert (k = 0) by lia. subst k. cbn [String.append replace_from].
    pose proof (prefix_slash _ "" s Hp) as X. cbn [String.append] in X. rewrite X. reflexivity.
  - cbn [String.append]. cbn [replace_from]. cbn [String.length] in Hk. destruct k as [|k]; [|apply IH; lia].
    pose proof (prefix_slash _ (String e u) s Hp) as X. cbn [String.append] in X. rewrite X.
    destruct (prefix (String c p) (String e u)) eqn:E; [|cbn [String.append]; f_equal; apply IH; lia].
    rewrite sapp_assoc. f_equal. apply IH. apply prefix_length in E. cbn in E |- *. lia.
Qed.
Lemma replace_grows new : 5 < String.length new -> forall s k, k <= 4 ->
  String.length s <= k + String.length (replace_from ".fits" new k s).
Proof.
  intros L. induction s as [|c s IH]; intros k Hk; [cbn; lia|]. cbn [replace_from String.length]. destruct k as [|k].
  - destruct (prefix ".fits" (String c s)).
    + rewrite sapp_length. pose proof (IH 4 ltac:(lia)) as G. match goal with |- context [replace_from _ _ ?k s] => change k with 4 end. lia.
    + cbn [String.length]. pose proof (IH 0 ltac:(lia)). lia.
  - pose proof (IH k ltac:(lia)). lia.
Qed.
Lemma replace_longer new s : 5 < String.length new -> contains ".fits" s = true -> String.length s < String.length (replace ".fits" new s).
Proof.
  intros L. unfold replace. induction s as [|c s IH]; intros H; [discriminate|]. cbn [contains] in H. cbn [replace_from].
  destruct (prefix ".fits" (String c s)) eqn:E.
  - rewrite sapp_length. match goal with |- context [replace_from _ _ ?k s] => change k with 4 end. pose proof (replace_grows new L s 4 ltac:(lia)). cbn [String.length]. lia.
  - cbn [orb] in H. cbn [String.length]. specialize (IH H). lia.
Qed.

(** ** Logs *)
Lemma lookup_json l j : NoDup (map fst l) -> lookup (json_log l) (text j) = (if existsb (Nat.eqb j) (map fst l) then Some (log_lookup l j) else None).
Proof.
  induction l as [|[k v] l IH]; intros N; [reflexivity|]. cbn [map fst] in N. inversion N as [|? ? N1 N2]; subst. cbn [json_log map lookup fst snd existsb log_lookup].
  destruct (String.eqb_spec (text k) (text j)) as [E|E].
  - apply text_inj in E. subst. now rewrite Nat.eqb_refl.
  - destruct (Nat.eqb_spec k j) as [->|Nk]; [congruence|]. destruct (Nat.eqb_spec j k) as [->|]; [congruence|]. cbn [orb]. now apply IH.
Qed.
Lemma log_source_keys l k pid : map fst (log_source l k pid) = if existsb (Nat.eqb k) (map fst l) then map fst l else map fst l ++ [k].
Proof.
  induction l as [|[m v] l IH]; [reflexivity|]. cbn [log_source map fst existsb]. destruct (Nat.eqb_spec m k) as [->|N]; [now rewrite Nat.eqb_refl|].
  cbn [map fst]. rewrite IH. destruct (Nat.eqb_spec k m) as [->|]; [congruence|]. cbn [orb]. destruct (existsb (Nat.eqb k) (map fst l)); reflexivity.
Qed.
Lemma existsb_nat k l : existsb (Nat.eqb k) l = true <-> In k l.
Proof.
  rewrite existsb_exists. split.
  - intros (x & H & E). apply Nat.eqb_eq in E. now subst.
  - intros H. exists k. split; [assumption|apply Nat.eqb_refl].
Qed.
Definition good_log (l : list (nat * list string)) : Prop := NoDup (map fst l) /\ forall k v, In (k, v) l -> v <> [].
Lemma log_source_good l k pid : good_log l -> good_log (log_source l k pid).
Proof.
  intros [N G]. split.
  - rewrite log_source_keys. destruct (existsb (Nat.eqb k) (map fst l)) eqn:E; [assumption|]. apply NoDup_app_iff. split; [assumption|]. split; [repeat constructor; auto|].
    intros x Hx [Hk|[]]. rewrite <- Hk in Hx. apply existsb_nat in Hx. congruence.
  - clear N. induction l as [|[m w] l IH]; cbn [log_source]; intros j v H.
    + destruct H as [H|[]]. injection H as <- <-. discriminate.
    + destruct (Nat.eqb m k).
      * destruct H as [H|H]; [|apply (G j v); now right]. injection H as <- <-. now destruct w.
      * destruct H as [H|H]; [injection H as <- <-; apply (G m w); now left|]. apply (IH (fun a b Hab => G a b (or_intror Hab)) j v H).
Qed.
Lemma log_keys l j : good_log l -> (existsb (Nat.eqb j) (map fst l) = true <-> log_lookup l j <> []).
Proof.
  intros [N G]. rewrite existsb_nat. clear N. induction l as [|[k v] l IH]; cbn [map fst log_lookup]; [tauto|].
  assert (Gl : forall a b, In (a, b) l -> b <> []) by (intros a b H; apply (G a b); now right).
  destruct (Nat.eqb_spec k j) as [->|Ne]; [|rewrite <- (IH Gl); cbn; tauto]. split; [intros _; apply (G j v); now left|]. intros _. now left.
Qed.
Lemma fold_good ai pid : forall l, good_log l -> good_log (fold_left (fun log k => log_source log k pid) ai l).
Proof. induction ai as [|k ai IH]; intros l H; cbn [fold_left]; [assumption|]. now apply IH, log_source_good. Qed.

Lemma history_good e c cat b covs evs s out : history e c (ingest cat b covs) evs s out -> good_log (sourcelog s).
Proof.
  intros H. remember (ingest cat b covs) as s0 eqn:E0. induction H as [|evs s out k s' p H IH Hc|evs s out k s' H IH Hc|evs s o1 p o2 act a s' H IH Hi Hc]; subst.
  - split; [constructor|contradiction].
  - destruct (SuperSceneFacts.checkout_inv _ _ _ _ _ _ Hc) as (seed & cra & cdec & r & ai & fi & P). assert (E : sourcelog s' = sourcelog s) by tauto. rewrite E. exact IH.
  - rewrite (SuperSceneFacts.checkout_refused _ _ _ _ _ Hc). exact IH.
  - destruct (SuperSceneFacts.checkin_inv _ _ _ _ _ _ Hc) as (ai & fi & _ & _ & _ & _ & _ & _ & _ & _ & _ & E & _). rewrite E. destruct (taskID a); [now apply fold_good|assumption].
Qed.

(** ** Band names in a header *)
Fixpoint plain (s : string) : Prop := match s with EmptyString => True | String c t => c <> ","%char /\ is_space c = false /\ plain t end.
Lemma split_plain s : forall cur, plain s -> split_commas cur s = [(cur ++ s)%string].
Proof.
  induction s as [|c s IH]; intros cur H; cbn [split_commas]; [now rewrite sapp_nil|]. destruct H as (H1 & _ & H2). destruct (Ascii.eqb_spec c ","); [contradiction|].
  rewrite IH by assumption. now rewrite sapp_assoc.
Qed.
Lemma split_app s t : forall cur, plain s -> split_commas cur (s ++ String "," t) = (cur ++ s)%string :: split_commas "" t.
Proof.
  induction s as [|c s IH]; intros cur H; cbn [split_commas String.append].
  - cbn. now rewrite sapp_nil.
  - destruct H as (H1 & _ & H2). destruct (Ascii.eqb_spec c ","); [contradiction|]. rewrite IH by assumption. now rewrite sapp_assoc.
Qed.
Lemma split_join l : l <> [] -> (forall s, In s l -> plain s) -> split_commas "" (join_commas l) = l.
Proof.
  induction l as [|a [|b l] IH]; intros N H; [congruence| |].
  - cbn [join_commas]. rewrite split_plain by (apply H; now left). reflexivity.
  - change (join_commas (a :: b :: l)) with (a ++ String "," (join_commas (b :: l)))%string. rewrite split_app by (apply H; now left). cbn [String.append]. f_equal.
    apply IH; [discriminate|]. intros s Hs. apply H. now right.
Qed.
Lemma strip_plain s : plain s -> strip s = s.
Proof.
  intros H. unfold strip. assert (L : lstrip s = s) by (destruct s as [|c s]; [reflexivity|]; destruct H as (_ & H & _); cbn [lstrip]; now rewrite H). rewrite L. clear L.
  induction s as [|c s IH]; [reflexivity|]. destruct H as (_ & H1 & H2). cbn [rstrip all_space]. rewrite H1. cbn [andb]. now rewrite IH.
Qed.
Lemma lookup_hset h k v j : lookup (hset h k v) j = if String.eqb k j then Some v else lookup h j.
Proof.
  induction h as [|[m w] h IH]; cbn [hset lookup]; [reflexivity|]. destruct (String.eqb_spec m k) as [->|N]; cbn [lookup].
  - destruct (String.eqb k j); reflexivity.
  - rewrite IH. destruct (String.eqb_spec m j) as [->|]; [|reflexivity]. destruct (String.eqb_spec k j); congruence.
Qed.
Lemma save_same d f x : save d f x f = Some x.
Proof. unfold save. now rewrite String.eqb_refl. Qed.
Lemma save_other d f x g : g <> f -> save d f x g = d g.
Proof. intros N. unfold save. now destruct (String.eqb_spec g f). Qed.

(** ** Columns *)
Lemma rectify_col bands r n : getcol (rectify_row bands r) n = (if existsb (String.eqb n) (dtype_names bands)
  then Some (clip_column n (match getcol r n with Some v => v | None => 0%Q end)) else None).
Proof.
  unfold getcol at 1. cbn [cols rectify_row]. induction (dtype_names bands) as [|m l IH]; [reflexivity|]. cbn [map assoc existsb].
  destruct (String.eqb_spec n m) as [->|]; [reflexivity|]. cbn [orb]. exact IH.
Qed.
Lemma clip_id lo hi v : (lo <= v)%Q -> (v <= hi)%Q -> clip lo hi v = v.
Proof.
  intros H1 H2. unfold clip. destruct (Qlt_le_dec v lo) as [H|H]; [exfalso; apply (Qlt_not_le _ _ H H1)|]. destruct (Qlt_le_dec hi v) as [K|K]; [exfalso; apply (Qlt_not_le _ _ K H2)|]. reflexivity.
Qed.
Lemma existsb_str s l : existsb (String.eqb s) l = true <-> In s l.
Proof.
  rewrite existsb_exists. split.
  - intros (x & H & E). apply String.eqb_eq in E. now subst.
  - intros H. exists s. split; [assumption|apply String.eqb_refl].
Qed.
Lemma distinct_nodup l : distinct l = true <-> NoDup l.
Proof.
  induction l as [|a l IH]; cbn [distinct]; [split; [constructor|reflexivity]|]. rewrite andb_true_iff, negb_true_iff, IH. split.
  - intros [H1 H2]. constructor; [|assumption]. intros H. apply existsb_str in H. congruence.
  - intros H. inversion H; subst. split; [|assumption]. destruct (existsb (String.eqb a) l) eqn:E; [|reflexivity]. apply existsb_str in E. contradiction.
Qed.
