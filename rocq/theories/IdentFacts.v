(** Lemmas on strings, paths and dictionaries for IdentModel *)
From Coq Require Import List String Ascii Bool Arith Lia.
From Verif Require Import Np NpFacts IdentModel.
Import ListNotations.
Open Scope nat_scope.

Lemma sapp_assoc (a b c : string) : ((a ++ b) ++ c = a ++ (b ++ c))%string.
Proof. induction a; cbn; congruence. Qed.
Lemma sapp_nil (a : string) : (a ++ "" = a)%string.
Proof. induction a; cbn; congruence. Qed.
Lemma prefix_app (p s : string) : prefix p (p ++ s) = true.
Proof. induction p as [|c p IH]; cbn; [destruct s; reflexivity|]. destruct ascii_dec; [apply IH | congruence]. Qed.
Lemma prefix_iff (p s : string) : prefix p s = true <-> exists t, s = (p ++ t)%string.
Proof.
  split; [|intros (t & ->); apply prefix_app].
  revert s. induction p as [|c p IH]; intros s H; [exists s; reflexivity|].
  destruct s as [|d s]; [discriminate H|]. cbn in H. destruct ascii_dec as [->|]; [|discriminate H].
  destruct (IH s H) as (t & ->). exists t. reflexivity.
Qed.
Lemma prefix_nil s : prefix "" s = true.
Proof. destruct s; reflexivity. Qed.
(** Occurrence of a part *)
Lemma contains_iff (p s : string) : contains p s = true <-> exists u v, s = (u ++ p ++ v)%string.
Proof.
  induction s as [|c s IH].
  - cbn [contains]. rewrite orb_false_r, prefix_iff. split.
    + intros (t & E). exists ""%string, t. exact E.
    + intros (u & v & E). destruct u; [|discriminate E]. exists v. exact E.
  - cbn [contains]. rewrite orb_true_iff, prefix_iff, IH. split.
    + intros [(t & E) | (u & v & E)]; [exists ""%string, t; exact E | exists (String c u), v; cbn; congruence].
    + intros (u & v & E). destruct u as [|d u]; [left; exists v; exact E|]. right. injection E as _ E. exists u, v. exact E.
Qed.

(** ** Slashes *)
Lemma has_slash_app a b : has_slash (a ++ b) = has_slash a || has_slash b.
Proof. induction a as [|c a IH]; cbn; [reflexivity|]. rewrite IH. apply orb_assoc. Qed.
Lemma basename_app h b : has_slash b = false -> basename (h ++ String "/" b) = b.
Proof.
  intros Hb. induction h as [|c h IH]; cbn [String.append basename]; [rewrite Hb; reflexivity|].
  rewrite has_slash_app. cbn [has_slash]. rewrite orb_true_r. exact IH.
Qed.
Lemma head_of_none b : has_slash b = false -> head_of b = ""%string.
Proof.
  destruct b as [|c b]; [reflexivity|]. cbn [has_slash head_of]. intros E. rewrite E. reflexivity.
Qed.
Lemma head_of_app h b : has_slash b = false -> head_of (h ++ String "/" b) = (h ++ "/")%string.
Proof.
  intros Hb. induction h as [|c h IH].
  - cbn [String.append head_of]. rewrite head_of_none by exact Hb. reflexivity.
  - cbn [String.append head_of]. rewrite has_slash_app. cbn [has_slash]. rewrite !orb_true_r. cbn [orb Ascii.eqb]. rewrite IH. reflexivity.
Qed.
Lemma all_slashes_app a b : all_slashes (a ++ b) = all_slashes a && all_slashes b.
Proof. induction a as [|c a IH]; cbn; [reflexivity|]. rewrite IH. apply andb_assoc. Qed.
Lemma rstrip_slash h : rstrip (h ++ "/") = rstrip h.
Proof.
  induction h as [|c h IH]; [reflexivity|]. cbn [String.append rstrip]. rewrite IH.
  change (String c (h ++ "/"))%string with (String c h ++ "/")%string. rewrite all_slashes_app. cbn [all_slashes Ascii.eqb Bool.eqb andb].
  rewrite andb_true_r. reflexivity.
Qed.
Lemma all_slashes_ends s : s <> ""%string -> all_slashes s = true -> ends_slash s = true.
Proof.
  induction s as [|c s IH]; [congruence|]. intros _ H. cbn in H. apply andb_true_iff in H. destruct H as [H1 H2].
  destruct s as [|d s]; [exact H1|]. apply IH; [discriminate | exact H2].
Qed.
Lemma rstrip_id h : ends_slash h = false -> rstrip h = h.
Proof.
  induction h as [|c h IH]; [reflexivity|]. intros E.
  assert (A : all_slashes (String c h) = false).
  { destruct (all_slashes (String c h)) eqn:A; [|reflexivity]. apply all_slashes_ends in A; [congruence | discriminate]. }
  cbn [rstrip]. rewrite A. f_equal. destruct h as [|d h]; [reflexivity|]. apply IH. exact E.
Qed.
Lemma dirname_app h b : h <> ""%string -> ends_slash h = false -> has_slash b = false -> dirname (h ++ String "/" b) = h.
Proof.
  intros Hh He Hb. unfold dirname. rewrite head_of_app by exact Hb. rewrite all_slashes_app.
  destruct (all_slashes h) eqn:A; [apply all_slashes_ends in A; congruence|]. cbn [andb].
  rewrite rstrip_slash. apply rstrip_id, He.
Qed.
Lemma ends_slash_app a b : b <> ""%string -> ends_slash (a ++ b) = ends_slash b.
Proof.
  intros Hb. induction a as [|c a IH]; [reflexivity|]. cbn [String.append]. destruct (a ++ b)%string eqn:E.
  - destruct a; [cbn in E; congruence | discriminate E].
  - exact IH.
Qed.

(** ** Replacing *)
Lemma replace_none pat new s : contains pat s = false -> replace pat new s = s.
Proof.
  unfold replace. induction s as [|c s IH]; [reflexivity|]. cbn [contains replace_from]. intros H. apply orb_false_iff in H. destruct H as [H1 H2].
  rewrite H1. f_equal. apply IH, H2.
Qed.
Lemma replace_skip pat new k u s : String.length u = k -> replace_from pat new k (u ++ s) = replace_from pat new 0 s.
Proof.
  revert k. induction u as [|c u IH]; intros k E; cbn in E; subst k; [reflexivity|]. cbn [String.append replace_from]. apply IH. reflexivity.
Qed.
Lemma replace_first pat new s : pat <> ""%string -> replace pat new (pat ++ s) = (new ++ replace pat new s)%string.
Proof.
  intros Hp. destruct pat as [|c p]; [congruence|]. unfold replace. cbn [String.append replace_from].
  change (String c (p ++ s))%string with (String c p ++ s)%string. rewrite prefix_app. f_equal.
  apply replace_skip. cbn. lia.
Qed.
Lemma prefix_fits_app c u s : prefix ".fits" (String c u) = false -> prefix ".fits" (String c (u ++ ".fits" ++ s)) = false.
Proof.
  cbn [prefix]. destruct (ascii_dec "." c) as [|]; [|reflexivity].
  do 4 (destruct u as [|? u]; [cbn; repeat (destruct ascii_dec; try discriminate; try congruence); reflexivity|];
        cbn [String.append prefix] in *; destruct ascii_dec; [|reflexivity]).
  destruct u; discriminate.
Qed.
Lemma replace_fits u s : contains ".fits" u = false -> replace ".fits" "" (u ++ ".fits" ++ s) = (u ++ replace ".fits" "" s)%string.
Proof.
  induction u as [|c u IH]; intros H.
  - exact (replace_first ".fits" "" s ltac:(discriminate)).
  - cbn [contains] in H. apply orb_false_iff in H. destruct H as [H1 H2].
    unfold replace in *. change (String c u ++ ".fits" ++ s)%string with (String c (u ++ ".fits" ++ s)) at 1.
    cbn [replace_from]. rewrite prefix_fits_app by exact H1. cbn [String.append]. f_equal. apply IH, H2.
Qed.

(** ** Parts of a path *)
Lemma split_at_app cur a b : split_at cur (a ++ String "/" b) = split_at cur a ++ split_at "" b.
Proof.
  revert cur. induction a as [|c a IH]; intros cur; [reflexivity|]. cbn [String.append split_at]. destruct (Ascii.eqb c "/"); [cbn [app]; f_equal|]; apply IH.
Qed.
Lemma parts_app a b : parts (a ++ String "/" b) = parts a ++ parts b.
Proof. unfold parts. rewrite split_at_app. apply filter_app. Qed.
Lemma split_at_plain cur a : has_slash a = false -> split_at cur a = [(cur ++ a)%string].
Proof.
  revert cur. induction a as [|c a IH]; intros cur H; cbn; [rewrite sapp_nil; reflexivity|].
  cbn in H. apply orb_false_iff in H. destruct H as [H1 H2]. rewrite H1, IH by exact H2. rewrite sapp_assoc. reflexivity.
Qed.
Lemma parts_plain a : has_slash a = false -> a <> ""%string -> parts a = [a].
Proof.
  intros H N. unfold parts. rewrite split_at_plain by exact H. cbn [String.append filter]. destruct (String.eqb_spec a ""); [congruence | reflexivity].
Qed.
Lemma split_at_concat cur s : String.concat "/" (split_at cur s) = (cur ++ s)%string.
Proof.
  revert cur. induction s as [|c s IH]; intros cur; [cbn; rewrite sapp_nil; reflexivity|]. cbn [split_at].
  destruct (Ascii.eqb_spec c "/") as [->|].
  - assert (K := IH ""%string). destruct (split_at "" s) as [|x l] eqn:E; [destruct s as [|d s]; [discriminate E|]; cbn in E|].
    + exfalso. clear -E. destruct (Ascii.eqb d "/"); [discriminate E|]. revert E. generalize (String d ""). induction s as [|c s IH]; intros cur E; cbn in E; [discriminate E|].
      destruct (Ascii.eqb c "/"); [discriminate E | exact (IH _ E)].
    + cbn [String.concat]. change (cur ++ "/" ++ String.concat "/" (x :: l) = cur ++ String "/" s)%string. rewrite K. reflexivity.
  - rewrite IH. rewrite sapp_assoc. reflexivity.
Qed.
(** A relative path without empty parts *)
Definition normal (s : string) : Prop :=
  s <> ""%string /\ prefix "/" s = false /\ ends_slash s = false /\ contains "//" s = false.
Lemma split_nonempty cur s : (cur = ""%string -> s <> ""%string /\ prefix "/" s = false) -> ends_slash s = false -> contains "//" s = false ->
  Forall (fun p => p <> ""%string) (split_at cur s).
Proof.
  revert cur. induction s as [|c s IH]; intros cur H1 H2 H3.
  - cbn. constructor; [|constructor]. intros ->. destruct (H1 eq_refl) as [K _]. congruence.
  - cbn [contains] in H3. apply orb_false_iff in H3. destruct H3 as [H3 H4]. cbn [split_at].
    destruct (Ascii.eqb_spec c "/") as [->|N].
    + constructor.
      * intros ->. destruct (H1 eq_refl) as [_ K]. cbn in K. destruct s; discriminate K.
      * destruct s as [|d s]; [discriminate H2|]. apply IH; [|exact H2 | exact H4].
        intros _. split; [discriminate|]. cbn [prefix] in *. destruct (ascii_dec "/" "/"); [exact H3 | congruence].
    + apply IH; [|destruct s; [reflexivity | exact H2] | exact H4].
      intros E. destruct cur; discriminate E.
Qed.
Lemma parts_normal s : normal s -> parts s = split_at "" s.
Proof.
  intros (N & P & E & C). unfold parts.
  assert (F := split_nonempty "" s (fun _ => conj N P) E C).
  induction F as [|p l Hp F IH]; [reflexivity|]. cbn [filter]. destruct (String.eqb_spec p ""); [congruence|]. cbn. f_equal. exact IH.
Qed.
Lemma is_prefix_iff p q : is_prefix p q = true <-> exists r, q = p ++ r.
Proof.
  revert q. induction p as [|a p IH]; intros q; cbn; [split; [exists q; reflexivity | reflexivity]|].
  destruct q as [|b q]; [split; [discriminate | intros (r & E); discriminate E]|].
  rewrite andb_true_iff, String.eqb_eq, IH. split.
  - intros (-> & r & ->). exists r. reflexivity.
  - intros (r & E). injection E as -> E. split; [reflexivity | exists r; exact E].
Qed.
Lemma concat_app l r : l <> [] -> r <> [] -> String.concat "/" (l ++ r) = (String.concat "/" l ++ "/" ++ String.concat "/" r)%string.
Proof.
  intros Hl Hr. induction l as [|a l IH]; [congruence|]. destruct l as [|b l].
  - cbn [app]. destruct r as [|x r]; [congruence|]. reflexivity.
  - change (String.concat "/" ((a :: b :: l) ++ r)) with (a ++ "/" ++ String.concat "/" ((b :: l) ++ r))%string.
    rewrite IH by discriminate. change (String.concat "/" (a :: b :: l)) with (a ++ "/" ++ String.concat "/" (b :: l))%string.
    rewrite !sapp_assoc. reflexivity.
Qed.
Lemma split_at_ne cur s : split_at cur s <> [].
Proof.
  revert cur. induction s as [|c s IH]; intros cur; cbn; [discriminate|]. destruct (Ascii.eqb c "/"); [discriminate | apply IH].
Qed.
(** Below: the same path, or the first is a directory of the second *)
Definition below (a b : string) : Prop := b = a \/ prefix (a ++ "/") b = true.
Lemma parts_below a b : normal a -> normal b -> is_prefix (parts a) (parts b) = true -> below a b.
Proof.
  intros Na Nb H. rewrite !parts_normal in H by assumption. apply is_prefix_iff in H. destruct H as (r & E).
  assert (Ca := split_at_concat "" a). assert (Cb := split_at_concat "" b). rewrite E in Cb. cbn [String.append] in Ca, Cb.
  destruct r as [|x r]; [left; rewrite app_nil_r in Cb; congruence|]. right. apply prefix_iff.
  rewrite concat_app in Cb; [|apply split_at_ne | discriminate]. rewrite Ca in Cb.
  exists (String.concat "/" (x :: r)). rewrite sapp_assoc. symmetry. exact Cb.
Qed.

(** ** Dictionaries *)
Lemma get_put {V} (d : dict V) k v k' : get (put d k v) k' = if String.eqb k k' then Some v else get d k'.
Proof.
  induction d as [|[q w] d IH]; cbn; [reflexivity|].
  destruct (String.eqb_spec q k) as [->|N].
  - cbn. destruct (String.eqb k k'); reflexivity.
  - cbn. rewrite IH. destruct (String.eqb_spec q k') as [->|]; [|reflexivity]. destruct (String.eqb_spec k k'); [congruence | reflexivity].
Qed.
Lemma get2_put2 {V} (d : dict (dict V)) b e v b' e' :
  get2 (put2 d b e v) b' e' = if String.eqb b b' && String.eqb e e' then Some v else get2 d b' e'.
Proof.
  unfold get2, put2. rewrite get_put. destruct (String.eqb_spec b b') as [<-|]; cbn [andb]; [|reflexivity].
  rewrite get_put. destruct (String.eqb e e'); [reflexivity|]. destruct (get d b); reflexivity.
Qed.
Lemma put_length {V} (d : dict V) k v : List.length (put d k v) = List.length d + match get d k with Some _ => 0 | None => 1 end.
Proof. induction d as [|[q w] d IH]; cbn; [reflexivity|]. destruct (String.eqb q k); cbn; [lia | rewrite IH; lia]. Qed.
