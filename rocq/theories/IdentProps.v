(** C59: exposures keep their identity, their headers and their pixels *)
From Coq Require Import List String Ascii Bool Arith Lia Permutation.
From Verif Require Import Np NpFacts IdentModel IdentFacts.
Import ListNotations.
Open Scope nat_scope.

(** ** Identities *)
(** The file base.fits in the directory [rel] below [D] ([D] itself when [rel] is empty) *)
Definition file (D rel base : string) : string :=
  (match rel with EmptyString => D | _ => D ++ "/" ++ rel end ++ "/" ++ base ++ ".fits")%string.
Definition path (rel base : string) : string := match rel with EmptyString => base | _ => (rel ++ "/" ++ base)%string end.
Definition directory (D : string) : Prop := D <> ""%string /\ ends_slash D = false.
Definition plain (base : string) : Prop := has_slash base = false /\ contains ".fits" base = false.

Lemma ends_rel D rel : rel <> ""%string -> ends_slash rel = false -> ends_slash (D ++ "/" ++ rel) = false.
Proof. intros N E. rewrite ends_slash_app by discriminate. destruct rel; [congruence | exact E]. Qed.
Lemma has_slash_fits base : has_slash base = false -> has_slash (base ++ ".fits") = false.
Proof. intros H. rewrite has_slash_app, H. reflexivity. Qed.
Lemma dirname_file D rel base : directory D -> ends_slash rel = false -> has_slash base = false ->
  dirname (file D rel base) = match rel with EmptyString => D | _ => (D ++ "/" ++ rel)%string end /\ basename (file D rel base) = (base ++ ".fits")%string.
Proof.
  intros [N E] Er Hb. unfold file. split; [|destruct rel; apply basename_app, has_slash_fits, Hb].
  destruct rel as [|c rel]; apply dirname_app; try assumption; try (apply has_slash_fits, Hb).
  - destruct D; discriminate.
  - apply ends_rel; [discriminate | exact Er].
Qed.
Lemma replace_end base : contains ".fits" base = false -> replace ".fits" "" (base ++ ".fits") = base.
Proof. intros H. assert (K := replace_fits base "" H). rewrite sapp_nil in K. rewrite K. unfold replace. cbn. apply sapp_nil. Qed.
Lemma contains_self D s : contains D (D ++ s) = true.
Proof. apply contains_iff. exists ""%string, s. reflexivity. Qed.
Lemma no_prefix_slash b : has_slash b = false -> prefix "/" b = false.
Proof.
  destruct b as [|c b]; [reflexivity|]. cbn [has_slash prefix]. intros H. apply orb_false_iff in H. destruct H as [H _].
  destruct (ascii_dec "/" c) as [<-|]; [discriminate H | reflexivity].
Qed.
Lemma id_of_dir D name : D <> ""%string -> id_of name (Some D) =
  if contains D (dirname name) then
    Some (join (drop_slash (replace D "" (dirname name))) (replace ".fits" "" (basename name)))
  else None.
Proof. destruct D; [congruence|]. intros _. reflexivity. Qed.

(** The identifier is the path of the file below the directory, without ".fits", so that different files have different
    identifiers: unless the name of the directory occurs again in the path or ".fits" within the name of the file. *)
Theorem C59_identity : forall D rel base filt det split band,
  directory D -> prefix "/" rel = false -> ends_slash rel = false -> (rel <> ""%string -> contains D ("/" ++ rel) = false) ->
  plain base -> band_of filt det split = Some band ->
  header_to_id filt det (file D rel base) (Some D) split = Some (band, path rel base).
Proof.
  intros D rel base filt det split band HD P E C [B1 B2] HB. unfold header_to_id. rewrite HB.
  destruct (dirname_file D rel base HD E B1) as [Ed Eb]. assert (N := proj1 HD).
  rewrite id_of_dir by exact N. rewrite Ed, Eb, replace_end by exact B2.
  destruct rel as [|c rel].
  - assert (K : contains D D = true) by (rewrite <- (sapp_nil D) at 2; apply contains_self). rewrite K.
    assert (R : replace D "" D = ""%string) by (rewrite <- (sapp_nil D) at 2; rewrite replace_first by exact N; reflexivity). rewrite R.
    unfold join. rewrite no_prefix_slash by exact B1. reflexivity.
  - rewrite contains_self, replace_first by exact N. rewrite replace_none by (apply C; discriminate).
    change (drop_slash ("" ++ "/" ++ String c rel)) with (String c rel). unfold join. rewrite no_prefix_slash by exact B1.
    change (String.eqb (String c rel) "") with false. rewrite E. reflexivity.
Qed.
Print Assumptions C59_identity.
Lemma path_inj rel base rel' base' : has_slash base = false -> has_slash base' = false -> prefix "/" rel = false -> prefix "/" rel' = false ->
  path rel base = path rel' base' -> rel = rel' /\ base = base'.
Proof.
  intros B B' P P' E.
  assert (K : base = base' /\ head_of (path rel base) = head_of (path rel' base')).
  { split; [|rewrite E; reflexivity]. apply (f_equal basename) in E.
    assert (BP : forall b, has_slash b = false -> basename b = b).
    { intros b Hb. destruct b as [|c b]; [reflexivity|]. cbn [has_slash] in Hb. apply orb_false_iff in Hb. destruct Hb as [H1 H2]. cbn. rewrite H2, H1. reflexivity. }
    assert (BA : forall r b, has_slash b = false -> basename (path r b) = b).
    { intros r b Hb. destruct r as [|c r]; [apply BP, Hb|]. exact (basename_app (String c r) b Hb). }
    rewrite !BA in E by assumption. exact E. }
  destruct K as [<- K]. split; [|reflexivity].
  unfold path in K. destruct rel as [|a rel], rel' as [|a' rel']; [reflexivity | | |].
  - rewrite head_of_none in K by assumption. change (String a' rel' ++ "/" ++ base)%string with (String a' rel' ++ String "/" base)%string in K.
    rewrite head_of_app in K by assumption. discriminate K.
  - rewrite (head_of_none base) in K by assumption. change (String a rel ++ "/" ++ base)%string with (String a rel ++ String "/" base)%string in K.
    rewrite head_of_app in K by assumption. discriminate K.
  - change (String a rel ++ "/" ++ base)%string with (String a rel ++ String "/" base)%string in K.
    change (String a' rel' ++ "/" ++ base)%string with (String a' rel' ++ String "/" base)%string in K.
    rewrite !head_of_app in K by assumption.
    assert (L : forall u v : string, (u ++ "/" = v ++ "/")%string -> u = v).
    { clear. induction u as [|c u IH]; intros [|d v] H; cbn in H; try reflexivity.
      - injection H as <- H. destruct v; discriminate H.
      - injection H as -> H. destruct u; discriminate H.
      - injection H as -> H. f_equal. apply IH, H. }
    apply L, K.
Qed.
Theorem C59_distinct : forall D rel base rel' base' filt det filt' det' split b b' e,
  directory D ->
  prefix "/" rel = false -> ends_slash rel = false -> (rel <> ""%string -> contains D ("/" ++ rel) = false) -> plain base ->
  prefix "/" rel' = false -> ends_slash rel' = false -> (rel' <> ""%string -> contains D ("/" ++ rel') = false) -> plain base' ->
  header_to_id filt det (file D rel base) (Some D) split = Some (b, e) ->
  header_to_id filt' det' (file D rel' base') (Some D) split = Some (b', e) ->
  rel = rel' /\ base = base'.
Proof.
  intros D rel base rel' base' filt det filt' det' split b b' e HD H1 H2 H3 H4 K1 K2 K3 K4 E1 E2.
  assert (F : forall f d r bs b0 , prefix "/" r = false -> ends_slash r = false -> (r <> ""%string -> contains D ("/" ++ r) = false) -> plain bs ->
             header_to_id f d (file D r bs) (Some D) split = Some (b0, e) -> path r bs = e).
  { intros f d r bs b0 P1 P2 P3 P4 E. destruct (band_of f d split) as [bb|] eqn:B.
    - rewrite (C59_identity D r bs f d split bb HD P1 P2 P3 P4 B) in E. congruence.
    - unfold header_to_id in E. rewrite B in E. discriminate E. }
  apply path_inj; [apply H4 | apply K4 | exact H1 | exact K1|].
  rewrite (F filt det rel base b H1 H2 H3 H4 E1), (F filt' det' rel' base' b' K1 K2 K3 K4 E2). reflexivity.
Qed.
Print Assumptions C59_distinct.

(** Without a directory, files of one name in any two directories are one exposure; the name of the directory is taken out
    wherever it occurs, and ".fits" also; and a directory given with its slash refuses the files directly in it. *)
Theorem C59_distinct_refuted : forall filt det split, band_of filt det split <> None ->
  (forall h h' base, has_slash base = false ->
     header_to_id filt det (h ++ "/" ++ base) None split = header_to_id filt det (h' ++ "/" ++ base) None split) /\
  (forall d rel base, let D := ("/" ++ d)%string in directory D -> ends_slash rel = false -> rel <> ""%string ->
     plain base -> contains D ("/" ++ rel) = false ->
     header_to_id filt det (file D (d ++ "/" ++ rel) base) (Some D) split = header_to_id filt det (file D rel base) (Some D) split) /\
  (forall D rel u v, directory D -> ends_slash rel = false ->
     plain u -> plain v -> plain (u ++ v) ->
     header_to_id filt det (file D rel (u ++ ".fits" ++ v)) (Some D) split = header_to_id filt det (file D rel (u ++ v)) (Some D) split) /\
  (forall D base, directory D -> contains (D ++ "/") D = false -> plain base ->
     header_to_id filt det (file D "" base) (Some (D ++ "/")%string) split = None).
Proof.
  intros filt det split NB. unfold header_to_id. destruct (band_of filt det split) as [band|]; [|congruence]. clear NB.
  split; [|split; [|split]].
  - intros h h' base Hb. unfold id_of. change (h ++ "/" ++ base)%string with (h ++ String "/" base)%string.
    change (h' ++ "/" ++ base)%string with (h' ++ String "/" base)%string. rewrite !basename_app by exact Hb. reflexivity.
  - intros d rel base HD Er Nr [B1 B2] C. set (D := ("/" ++ d)%string) in *.
    assert (Ed : ends_slash (d ++ "/" ++ rel) = false) by (apply ends_rel; assumption).
    destruct (dirname_file D rel base HD Er B1) as [E1 E2].
    destruct (dirname_file D (d ++ "/" ++ rel) base HD Ed B1) as [F1 F2].
    rewrite !id_of_dir by (unfold D; discriminate). rewrite E1, E2, F1, F2.
    destruct rel as [|c rel]; [congruence|]. destruct (d ++ "/" ++ String c rel)%string eqn:X; [destruct d; discriminate X|].
    rewrite !contains_self, !replace_first by (unfold D; discriminate). rewrite (replace_none _ _ ("/" ++ String c rel)) by exact C.
    rewrite <- X. replace ("/" ++ d ++ "/" ++ String c rel)%string with (D ++ "/" ++ String c rel)%string by reflexivity.
    rewrite replace_first by (unfold D; discriminate). rewrite replace_none by exact C. reflexivity.
  - intros D rel u v HD Er [U1 U2] [V1 V2] [W1 W2].
    assert (Hs : has_slash (u ++ ".fits" ++ v) = false) by (rewrite !has_slash_app, U1, V1; reflexivity).
    destruct (dirname_file D rel (u ++ v) HD Er W1) as [E1 E2].
    destruct (dirname_file D rel (u ++ ".fits" ++ v) HD Er Hs) as [F1 F2].
    rewrite !id_of_dir by apply HD. rewrite E1, E2, F1, F2.
    rewrite (replace_end (u ++ v)) by exact W2.
    replace (replace ".fits" "" ((u ++ ".fits" ++ v) ++ ".fits")) with (u ++ v)%string; [reflexivity|].
    rewrite !sapp_assoc. rewrite replace_fits by exact U2. rewrite replace_end by exact V2. reflexivity.
  - intros D base HD C [B1 B2]. destruct (dirname_file D "" base HD eq_refl B1) as [E1 E2].
    rewrite id_of_dir by (destruct D; discriminate). rewrite E1, C. reflexivity.
Qed.
Print Assumptions C59_distinct_refuted.

(** Exposures of one filter are one band, or one for each module when the filter is split *)
Theorem C59_band : forall filt split d d' b b',
  band_of filt (Some d) split = Some b -> band_of filt (Some d') split = Some b' ->
  (b = b' <-> (In filt split -> option_map upc (String.get 3 d) = option_map upc (String.get 3 d'))).
Proof.
  intros filt split d d' b b' H H'. unfold band_of in *. destruct (existsb (String.eqb filt) split) eqn:E.
  - apply existsb_exists in E. destruct E as (x & Hx & E). apply String.eqb_eq in E. subst x.
    destruct (String.get 3 d) as [m|]; [|discriminate]. destruct (String.get 3 d') as [m'|]; [|discriminate].
    injection H as <-. injection H' as <-. cbn [upper option_map].
    assert (L : forall u a a', (u ++ String a "" = u ++ String a' "")%string <-> a = a').
    { induction u as [|c u IH]; intros a a'; cbn; [split; congruence|]. rewrite <- IH. split; congruence. }
    rewrite L. split; [intros ->; reflexivity | intros K; specialize (K Hx); congruence].
  - injection H as <-. injection H' as <-. split; [|reflexivity]. intros _ K. exfalso.
    assert (existsb (String.eqb filt) split = true) by (apply existsb_exists; exists filt; split; [exact K | apply String.eqb_refl]). congruence.
Qed.
Print Assumptions C59_band.

(** The band is the filter in capitals *)
Definition small : list ascii := list_ascii_of_string "abcdefghijklmnopqrstuvwxyz".
Definition capitals : list ascii := list_ascii_of_string "ABCDEFGHIJKLMNOPQRSTUVWXYZ".
Definition capital (c c' : ascii) : Prop := In (c, c') (combine small capitals) \/ (~ In c small /\ c' = c).
Lemma upc_capital c : capital c (upc c).
Proof.
  set (chk := fun c => existsb (fun p => Ascii.eqb (fst p) c && Ascii.eqb (snd p) (upc c)) (combine small capitals) ||
                       (negb (existsb (Ascii.eqb c) small) && Ascii.eqb (upc c) c)).
  assert (A : forallb (fun n => chk (ascii_of_nat n)) (seq 0 256) = true) by (vm_compute; reflexivity).
  rewrite forallb_forall in A. specialize (A (nat_of_ascii c)). rewrite ascii_nat_embedding in A.
  assert (K : chk c = true) by (apply A, in_seq; pose proof (nat_ascii_bounded c); lia). unfold chk in K. apply orb_true_iff in K. destruct K as [K|K].
  - left. apply existsb_exists in K. destruct K as ([a b] & I & E). cbn [fst snd] in E. apply andb_true_iff in E. destruct E as [E1 E2]. apply Ascii.eqb_eq in E1, E2. now subst.
  - right. apply andb_true_iff in K. destruct K as [K1 K2]. apply Ascii.eqb_eq in K2. split; [|assumption]. intros I.
    assert (existsb (Ascii.eqb c) small = true) by (apply existsb_exists; exists c; split; [assumption|apply Ascii.eqb_refl]). rewrite H in K1. discriminate.
Qed.
Lemma upper_get s t i c : String.get i s = Some c -> exists c', String.get i (upper s ++ t) = Some c' /\ capital c c'.
Proof.
  revert i. induction s as [|a s IH]; intros [|i] H; cbn [String.get] in H; try discriminate; cbn [upper String.append String.get]; [|now apply IH].
  injection H as ->. exists (upc c). split; [reflexivity|apply upc_capital].
Qed.
Theorem C59_capitals : forall filt det split b, band_of filt det split = Some b ->
  (forall i c, String.get i filt = Some c -> exists c', String.get i b = Some c' /\ capital c c') /\
  (~ In filt split -> String.length b = String.length filt) /\ (In filt split -> String.length b = S (String.length filt)).
Proof.
  intros filt det split b H. unfold band_of in H.
  assert (L : forall s, String.length (upper s) = String.length s) by (induction s; cbn; congruence).
  destruct (existsb (String.eqb filt) split) eqn:E.
  - apply existsb_exists in E. destruct E as (x & Hx & E). apply String.eqb_eq in E. subst x. destruct det as [d|]; [|discriminate]. destruct (String.get 3 d) as [m|]; [|discriminate].
    injection H as <-. split; [intros i c; apply upper_get|]. split; [contradiction|]. intros _. clear - L.
    assert (A : forall a m, String.length (a ++ String m "") = S (String.length a)) by (induction a; cbn; intros; [reflexivity|now rewrite IHa]). cbn [upper]. now rewrite A, L.
  - injection H as <-. split; [intros i c Hc; destruct (upper_get filt "" i c Hc) as (c' & G & K); exists c'; now rewrite sapp_nil in G|]. split; [intros _; apply L|].
    intros K. assert (existsb (String.eqb filt) split = true) by (apply existsb_exists; exists filt; split; [exact K | apply String.eqb_refl]). congruence.
Qed.
Print Assumptions C59_capitals.
Example capitals_case : band_of "f200w" (Some "nrca1"%string) ["f200w"%string] = Some "F200WA"%string /\ band_of "clear-x" None [] = Some "CLEAR-X"%string.
Proof. split; reflexivity. Qed.

(** ** Pixels *)
Section Pixels.
Context {D : Type}.
Fixpoint store_all (f : pixels D) (l : list (string * string * D)) : option (pixels D) :=
  match l with
  | [] => Some f
  | (b, e, v) :: t => match store f b e v with Some f' => store_all f' t | None => None end
  end.
Definition group_of (b e : string) : list string := parts (b ++ "/" ++ e).
Lemma look_app p (f g : pixels D) : look p (f ++ g) = match look p f with Some v => Some v | None => look p g end.
Proof. induction f as [|[q v] f IH]; cbn; [reflexivity|]. destruct list_eq_dec; [reflexivity | exact IH]. Qed.
Lemma look_filter p (f : pixels D) k : (forall v, k (p, v) = true) -> look p (filter k f) = look p f.
Proof.
  intros Hk. induction f as [|[q v] f IH]; cbn; [reflexivity|]. destruct (list_eq_dec string_dec q p) as [->|N].
  - rewrite Hk. cbn. destruct list_eq_dec; [reflexivity | congruence].
  - destruct (k (q, v)); cbn; [destruct list_eq_dec; [congruence|]|]; exact IH.
Qed.
Lemma look_filter_none p (f : pixels D) k : (forall v, k (p, v) = false) -> look p (filter k f) = None.
Proof.
  intros Hk. induction f as [|[q v] f IH]; cbn; [reflexivity|]. destruct (k (q, v)) eqn:E; [|exact IH]. cbn.
  destruct list_eq_dec as [->|]; [rewrite Hk in E; discriminate E | exact IH].
Qed.
Lemma is_prefix_refl p : is_prefix p p = true.
Proof. apply is_prefix_iff. exists []. symmetry. apply app_nil_r. Qed.
Lemma store_look (f : pixels D) b e v f' : store f b e v = Some f' ->
  look (group_of b e) f' = Some v /\
  forall p, is_prefix (group_of b e) p = false -> is_prefix (p ++ ["data"%string]) (group_of b e) = false -> look p f' = look p f.
Proof.
  unfold store. fold (group_of b e). set (P := group_of b e). destruct existsb; [discriminate|]. intros E. injection E as <-. split.
  - rewrite look_app, look_filter_none; [cbn; destruct list_eq_dec; congruence|]. intros w. cbn [fst]. rewrite is_prefix_refl. reflexivity.
  - intros p H1 H2. rewrite look_app. rewrite look_filter by (intros w; cbn [fst]; rewrite H1, H2; reflexivity).
    destruct (look p f); [reflexivity|]. cbn. destruct list_eq_dec as [->|]; [rewrite is_prefix_refl in H1; discriminate H1 | reflexivity].
Qed.
Lemma is_prefix_data p q : is_prefix (p ++ ["data"%string]) q = true -> is_prefix p q = true.
Proof. rewrite !is_prefix_iff. intros (r & ->). exists ("data"%string :: r). rewrite <- app_assoc. reflexivity. Qed.
Lemma is_prefix_long p : is_prefix (p ++ ["data"%string]) p = false.
Proof.
  destruct is_prefix eqn:E; [|reflexivity]. apply is_prefix_iff in E. destruct E as (r & E).
  apply (f_equal (@List.length _)) in E. rewrite !app_length in E. cbn in E. lia.
Qed.
(** Groups that are the same or not one within the other *)
Definition apart (p q : list string) : Prop := p = q \/ is_prefix p q = false /\ is_prefix q p = false.
Lemma store_ok (f : pixels D) b e v : Forall (fun q => apart (group_of b e) (fst q)) f -> exists f', store f b e v = Some f' /\
  (forall q, In q f' -> fst q = group_of b e \/ In q f).
Proof.
  intros F. unfold store. fold (group_of b e). set (P := group_of b e) in *.
  replace (existsb _ f) with false.
  - eexists. split; [reflexivity|]. intros q Hq. apply in_app_or in Hq. destruct Hq as [Hq | [<- | []]]; [right; apply filter_In in Hq; apply Hq | left; reflexivity].
  - symmetry. apply not_true_is_false. intros E. apply existsb_exists in E. destruct E as (q & Hq & E). apply andb_true_iff in E. destruct E as [E _].
    rewrite Forall_forall in F. destruct (F q Hq) as [EQ | [_ K]]; [rewrite <- EQ, is_prefix_long in E; discriminate E|].
    apply is_prefix_data in E. congruence.
Qed.
Definition name_of (x : string * string * D) : list string := group_of (fst (fst x)) (snd (fst x)).
Lemma store_all_ok l (f : pixels D) : (forall x y, In x l -> In y l -> apart (name_of x) (name_of y)) ->
  (forall x q, In x l -> In q f -> apart (name_of x) (fst q)) ->
  exists f', store_all f l = Some f' /\
   (forall p, ~ In p (map name_of l) -> (forall x, In x l -> apart (name_of x) p) -> look p f' = look p f) /\
   (forall l1 x l2, l = l1 ++ x :: l2 -> ~ In (name_of x) (map name_of l2) -> look (name_of x) f' = Some (snd x)).
Proof.
  revert f. induction l as [|[[b e] v] l IH]; intros f HA HF.
  - exists f. split; [reflexivity|]. split; [reflexivity|]. intros [|] x l2 E; discriminate E.
  - destruct (store_ok f b e v) as (f1 & S1 & I1).
    { apply Forall_forall. intros q Hq. exact (HF (b, e, v) q (or_introl eq_refl) Hq). }
    destruct (store_look f b e v f1 S1) as [L1 L2].
    destruct (IH f1) as (f' & S' & K1 & K2).
    { intros x y Hx Hy. apply HA; right; assumption. }
    { intros x q Hx Hq. destruct (I1 q Hq) as [E | Hq']; [|apply HF; [right; exact Hx | exact Hq']].
      rewrite E. exact (HA x (b, e, v) (or_intror Hx) (or_introl eq_refl)). }
    exists f'. split; [cbn; rewrite S1; exact S'|]. split.
    + intros p Hp Ha. rewrite K1.
      * destruct (Ha (b, e, v) (or_introl eq_refl)) as [E | [E1 E2]]; [exfalso; apply Hp; left; exact E|].
        apply L2; [exact E1|]. destruct (is_prefix (p ++ ["data"%string]) (group_of b e)) eqn:E; [|reflexivity].
        apply is_prefix_data in E. unfold name_of in E2. cbn [fst snd] in E2. congruence.
      * intros K. apply Hp. right. exact K.
      * intros x Hx. apply Ha. right. exact Hx.
    + intros l1 x l2 E N. destruct l1 as [|y l1]; cbn in E; injection E as E1 E2.
      * subst. change (name_of (b, e, v)) with (group_of b e) in *. rewrite K1; [exact L1 | exact N|].
        intros x Hx. exact (HA x (b, e, v) (or_intror Hx) (or_introl eq_refl)).
      * apply (K2 l1 x l2 E2 N).
Qed.
End Pixels.

Lemma group_below b e b' e' : has_slash b = false -> b <> ""%string -> has_slash b' = false -> b' <> ""%string -> normal e -> normal e' ->
  is_prefix (group_of b e) (group_of b' e') = true -> b = b' /\ below e e'.
Proof.
  intros H1 H2 H3 H4 N N' H. unfold group_of in H.
  change (b ++ "/" ++ e)%string with (b ++ String "/" e)%string in H. change (b' ++ "/" ++ e')%string with (b' ++ String "/" e')%string in H.
  rewrite !parts_app, (parts_plain b), (parts_plain b') in H by assumption. cbn [app is_prefix] in H. apply andb_true_iff in H. destruct H as [H K].
  apply String.eqb_eq in H. split; [exact H | apply parts_below; assumption].
Qed.
Lemma below_antisym a b : below a b -> below b a -> a = b.
Proof.
  intros [-> | H]; [reflexivity|]. intros [-> | K]; [reflexivity|]. exfalso.
  apply prefix_iff in H. destruct H as (t & E). apply prefix_iff in K. destruct K as (u & F).
  assert (L : forall x y, String.length (x ++ y) = String.length x + String.length y) by (clear; induction x; intros; cbn; congruence).
  apply (f_equal String.length) in E. apply (f_equal String.length) in F. rewrite !L in E, F. cbn in E, F. lia.
Qed.
(** The exposures of a run have usable names: no slash in the band, no empty part in the identifier *)
Definition named {A} (x : string * string * A) : Prop :=
  has_slash (fst (fst x)) = false /\ fst (fst x) <> ""%string /\ normal (snd (fst x)).
(** Adding any number of exposures, of which none in the same band has a path below another's, keeps for each band and
    identifier the pixels that were added last. *)
Theorem C59_pixels : forall {D} (l : list (string * string * D)),
  Forall named l ->
  (forall x y, In x l -> In y l -> fst (fst x) = fst (fst y) -> below (snd (fst x)) (snd (fst y)) -> snd (fst x) = snd (fst y)) ->
  exists f, store_all [] l = Some f /\
    (forall l1 b e v l2, l = l1 ++ (b, e, v) :: l2 -> ~ In (b, e) (map fst l2) -> look (parts (b ++ "/" ++ e)) f = Some v).
Proof.
  intros D l HN HB. rewrite Forall_forall in HN.
  assert (HA : forall x y : string * string * D, In x l -> In y l -> apart (name_of x) (name_of y)).
  { intros x y Hx Hy. destruct (HN x Hx) as (X1 & X2 & X3), (HN y Hy) as (Y1 & Y2 & Y3). unfold apart, name_of.
    destruct (is_prefix (group_of (fst (fst x)) (snd (fst x))) (group_of (fst (fst y)) (snd (fst y)))) eqn:E1.
    - destruct (group_below _ _ _ _ X1 X2 Y1 Y2 X3 Y3 E1) as [Eb Be]. left. rewrite Eb, (HB x y Hx Hy Eb Be). reflexivity.
    - destruct (is_prefix (group_of (fst (fst y)) (snd (fst y))) (group_of (fst (fst x)) (snd (fst x)))) eqn:E2; [|right; split; reflexivity].
      destruct (group_below _ _ _ _ Y1 Y2 X1 X2 Y3 X3 E2) as [Eb Be]. left. rewrite Eb, (HB y x Hy Hx Eb Be). reflexivity. }
  destruct (store_all_ok l [] HA) as (f & S & _ & K); [intros x q _ []|].
  exists f. split; [exact S|]. intros l1 b e v l2 E N. apply (K l1 (b, e, v) l2 E).
  intros I. apply N. apply in_map_iff in I. destruct I as (y & Ey & Hy).
  assert (Hy' : In y l) by (rewrite E; apply in_or_app; right; right; exact Hy).
  assert (Hx' : In (b, e, v) l) by (rewrite E; apply in_or_app; right; left; reflexivity).
  destruct (HN _ Hx') as (X1 & X2 & X3), (HN y Hy') as (Y1 & Y2 & Y3). cbn [fst snd] in *.
  assert (P1 : is_prefix (group_of (fst (fst y)) (snd (fst y))) (group_of b e) = true) by (rewrite <- is_prefix_refl with (p := group_of b e); f_equal; exact Ey).
  assert (P2 : is_prefix (group_of b e) (group_of (fst (fst y)) (snd (fst y))) = true) by (rewrite <- is_prefix_refl with (p := group_of b e); f_equal; exact Ey).
  destruct (group_below _ _ _ _ Y1 Y2 X1 X2 Y3 X3 P1) as [Eb B1]. destruct (group_below _ _ _ _ X1 X2 Y1 Y2 X3 Y3 P2) as [_ B2].
  assert (Ee := below_antisym _ _ B1 B2). apply in_map_iff. exists y. split; [|exact Hy].
  destruct y as [[yb ye] yv]. cbn in *. congruence.
Qed.
Print Assumptions C59_pixels.

(** Adding an exposure deletes those whose path is below its own *)
Theorem C59_deleted_refuted : forall D (f f' : pixels D) b e e' v,
  prefix (e ++ "/") e' = true -> parts e <> parts e' ->
  store f b e v = Some f' -> look (parts (b ++ "/" ++ e')) f' = None.
Proof.
  intros D f f' b e e' v P N S. apply prefix_iff in P. destruct P as (t & ->).
  assert (E : ((e ++ "/") ++ t = e ++ String "/" t)%string) by (rewrite sapp_assoc; reflexivity). rewrite E in *.
  unfold store in S. destruct existsb; [discriminate S|]. injection S as <-.
  change (b ++ "/" ++ e)%string with (b ++ String "/" e)%string. change (b ++ "/" ++ e ++ String "/" t)%string with (b ++ String "/" (e ++ String "/" t))%string.
  rewrite !parts_app in *. rewrite look_app, look_filter_none.
  - cbn [look]. destruct list_eq_dec as [X|]; [|reflexivity]. apply app_inv_head in X. congruence.
  - intros w. cbn [fst]. replace (is_prefix (parts b ++ parts e) (parts b ++ parts e ++ parts t)) with true; [reflexivity|].
    symmetry. apply is_prefix_iff. exists (parts t). rewrite app_assoc. reflexivity.
Qed.
Print Assumptions C59_deleted_refuted.

(** The sizes of a store are those it was made with, whatever is asked for later *)
Theorem C59_sizes : forall (f : option attrs) n s n' s',
  open_store (Some (fst (open_store f n s))) n' s' = open_store f n s /\
  (f = None -> snd (open_store (Some (fst (open_store f n s))) n' s') = (n, s)).
Proof. intros f n s n' s'. split; [|intros ->; reflexivity]. destruct f as [[[fn|] [fs|]]|]; reflexivity. Qed.
Print Assumptions C59_sizes.
