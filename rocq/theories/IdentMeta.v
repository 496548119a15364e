(** C59, the metadata store: headers, files, table; flux calibration *)
From Coq Require Import Reals Lra.
From Coq Require Import List String Ascii Bool Arith Lia Permutation.
From Verif Require Import Np NpFacts ChainFacts IdentModel IdentFacts IdentProps.
Import ListNotations.
Open Scope nat_scope.

Lemma mapM_defined {A B} (f : A -> option B) l r : mapM f l = Some r -> forall x, In x l -> f x <> None.
Proof.
  revert r. induction l as [|a l IH]; intros r E x Hx; [destruct Hx|]. cbn in E. destruct (f a) as [y|] eqn:F; [|discriminate E].
  destruct (mapM f l) as [r'|]; [|discriminate E]. destruct Hx as [<-|Hx]; [congruence | exact (IH r' eq_refl x Hx)].
Qed.
Lemma get_In {V} (d : dict V) k v : get d k = Some v -> In (k, v) d.
Proof. induction d as [|[q w] d IH]; cbn; [discriminate|]. destruct (String.eqb_spec q k) as [->|]; [intros E; injection E as ->; left; reflexivity | intros E; right; apply IH, E]. Qed.

Section Meta.
Context {H W : Type}.
Notation meta := (meta H W).
(** An exposure to be added: band, identifier, header and generalized WCS *)
Definition entry := (string * string * (H * option W))%type.
Definition add_all (m : meta) (l : list entry) : meta :=
  fold_left (fun m x => add_exposure H W m (fst (fst x)) (snd (fst x)) (fst (snd x)) (snd (snd x))) l m.
Lemma add_all_app m l l' : add_all m (l ++ l') = add_all (add_all m l) l'.
Proof. apply fold_left_app. Qed.
Lemma add_all_cons m b e h w l : add_all m ((b, e, (h, w)) :: l) = add_all (add_exposure H W m b e h w) l.
Proof. reflexivity. Qed.
Lemma add_all_headers l m b e : ~ In (b, e) (map fst l) -> get2 (headers _ _ (add_all m l)) b e = get2 (headers _ _ m) b e.
Proof.
  revert m. induction l as [|[[b0 e0] [h w]] l IH]; intros m N; [reflexivity|]. cbn [add_all fold_left] in *. unfold add_all in IH. rewrite IH.
  - cbn. rewrite get2_put2. destruct (String.eqb_spec b0 b) as [->|]; [|reflexivity]. destruct (String.eqb_spec e0 e) as [->|]; [|reflexivity].
    exfalso. apply N. left. reflexivity.
  - intros K. apply N. right. exact K.
Qed.
(** ** How many *)
Definition total (d : dict (dict H)) : nat := list_sum (map (fun be => List.length (snd be)) d).
Lemma nexp_total (m : meta) : nexp H W m = total (headers _ _ m).
Proof.
  unfold nexp, total. generalize (headers _ _ m). intros d.
  assert (K : forall n, fold_left (fun n be => n + List.length (snd be)) d n = n + list_sum (map (fun be => List.length (snd be)) d)); [|exact (K 0)].
  induction d as [|be d IH]; intros n; [cbn; lia|]. cbn [fold_left map]. rewrite IH. unfold list_sum. cbn [fold_right]. lia.
Qed.
Lemma total_put (d : dict (dict H)) b x : total (put d b x) + match get d b with Some y => List.length y | None => 0 end = total d + List.length x.
Proof.
  unfold total, list_sum. induction d as [|[q y] d IH]; cbn; [lia|]. destruct (String.eqb q b); cbn; [lia|]. cbn in IH. lia.
Qed.
Lemma total_put2 (d : dict (dict H)) b e h : total (put2 d b e h) = total d + match get2 d b e with Some _ => 0 | None => 1 end.
Proof.
  unfold put2, get2. assert (K := total_put d b (put (match get d b with Some x => x | None => [] end) e h)). rewrite put_length in K.
  destruct (get d b) as [y|]; cbn in K |- *; [|lia]. destruct (get y e); lia.
Qed.
Definition ident_dec : forall x y : string * string, {x = y} + {x <> y}.
Proof. decide equality; apply string_dec. Defined.
Lemma add_all_present l m b e : In (b, e) (map fst l) \/ get2 (headers _ _ m) b e <> None <-> get2 (headers _ _ (add_all m l)) b e <> None.
Proof.
  revert m. induction l as [|[[b0 e0] [h w]] l IH]; intros m; [cbn; tauto|]. cbn [add_all fold_left map fst snd In]. unfold add_all in IH.
  rewrite <- IH. cbn [headers add_exposure]. rewrite get2_put2.
  destruct (String.eqb_spec b0 b) as [->|N]; [destruct (String.eqb_spec e0 e) as [->|N]|]; cbn [andb].
  - split; [|tauto]. intros _. right. discriminate.
  - split; intros [K|K]; try tauto. destruct K as [K|K]; [congruence | tauto].
  - split; intros [K|K]; try tauto. destruct K as [K|K]; [congruence | tauto].
Qed.
(** Each band and identifier has the header added last, and there are as many exposures as different names *)
Theorem C59_headers : forall l : list entry, let m := add_all (new_meta H W) l in
  (forall l1 b e h w l2, l = l1 ++ (b, e, (h, w)) :: l2 -> ~ In (b, e) (map fst l2) -> get2 (headers _ _ m) b e = Some h) /\
  (forall b e, get2 (headers _ _ m) b e <> None -> In (b, e) (map fst l)) /\
  nexp H W m = List.length (nodup ident_dec (map fst l)).
Proof.
  intros l m. split; [|split].
  - intros l1 b e h w l2 E N. unfold m. rewrite E, add_all_app, add_all_cons. rewrite (add_all_headers l2 _ b e N). cbn. rewrite get2_put2, !String.eqb_refl. reflexivity.
  - intros b e K. apply add_all_present in K. destruct K as [K|K]; [exact K|]. cbn in K. congruence.
  - unfold m. rewrite nexp_total. clear m. rewrite <- (rev_involutive l). generalize (rev l). clear l. intros l.
    induction l as [|[[b e] [h w]] l IH]; [reflexivity|]. cbn [rev]. rewrite add_all_app, add_all_cons. cbn [add_all fold_left]. fold (add_all (new_meta H W) (rev l)). cbn [headers add_exposure]. rewrite total_put2, IH, map_app. cbn [map fst].
    assert (K := add_all_present (rev l) (new_meta H W) b e).
    assert (Q : List.length (nodup ident_dec (map fst (rev l) ++ [(b, e)])) =
                List.length (nodup ident_dec (map fst (rev l))) + if in_dec ident_dec (b, e) (map fst (rev l)) then 0 else 1).
    { assert (P : Permutation (map fst (rev l) ++ [(b, e)]) ((b, e) :: map fst (rev l))) by (apply Permutation_app_comm).
      assert (PN : forall x y : list (string * string), Permutation x y -> List.length (nodup ident_dec x) = List.length (nodup ident_dec y)).
      { intros x y Hp. apply Permutation_length. apply NoDup_Permutation; [apply NoDup_nodup | apply NoDup_nodup|].
        intros z. rewrite !nodup_In. split; apply Permutation_in; [exact Hp | symmetry; exact Hp]. }
      rewrite (PN _ _ P). cbn [nodup]. destruct in_dec; cbn; lia. }
    symmetry. etransitivity; [exact Q|]. symmetry. f_equal. destruct (get2 (headers H W (add_all (new_meta H W) (rev l))) b e) eqn:G; destruct in_dec as [I|I]; try reflexivity; exfalso.
    + destruct (proj2 K ltac:(discriminate)) as [J|J]; [contradiction | cbn in J; congruence].
    + apply (proj1 K); [left; exact I | reflexivity].
Qed.
Print Assumptions C59_headers.

(** ** Files *)
Context {T : Type} (wcs_of : H -> W) (tostring : H -> T) (fromstring : T -> H).
Notation files := (files W T).
Hypothesis round_trip : forall h, fromstring (tostring h) = h.
Lemma map_id2 {A B} (d : dict (dict A)) (f : A -> B) (g : B -> A) : (forall a, g (f a) = a) ->
  map (fun be => (fst be, map (fun et => (fst et, g (snd et))) (snd be))) (map (fun be => (fst be, map (fun eh => (fst eh, f (snd eh))) (snd be))) d) = d.
Proof.
  intros Hf. rewrite map_map. rewrite <- (map_id d) at 2. apply map_ext. intros [b x]. cbn. f_equal.
  rewrite map_map. rewrite <- (map_id x) at 2. apply map_ext. intros [e a]. cbn. rewrite Hf. reflexivity.
Qed.
Lemma get_mapM {A B} (f : string * A -> option B) (d : dict A) r : mapM (fun x => option_map (pair (fst x)) (f x)) d = Some r ->
  forall k, get r k = match get d k with Some a => f (k, a) | None => None end.
Proof.
  revert r. induction d as [|[k a] d IH]; intros r E k0; cbn in E.
  - injection E as <-. reflexivity.
  - destruct (f (k, a)) as [y|] eqn:F; [|discriminate E]. cbn in E. destruct (mapM _ d) as [r'|] eqn:M; [|discriminate E]. injection E as <-.
    cbn. destruct (String.eqb_spec k k0) as [->|]; [congruence | apply IH; reflexivity].
Qed.
Lemma populate_get hs g w b e : populate H W wcs_of hs g = Some w ->
  get2 w b e = match get2 hs b e with
               | Some h => match g with Some t => get2 t b e | None => Some (wcs_of h) end
               | None => None
               end.
Proof.
  intros P. unfold populate in P.
  change (get2 w b e) with (match @get (dict W) w b with Some x => get x e | None => None end).
  change (get2 hs b e) with (match get hs b with Some x => get x e | None => None end).
  assert (K : @get (dict W) w b = match get hs b with Some x => mapM (fun eh => option_map (pair (fst eh)) (match g with Some t => get2 t b (fst eh) | None => Some (wcs_of (snd eh)) end)) x | None => None end)
    by exact (get_mapM (fun be : string * dict H => mapM (fun eh => option_map (pair (fst eh)) (match g with Some t => get2 t (fst be) (fst eh) | None => Some (wcs_of (snd eh)) end)) (snd be)) hs w P b).
  rewrite K. destruct (get hs b) as [x|] eqn:G; [|reflexivity].
  destruct (mapM _ x) as [y|] eqn:M.
  - assert (K2 := get_mapM (fun eh : string * H => match g with Some t => get2 t b (fst eh) | None => Some (wcs_of (snd eh)) end) x y M e).
    rewrite K2. cbn [fst snd]. destruct (get x e); reflexivity.
  - exfalso. exact (mapM_defined _ hs w P (b, x) (get_In hs b x G) ltac:(cbn [fst snd option_map]; rewrite M; reflexivity)).
Qed.
Lemma populate_iff hs g : (exists w, populate H W wcs_of hs (Some g) = Some w) <->
  (forall b x e h, In (b, x) hs -> In (e, h) x -> get2 g b e <> None).
Proof.
  unfold populate. split.
  - intros (w & P) b x e h Hb He K. apply (mapM_defined _ hs w P (b, x) Hb). cbn [fst snd].
    destruct (mapM _ x) as [y|] eqn:M; [|reflexivity]. exfalso. apply (mapM_defined _ x y M (e, h) He). cbn [fst snd]. rewrite K. reflexivity.
  - intros A. apply mapM_total. intros [b x] Hb. cbn [fst snd].
    destruct (mapM_total (fun eh : string * H => option_map (pair (fst eh)) (get2 g b (fst eh))) x) as (y & E).
    { intros [e h] He. cbn [fst]. destruct (get2 g b e) as [w|] eqn:G; [exists (e, w); reflexivity | exfalso; exact (A b x e h Hb He G)]. }
    exists (b, y). rewrite E. reflexivity.
Qed.

(** Writing and reading again gives the same headers, in the same order, and the WCS of each exposure; other files are left. *)
Theorem C59_file : forall (m : meta) name f f' load_all, write_to_file H W T tostring m name f = Some f' ->
  (exists m', read_meta H W T wcs_of fromstring f' name false load_all = Some m' /\ headers _ _ m' = headers _ _ m /\
    (load_all = true -> exists w, wcs _ _ m' = Some w /\ forall b e, get2 w b e = option_map wcs_of (get2 (headers _ _ m) b e))) /\
  (forall other load_all', other <> name ->
     read_meta H W T wcs_of fromstring f' other false load_all' = read_meta H W T wcs_of fromstring f other false load_all').
Proof.
  intros m name f f' load_all Wr. unfold write_to_file in Wr. destruct (contains ".json" name); [|discriminate Wr]. injection Wr as <-. split.
  - unfold read_meta. cbn [jsons]. rewrite get_put, String.eqb_refl. rewrite map_id2 by exact round_trip.
    destruct load_all; [|eexists; split; [reflexivity|]; split; [reflexivity | discriminate]].
    destruct (populate H W wcs_of (headers _ _ m) None) as [w|] eqn:P.
    + eexists. split; [reflexivity|]. split; [reflexivity|]. intros _. exists w. split; [reflexivity|]. intros b e.
      rewrite (populate_get _ _ _ b e P). destruct (get2 (headers _ _ m) b e); reflexivity.
    + exfalso. unfold populate in P. destruct (mapM_total (fun be : string * dict H => option_map (pair (fst be))
        (mapM (fun eh => option_map (pair (fst eh)) (Some (wcs_of (snd eh)))) (snd be))) (headers _ _ m)) as (w & E).
      { intros [b x] _. cbn [fst snd]. destruct (mapM_total (fun eh : string * H => option_map (pair (fst eh)) (Some (wcs_of (snd eh)))) x) as (y & E).
        - intros [e h] _. eexists. reflexivity.
        - exists (b, y). rewrite E. reflexivity. }
      discriminate (eq_trans (eq_sym P) E).
  - intros other la N. unfold read_meta. cbn [jsons]. rewrite get_put. destruct (String.eqb_spec name other); [congruence|]. reflexivity.
Qed.
Print Assumptions C59_file.

(** With the generalized WCS of the exposures in the second file: reading works when every exposure has one, and each gets its own *)
Theorem C59_gwcs_partial : forall (m : meta) name f f', write_to_file H W T tostring m name f = Some f' -> tree _ _ m <> [] ->
  ((exists m', read_meta H W T wcs_of fromstring f' name true true = Some m') <->
   (forall b x e h, In (b, x) (headers _ _ m) -> In (e, h) x -> get2 (tree _ _ m) b e <> None)) /\
  (forall m', read_meta H W T wcs_of fromstring f' name true true = Some m' ->
     headers _ _ m' = headers _ _ m /\ tree _ _ m' = tree _ _ m /\
     exists w, wcs _ _ m' = Some w /\ forall b e, get2 (headers _ _ m) b e <> None -> get2 w b e = get2 (tree _ _ m) b e).
Proof.
  intros m name f f' Wr NT. unfold write_to_file in Wr. destruct (contains ".json" name); [|discriminate Wr]. injection Wr as <-.
  unfold read_meta. cbn [jsons asdfs]. rewrite get_put, String.eqb_refl. rewrite map_id2 by exact round_trip.
  destruct (tree _ _ m) as [|t0 t] eqn:ET; [congruence|]. rewrite get_put, String.eqb_refl. clear NT. split.
  - rewrite <- populate_iff. split.
    + intros (m' & E). destruct populate as [w|]; [exists w; reflexivity | discriminate E].
    + intros (w & E). rewrite E. eexists. reflexivity.
  - intros m' E. destruct populate as [w|] eqn:P; [|discriminate E]. injection E as <-. split; [reflexivity|]. split; [reflexivity|].
    exists w. split; [reflexivity|]. intros b e N. rewrite (populate_get _ _ _ b e P). destruct (get2 (headers _ _ m) b e); [reflexivity | congruence].
Qed.
Print Assumptions C59_gwcs_partial.
(** The second file outlives the first: a store written without generalized WCS over one written with them is read with the old
    ones; and without load_all they are not read, so that writing elsewhere what was read drops them. *)
Theorem C59_gwcs_refuted : forall name name' b e h h' w (f : files), contains ".json" name = true -> contains ".json" name' = true ->
  get (asdfs _ _ f) (replace ".json" ".asdf" name') = None ->
  (exists f1 f2 m', write_to_file H W T tostring (add_all (new_meta H W) [(b, e, (h, Some w))]) name f = Some f1 /\
     write_to_file H W T tostring (add_all (new_meta H W) [(b, e, (h', None))]) name f1 = Some f2 /\
     read_meta H W T wcs_of fromstring f2 name true true = Some m' /\ get2 (headers _ _ m') b e = Some h' /\
     exists ws, wcs _ _ m' = Some ws /\ get2 ws b e = Some w) /\
  (replace ".json" ".asdf" name <> replace ".json" ".asdf" name' ->
   exists f1 m1 f2 m2 ws, write_to_file H W T tostring (add_all (new_meta H W) [(b, e, (h, Some w))]) name f = Some f1 /\
     read_meta H W T wcs_of fromstring f1 name true false = Some m1 /\
     write_to_file H W T tostring m1 name' f1 = Some f2 /\
     read_meta H W T wcs_of fromstring f2 name' true true = Some m2 /\ wcs _ _ m2 = Some ws /\ get2 ws b e = Some (wcs_of h)).
Proof.
  intros name name' b e h h' w f J J' N. split.
  - unfold write_to_file. rewrite J. eexists _, _, _. split; [reflexivity|]. split; [reflexivity|].
    unfold read_meta. cbn [jsons asdfs]. rewrite !get_put, !String.eqb_refl.
    assert (G2 : forall V (v : V), get2 [(b, [(e, v)])] b e = Some v).
    { intros V v. unfold get2. cbn [get]. rewrite String.eqb_refl. cbn [get]. rewrite String.eqb_refl. reflexivity. }
    cbn [tree headers add_all fold_left add_exposure new_meta fst snd put2 get put map asdfs]. rewrite get_put, String.eqb_refl.
    unfold populate. cbn [mapM fst snd map]. rewrite G2. cbn [option_map]. split; [reflexivity|]. cbn [headers wcs]. rewrite G2, round_trip. split; [reflexivity|].
    eexists. split; [reflexivity|]. apply G2.
  - intros NE. unfold write_to_file. rewrite J, J'. eexists _, _, _, _, _. split; [reflexivity|].
    unfold read_meta. cbn [jsons asdfs]. rewrite !get_put, !String.eqb_refl. split; [reflexivity|]. cbn [tree headers]. split; [reflexivity|].
    cbn [jsons asdfs]. rewrite !get_put, !String.eqb_refl.
    assert (G2 : forall V (v : V), get2 [(b, [(e, v)])] b e = Some v).
    { intros V v. unfold get2. cbn [get]. rewrite String.eqb_refl. cbn [get]. rewrite String.eqb_refl. reflexivity. }
    cbn [tree headers add_all fold_left add_exposure new_meta fst snd put2 get put map asdfs]. rewrite get_put.
    destruct (String.eqb_spec (replace ".json" ".asdf" name) (replace ".json" ".asdf" name')) as [X|_]; [contradiction|].
    rewrite N. unfold populate. cbn [mapM fst snd map option_map]. split; [reflexivity|]. cbn [wcs]. split; [reflexivity|]. rewrite G2, !round_trip. reflexivity.
Qed.
Print Assumptions C59_gwcs_refuted.

(** ** The table *)
Context {C : Type} (cell : string -> H -> C) (crval : H -> option (C * C)).
Lemma get_map_cols (cols : list string) h c : In c cols -> get (map (fun c => (c, cell c h)) cols) c = Some (cell c h).
Proof. induction cols as [|q cols IH]; [intros []|]. cbn. destruct (String.eqb_spec q c) as [->|]; [reflexivity|]. intros [E|E]; [congruence | apply IH, E]. Qed.
(** One row for each exposure, in the order of the store, with its own values; ra and dec are the reference coordinates; it is
    made if every header has them. *)
Theorem C59_table : forall cols (m : meta), let hs := concat (map (fun be => map snd (snd be)) (headers _ _ m)) in
  ((exists rows, to_table H W C cell crval cols m = Some rows) <-> (forall h, In h hs -> crval h <> None)) /\
  (forall rows, to_table H W C cell crval cols m = Some rows ->
     List.length rows = nexp H W m /\
     forall i h, nth_error hs i = Some h -> exists row ra dec, nth_error rows i = Some row /\ crval h = Some (ra, dec) /\
       get row "ra" = Some ra /\ get row "dec" = Some dec /\
       forall c, In c cols -> c <> "ra"%string -> c <> "dec"%string -> get row c = Some (cell c h)).
Proof.
  intros cols m hs. unfold to_table. fold hs. split; [split|].
  - intros (rows & E) h Hh K. apply (mapM_defined _ hs rows E h Hh). unfold table_row. rewrite K. reflexivity.
  - intros A. apply mapM_total. intros h Hh. unfold table_row. destruct (crval h) as [[ra dec]|] eqn:K; [eexists; reflexivity | exfalso; exact (A h Hh K)].
  - intros rows E. split.
    + rewrite (mapM_length _ _ _ E). rewrite nexp_total. unfold total, hs. clear.
      induction (headers _ _ m) as [|[b x] d IH]; [reflexivity|]. cbn [map concat snd]. rewrite app_length, map_length, IH. reflexivity.
    + intros i h Hi. destruct (proj2 (mapM_nth _ hs rows E) i h Hi) as (row & Hr & K). rewrite Hr.
      unfold table_row in K. destruct (crval h) as [[ra dec]|] eqn:Cr; [|discriminate K]. injection K as K. subst row.
      eexists _, ra, dec. split; [reflexivity|]. split; [reflexivity|]. rewrite !get_put. cbn. split; [reflexivity|]. split; [reflexivity|].
      intros c Hc N1 N2. rewrite !get_put. destruct (String.eqb_spec "dec" c); [congruence|]. destruct (String.eqb_spec "ra" c); [congruence|]. apply get_map_cols, Hc.
Qed.
Print Assumptions C59_table.
End Meta.

(** The calibrated value of [c] counts with zero point [zp] is the flux in nJy of its magnitude zp - 2.5 log10 c, so
    that it is the same in every exposure of the source, and its significance does not change. *)
Theorem C59_flux : forall zp c, (0 < c)%R -> let mag := (zp - 25 / 10 * (ln c / ln 10))%R in
  let (conv, unit) := flux_calibration (Some zp) in
  unit = "nJy"%string /\ (0 < conv)%R /\ (c * conv = Rpower 10 ((314 / 10 - mag) / (25 / 10)))%R /\
  forall ierr, ((c * conv) * (ierr * (1 / conv)) = c * ierr)%R.
Proof.
  intros zp c Hc mag. cbn [flux_calibration].
  assert (L : (0 < ln 10)%R) by (rewrite <- ln_1; apply ln_increasing; lra).
  assert (P : (0 < 10 ^ 9 * Rpower 10 (4 / 10 * (89 / 10 - zp)))%R) by (apply Rmult_lt_0_compat; [lra | apply exp_pos]).
  split; [reflexivity|]. split; [exact P|]. split.
  - assert (E : (10 ^ 9)%R = Rpower 10 9).
    { rewrite <- (Rpower_pow 9 10) by lra. f_equal. cbn. lra. }
    rewrite E. assert (E2 : c = Rpower 10 (ln c / ln 10)).
    { unfold Rpower. replace (ln c / ln 10 * ln 10)%R with (ln c) by (field; lra). symmetry. apply exp_ln, Hc. }
    rewrite E2 at 1. rewrite <- !Rpower_plus. f_equal. unfold mag. field. lra.
  - intros ierr. field. lra.
Qed.
Print Assumptions C59_flux.

