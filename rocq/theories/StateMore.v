(** C63: writing elsewhere, the name and the rows of the next catalog, the ranges. *)
From Coq Require Import List String Ascii Bool Arith ZArith QArith Lia.
From Verif Require Import Np NpFacts SuperSceneModel SuperSceneSpec SuperSceneExamples IdentModel IdentFacts CatalogModel StateModel StateFacts StateProps StateCase.
Import ListNotations.
Open Scope nat_scope.

(** A file name given to writeout is used for both files, and nothing else is written *)
Theorem C63_elsewhere d statefile names stem s : contains ".fits" stem = false ->
  let d' := writeout d statefile (Some (stem ++ ".fits")%string) names s in
  d' (stem ++ ".fits")%string = Some (Cat (mkTable names (sourcecat s)) [] None) /\
  (exists log, d' (stem ++ "_log.json")%string = Some (Log log (patchlog s))) /\
  forall g, g <> (stem ++ ".fits")%string -> g <> (stem ++ "_log.json")%string -> d' g = d g.
Proof.
  intros Hs d'. unfold d', writeout. rewrite (replace_ending _ _ Hs). split.
  - rewrite save_other; [apply save_same|]. intros E. apply (f_equal String.length) in E. rewrite !sapp_length in E. cbn in E. lia.
  - split; [eexists; apply save_same|]. intros g H1 H2. now rewrite !save_other.
Qed.
(** Without a name for it the next catalog is written beside the raw one, which is left alone *)
Theorem C63_beside d root listing unc bands d' out sb stem : d (root ++ "/patches/patch0_samples.h5")%string = Some (Samp sb (stem ++ ".fits")) ->
  contains ".fits" stem = false -> postop_catalog d root listing unc bands None = Some (d', out) ->
  out = (stem ++ "_postop.fits")%string /\ (exists t h e, d' out = Some (Cat t h e)) /\ (forall g, g <> out -> d' g = d g) /\
  d' (stem ++ ".fits")%string = d (stem ++ ".fits")%string.
Proof.
  intros Hp Hc H. unfold postop_catalog in H. rewrite Hp, (replace_ending _ _ Hc) in H. destruct (globbed listing) as [|f fs]; [discriminate|].
  destruct (d (root ++ "/" ++ f)%string) as [[t h e| | |]|]; try discriminate.
  match type of H with match ?x with _ => _ end = _ => destruct x as [[h1 e1]|]; [|discriminate] end. injection H as <- <-. split; [reflexivity|].
  split; [eexists _, _, _; apply save_same|]. assert (X : forall g, g <> (stem ++ "_postop.fits")%string -> forall y, save d (stem ++ "_postop.fits") y g = d g).
  { intros g Hg y. now apply save_other. }
  split; [intros g Hg; now apply X|]. apply X. intros E. apply (f_equal String.length) in E. rewrite !sapp_length in E. cbn in E. lia.
Qed.

Lemma ends_with_spec suf s : ends_with suf s = true <-> exists p, s = (p ++ suf)%string.
Proof.
  induction s as [|c s IH]; cbn [ends_with]; rewrite orb_true_iff, String.eqb_eq.
  - split; [intros [->|H]; [now exists ""%string|discriminate]|]. intros (p & E). left. destruct p; [exact (eq_sym E)|discriminate].
  - rewrite IH. split.
    + intros [->|(p & ->)]; [now exists ""%string|]. now exists (String c p).
    + intros ([|a p] & E); [left; exact (eq_sym E)|]. right. injection E as -> ->. now exists p.
Qed.
(** The rows of the next catalog are those of the first FITS file in the order of the directory, hidden files left
    out, with no iterations and no patches *)
Theorem C63_first d root pre f post unc bands catname d' out t h e : 
  (forall n, In n pre -> prefix "." n = true \/ ~ exists p, n = (p ++ "fits")%string) ->
  (exists p, f = (p ++ "fits")%string) -> prefix "." f = false -> d (root ++ "/" ++ f)%string = Some (Cat t h e) ->
  postop_catalog d root (pre ++ f :: post) unc bands catname = Some (d', out) ->
  exists rows h' e', d' out = Some (Cat (mkTable (t_names t) rows) h' e') /\
    Forall2 (fun r r' => source_index r' = source_index r /\ is_active r' = is_active r /\ is_valid r' = is_valid r /\
                         n_iter r' = 0%Z /\ n_patch r' = 0%Z /\ forall n, getcol r' n = getcol r n) (t_rows t) rows.
Proof.
  intros Hpre Hf Hd Ht H. unfold postop_catalog in H. destruct (d (root ++ "/patches/patch0_samples.h5")%string) as [[| | |sb raw]|]; try discriminate.
  assert (G : globbed (pre ++ f :: post) = f :: globbed post).
  { unfold globbed. rewrite filter_app. cbn [filter]. rewrite (proj2 (ends_with_spec _ _) Hf), Hd. cbn [andb negb].
    assert (E : filter (fun n => ends_with "fits" n && negb (prefix "." n)) pre = []).
    { clear -Hpre. induction pre as [|n l IH]; [reflexivity|]. cbn [filter]. rewrite IH by (intros m Hm; apply Hpre; now right).
      destruct (Hpre n (or_introl eq_refl)) as [K|K]; [now rewrite K, andb_false_r|].
      destruct (ends_with "fits" n) eqn:E; [|reflexivity]. exfalso. apply K. now apply ends_with_spec. }
    rewrite E. reflexivity. }
  rewrite G, Ht in H.
  match type of H with match ?x with _ => _ end = _ => destruct x as [[h1 e1]|]; [|discriminate] end. injection H as <- <-.
  eexists _, _, _. split; [apply save_same|]. clear. induction (t_rows t) as [|r l IH]; constructor; auto. repeat split.
Qed.
(** Every shape column is brought to its range, at either end, when a catalog is read *)
Theorem C63_ranges d f t h e rows bands hdr n lo hi : d f = Some (Cat t h e) -> rectify_catalog d f = Some (rows, bands, hdr) ->
  In (n, (lo, hi)) [("rhalf", (51 # 1000, 29 # 100)); ("q", (2 # 10, 99 # 100)); ("sersic", (101 # 100, 499 # 100)); ("pa", (-2 # 1, 2 # 1))]%Q%string ->
  forall j r v, nth_error (t_rows t) j = Some r -> getcol r n = Some v ->
    exists r' v', nth_error rows j = Some r' /\ getcol r' n = Some v' /\
      ((v < lo)%Q -> v' = lo) /\ ((hi < v)%Q -> v' = hi) /\ ((lo <= v <= hi)%Q -> v' = v).
Proof.
  intros Hd H Hin j r v Hj Hv. unfold rectify_catalog in H. rewrite Hd in H. destruct (lookup h "FILTERS") as [w|]; [|discriminate].
  match type of H with (if ?x then _ else _) = _ => destruct x; [|discriminate] end. injection H as <- <- <-.
  rewrite nth_error_map, Hj. set (bands := map strip (split_commas "" w)). exists (rectify_row bands r), (clip_column n v). split; [reflexivity|].
  assert (In2 : existsb (String.eqb n) (dtype_names bands) = true).
  { apply existsb_str. unfold dtype_names. apply in_or_app. right. apply in_or_app. left.
    cbn in Hin. unfold shape_cols. destruct Hin as [E|[E|[E|[E|[]]]]]; injection E as <- _ _; cbn; tauto. }
  split. { rewrite rectify_col, In2, Hv. reflexivity. }
  assert (E : clip_column n v = clip lo hi v /\ (lo <= hi)%Q).
  { cbn in Hin. destruct Hin as [E|[E|[E|[E|[]]]]]; injection E as <- <- <-; split; try reflexivity; unfold Qle; cbn; lia. }
  destruct E as (-> & Hlh). unfold clip. split; [|split].
  - intros K. destruct (Qlt_le_dec v lo) as [_|K']; [|exfalso; exact (Qlt_not_le _ _ K K')].
    destruct (Qlt_le_dec hi lo) as [K'|_]; [exfalso; exact (Qlt_not_le _ _ K' Hlh)|reflexivity].
  - intros K. destruct (Qlt_le_dec v lo) as [K'|_].
    + exfalso. apply (Qlt_not_le _ _ K). apply Qlt_le_weak. eapply Qlt_le_trans; eauto.
    + destruct (Qlt_le_dec hi v) as [_|K']; [reflexivity|exfalso; exact (Qlt_not_le _ _ K K')].
  - intros (K1 & K2). exact (clip_id _ _ _ K1 K2).
Qed.
Print Assumptions C63_elsewhere. Print Assumptions C63_beside. Print Assumptions C63_first. Print Assumptions C63_ranges.

Example elsewhere_case : writeout ex_disk "run/outscene.fits" (Some "copy.fits"%string) ex_names ex_s3 "run/outscene.fits"%string = None /\
  writeout ex_disk "run/outscene.fits" (Some "copy.fits"%string) ex_names ex_s3 "copy.fits"%string = Some (Cat (mkTable ex_names (sourcecat ex_s3)) [] None).
Proof.
  destruct (C63_elsewhere ex_disk "run/outscene.fits" ex_names "copy" ex_s3 eq_refl) as (A & _ & B). split; [|exact A].
  exact (B "run/outscene.fits"%string ltac:(discriminate) ltac:(discriminate)).
Qed.
Example beside_case : exists d', postop_catalog ex_after "run" ["outscene.fits"]%string NoAttribute None None = Some (d', "raw_postop.fits"%string).
Proof. eexists. reflexivity. Qed.
Example first_case : exists rows h e, (match postop_catalog stale "run" ["config.json"; ".old.fits"; "outscene.fits"; "initial.fits"]%string NoAttribute None (Some "next.fits"%string) with
    | Some (d, _) => d "next.fits"%string | None => None end) = Some (Cat (mkTable ex_names rows) h e) /\ map n_iter rows = [0; 0; 0; 0]%Z.
Proof.
  destruct (postop_catalog stale "run" ["config.json"; ".old.fits"; "outscene.fits"; "initial.fits"]%string NoAttribute None (Some "next.fits"%string)) as [[d' out]|] eqn:E; [|discriminate].
  assert (Eo : out = "next.fits"%string) by (injection E as _ <-; reflexivity).
  destruct (C63_first stale "run" ["config.json"; ".old.fits"]%string "outscene.fits" ["initial.fits"]%string NoAttribute None (Some "next.fits"%string) d' out
    (mkTable ex_names (sourcecat ex_s3)) [] None) as (rows & h & e & A & B).
  - intros n [<-|[<-|[]]]; [right|now left]. intros (p & K). assert (X : ends_with "fits" "config.json" = true) by (apply ends_with_spec; eauto). discriminate.
  - now exists "outscene."%string.
  - reflexivity.
  - reflexivity.
  - exact E.
  - exists rows, h, e. split; [now rewrite Eo in A|]. clear -B. cbn [t_rows] in B.
    assert (X : map n_iter rows = map (fun _ => 0%Z) (sourcecat ex_s3)) by (induction B as [|r r' l l' H _ IH]; cbn; [reflexivity|]; destruct H as (_ & _ & _ & -> & _); congruence).
    exact X.
Qed.
Example ranges_case : exists rows bands hdr r', let t := mkTable ex_names [ex_row 0 (31 # 100)] in
  rectify_catalog (save ex_disk "c.fits" (Cat t [("FILTERS", "F200W")]%string None)) "c.fits" = Some (rows, bands, hdr) /\ nth_error rows 0 = Some r' /\ getcol r' "rhalf" = Some (29 # 100)%Q.
Proof. eexists _, _, _, _. intros t. split; [vm_compute; reflexivity|]. split; reflexivity. Qed.
