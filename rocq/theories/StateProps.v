(** C63: the state of a run on disk, and the catalog for the next run. *)
From Coq Require Import List String Ascii Bool Arith ZArith QArith Lia.
From Verif Require Import Np NpFacts SuperSceneModel SuperSceneSpec SuperSceneHist SuperSceneProps IdentModel IdentFacts CatalogModel CatalogFacts StateModel StateFacts.
Import ListNotations.
Open Scope nat_scope.

(** ** Writing *)
Lemma log_name stem : contains ".fits" stem = false -> replace ".fits" "_log.json" (stem ++ ".fits") = (stem ++ "_log.json")%string.
Proof. apply replace_ending. Qed.
Lemma cat_not_log a b : (a ++ ".fits")%string <> (b ++ "_log.json")%string.
Proof.
  intros E. change "_log.json"%string with ("_log" ++ ".json")%string in E. rewrite <- sapp_assoc in E. now destruct (sapp_inv_tail _ _ _ _ E eq_refl) as [_ K].
Qed.

(** After leaving the with block, by an exception or not, the catalog stands under the name of the state file, the log
    beside it; the exception passes, and nothing else on disk has changed *)
Theorem C63_written E d names stem (s : state) (err : option E) : contains ".fits" stem = false ->
  let f := (stem ++ ".fits")%string in
  let r := with_scene d f names (s, err) in
  snd r = err /\ fst r f = Some (Cat (mkTable names (sourcecat s)) [] None) /\
  (exists log, fst r (stem ++ "_log.json")%string = Some (Log log (patchlog s)) /\ List.length log = List.length (sourcelog s)) /\
  forall g, g <> f -> g <> (stem ++ "_log.json")%string -> fst r g = d g.
Proof.
  intros Hs f r. unfold r, with_scene, writeout. cbn [fst snd]. unfold f. rewrite (log_name _ Hs). split; [reflexivity|].
  split; [rewrite save_other by apply cat_not_log; apply save_same|]. split.
  - exists (json_log (sourcelog s)). split; [apply save_same|apply map_length].
  - intros g H1 H2. now rewrite !save_other.
Qed.
(** A state file whose name does not contain ".fits" is overwritten by the log: the catalog is lost *)
Theorem C63_overwritten_refuted d names f s : contains ".fits" f = false ->
  exists log, writeout d f None names s f = Some (Log log (patchlog s)).
Proof. intros H. unfold writeout. rewrite (replace_none _ _ _ H). eexists. apply save_same. Qed.

(** ** Reading *)
(** What run_metadata returns for the directory of a run in progress: the catalog as it is, the tasks in the order of
    their return, and for every source the tasks it came back from *)
Theorem C63_metadata e c cat b covs evs s out d root stem conf names :
  env_ok (List.length cat) e -> history e c (ingest cat b covs) evs s out ->
  contains ".fits" (root ++ "/" ++ stem) = false ->
  d (root ++ "/config.json")%string = Some (Conf conf) ->
  (lookup conf "scene_catalog" = Some (Some (stem ++ ".fits")%string) \/ (lookup conf "scene_catalog" = None /\ stem = "superscene"%string)) ->
  exists slog, run_metadata (writeout d (root ++ "/" ++ stem ++ ".fits") None names s) root = Some (conf, all_labels evs, slog, mkTable names (sourcecat s)) /\
    NoDup (map fst slog) /\
    (forall j, labels_of j evs <> [] -> lookup slog (text j) = Some (labels_of j evs)) /\
    (forall j, labels_of j evs = [] -> lookup slog (text j) = None) /\
    (forall k, In k (map fst slog) -> exists j, k = text j).
Proof.
  intros He H Hs Hd Hc. pose proof (history_good _ _ _ _ _ _ _ _ H) as G. destruct (totals_lemma _ _ _ _ _ _ _ _ He H) as (_ & Hl & Hp & _).
  assert (Ef : (root ++ "/" ++ stem ++ ".fits")%string = ((root ++ "/" ++ stem) ++ ".fits")%string) by (now rewrite !sapp_assoc).
  assert (Hst : contains ".fits" stem = false) by (apply contains_suffix in Hs; now apply contains_suffix in Hs).
  exists (json_log (sourcelog s)). split.
  - unfold run_metadata, writeout. rewrite Ef, (log_name _ Hs).
    assert (C1 : (root ++ "/config.json")%string <> ((root ++ "/" ++ stem) ++ "_log.json")%string).
    { rewrite !sapp_assoc. intros E. apply sapp_inv_head in E. cbn [String.append] in E. injection E as E.
      change "_log.json"%string with ("_log" ++ ".json")%string in E. change "config.json"%string with ("co" ++ "nfig.json")%string in E.
      change "_log.json"%string with ("_log.json" ++ "")%string in E.
      destruct (sapp_inv_tail "co" stem "nfig.json" ("_log" ++ ".json") E eq_refl) as [_ K]. discriminate. }
    assert (C2 : (root ++ "/config.json")%string <> ((root ++ "/" ++ stem) ++ ".fits")%string).
    { rewrite !sapp_assoc. intros E. apply sapp_inv_head in E. cbn [String.append] in E. injection E as E.
      change "config.json"%string with ("config" ++ ".json")%string in E. destruct (sapp_inv_tail "config" stem ".json" ".fits" E eq_refl) as [_ K]. discriminate. }
    rewrite save_other by exact C1. rewrite save_other by exact C2. rewrite Hd.
    assert (Es : match lookup conf "scene_catalog" with None => Some "superscene.fits"%string | Some v => v end = Some (stem ++ ".fits")%string).
    { destruct Hc as [-> | [-> ->]]; reflexivity. }
    rewrite Es, (replace_ending "" stem Hst), sapp_nil.
    assert (L : (root ++ "/" ++ stem ++ "_log.json")%string = ((root ++ "/" ++ stem) ++ "_log.json")%string) by (now rewrite !sapp_assoc).
    rewrite L, Ef, save_same. rewrite save_other by apply cat_not_log. now rewrite save_same, Hp.
  - destruct G as [N G0]. assert (G : good_log (sourcelog s)) by now split. split; [|split; [|split]].
    + unfold json_log. rewrite map_map. cbn [fst]. rewrite <- (map_map fst text). clear - N. induction (map fst (sourcelog s)) as [|a l IH]; [constructor|].
      inversion N; subst. cbn [map]. constructor; [|now apply IH]. intros I. apply in_map_iff in I. destruct I as (x & E & I). apply text_inj in E. now subst.
    + intros j Hj. rewrite (lookup_json _ _ N). rewrite <- Hl in Hj |- *. apply (log_keys _ _ G) in Hj. now rewrite Hj.
    + intros j Hj. rewrite (lookup_json _ _ N). destruct (existsb (Nat.eqb j) (map fst (sourcelog s))) eqn:E; [|reflexivity].
      apply (log_keys _ _ G) in E. now rewrite Hl in E.
    + intros k Hk. unfold json_log in Hk. rewrite map_map in Hk. apply in_map_iff in Hk. destruct Hk as ([j v] & E & _). now exists j.
Qed.
(** A directory whose name contains ".fits": the log goes to another directory, and the run cannot be read back *)
Theorem C63_directory_refuted d root stem conf names s : contains ".fits" root = true -> contains ".fits" stem = false ->
  d (root ++ "/config.json")%string = Some (Conf conf) -> lookup conf "scene_catalog" = Some (Some (stem ++ ".fits")%string) ->
  d (root ++ "/" ++ stem ++ "_log.json")%string = None ->
  run_metadata (writeout d (root ++ "/" ++ stem ++ ".fits") None names s) root = None.
Proof.
  intros Hr Hs Hd Hc Hn. unfold run_metadata, writeout.
  assert (R : replace ".fits" "_log.json" (root ++ "/" ++ stem ++ ".fits") = (replace ".fits" "_log.json" root ++ "/" ++ stem ++ "_log.json")%string).
  { unfold replace. change (root ++ "/" ++ stem ++ ".fits")%string with (root ++ String "/" (stem ++ ".fits"))%string.
    rewrite (replace_slash "." "fits" "_log.json" eq_refl root 0 (stem ++ ".fits") ltac:(lia)). pose proof (replace_ending "_log.json" stem Hs) as X. unfold replace in X. now rewrite X. }
  pose proof (replace_longer "_log.json" root ltac:(cbn; lia) Hr) as L.
  assert (C1 : (root ++ "/config.json")%string <> (replace ".fits" "_log.json" root ++ "/" ++ stem ++ "_log.json")%string).
  { intros E. replace (replace ".fits" "_log.json" root ++ "/" ++ stem ++ "_log.json")%string with ((replace ".fits" "_log.json" root ++ "/" ++ stem) ++ "_log.json")%string in E by now rewrite !sapp_assoc.
    change (root ++ "/config.json")%string with (root ++ "/co" ++ "nfig.json")%string in E. rewrite <- sapp_assoc in E.
    destruct (sapp_inv_tail _ _ _ _ E eq_refl) as [_ K]. discriminate. }
  assert (C2 : (root ++ "/config.json")%string <> (root ++ "/" ++ stem ++ ".fits")%string).
  { intros E. apply sapp_inv_head in E. cbn [String.append] in E. injection E as E.
    change "config.json"%string with ("config" ++ ".json")%string in E. destruct (sapp_inv_tail "config" stem ".json" ".fits" E eq_refl) as [_ K]. discriminate. }
  assert (C3 : (root ++ "/" ++ stem ++ "_log.json")%string <> (replace ".fits" "_log.json" root ++ "/" ++ stem ++ "_log.json")%string).
  { intros E. apply (f_equal String.length) in E. rewrite !sapp_length in E. lia. }
  assert (C4 : (root ++ "/" ++ stem ++ "_log.json")%string <> (root ++ "/" ++ stem ++ ".fits")%string).
  { intros E. apply (f_equal String.length) in E. rewrite !sapp_length in E. cbn in E. lia. }
  rewrite R. rewrite save_other by exact C1. rewrite save_other by exact C2. rewrite Hd, Hc, (replace_ending "" stem Hs), sapp_nil.
  rewrite (save_other _ _ _ _ C3), (save_other _ _ _ _ C4), Hn. reflexivity.
Qed.

(** ** The next run *)
Definition same_row (r r' : row) : Prop :=
  source_index r' = source_index r /\ is_active r' = is_active r /\ is_valid r' = is_valid r /\ n_iter r' = 0%Z /\ n_patch r' = 0%Z.
(** The ranges to which a catalog is brought when it is read, see clip_column *)
Definition within (r : row) : Prop :=
  (forall v, getcol r "rhalf" = Some v -> (51 # 1000) <= v <= (29 # 100))%Q /\ (forall v, getcol r "q" = Some v -> (2 # 10) <= v <= (99 # 100))%Q /\
  (forall v, getcol r "sersic" = Some v -> (101 # 100) <= v <= (499 # 100))%Q /\ (forall v, getcol r "pa" = Some v -> (-2) <= v <= 2)%Q.

Theorem C63_next d root listing unc bands catname d' out t h e2 f fs sb raw :
  postop_catalog d root listing unc (Some bands) catname = Some (d', out) ->
  d (root ++ "/patches/patch0_samples.h5")%string = Some (Samp sb raw) ->
  globbed listing = f :: fs -> d (root ++ "/" ++ f)%string = Some (Cat t h e2) ->
  bands <> [] -> (forall b, In b bands -> plain b) -> NoDup (reserved ++ ["id"; "roi"]%string ++ shape_cols ++ bands) ->
  (forall n, In n (shape_cols ++ bands) -> In n (t_names t)) ->
  (forall r n, In r (t_rows t) -> In n (t_names t) -> getcol r n <> None) ->
  exists rows hdr, rectify_catalog d' out = Some (rows, bands, hdr) /\
    Forall2 (fun r r' => same_row r r' /\
      (forall n, In n (["ra"; "dec"]%string ++ bands) -> getcol r' n = getcol r n) /\
      (within r -> forall n, In n (shape_cols ++ bands) -> getcol r' n = getcol r n)) (t_rows t) rows.
Proof.
  intros H Hp Hg Hf Nb Pb Nd Hn Hr. unfold postop_catalog in H. rewrite Hp, Hg, Hf in H.
  match type of H with match ?x with _ => _ end = _ => destruct x as [[h1 e1]|]; [|discriminate] end. injection H as <- <-.
  unfold rectify_catalog. rewrite save_same. rewrite lookup_hset. cbn [String.eqb Ascii.eqb Bool.eqb].
  assert (S1 : map strip (split_commas "" (join_commas bands)) = bands).
  { rewrite split_join by assumption. rewrite <- (map_id bands) at 2. apply map_ext_in. intros b Hb. now apply strip_plain, Pb. }
  rewrite S1. cbn [t_names t_rows].
  assert (K : forall l, (forall n, In n l -> In n (shape_cols ++ bands)) -> forallb (fun n => existsb (String.eqb n) (t_names t ++ reserved)) l = true).
  { intros l Hl. apply forallb_forall. intros n I. apply existsb_str, in_or_app. left. apply Hn, Hl, I. }
  assert (D : distinct (reserved ++ dtype_names bands) = true) by now apply distinct_nodup.
  rewrite (K bands), (K shape_cols), D by (intros n I; apply in_or_app; auto). cbn [andb].
  eexists _, _. split; [reflexivity|]. rewrite map_map.
  assert (F : forall l, (forall r, In r l -> In r (t_rows t)) -> Forall2 (fun r r' => same_row r r' /\ (forall n, In n (["ra"; "dec"]%string ++ bands) -> getcol r' n = getcol r n) /\
      (within r -> forall n, In n (shape_cols ++ bands) -> getcol r' n = getcol r n)) l (map (fun x => rectify_row bands (zero_counts x)) l)).
  { induction l as [|r l IH]; intros Hl; cbn [map]; constructor; [|apply IH; intros x I; apply Hl; now right]. clear IH.
    assert (Ir : In r (t_rows t)) by (apply Hl; now left). split; [repeat split|].
    assert (G : forall n, In n (shape_cols ++ bands) -> exists v, getcol r n = Some v /\ getcol (rectify_row bands (zero_counts r)) n = Some (clip_column n v)).
    { intros n I. destruct (getcol r n) as [v|] eqn:Ev; [|exfalso; apply (Hr r n Ir); auto]. exists v. split; [reflexivity|]. rewrite rectify_col.
      assert (I2 : existsb (String.eqb n) (dtype_names bands) = true) by (apply existsb_str; unfold dtype_names; apply in_or_app; now right). rewrite I2.
      change (getcol (zero_counts r) n) with (getcol r n). now rewrite Ev. }
    assert (Nsh : forall b, In b bands -> ~ In b shape_cols).
    { intros b Ib Is. rewrite !app_assoc in Nd. apply NoDup_app_iff in Nd. destruct Nd as (_ & _ & X). apply (X b); [|assumption]. apply in_or_app. now right. }
    split.
    - intros n I. destruct (G n) as (v & Ev & Er). { apply in_app_or in I. destruct I as [I|I]; [|apply in_or_app; now right]. apply in_or_app. left. destruct I as [<-|[<-|[]]]; cbn; auto. }
      rewrite Er, Ev. f_equal. unfold clip_column.
      assert (NS : forall m, In m ["rhalf"; "q"; "sersic"; "pa"]%string -> n <> m).
      { intros m Im ->. apply in_app_or in I. destruct I as [I|I].
        - destruct I as [<-|[<-|[]]]; cbn in Im; intuition discriminate.
        - apply (Nsh m I). cbn in Im |- *. intuition subst; auto 10. }
      destruct (String.eqb_spec n "rhalf") as [E|_]; [exfalso; apply (NS "rhalf"%string); cbn; auto|].
      destruct (String.eqb_spec n "q") as [E|_]; [exfalso; apply (NS "q"%string); cbn; auto|].
      destruct (String.eqb_spec n "sersic") as [E|_]; [exfalso; apply (NS "sersic"%string); cbn; auto|].
      destruct (String.eqb_spec n "pa") as [E|_]; [exfalso; apply (NS "pa"%string); cbn; auto|]. reflexivity.
    - intros (W1 & W2 & W3 & W4) n I. destruct (G n I) as (v & Ev & Er). rewrite Er, Ev. f_equal. unfold clip_column.
      destruct (String.eqb_spec n "rhalf") as [->|_]; [now apply clip_id; apply W1|].
      destruct (String.eqb_spec n "q") as [->|_]; [now apply clip_id; apply W2|].
      destruct (String.eqb_spec n "sersic") as [->|_]; [now apply clip_id; apply W3|].
      destruct (String.eqb_spec n "pa") as [->|_]; [now apply clip_id; apply W4|]. reflexivity. }
  apply F. auto.
Qed.
(** A fitted half-light radius below 0.051 arcsec, which the default bounds allow down to 0.03, is lost *)
Theorem C63_clipped_refuted d f t h e v rows bands hdr : d f = Some (Cat t h e) -> rectify_catalog d f = Some (rows, bands, hdr) ->
  forall j r, nth_error (t_rows t) j = Some r -> getcol r "rhalf" = Some v -> (v < 51 # 1000)%Q ->
    exists r', nth_error rows j = Some r' /\ getcol r' "rhalf" = Some (51 # 1000)%Q.
Proof.
  intros Hd H j r Hj Hv Hl. unfold rectify_catalog in H. rewrite Hd in H. destruct (lookup h "FILTERS") as [w|]; [|discriminate].
  match type of H with (if ?x then _ else _) = _ => destruct x; [|discriminate] end. injection H as <- <- <-.
  rewrite nth_error_map, Hj. eexists. split; [reflexivity|]. rewrite rectify_col. cbn [existsb dtype_names app String.eqb Ascii.eqb Bool.eqb orb shape_cols].
  rewrite Hv. f_equal. unfold clip_column. cbn [String.eqb Ascii.eqb Bool.eqb]. unfold clip. destruct (Qlt_le_dec v (51 # 1000)) as [_|K]; [|exfalso; apply (Qlt_not_le _ _ Hl K)].
  destruct (Qlt_le_dec (29 # 100) (51 # 1000)) as [K|_]; [exfalso; revert K; now apply Qle_not_lt|reflexivity].
Qed.
(** Without the samples of patch 0 nothing is written, though nothing of them is needed when bands and name are given;
    the dispatcher numbers its tasks from 1 *)
Theorem C63_patch0_refuted d root listing unc bands out : d (root ++ "/patches/patch0_samples.h5")%string = None ->
  postop_catalog d root listing unc (Some bands) (Some out) = None.
Proof. intros H. unfold postop_catalog. now rewrite H. Qed.
(** A raw catalog whose name does not contain ".fits" is overwritten *)
Theorem C63_raw_refuted d root listing unc bands d' out sb raw : d (root ++ "/patches/patch0_samples.h5")%string = Some (Samp sb raw) ->
  contains ".fits" raw = false -> postop_catalog d root listing unc bands None = Some (d', out) ->
  out = raw /\ exists t h e, d' raw = Some (Cat t h e) /\ lookup h "POSTOP" = Some "T"%string.
Proof.
  intros Hp Hc H. unfold postop_catalog in H. rewrite Hp in H. rewrite (replace_none _ _ _ Hc) in H. destruct (globbed listing) as [|f fs]; [discriminate|].
  destruct (d (root ++ "/" ++ f)%string) as [[t h e| | |]|]; try discriminate.
  match type of H with match ?x with _ => _ end = _ => destruct x as [[h1 e1]|]; [|discriminate] end. injection H as <- <-. split; [reflexivity|].
  eexists _, _, _. rewrite save_same. split; [reflexivity|]. rewrite !lookup_hset. reflexivity.
Qed.
