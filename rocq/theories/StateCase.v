(** C63: cases, and what depends on the file system. *)
From Coq Require Import List String Ascii Bool Arith ZArith QArith Lia.
From Verif Require Import Np NpFacts SuperSceneModel SuperSceneSpec SuperSceneHist SuperSceneExamples IdentModel CatalogModel StateModel StateFacts StateProps.
Import ListNotations.
Open Scope nat_scope.

Definition ex_names : list string := ["F200W"; "ra"; "dec"; "q"; "pa"; "sersic"; "rhalf"; "extra"]%string.
Definition ex_conf : file := Conf [("scene_catalog", Some "outscene.fits")]%string.
Definition ex_disk : disk := save (save (fun _ => None) "run/config.json" ex_conf) "run/patches/patch0_samples.h5" (Samp ["F200W"%string] "raw.fits").
Definition ex_after : disk := writeout ex_disk "run/outscene.fits" None ex_names ex_s3.

(** A run in the middle of its work, read back *)
Example read_back : exists slog, run_metadata ex_after "run" = Some ([("scene_catalog", Some "outscene.fits")]%string, ["patch1"%string], slog, mkTable ex_names (sourcecat ex_s3)) /\
  lookup slog "0" = Some ["patch1"%string] /\ lookup slog "2" = None.
Proof.
  destruct (C63_metadata ex_env ex_config ex_cat [[]; []; []; []] [[]; []; []; []] ex_history ex_s3 [ex_p2] ex_disk "run" "outscene" [("scene_catalog", Some "outscene.fits")]%string ex_names (line_env_ok ex_xs) ex_history_ok eq_refl eq_refl (or_introl eq_refl)) as (slog & E & _ & L1 & L2 & _).
  exists slog. split; [exact E|]. split; [apply (L1 0); discriminate|apply (L2 2); reflexivity].
Qed.
Example written_case : let r := with_scene ex_disk "run/outscene.fits" ex_names (ex_s3, Some "interrupted"%string) in
  snd r = Some "interrupted"%string /\ fst r "run/outscene.fits"%string = Some (Cat (mkTable ex_names (sourcecat ex_s3)) [] None) /\ fst r "run/config.json"%string = Some ex_conf.
Proof.
  destruct (C63_written _ ex_disk ex_names "run/outscene" ex_s3 (Some "interrupted"%string) eq_refl) as (A & B & _ & D). split; [exact A|]. split; [exact B|].
  exact (D "run/config.json"%string ltac:(discriminate) ltac:(discriminate)).
Qed.
Example overwritten_case : exists log, writeout ex_disk "scene.fit" None ex_names ex_s3 "scene.fit"%string = Some (Log log ["patch1"%string]).
Proof. exact (C63_overwritten_refuted ex_disk ex_names "scene.fit" ex_s3 eq_refl). Qed.
Example directory_case : run_metadata (writeout (save (fun _ => None) "m31.fits_run/config.json" ex_conf) "m31.fits_run/outscene.fits" None ex_names ex_s3) "m31.fits_run" = None.
Proof. exact (C63_directory_refuted _ "m31.fits_run" "outscene" [("scene_catalog", Some "outscene.fits")]%string ex_names ex_s3 eq_refl eq_refl eq_refl eq_refl eq_refl). Qed.

(** The optimisation's catalog starts the next run: positions and fluxes as they were, no iterations *)
Definition ex_post := match postop_catalog ex_after "run" ["config.json"; "outscene.fits"; "outscene_log.json"; "patches"]%string NoAttribute (Some ["F200W"%string]) (Some "next.fits"%string) with
  | Some (d, _) => d | None => ex_disk end.
Example next_case : exists rows hdr, rectify_catalog ex_post "next.fits" = Some (rows, ["F200W"%string], hdr) /\
  map n_iter (sourcecat ex_s3) = [128; 0; 0; 0]%Z /\ map n_iter rows = [0; 0; 0; 0]%Z /\
  map (fun r => getcol r "ra") rows = map (fun r => getcol r "ra") (sourcecat ex_s3) /\
  nth_error (map (fun r => getcol r "ra") rows) 0 = Some (Some (1 # 7)%Q).
Proof. eexists _, _. split; [vm_compute; reflexivity|]. repeat split; reflexivity. Qed.
Example next_hypotheses : exists rows hdr, rectify_catalog ex_post "next.fits" = Some (rows, ["F200W"%string], hdr) /\ List.length rows = 4.
Proof.
  destruct (C63_next ex_after "run" ["config.json"; "outscene.fits"; "outscene_log.json"; "patches"]%string NoAttribute ["F200W"%string] (Some "next.fits"%string) ex_post "next.fits"
    (mkTable ex_names (sourcecat ex_s3)) [] None "outscene.fits" [] ["F200W"%string] "raw.fits") as (rows & hdr & E & F); try reflexivity.
  - discriminate.
  - intros b [<-|[]]. cbn. repeat split; try discriminate.
  - apply distinct_nodup. reflexivity.
  - intros n H. cbn in H |- *. intuition.
  - intros r n Hr Hn. cbn in Hn. cbn [t_rows sourcecat ex_s3] in Hr. cbn in Hr. destruct Hr as [<-|[<-|[<-|[<-|[]]]]]; intuition; subst; discriminate.
  - exists rows, hdr. split; [exact E|]. clear - F. cbn [t_rows] in F. change 4 with (List.length (sourcecat ex_s3)). induction F; cbn; congruence.
Qed.
Example clipped_case : exists rows bands hdr r', let t := mkTable ex_names [ex_row 0 (4 # 100)] in
  rectify_catalog (save ex_disk "c.fits" (Cat t [("FILTERS", "F200W")]%string None)) "c.fits" = Some (rows, bands, hdr) /\ nth_error rows 0 = Some r' /\ getcol r' "rhalf" = Some (51 # 1000)%Q.
Proof.
  eexists _, _, _, _. intros t. split; [vm_compute; reflexivity|]. split; reflexivity.
Qed.

(** With another FITS file in the directory the file system decides from which catalog the next run starts *)
Definition stale : disk := save ex_after "run/initial.fits" (Cat (mkTable ex_names (sourcecat ex_start)) [] None).
Theorem C63_order_refuted : exists l1 l2 d1 d2 t1 t2 h1 h2 e1 e2,
  (forall n, In n l1 <-> In n l2) /\
  postop_catalog stale "run" l1 NoAttribute None (Some "next.fits"%string) = Some (d1, "next.fits"%string) /\ d1 "next.fits"%string = Some (Cat t1 h1 e1) /\
  postop_catalog stale "run" l2 NoAttribute None (Some "next.fits"%string) = Some (d2, "next.fits"%string) /\ d2 "next.fits"%string = Some (Cat t2 h2 e2) /\
  map (fun r => getcol r "ra") (t_rows t1) <> map (fun r => getcol r "ra") (t_rows t2).
Proof.
  exists ["outscene.fits"; "initial.fits"]%string, ["initial.fits"; "outscene.fits"]%string. eexists _, _, _, _, _, _, _, _.
  split; [intros n; cbn; tauto|]. split; [reflexivity|]. split; [reflexivity|]. split; [reflexivity|]. split; [reflexivity|]. vm_compute. discriminate.
Qed.
Example raw_case : exists d' t h e, postop_catalog (save ex_after "run/patches/patch0_samples.h5" (Samp ["F200W"%string] "raw.cat")) "run" ["outscene.fits"]%string NoAttribute None None = Some (d', "raw.cat"%string) /\
  d' "raw.cat"%string = Some (Cat t h e).
Proof.
  destruct (postop_catalog (save ex_after "run/patches/patch0_samples.h5" (Samp ["F200W"%string] "raw.cat")) "run" ["outscene.fits"]%string NoAttribute None None) as [[d' out]|] eqn:E; [|discriminate].
  destruct (C63_raw_refuted (save ex_after "run/patches/patch0_samples.h5" (Samp ["F200W"%string] "raw.cat")) "run" ["outscene.fits"]%string NoAttribute None d' out ["F200W"%string] "raw.cat" eq_refl eq_refl E) as (-> & t & h & e & K & _). now exists d', t, h, e.
Qed.

Print Assumptions C63_written. Print Assumptions C63_overwritten_refuted. Print Assumptions C63_metadata. Print Assumptions C63_directory_refuted.
Print Assumptions C63_next. Print Assumptions C63_clipped_refuted. Print Assumptions C63_patch0_refuted. Print Assumptions C63_raw_refuted. Print Assumptions C63_order_refuted.
