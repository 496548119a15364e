(** C61: counts, sizes and radii that a patch of postage stamps keeps. *)
From Coq Require Import Arith List Bool Lia Sorting.Sorted.
From Verif Require Import Np NpFacts ChainFacts PackModel PackFacts PackLoop PackPsf DeviceFacts StaticModel StaticFacts StaticProps StaticCase.
Import ListNotations.

Section Meta.
Context {V Mat Pos Gauss : Type} (zero : V).
Notation static_patch := (@static_patch V Mat Pos Gauss zero).
(** As many exposures as stamps, as many sources as given, the radii of the first of them, and the shape and number of
    pixels of every stamp without the padding *)
Theorem C61_counts : forall stamps npsf sources mask p, static_patch stamps npsf sources mask = Some p -> stamps <> [] ->
  pt_n_exp p = List.length stamps /\ pt_n_sources p = List.length sources /\ (exists first, nth_error sources 0 = Some first /\ pt_radii p = so_radii first) /\
  List.length (px_shapes (pt_pixels p)) = List.length stamps /\ List.length (px_sizes (pt_pixels p)) = List.length stamps /\
  forall e s, nth_error stamps e = Some s -> nth_error (px_shapes (pt_pixels p)) e = Some (st_nx s, st_ny s) /\ nth_error (px_sizes (pt_pixels p)) e = Some (st_nx s * st_ny s).
Proof.
  intros stamps npsf sources mask p H Hn.
  assert (Hf : forall so, In so sources -> so_fixed so = false).
  { intros so Hi. destruct (so_fixed so) eqn:E; [|reflexivity]. rewrite (C61_fixed_refuted zero stamps npsf sources mask so Hn Hi E) in H. discriminate. }
  assert (Na : n_active sources = List.length sources).
  { unfold n_active. clear -Hf. induction sources as [|a t IH]; [reflexivity|]. cbn [filter]. rewrite (Hf a (or_introl eq_refl)). cbn [negb List.length]. f_equal. apply IH. intros so Hs. apply Hf. now right. }
  unfold StaticModel.static_patch in H. destruct (nondecreasing _); [|discriminate]. destruct (as_dtype mask); [|discriminate]. cbn [negb] in H.
  destruct (pack_pix zero _ stamps) as [px|] eqn:E; [|discriminate]. destruct sources as [|first rest] eqn:Es; [discriminate|]. cbn [pack_source_metadata] in H. rewrite <- Es in *.
  destruct (pack_astrometry _ _ sources) as [a|]; [|discriminate]. destruct (pack_psf _ _ _ _ _ sources) as [ps|]; [|discriminate]. injection H as <-. cbn [pt_n_exp pt_n_sources pt_radii pt_pixels].
  assert (P : px_shapes px = map (fun s => (st_nx s, st_ny s)) stamps /\ px_sizes px = map npix stamps).
  { unfold pack_pix in E. destruct (pix_loop _ _) as [t|]; [|discriminate]. destruct (negb _); [discriminate|]. destruct (List.length (np_unique (map st_band stamps))); [discriminate|]. injection E as <-. split; reflexivity. }
  destruct P as [P1 P2]. rewrite P1, P2, !map_length. split; [reflexivity|]. split; [exact Na|]. split; [exists first; split; [rewrite Es; reflexivity|reflexivity]|]. split; [reflexivity|]. split; [reflexivity|].
  intros e s He. rewrite !nth_error_map, He. split; reflexivity.
Qed.
End Meta.
Print Assumptions C61_counts.
Example C61_counts_case : pt_n_exp patch3 = 3 /\ nth_error (px_sizes (pt_pixels patch3)) 2 = Some 35.
Proof.
  destruct (C61_counts 0 _ _ _ _ _ patch3_built) as (H1 & _ & _ & _ & _ & H2); [discriminate|]. split; [exact H1|]. exact (proj2 (H2 2 _ eq_refl)).
Qed.
