(** C42: the search for the exposures covering a point of the sky. *)
From Verif Require Import Np NpFacts KernelSum StoreModel StoreFacts StoreProps RegionModel RegionFacts RegionSat RegionProps SearchProps.
From Coq Require Import Reals Lra Psatz Rgeom ZArith.
Open Scope R_scope.

Lemma get_put {V} (d : dict V) k v k' : get (put d k v) k' = if string_dec k' k then Some v else get d k'.
Proof.
  induction d as [|[k0 v0] d IH]; simpl.
  - destruct (string_dec k' k); auto.
  - destruct (string_dec k k0) as [->|H0]; simpl.
    + destruct (string_dec k' k0); auto.
    + rewrite IH. destruct (string_dec k' k0) as [->|H1]; auto. destruct (string_dec k0 k); congruence.
Qed.
Lemma get_in {V} (d : dict V) k v : NoDup (map fst d) -> In (k, v) d -> get d k = Some v.
Proof.
  induction d as [|[k0 v0] d IH]; intros H Hi; [destruct Hi|]. inversion H as [|? ? Hn Hd]; subst. simpl. destruct Hi as [E|Hi].
  - injection E as -> ->. destruct (string_dec k k); congruence.
  - destruct (string_dec k k0) as [->|]; auto. exfalso. apply Hn. apply in_map_iff. exists (k0, v). auto.
Qed.

(** The WCS held are those of the headers. *)
Definition consistent (h : dict (dict header)) (c : dict (dict WCS)) : Prop :=
  forall band cache id w, get c band = Some cache -> get cache id = Some w -> exists exps hd, get h band = Some exps /\ get exps id = Some hd /\ w = wcs_of hd.
(** A file: exposure names are unique within a band, S_REGION lists some vertices. *)
Definition well_formed (h : dict (dict header)) : Prop :=
  forall band exps, get h band = Some exps -> NoDup (map fst exps) /\ forall id hd, In (id, hd) exps -> s_region hd <> Some [].
(** The image of the exposure on the sky, by its four corners *)
Definition footprint (h : header) : list point :=
  map (fun c => pixel_to_world (wcs_of h) (fst c) (snd c)) [(0, 0); (0, naxis2 h); (naxis1 h, naxis2 h); (naxis1 h, 0)].
Definition rough (h : header) (sky : point) : Prop := match s_region h with Some poly => polygon_contains poly sky = Some true | None => True end.

Lemma contains_some poly q : poly <> [] -> exists v, polygon_contains poly q = Some v.
Proof. intros H. destruct (contains_spec poly q H) as (v & Hv & _). eauto. Qed.

Section Band.
Context (sky : point) (all : dict header).
Hypotheses (Hnd : NoDup (map fst all)) (Hreg : forall id hd, In (id, hd) all -> s_region hd <> Some []).
Definition good (cache : dict WCS) : Prop := forall id w, get cache id = Some w -> exists hd, get all id = Some hd /\ w = wcs_of hd.
Lemma check_spec cache id hd : good cache -> In (id, hd) all -> naxis1 hd = naxis2 hd ->
  exists cache' v, check_exposure sky cache id hd = Some (cache', v) /\ good cache' /\ (v = true <-> rough hd sky /\ polygon_contains (footprint hd) sky = Some true).
Proof.
  intros G Hin Hsq. pose proof (get_in _ _ _ Hnd Hin) as Hg. unfold check_exposure, rough.
  assert (Er : exists b, match s_region hd with Some poly => polygon_contains poly sky | None => Some true end = Some b /\ (b = true <-> match s_region hd with Some poly => polygon_contains poly sky = Some true | None => True end)).
  { pose proof (Hreg _ _ Hin) as Hs. destruct (s_region hd) as [poly|]; [|exists true; tauto]. destruct (contains_some poly sky ltac:(congruence)) as (b & Hb). exists b. split; auto. rewrite Hb. split; congruence. }
  destruct Er as (b & -> & Hb). destruct b.
  2:{ exists cache, false. split; auto. split; auto. split; [discriminate|]. intros [H _]. apply Hb in H. discriminate. }
  assert (Ew : match get cache id with Some w => w | None => wcs_of hd end = wcs_of hd). { destruct (get cache id) as [w|] eqn:E; auto. destruct (G _ _ E) as (hd' & E' & ->). congruence. }
  rewrite Ew. assert (Eb : image_box hd (wcs_of hd) = footprint hd). { unfold image_box, footprint. rewrite Hsq. reflexivity. }
  rewrite Eb. destruct (contains_some (footprint hd) sky ltac:(discriminate)) as (v & Hv). rewrite Hv. do 2 eexists. split; [reflexivity|]. split.
  - destruct (get cache id) eqn:E; auto. intros id' w' H. rewrite get_put in H. destruct (string_dec id' id) as [->|]; [|auto]. injection H as <-. eauto.
  - split; [intros ->; split; auto; now apply Hb|]. intros [_ H]. congruence.
Qed.
Lemma band_spec exps : (forall p, In p exps -> In p all) -> (forall id hd, In (id, hd) exps -> naxis1 hd = naxis2 hd) -> forall cache, good cache ->
  exists cache' l, search_band sky cache exps = Some (cache', l) /\ good cache' /\
    forall id, In id l <-> exists hd, In (id, hd) exps /\ rough hd sky /\ polygon_contains (footprint hd) sky = Some true.
Proof.
  induction exps as [|[id hd] exps IH]; intros Hall Hsq cache G; cbn [search_band].
  - exists cache, []. split; auto. split; auto. intros i. split; [intros []|]. intros (h & [] & _).
  - destruct (check_spec cache id hd G (Hall _ (or_introl eq_refl)) (Hsq _ _ (or_introl eq_refl))) as (cache1 & v & -> & G1 & Hv).
    destruct (IH (fun p Hp => Hall p (or_intror Hp)) (fun i h Hp => Hsq i h (or_intror Hp)) cache1 G1) as (cache2 & l & -> & G2 & Hl).
    do 2 eexists. split; [reflexivity|]. split; auto. intros i. destruct v.
    + split.
      * intros [<-|H]; [exists hd; split; [left; auto|now apply Hv]|]. apply Hl in H. destruct H as (h & H & R). exists h. split; [right; auto|exact R].
      * intros (h & [E|H] & R); [injection E as -> ->; left; auto|]. right. apply Hl. eauto.
    + rewrite Hl. split.
      * intros (h & H & R). exists h. split; [right; auto|exact R].
      * intros (h & [E|H] & R); [|eauto]. injection E as -> ->. apply Hv in R. discriminate.
Qed.
End Band.

(** For square images the search returns exactly the exposures of the bands asked for
    whose S_REGION, if there is one, and whose footprint contain the point.  It always
    answers, whatever WCS were already held, and searching does not change what later
    searches answer. *)
Theorem C42_meta_square_partial : forall h c sky bandlist, well_formed h -> consistent h c ->
  (forall band exps id hd, In band bandlist -> get h band = Some exps -> In (id, hd) exps -> naxis1 hd = naxis2 hd) ->
  exists c' l, meta_find_exposures (mkMeta h c) sky bandlist = Some (mkMeta h c', l) /\ consistent h c' /\
    forall id band, In (id, band) l <-> In band bandlist /\ exists exps hd, get h band = Some exps /\ In (id, hd) exps /\ rough hd sky /\ polygon_contains (footprint hd) sky = Some true.
Proof.
  intros h c sky bandlist W. revert c. induction bandlist as [|b bands IH]; intros c C Hsq; cbn [meta_find_exposures].
  - exists c, []. split; auto. split; auto. intros id band. split; [intros []|intros ([] & _)].
  - cbn [headers wcs]. destruct (get h b) as [exps|] eqn:Eh.
    2:{ destruct (IH c C (fun band exps id hd Hb => Hsq band exps id hd (or_intror Hb))) as (c' & l & E & C' & Hl). exists c', l. split; auto. split; auto. intros id band. rewrite Hl. split; intros (Hb & R); (split; [|exact R]); [right; auto|]. destruct Hb as [<-|Hb]; auto. exfalso. destruct R as (e & hd & R & _). congruence. }
    destruct (W b exps Eh) as [Hnd Hreg]. set (cache := match get c b with Some x => x | None => [] end).
    assert (G : good exps cache). { intros id w Hg. unfold cache in Hg. destruct (get c b) as [x|] eqn:Eb; [|discriminate]. destruct (C _ _ _ _ Eb Hg) as (e & hd & E1 & E2 & E3). rewrite Eh in E1. injection E1 as <-. eauto. }
    destruct (band_spec sky exps Hnd Hreg exps (fun p H => H) (fun id hd Hi => Hsq b exps id hd (or_introl eq_refl) Eh Hi) cache G) as (cache' & ids & -> & G' & Hids).
    set (c1 := match cache' with [] => c | _ :: _ => put c b cache' end).
    assert (C1 : consistent h c1).
    { intros band x id w Hg Hw. unfold c1 in Hg. destruct cache' as [|kv t] eqn:Ec; [eauto|]. rewrite get_put in Hg. destruct (string_dec band b) as [->|]; [|eauto]. injection Hg as <-. destruct (G' _ _ Hw) as (hd & E1 & E2). eauto. }
    destruct (IH c1 C1 (fun band exps id hd Hb => Hsq band exps id hd (or_intror Hb))) as (c' & l & -> & C' & Hl).
    do 2 eexists. split; [reflexivity|]. split; auto. intros id band. rewrite in_app_iff, in_map_iff, Hl. split.
    + intros [(i & E & Hi)|(Hb & R)].
      * injection E as -> <-. split; [left; auto|]. apply Hids in Hi. destruct Hi as (hd & H1 & H2). exists exps, hd. auto.
      * split; [right; auto|exact R].
    + intros (Hb & e & hd & He & Hi & R). destruct (string_dec b band) as [<-|Hne].
      * left. exists id. split; auto. apply Hids. rewrite Eh in He. injection He as <-. eauto.
      * right. destruct Hb as [Hb|Hb]; [congruence|]. split; auto. eauto.
Qed.
(** In terms of the plane: a point strictly inside a strictly convex footprint. *)
Theorem C42_meta_inside_partial : forall h c sky bandlist band exps id hd o, well_formed h -> consistent h c ->
  (forall band exps id hd, In band bandlist -> get h band = Some exps -> In (id, hd) exps -> naxis1 hd = naxis2 hd) ->
  In band bandlist -> get h band = Some exps -> In (id, hd) exps -> s_region hd = None -> strictly_convex o (footprint hd) ->
  exists m l, meta_find_exposures (mkMeta h c) sky bandlist = Some (m, l) /\
    (In (id, band) l <-> hull (footprint hd) sky /\ forall e, In e (edges (footprint hd)) -> side sky e <> 0).
Proof.
  intros h c sky bandlist band exps id hd o W C Hsq Hb He Hi Hs Hc. destruct (C42_meta_square_partial h c sky bandlist W C Hsq) as (c' & l & E & _ & Hl). do 2 eexists. split; [exact E|].
  rewrite Hl, <- (C31_contains_hull o _ _ Hc). split.
  - intros (_ & e & hd' & He' & Hi' & _ & R). rewrite He in He'. injection He' as <-. destruct (W _ _ He) as [Hnd _]. pose proof (get_in _ _ _ Hnd Hi). pose proof (get_in _ _ _ Hnd Hi'). congruence.
  - intros R. split; auto. exists exps, hd. unfold rough. rewrite Hs. auto.
Qed.
(** An image that is higher than wide: the search uses the wrong corner and misses points
    well inside the image. *)
Theorem C42_meta_refuted : forall n1 n2 id band, 0 < n1 -> n1 < n2 ->
  let hd := mkHeader None n1 n2 identity_wcs in let sky := (3 * n1 / 4, (n1 + n2) / 2) in
  (0 < fst sky < n1 /\ 0 < snd sky < n2) /\ polygon_contains (footprint hd) sky = Some true /\
  exists m, meta_find_exposures (open_metastore [(band, [(id, hd)])] false) sky [band] = Some (m, []).
Proof.
  intros n1 n2 id band H1 H2 hd sky. cbn [sky fst snd]. split; [lra|].
  assert (P1 : 0 < n1 * n2) by nra. assert (P2 : 0 < n1 * n1) by nra. assert (P3 : 0 < n1 * (n2 - n1)) by nra. assert (P4 : 0 < n2 * n2) by nra.
  assert (Hcw : forall c, area2 [(0, 0); (0, n2); (n1, c); (n1, 0)] = - (n1 * (n2 + c))). { intros c. unfold area2, sumR, edges. cbn. ring. }
  assert (Ef : footprint hd = [(0, 0); (0, n2); (n1, n2); (n1, 0)]) by reflexivity.
  assert (Ei : image_box hd identity_wcs = [(0, 0); (0, n2); (n1, n1); (n1, 0)]) by reflexivity. split.
  - rewrite Ef. apply C31_contains_cw; [rewrite Hcw; nra|]. intros e He. cbn in He. destruct He as [<-|[<-|[<-|[<-|[]]]]]; unfold side, sky; cbn [fst snd]; nra.
  - destruct (contains_some [(0, 0); (0, n2); (n1, n1); (n1, 0)] sky ltac:(discriminate)) as (v & Hv).
    assert (Ec : check_exposure sky [] id hd = Some ([(id, identity_wcs)], v)). { unfold check_exposure. change (s_region hd) with (@None (list point)). change (wcs_of hd) with identity_wcs. cbv iota beta. cbn [get]. rewrite Ei, Hv. reflexivity. }
    assert (v = false) as ->.
    { destruct v; auto. exfalso. rewrite C31_contains_cw in Hv by (rewrite Hcw; nra). specialize (Hv ((0, n2), (n1, n1)) ltac:(cbn; auto)). unfold side, sky in Hv. cbn [fst snd] in Hv. nra. }
    assert (Es : search_band sky [] [(id, hd)] = Some ([(id, identity_wcs)], [])) by (cbn [search_band]; rewrite Ec; reflexivity).
    clearbody hd sky. unfold open_metastore. cbn [meta_find_exposures headers get wcs]. destruct (string_dec band band) as [_|]; [|congruence]. rewrite Es. eexists. reflexivity.
Qed.

(** ** Cases *)
(** A square of 4 x 4 pixels on the sky, with and without S_REGION; a point inside *)
Definition case_headers : dict (dict header) :=
  [("F090W"%string, [("e1"%string, mkHeader None 4 4 identity_wcs); ("e2"%string, mkHeader (Some [(0, 0); (0, 1); (1, 1); (1, 0)]) 4 4 identity_wcs)])].
Example C42_meta_case : well_formed case_headers /\ consistent case_headers [] /\
  (forall band exps id hd, In band ["F090W"%string] -> get case_headers band = Some exps -> In (id, hd) exps -> naxis1 hd = naxis2 hd) /\
  strictly_convex (-1) (footprint (mkHeader None 4 4 identity_wcs)).
Proof.
  assert (H : forall band exps, get case_headers band = Some exps -> exps = [("e1"%string, mkHeader None 4 4 identity_wcs); ("e2"%string, mkHeader (Some [(0, 0); (0, 1); (1, 1); (1, 0)]) 4 4 identity_wcs)]).
  { intros band exps H. cbn [case_headers get] in H. destruct (string_dec band "F090W"); congruence. }
  repeat split.
  - rewrite (H _ _ H0). repeat constructor; simpl; intuition congruence.
  - rewrite (H _ _ H0). intros id hd [E|[E|[]]]; injection E as <- <-; simpl; congruence.
  - intros band cache id w E. discriminate.
  - intros band exps id hd _ E Hi. rewrite (H _ _ E) in Hi. destruct Hi as [E1|[E1|[]]]; injection E1 as <- <-; reflexivity.
  - right. reflexivity.
  - simpl. lia.
  - intros i j e p He Hp H1 H2. cbn in He, Hp. destruct i as [|[|[|[|i]]]]; [| | | |destruct i; discriminate]; cbn in He; injection He as <-;
      (destruct j as [|[|[|[|j]]]]; [| | | |destruct j; discriminate]); cbn in Hp; injection Hp as <-; cbn in H1, H2; try congruence; unfold side; cbn [fst snd]; lra.
Qed.
(** A circle of radius 3 around the corner of a 4 x 4 image of 2 x 2 super-pixels; pixel
    (1, 1) is inside by more than half the diagonal *)
Example C42_circle_case : divides 2 4 4 /\ small 4 4 /\ rect (mesh_x 4 4) 4 4 /\
  (exists bbox, bounding_box (Circular 0 0 3) = Some bbox /\ exists c, In c bbox /\ 0 < fst (world_to_pixel identity_wcs (fst c) (snd c)) < INR 4 /\ 0 < snd (world_to_pixel identity_wcs (fst c) (snd c)) < INR 4) /\
  pixel_distance identity_wcs 0 0 (INR 1) (INR 1) + dist_euc 0 0 ((INR 2 - 1) / 2) ((INR 2 - 1) / 2) < pixel_radius identity_wcs 0 0 3.
Proof.
  split; [repeat split; auto|]. split; [unfold small; lia|]. split; [apply mesh_x_rect|]. split.
  - unfold bounding_box. rewrite Rmult_0_l, cos_0. destruct (Req_EM_T 1 0); [lra|]. eexists. split; [reflexivity|]. exists (0 + 3 / 1, 0 + 3). split; [simpl; auto|]. cbn [identity_wcs world_to_pixel fst snd INR]. unfold Rdiv. rewrite Rinv_1. lra.
  - unfold pixel_distance, pixel_radius, dist_euc, Rsqr. cbn [identity_wcs world_to_pixel fst snd INR].
    replace (sqrt ((0 - 0) * (0 - 0) + (0 - (0 + 3)) * (0 - (0 + 3)))) with 3 by (symmetry; replace ((0 - 0) * (0 - 0) + (0 - (0 + 3)) * (0 - (0 + 3))) with (3 * 3) by ring; apply sqrt_square; lra).
    assert (A : sqrt ((1 - 0) * (1 - 0) + (1 - 0) * (1 - 0)) <= 3 / 2). { rewrite <- (sqrt_square (3 / 2)) by lra. apply sqrt_le_1_alt. nra. }
    assert (B : sqrt ((0 - (1 + 1 - 1) / 2) * (0 - (1 + 1 - 1) / 2) + (0 - (1 + 1 - 1) / 2) * (0 - (1 + 1 - 1) / 2)) <= 1). { apply Rle_trans with (sqrt (1 * 1)); [apply sqrt_le_1_alt; lra|rewrite sqrt_square; lra]. }
    lra.
Qed.

Print Assumptions C42_found.
Print Assumptions C42_circle_partial.
Print Assumptions C42_lazy_wcs_refuted.
Print Assumptions C42_surrounded_refuted.
Print Assumptions C42_small_circle_refuted.
Print Assumptions C42_crossing_refuted.
Print Assumptions C42_meta_square_partial.
Print Assumptions C42_meta_inside_partial.
Print Assumptions C42_meta_refuted.
