(** C54: appended catalogs and flux uncertainties. *)
From Coq Require Import Reals Lra.
From Verif Require Import Np NpFacts ChainFacts DeriveModel.
From Verif Require BoundsModel CombineModel CombineCat FitModel.
Open Scope R_scope.
Local Notation len := List.length (only parsing).

(** ** append_catalogs *)
(** Files whose four tables are named: each table of the result is that of the files one
    after the other. *)
Theorem C54_append : forall D (files : list (list (hdu D))), files <> [] ->
  (forall f ext, In f files -> In ext xtensions -> exists h d, by_name f ext = Some h /\ h_data h = Some d) ->
  exists out, append_catalogs files = Some out /\ map h_name out = "PRIMARY"%string :: xtensions /\
    forall ext, In ext xtensions -> exists ds, by_name out ext = Some (mkHdu ext (Some (concat ds))) /\ Forall2 (fun f d => exists h, by_name f ext = Some h /\ h_data h = Some d) files ds.
Proof.
  intros D files Hne H.
  assert (One : forall f : list (hdu D), (forall ext, In ext xtensions -> exists h d, by_name f ext = Some h /\ h_data h = Some d) ->
            exists a b c e, read_file f = Some [a; b; c; e] /\ (exists h, by_name f "MOMENT" = Some h /\ h_data h = Some a) /\ (exists h, by_name f "SAMPLES" = Some h /\ h_data h = Some b) /\
              (exists h, by_name f "BEST" = Some h /\ h_data h = Some c) /\ (exists h, by_name f "PERCENTILES" = Some h /\ h_data h = Some e)).
  { intros f Hf. destruct (Hf "MOMENT"%string) as (h1 & a & E1 & D1); [cbn; auto|]. destruct (Hf "SAMPLES"%string) as (h2 & b & E2 & D2); [cbn; auto|]. destruct (Hf "BEST"%string) as (h3 & c & E3 & D3); [cbn; auto|]. destruct (Hf "PERCENTILES"%string) as (h4 & e & E4 & D4); [cbn; auto|].
    exists a, b, c, e. assert (N1 : exists h, nth_error f 1 = Some h).
    { destruct f as [|x [|y f]]; [discriminate E1| |eexists; reflexivity]. exfalso. apply find_some in E1. destruct E1 as [[<-|[]] E1]. apply find_some in E2. destruct E2 as [[<-|[]] E2]. apply String.eqb_eq in E1. apply String.eqb_eq in E2. rewrite E1 in E2. discriminate. }
    destruct N1 as (h0 & N1). split; [unfold read_file; cbn [xtensions List.length seq combine mapM fst snd]; unfold read_ext; now rewrite E1, E2, E3, E4, D1, D2, D3, D4, N1|]. split; [exists h1; auto|]. split; [exists h2; auto|]. split; [exists h3; auto|exists h4; auto]. }
  assert (All : forall files : list (list (hdu D)), (forall f ext, In f files -> In ext xtensions -> exists h d, by_name f ext = Some h /\ h_data h = Some d) ->
            exists ls, mapM read_file files = Some ls /\ Forall2 (fun f l => exists a b c e, l = [a; b; c; e] /\ (exists h, by_name f "MOMENT" = Some h /\ h_data h = Some a) /\ (exists h, by_name f "SAMPLES" = Some h /\ h_data h = Some b) /\
              (exists h, by_name f "BEST" = Some h /\ h_data h = Some c) /\ (exists h, by_name f "PERCENTILES" = Some h /\ h_data h = Some e)) files ls).
  { clear -One. induction files as [|f files IH]; intros H; [exists []; split; [reflexivity|constructor]|]. destruct (One f (fun ext => H f ext (or_introl eq_refl))) as (a & b & c & e & E & K). destruct IH as (ls & El & Hl); [intros g ext Hg; apply H; now right|]. exists ([a; b; c; e] :: ls). cbn [mapM]. rewrite E, El. split; [reflexivity|]. constructor; [|exact Hl]. exists a, b, c, e. auto. }
  destruct (All files H) as (ls & El & Hl). unfold append_catalogs. rewrite El. destruct files as [|f0 files]; [congruence|]. set (fs := f0 :: files) in *. clearbody fs. eexists. split; [reflexivity|]. split; [reflexivity|]. intros ext Hext.
  assert (Sel : forall k (P : list (hdu D) -> list D -> Prop), Forall2 (fun f l => P f (nth k l [])) fs ls -> Forall2 P fs (map (fun l => nth k l []) ls)) by (clear; intros k P Hx; induction Hx; cbn; constructor; auto).
  destruct Hext as [<-|[<-|[<-|[<-|[]]]]].
  - exists (map (fun l => nth 0 l []) ls). split; [reflexivity|]. apply Sel. clear -Hl. induction Hl as [|f l fs ls (a & b & c & e & -> & H1 & H2 & H3 & H4) _ IH]; constructor; auto.
  - exists (map (fun l => nth 1 l []) ls). split; [reflexivity|]. apply Sel. clear -Hl. induction Hl as [|f l fs ls (a & b & c & e & -> & H1 & H2 & H3 & H4) _ IH]; constructor; auto.
  - exists (map (fun l => nth 2 l []) ls). split; [reflexivity|]. apply Sel. clear -Hl. induction Hl as [|f l fs ls (a & b & c & e & -> & H1 & H2 & H3 & H4) _ IH]; constructor; auto.
  - exists (map (fun l => nth 3 l []) ls). split; [reflexivity|]. apply Sel. clear -Hl. induction Hl as [|f l fs ls (a & b & c & e & -> & H1 & H2 & H3 & H4) _ IH]; constructor; auto.
Qed.
(** Tables in the usual order without names are not read, though line 54 is there for them. *)
Theorem C54_append_unnamed_refuted : forall D (files : list (list (hdu D))) f h rest, In f files -> f = h :: rest -> h_data h = None -> (forall x, In x f -> h_name x <> "MOMENT"%string) -> append_catalogs files = None.
Proof.
  intros D files f h rest Hin -> Hd Hn. assert (E : read_file (h :: rest) = None).
  { unfold read_file. cbn [xtensions List.length seq combine mapM fst snd]. unfold read_ext at 1. assert (Eb : by_name (h :: rest) "MOMENT" = None). { unfold by_name. destruct (find _ (h :: rest)) as [x|] eqn:E; [|reflexivity]. apply find_some in E. destruct E as [E1 E2]. apply String.eqb_eq in E2. destruct (Hn x E1 E2). } rewrite Eb. cbn [nth_error]. now rewrite Hd. }
  unfold append_catalogs. assert (Em : mapM read_file files = None); [|rewrite Em; now destruct files]. induction files as [|g files IH]; [destruct Hin|]. cbn [mapM]. destruct Hin as [->|Hin]; [now rewrite E|]. rewrite (IH Hin). now destruct (read_file g).
Qed.
(** With only some of the names missing, the rows of another table are taken. *)
Theorem C54_append_shifted_refuted : forall D (d : list D) p rest out, h_name p <> "MOMENT"%string -> h_name p <> "SAMPLES"%string -> (forall x, In x rest -> h_name x <> "SAMPLES"%string) ->
  append_catalogs [p :: mkHdu "MOMENT" (Some d) :: rest] = Some out -> by_name out "SAMPLES" = Some (mkHdu "SAMPLES" (Some d)).
Proof.
  intros D d p rest out Hp Hp2 Hr H. unfold append_catalogs in H. cbn [mapM] in H. unfold read_file in H. cbn [xtensions List.length seq combine mapM fst snd] in H. set (f := p :: _) in H.
  assert (E1 : read_ext f 0 "MOMENT" = Some d). { unfold read_ext, by_name, f. cbn [find h_name]. destruct (String.eqb_spec (h_name p) "MOMENT"); [contradiction|]. reflexivity. }
  assert (E2 : read_ext f 1 "SAMPLES" = Some d). { unfold read_ext. destruct (by_name f "SAMPLES") as [x|] eqn:E; [|reflexivity]. apply find_some in E. destruct E as [E1' E2]. apply String.eqb_eq in E2. destruct E1' as [<-|[<-|E1']]; [contradiction|discriminate|destruct (Hr x E1' E2)]. }
  rewrite E1, E2 in H. destruct (read_ext f 2 "BEST"); [|discriminate]. destruct (read_ext f 3 "PERCENTILES"); [|discriminate]. cbn [nth_error f] in H. injection H as <-. cbn. now rewrite app_nil_r.
Qed.

(** ** flux_unc_linear *)
Definition entry (U : list (string * list (option R))) (b : string) (s : nat) : option (option R) := match field U b with Some c => nth_error c s | None => None end.
Definition shape {A} (names : list string) (N : nat) (U : list (string * list A)) : Prop := map fst U = names /\ forall b, In b names -> exists c, field U b = Some c /\ len c = N.
Lemma field_in {A} (U : list (string * A)) b : In b (map fst U) <-> exists c, field U b = Some c.
Proof.
  induction U as [|[d v] U IH]; cbn; [split; [tauto|intros (c & H); discriminate]|]. destruct (String.eqb_spec d b) as [->|E]; [split; eauto|]. rewrite <- IH. split; [intros [H|H]; [contradiction|exact H]|auto].
Qed.
Lemma set_field_spec {A} (U : list (string * A)) b v : map fst (set_field U b v) = map fst U /\ (In b (map fst U) -> field (set_field U b v) b = Some v) /\ forall c, c <> b -> field (set_field U b v) c = field U c.
Proof.
  induction U as [|[d w] U (I1 & I2 & I3)]; cbn; [repeat split; tauto|]. destruct (String.eqb_spec d b) as [->|E]; cbn.
  - rewrite String.eqb_refl. repeat split; auto. intros c Hc. destruct (String.eqb_spec b c); congruence.
  - rewrite I1. split; [reflexivity|]. destruct (String.eqb_spec d b) as [E2|_]; [contradiction|]. split; [intros [K|K]; [contradiction|auto]|]. intros c Hc. destruct (String.eqb d c); auto.
Qed.
Lemma set_field_shape {A} names N (U : list (string * list A)) b v : shape names N U -> len v = N -> shape names N (set_field U b v).
Proof.
  intros [H1 H2] Hv. destruct (set_field_spec U b v) as (S1 & S2 & S3). split; [congruence|]. intros c Hc. destruct (string_dec c b) as [->|E]; [exists v; split; [apply S2; congruence|exact Hv]|]. rewrite S3 by exact E. now apply H2.
Qed.

(** What is asked of the samples file of a patch *)
Definition good (pinv : list (list R) -> list (list R)) (names : list string) (N : nat) (p : patchfile) : Prop :=
  NoDup (p_inds p) /\ (forall i, In i (p_inds p) -> 0 <= i < Z.of_nat N)%Z /\ NoDup (p_bands p) /\ exists precs, p_prec p = Some precs /\
  forall i b, nth_error (p_bands p) i = Some b -> In b names /\ exists flux P, field (p_final p) b = Some flux /\ len flux = len (p_inds p) /\ nth_error precs i = Some P /\ len (FitModel.diag (pinv P)) = len (p_inds p).
Definition covers (p : patchfile) (b : string) (s : nat) : Prop := In b (p_bands p) /\ In (Z.of_nat s) (p_inds p).
(** The uncertainty a patch gives: variance and flux of that source and band in it *)
Definition sigma_at (pinv : list (list R) -> list (list R)) (snr_max : R) (p : patchfile) (b : string) (s : nat) (f x : R) : Prop :=
  exists i j flux precs P v, nth_error (p_bands p) i = Some b /\ nth_error (p_inds p) j = Some (Z.of_nat s) /\ field (p_final p) b = Some flux /\ nth_error flux j = Some f /\
    p_prec p = Some precs /\ nth_error precs i = Some P /\ nth_error (FitModel.diag (pinv P)) j = Some v /\ x = Rmax (sqrt v) (f / snr_max).
Lemma fill_patch_spec pinv snr names N p U : good pinv names N p -> shape names N U ->
  exists U', fill_patch pinv snr (Some U) p = Some U' /\ shape names N U' /\
    (forall b s, covers p b s -> exists f x, sigma_at pinv snr p b s f x /\ entry U' b s = Some (Some x)) /\ (forall b s, ~ covers p b s -> entry U' b s = entry U b s).
Proof.
  intros (Ni & Hi & Nb & precs & Ep & Hb) Sh. unfold fill_patch.
  assert (Band : forall i b U, nth_error (p_bands p) i = Some b -> shape names N U -> exists U', fill_band pinv snr p U (i, b) = Some U' /\ shape names N U' /\
            (forall s, In (Z.of_nat s) (p_inds p) -> exists f x, sigma_at pinv snr p b s f x /\ entry U' b s = Some (Some x)) /\ (forall c s, c <> b \/ ~ In (Z.of_nat s) (p_inds p) -> entry U' c s = entry U c s)).
  { clear U Sh. intros i b U Hn Sh. destruct (Hb i b Hn) as (Hin & flux & P & Ef & Lf & EP & Lv). destruct Sh as [Sh1 Sh2] eqn:ESh. destruct (Sh2 b Hin) as (col & Ec & Lc).
    set (sg := map (fun vf => Rmax (sqrt (fst vf)) (snd vf / snr)) (combine (FitModel.diag (pinv P)) flux)). assert (Ls : len (map Some sg) = len (p_inds p)) by (unfold sg; rewrite !map_length, combine_length; lia).
    destruct (CombineCat.put_rows_spec (p_inds p) (map Some sg) col) as (col' & E & L' & H1 & H2); [auto|exact Ni|now rewrite Lc|].
    unfold fill_band. cbn [fst snd]. rewrite Ef, Ep, EP, Ec. fold sg. rewrite E. cbn [option_map]. destruct (set_field_spec U b col') as (S1 & S2 & S3). eexists. split; [reflexivity|]. split; [apply set_field_shape; [split; assumption|congruence]|]. split.
    - intros s Hs. apply In_nth_error in Hs. destruct Hs as (j & Hj). assert (Lj : (j < len (p_inds p))%nat) by (apply nth_error_Some; congruence).
      destruct (nth_error flux j) as [f|] eqn:Efj; [|apply nth_error_None in Efj; lia]. destruct (nth_error (FitModel.diag (pinv P)) j) as [v|] eqn:Evj; [|apply nth_error_None in Evj; lia].
      exists f, (Rmax (sqrt v) (f / snr)). split; [exists i, j, flux, precs, P, v; auto 10|]. unfold entry. rewrite S2 by congruence. apply (H1 j s); [exact Hj|]. rewrite nth_error_map. unfold sg. rewrite nth_error_map.
      assert (Eco : nth_error (combine (FitModel.diag (pinv P)) flux) j = Some (v, f)); [|now rewrite Eco]. revert Evj. generalize (FitModel.diag (pinv P)). intros l Evj. clear -Efj Evj. revert flux j Efj Evj. induction l as [|a l IH]; intros [|y flux] j E E'; destruct j; cbn in *; try discriminate; [congruence|]. now apply IH.
    - intros c s [Hc|Hs]; unfold entry; [now rewrite S3|]. destruct (string_dec c b) as [->|Hc]; [|now rewrite S3]. rewrite S2 by congruence. rewrite Ec. now apply H2. }
  assert (G : forall l k U, (forall i b, nth_error l i = Some b -> nth_error (p_bands p) (k + i) = Some b) -> NoDup l -> shape names N U ->
            exists U', fold_left (fun o ib => match o with None => None | Some unc => fill_band pinv snr p unc ib end) (combine (seq k (len l)) l) (Some U) = Some U' /\ shape names N U' /\
              (forall b s, In b l -> In (Z.of_nat s) (p_inds p) -> exists f x, sigma_at pinv snr p b s f x /\ entry U' b s = Some (Some x)) /\ (forall b s, ~ (In b l /\ In (Z.of_nat s) (p_inds p)) -> entry U' b s = entry U b s)).
  { clear -Band. induction l as [|b l IH]; intros k U Hl ND Sh; [exists U; split; [reflexivity|]; split; [exact Sh|]; split; [intros b s []|reflexivity]|]. inversion ND as [|? ? Hnb ND']; subst.
    destruct (Band k b U) as (U1 & E1 & Sh1 & A1 & B1); [rewrite <- (Nat.add_0_r k); now apply Hl|exact Sh|]. destruct (IH (S k) U1) as (U2 & E2 & Sh2 & A2 & B2); [intros i c Hc; replace (S k + i)%nat with (k + S i)%nat by lia; now apply Hl|exact ND'|exact Sh1|].
    exists U2. cbn [List.length seq combine fold_left]. rewrite E1. split; [exact E2|]. split; [exact Sh2|]. split.
    - intros c s Hc Hs. destruct (in_dec string_dec c l) as [Hcl|Hcl]; [now apply A2|]. destruct Hc as [<-|Hc]; [|contradiction]. destruct (A1 s Hs) as (f & x & X1 & X2). exists f, x. split; [exact X1|]. rewrite B2; [exact X2|]. tauto.
    - intros c s Hc. rewrite B2 by (intros [K1 K2]; apply Hc; split; [now right|exact K2]). apply B1. destruct (string_dec c b) as [->|E]; [|now left]. right. intros K. apply Hc. split; [now left|exact K]. }
  destruct (G (p_bands p) 0%nat U (fun i b H => H) Nb Sh) as (U' & E & Sh' & A & B). exists U'. split; [exact E|]. split; [exact Sh'|]. split; [intros b s [H1 H2]; now apply A|exact B].
Qed.
Lemma fill_default_spec names N final bandlist : shape names N final -> (forall b, In b bandlist -> In b names) ->
  exists U, fill_default final bandlist = Some U /\ shape names N U /\ (forall b f, In b bandlist -> field final b = Some f -> field U b = Some (default_unc f)) /\
    (forall b s, ~ In b bandlist -> In b names -> (s < N)%nat -> entry U b s = Some (Some 0)).
Proof.
  intros [Sf1 Sf2] Hb. unfold fill_default. assert (Ld : forall f, len (default_unc f) = len f) by (intros f; unfold default_unc, BoundsModel.flux_bounds; rewrite map_length, !combine_length, !map_length; lia).
  assert (G : forall bl U, (forall b, In b bl -> In b names) -> shape names N U -> exists U', fold_left (fun o b => match o with None => None | Some unc => match field final b with Some f => Some (set_field unc b (default_unc f)) | None => None end end) bl (Some U) = Some U' /\ shape names N U' /\
            (forall b f, In b bl -> field final b = Some f -> field U' b = Some (default_unc f)) /\ (forall b, ~ In b bl -> field U' b = field U b)).
  { induction bl as [|b bl IH]; intros U Hbl Sh; [exists U; split; [reflexivity|]; split; [exact Sh|]; split; [intros b f []|reflexivity]|]. cbn [fold_left]. destruct (Sf2 b (Hbl b (or_introl eq_refl))) as (f & Ef & Lf). rewrite Ef.
    destruct (set_field_spec U b (default_unc f)) as (S1 & S2 & S3). destruct (IH (set_field U b (default_unc f))) as (U' & E & Sh' & A & B); [intros c Hc; apply Hbl; now right|apply set_field_shape; [exact Sh|now rewrite Ld]|]. exists U'. split; [exact E|]. split; [exact Sh'|]. split.
    - intros c g Hc Hg. destruct (in_dec string_dec c bl) as [K|K]; [now apply A|]. destruct Hc as [<-|Hc]; [|contradiction]. rewrite (B b K), S2 by (destruct Sh as [Sh _]; rewrite Sh; apply Hbl; now left). congruence.
    - intros c Hc. rewrite (B c) by (intros K; apply Hc; now right). apply S3. intros ->. apply Hc. now left. }
  set (Z0 := map (fun cv : string * list R => (fst cv, map (fun _ : R => Some 0) (snd cv))) final). assert (FZ : forall b, field Z0 b = option_map (map (fun _ => Some 0)) (field final b)). { intros b. unfold Z0. clear. induction final as [|[d v] final IH]; [reflexivity|]. cbn. destruct (String.eqb d b); auto. }
  assert (ShZ : shape names N Z0). { split; [unfold Z0; rewrite map_map; exact Sf1|]. intros b Hin. destruct (Sf2 b Hin) as (c & Ec & Lc). rewrite FZ, Ec. eexists. split; [reflexivity|]. now rewrite map_length. }
  destruct (G bandlist Z0 Hb ShZ) as (U & E & Sh & A & B). exists U. split; [exact E|]. split; [exact Sh|]. split; [exact A|]. intros b s Hn Hin Hs. unfold entry. rewrite (B b Hn), FZ. destruct (Sf2 b Hin) as (c & -> & Lc). cbn [option_map]. rewrite nth_error_map. destruct (nth_error c s) eqn:Ec; [reflexivity|]. apply nth_error_None in Ec. lia.
Qed.
(** With precision matrices in every patch: a source has the uncertainty from the last
    patch it was in, and the default when it was in none. *)
Theorem C54_uncertainties : forall pinv snr bandlist final patches names N, shape names N final -> (forall b, In b bandlist -> In b names) -> (forall p, In p patches -> good pinv names N p) ->
  exists U, flux_unc_linear pinv snr bandlist final patches = Some U /\ shape names N U /\
    (forall pre p post b s, patches = pre ++ p :: post -> covers p b s -> (forall p', In p' post -> ~ covers p' b s) -> exists f x, sigma_at pinv snr p b s f x /\ entry U b s = Some (Some x)) /\
    (forall b s f, (forall p, In p patches -> ~ covers p b s) -> In b bandlist -> field final b = Some f -> entry U b s = nth_error (default_unc f) s).
Proof.
  intros pinv snr bandlist final patches names N Sf Hb Hg. destruct (fill_default_spec names N final bandlist Sf Hb) as (U0 & E0 & Sh0 & D0 & _). unfold flux_unc_linear. rewrite E0.
  assert (G : forall ps U, (forall p, In p ps -> good pinv names N p) -> shape names N U -> exists U', fold_left (fill_patch pinv snr) ps (Some U) = Some U' /\ shape names N U' /\
            (forall pre p post b s, ps = pre ++ p :: post -> covers p b s -> (forall p', In p' post -> ~ covers p' b s) -> exists f x, sigma_at pinv snr p b s f x /\ entry U' b s = Some (Some x)) /\
            (forall b s, (forall p, In p ps -> ~ covers p b s) -> entry U' b s = entry U b s)).
  { clear. induction ps as [|q ps IH]; intros U Hg Sh; [exists U; split; [reflexivity|]; split; [exact Sh|]; split; [intros [|q0 pre] p post b s E; discriminate|reflexivity]|].
    destruct (fill_patch_spec pinv snr names N q U (Hg q (or_introl eq_refl)) Sh) as (U1 & E1 & Sh1 & A1 & B1). destruct (IH U1) as (U2 & E2 & Sh2 & A2 & B2); [intros p Hp; apply Hg; now right|exact Sh1|]. exists U2. cbn [fold_left]. rewrite E1. split; [exact E2|]. split; [exact Sh2|]. split.
    - intros [|q' pre] p post b s E Hc Hn; cbn in E; injection E as -> E.
      + subst ps. destruct (A1 b s Hc) as (f & x & X1 & X2). exists f, x. split; [exact X1|]. now rewrite B2.
      + exact (A2 pre p post b s E Hc Hn).
    - intros b s Hn. rewrite B2 by (intros p Hp; apply Hn; now right). apply B1, Hn. now left. }
  destruct (G patches U0 Hg Sh0) as (U & E & Sh & A & B). exists U. split; [exact E|]. split; [exact Sh|]. split; [exact A|]. intros b s f Hn Hin Hf. rewrite (B b s Hn). unfold entry. now rewrite (D0 b f Hin Hf).
Qed.
(** Such an uncertainty keeps to the largest signal to noise ratio asked for. *)
Theorem C54_snr : forall pinv snr p b s f x, 0 < snr -> sigma_at pinv snr p b s f x -> f <= snr * x /\ 0 <= x.
Proof.
  intros pinv snr p b s f x Hs (i & j & flux & precs & P & v & _ & _ & _ & _ & _ & _ & _ & ->). pose proof (Rmax_r (sqrt v) (f / snr)) as M. pose proof (Rmax_l (sqrt v) (f / snr)) as M'. pose proof (sqrt_pos v). split; [|lra].
  apply (Rmult_le_compat_l snr) in M; [|lra]. replace (snr * (f / snr)) with f in M by (field; lra). exact M.
Qed.
Lemma max_left a b : b <= a -> Rmax a b = a. Proof. intros; now apply Rmax_left. Qed.
(** The default: the square root of a flux, and never less than a quarter. *)
Theorem C54_default : forall flux s f, nth_error flux s = Some f -> f <> 0 -> nth_error (default_unc flux) s = Some (Some (if Rlt_dec (1 / 4) f then sqrt f else Rabs f + 1 / 4)).
Proof.
  intros flux s f Hs Hf. unfold default_unc. rewrite nth_error_map. assert (Ab : 0 < Rabs f) by (apply Rabs_pos_lt; exact Hf). set (q := sqrt (Rabs f)). assert (Hq : 0 < q) by (apply sqrt_lt_R0; exact Ab). assert (Eq : q * q = Rabs f) by (apply sqrt_sqrt; lra).
  assert (En : BoundsModel.noise_of 1 f = Some q). { unfold BoundsModel.noise_of, BoundsModel.div. fold q. destruct (Req_EM_T (q / 1) 0) as [E|E]; [exfalso; apply Rgt_not_eq in Hq; apply Hq; lra|]. f_equal. rewrite <- Eq. field. lra. }
  assert (Em : BoundsModel.fmin 1 = 1 / 4) by (unfold BoundsModel.fmin; field). assert (Hh : BoundsModel.flux_hi 1 f = Some (Rmax (f + q) (1 / 4))) by (unfold BoundsModel.flux_hi; now rewrite En, Em).
  assert (Hl : BoundsModel.flux_lo 1 f = Some (if Rle_dec f (1 / 4) then Rmin (f - q) (- (1 / 4)) else f - q)). { unfold BoundsModel.flux_lo. rewrite En, Em. cbn [BoundsModel.lift]. destruct (Rle_dec f (1 / 4)); reflexivity. }
  assert (Ec : forall hs, nth_error (combine (combine (map (BoundsModel.flux_lo 1) flux) (map (fun h => match h with None => hs | Some x => Some x end) (map (BoundsModel.flux_hi 1) flux))) flux) s = Some (BoundsModel.flux_lo 1 f, BoundsModel.flux_hi 1 f, f)).
  { intros hs. clear -Hs Hh. revert s Hs. induction flux as [|y flux IH]; intros [|s] Hs; cbn in Hs; try discriminate; [|now apply IH]. injection Hs as ->. cbn. now rewrite Hh. }
  unfold BoundsModel.flux_bounds. rewrite Ec, Hl, Hh. cbn [option_map]. do 2 f_equal. pose proof (Rle_0_sqr (q - 1 / 2)) as Sq. unfold Rsqr in Sq.
  destruct (Rlt_dec (1 / 4) f) as [L|L], (Rle_dec f (1 / 4)) as [L'|L']; try lra.
  - assert (Ea : Rabs f = f) by (apply Rabs_right; lra). assert (sqrt f = q) as -> by (unfold q; now rewrite Ea). rewrite (max_left (f + q) (1 / 4)) by lra. replace (f - q - f) with (- q) by ring. rewrite Rabs_Ropp, (Rabs_right q) by lra. replace (f + q - f) with q by ring. rewrite (Rabs_right q) by lra. apply max_left. lra.
  - unfold Rmin, Rmax, Rabs in *. repeat (destruct Rle_dec || destruct Rcase_abs); nra.
Qed.
(** The default does not keep to that ratio. *)
Theorem C54_default_snr_refuted : forall flux s f snr, nth_error flux s = Some f -> 1 / 2 < snr -> snr * snr < f -> exists u, nth_error (default_unc flux) s = Some (Some u) /\ snr * u < f.
Proof.
  intros flux s f snr Hs H1 H2. assert (1 / 4 < f) by nra. exists (sqrt f). rewrite (C54_default flux s f Hs) by lra. destruct (Rlt_dec (1 / 4) f); [|lra]. split; [reflexivity|]. assert (E : sqrt f * sqrt f = f) by (apply sqrt_sqrt; lra). assert (snr < sqrt f); [|pose proof (sqrt_pos f); nra].
  apply Rsqr_incrst_0; unfold Rsqr; [lra|lra|apply sqrt_pos].
Qed.
(** A flux of exactly zero gets the largest upper bound of the catalog. *)
Theorem C54_zero_flux_refuted : forall F, 1 / 4 < F -> nth_error (default_unc [0; F]) 0 = Some (Some (F + sqrt F)).
Proof.
  intros F HF. unfold default_unc, BoundsModel.flux_bounds. cbn [map combine nth_error]. pose proof (sqrt_lt_R0 F ltac:(lra)) as Hq. assert (Eq : sqrt F * sqrt F = F) by (apply sqrt_sqrt; lra).
  assert (N0 : BoundsModel.noise_of 1 0 = None). { unfold BoundsModel.noise_of, BoundsModel.div. rewrite Rabs_R0, sqrt_0. destruct (Req_EM_T (0 / 1) 0) as [E|E]; [reflexivity|]. exfalso. apply E. field. }
  assert (NF : BoundsModel.noise_of 1 F = Some (sqrt F)). { unfold BoundsModel.noise_of, BoundsModel.div. rewrite (Rabs_right F) by lra. destruct (Req_EM_T (sqrt F / 1) 0) as [E|E]; [exfalso; apply Rgt_not_eq in Hq; apply Hq; lra|]. f_equal. rewrite <- Eq at 1. field. lra. }
  assert (H0 : BoundsModel.flux_hi 1 0 = None) by (unfold BoundsModel.flux_hi; now rewrite N0). assert (HFh : BoundsModel.flux_hi 1 F = Some (F + sqrt F)). { unfold BoundsModel.flux_hi. rewrite NF. cbn [BoundsModel.lift]. f_equal. unfold BoundsModel.fmin. apply max_left. lra. }
  assert (L0 : BoundsModel.flux_lo 1 0 = Some 0). { unfold BoundsModel.flux_lo. rewrite N0. cbn [BoundsModel.lift]. destruct (Rle_dec 0 (BoundsModel.fmin 1)); reflexivity. }
  rewrite L0, H0, HFh. cbn [BoundsModel.nanmax fold_right]. do 2 f_equal. rewrite !Rminus_0_r, Rabs_R0, Rabs_right by lra. apply Rmax_right. lra.
Qed.
(** One patch without precision matrices, and there are no uncertainties at all. *)
Theorem C54_missing_refuted : forall pinv snr bandlist final patches p, In p patches -> p_prec p = None -> p_bands p <> [] -> flux_unc_linear pinv snr bandlist final patches = None.
Proof.
  intros pinv snr bandlist final patches p Hin Hp Hb. unfold flux_unc_linear. assert (Nn : forall ps, fold_left (fill_patch pinv snr) ps None = None).
  { assert (Pn : forall q, fill_patch pinv snr None q = None). { intros q. unfold fill_patch. generalize (combine (seq 0 (len (p_bands q))) (p_bands q)). induction l as [|x l IH]; auto. } induction ps as [|q ps IH]; auto. cbn. now rewrite Pn. }
  generalize (fill_default final bandlist). induction patches as [|q patches IH]; intros o; [destruct Hin|]. cbn [fold_left]. destruct Hin as [->|Hin]; [|now apply IH]. enough (E : fill_patch pinv snr o p = None) by now rewrite E.
  unfold fill_patch. destruct (p_bands p) as [|b l]; [congruence|]. cbn [List.length seq combine fold_left]. assert (E : match o with Some unc => fill_band pinv snr p unc (0%nat, b) | None => None end = None). { destruct o as [U|]; [|reflexivity]. unfold fill_band. cbn [snd]. rewrite Hp. now destruct (field (p_final p) b). }
  rewrite E. generalize (combine (seq 1 (len l)) l). induction l0 as [|x l0 IH0]; auto.
Qed.
Print Assumptions C54_append.
Print Assumptions C54_append_unnamed_refuted.
Print Assumptions C54_append_shifted_refuted.
Print Assumptions C54_uncertainties.
Print Assumptions C54_snr.
Print Assumptions C54_default.
Print Assumptions C54_default_snr_refuted.
Print Assumptions C54_zero_flux_refuted.
Print Assumptions C54_missing_refuted.
