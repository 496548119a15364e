(** C74: demonstration runs combine, fit and summarise what they say. *)
From Verif Require Import Np.
From Coq Require Import Reals Permutation Lra Lia Psatz Sorted.
From Verif Require Import IdentModel QuantModel QuantFacts QuantProps ProfileModel CornerModel CornerFacts CornerProps ProfModel ProfProps ChainFacts DemoModel.
From Verif Require ImagesModel ImagesCase IdentFacts StampModel MockModel ProfileProps.
Import ListNotations.
Open Scope R_scope.

(** ** Mosaics *)
Lemma combine_into_length exps : forall final n, List.length final = n -> (forall e, In e exps -> List.length e = n) -> List.length (combine_into final exps) = n.
Proof.
  induction exps as [|e t IH]; intros final n Hf He; cbn [combine_into]; [exact Hf|]. apply IH; [|intros x Hx; apply He; now right].
  rewrite map_length, combine_length, Hf, (He e (or_introl eq_refl)). apply Nat.min_id.
Qed.
Lemma combine_into_nth exps : forall final k a ps, nth_error final k = Some a -> Forall2 (fun e p => nth_error e k = Some p) exps ps ->
  nth_error (combine_into final exps) k = Some (fold_left accumulate ps a).
Proof.
  induction exps as [|e t IH]; intros final k a ps Ha F; inversion F as [|? p ? ps' Hp F']; subst; cbn [combine_into fold_left]; [exact Ha|].
  apply IH; [|exact F']. rewrite nth_error_map, (combine_at final e k a p Ha Hp). reflexivity.
Qed.
Lemma accumulate_some ps : forall m w, 0 < w -> (forall p, In p ps -> 0 <= snd p) ->
  fold_left accumulate (map (fun p => (Some (fst p), snd p)) ps) (Some m, w) =
  (Some ((m * w + sumr (map (fun p => snd p * fst p) ps)) / (w + sumr (map snd ps))), w + sumr (map snd ps)).
Proof.
  induction ps as [|p ps IH]; intros m w Hw Hp; cbn [map fold_left].
  - unfold sumr. cbn [fold_right]. f_equal; [f_equal; field; lra|lra].
  - pose proof (Hp p (or_introl eq_refl)) as P0. unfold accumulate at 2. cbn [fst snd]. destruct (Req_EM_T (w + snd p) 0) as [Z|Z]; [lra|].
    rewrite IH; [|lra|intros q Hq; apply Hp; now right]. rewrite !sumr_cons.
    pose proof (sumr_nonneg (map snd ps)) as Sn. assert (0 <= sumr (map snd ps)). { apply Sn. intros x Hx. apply in_map_iff in Hx. destruct Hx as (q & <- & Hq). apply Hp. now right. }
    f_equal; [f_equal; field; lra|lra].
Qed.
(** A pixel on which every exposure has a value, and the first of them some weight, is the mean of the values with their
    weights, and has the sum of the weights *)
Theorem C74_mosaic : forall driz wt_scale n exps k ps, (k < n)%nat ->
  Forall2 (fun e p => nth_error (drizzled driz wt_scale e) k = Some (Some (fst p), snd p)) exps ps -> (forall p, In p ps -> 0 <= snd p) -> (exists p, hd_error ps = Some p /\ 0 < snd p) ->
  nth_error (drizzle_combine driz wt_scale n exps) k = Some (Some (sumr (map (fun p => snd p * fst p) ps) / sumr (map snd ps)), sumr (map snd ps)) /\
  rms (sumr (map snd ps)) = Some (1 / sqrt (sumr (map snd ps))) /\
  forall lo hi, (forall p, In p ps -> lo <= fst p <= hi) -> lo <= sumr (map (fun p => snd p * fst p) ps) / sumr (map snd ps) <= hi.
Proof.
  intros driz s n exps k ps Hk F Hp (p & Hh & P0). destruct ps as [|p' ps]; [discriminate|]. injection Hh as ->.
  assert (Sn : 0 <= sumr (map snd ps)). { apply sumr_nonneg. intros x Hx. apply in_map_iff in Hx. destruct Hx as (q & <- & Hq). apply Hp. now right. }
  assert (St : 0 < sumr (map snd (p :: ps))) by (cbn [map]; rewrite sumr_cons; lra). split; [|split].
  - unfold drizzle_combine.
    rewrite (combine_into_nth _ _ k (Some 0, 0) (map (fun p => (Some (fst p), snd p)) (p :: ps))).
    + f_equal. cbn [map fold_left]. unfold accumulate at 2. cbn [fst snd]. destruct (Req_EM_T (0 + snd p) 0) as [Z|Z]; [lra|].
      rewrite accumulate_some; [|lra|intros q Hq; apply Hp; now right]. cbn [map] in *. rewrite !sumr_cons in *. f_equal; [f_equal; field; lra|lra].
    + rewrite nth_error_repeat by exact Hk. reflexivity.
    + clear - F. induction F; cbn [map]; constructor; auto.
  - unfold rms. destruct (Rlt_dec 0 _); [reflexivity|contradiction].
  - intros lo hi B. assert (G : forall qs, (forall q, In q qs -> 0 <= snd q) -> (forall q, In q qs -> lo <= fst q <= hi) -> lo * sumr (map snd qs) <= sumr (map (fun q => snd q * fst q) qs) <= hi * sumr (map snd qs)).
    { induction qs as [|q qs IH]; intros A1 A2; cbn [map]; [unfold sumr; cbn; lra|]. rewrite !sumr_cons. specialize (IH (fun x Hx => A1 x (or_intror Hx)) (fun x Hx => A2 x (or_intror Hx))).
      pose proof (A1 q (or_introl eq_refl)). pose proof (A2 q (or_introl eq_refl)). nra. }
    destruct (G (p :: ps) Hp B) as [G1 G2]. split; [apply Rmult_le_reg_r with (1 := St)|apply Rmult_le_reg_r with (1 := St)]; unfold Rdiv; rewrite Rmult_assoc, Rinv_l, Rmult_1_r; lra.
Qed.
Print Assumptions C74_mosaic.
(** ... whatever the order of the exposures *)
Theorem C74_mosaic_order : forall driz wt_scale n exps exps' k, Permutation exps exps' -> (k < n)%nat ->
  (forall e, In e exps -> exists v w, nth_error (drizzled driz wt_scale e) k = Some (Some v, w) /\ 0 < w) ->
  nth_error (drizzle_combine driz wt_scale n exps) k = nth_error (drizzle_combine driz wt_scale n exps') k.
Proof.
  intros driz s n exps exps' k P Hk He.
  set (f := fun e => match nth_error (drizzled driz s e) k with Some (Some v, w) => (v, w) | _ => (0, 0) end).
  assert (F : forall l, (forall e, In e l -> In e exps) -> Forall2 (fun e p => nth_error (drizzled driz s e) k = Some (Some (fst p), snd p)) l (map f l) /\ forall p, In p (map f l) -> 0 < snd p).
  { induction l as [|e l IH]; intros Hl; [split; [constructor|intros p []]|]. destruct IH as [I1 I2]; [intros x Hx; apply Hl; now right|]. destruct (He e (Hl e (or_introl eq_refl))) as (v & w & E & W).
    assert (Ef : f e = (v, w)) by (unfold f; now rewrite E). cbn [map]. split; [constructor; [rewrite Ef; exact E|exact I1]|]. intros p [<-|Hp]; [rewrite Ef; exact W|now apply I2]. }
  destruct exps as [|e0 l0]; [apply Permutation_nil in P; now subst|]. destruct exps' as [|e1 l1]; [symmetry in P; apply Permutation_nil in P; discriminate|].
  destruct (F (e0 :: l0) (fun e H => H)) as [A1 A2]. destruct (F (e1 :: l1) (fun e H => Permutation_in e (Permutation_sym P) H)) as [B1 B2].
  destruct (C74_mosaic driz s n _ k _ Hk A1) as [E1 _]; [intros p Hp; apply Rlt_le; now apply A2|exists (f e0); split; [reflexivity|apply A2; now left]|].
  destruct (C74_mosaic driz s n _ k _ Hk B1) as [E2 _]; [intros p Hp; apply Rlt_le; now apply B2|exists (f e1); split; [reflexivity|apply B2; now left]|].
  rewrite E1, E2. rewrite !map_map. rewrite (sumr_perm _ _ (Permutation_map (fun x => snd (f x) * fst (f x)) P)), (sumr_perm _ _ (Permutation_map (fun x => snd (f x)) P)). reflexivity.
Qed.
Print Assumptions C74_mosaic_order.
(** The scale of the weights is of no consequence when drizzling is homogeneous in the weights *)
Theorem C74_weight_scale : forall (driz : drizzler) s1 s2 n exps, 0 < s1 -> 0 < s2 ->
  (forall im w c, 0 < c -> driz im (map (Rmult c) w) = map (fun p => (fst p, c * snd p)) (driz im w)) ->
  drizzle_combine driz s1 n exps = drizzle_combine driz s2 n exps.
Proof.
  intros driz s1 s2 n exps H1 H2 Hom. unfold drizzle_combine. f_equal. apply map_ext. intros [im err]. unfold drizzled. cbn [fst snd].
  assert (G : forall s, 0 < s -> map (fun p : dpix => (fst p, snd p / s)) (driz im (map (fun e => 1 / e ^ 2 * s) err)) = driz im (map (fun e => 1 / e ^ 2) err)).
  { intros s Hs. rewrite (map_ext _ (fun e => Rmult s (1 / e ^ 2))) by (intros; apply Rmult_comm). rewrite <- (map_map (fun e => 1 / e ^ 2) (Rmult s)), Hom, map_map by exact Hs.
    rewrite <- (map_id (driz im _)) at 2. apply map_ext. intros [v w]. cbn [fst snd]. f_equal. field. lra. }
  exact (eq_trans (G s1 H1) (eq_sym (G s2 H2))).
Qed.
Print Assumptions C74_weight_scale.
(** Refuted: a pixel that one exposure misses is lost, whatever the others have there; its weight is not *)
Theorem C74_uncovered_refuted : forall driz wt_scale n exps k ps, (k < n)%nat ->
  Forall2 (fun e p => nth_error (drizzled driz wt_scale e) k = Some p) exps ps -> (exists p, In p ps /\ fst p = None) ->
  nth_error (drizzle_combine driz wt_scale n exps) k = Some (None, sumr (map snd ps)).
Proof.
  intros driz s n exps k ps Hk F (p & Hp & Np). unfold drizzle_combine. rewrite (combine_into_nth _ _ k (Some 0, 0) ps).
  - assert (G : forall l v w, (v = None \/ In p l) -> fold_left accumulate l (v, w) = (None, w + sumr (map snd l))).
    { induction l as [|q l IH]; intros v w H; cbn [fold_left map].
      - destruct H as [->|[]]. f_equal. unfold sumr. cbn. lra.
      - rewrite sumr_cons. unfold accumulate at 2. cbn [fst snd]. rewrite IH.
        + f_equal. lra.
        + destruct H as [->|[->|H]]; [now left| |now right]. left. rewrite Np. destruct v; reflexivity. }
    rewrite G by now right. f_equal. f_equal. lra.
  - rewrite nth_error_repeat by exact Hk. reflexivity.
  - clear - F. induction F; cbn [map]; constructor; auto.
Qed.
Print Assumptions C74_uncovered_refuted.
(** Refuted: the header of the first exposure is not what the mosaic gets, its primary unit has none *)
Theorem C74_header_refuted : forall nx ny im unc h bands noise scene,
  let file := MockModel.write_fits_to nx ny im unc h bands noise scene in
  (exists rows, nth_error file 1 = Some (MockModel.Image "SCI" rows h)) /\ hdr_out file = None.
Proof. intros nx ny im unc h bands noise scene file. split; [eexists|]; reflexivity. Qed.
Print Assumptions C74_header_refuted.
(** Where the drizzling leaves a pixel as it is, the mosaic has the mean with the inverse variances as weights, and an
    uncertainty whose inverse square is the sum of theirs *)
Theorem C74_mosaic_variance : forall driz wt_scale n exps k vs, 0 < wt_scale -> (k < n)%nat -> exps <> [] ->
  (forall im w v x, nth_error im k = Some v -> nth_error w k = Some x -> nth_error (driz im w) k = Some (Some v, x)) ->
  Forall2 (fun e p => nth_error (fst e) k = Some (fst p) /\ nth_error (snd e) k = Some (snd p) /\ 0 < snd p) exps vs ->
  let W := sumr (map (fun p => / (snd p) ^ 2) vs) in
  nth_error (drizzle_combine driz wt_scale n exps) k = Some (Some (sumr (map (fun p => fst p / (snd p) ^ 2) vs) / W), W) /\
  exists sigma, rms W = Some sigma /\ / sigma ^ 2 = W.
Proof.
  intros driz s n exps k vs Hs Hk Hne Hd F W. set (ps := map (fun p : R * R => (fst p, / (snd p) ^ 2)) vs).
  assert (F' : Forall2 (fun e p => nth_error (drizzled driz s e) k = Some (Some (fst p), snd p)) exps ps).
  { unfold ps. clear - F Hd Hs. induction F as [|[im err] [v x] exps vs (H1 & H2 & H3) F IH]; cbn [map]; constructor; [|exact IH]. cbn [fst snd] in *. unfold drizzled. cbn [fst snd]. rewrite nth_error_map.
    rewrite (Hd im _ v (1 / x ^ 2 * s) H1) by (rewrite nth_error_map, H2; reflexivity). cbn [option_map fst snd]. f_equal. f_equal. field. lra. }
  assert (Pv : forall p, In p vs -> 0 < snd p). { clear - F. induction F as [|e p exps vs (_ & _ & H) F IH]; intros q Hq; [destruct Hq|]. destruct Hq as [<-|Hq]; auto. }
  assert (Pp : forall p, In p ps -> 0 < snd p). { intros p Hp. apply in_map_iff in Hp. destruct Hp as (q & <- & Hq). cbn [snd]. apply Rinv_0_lt_compat, pow_lt, Pv, Hq. }
  destruct (C74_mosaic driz s n exps k ps Hk F') as (E & E2 & _); [intros p Hp; apply Rlt_le, Pp, Hp| |].
  { destruct ps as [|p ps'] eqn:Ep; [inversion F'; subst; congruence|]. exists p. split; [reflexivity|apply Pp; now left]. }
  assert (EW : sumr (map snd ps) = W) by (unfold ps, W; rewrite map_map; reflexivity). rewrite EW in *.
  assert (EN : sumr (map (fun p => snd p * fst p) ps) = sumr (map (fun p => fst p / (snd p) ^ 2) vs)) by (unfold ps; rewrite map_map; f_equal; apply map_ext; intros q; cbn [fst snd]; apply Rmult_comm). rewrite EN in E.
  split; [exact E|]. eexists. split; [exact E2|]. unfold rms in E2. destruct (Rlt_dec 0 W) as [HW|]; [|discriminate]. assert (0 < sqrt W) by now apply sqrt_lt_R0.
  replace (/ (1 / sqrt W) ^ 2) with (sqrt W * sqrt W) by (field; lra). apply sqrt_sqrt. lra.
Qed.
Print Assumptions C74_mosaic_variance.
(** A drizzled exposure is written beside the exposure under its name with a prefix; refuted when its directory is named
    after the dithers, then that is another directory *)
Theorem C74_drz_name : forall s, contains "dither" s = false -> drz_name ("dither" ++ s) = ("drz_dither" ++ s)%string /\
  drz_name ("dithers/dither" ++ s) = ("drz_dithers/drz_dither" ++ s)%string.
Proof.
  intros s H. assert (E : drz_name ("dither" ++ s) = ("drz_dither" ++ s)%string) by (unfold drz_name; rewrite IdentFacts.replace_first by discriminate; now rewrite IdentFacts.replace_none).
  split; [exact E|]. change ("dithers/dither" ++ s)%string with ("dither" ++ ("s/" ++ ("dither" ++ s)))%string. unfold drz_name in *. rewrite IdentFacts.replace_first by discriminate. change (replace "dither" "drz_dither" ("s/" ++ ("dither" ++ s)))%string with ("s/" ++ replace "dither" "drz_dither" ("dither" ++ s))%string. now rewrite E.
Qed.
Print Assumptions C74_drz_name.

(** ** Grids *)
Section Grids.
Context {V : Type}.
Lemma product_in (ls : list (list V)) : forall row, In row (product ls) <-> Forall2 (fun v l => In v l) row ls.
Proof.
  induction ls as [|l t IH]; intros row; cbn [product].
  - split; [intros [<-|[]]; constructor|]. intros F. inversion F. now left.
  - rewrite in_flat_map. split.
    + intros (v & Hv & H). apply in_map_iff in H. destruct H as (r & <- & Hr). constructor; [exact Hv|now apply IH].
    + intros F. inversion F as [|v ? r ? Hv Hr]; subst. exists v. split; [exact Hv|]. apply in_map. now apply IH.
Qed.
Lemma product_count (ls : list (list V)) : List.length (product ls) = fold_right (fun l n => (List.length l * n)%nat) 1%nat ls.
Proof.
  induction ls as [|l t IH]; cbn [product fold_right]; [reflexivity|]. rewrite <- IH. clear IH. generalize (product t) as m. intros m. induction l as [|v l IH]; cbn [flat_map List.length]; [reflexivity|]. rewrite app_length, map_length, IH. lia.
Qed.
Lemma product_nodup (ls : list (list V)) : (forall l, In l ls -> NoDup l) -> NoDup (product ls).
Proof.
  induction ls as [|l t IH]; intros H; cbn [product]; [constructor; [intros []|constructor]|].
  specialize (IH (fun x Hx => H x (or_intror Hx))). pose proof (H l (or_introl eq_refl)) as Nl. clear H. revert IH. generalize (product t) as m. intros m Nm.
  induction l as [|v l IHl]; cbn [flat_map]; [constructor|]. inversion Nl as [|? ? Hv Nl']; subst. specialize (IHl Nl').
  assert (N1 : NoDup (map (cons v) m)). { clear - Nm. induction Nm as [|r m Hr Nm IH]; cbn [map]; constructor; [|exact IH]. intros Hi. apply in_map_iff in Hi. destruct Hi as (r' & E & Hr'). injection E as ->. contradiction. }
  assert (D : forall r, In r (map (cons v) m) -> ~ In r (flat_map (fun v => map (cons v) m) l)).
  { intros r H1 H2. apply in_map_iff in H1. destruct H1 as (r1 & <- & _). apply in_flat_map in H2. destruct H2 as (v' & Hv' & H2). apply in_map_iff in H2. destruct H2 as (r2 & E & _). injection E as -> _. contradiction. }
  clear - N1 IHl D. revert N1 D. generalize (map (cons v) m) as a. intros a Na. induction Na as [|x a Hx Na IH]; intros D; cbn [app]; [exact IHl|]. constructor; [|apply IH; intros r Hr; apply D; now right].
  rewrite in_app_iff. intros [Hi|Hi]; [contradiction|exact (D x (or_introl eq_refl) Hi)].
Qed.
Lemma values_of_in (g : grid V) k : In k (map fst g) -> exists v, values_of k g = Some v.
Proof. induction g as [|[k' v] g IH]; intros H; [destruct H|]. cbn [values_of]. destruct (String.eqb_spec k k') as [->|N]; [now exists v|]. destruct H as [H|H]; [cbn in H; congruence|]. now apply IH. Qed.
Lemma values_of_mem (g : grid V) k v : values_of k g = Some v -> In (k, v) g.
Proof. induction g as [|[k' v'] g IH]; [discriminate|]. cbn [values_of]. destruct (String.eqb_spec k k') as [->|N]; [intros K; injection K as ->; now left|]. intros H. right. now apply IH. Qed.
End Grids.
Lemma insert_str_sorted s l : Sorted (fun a b => String.leb a b = true) l -> Sorted (fun a b => String.leb a b = true) (ImagesModel.insert_str s l).
Proof.
  induction l as [|t r IH]; intros H; cbn [ImagesModel.insert_str]; [repeat constructor|]. destruct (String.leb s t) eqn:E; [constructor; [exact H|now constructor]|].
  inversion H as [|? ? H1 H2]; subst. specialize (IH H1). constructor; [exact IH|]. assert (Ets : String.leb t s = true) by (destruct (String.leb_total s t); congruence).
  destruct r as [|u r]; cbn [ImagesModel.insert_str] in *; [now constructor|]. destruct (String.leb s u); [now constructor|]. inversion H2; subst. now constructor.
Qed.
Lemma sort_str_sorted l : Sorted (fun a b => String.leb a b = true) (ImagesModel.sort_str l).
Proof. induction l as [|s l IH]; cbn [ImagesModel.sort_str]; [constructor|now apply insert_str_sorted]. Qed.
(** A specification that is neither a YAML nor a FITS file gives the grid's own combinations: the columns are the names of
    the grid, every row takes one value of every column, every such combination is a row, once if the values are distinct,
    and there are as many rows as the product of the numbers of values; so does a YAML file with its own grid *)
Theorem C74_grid : forall V read_yaml read_fits (g0 g : grid V) spec, contains "fits" spec = false ->
  (if contains "yml" spec then read_yaml spec else Some g0) = Some g -> exists names ls rows,
  make_grid read_yaml read_fits g0 spec = Some (names, rows) /\ Permutation names (map fst g) /\ Sorted (fun a b => String.leb a b = true) names /\
  Forall2 (fun k l => values_of k g = Some l) names ls /\
  (forall row, In row rows <-> Forall2 (fun v l => In v l) row ls) /\
  ((forall k l, In (k, l) g -> NoDup l) -> NoDup rows) /\
  List.length rows = fold_right (fun l n => (List.length l * n)%nat) 1%nat ls.
Proof.
  intros V ry rf g0 g spec Hf Hg. unfold make_grid. rewrite Hg, Hf. unfold rows_of. set (names := ImagesModel.sort_str (map fst g)).
  assert (P : Permutation names (map fst g)) by apply ImagesCase.sort_str_perm.
  destruct (mapM_total (fun k => values_of k g) names) as (ls & E). { intros k Hk. apply values_of_in. now apply (Permutation_in _ P). }
  rewrite E. exists names, ls, (product ls). split; [reflexivity|]. split; [exact P|]. split; [apply sort_str_sorted|].
  assert (F : Forall2 (fun k l => values_of k g = Some l) names ls). { clear P. revert ls E. induction names as [|k names IH]; intros ls E; cbn [mapM] in E; [injection E as <-; constructor|]. destruct (values_of k g) as [l|] eqn:El; [|discriminate]. destruct (mapM _ names) as [ls'|] eqn:Els; [|discriminate]. injection E as <-. constructor; [exact El|]. now apply IH. }
  split; [exact F|]. split; [apply product_in|]. split; [|apply product_count]. intros Hd. apply product_nodup. intros l Hl.
  clear - F Hl Hd. induction F as [|k l' names ls Hk F IH]; [destruct Hl|]. destruct Hl as [<-|Hl]; [|now apply IH]. apply (Hd k). now apply values_of_mem.
Qed.
Print Assumptions C74_grid.
(** Refuted: whether a file is YAML or FITS is decided by the whole of its path *)
Theorem C74_grid_path_refuted : exists spec, contains ".yml" spec = true /\ forall V read_yaml read_fits (g0 g : grid V), read_yaml spec = Some g -> make_grid read_yaml read_fits g0 spec = read_fits spec.
Proof. exists "fits/grid.yml"%string. split; [reflexivity|]. intros V ry rf g0 g H. unfold make_grid. change (contains "yml" "fits/grid.yml") with true. change (contains "fits" "fits/grid.yml") with true. now rewrite H. Qed.
Print Assumptions C74_grid_path_refuted.

Lemma tag_eqb_spec a b : tag_eqb a b = true <-> a = b.
Proof.
  destruct a as [[[a1 a2] a3] a4], b as [[[b1 b2] b3] b4]. unfold tag_eqb. rewrite !andb_true_iff, !Z.eqb_eq. split; [intros [[[-> ->] ->] ->]; reflexivity|intros E; injection E; auto].
Qed.
Lemma on_disk_first (t : Z * Z * Z * Z) d p : on_disk t d = Some p -> In (t, p) d.
Proof. induction d as [|[t' p'] d IH]; [discriminate|]. cbn [on_disk]. destruct (tag_eqb t t') eqn:E; [apply tag_eqb_spec in E; subst; intros K; injection K as ->; now left|intros H; right; auto]. Qed.
Lemma on_disk_new t d p : on_disk t ((t, p) :: d) = Some p.
Proof. cbn [on_disk]. now rewrite (proj2 (tag_eqb_spec t t) eq_refl). Qed.
Lemma on_disk_old t t' d p : t <> t' -> on_disk t ((t', p) :: d) = on_disk t d.
Proof. intros H. cbn [on_disk]. destruct (tag_eqb t t') eqn:E; [apply tag_eqb_spec in E; contradiction|reflexivity]. Qed.
(** What is fitted for a row: the image that was there, or else that of the first row with its tag *)
Theorem C74_grid_fits : forall ps d,
  let used := snd (run_grid d ps) in
  List.length used = List.length ps /\
  forall i p, nth_error ps i = Some p -> nth_error used i = Some (match on_disk (tag_of p) d with Some im => im | None =>
    match find (fun p' => tag_eqb (tag_of p) (tag_of p')) ps with Some p' => p' | None => p end end).
Proof.
  induction ps as [|p ps IH]; intros d; cbn [run_grid snd List.length find]; [split; [reflexivity|intros [|i] p H; discriminate]|].
  set (d' := match on_disk (tag_of p) d with Some _ => d | None => (tag_of p, p) :: d end). destruct (IH d') as [L N]. destruct (run_grid d' ps) as [d'' l] eqn:E. cbn [snd] in *.
  split; [cbn [List.length]; now rewrite L|]. intros [|i] q H; cbn [nth_error] in *.
  - injection H as <-. rewrite (proj2 (tag_eqb_spec (tag_of p) (tag_of p)) eq_refl). f_equal. unfold d'. destruct (on_disk (tag_of p) d) as [im|] eqn:O; [now rewrite O|]. now rewrite on_disk_new.
  - rewrite (N i q H). f_equal. unfold d'. destruct (on_disk (tag_of p) d) as [im|] eqn:O.
    + destruct (on_disk (tag_of q) d) as [im'|] eqn:Oq; [reflexivity|]. destruct (tag_eqb (tag_of q) (tag_of p)) eqn:Eq; [|reflexivity]. apply tag_eqb_spec in Eq. rewrite Eq in Oq. congruence.
    + destruct (tag_eqb (tag_of q) (tag_of p)) eqn:Eq; [apply tag_eqb_spec in Eq; rewrite Eq, on_disk_new, O; reflexivity|].
      rewrite on_disk_old; [reflexivity|]. intros K. apply tag_eqb_spec in K. congruence.
Qed.
Print Assumptions C74_grid_fits.
(** ... so that with nothing there beforehand and every row with its own tag, every row is fitted to its own image *)
Theorem C74_grid_own : forall ps, (forall i j p q, nth_error ps i = Some p -> nth_error ps j = Some q -> tag_of p = tag_of q -> i = j) -> snd (run_grid [] ps) = ps.
Proof.
  intros ps Hd. destruct (C74_grid_fits ps []) as [L N]. apply (nth_ext _ _ (mkPar 0 0 0 0) (mkPar 0 0 0 0) L). intros i Hi. rewrite L in Hi.
  destruct (nth_error ps i) as [p|] eqn:E; [|apply nth_error_None in E; lia]. specialize (N i p E). cbn [on_disk] in N. rewrite (nth_error_nth _ _ _ N), (nth_error_nth _ _ _ E).
  destruct (find _ ps) as [p'|] eqn:F; [|reflexivity]. apply find_some in F. destruct F as [Hin Ht]. apply tag_eqb_spec in Ht. apply In_nth_error in Hin. destruct Hin as (j & Hj).
  pose proof (Hd i j p p' E Hj Ht) as ->. congruence.
Qed.
Print Assumptions C74_grid_own.
(** ... which rows have that are more than a printed step apart in one of the four numbers *)
Theorem C74_grid_steps : forall ps, (forall i j p q, nth_error ps i = Some p -> nth_error ps j = Some q -> i <> j ->
    1 / 10 < Rabs (g_sersic p - g_sersic q) \/ 1 / 1000 < Rabs (g_rhalf p - g_rhalf q) \/ 1 / 100 < Rabs (g_q p - g_q q) \/ 1 < Rabs (g_snr p - g_snr q)) ->
  snd (run_grid [] ps) = ps.
Proof.
  intros ps H. apply C74_grid_own. intros i j p q Hp Hq Ht. destruct (Nat.eq_dec i j) as [|N]; [assumption|]. exfalso.
  assert (G : forall u v, round_even u = round_even v -> Rabs (u - v) <= 1).
  { intros u v E. pose proof (round_even_near u) as B1. pose proof (round_even_near v) as B2. rewrite E in B1. apply abs_le_inv in B1, B2. apply Rabs_le. lra. }
  assert (K : forall c u v, 0 < c -> round_even (c * u) = round_even (c * v) -> Rabs (u - v) <= 1 / c).
  { intros c u v Hc E. apply G in E. rewrite <- Rmult_minus_distr_l, Rabs_mult, (Rabs_pos_eq c) in E by lra. apply (Rmult_le_reg_l c); [lra|]. replace (c * (1 / c)) with 1 by (field; lra). exact E. }
  unfold tag_of in Ht. assert (E1 : round_even (10 * g_sersic p) = round_even (10 * g_sersic q)) by congruence. assert (E2 : round_even (1000 * g_rhalf p) = round_even (1000 * g_rhalf q)) by congruence.
  assert (E3 : round_even (100 * g_q p) = round_even (100 * g_q q)) by congruence. assert (E4 : round_even (g_snr p) = round_even (g_snr q)) by congruence.
  apply K in E1; [|lra]. apply K in E2; [|lra]. apply K in E3; [|lra]. apply G in E4. destruct (H i j p q Hp Hq N) as [?|[?|[?|?]]]; lra.
Qed.
Print Assumptions C74_grid_steps.
Lemma round_even_close u v m : Rabs (u - IZR m) < 1 / 2 -> Rabs (v - IZR m) < 1 / 2 -> round_even u = round_even v.
Proof.
  assert (G : forall u, Rabs (u - IZR m) < 1 / 2 -> round_even u = m).
  { intros x Hx. pose proof (round_even_near x) as B. apply abs_le_inv in B. apply Rabs_def2 in Hx. assert (A1 : IZR (round_even x) < IZR m + 1) by lra. assert (A2 : IZR m - 1 < IZR (round_even x)) by lra.
    rewrite <- plus_IZR in A1. rewrite <- minus_IZR in A2. apply lt_IZR in A1, A2. lia. }
  intros Hu Hv. now rewrite (G u Hu), (G v Hv).
Qed.
(** Refuted: rows that agree to the printed digits are fitted to one image, that of the first of them *)
Theorem C74_tags_refuted : forall p q, p <> q -> tag_of p = tag_of q -> snd (run_grid [] [p; q]) = [p; p].
Proof.
  intros p q Hne Ht. destruct (C74_grid_fits [p; q] []) as [L N]. pose proof (N 0%nat p eq_refl) as N0. pose proof (N 1%nat q eq_refl) as N1. cbn [on_disk find] in N0, N1.
  rewrite (proj2 (tag_eqb_spec _ _) eq_refl) in N0. rewrite Ht, (proj2 (tag_eqb_spec _ _) eq_refl) in N1. destruct (snd (run_grid [] [p; q])) as [|a [|b [|]]]; try discriminate. cbn in N0, N1. congruence.
Qed.
Print Assumptions C74_tags_refuted.
Theorem C74_tags_collide : exists p q, g_sersic p <> g_sersic q /\ tag_of p = tag_of q.
Proof.
  exists (mkPar (1 / 10) 1 1 50), (mkPar (1 / 10) (104 / 100) 1 50). split; [cbn [g_sersic]; lra|]. unfold tag_of. cbn [g_sersic g_rhalf g_q g_snr].
  replace (round_even (10 * (104 / 100))) with (round_even (10 * 1)); [reflexivity|]. apply (round_even_close _ _ 10); apply Rabs_def1; lra.
Qed.
Print Assumptions C74_tags_collide.
(** The image is between 64 and 256 pixels wide, and ten half-light radii to either side when that is between *)
Theorem C74_size : forall rhalf scale, 0 < scale -> (64 <= size_img rhalf scale <= 256)%Z /\
  (64 * scale <= 20 * rhalf <= 256 * scale -> IZR (size_img rhalf scale) * scale <= 20 * rhalf < (IZR (size_img rhalf scale) + 1) * scale).
Proof.
  intros rhalf scale Hs. unfold size_img. set (v := Rmin (Rmax (20 * rhalf / scale) 64) 256). pose proof (int_part_bounds v) as [B1 B2].
  assert (Hv : 64 <= v <= 256). { unfold v. split; [apply Rmin_glb; [apply Rmax_r|lra]|apply Rmin_r]. } split.
  - split; [|apply le_IZR; lra]. assert (A : 64 - 1 < IZR (Int_part v)) by lra. rewrite <- minus_IZR in A. apply lt_IZR in A. lia.
  - intros [H1 H2]. assert (Ev : v = 20 * rhalf / scale). { unfold v. assert (A1 : 64 <= 20 * rhalf / scale); [|assert (A2 : 20 * rhalf / scale <= 256); [|rewrite Rmax_left, Rmin_left; [reflexivity|lra|lra]]]; [apply (Rmult_le_reg_r scale); [lra|]; unfold Rdiv; rewrite Rmult_assoc, Rinv_l by lra; lra|apply (Rmult_le_reg_r scale); [lra|]; unfold Rdiv; rewrite Rmult_assoc, Rinv_l by lra; lra]. }
    assert (E : v * scale = 20 * rhalf) by (rewrite Ev; field; lra). nra.
Qed.
Print Assumptions C74_size.
(** The region of the fit has every pixel of a square image that is more than ten pixels wide, to its corners; at the
    largest of the scales and so at all of them *)
Theorem C74_region : forall nx scales s x y, 10 < nx -> In s scales -> 0 < s -> -(1 / 2) <= x <= nx - 1 / 2 -> -(1 / 2) <= y <= nx - 1 / 2 ->
  let '((cx, cy), r) := fit_region nx nx scales in sqrt (((x - cx) * s) ^ 2 + ((y - cy) * s) ^ 2) < r.
Proof.
  intros nx scales s x y Hn Hs Ps Hx Hy. unfold fit_region. set (l := map (fun s => nx * s) scales). assert (Nl : l <> []) by (unfold l; destruct scales; [destruct Hs|discriminate]).
  destruct (maximum_spec l Nl) as [M _]. assert (HM : nx * s <= maximum l) by (apply M; unfold l; apply in_map_iff; eauto). clear M.
  assert (S2 : 0 < sqrt 2) by (apply sqrt_lt_R0; lra). assert (Q2 : sqrt 2 * sqrt 2 = 2) by (apply sqrt_sqrt; lra).
  assert (P : 0 < nx * s) by (apply Rmult_lt_0_compat; lra).
  apply Rlt_le_trans with (nx * s / sqrt 2 * (11 / 10)).
  - rewrite <- (sqrt_pow2 (nx * s / sqrt 2 * (11 / 10))). 2: { apply Rmult_le_pos; [|lra]. apply Rlt_le, Rdiv_lt_0_compat; assumption. }
    apply sqrt_lt_1. { pose proof (pow2_ge_0 ((x - nx / 2) * s)). pose proof (pow2_ge_0 ((y - nx / 2) * s)). lra. } { apply pow2_ge_0. }
    replace ((nx * s / sqrt 2 * (11 / 10)) ^ 2) with (nx ^ 2 * s ^ 2 * (121 / 200)). 2: { replace ((nx * s / sqrt 2 * (11 / 10)) ^ 2) with (nx ^ 2 * s ^ 2 * (121 / 100) / (sqrt 2 * sqrt 2)) by (field; lra). rewrite Q2. field. }
    replace (((x - nx / 2) * s) ^ 2 + ((y - nx / 2) * s) ^ 2) with (((x - nx / 2) ^ 2 + (y - nx / 2) ^ 2) * s ^ 2) by ring.
    assert (0 < s ^ 2) by (apply pow_lt; exact Ps). assert ((x - nx / 2) ^ 2 <= (nx / 2 + 1 / 2) ^ 2) by nra. assert ((y - nx / 2) ^ 2 <= (nx / 2 + 1 / 2) ^ 2) by nra.
    replace (nx ^ 2 * s ^ 2 * (121 / 200)) with ((nx ^ 2 * (121 / 200)) * s ^ 2) by ring. apply Rmult_lt_compat_r; [assumption|].
    assert (2 * (nx / 2 + 1 / 2) ^ 2 < nx ^ 2 * (121 / 200)). { nra. } lra.
  - apply Rmult_le_compat_r; [lra|]. unfold Rdiv. apply Rmult_le_compat_r; [apply Rlt_le, Rinv_0_lt_compat, S2|exact HM].
Qed.
Print Assumptions C74_region.
(** Refuted: the driver of the grid cannot start, what it imports is defined elsewhere *)
Theorem C74_import_refuted : import psf_plot_names psf_grid_fit_imports = None /\ exists n, In n psf_grid_fit_imports /\ ~ In n psf_plot_names.
Proof. split; [reflexivity|]. exists "make_catalog"%string. split; [cbn; tauto|]. cbn. intuition discriminate. Qed.
Print Assumptions C74_import_refuted.

(** ** Summaries *)
Lemma skipn_nth {A} n : forall (l : list A) k, nth_error (skipn n l) k = nth_error l (n + k).
Proof. induction n as [|n IH]; intros [|x l] k; cbn [skipn Nat.add nth_error]; auto. destruct k; reflexivity. Qed.
Lemma last_n_nth {A} n (l : list A) k : (0 < n <= List.length l)%nat -> List.length (last_n n l) = n /\ nth_error (last_n n l) k = nth_error l (List.length l - n + k).
Proof. intros H. unfold last_n. destruct n as [|n]; [lia|]. split; [rewrite skipn_length; lia|apply skipn_nth]. Qed.
(** What a row of the catalog is to have for a file *)
Definition row_for (n : nat) (cols : list string) (p : nat) (f : option sfile) (r : srow) : Prop :=
  match f with
  | Some s => if Nat.eqb (s_n s) n then
      c_id r = Z.of_nat p /\ c_wall r = s_wall s /\ List.length (c_lnp r) = n /\
      (forall k, (k < n)%nat -> nth_error (c_lnp r) k = nth_error (s_lnp s) (List.length (s_lnp s) - n + k)) /\
      Forall2 (fun c col => exists l, column_of c (s_chains s) = Some [l] /\ List.length col = n /\ forall k, (k < n)%nat -> nth_error col k = nth_error l (List.length l - n + k)) cols (c_cols r)
    else c_id r = (-1)%Z
  | None => c_id r = (-1)%Z
  end.
(** The catalog of a grid has one row for every run, in order: its number, its time, and the last samples of its log
    posterior and of its columns; number -1 for the runs without a file or with another number of samples *)
Theorem C74_catalog : forall cols files s0, first_file files = Some s0 -> (0 < s_n s0)%nat ->
  (forall s, In (Some s) files -> s_n s = s_n s0 -> (s_n s0 <= List.length (s_lnp s))%nat /\ forall c, In c cols -> exists l, column_of c (s_chains s) = Some [l] /\ (s_n s0 <= List.length l)%nat) ->
  exists rows, make_catalog cols files = Some rows /\ List.length rows = List.length files /\
    forall p f r, nth_error files p = Some f -> nth_error rows p = Some r -> row_for (s_n s0) cols p f r.
Proof.
  intros cols files s0 Hf Hn H. unfold make_catalog. rewrite Hf. clear Hf. set (n := s_n s0) in *. clearbody n. clear s0.
  assert (G : forall files p, (forall s, In (Some s) files -> s_n s = n -> (n <= List.length (s_lnp s))%nat /\ forall c, In c cols -> exists l, column_of c (s_chains s) = Some [l] /\ (n <= List.length l)%nat) ->
    exists rows, catalog_rows n cols p files = Some rows /\ List.length rows = List.length files /\ forall i f r, nth_error files i = Some f -> nth_error rows i = Some r -> row_for n cols (p + i) f r).
  { clear files H. induction files as [|f t IH]; intros p H; [exists []; split; [reflexivity|]; split; [reflexivity|]; intros [|i]; discriminate|].
    destruct (IH (S p)) as (rs & E & L & N); [intros s Hs; apply H; now right|]. cbn [catalog_rows]. rewrite E.
    assert (R : exists r, (match f with None => Some (blank n cols) | Some s => if Nat.eqb (s_n s) n then
               match store n (last_n n (s_lnp s)), mapM (fun c => match column_of c (s_chains s) with Some ls => store_sources n ls | None => None end) cols with
               | Some l, Some vs => Some (mkSRow (Z.of_nat p) (s_wall s) l vs) | _, _ => None end else Some (blank n cols) end) = Some r /\ row_for n cols p f r).
    { destruct f as [s|]; [|exists (blank n cols); split; reflexivity]. unfold row_for. destruct (Nat.eqb_spec (s_n s) n) as [Es|Es]; [|exists (blank n cols); split; reflexivity].
      destruct (H s (or_introl eq_refl) Es) as [Hl Hc]. unfold store at 1. rewrite (proj1 (last_n_nth n (s_lnp s) 0 (conj Hn Hl))), Nat.eqb_refl.
      assert (M : exists vs, mapM (fun c => match column_of c (s_chains s) with Some ls => store_sources n ls | None => None end) cols = Some vs /\
        Forall2 (fun c col => exists l, column_of c (s_chains s) = Some [l] /\ List.length col = n /\ forall k, (k < n)%nat -> nth_error col k = nth_error l (List.length l - n + k)) cols vs).
      { clear - Hc Hn. induction cols as [|c cols IH]; [exists []; split; [reflexivity|constructor]|]. destruct IH as (vs & E & F); [intros; apply Hc; now right|]. destruct (Hc c (or_introl eq_refl)) as (l & El & Ll).
        cbn [mapM]. rewrite E, El. cbn [store_sources]. unfold store. rewrite (proj1 (last_n_nth n l 0 (conj Hn Ll))), Nat.eqb_refl. exists (last_n n l :: vs). split; [reflexivity|]. constructor; [|exact F].
        exists l. split; [exact El|]. split; [exact (proj1 (last_n_nth n l 0 (conj Hn Ll)))|]. intros k _. exact (proj2 (last_n_nth n l k (conj Hn Ll))). }
      destruct M as (vs & M & F). rewrite M. eexists. split; [reflexivity|]. cbn [c_id c_wall c_lnp c_cols]. split; [reflexivity|]. split; [reflexivity|]. split; [exact (proj1 (last_n_nth n (s_lnp s) 0 (conj Hn Hl)))|].
      split; [intros k _; exact (proj2 (last_n_nth n (s_lnp s) k (conj Hn Hl)))|exact F]. }
    destruct R as (r & Er & Hr). rewrite Er. exists (r :: rs). split; [reflexivity|]. split; [cbn [List.length]; now rewrite L|]. intros [|i] f' r' Hf' Hr'; cbn [nth_error] in Hf', Hr'.
    - injection Hf' as <-. injection Hr' as <-. rewrite Nat.add_0_r. exact Hr.
    - replace (p + S i)%nat with (S p + i)%nat by lia. exact (N i f' r' Hf' Hr'). }
  destruct (G files 0%nat H) as (rows & E & L & N). exists rows. split; [exact E|]. split; [exact L|]. intros p f r. apply (N p f r).
Qed.
Print Assumptions C74_catalog.
(** Refuted: without any file there is no catalog, and a run with several sources has no place in it *)
Theorem C74_catalog_refuted : forall cols files,
  (first_file files = None -> make_catalog cols files = None) /\
  forall s s0 c l1 l2 ls, first_file files = Some s0 -> In (Some s) files -> s_n s = s_n s0 -> In c cols -> column_of c (s_chains s) = Some (l1 :: l2 :: ls) -> make_catalog cols files = None.
Proof.
  intros cols files. unfold make_catalog. split; [intros ->; reflexivity|]. intros s s0 c l1 l2 ls -> Hs Hn Hc Hl. generalize 0%nat as p. revert Hs. set (n := s_n s0) in *. clearbody n.
  induction files as [|f t IH]; intros Hs p; [destruct Hs|]. cbn [catalog_rows]. destruct Hs as [->|Hs].
  - rewrite Hn, Nat.eqb_refl. assert (M : mapM (fun c => match column_of c (s_chains s) with Some ls => store_sources n ls | None => None end) cols = None).
    { clear - Hc Hl. induction cols as [|c' cols IH]; [destruct Hc|]. cbn [mapM]. destruct Hc as [->|Hc]; [rewrite Hl; reflexivity|]. rewrite (IH Hc). destruct (match column_of c' _ with Some _ => _ | None => _ end); reflexivity. }
    rewrite M. destruct (store n _); reflexivity.
  - rewrite (IH Hs). match goal with |- match ?x with _ => _ end = _ => destruct x; reflexivity end.
Qed.
Print Assumptions C74_catalog_refuted.
(** The sample shown as the best is the first of those whose log posterior no other exceeds *)
Theorem C74_map : forall A lnp (chain : list A), lnp <> [] -> List.length chain = List.length lnp ->
  exists k, get_map lnp chain = nth_error chain k /\ (k < List.length chain)%nat /\
    (forall m, (m < List.length lnp)%nat -> nth m lnp 0 <= nth k lnp 0) /\ forall m, (m < k)%nat -> nth m lnp 0 < nth k lnp 0.
Proof.
  intros A lnp chain Hne Hl. unfold get_map. destruct (argmin (map Ropp lnp)) as [k|] eqn:E; [|destruct lnp; [contradiction|discriminate]]. destruct (argmin_spec _ _ E) as (K & M1 & M2). rewrite map_length in K, M1.
  assert (N : forall m, nth m (map Ropp lnp) 0 = - nth m lnp 0) by (intros m; replace 0 with (- 0) at 1 by lra; apply map_nth).
  exists k. split; [reflexivity|]. split; [lia|]. split; intros m Hm; [specialize (M1 m Hm)|specialize (M2 m Hm)]; rewrite !N in *; lra.
Qed.
Print Assumptions C74_map.
(** A point at the median has bars from the 16th to the 84th percentile *)
Theorem C74_points : forall lnp samples, samples <> [] -> exists lo md hi, percentiles samples [16; 50; 84] = Some [lo; md; hi] /\ lo <= md <= hi /\ point false lnp samples = Some (md, (md - lo, hi - md)).
Proof.
  intros lnp samples Hne. unfold point. set (lo := percentile samples 16). set (md := percentile samples 50). set (hi := percentile samples 84).
  assert (E : percentiles samples [16; 50; 84] = Some [lo; md; hi]) by (apply percentiles_spec; split; [exact Hne|]; split; [intros q [<-|[<-|[<-|[]]]]; lra|reflexivity]).
  pose proof (C53_monotone samples _ _ 0 1 16 50 lo md E eq_refl eq_refl eq_refl eq_refl ltac:(lra)) as A. pose proof (C53_monotone samples _ _ 1 2 50 84 md hi E eq_refl eq_refl eq_refl eq_refl ltac:(lra)) as B.
  exists lo, md, hi. split; [exact E|]. split; [lra|]. rewrite E. cbv zeta. destruct (Rle_dec lo md); [|lra]. destruct (Rle_dec md hi); [reflexivity|lra].
Qed.
Print Assumptions C74_points.
(** Refuted: at the best sample the bars can be negative, and then nothing is drawn *)
Theorem C74_map_point_refuted : forall lnp samples k lo, samples <> [] -> argmin (map Ropp lnp) = Some k -> percentiles samples [16] = Some [lo] -> nth k samples 0 < lo -> point true lnp samples = None.
Proof.
  intros lnp samples k lo Hne Hk Hlo Hlt. destruct (C74_points lnp samples Hne) as (lo' & md & hi & E & _ & _). unfold point. rewrite E, Hk. cbv zeta.
  apply percentiles_spec in E. apply percentiles_spec in Hlo. destruct E as (_ & _ & E), Hlo as (_ & _ & E'). cbn [map] in E, E'. injection E as -> _ _. injection E' as ->. destruct (Rle_dec _ _); [lra|reflexivity].
Qed.
Print Assumptions C74_map_point_refuted.
Lemma last_nodup l : l <> [] -> last (nodup Req_EM_T l) 0 = last l 0.
Proof.
  assert (Lc : forall (x : R) m, m <> [] -> last (x :: m) 0 = last m 0) by (intros x [|y m] H; [contradiction|reflexivity]).
  induction l as [|x l IH]; [contradiction|]. intros _. destruct l as [|y l]; [reflexivity|]. rewrite (Lc x (y :: l)) by discriminate. rewrite <- IH by discriminate.
  assert (N2 : nodup Req_EM_T (y :: l) <> []). { intros Z. assert (I : In y (nodup Req_EM_T (y :: l))) by (apply nodup_In; now left). rewrite Z in I. destruct I. }
  revert N2. clear IH. generalize (y :: l) as m. clear y l. intros m N2. cbn [nodup]. destruct (in_dec Req_EM_T x m); [reflexivity|]. now apply Lc.
Qed.
Lemma sorted_last l : sorted l -> forall y, In y l -> y <= last l 0.
Proof.
  induction l as [|x l IH]; intros Hs y Hy; [destruct Hy|]. apply sorted_cons in Hs. destruct Hs as [H1 H2]. destruct l as [|z l]; [destruct Hy as [->|[]]; cbn; lra|]. change (last (x :: z :: l) 0) with (last (z :: l) 0).
  destruct Hy as [<-|Hy]; [|now apply IH]. apply Rle_trans with z; [apply H1; now left|apply IH; [exact H2|now left]].
Qed.
(** The one panel of a comparison has the runs that are there and whose key is the greatest; without a key it fails *)
Theorem C74_shown : forall key ids, key <> [] -> List.length ids = List.length key ->
  (exists sel, shown (Some key) true ids = Some [sel] /\ List.length sel = List.length key /\
     forall i z v, nth_error ids i = Some z -> nth_error key i = Some v -> (nth_error sel i = Some true <-> (0 <= z)%Z /\ forall u, In u key -> u <= v)) /\
  shown None true ids = None /\
  (exists sels, shown (Some key) false ids = Some sels /\ forall i z v, nth_error ids i = Some z -> nth_error key i = Some v -> (0 <= z)%Z -> exists sel, In sel sels /\ nth_error sel i = Some true).
Proof.
  intros key ids Hne Hl. pose proof (sort_perm key) as P. assert (Ns : sort key <> []) by now apply sort_ne. split; [|split; [reflexivity|]].
  - cbn [shown map]. eexists. split; [reflexivity|]. rewrite last_nodup by exact Ns. split; [rewrite map_length, combine_length; lia|]. intros i z v Hz Hv. rewrite nth_error_map, (combine_at ids key i z v Hz Hv). cbn [option_map fst snd].
    assert (Mx : forall u, In u key -> u <= last (sort key) 0). { intros u Hu. apply sorted_last; [apply sort_sorted|]. apply (Permutation_in _ (Permutation_sym P) Hu). }
    assert (Mi : In (last (sort key) 0) key). { apply (Permutation_in _ P). destruct (sort key) as [|a l]; [contradiction|]. destruct (exists_last Ns) as (l' & b & El). rewrite El, last_last. apply in_or_app. right. now left. }
    split.
    + intros K. injection K as K. apply andb_true_iff in K. destruct K as [K1 K2]. apply Z.leb_le in K1. split; [exact K1|]. destruct (Req_EM_T v (last (sort key) 0)) as [->|N]; [exact Mx|discriminate].
    + intros [K1 K2]. f_equal. apply andb_true_iff. split; [now apply Z.leb_le|]. destruct (Req_EM_T v (last (sort key) 0)) as [E|N]; [reflexivity|]. exfalso. apply N. apply Rle_antisym; [apply Mx; apply nth_error_In in Hv; exact Hv|apply K2; exact Mi].
  - cbn [shown]. eexists. split; [reflexivity|]. intros i z v Hz Hv Hz0. exists (map (fun q => (0 <=? fst q)%Z && (if Req_EM_T (snd q) v then true else false)) (combine ids key)). split.
    + apply (in_map (fun s => map (fun q : Z * R => (0 <=? fst q)%Z && (if Req_EM_T (snd q) s then true else false)) (combine ids key))). apply nodup_In. apply (Permutation_in _ (Permutation_sym P)). now apply nth_error_In in Hv.
    + rewrite nth_error_map, (combine_at ids key i z v Hz Hv). cbn [option_map fst snd]. f_equal. apply andb_true_iff. split; [now apply Z.leb_le|]. destruct (Req_EM_T v v); [reflexivity|contradiction].
Qed.
Print Assumptions C74_shown.
(** Twice the flux within the true half-light radius is the flux of a sample that has that radius, less than it for a
    sample that is larger *)
Theorem C74_apflux : forall sp n rt rh flux, 0 < n -> 0 < rt -> 0 < flux -> ProfileProps.incomplete sp (2 * n) ->
  apflux_ratio sp rt rt n flux = Some flux /\ (rt < rh -> exists a, apflux_ratio sp rt rh n flux = Some a /\ 0 <= a < flux).
Proof.
  intros sp n rt rh flux Hn Hr Hf Hi. unfold apflux_ratio, aperture_flux. split.
  - destruct (ProfileProps.C50_fraction sp n rt Hn Hr Hi) as (_ & E & _). rewrite E. f_equal. field.
  - intros Hlt. destruct (ProfileProps.C50_fraction sp n rh Hn ltac:(lra) Hi) as (_ & E & M & _). destruct (M rt rh ltac:(lra)) as (f1 & f2 & E1 & E2 & B & _). rewrite E1. rewrite E in E2. injection E2 as <-. eexists. split; [reflexivity|]. nra.
Qed.
Print Assumptions C74_apflux.

(** ** Pictures *)
(** The common spans take in the span of every one of the sets, and reach no further *)
Theorem C74_multispan : forall argsort default parsets out, multispan argsort default parsets = Some out ->
  (forall x sp i a b, In x parsets -> get_spans argsort default None x None = Some sp -> nth_error sp i = Some (a, b) -> exists lo hi, nth_error out i = Some (lo, hi) /\ lo <= a /\ b <= hi) /\
  (forall i lo hi, nth_error out i = Some (lo, hi) -> (exists x sp b, In x parsets /\ get_spans argsort default None x None = Some sp /\ nth_error sp i = Some (lo, b)) /\ exists x sp a, In x parsets /\ get_spans argsort default None x None = Some sp /\ nth_error sp i = Some (a, hi)).
Proof.
  intros argsort default parsets out. unfold multispan. set (gs := fun x => get_spans argsort default None x None). destruct (mapM gs parsets) as [[|s t]|] eqn:E; try discriminate. destruct (forallb _ t) eqn:L; [|discriminate]. intros K. injection K as <-.
  assert (Hs : forall x sp, In x parsets -> gs x = Some sp -> In sp (s :: t)). { clear L. revert E. generalize (s :: t) as r. induction parsets as [|y p IH]; intros r E x sp Hx Hsp; [destruct Hx|]. cbn [mapM] in E. destruct (gs y) as [sy|] eqn:Ey; [|discriminate]. destruct (mapM gs p) as [r'|] eqn:Er; [|discriminate]. injection E as <-. destruct Hx as [<-|Hx]; [left; congruence|right; exact (IH r' eq_refl x sp Hx Hsp)]. }
  assert (Hx : forall sp, In sp (s :: t) -> exists x, In x parsets /\ gs x = Some sp). { clear L Hs. revert E. generalize (s :: t) as r. induction parsets as [|y p IH]; intros r E sp Hsp; cbn [mapM] in E; [injection E as <-; destruct Hsp|]. destruct (gs y) as [sy|] eqn:Ey; [|discriminate]. destruct (mapM gs p) as [r'|] eqn:Er; [|discriminate]. injection E as <-. destruct Hsp as [<-|Hsp]; [exists y; split; [now left|exact Ey]|]. destruct (IH r' eq_refl sp Hsp) as (x & Hx & Ex). exists x. split; [now right|exact Ex]. }
  assert (G : forall t acc, (forall u, In u t -> List.length u = List.length acc) ->
    let out := fold_left (fun acc sp => map (fun q : (R * R) * (R * R) => (Rmin (fst (fst q)) (fst (snd q)), Rmax (snd (fst q)) (snd (snd q)))) (combine acc sp)) t acc in
    (forall sp i a b, In sp (acc :: t) -> nth_error sp i = Some (a, b) -> exists lo hi, nth_error out i = Some (lo, hi) /\ lo <= a /\ b <= hi) /\
    (forall i lo hi, nth_error out i = Some (lo, hi) -> (exists sp b, In sp (acc :: t) /\ nth_error sp i = Some (lo, b)) /\ exists sp a, In sp (acc :: t) /\ nth_error sp i = Some (a, hi))).
  { clear. induction t as [|u t IH]; intros acc Hl; cbn [fold_left].
    - split; [intros sp i a b [<-|[]] H; exists a, b; split; [exact H|lra]|]. intros i lo hi H. split; [exists acc, hi|exists acc, lo]; (split; [now left|exact H]).
    - pose proof (Hl u (or_introl eq_refl)) as Lu. set (acc' := map _ (combine acc u)) in *. assert (La : List.length acc' = List.length acc) by (unfold acc'; rewrite map_length, combine_length; lia).
      assert (N : forall i a b c d, nth_error acc i = Some (a, b) -> nth_error u i = Some (c, d) -> nth_error acc' i = Some (Rmin a c, Rmax b d)). { intros i a b c d H1 H2. unfold acc'. rewrite nth_error_map, (combine_at acc u i _ _ H1 H2). reflexivity. }
      assert (Both : forall i, (i < List.length acc)%nat -> exists a b c d, nth_error acc i = Some (a, b) /\ nth_error u i = Some (c, d)). { intros i Hi. destruct (nth_error acc i) as [[a b]|] eqn:E1; [|apply nth_error_None in E1; lia]. destruct (nth_error u i) as [[c d]|] eqn:E2; [|apply nth_error_None in E2; lia]. exists a, b, c, d. auto. }
      destruct (IH acc') as [I1 I2]; [intros v Hv; rewrite La; apply Hl; now right|]. split.
      + intros sp i a b Hsp Hi. assert (Hlt : (i < List.length acc)%nat). { assert (Hlt : (i < List.length sp)%nat) by (apply nth_error_Some; congruence). destruct Hsp as [<-|Hsp]; [exact Hlt|]. rewrite <- (Hl sp Hsp). exact Hlt. }
        destruct Hsp as [<-|[<-|Hsp]].
        * destruct (Both i Hlt) as (a' & b' & c & d & E1 & E2). rewrite E1 in Hi. injection Hi as -> ->. destruct (I1 acc' i _ _ (or_introl eq_refl) (N i _ _ _ _ E1 E2)) as (lo & hi & Eo & A & B). exists lo, hi. split; [exact Eo|]. pose proof (Rmin_l a c). pose proof (Rmax_l b d). lra.
        * destruct (Both i Hlt) as (a' & b' & c & d & E1 & E2). rewrite E2 in Hi. injection Hi as -> ->. destruct (I1 acc' i _ _ (or_introl eq_refl) (N i _ _ _ _ E1 E2)) as (lo & hi & Eo & A & B). exists lo, hi. split; [exact Eo|]. pose proof (Rmin_r a' a). pose proof (Rmax_r b' b). lra.
        * exact (I1 sp i a b (or_intror Hsp) Hi).
      + intros i lo hi Ho. destruct (I2 i lo hi Ho) as [(sp & b & Hsp & Hb) (sp' & a & Hsp' & Ha)].
        assert (Back : forall a b, nth_error acc' i = Some (a, b) -> (exists v, In v [acc; u] /\ exists y, nth_error v i = Some (a, y)) /\ exists v, In v [acc; u] /\ exists y, nth_error v i = Some (y, b)).
        { intros a0 b0 H0. assert (Hlt : (i < List.length acc)%nat) by (rewrite <- La; apply nth_error_Some; congruence). destruct (Both i Hlt) as (a' & b' & c & d & E1 & E2). rewrite (N i _ _ _ _ E1 E2) in H0. injection H0 as <- <-. split.
          - unfold Rmin. destruct (Rle_dec a' c); [exists acc; split; [now left|now exists b']|exists u; split; [right; now left|now exists d]].
          - unfold Rmax. destruct (Rle_dec b' d); [exists u; split; [right; now left|now exists c]|exists acc; split; [now left|now exists a']]. }
        split.
        * destruct Hsp as [<-|Hsp]; [|exists sp, b; split; [right; now right|exact Hb]]. destruct (Back _ _ Hb) as [(v & Hv & y & Ey) _]. exists v, y. split; [destruct Hv as [<-|[<-|[]]]; [now left|right; now left]|exact Ey].
        * destruct Hsp' as [<-|Hsp']; [|exists sp', a; split; [right; now right|exact Ha]]. destruct (Back _ _ Ha) as [_ (v & Hv & y & Ey)]. exists v, y. split; [destruct Hv as [<-|[<-|[]]]; [now left|right; now left]|exact Ey]. }
  destruct (G t s) as [G1 G2]; [intros u Hu; rewrite forallb_forall in L; apply Nat.eqb_eq, L, Hu|]. split.
  - intros x sp i a b Hx' Hsp Hi. exact (G1 sp i a b (Hs x sp Hx' Hsp) Hi).
  - intros i lo hi Ho. destruct (G2 i lo hi Ho) as [(sp & b & Hsp & Hb) (sp' & a & Hsp' & Ha)]. split; [destruct (Hx sp Hsp) as (x & Hx1 & Hx2); exists x, sp, b; auto|destruct (Hx sp' Hsp') as (x & Hx1 & Hx2); exists x, sp', a; auto].
Qed.
Print Assumptions C74_multispan.
(** The panels of a trace are those of the bands and then of the shapes, each with its own samples, between its bounds when
    the result has bounds, else between the percentiles asked for, and with the true value of its own column *)
Theorem C74_trace : forall span bands shapes show_shapes axes chain bounds truth panels, show_chain span bands shapes show_shapes axes chain bounds truth = Some panels ->
  map t_label panels = (if show_shapes then (bands ++ shapes)%list else bands) /\ (0 < List.length panels <= axes)%nat /\
  forall p, In p panels -> chain (t_label p) = Some (t_samples p) /\
    match bounds with Some bd => bd (t_label p) = Some (t_limits p) | None => percentiles (t_samples p) [100 * (1 / 2 - 1 / 2 * span); 100 * (1 / 2 + 1 / 2 * span)] = Some [fst (t_limits p); snd (t_limits p)] end /\
    match truth with Some t => t_truth p = t (t_label p) /\ t_truth p <> None | None => t_truth p = None end.
Proof.
  intros span bands shapes sh axes chain bounds truth panels. unfold show_chain. set (cols := if sh then (bands ++ shapes)%list else bands). destruct (Nat.leb 1 _ && Nat.leb _ axes) eqn:E; [|discriminate].
  apply andb_true_iff in E. destruct E as [E1 E2]. apply Nat.leb_le in E1, E2. intros M.
  match type of M with mapM ?g cols = _ => set (f := g) in * end.
  assert (One : forall c p, f c = Some p -> t_label p = c /\ chain (t_label p) = Some (t_samples p) /\
    match bounds with Some bd => bd (t_label p) = Some (t_limits p) | None => percentiles (t_samples p) [100 * (1 / 2 - 1 / 2 * span); 100 * (1 / 2 + 1 / 2 * span)] = Some [fst (t_limits p); snd (t_limits p)] end /\
    match truth with Some t => t_truth p = t (t_label p) /\ t_truth p <> None | None => t_truth p = None end).
  { intros c p. unfold f. destruct (chain c) as [xx|] eqn:Ec; [|discriminate]. destruct (percentiles xx _) as [[|a [|b [|]]]|] eqn:Ep; try discriminate.
    destruct bounds as [bd|]; [destruct (bd c) as [lim|] eqn:Eb; [|discriminate]|]; (destruct truth as [t|]; [destruct (t c) as [v|] eqn:Et; [|discriminate]|]); intros K; injection K as <-; cbn [t_label t_samples t_limits t_truth fst snd]; repeat split; auto; congruence. }
  clearbody f. assert (L : List.length panels = List.length cols) by (apply mapM_nth in M; lia). split; [|split; [lia|]].
  - clear - M One. revert panels M. induction cols as [|c cols IH]; intros panels M; cbn [mapM] in M; [injection M as <-; reflexivity|]. destruct (f c) as [p|] eqn:Ef; [|discriminate]. destruct (mapM f cols) as [ps|]; [|discriminate]. injection M as <-. cbn [map]. rewrite (IH ps eq_refl). now rewrite (proj1 (One c p Ef)).
  - intros p Hp. apply In_nth_error in Hp. destruct Hp as (i & Hi). apply mapM_nth in M. destruct M as [_ M].
    destruct (nth_error cols i) as [c|] eqn:Ec; [|apply nth_error_None in Ec; assert (i < List.length panels)%nat by (apply nth_error_Some; congruence); lia]. destruct (M i c Ec) as (p' & Hp' & Hc). rewrite Hi in Hp'. injection Hp' as <-. exact (proj2 (One c p Hc)).
Qed.
Print Assumptions C74_trace.
Lemma every_nth {A} thin : (0 < thin)%nat -> forall (l : list A) k i, nth_error (every thin k l) i = nth_error l (k + i * thin).
Proof.
  intros Ht. induction l as [|x l IH]; intros k i; cbn [every]; [destruct i; cbn; [destruct k; reflexivity|]; symmetry; apply nth_error_None; cbn; lia|].
  destruct k as [|k]; [|rewrite IH; reflexivity]. destruct i as [|i]; cbn [nth_error]; [reflexivity|]. rewrite IH. replace (0 + S i * thin)%nat with (S (thin - 1 + i * thin)) by lia. reflexivity.
Qed.
Lemma strided_nth {A} start thin (l : list A) i : (0 < thin)%nat -> nth_error (strided start thin l) i = nth_error l (start + i * thin).
Proof. intros Ht. unfold strided. rewrite every_nth by exact Ht. rewrite skipn_nth. reflexivity. Qed.
(** Refuted: a frame of the movie marks the values of one sample and shows the residual of another, as many samples
    earlier as there were in the warm up *)
Theorem C74_movie_refuted : forall A n_tune thin (chain : list A), (0 < thin)%nat -> exists frames, movie n_tune thin chain = Some frames /\
  (forall i d v, nth_error frames i = Some (d, v) -> nth_error chain (i * thin) = Some d /\ nth_error chain (n_tune + i * thin) = Some v) /\
  forall i v, nth_error chain (n_tune + i * thin) = Some v -> exists d, nth_error frames i = Some (d, v).
Proof.
  intros A n_tune thin chain Ht. unfold movie. set (vals := strided n_tune thin chain). set (deltas := strided 0 thin chain).
  assert (D : forall i, (i < List.length vals)%nat -> exists d, nth_error deltas i = Some d). { intros i Hi. unfold deltas. rewrite strided_nth by exact Ht. cbn [Nat.add].
    assert (Hv : nth_error vals i <> None) by now apply nth_error_Some. unfold vals in Hv. rewrite strided_nth in Hv by exact Ht. apply nth_error_Some in Hv. destruct (nth_error chain (i * thin)) as [d|] eqn:E; [now exists d|apply nth_error_None in E; lia]. }
  destruct (mapM_total (fun iv : nat * A => match nth_error deltas (fst iv) with Some d => Some (d, snd iv) | None => None end) (combine (seq 0 (List.length vals)) vals)) as (fr & E).
  { intros [i v] Hi. apply in_combine_l in Hi. apply in_seq in Hi. destruct (D i ltac:(lia)) as (d & Ed). cbn [fst snd]. rewrite Ed. eauto. }
  exists fr. split; [exact E|]. apply mapM_nth in E. destruct E as [Lf N]. rewrite combine_length, seq_length, Nat.min_id in Lf.
  assert (Main : forall i d v, nth_error fr i = Some (d, v) -> nth_error chain (i * thin) = Some d /\ nth_error chain (n_tune + i * thin) = Some v).
  { intros i d v Hi. assert (Lt : (i < List.length vals)%nat) by (rewrite <- Lf; apply nth_error_Some; congruence).
  destruct (nth_error vals i) as [v'|] eqn:Ev; [|apply nth_error_None in Ev; lia].
  assert (Es : nth_error (seq 0 (List.length vals)) i = Some i). { rewrite (nth_error_nth' _ 0%nat) by (rewrite seq_length; exact Lt). rewrite seq_nth by exact Lt. reflexivity. }
  destruct (N i _ (combine_at _ _ i _ _ Es Ev)) as ([d' w] & Hj & Hd). rewrite Hi in Hj. injection Hj as <- <-. cbn [fst snd] in Hd. destruct (nth_error deltas i) as [d'|] eqn:Ed; [|discriminate]. injection Hd as <- <-.
  unfold deltas in Ed. unfold vals in Ev. rewrite strided_nth in Ed, Ev by exact Ht. split; [exact Ed|exact Ev]. }
  split; [exact Main|]. intros i v Hv. assert (Lt : (i < List.length vals)%nat) by (apply nth_error_Some; unfold vals; rewrite strided_nth by exact Ht; congruence).
  destruct (nth_error fr i) as [[d v']|] eqn:Ei; [|apply nth_error_None in Ei; lia]. destruct (Main i d v' Ei) as [_ M2]. exists d. congruence.
Qed.
Print Assumptions C74_movie_refuted.
