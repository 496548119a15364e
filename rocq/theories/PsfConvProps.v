(** C58: the PSF that is stored and used is the mixture that was fitted *)
From Coq Require Import Reals Lra Lia.
From Coq Require Import ZArith List String Ascii Permutation Bool.
From Verif Require Import Np NpFacts EmModel PsfConvModel PsfConvFacts PsfHmcFacts.
Import ListNotations.
Open Scope R_scope.

(** ** The EM fit: mixtures/psf_mix_em.py to slow/psf.py *)
(** A component that has a density *)
Definition proper (c : comp) : Prop := 0 < sx c /\ 0 < sy c /\ rho c ^ 2 < 1.

Lemma to_gauss_dens os start center c X Y : 0 < os -> proper c ->
  dens (tuple_of (to_gauss os start center c)) X Y =
  os ^ 2 * mvn_pdf (snd center - snd start + os * Y) (fst center - fst start + os * X) c.
Proof.
  intros Ho (H1 & H2 & H3). unfold to_gauss, tuple_of, dens. cbn [gamp mux muy vx vy vxy].
  replace (my c + fst start - fst center) with (my c - (fst center - fst start)) by ring.
  replace (mx c + snd start - snd center) with (mx c - (snd center - snd start)) by ring.
  rewrite gauss_fit by assumption.
  assert (S1 : 0 < sqrt (1 - rho c ^ 2)) by (apply sqrt_lt_R0; lra). assert (P := PI_RGT_0).
  unfold mvn_pdf.
  match goal with |- ?k * (?A * exp ?u) = ?k * (?B * exp ?v) => replace v with u by ring end.
  match goal with |- context [exp ?u] => generalize (exp u) end. intros e.
  field. repeat split; lra.
Qed.

(** A pickled dictionary of fits gives back, under the number of gaussians and the index of the fit, a PSF with as many
    gaussians, of the same amplitudes in the same order, whose value at a detector position (X, Y) from the centre
    is the fitted image at row center + oversample Y and column center + oversample X, in flux per detector pixel. *)
Theorem C58_detector : forall fits nmix i cs fwhm os center,
  nth_error fits i = Some (flat_map six cs) -> 0 < os -> Forall proper cs ->
  exists p ts, get_psf (Some (Pickle [(nmix, fits)])) fwhm (Z.of_nat i) (Some nmix) os center = Some p /\
    as_tuplelist p = Some ts /\ map (fun t : tuple6 => let '(a, _, _, _, _, _) := t in a) ts = map amp cs /\
    forall X Y, rsum (map (fun t => dens t X Y) ts) = os ^ 2 * mix (center + os * Y) (center + os * X) cs.
Proof.
  intros fits nmix i cs fwhm os center Hi Ho Hc.
  assert (Li : (i < List.length fits)%nat) by (apply nth_error_Some; rewrite Hi; discriminate).
  eexists; exists (map tuple_of (map (to_gauss os (0, 0) (center, center)) cs)).
  split; [|split; [|split]].
  - cbn [get_psf by_key]. rewrite Nat.eqb_refl, np_index_nat by assumption. rewrite Hi.
    unfold make_psf, params_to_gauss. rewrite reshape6_six. cbn [option_map]. reflexivity.
  - apply tuples_of_psf.
  - rewrite !map_map. apply map_ext. intros []; reflexivity.
  - intros X Y. unfold mix. rewrite sum_rsum, !map_map, <- rsum_scale.
    f_equal. apply map_ext_in. intros c H. rewrite Forall_forall in Hc.
    rewrite to_gauss_dens by auto. cbn [fst snd]. rewrite !Rminus_0_r. reflexivity.
Qed.
Print Assumptions C58_detector.

(** A fitted vector that is not made of six numbers a gaussian is refused. *)
Theorem C58_reshape : forall f os start center, (exists p, make_psf f os start center = Some p) <-> (exists cs, f = flat_map six cs).
Proof.
  intros f os start center. unfold make_psf, params_to_gauss. split.
  - intros [p H]. destruct (reshape6 f) as [cs|] eqn:E; [|discriminate]. exists cs. exact (rows6_inv _ _ _ E).
  - intros [cs ->]. rewrite reshape6_six. cbn. eauto.
Qed.
Print Assumptions C58_reshape.

(** A structured array of parameters, with the centre in xcr, ycr or in xcen, ycen, gives a PSF with exactly its rows. *)
Definition param_row (xn yn : string) (t : tuple6) : srow :=
  let '(a, x, y, cxx, cyy, cxy) := t in [("amp", a); (xn, x); (yn, y); ("Cxx", cxx); ("Cyy", cyy); ("Cxy", cxy)]%string.
Lemma column_rows k f (g : tuple6 -> srow) ts : (forall t, field k (g t) = Some (f t)) -> column k (map g ts) = Some (map f ts).
Proof. intros H. unfold column. rewrite mapM_map. apply mapM_in. intros; apply H. Qed.
Theorem C58_parameters : forall ts names, In names [("xcr", "ycr"); ("xcen", "ycen")]%string ->
  exists p, get_psf (Some (Hdf5 [("parameters"%string, Dataset [map (param_row (fst names) (snd names)) ts])])) 1 0 None 8 104 = Some p /\
    as_tuplelist p = Some ts.
Proof.
  intros ts names H.
  set (g := fun t : tuple6 => let '(a, x, y, cxx, cyy, cxy) := t in mkGpar x y cxx cyy cxy a).
  exists (mkPsf (List.length (map g ts)) (map (fun g => (mux g, muy g)) (map g ts)) (map gamp (map g ts)) (map (fun g => (vx g, vxy g, vy g)) (map g ts))).
  split.
  - cbn [get_psf by_name String.eqb Ascii.eqb Bool.eqb List.length np_index nth_error]. unfold np_index.
    cbn [Z.of_nat Z.leb Z.ltb Z.compare andb Z.to_nat nth_error Pos.of_succ_nat]. unfold make_from_parameters.
    rewrite mapM_map.
    rewrite (mapM_in _ (fun t : tuple6 => let '(a, x, y, cxx, cyy, cxy) := t in (cxx, cxy, cyy))).
    2:{ intros [[[[[a x] y] cxx] cyy] cxy] _. destruct H as [<-|[<-|[]]]; reflexivity. }
    assert (HA : forall xn yn, column "amp" (map (param_row xn yn) ts) = Some (map gamp (map g ts))).
    { intros. rewrite map_map. apply column_rows. intros [[[[[a x] y] cxx] cyy] cxy]. reflexivity. }
    rewrite HA, map_length.
    replace (map (fun t : tuple6 => let '(a, x, y, cxx, cyy, cxy) := t in (cxx, cxy, cyy)) ts)
      with (map (fun g => (vx g, vxy g, vy g)) (map g ts)) by (rewrite map_map; apply map_ext; intros [[[[[]]]]]; reflexivity).
    destruct ts as [|t0 ts0]; [destruct H as [<-|[<-|[]]]; reflexivity|]. set (ts := t0 :: ts0) in *.
    destruct H as [<-|[<-|[]]]; cbn [fst snd].
    + rewrite (column_rows "xcr" (fun t : tuple6 => let '(a, x, y, cxx, cyy, cxy) := t in x)) by (intros [[[[[]]]]]; reflexivity).
      rewrite (column_rows "ycr" (fun t : tuple6 => let '(a, x, y, cxx, cyy, cxy) := t in y)) by (intros [[[[[]]]]]; reflexivity).
      rewrite combine_map_same, !map_map, !map_length. do 2 f_equal. apply map_ext. intros [[[[[]]]]]; reflexivity.
    + assert (N : column "xcr" (map (param_row "xcen" "ycen") ts) = None) by (destruct t0 as [[[[[]]]]]; reflexivity).
      rewrite N.
      rewrite (column_rows "xcen" (fun t : tuple6 => let '(a, x, y, cxx, cyy, cxy) := t in x)) by (intros [[[[[]]]]]; reflexivity).
      rewrite (column_rows "ycen" (fun t : tuple6 => let '(a, x, y, cxx, cyy, cxy) := t in y)) by (intros [[[[[]]]]]; reflexivity).
      rewrite combine_map_same, !map_map, !map_length. do 2 f_equal. apply map_ext. intros [[[[[]]]]]; reflexivity.
  - rewrite tuples_of_psf. f_equal. rewrite map_map. rewrite <- (map_id ts) at 2. apply map_ext. intros [[[[[]]]]]; reflexivity.
Qed.
Print Assumptions C58_parameters.

(** The stored file of psf_mixture, for a square image of [n] by [n] elements cut to [width]: row [i] holds fit [i], at
    positions from the centre of the full image; the rows of fits that did not end are zero. *)
Definition row_value (r : srow) (X Y : R) : option R :=
  match field "amp" r, field "x" r, field "y" r, field "vxx" r, field "vyy" r, field "vxy" r with
  | Some a, Some x, Some y, Some cxx, Some cyy, Some cxy => Some (gauss a x y cxx cyy cxy X Y)
  | _, _, _, _, _, _ => None
  end.
Theorem C58_newstyle_partial : forall fits nrepeat nmix os n width,
  0 < os -> (List.length fits <= nrepeat)%nat -> Forall (fun cs => List.length cs = nmix /\ Forall proper cs) fits ->
  exists ps, newstyle_parameters (map (flat_map six) fits) nrepeat nmix os (n, n) width = Some ps /\ List.length ps = nrepeat /\
    (forall i cs X Y, nth_error fits i = Some cs ->
       exists rows vals, nth_error ps i = Some rows /\ mapM (fun r => row_value r X Y) rows = Some vals /\
         rsum vals = os ^ 2 * mix ((INR n - 1) / 2 - em_start n width + os * Y) ((INR n - 1) / 2 - em_start n width + os * X) cs) /\
    (forall i, (List.length fits <= i < nrepeat)%nat -> nth_error ps i = Some (repeat zero_row nmix)).
Proof.
  intros fits nrepeat nmix os n width Ho Hl Hf. unfold newstyle_parameters. cbn [fst snd].
  set (st := em_start n width). set (ce := center_full n).
  assert (E : mapM (fun f => params_to_gauss f os (st, st) (ce, ce)) (map (flat_map six) fits) = Some (map (map (to_gauss os (st, st) (ce, ce))) fits)).
  { rewrite mapM_map. apply mapM_in. intros cs _. unfold params_to_gauss. rewrite reshape6_six. reflexivity. }
  rewrite E.
  assert (B : forallb (fun gs => Nat.eqb (List.length gs) nmix) (map (map (to_gauss os (st, st) (ce, ce))) fits) = true).
  { apply forallb_forall. intros gs H. apply in_map_iff in H. destruct H as (cs & <- & H). rewrite Forall_forall in Hf.
    rewrite map_length. apply Nat.eqb_eq. apply Hf. exact H. }
  rewrite B, map_length. replace (Nat.leb (List.length fits) nrepeat) with true by (symmetry; apply Nat.leb_le; exact Hl).
  cbn [andb]. eexists. split; [reflexivity|]. rewrite app_length, repeat_length, !map_length. split; [lia|]. split.
  - intros i cs X Y Hi. assert (Li : (i < List.length fits)%nat) by (apply nth_error_Some; rewrite Hi; discriminate).
    exists (map em_row (map (to_gauss os (st, st) (ce, ce)) cs)), (map (fun t => dens t X Y) (map tuple_of (map (to_gauss os (st, st) (ce, ce)) cs))).
    split; [rewrite nth_error_app1 by (rewrite !map_length; exact Li); rewrite !nth_error_map, Hi; reflexivity|].
    split.
    + rewrite mapM_map, map_map. apply mapM_in. intros g _. reflexivity.
    + rewrite Forall_forall in Hf. destruct (Hf cs (nth_error_In _ _ Hi)) as [_ Hp].
      unfold mix. rewrite sum_rsum, !map_map, <- rsum_scale. f_equal. apply map_ext_in. intros c H.
      rewrite Forall_forall in Hp. rewrite to_gauss_dens by auto. reflexivity.
  - intros i Hi. rewrite nth_error_app2 by (rewrite !map_length; lia). rewrite !map_length.
    rewrite (nth_error_nth' _ (repeat zero_row nmix)) by (rewrite repeat_length; lia). f_equal. apply nth_repeat.
Qed.
Print Assumptions C58_newstyle_partial.

(** For an image that is not square the centre of the rows is subtracted from the column and the other way round:
    a gaussian fitted at the central pixel is stored off the centre. *)
Theorem C58_newstyle_refuted : forall n0 n1 os a s r, n0 <> n1 -> 0 < os ->
  exists row x y, newstyle_parameters [six (Build_comp a (center_full n0) (center_full n1) s s r)] 1 1 os (n0, n1) None = Some [[row]] /\
    field "x" row = Some x /\ field "y" row = Some y /\ x <> 0 /\ y <> 0.
Proof.
  intros n0 n1 os a s r Hn Ho. unfold newstyle_parameters. cbn [fst snd em_start mapM].
  change (six (Build_comp a (center_full n0) (center_full n1) s s r)) with (flat_map six [Build_comp a (center_full n0) (center_full n1) s s r]).
  unfold params_to_gauss. rewrite reshape6_six. cbn [option_map map]. cbn [forallb List.length Nat.eqb andb Nat.leb map app Nat.sub repeat].
  do 3 eexists. split; [reflexivity|]. split; [reflexivity|]. split; [reflexivity|]. cbn [mux muy to_gauss mx my fst snd].
  assert (D : center_full n0 <> center_full n1).
  { unfold center_full. intros H. apply Hn. apply INR_eq. lra. }
  assert (K : forall u, u <> 0 -> u / os <> 0).
  { intros u Hu Hd. apply Hu. replace u with (u / os * os) by (field; lra). rewrite Hd. ring. }
  split; apply K; intros H; apply D; lra.
Qed.
Print Assumptions C58_newstyle_refuted.

(** What psf_mixture and package_output store is not read by get_psf: the first has other field names, the second has the
    parameters inside the group of a band. *)
Theorem C58_files_refuted : forall fwhm k n_gauss os center,
  (forall fits nrepeat nmix o size width f, (0 < nmix)%nat -> newstyle_file fits nrepeat nmix o size width = Some f ->
     get_psf (Some f) fwhm k n_gauss os center = None) /\
  (forall bands : list string, ~ In "parameters"%string bands ->
     get_psf (Some (Hdf5 (map (fun b => (b, Group)) bands))) fwhm k n_gauss os center = None) /\
  (forall fits : list (nat * list (list R)), get_psf (Some (Pickle fits)) fwhm k None os center = None).
Proof.
  intros fwhm k n_gauss os center. split; [|split].
  - intros fits nrepeat nmix o size width f Hn H. unfold newstyle_file in H.
    destruct (newstyle_parameters fits nrepeat nmix o size width) as [ps|] eqn:E; [|discriminate]. injection H as <-.
    cbn [get_psf by_name String.eqb Ascii.eqb Bool.eqb].
    destruct (np_index (List.length ps) k) as [i|] eqn:Ei; [|reflexivity].
    destruct (nth_error ps i) as [rows|] eqn:Er; [|reflexivity].
    assert (R1 : exists g t, rows = em_row g :: t).
    { unfold newstyle_parameters in E.
      match type of E with match ?X with _ => _ end = _ => destruct X as [gss|] end; [|discriminate].
      match type of E with (if ?b then _ else _) = _ => destruct b eqn:Eb end; [|discriminate]. injection E as <-.
      apply andb_true_iff in Eb. destruct Eb as [Eb _]. rewrite forallb_forall in Eb.
      apply nth_error_In in Er. apply in_app_or in Er. destruct Er as [Er|Er].
      - apply in_map_iff in Er. destruct Er as (gs & <- & Hg). apply Eb, Nat.eqb_eq in Hg.
        destruct gs as [|g gs]; [cbn in Hg; lia|]. exists g, (map em_row gs). reflexivity.
      - apply repeat_spec in Er. subst rows. destruct nmix; [lia|]. exists (mkGpar 0 0 0 0 0 0), (repeat zero_row nmix). reflexivity. }
    destruct R1 as (g & t & ->). reflexivity.
  - intros bands H. cbn [get_psf].
    assert (N : by_name "parameters" (map (fun b => (b, Group)) bands) = None).
    { apply by_name_None. rewrite map_map. rewrite map_id. exact H. }
    rewrite N. reflexivity.
  - intros fits. reflexivity.
Qed.
Print Assumptions C58_files_refuted.

(** Without a file the PSF is one circular gaussian of unit flux, whose full width at half maximum is the [fwhm] asked for
    at one value only, 8 ln 2 / 2.355 = 2.3546 pixels. *)
Theorem C58_fwhm_refuted : forall fwhm os center k n, 0 < fwhm ->
  exists p v, get_psf None fwhm k n os center = Some p /\ as_tuplelist p = Some [(1, 0, 0, v, v, 0)] /\ 0 < v /\
    (gauss 1 0 0 v v 0 (fwhm / 2) 0 = gauss 1 0 0 v v 0 0 0 / 2 <-> fwhm = 8 * ln 2 / 2.355).
Proof.
  intros fwhm os center k n Hf. exists (mkPsf 1 [(0, 0)] [1] [(fwhm / 2.355, 0, fwhm / 2.355)]), (fwhm / 2.355).
  split; [cbn [get_psf default_psf p_covs map]; rewrite Rmult_1_l, Rmult_0_l; reflexivity|]. split; [reflexivity|]. split.
  - apply Rdiv_lt_0_compat; lra.
  - assert (V : 0 < fwhm / 2.355) by (apply Rdiv_lt_0_compat; lra). set (v := fwhm / 2.355) in *.
    assert (P := PI_RGT_0). unfold gauss.
    replace (v * v - 0 ^ 2) with (v * v) by ring. rewrite sqrt_square by lra.
    replace (- (1 / 2) * ((v * (0 - 0) ^ 2 - 2 * 0 * (0 - 0) * (0 - 0) + v * (0 - 0) ^ 2) / (v * v))) with 0 by (field; lra).
    replace (- (1 / 2) * ((v * (fwhm / 2 - 0) ^ 2 - 2 * 0 * (fwhm / 2 - 0) * (0 - 0) + v * (0 - 0) ^ 2) / (v * v)))
      with (- (fwhm * 2.355 / 8)) by (unfold v; field; lra).
    rewrite exp_0. split.
    + intros H. assert (E : exp (- (fwhm * 2.355 / 8)) = / 2).
      { apply (Rmult_eq_reg_l (1 / (2 * PI * v))).
        - rewrite H. field. split; lra.
        - apply Rgt_not_eq. apply Rdiv_lt_0_compat; [lra|]. apply Rmult_lt_0_compat; [lra | exact V]. }
      apply (f_equal ln) in E. rewrite ln_exp, ln_Rinv in E by lra. lra.
    + intros H. assert (E : - (fwhm * 2.355 / 8) = - ln 2) by (rewrite H; lra). rewrite E, exp_Ropp, exp_ln by lra.
      field. split; lra.
Qed.
Print Assumptions C58_fwhm_refuted.
