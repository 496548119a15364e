(** Lemmas about the sampled mixtures: psf_prediction, rectify and convert_psf_data *)
From Coq Require Import Reals Lra Lia.
From Coq Require Import ZArith List String Ascii Permutation Bool.
From Verif Require Import Np NpFacts EmModel PsfConvModel PsfConvFacts.
Import ListNotations.
Open Scope R_scope.

(** ** psf_prediction *)
Lemma bcast_vec l n : List.length l = n -> bcast n (Vec l) = Some l.
Proof.
  intros <-. destruct l as [|r [|s t]]; try reflexivity.
  unfold bcast. rewrite Nat.eqb_refl. reflexivity.
Qed.
Lemma prediction_vec pix d n A B X Y W S Q R' :
  (1 <= n)%nat -> forallb (fun kv => existsb (String.eqb (fst kv)) arguments) d = true ->
  get d "x" = Some (Vec X) -> get d "y" = Some (Vec Y) -> get d "weight" = Some (Vec W) ->
  get d "sx" = Some (Vec S) -> get d "q" = Some (Vec Q) -> get d "rho" = Some (Vec R') ->
  get_default d "a" 1 = Sc A -> get_default d "bg" 0 = Sc B ->
  List.length X = n -> List.length Y = n -> List.length W = n -> List.length S = n -> List.length Q = n -> List.length R' = n ->
  psf_prediction pix d = Some (map (fun p => terms (fst p) (snd p) X Y (repeat A n) W S Q R' + B) pix).
Proof.
  intros Hn Hk HX HY HW HS HQ HR HA HB LX LY LW LS LQ LR.
  unfold psf_prediction. rewrite Hk. cbn [negb].
  rewrite HA, HB.
  assert (E : forall k l r, get d k = Some (Vec l) -> get_default d k r = Vec l) by (intros k l r H; unfold get_default; rewrite H; reflexivity).
  rewrite (E _ _ 0 HX), (E _ _ 0 HY), (E _ _ 1 HW), (E _ _ 3 HS), (E _ _ 3 HQ), (E _ _ 0 HR).
  cbn [map size_of fold_right]. rewrite LX, LY, LW, LS, LQ, LR.
  replace (Nat.max n (Nat.max n (Nat.max 1 (Nat.max n (Nat.max n (Nat.max n (Nat.max n 1))))))) with n by lia.
  cbn [mapM]. rewrite !bcast_vec by assumption. cbn [bcast]. reflexivity.
Qed.

Lemma terms_app px py : forall X Y A W S Q R' X2 Y2 A2 W2 S2 Q2 R2,
  List.length Y = List.length X -> List.length A = List.length X -> List.length W = List.length X ->
  List.length S = List.length X -> List.length Q = List.length X -> List.length R' = List.length X ->
  terms px py (X ++ X2) (Y ++ Y2) (A ++ A2) (W ++ W2) (S ++ S2) (Q ++ Q2) (R' ++ R2) =
  terms px py X Y A W S Q R' + terms px py X2 Y2 A2 W2 S2 Q2 R2.
Proof.
  induction X as [|x X IH]; intros [|y Y] [|a A] [|w W] [|s S] [|q Q] [|r R'] X2 Y2 A2 W2 S2 Q2 R2; cbn [List.length]; intros; try discriminate.
  - cbn. lra.
  - cbn [terms app]. rewrite IH by lia. lra.
Qed.
Lemma terms_weight px py A k : forall X Y W S Q R' n,
  terms px py X Y (repeat A n) (map (fun x => x * k) W) S Q R' = terms px py X Y (repeat (A * k) n) W S Q R'.
Proof.
  induction X as [|x X IH]; intros [|y Y] [|w W] S Q R' [|n]; try (cbn; destruct S, Q, R'; reflexivity); try reflexivity.
  destruct S as [|s S]; [reflexivity|]. destruct Q as [|q Q]; [reflexivity|]. destruct R' as [|r R']; [reflexivity|].
  cbn [repeat map terms]. rewrite IH. f_equal. unfold hmc_term. f_equal. f_equal. ring.
Qed.
Lemma terms_neg px py : forall X Y W S Q R' n,
  terms px py X Y (repeat (-1) n) W S Q R' = - terms px py X Y (repeat 1 n) W S Q R'.
Proof.
  induction X as [|x X IH]; intros [|y Y] [|w W] S Q R' [|n]; try (cbn; destruct S, Q, R'; lra); try (cbn; lra).
  destruct S as [|s S]; [cbn; lra|]. destruct Q as [|q Q]; [cbn; lra|]. destruct R' as [|r R']; [cbn; lra|].
  cbn [repeat terms]. rewrite IH.
  replace (hmc_term px py x y (-1) w s q r) with (- hmc_term px py x y 1 w s q r); [ring|].
  unfold hmc_term, Rdiv. ring.
Qed.
Lemma terms_sum px py : forall n X Y A W S Q R',
  List.length X = n -> List.length Y = n -> List.length A = n -> List.length W = n ->
  List.length S = n -> List.length Q = n -> List.length R' = n ->
  terms px py X Y A W S Q R' =
  rsum (map (fun i => hmc_term px py (nth i X 0) (nth i Y 0) (nth i A 0) (nth i W 0) (nth i S 0) (nth i Q 0) (nth i R' 0)) (seq 0 n)).
Proof.
  induction n; intros [|x X] [|y Y] [|a A] [|w W] [|s S] [|q Q] [|r R']; cbn [List.length]; intros; try discriminate; [reflexivity|].
  cbn [terms seq map]. rewrite IHn by lia. unfold rsum at 2. cbn [fold_right nth]. f_equal.
  rewrite <- seq_shift, map_map. reflexivity.
Qed.

(** ** rectify *)
Definition rectified (best neg : dict) (k : string) : option val :=
  match get neg k with
  | Some (Vec m) =>
    match get best k with
    | Some (Vec l) =>
      if String.eqb k "weight" then
        match get best "a" with Some (Sc a) => Some (Vec (map (fun x => x * a) l ++ map (fun x => x * -1) m)) | _ => None end
      else Some (Vec (l ++ m))
    | _ => None
    end
  | Some (Sc _) => None
  | None => if String.eqb k "a" then (match get neg "weight" with Some _ => Some (Sc 1) | None => get best k end) else get best k
  end.
Lemma fold_rect : forall neg best,
  NoDup (map fst neg) -> ~ In "a"%string (map fst neg) ->
  (forall p v, In (p, v) neg -> exists l m, get best p = Some (Vec l) /\ v = Vec m) ->
  (In "weight"%string (map fst neg) -> exists a, get best "a" = Some (Sc a)) ->
  exists best', fold_left rect_step neg (Some best) = Some best' /\ forall k, get best' k = rectified best neg k.
Proof.
  induction neg as [|[p v] neg IH]; intros best N NA HV HW.
  - exists best. split; [reflexivity|]. intros k. unfold rectified. cbn. destruct (String.eqb k "a"); reflexivity.
  - cbn [map fst] in *. inversion N as [|? ? N1 N2]; subst.
    destruct (HV p v (or_introl eq_refl)) as (l & m & Hl & ->).
    cbn [fold_left rect_step].
    assert (NA' : ~ In "a"%string (map fst neg)) by (intros H; apply NA; right; exact H).
    assert (Hpa : p <> "a"%string) by (intros H; apply NA; left; exact H).
    destruct (String.eqb_spec p "weight") as [->|Hp].
    + destruct (HW (or_introl eq_refl)) as [a Ha]. rewrite Hl, Ha. cbn [scale_val].
      rewrite get_set_other by discriminate. rewrite get_set_same.
      set (best1 := set (set (set best "weight" (Vec (map (fun x => x * a) l))) "a" (Sc 1)) "weight"
                        (Vec (map (fun x => x * a) l ++ map (fun x => x * -1) m))).
      assert (G1 : get best1 "weight" = Some (Vec (map (fun x => x * a) l ++ map (fun x => x * -1) m))) by apply get_set_same.
      assert (G2 : get best1 "a" = Some (Sc 1)).
      { unfold best1. rewrite get_set_other by discriminate. apply get_set_same. }
      assert (G3 : forall k, k <> "weight"%string -> k <> "a"%string -> get best1 k = get best k).
      { intros k K1 K2. unfold best1. rewrite !get_set_other by congruence. reflexivity. }
      clearbody best1.
      destruct (IH best1 N2 NA') as (best' & E & H).
      * intros q w Hq. assert (q <> "weight"%string /\ q <> "a"%string) as [Q1 Q2].
        { split; intros ->; apply (in_map fst) in Hq; cbn in Hq; auto. }
        rewrite G3 by assumption. apply HV. right. exact Hq.
      * intros H. contradiction.
      * exists best'. split; [exact E|]. intros k. rewrite H. unfold rectified at 2. cbn [get by_name].
        unfold rectified. unfold get in *. cbn [by_name].
        assert (NW : by_name "weight" neg = None) by (apply by_name_None; exact N1).
        assert (NA2 : by_name "a" neg = None) by (apply by_name_None; exact NA').
        destruct (String.eqb_spec "weight" k) as [<-|K].
        -- rewrite NW. cbn [String.eqb Ascii.eqb Bool.eqb]. rewrite G1. rewrite Hl, Ha. reflexivity.
        -- rewrite NW. destruct (String.eqb_spec k "a") as [->|K2].
           ++ rewrite NA2. rewrite G2. reflexivity.
           ++ rewrite G3 by congruence. destruct (String.eqb_spec k "weight"); [congruence|]. reflexivity.
    + rewrite Hl.
      set (best1 := set best p (Vec (l ++ m))).
      assert (G1 : get best1 p = Some (Vec (l ++ m))) by apply get_set_same.
      assert (G3 : forall k, k <> p -> get best1 k = get best k).
      { intros k K1. unfold best1. rewrite get_set_other by congruence. reflexivity. }
      clearbody best1.
      destruct (IH best1 N2 NA') as (best' & E & H).
      * intros q w Hq. assert (Q1 : q <> p). { intros ->. apply (in_map fst) in Hq. auto. }
        rewrite G3 by assumption. apply HV. right. exact Hq.
      * intros Hw. destruct HW as [a Ha]; [right; exact Hw|]. exists a. rewrite G3 by congruence. exact Ha.
      * exists best'. split; [exact E|]. intros k. rewrite H. unfold rectified, get in *. cbn [by_name].
        assert (NP : by_name p neg = None) by (apply by_name_None; exact N1).
        destruct (String.eqb_spec p k) as [<-|K].
        -- rewrite NP. destruct (String.eqb_spec p "a"); [congruence|]. rewrite G1, Hl.
           destruct (String.eqb_spec p "weight"); [congruence | reflexivity].
        -- destruct (String.eqb_spec p "weight"); [congruence|].
           rewrite G3 by congruence. rewrite (G3 "a"%string) by congruence. reflexivity.
Qed.

Lemma pop_keys d : forall k,
  (In k (map fst (fst (pop_negative d))) -> In k (map fst d) /\ ends_m k = None) /\
  (In k (map fst (snd (pop_negative d))) -> In (k ++ "_m")%string (map fst d)).
Proof.
  induction d as [|[n v] t IH]; intros k; cbn [pop_negative]; [cbn; tauto|].
  destruct (pop_negative t) as [p m]. cbn [fst snd] in IH.
  destruct (IH k) as [I1 I2].
  destruct (ends_m n) as [s|] eqn:E; cbn [fst snd map In].
  - apply ends_m_iff in E. split.
    + intros H. destruct (I1 H). auto.
    + intros [<-|H]; [left; symmetry; auto | right; auto].
  - split.
    + intros [<-|H]; [auto | destruct (I1 H); auto].
    + intros H. auto.
Qed.
Lemma pop_NoDup d : NoDup (map fst d) -> NoDup (map fst (snd (pop_negative d))).
Proof.
  induction d as [|[n v] t IH]; cbn [pop_negative map]; intros N; [constructor|].
  inversion N as [|? ? N1 N2]; subst. specialize (IH N2). cbn [fst] in N1.
  assert (K := fun k => proj2 (pop_keys t k)).
  destruct (pop_negative t) as [p m]. cbn [fst snd] in *.
  destruct (ends_m n) as [s|] eqn:E; cbn [fst snd map]; [|exact IH].
  apply ends_m_iff in E. subst n. constructor; [|exact IH]. intros H. apply N1. apply K. exact H.
Qed.

(** ** convert_psf_data *)
Lemma taken_ok d k l n o : get d k = Some (Vec l) -> List.length l = n -> Forall (fun i => (i < n)%nat) o ->
  taken d k n o = Some (map (fun i => nth i l 0) o).
Proof.
  intros H <- Ho. unfold taken. rewrite H, Nat.eqb_refl. apply mapM_in.
  intros i Hi. rewrite Forall_forall in Ho. apply nth_error_in_range. auto.
Qed.
Lemma conv_rows_map bin os cx cy scale fw fx fy f1 f2 fr (o : list nat) :
  conv_rows bin os cx cy scale (map fw o) (map fx o) (map fy o) (map f1 o) (map f2 o) (map fr o) =
  map (fun i => conv_row bin os cx cy scale (fw i) (fx i) (fy i) (f1 i) (f2 i) (fr i)) o.
Proof. induction o; cbn; [reflexivity | rewrite IHo; reflexivity]. Qed.
Lemma combine_map_same {A B C} (f : A -> B) (g : A -> C) l : combine (map f l) (map g l) = map (fun x => (f x, g x)) l.
Proof. induction l; cbn; [reflexivity | rewrite IHl; reflexivity]. Qed.

Definition row_of bin os cx cy scale (W X Y S Q R' : list R) (i : nat) : grow :=
  conv_row bin os cx cy scale (nth i W 0) (nth i X 0) (nth i Y 0) (nth i S 0 * (1 / os)) (nth i S 0 * (1 / os) * nth i Q 0) (nth i R' 0).
Lemma convert_vec argsort d cx cy nloc nradii os n scale X Y W S Q R' :
  Permutation (argsort W) (seq 0 n) ->
  get d "x" = Some (Vec X) -> get d "y" = Some (Vec Y) -> get d "weight" = Some (Vec W) ->
  get d "sx" = Some (Vec S) -> get d "q" = Some (Vec Q) -> get d "rho" = Some (Vec R') -> get d "sy" = None ->
  get_default d "a" 1 = Sc scale ->
  List.length X = n -> List.length Y = n -> List.length W = n -> List.length S = n -> List.length Q = n -> List.length R' = n ->
  convert_psf_data argsort d cx cy nloc nradii os =
  Some (mkPars nloc nradii n (repeat (map (fun bin => map (row_of bin os cx cy scale W X Y S Q R') (rev (argsort W))) (seq 0 nradii)) nloc), scale).
Proof.
  intros HP HX HY HW HS HQ HR Hsy HA LX LY LW LS LQ LR.
  assert (Ho : Forall (fun i => (i < n)%nat) (rev (argsort W))).
  { apply Forall_forall. intros i Hi. apply in_rev in Hi. apply (Permutation_in _ HP) in Hi. apply in_seq in Hi. lia. }
  unfold convert_psf_data. rewrite HX, HW, HA, LX.
  rewrite (taken_ok _ _ _ _ _ HW), (taken_ok _ _ _ _ _ HX), (taken_ok _ _ _ _ _ HY), (taken_ok _ _ _ _ _ HS), (taken_ok _ _ _ _ _ HR) by assumption.
  rewrite Hsy, HQ, (taken_ok _ _ _ _ _ HQ) by assumption.
  cbn [option_map]. rewrite !map_map, combine_map_same, map_map.
  do 4 f_equal. apply map_ext. intros bin. rewrite conv_rows_map. reflexivity.
Qed.

Definition row_dens (X Y : R) (g : grow) : R := gauss (g_amp g) (g_x g) (g_y g) (g_xx g) (g_yy g) (g_xy g) X Y.
Lemma row_term bin os cx cy scale w x y s q r X Y : 0 < os -> 0 < s -> 0 < q -> r ^ 2 < 1 ->
  row_dens X Y (conv_row bin os cx cy scale w x y (s * (1 / os)) (s * (1 / os) * q) r) =
  os ^ 2 * hmc_term (cx + os * X) (cy + os * Y) x y scale w s q r.
Proof.
  intros Ho Hs Hq Hr. unfold row_dens, conv_row. cbn [g_amp g_x g_y g_xx g_yy g_xy].
  replace ((x - cx) * (1 / os)) with ((x - cx) / os) by (unfold Rdiv; ring).
  replace ((y - cy) * (1 / os)) with ((y - cy) / os) by (unfold Rdiv; ring).
  replace (s * (1 / os) * q) with ((q * s) / os) by (unfold Rdiv; ring).
  replace (s * (1 / os)) with (s / os) by (unfold Rdiv; ring).
  replace (s / os * (q * s / os) * r) with (r * (s / os) * (q * s / os)) by ring.
  rewrite gauss_fit by (try assumption; apply Rmult_lt_0_compat; assumption).
  unfold hmc_term. replace (scale * w) with (w * scale) by ring.
  do 2 f_equal.
Qed.
Lemma rows_density argsort bin os cx cy scale X Y W S Q R' n px py :
  Permutation (argsort W) (seq 0 n) -> 0 < os ->
  List.length X = n -> List.length Y = n -> List.length W = n -> List.length S = n -> List.length Q = n -> List.length R' = n ->
  Forall (fun s => 0 < s) S -> Forall (fun q => 0 < q) Q -> Forall (fun r => r ^ 2 < 1) R' ->
  rsum (map (row_dens ((px - cx) / os) ((py - cy) / os)) (map (row_of bin os cx cy scale W X Y S Q R') (rev (argsort W)))) =
  os ^ 2 * terms px py X Y (repeat scale n) W S Q R'.
Proof.
  intros HP Ho LX LY LW LS LQ LR FS FQ FR.
  assert (HP' : Permutation (rev (argsort W)) (seq 0 n)) by (rewrite <- HP; symmetry; apply Permutation_rev).
  rewrite (rsum_perm _ _ (Permutation_map _ (Permutation_map _ HP'))).
  rewrite map_map, (terms_sum px py n) by (rewrite ?repeat_length; auto).
  rewrite <- rsum_scale. f_equal. apply map_ext_in. intros i Hi. apply in_seq in Hi.
  rewrite Forall_forall in FS, FQ, FR.
  assert (A1 : 0 < nth i S 0) by (apply FS, nth_In; lia).
  assert (A2 : 0 < nth i Q 0) by (apply FQ, nth_In; lia).
  assert (A3 : nth i R' 0 ^ 2 < 1) by (apply FR, nth_In; lia).
  unfold row_of. rewrite row_term by assumption.
  replace (cx + os * ((px - cx) / os)) with px by (field; lra). replace (cy + os * ((py - cy) / os)) with py by (field; lra).
  do 2 f_equal. rewrite (nth_indep _ 0 scale) by (rewrite repeat_length; lia). symmetry. apply nth_repeat.
Qed.
