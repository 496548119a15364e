(** C58, the sampled PSF fits: demo/demo_psf/make_jwst_psf/make_psf.py *)
From Coq Require Import Reals Lra Lia.
From Coq Require Import ZArith List String Ascii Permutation Bool Sorted.
From Verif Require Import Np NpFacts EmModel PsfConvModel PsfConvFacts PsfHmcFacts.
Import ListNotations.
Open Scope R_scope.

(** The dictionary the sampler gives: a value of the right shape for every sample site, nothing else, in any order *)
Definition sampled (ngauss nneg : nat) (fixed fit_bg : bool) (d : dict) : Prop :=
  Permutation (map fst d) (map fst (psf_sites ngauss nneg fixed fit_bg)) /\
  Forall (fun ks => exists v, get d (fst ks) = Some v /\ has_shape v (snd ks) = true) (psf_sites ngauss nneg fixed fit_bg).
(** Widths and axis ratios are positive and correlations inside (-1, 1), as the priors demand *)
Definition in_range (d : dict) : Prop :=
  forall k l, get d k = Some (Vec l) ->
    (In k ["sx"; "q"; "sx_m"; "q_m"]%string -> Forall (fun s => 0 < s) l) /\
    (In k ["rho"; "rho_m"]%string -> Forall (fun r => r ^ 2 < 1) l).

Lemma In_set d k v k' : In k' (map fst (set d k v)) <-> k' = k \/ In k' (map fst d).
Proof.
  induction d as [|[n w] t IH]; cbn; [intuition congruence|].
  destruct (String.eqb_spec n k) as [->|E]; cbn; [intuition congruence|]. rewrite IH. intuition congruence.
Qed.
Lemma NoDup_set d k v : NoDup (map fst d) -> NoDup (map fst (set d k v)).
Proof.
  induction d as [|[n w] t IH]; cbn; intros N; [repeat constructor; auto|].
  inversion N as [|? ? N1 N2]; subst.
  destruct (String.eqb_spec n k) as [->|E]; cbn; constructor; auto.
  rewrite In_set. intros [->|H]; auto.
Qed.

Definition all_keys : list string :=
  ["a"; "bg"; "weight"; "x"; "y"; "rho"; "sx"; "q"; "weight_m"; "x_m"; "y_m"; "rho_m"; "sx_m"; "q_m"]%string.
Lemma sites_keys n m f b k : In k (map fst (psf_sites n m f b)) -> In k all_keys.
Proof.
  unfold psf_sites. destruct f, b, (Nat.ltb 1 n), (Nat.ltb 0 m); cbn; intuition (subst; auto 20).
Qed.
Lemma sites_NoDup n m f b : NoDup (map fst (psf_sites n m f b)).
Proof.
  unfold psf_sites. destruct f, b, (Nat.ltb 1 n), (Nat.ltb 0 m); cbn;
    repeat constructor; cbn; intuition discriminate.
Qed.

(** What is known of a fit: the vectors and scalars of the best sample, after fit_image put the fixed amplitude in *)
Record parts (n m : nat) (bg : bool) (best : dict) (A B : R) (X Y W S Q R' X2 Y2 W2 S2 Q2 R2 : list R) : Prop := mkParts {
  k_nodup : NoDup (map fst best);
  k_keys : forall k, In k (map fst best) -> In k all_keys;
  k_neg : m = 0%nat -> forall k, In k ["weight_m"; "x_m"; "y_m"; "rho_m"; "sx_m"; "q_m"]%string -> ~ In k (map fst best);
  k_a : get best "a" = Some (Sc A);
  k_bg : get best "bg" = if bg then Some (Sc B) else None;
  k_bg0 : bg = false -> B = 0;
  k_x : get best "x" = Some (Vec X) /\ List.length X = n;
  k_y : get best "y" = Some (Vec Y) /\ List.length Y = n;
  k_w : get best "weight" = Some (Vec W) /\ List.length W = n;
  k_s : get best "sx" = Some (Vec S) /\ List.length S = n;
  k_q : get best "q" = Some (Vec Q) /\ List.length Q = n;
  k_r : get best "rho" = Some (Vec R') /\ List.length R' = n;
  k_x2 : (0 < m)%nat -> get best "x_m" = Some (Vec X2) /\ List.length X2 = m;
  k_y2 : (0 < m)%nat -> get best "y_m" = Some (Vec Y2) /\ List.length Y2 = m;
  k_w2 : (0 < m)%nat -> get best "weight_m" = Some (Vec W2) /\ List.length W2 = m;
  k_s2 : (0 < m)%nat -> get best "sx_m" = Some (Vec S2) /\ List.length S2 = m;
  k_q2 : (0 < m)%nat -> get best "q_m" = Some (Vec Q2) /\ List.length Q2 = m;
  k_r2 : (0 < m)%nat -> get best "rho_m" = Some (Vec R2) /\ List.length R2 = m }.

Lemma vec_of d k n : (exists v, get d k = Some v /\ has_shape v (Some n) = true) -> exists l, get d k = Some (Vec l) /\ List.length l = n.
Proof. intros ([r|l] & H1 & H2); [discriminate|]. exists l. split; [exact H1 | apply Nat.eqb_eq; exact H2]. Qed.
Lemma sc_of d k : (exists v, get d k = Some v /\ has_shape v None = true) -> exists r, get d k = Some (Sc r).
Proof. intros ([r|l] & H1 & H2); [eauto | discriminate]. Qed.

Lemma parts_of n m fixed bg a d : (2 <= n)%nat -> sampled n m fixed bg d ->
  exists A B X Y W S Q R' X2 Y2 W2 S2 Q2 R2, parts n m bg (fit_best fixed a d) A B X Y W S Q R' X2 Y2 W2 S2 Q2 R2 /\ (fixed = true -> A = a).
Proof.
  intros Hn [HP HF].
  assert (N : NoDup (map fst d)) by (eapply Permutation_NoDup; [symmetry; exact HP | apply sites_NoDup]).
  assert (K : forall k, In k (map fst d) -> In k all_keys) by (intros k H; apply (Permutation_in _ HP) in H; eapply sites_keys; exact H).
  assert (KN : m = 0%nat -> forall k, In k ["weight_m"; "x_m"; "y_m"; "rho_m"; "sx_m"; "q_m"]%string -> ~ In k (map fst d)).
  { intros -> k Hk H. apply (Permutation_in _ HP) in H. unfold psf_sites in H. change (Nat.ltb 0 0) with false in H. rewrite !map_app, !in_app_iff in H.
    destruct fixed, bg, (Nat.ltb 1 n); cbn in Hk, H; repeat (destruct Hk as [<-|Hk]; [intuition discriminate|]); contradiction. }
  assert (NB : bg = false -> ~ In "bg"%string (map fst d)).
  { intros -> H. apply (Permutation_in _ HP) in H. unfold psf_sites in H. rewrite !map_app, !in_app_iff in H.
    destruct fixed, (Nat.ltb 1 n), (Nat.ltb 0 m); cbn in H; intuition discriminate. }
  rewrite Forall_forall in HF.
  assert (V : forall k, In k ["x"; "y"; "rho"; "sx"; "q"]%string -> exists l, get d k = Some (Vec l) /\ List.length l = n).
  { intros k Hk. apply vec_of. apply (HF (k, Some n)). unfold psf_sites. rewrite !in_app_iff. do 3 right. left.
    apply in_map_iff. exists k. auto. }
  assert (VW : exists l, get d "weight" = Some (Vec l) /\ List.length l = n).
  { apply vec_of. apply (HF ("weight"%string, Some n)). unfold psf_sites. rewrite !in_app_iff. do 2 right. left.
    replace (Nat.ltb 1 n) with true by (symmetry; apply Nat.ltb_lt; lia). cbn; auto. }
  assert (VM : forall k, exists l, (0 < m)%nat -> In k ["weight_m"; "x_m"; "y_m"; "rho_m"; "sx_m"; "q_m"]%string -> get d k = Some (Vec l) /\ List.length l = m).
  { intros k. destruct (Nat.ltb 0 m) eqn:Em.
    - destruct (in_dec string_dec k ["weight_m"; "x_m"; "y_m"; "rho_m"; "sx_m"; "q_m"]%string) as [Hk|Hk]; [|exists []; contradiction].
      destruct (vec_of d k m) as [l H]; [|exists l; auto]. apply (HF (k, Some m)). unfold psf_sites. rewrite !in_app_iff. do 4 right.
      rewrite Em. apply in_map_iff. exists k. auto.
    - exists []. intros H. apply Nat.ltb_ge in Em. lia. }
  assert (VA : exists A, get (fit_best fixed a d) "a" = Some (Sc A) /\ (fixed = true -> A = a)).
  { destruct fixed; cbn [fit_best].
    - exists a. split; [apply get_set_same | auto].
    - destruct (sc_of d "a") as [r H]; [|exists r; split; [exact H | discriminate]]. apply (HF ("a"%string, None)). unfold psf_sites. cbn; auto. }
  assert (VB : exists B, get d "bg" = (if bg then Some (Sc B) else None) /\ (bg = false -> B = 0)).
  { destruct bg.
    - destruct (sc_of d "bg") as [r H]; [|exists r; split; [exact H | discriminate]]. apply (HF ("bg"%string, None)). unfold psf_sites.
      rewrite !in_app_iff. right. left. cbn; auto.
    - exists 0. split; [|auto]. apply by_name_None. auto. }
  assert (G : forall k, k <> "a"%string -> get (fit_best fixed a d) k = get d k).
  { intros k H. destruct fixed; cbn [fit_best]; [apply get_set_other; congruence | reflexivity]. }
  destruct VA as (A & HA & HA2), VB as (B & HB & HB2), VW as (W & HW).
  destruct (V "x"%string) as (X & HX); [cbn; auto|]. destruct (V "y"%string) as (Y & HY); [cbn; auto|].
  destruct (V "rho"%string) as (R' & HR); [cbn; auto|]. destruct (V "sx"%string) as (S & HS); [cbn; auto|].
  destruct (V "q"%string) as (Q & HQ); [cbn; auto 10|].
  destruct (VM "x_m"%string) as (X2 & HX2), (VM "y_m"%string) as (Y2 & HY2), (VM "weight_m"%string) as (W2 & HW2),
    (VM "sx_m"%string) as (S2 & HS2), (VM "q_m"%string) as (Q2 & HQ2), (VM "rho_m"%string) as (R2 & HR2).
  exists A, B, X, Y, W, S, Q, R', X2, Y2, W2, S2, Q2, R2. split; [|exact HA2].
  constructor; try (rewrite G by discriminate; assumption); try assumption;
    try (intros Hm; rewrite G by discriminate; first [apply HX2 | apply HY2 | apply HW2 | apply HS2 | apply HQ2 | apply HR2]; [exact Hm | cbn; auto 10]).
  - destruct fixed; cbn [fit_best]; [apply NoDup_set|]; assumption.
  - intros k H. destruct fixed; cbn [fit_best] in H; [|auto]. apply In_set in H. destruct H as [->|H]; [cbn; auto | auto].
  - intros Hm k Hk H. destruct fixed; cbn [fit_best] in H; [|exact (KN Hm k Hk H)]. apply In_set in H. destruct H as [->|H]; [|exact (KN Hm k Hk H)].
    cbn in Hk. intuition discriminate.
Qed.

(** ** rectify *)
Lemma allowed_pos n m bg best A B X Y W S Q R' X2 Y2 W2 S2 Q2 R2 :
  parts n m bg best A B X Y W S Q R' X2 Y2 W2 S2 Q2 R2 ->
  forallb (fun kv => existsb (String.eqb (fst kv)) arguments) (fst (pop_negative best)) = true.
Proof.
  intros P. apply forallb_forall. intros [k v] H. cbn [fst].
  destruct (proj1 (pop_keys best k)) as [K1 K2]; [apply (in_map fst) in H; exact H|].
  apply (k_keys _ _ _ _ _ _ _ _ _ _ _ _ _ _ _ _ _ _ P) in K1. unfold all_keys in K1. cbn [In] in K1.
  repeat (destruct K1 as [<-|K1]; [try reflexivity; discriminate K2|]). contradiction.
Qed.
Lemma neg_keys best k : (forall k, In k (map fst best) -> In k all_keys) -> In k (map fst (snd (pop_negative best))) ->
  In k ["weight"; "x"; "y"; "rho"; "sx"; "q"]%string.
Proof.
  intros HK H. apply (proj2 (pop_keys best k)) in H. apply HK in H. unfold all_keys in H. cbn [In] in H.
  assert (E : ends_m (k ++ "_m") = Some k) by (apply ends_m_iff; reflexivity).
  repeat (destruct H as [H|H]; [rewrite <- H in E; cbn in E; first [discriminate E | injection E as <-; cbn; auto 10]|]).
  contradiction.
Qed.

Definition negative_model m p X2 Y2 W2 S2 Q2 R2 : R :=
  if Nat.ltb 0 m then terms (fst p) (snd p) X2 Y2 (repeat 1 m) W2 S2 Q2 R2 else 0.

Lemma rectify_parts n m bg best A B X Y W S Q R' X2 Y2 W2 S2 Q2 R2 pix :
  (1 <= n)%nat -> parts n m bg best A B X Y W S Q R' X2 Y2 W2 S2 Q2 R2 ->
  exists best' scale W',
    rectify best pix = Some (best', map (fun p => terms (fst p) (snd p) X Y (repeat A n) W S Q R' + B
                                       - negative_model m p X2 Y2 W2 S2 Q2 R2) pix) /\
    get_default best' "a" 1 = Sc scale /\ get best' "sy" = None /\
    (if Nat.ltb 0 m then
       scale = 1 /\ W' = map (fun x => x * A) W ++ map (fun x => x * -1) W2 /\ get best' "weight" = Some (Vec W') /\
       get best' "x" = Some (Vec (X ++ X2)) /\ get best' "y" = Some (Vec (Y ++ Y2)) /\ get best' "sx" = Some (Vec (S ++ S2)) /\
       get best' "q" = Some (Vec (Q ++ Q2)) /\ get best' "rho" = Some (Vec (R' ++ R2))
     else
       scale = A /\ W' = W /\ get best' "weight" = Some (Vec W') /\
       get best' "x" = Some (Vec X) /\ get best' "y" = Some (Vec Y) /\ get best' "sx" = Some (Vec S) /\
       get best' "q" = Some (Vec Q) /\ get best' "rho" = Some (Vec R')).
Proof.
  intros Hn P.
  assert (AP := allowed_pos _ _ _ _ _ _ _ _ _ _ _ _ _ _ _ _ _ _ P).
  assert (NK := fun k => neg_keys best k (k_keys _ _ _ _ _ _ _ _ _ _ _ _ _ _ _ _ _ _ P)).
  assert (NN := pop_NoDup best (k_nodup _ _ _ _ _ _ _ _ _ _ _ _ _ _ _ _ _ _ P)).
  assert (GP := fun k => proj1 (get_pop best k)). assert (GN := fun k => proj2 (get_pop best k)).
  assert (PK := fun k => proj2 (pop_keys best k)).
  unfold rectify. destruct (pop_negative best) as [pos neg]. cbn [fst snd] in *.
  destruct P as [_ KK KN Ka Kbg Kbg0 [Kx Lx] [Ky Ly] [Kw Lw] [Ks Ls] [Kq Lq] [Kr Lr] Kx2 Ky2 Kw2 Ks2 Kq2 Kr2].
  assert (GA : get pos "a" = Some (Sc A)) by (rewrite GP; exact Ka).
  assert (GX : get pos "x" = Some (Vec X)) by (rewrite GP; exact Kx). assert (GY : get pos "y" = Some (Vec Y)) by (rewrite GP; exact Ky).
  assert (GW : get pos "weight" = Some (Vec W)) by (rewrite GP; exact Kw). assert (GS : get pos "sx" = Some (Vec S)) by (rewrite GP; exact Ks).
  assert (GQ : get pos "q" = Some (Vec Q)) by (rewrite GP; exact Kq). assert (GR : get pos "rho" = Some (Vec R')) by (rewrite GP; exact Kr).
  assert (GB : get_default pos "bg" 0 = Sc B).
  { unfold get_default. rewrite GP. cbn [ends_m String.eqb Ascii.eqb Bool.eqb option_map]. rewrite Kbg. destruct bg; [reflexivity | rewrite Kbg0; reflexivity]. }
  assert (GSY : get pos "sy" = None).
  { rewrite GP. cbn. apply by_name_None. intros H. apply KK in H. cbn in H. intuition discriminate. }
  rewrite (prediction_vec pix pos n A B X Y W S Q R'); try assumption; [|unfold get_default; rewrite GA; reflexivity].
  destruct m as [|m'].
  - cbn [Nat.ltb Nat.leb].
    assert (neg = []) as ->.
    { destruct neg as [|[k v] t]; [reflexivity|]. exfalso.
      assert (H : In k (map fst ((k, v) :: t))) by (left; reflexivity).
      apply (KN eq_refl (k ++ "_m")%string); [|apply PK; exact H].
      apply NK in H. cbn [In] in H. repeat (destruct H as [<-|H]; [cbn; auto 10|]). contradiction. }
    exists pos, A, W. split; [|split; [unfold get_default; rewrite GA; reflexivity | split; [exact GSY | repeat split; assumption]]].
    do 2 f_equal. apply map_ext. intros p. unfold negative_model. cbn. lra.
  - set (m := Datatypes.S m') in *. assert (Hm : (0 < m)%nat) by (unfold m; lia). clearbody m. clear m' KN.
    replace (Nat.ltb 0 m) with true by (symmetry; apply Nat.ltb_lt; exact Hm).
    destruct (Kx2 Hm) as [Kx2' Lx2], (Ky2 Hm) as [Ky2' Ly2], (Kw2 Hm) as [Kw2' Lw2], (Ks2 Hm) as [Ks2' Ls2], (Kq2 Hm) as [Kq2' Lq2], (Kr2 Hm) as [Kr2' Lr2].
    assert (HX : get neg "x" = Some (Vec X2)) by (rewrite GN; exact Kx2'). assert (HY : get neg "y" = Some (Vec Y2)) by (rewrite GN; exact Ky2').
    assert (HW : get neg "weight" = Some (Vec W2)) by (rewrite GN; exact Kw2'). assert (HS : get neg "sx" = Some (Vec S2)) by (rewrite GN; exact Ks2').
    assert (HQ : get neg "q" = Some (Vec Q2)) by (rewrite GN; exact Kq2'). assert (HR : get neg "rho" = Some (Vec R2)) by (rewrite GN; exact Kr2').
    assert (NO : forall k, ~ In k ["weight"; "x"; "y"; "rho"; "sx"; "q"]%string -> get neg k = None).
    { intros k Hk. apply by_name_None. intros H. apply Hk. apply NK. exact H. }
    assert (Hna : get neg "a" = None) by (apply NO; cbn; intuition discriminate).
    assert (AN : forallb (fun kv => existsb (String.eqb (fst kv)) arguments) neg = true).
    { apply forallb_forall. intros [k v] H. cbn [fst]. apply (in_map fst) in H. apply NK in H. cbn [fst In] in H.
      repeat (destruct H as [<-|H]; [reflexivity|]). contradiction. }
    assert (Hm1 : (1 <= m)%nat) by lia.
    rewrite (prediction_vec pix neg m 1 0 X2 Y2 W2 S2 Q2 R2); try assumption;
      [|unfold get_default; rewrite Hna; reflexivity
       |unfold get_default; rewrite NO by (cbn; intuition discriminate); reflexivity].
    destruct (fold_rect neg pos) as (best' & E & HB).
    { exact NN. }
    { intros H. apply NK in H. cbn in H. intuition discriminate. }
    { intros p v Hp. assert (Hk := Hp). apply (in_map fst) in Hk. cbn [fst] in Hk. apply NK in Hk. cbn [In] in Hk.
      assert (Hv : get neg p = Some v) by (apply by_name_iff; assumption).
      repeat (destruct Hk as [<-|Hk]; [do 2 eexists; split; [eassumption | match type of Hv with get neg ?k = _ => match goal with H2 : get neg k = Some (Vec _) |- _ => rewrite H2 in Hv; injection Hv as <-; reflexivity end end]|]). contradiction. }
    { intros _. exists A. exact GA. }
    destruct neg as [|kv t]; [discriminate HX|]. rewrite E.
    exists best', 1, (map (fun x => x * A) W ++ map (fun x => x * -1) W2).
    split; [|split; [|split]].
    + do 2 f_equal. rewrite combine_map_same, map_map. apply map_ext. intros p. cbn [fst snd].
      unfold negative_model. replace (Nat.ltb 0 m) with true by (symmetry; apply Nat.ltb_lt; exact Hm). lra.
    + unfold get_default. rewrite HB. unfold rectified. rewrite Hna, HW. reflexivity.
    + rewrite HB. unfold rectified. rewrite NO by (cbn; intuition discriminate). exact GSY.
    + split; [reflexivity|]. split; [reflexivity|].
      rewrite !HB. unfold rectified. rewrite HX, HY, HW, HS, HQ, HR, GX, GY, GW, GS, GQ, GR, GA. repeat split; reflexivity.
Qed.

(** ** The whole way: fit, rectify, convert, store *)
Lemma conv_bin bin os cx cy scale W X Y S Q R' i : g_bin (row_of bin os cx cy scale W X Y S Q R' i) = bin.
Proof. reflexivity. Qed.
Lemma filter_bins (f : nat -> nat -> grow) o r : (forall b i, g_bin (f b i) = b) -> forall n s, (s <= r < s + n)%nat ->
  filter (fun g => Nat.eqb (g_bin g) r) (concat (map (fun b => map (f b) o) (seq s n))) = map (f r) o.
Proof.
  intros Hf.
  assert (NO : forall b, b <> r -> filter (fun g => Nat.eqb (g_bin g) r) (map (f b) o) = []).
  { intros b Hb. induction o as [|i o' IH]; [reflexivity|]. cbn. rewrite Hf. destruct (Nat.eqb_spec b r); [congruence | exact IH]. }
  assert (YES : filter (fun g => Nat.eqb (g_bin g) r) (map (f r) o) = map (f r) o).
  { clear NO. induction o as [|i o' IH]; [reflexivity|]. cbn. rewrite Hf, Nat.eqb_refl, IH. reflexivity. }
  assert (ALL : forall n s, (r < s)%nat -> filter (fun g => Nat.eqb (g_bin g) r) (concat (map (fun b => map (f b) o) (seq s n))) = []).
  { induction n; intros s Hs; [reflexivity|]. cbn. rewrite filter_app, NO by lia. cbn. apply IHn. lia. }
  induction n; intros s Hs; [lia|]. cbn [seq map concat]. rewrite filter_app.
  destruct (Nat.eq_dec s r) as [->|E].
  - rewrite YES, ALL by lia. apply app_nil_r.
  - rewrite NO by assumption. cbn. apply IHn. lia.
Qed.
Lemma bins_length (f : nat -> nat -> grow) o : forall n s, List.length (concat (map (fun b => map (f b) o) (seq s n))) = (n * List.length o)%nat.
Proof. induction n; intros s; [reflexivity|]. cbn. rewrite app_length, map_length, IHn. lia. Qed.

Lemma by_name_replace f b g : by_name b (replace_group f b g) = Some g.
Proof.
  induction f as [|[k v] t IH]; cbn; [rewrite String.eqb_refl; reflexivity|].
  destruct (String.eqb k b) eqn:E; cbn; rewrite E; auto.
Qed.
Lemma by_name_replace_other f b g b' : b <> b' -> by_name b' (replace_group f b g) = by_name b' f.
Proof.
  intros H. induction f as [|[k v] t IH]; cbn.
  - destruct (String.eqb_spec b b'); [contradiction | reflexivity].
  - destruct (String.eqb_spec k b) as [->|E]; cbn; [destruct (String.eqb_spec b b'); [contradiction | reflexivity]|].
    rewrite IH. reflexivity.
Qed.

(** The vectors of the rectified dictionary *)
Lemma rectified_vectors n m bg best0 A B X Y W S Q R' X2 Y2 W2 S2 Q2 R2 pix :
  (1 <= n)%nat -> in_range best0 -> parts n m bg best0 A B X Y W S Q R' X2 Y2 W2 S2 Q2 R2 ->
  exists best scale W' X' Y' S' Q' R'', let N := (n + m)%nat in
     rectify best0 pix = Some (best, map (fun p => terms (fst p) (snd p) X Y (repeat A n) W S Q R' + B
                                       - negative_model m p X2 Y2 W2 S2 Q2 R2) pix) /\
     get_default best "a" 1 = Sc scale /\ get best "sy" = None /\
     (get best "weight" = Some (Vec W') /\ List.length W' = N) /\
     (get best "x" = Some (Vec X') /\ List.length X' = N) /\ (get best "y" = Some (Vec Y') /\ List.length Y' = N) /\
     (get best "sx" = Some (Vec S') /\ List.length S' = N) /\ (get best "q" = Some (Vec Q') /\ List.length Q' = N) /\
     (get best "rho" = Some (Vec R'') /\ List.length R'' = N) /\
     Forall (fun s => 0 < s) S' /\ Forall (fun q => 0 < q) Q' /\ Forall (fun r => r ^ 2 < 1) R'' /\
     (forall px py, terms px py X' Y' (repeat scale N) W' S' Q' R'' =
                   terms px py X Y (repeat A n) W S Q R' - negative_model m (px, py) X2 Y2 W2 S2 Q2 R2) /\
     scale * rsum W' = A * rsum W - (if Nat.ltb 0 m then rsum W2 else 0).
Proof.
  intros Hn HR P.
  destruct (rectify_parts n m bg best0 A B X Y W S Q R' X2 Y2 W2 S2 Q2 R2 pix Hn P) as (best & scale & W' & E & Ga & Gsy & D).
  destruct P as [_ KK KN Ka Kbg Kbg0 [Kx Lx] [Ky Ly] [Kw Lw] [Ks Ls] [Kq Lq] [Kr Lr] Kx2 Ky2 Kw2 Ks2 Kq2 Kr2].
  assert (FS := proj1 (HR _ _ Ks) ltac:(cbn; auto)). assert (FQ := proj1 (HR _ _ Kq) ltac:(cbn; auto)). assert (FR := proj2 (HR _ _ Kr) ltac:(cbn; auto)).
  exists best, scale, W'.
  destruct (Nat.ltb 0 m) eqn:Em.
  - destruct D as (-> & -> & D1 & D2 & D3 & D4 & D5 & D6). apply Nat.ltb_lt in Em.
    destruct (Kx2 Em) as [Kx2' Lx2], (Ky2 Em) as [Ky2' Ly2], (Kw2 Em) as [Kw2' Lw2], (Ks2 Em) as [Ks2' Ls2], (Kq2 Em) as [Kq2' Lq2], (Kr2 Em) as [Kr2' Lr2].
    assert (FS2 := proj1 (HR _ _ Ks2') ltac:(cbn; auto)). assert (FQ2 := proj1 (HR _ _ Kq2') ltac:(cbn; auto)). assert (FR2 := proj2 (HR _ _ Kr2') ltac:(cbn; auto)).
    exists (X ++ X2), (Y ++ Y2), (S ++ S2), (Q ++ Q2), (R' ++ R2). cbn zeta.
    split; [exact E|]. split; [exact Ga|]. split; [exact Gsy|].
    split; [split; [exact D1 | rewrite app_length, !map_length; lia]|].
    split; [split; [exact D2 | rewrite app_length; lia]|]. split; [split; [exact D3 | rewrite app_length; lia]|].
    split; [split; [exact D4 | rewrite app_length; lia]|]. split; [split; [exact D5 | rewrite app_length; lia]|].
    split; [split; [exact D6 | rewrite app_length; lia]|].
    split; [apply Forall_app; auto|]. split; [apply Forall_app; auto|]. split; [apply Forall_app; auto|]. split.
    + intros px py. rewrite repeat_app.
      rewrite terms_app by (rewrite ?map_length, ?repeat_length; lia). rewrite !terms_weight, Rmult_1_l, Rmult_1_l, terms_neg.
      unfold negative_model. replace (Nat.ltb 0 m) with true by (symmetry; apply Nat.ltb_lt; exact Em). cbn [fst snd]. lra.
    + rewrite rsum_app.
      assert (M : forall k l, rsum (map (fun x => x * k) l) = k * rsum l) by (intros k l; unfold rsum; induction l; cbn; [lra | rewrite IHl; lra]).
      rewrite !M. lra.
  - destruct D as (-> & -> & D1 & D2 & D3 & D4 & D5 & D6). apply Nat.ltb_ge in Em. assert (m = 0%nat) as -> by lia.
    exists X, Y, S, Q, R'. cbn zeta. rewrite Nat.add_0_r. split; [exact E|]. split; [exact Ga|]. split; [exact Gsy|].
    repeat (split; [split; assumption|]). repeat (split; [assumption|]).
    split; [intros px py; unfold negative_model; cbn; lra | lra].
Qed.

(** What is stored, with the vectors named *)
Lemma stored_rows argsort best cx cy nloc nradii os N scale X' Y' W' S' Q' R'' file band overwrite ps sc :
  Permutation (argsort W') (seq 0 N) ->
  get best "x" = Some (Vec X') -> get best "y" = Some (Vec Y') -> get best "weight" = Some (Vec W') ->
  get best "sx" = Some (Vec S') -> get best "q" = Some (Vec Q') -> get best "rho" = Some (Vec R'') -> get best "sy" = None ->
  get_default best "a" 1 = Sc scale ->
  List.length X' = N -> List.length Y' = N -> List.length W' = N -> List.length S' = N -> List.length Q' = N -> List.length R'' = N ->
  convert_psf_data argsort best cx cy nloc nradii os = Some (ps, sc) ->
  overwrite = true \/ by_name band file = None ->
  sc = scale /\ snd (package_output file band ps overwrite) = true /\
  exists g, by_name band (fst (package_output file band ps overwrite)) = Some g /\ List.length (b_parameters g) = nloc /\
    forall l r row, nth_error (b_parameters g) l = Some row -> (r < nradii)%nat ->
      List.length row = b_npsf g /\
      filter (fun g => Nat.eqb (g_bin g) r) row = map (row_of r os cx cy scale W' X' Y' S' Q' R'') (rev (argsort W')).
Proof.
  intros HW V2 V3 V1 V4 V5 V6 Gsy Ga L2 L3 L1 L4 L5 L6 HC HO.
  rewrite (convert_vec argsort best cx cy nloc nradii os N scale X' Y' W' S' Q' R'') in HC by assumption.
  injection HC as <- <-. split; [reflexivity|].
  unfold package_output. cbn [q_cells q_nradii q_ngauss].
  set (cells := repeat _ nloc). split.
  { destruct (by_name band file); [|reflexivity]. destruct HO as [->|HO]; [reflexivity | discriminate]. }
  exists (mkGroup (map (@concat grow) cells) (nradii * N)).
  split.
  { destruct (by_name band file); cbn [fst]; [|apply by_name_replace]. destruct HO as [->|HO]; [apply by_name_replace | discriminate]. }
  cbn [b_parameters b_npsf]. split; [unfold cells; rewrite map_length, repeat_length; reflexivity|].
  intros l r row Hl Hr.
  assert (Hrow : row = concat (map (fun bin => map (row_of bin os cx cy scale W' X' Y' S' Q' R'') (rev (argsort W'))) (seq 0 nradii))).
  { apply nth_error_In in Hl. apply in_map_iff in Hl. destruct Hl as (c & <- & Hc). unfold cells in Hc. apply repeat_spec in Hc. subst c. reflexivity. }
  subst row.
  assert (LO : List.length (rev (argsort W')) = N).
  { rewrite rev_length, (Permutation_length HW), seq_length. reflexivity. }
  rewrite (filter_bins (fun b => row_of b os cx cy scale W' X' Y' S' Q' R'')) by (try reflexivity; lia).
  split; [rewrite (bins_length (fun b => row_of b os cx cy scale W' X' Y' S' Q' R'')), LO; reflexivity | reflexivity].
Qed.

(** A fit of two or more gaussians, with negative ones or a background or neither: the model image, the stored parameters
    and the group in the file agree.  At every location and for every radius bin the stored rows of the bin are as many as
    there are gaussians and together, at the position of a pixel from the centre in science pixels, are the model image of
    the pixel without the background, in flux per science pixel. *)
Theorem C58_stored : forall ngauss nneg fixed fit_bg a d argsort nloc nradii os cx cy pix file band,
  (2 <= ngauss)%nat -> sampled ngauss nneg fixed fit_bg d -> in_range (fit_best fixed a d) ->
  (forall l, Permutation (argsort l) (seq 0 (List.length l))) -> 0 < os ->
  exists best model ps scale,
    rectify (fit_best fixed a d) pix = Some (best, model) /\ List.length model = List.length pix /\
    convert_psf_data argsort best cx cy nloc nradii os = Some (ps, scale) /\
    exists g, by_name band (fst (package_output file band ps true)) = Some g /\ List.length (b_parameters g) = nloc /\
      forall l r row, nth_error (b_parameters g) l = Some row -> (r < nradii)%nat ->
        let rows := filter (fun g => Nat.eqb (g_bin g) r) row in
        List.length row = b_npsf g /\ List.length rows = (ngauss + nneg)%nat /\
        forall k px py v bg, nth_error pix k = Some (px, py) -> nth_error model k = Some v ->
          get_default d "bg" 0 = Sc bg ->
          rsum (map (row_dens ((px - cx) / os) ((py - cy) / os)) rows) = os ^ 2 * (v - bg).
Proof.
  intros n m fixed bg a d argsort nloc nradii os cx cy pix file band Hn HS HR HA Ho.
  destruct (parts_of n m fixed bg a d Hn HS) as (A & B & X & Y & W & S & Q & R' & X2 & Y2 & W2 & S2 & Q2 & R2 & P & _).
  assert (GB : get_default d "bg" 0 = Sc B).
  { assert (K := k_bg _ _ _ _ _ _ _ _ _ _ _ _ _ _ _ _ _ _ P). assert (K0 := k_bg0 _ _ _ _ _ _ _ _ _ _ _ _ _ _ _ _ _ _ P).
    assert (E : get (fit_best fixed a d) "bg" = get d "bg") by (destruct fixed; cbn [fit_best]; [apply get_set_other; discriminate | reflexivity]).
    rewrite E in K. unfold get_default. rewrite K. destruct bg; [reflexivity | rewrite K0; reflexivity]. }
  set (best0 := fit_best fixed a d) in *. clearbody best0.
  destruct (rectified_vectors n m bg best0 A B X Y W S Q R' X2 Y2 W2 S2 Q2 R2 pix ltac:(lia) HR P)
    as (best & scale & W' & X' & Y' & S' & Q' & R'' & E & Ga & Gsy & [V1 L1] & [V2 L2] & [V3 L3] & [V4 L4] & [V5 L5] & [V6 L6] & F1 & F2 & F3 & T & _).
  assert (HW := HA W'). rewrite L1 in HW.
  assert (C := convert_vec argsort best cx cy nloc nradii os (n + m) scale X' Y' W' S' Q' R'' HW V2 V3 V1 V4 V5 V6 Gsy Ga L2 L3 L1 L4 L5 L6).
  eexists best, _, _, scale. split; [exact E|]. split; [apply map_length|]. split; [exact C|].
  destruct (stored_rows argsort best cx cy nloc nradii os (n + m) scale X' Y' W' S' Q' R'' file band true _ _ HW V2 V3 V1 V4 V5 V6 Gsy Ga L2 L3 L1 L4 L5 L6 C (or_introl eq_refl))
    as (_ & _ & g & G1 & G2 & G3).
  exists g. split; [exact G1|]. split; [exact G2|]. intros l r row Hl Hr. cbn zeta.
  destruct (G3 l r row Hl Hr) as [G4 G5]. rewrite G5. split; [exact G4|].
  split; [rewrite map_length, rev_length, (Permutation_length HW), seq_length; reflexivity|].
  intros k px py v b Hk Hv Hb. rewrite GB in Hb. injection Hb as <-.
  rewrite nth_error_map, Hk in Hv. cbn [option_map] in Hv. injection Hv as <-.
  rewrite (rows_density argsort r os cx cy scale X' Y' W' S' Q' R'' (n + m) px py) by assumption.
  rewrite T. cbn [fst snd]. f_equal. lra.
Qed.
Print Assumptions C58_stored.

(** The flux of the stored PSF: when the weights of the positive gaussians sum to one, as the sampler demands, the
    amplitudes of every bin sum to the fitted (or fixed) total less the weights of the negative gaussians. *)
Theorem C58_flux : forall ngauss nneg fixed fit_bg a d argsort nloc nradii os cx cy pix file band best model ps scale W A W2,
  (2 <= ngauss)%nat -> sampled ngauss nneg fixed fit_bg d -> in_range (fit_best fixed a d) ->
  (forall l, Permutation (argsort l) (seq 0 (List.length l))) ->
  get d "weight" = Some (Vec W) -> rsum W = 1 -> (if fixed then A = a else get d "a" = Some (Sc A)) ->
  (if Nat.ltb 0 nneg then get d "weight_m" = Some (Vec W2) else W2 = []) ->
  rectify (fit_best fixed a d) pix = Some (best, model) ->
  convert_psf_data argsort best cx cy nloc nradii os = Some (ps, scale) ->
  forall overwrite, overwrite = true \/ by_name band file = None ->
  snd (package_output file band ps overwrite) = true /\
  forall g l r row, by_name band (fst (package_output file band ps overwrite)) = Some g ->
    nth_error (b_parameters g) l = Some row -> (r < nradii)%nat ->
    rsum (map g_amp (filter (fun g => Nat.eqb (g_bin g) r) row)) = A - rsum W2.
Proof.
  intros n m fixed bg a d argsort nloc nradii os cx cy pix file band best model ps scale W0 A0 W20 Hn HS HR HA HW HW1 HA0 HW2 ER EC ov Hov.
  destruct (parts_of n m fixed bg a d Hn HS) as (A & B & X & Y & W & S & Q & R' & X2 & Y2 & W2 & S2 & Q2 & R2 & P & PA).
  assert (G : forall k, k <> "a"%string -> get (fit_best fixed a d) k = get d k).
  { intros k H. destruct fixed; cbn [fit_best]; [apply get_set_other; congruence | reflexivity]. }
  assert (EW : W0 = W).
  { destruct (k_w _ _ _ _ _ _ _ _ _ _ _ _ _ _ _ _ _ _ P) as [K _]. rewrite G in K by discriminate. congruence. }
  assert (EA : A0 = A).
  { destruct fixed; [rewrite PA by reflexivity; exact HA0|].
    assert (K := k_a _ _ _ _ _ _ _ _ _ _ _ _ _ _ _ _ _ _ P). cbn [fit_best] in K. congruence. }
  assert (EW2 : rsum W20 = if Nat.ltb 0 m then rsum W2 else 0).
  { destruct (Nat.ltb 0 m) eqn:Em; [|rewrite HW2; reflexivity].
    destruct (k_w2 _ _ _ _ _ _ _ _ _ _ _ _ _ _ _ _ _ _ P) as [K _]; [apply Nat.ltb_lt; exact Em|].
    rewrite G in K by discriminate. congruence. }
  subst W0 A0. rewrite EW2. clear EW2 HW2 HW HA0 G PA.
  destruct (rectified_vectors n m bg _ A B X Y W S Q R' X2 Y2 W2 S2 Q2 R2 pix ltac:(lia) HR P)
    as (best' & sc & W' & X' & Y' & S' & Q' & R'' & E & Ga & Gsy & [V1 L1] & [V2 L2] & [V3 L3] & [V4 L4] & [V5 L5] & [V6 L6] & F1 & F2 & F3 & T & FX).
  rewrite ER in E. injection E as -> _.
  assert (HP := HA W'). rewrite L1 in HP.
  destruct (stored_rows argsort best' cx cy nloc nradii os (n + m) sc X' Y' W' S' Q' R'' file band ov _ _ HP V2 V3 V1 V4 V5 V6 Gsy Ga L2 L3 L1 L4 L5 L6 EC Hov)
    as (-> & OK & g & G1 & G2 & G3).
  split; [exact OK|]. intros g' l r row Hg Hl Hr. rewrite G1 in Hg. injection Hg as <-.
  destruct (G3 l r row Hl Hr) as [_ ->].
  rewrite map_map. cbn [g_amp row_of conv_row].
  assert (HP' : Permutation (rev (argsort W')) (seq 0 (n + m))) by (rewrite <- HP; symmetry; apply Permutation_rev).
  rewrite (rsum_perm _ _ (Permutation_map _ HP')).
  rewrite (map_ext _ (fun i => sc * nth i W' 0)) by (intros; ring). rewrite rsum_scale.
  rewrite <- L1, map_nth_seq, FX, HW1. lra.
Qed.
Print Assumptions C58_flux.

Lemma StronglySorted_snoc {A} (R : A -> A -> Prop) l x : StronglySorted R l -> Forall (fun y => R y x) l -> StronglySorted R (l ++ [x]).
Proof.
  induction 1 as [|y l H IH HF]; intros G; cbn; [repeat constructor|]. inversion G; subst.
  constructor; [auto|]. apply Forall_app. auto.
Qed.
Lemma StronglySorted_rev {A} (R : A -> A -> Prop) l : StronglySorted R l -> StronglySorted (fun x y => R y x) (rev l).
Proof.
  induction 1 as [|x l H IH HF]; cbn; [constructor|]. apply StronglySorted_snoc; [exact IH|].
  apply Forall_rev. exact HF.
Qed.
Lemma conv_rows_sorted bin os cx cy scale : 0 <= scale -> forall w x y s1 s2 r,
  StronglySorted (fun a b => b <= a) w -> StronglySorted (fun g h => g_amp h <= g_amp g) (conv_rows bin os cx cy scale w x y s1 s2 r).
Proof.
  intros Hs.
  assert (F : forall v w x y s1 s2 r, Forall (fun b => b <= v) w -> Forall (fun h => g_amp h <= v * scale) (conv_rows bin os cx cy scale w x y s1 s2 r)).
  { induction w as [|b w IH]; intros [|e1 x] [|e2 y] [|e3 s1] [|e4 s2] [|e5 r] HF; try (cbn; constructor). 
    - cbn. inversion HF; subst. apply Rmult_le_compat_r; assumption.
    - inversion HF; subst. apply IH. assumption. }
  induction w as [|b w IH]; intros [|e1 x] [|e2 y] [|e3 s1] [|e4 s2] [|e5 r] HW; try (cbn; constructor).
  - apply IH. inversion HW; assumption.
  - apply F. inversion HW; assumption.
Qed.
Lemma map_sorted {A B} (R : B -> B -> Prop) (f : A -> B) l : StronglySorted (fun i j => R (f i) (f j)) l -> StronglySorted R (map f l).
Proof. induction 1 as [|x l H IH HF]; cbn; constructor; [exact IH|]. apply Forall_map. exact HF. Qed.

(** In every bin the gaussians come with the largest amplitude first, when the total is not negative. *)
Theorem C58_order : forall argsort best cx cy nloc nradii os ps scale bins rows,
  (forall l, Permutation (argsort l) (seq 0 (List.length l)) /\ Sorted (fun i j => nth i l 0 <= nth j l 0) (argsort l)) ->
  convert_psf_data argsort best cx cy nloc nradii os = Some (ps, scale) -> 0 <= scale ->
  In bins (q_cells ps) -> In rows bins -> Sorted (fun g h => g_amp h <= g_amp g) rows.
Proof.
  intros argsort best cx cy nloc nradii os ps scale bins rows HA HC Hs Hb Hrow.
  unfold convert_psf_data in HC.
  destruct (get best "x") as [[|bx]|]; try discriminate. destruct (get best "weight") as [[|bw]|] eqn:Ew; try discriminate.
  destruct (get_default best "a" 1) as [sc|]; [|discriminate]. cbn zeta in HC.
  destruct (HA bw) as [HP HS].
  assert (Ho : Forall (fun i => (i < List.length bw)%nat) (rev (argsort bw))).
  { apply Forall_forall. intros i Hi. apply in_rev in Hi. apply (Permutation_in _ HP) in Hi. apply in_seq in Hi. lia. }
  destruct (taken best "weight" (List.length bx) (rev (argsort bw))) as [w|] eqn:Tw; [|discriminate].
  assert (Lw : List.length bw = List.length bx).
  { unfold taken in Tw. rewrite Ew in Tw. destruct (Nat.eqb_spec (List.length bw) (List.length bx)); [assumption | discriminate]. }
  rewrite (taken_ok _ _ bw _ _ Ew) in Tw by (try exact Lw; rewrite <- Lw; exact Ho). injection Tw as <-.
  destruct (taken best "x" _ _) as [x|]; [|discriminate]. destruct (taken best "y" _ _) as [y|]; [|discriminate].
  destruct (taken best "sx" _ _) as [s0|]; [|discriminate]. destruct (taken best "rho" _ _) as [r|]; [|discriminate].
  match type of HC with match ?X with _ => _ end = _ => destruct X as [s2|]; [|discriminate] end.
  injection HC as <- <-. cbn [q_cells] in Hb. apply repeat_spec in Hb. subst bins.
  apply in_map_iff in Hrow. destruct Hrow as (bin & <- & _).
  apply StronglySorted_Sorted, conv_rows_sorted; [exact Hs|]. apply map_sorted.
  apply (StronglySorted_rev (fun i j => nth i bw 0 <= nth j bw 0)). apply Sorted_StronglySorted; [|exact HS].
  intros i j k. apply Rle_trans.
Qed.
Print Assumptions C58_order.

(** One gaussian: the weight is not sampled then, and nothing is ever stored. *)
Lemma fold_rect_none neg : fold_left rect_step neg None = None.
Proof. induction neg; cbn; auto. Qed.
Lemma rect_no_weight neg : forall b b', get b "weight" = None -> fold_left rect_step neg (Some b) = Some b' -> get b' "weight" = None.
Proof.
  induction neg as [|[p v] neg IH]; intros b b' H E; cbn in E; [congruence|].
  destruct (String.eqb_spec p "weight") as [->|Hp].
  - rewrite H in E. rewrite fold_rect_none in E. discriminate.
  - destruct (get b p) as [[|l]|]; try (rewrite fold_rect_none in E; discriminate).
    destruct v as [|m]; [rewrite fold_rect_none in E; discriminate|].
    apply IH in E; [exact E|]. rewrite get_set_other by exact Hp. exact H.
Qed.
Theorem C58_one_gaussian_refuted : forall nneg fixed fit_bg a d argsort nloc nradii os cx cy pix,
  sampled 1 nneg fixed fit_bg d ->
  forall best model, rectify (fit_best fixed a d) pix = Some (best, model) ->
  convert_psf_data argsort best cx cy nloc nradii os = None.
Proof.
  intros nneg fixed bg a d argsort nloc nradii os cx cy pix [HP _] best model HR.
  assert (NW : get d "weight" = None).
  { apply by_name_None. intros H. apply (Permutation_in _ HP) in H. unfold psf_sites in H. change (Nat.ltb 1 1) with false in H.
    rewrite !map_app, !in_app_iff in H. destruct fixed, bg, (Nat.ltb 0 nneg); cbn in H; intuition discriminate. }
  assert (NW' : get (fit_best fixed a d) "weight" = None).
  { destruct fixed; cbn [fit_best]; [rewrite get_set_other by discriminate|]; exact NW. }
  assert (NP : get (fst (pop_negative (fit_best fixed a d))) "weight" = None) by (rewrite (proj1 (get_pop _ _)); exact NW').
  unfold rectify in HR. destruct (pop_negative (fit_best fixed a d)) as [pos neg]. cbn [fst] in NP.
  destruct (psf_prediction pix pos); [|discriminate].
  assert (NB : get best "weight" = None).
  { destruct neg as [|kv t]; [injection HR as <- _; exact NP|].
    destruct (psf_prediction pix (kv :: t)); [|discriminate].
    destruct (fold_left rect_step (kv :: t) (Some pos)) as [b|] eqn:E; [|discriminate]. injection HR as <- _.
    exact (rect_no_weight _ _ _ NP E). }
  unfold convert_psf_data. rewrite NB. destruct (get best "x") as [[]|]; reflexivity.
Qed.
Print Assumptions C58_one_gaussian_refuted.

(** Storing a band leaves the other bands of the file alone; one that is there is kept, and the call fails, unless it may
    be overwritten. *)
Theorem C58_overwrite : forall f band p overwrite,
  (forall b, b <> band -> by_name b (fst (package_output f band p overwrite)) = by_name b f) /\
  (forall g, by_name band f = Some g -> overwrite = false -> package_output f band p overwrite = (f, false)).
Proof.
  intros f band p ov. unfold package_output. split.
  - intros b Hb. destruct (by_name band f); [destruct ov|]; cbn [fst]; try reflexivity; apply by_name_replace_other; congruence.
  - intros g -> ->. reflexivity.
Qed.
Print Assumptions C58_overwrite.

(** Combining files: it works exactly if no two bands of all the files have the same name in capitals, and then the
    result has each band's group under its name in capitals. *)
Lemma by_name_snoc (out : h5) k g b : by_name k out = None ->
  by_name b (out ++ [(k, g)]) = if String.eqb k b then Some g else by_name b out.
Proof.
  induction out as [|[n v] t IH]; cbn; intros H; [reflexivity|].
  destruct (String.eqb_spec n k) as [->|E]; [discriminate|]. rewrite IH by exact H.
  destruct (String.eqb_spec n b) as [->|]; [|reflexivity]. destruct (String.eqb_spec k b); [congruence | reflexivity].
Qed.
Lemma copy_groups_spec src : forall out, NoDup (map fst out) ->
  (forall r, copy_groups out src = Some r <-> r = out ++ map (fun kg => (upper (fst kg), snd kg)) src /\ NoDup (map fst r)).
Proof.
  induction src as [|[k g] t IH]; intros out N r; cbn [copy_groups map].
  - rewrite app_nil_r. split; [injection 1 as <-; auto | intros [-> _]; reflexivity].
  - destruct (by_name (upper k) out) eqn:E.
    + split; [discriminate|]. intros [-> N']. exfalso. apply by_name_In, (in_map fst) in E. cbn in E.
      rewrite map_app in N'. cbn in N'. apply NoDup_remove_2 in N'. apply N'. apply in_or_app. left. exact E.
    + assert (N' : NoDup (map fst (out ++ [(upper k, g)]))).
      { rewrite map_app. cbn. apply by_name_None in E. apply NoDup_app_iff. split; [exact N|]. split; [repeat constructor; auto|].
        intros x Hx [<-|[]]. contradiction. }
      rewrite (IH _ N'). cbn [fst snd]. rewrite <- app_assoc. reflexivity.
Qed.
Theorem C58_combined : forall files r,
  combine_psfdatasets [] files = Some r <->
  r = map (fun kg => (upper (fst kg), snd kg)) (concat files) /\ NoDup (map fst r).
Proof.
  assert (H : forall files out, NoDup (map fst out) -> forall r,
    combine_psfdatasets out files = Some r <-> r = out ++ map (fun kg => (upper (fst kg), snd kg)) (concat files) /\ NoDup (map fst r)).
  { induction files as [|f t IH]; intros out N r; cbn [combine_psfdatasets concat].
    - cbn. rewrite app_nil_r. split; [injection 1 as <-; auto | intros [-> _]; reflexivity].
    - destruct (copy_groups out f) as [o|] eqn:E.
      + apply (copy_groups_spec f out N) in E. destruct E as [-> No]. rewrite (IH _ No). rewrite map_app, app_assoc. reflexivity.
      + split; [discriminate|]. intros [-> N']. exfalso.
        rewrite (map_app _ f), app_assoc, map_app in N'. apply NoDup_app_iff in N'. destruct N' as [N' _].
        assert (C : copy_groups out f = Some (out ++ map (fun kg => (upper (fst kg), snd kg)) f)) by (apply copy_groups_spec; auto).
        congruence. }
  intros files r. exact (H files [] (NoDup_nil _) r).
Qed.
Print Assumptions C58_combined.

(** ** Reading the image *)
Lemma firstn_seq' n : forall s k, (k <= n)%nat -> firstn k (seq s n) = seq s k.
Proof. induction n; intros s [|k] H; cbn; try reflexivity; [lia|]. rewrite IHn by lia. reflexivity. Qed.
Lemma skipn_seq' n : forall s k, skipn k (seq s n) = seq (s + k) (n - k).
Proof.
  induction n; intros s [|k]; cbn [skipn seq Nat.sub]; rewrite ?Nat.add_0_r; try reflexivity.
  rewrite IHn. f_equal. lia.
Qed.
Lemma flat_nth {A} (f : nat -> list A) m : (forall i, List.length (f i) = m) -> forall n s x y, (x < n)%nat -> (y < m)%nat ->
  nth_error (flat_map f (seq s n)) (x * m + y) = nth_error (f (s + x)%nat) y.
Proof.
  intros Hm. induction n; intros s x y Hx Hy; [lia|]. cbn [seq flat_map]. destruct x as [|x].
  - rewrite Nat.add_0_r. cbn [Nat.mul Nat.add]. apply nth_error_app1. rewrite Hm. exact Hy.
  - rewrite nth_error_app2 by (rewrite Hm; lia). rewrite Hm. replace (Datatypes.S x * m + y - m)%nat with (x * m + y)%nat by lia.
    rewrite IHn by lia. f_equal. f_equal. lia.
Qed.
Lemma flat_len {A} (f : nat -> list A) m : (forall i, List.length (f i) = m) -> forall n s, List.length (flat_map f (seq s n)) = (n * m)%nat.
Proof. intros Hm. induction n; intros s; [reflexivity|]. cbn [seq flat_map]. rewrite app_length, Hm, IHn. lia. Qed.
Lemma nth_error_seq' n : forall s k, (k < n)%nat -> nth_error (seq s n) k = Some (s + k)%nat.
Proof.
  induction n; intros s [|k] H; cbn; try lia; [f_equal; lia|]. rewrite IHn by lia. f_equal. lia.
Qed.
Lemma combine_nth' {A B} : forall (l : list A) (m : list B) k a b, nth_error l k = Some a -> nth_error m k = Some b -> nth_error (combine l m) k = Some (a, b).
Proof. induction l; intros [|? m] [|k] a' b'; cbn; try discriminate; [congruence | apply IHl]. Qed.
(** Element k of the data is the FITS value in column xpix[k] + pad and row ypix[k] + pad (counted from 0); all pixels of
    the trimmed image occur, in the order x slow, y fast; the centre is the centre of the FITS image less the trim. *)
Theorem C58_image : forall f pad, let im := read_image f pad in
  (2 * pad < f_nx f)%nat -> (2 * pad < f_ny f)%nat ->
  List.length (f_rows f) = f_ny f -> Forall (fun r => List.length r = f_nx f) (f_rows f) ->
  (inx im + 2 * pad = f_nx f)%nat /\ (iny im + 2 * pad = f_ny f)%nat /\
  icx im = (INR (f_nx f) - 1) / 2 - INR pad /\ icy im = (INR (f_ny f) - 1) / 2 - INR pad /\
  List.length (idata im) = (inx im * iny im)%nat /\ List.length (pixels_of im) = (inx im * iny im)%nat /\
  forall x y, (x < inx im)%nat -> (y < iny im)%nat ->
    let k := (x * iny im + y)%nat in
    nth_error (xpix im) k = Some x /\ nth_error (ypix im) k = Some y /\ nth_error (pixels_of im) k = Some (INR x, INR y) /\
    exists row, nth_error (f_rows f) (y + pad) = Some row /\ nth_error (idata im) k = nth_error row (x + pad) /\ nth_error row (x + pad) <> None.
Proof.
  intros f pad im Hx Hy Hr Hc. unfold im, read_image. cbn [xpix ypix idata inx iny icx icy].
  set (nx := (f_nx f - pad - pad)%nat). set (ny := (f_ny f - pad - pad)%nat).
  assert (Ex : (f_nx f = nx + 2 * pad)%nat) by (unfold nx; lia). assert (Ey : (f_ny f = ny + 2 * pad)%nat) by (unfold ny; lia).
  clear im. clearbody nx ny.
  assert (D : concat (map (fun l => firstn ny (skipn pad l)) (firstn nx (skipn pad
      (map (fun x => map (fun y => nth x (nth y (f_rows f) []) 0) (seq 0 (f_ny f))) (seq 0 (f_nx f))))))
    = flat_map (fun x => map (fun y => nth x (nth y (f_rows f) []) 0) (seq pad ny)) (seq pad nx)).
  { rewrite skipn_map, firstn_map, map_map, flat_map_concat_map, skipn_seq', firstn_seq' by lia.
    cbn [Nat.add]. f_equal. apply map_ext. intros x. rewrite skipn_map, firstn_map, skipn_seq', firstn_seq' by lia. reflexivity. }
  rewrite D.
  assert (F1 : forall i : nat, List.length (map (fun _ : nat => i) (seq 0 ny)) = ny) by (intros; rewrite map_length, seq_length; reflexivity).
  assert (F2 : forall i : nat, List.length ((fun _ : nat => seq 0 ny) i) = ny) by (intros; apply seq_length).
  assert (F3 : forall i : nat, List.length (map (fun y => nth i (nth y (f_rows f) []) 0) (seq pad ny)) = ny) by (intros; rewrite map_length, seq_length; reflexivity).
  assert (PX : forall x y, (x < nx)%nat -> (y < ny)%nat -> nth_error (flat_map (fun x => map (fun _ => x) (seq 0 ny)) (seq 0 nx)) (x * ny + y) = Some x).
  { intros x y H1 H2. rewrite (flat_nth _ ny F1) by assumption. cbn [Nat.add]. rewrite nth_error_map, nth_error_seq' by assumption. reflexivity. }
  assert (PY : forall x y, (x < nx)%nat -> (y < ny)%nat -> nth_error (flat_map (fun _ => seq 0 ny) (seq 0 nx)) (x * ny + y) = Some y).
  { intros x y H1 H2. rewrite (flat_nth _ ny F2) by assumption. rewrite nth_error_seq' by assumption. reflexivity. }
  split; [lia|]. split; [lia|].
  split; [rewrite Ex, plus_INR, mult_INR; cbn [INR]; lra|]. split; [rewrite Ey, plus_INR, mult_INR; cbn [INR]; lra|].
  split; [apply flat_len; exact F3|].
  split.
  { unfold pixels_of. cbn [xpix ypix]. rewrite map_length, combine_length, (flat_len _ ny F1), (flat_len _ ny F2). lia. }
  intros x y H1 H2. cbn zeta. split; [auto|]. split; [auto|]. split.
  { unfold pixels_of. cbn [xpix ypix]. rewrite nth_error_map, (combine_nth' _ _ _ _ _ (PX x y H1 H2) (PY x y H1 H2)). reflexivity. }
  assert (HL : (y + pad < List.length (f_rows f))%nat) by lia.
  exists (nth (y + pad) (f_rows f) []). split; [apply nth_error_nth'; exact HL|].
  assert (LR : List.length (nth (y + pad) (f_rows f) []) = f_nx f) by (rewrite Forall_forall in Hc; apply Hc, nth_In; exact HL).
  assert (E : nth_error (nth (y + pad) (f_rows f) []) (x + pad) = Some (nth (x + pad) (nth (y + pad) (f_rows f) []) 0)) by (apply nth_error_nth'; lia).
  rewrite E. split; [|discriminate].
  rewrite (flat_nth _ ny F3) by assumption. rewrite nth_error_map, nth_error_seq' by assumption. cbn [option_map].
  rewrite (Nat.add_comm pad x), (Nat.add_comm pad y). reflexivity.
Qed.
Print Assumptions C58_image.

(** ** Changing the pixel scale and blurring *)
(** scale_psf_data followed by convert_psf_data: the stored mixture in pixels [sf] times as large (in each bin the same
    mixture), at the same positions, with the same amplitudes. *)
Definition positive (g : grow) : Prop := 0 < g_xx g /\ 0 < g_yy g /\ g_xy g ^ 2 < g_xx g * g_yy g.
Lemma gauss_scale a x y cxx cyy cxy k X Y : 0 < k -> 0 < cxx * cyy - cxy ^ 2 ->
  gauss a (x / k) (y / k) (cxx / k ^ 2) (cyy / k ^ 2) (cxy / k ^ 2) X Y = k ^ 2 * gauss a x y cxx cyy cxy (k * X) (k * Y).
Proof.
  intros Hk Hd. unfold gauss.
  replace (cxx / k ^ 2 * (cyy / k ^ 2) - (cxy / k ^ 2) ^ 2) with ((cxx * cyy - cxy ^ 2) * (/ k ^ 2) ^ 2) by (field; lra).
  set (D := cxx * cyy - cxy ^ 2) in *.
  assert (K : 0 < / k ^ 2) by (apply Rinv_0_lt_compat, pow_lt; exact Hk).
  rewrite sqrt_mult by (try apply pow2_ge_0; lra). rewrite sqrt_pow2 by lra.
  assert (P := PI_RGT_0). assert (Q : 0 < sqrt D) by (apply sqrt_lt_R0; exact Hd).
  match goal with |- ?A * exp ?u = ?K * (?B * exp ?v) => replace v with u end.
  - match goal with |- context [exp ?u] => generalize (exp u) end. intros e. field. repeat split; lra.
  - field. split; lra.
Qed.
Definition shrink (sf : R) (bin : nat) (g : grow) : grow :=
  mkGrow (g_amp g) (g_x g / sf) (g_y g / sf) (g_xx g / sf ^ 2) (g_yy g / sf ^ 2) (g_xy g / sf ^ 2) bin.
Theorem C58_scaled : forall argsort gs cx cy sf nloc nradii,
  (forall l, Permutation (argsort l) (seq 0 (List.length l))) -> 0 < sf -> Forall positive gs ->
  exists ps, convert_psf_data argsort (scale_psf_data gs cx cy sf) cx cy nloc nradii 1 = Some (ps, 1) /\
    List.length (q_cells ps) = nloc /\
    forall l bins r rows, nth_error (q_cells ps) l = Some bins -> nth_error bins r = Some rows ->
      Permutation (map g_amp rows) (map g_amp gs) /\
      forall X Y, rsum (map (row_dens X Y) rows) = sf ^ 2 * rsum (map (row_dens (sf * X) (sf * Y)) gs).
Proof.
  intros argsort gs cx cy sf nloc nradii HA Hs HG.
  destruct gs as [|g0 gs0] eqn:Eg.
  - (* no gaussians *)
    assert (A0 : argsort [] = []) by (apply Permutation_nil; symmetry; apply (HA [])).
    exists (mkPars nloc nradii 0 (repeat (map (fun _ => []) (seq 0 nradii)) nloc)). split.
    + unfold convert_psf_data. cbn. rewrite A0. cbn. reflexivity.
    + cbn [q_cells]. split; [apply repeat_length|]. intros l bins r rows Hl Hr.
      apply nth_error_In, repeat_spec in Hl. subst bins. apply nth_error_In, in_map_iff in Hr. destruct Hr as (b & <- & _).
      split; [constructor|]. intros X Y. cbn. lra.
  - rewrite <- Eg in *. clear Eg gs0.
    set (o := rev (argsort (map g_amp gs))).
    assert (HP : Permutation o (seq 0 (List.length gs))).
    { unfold o. rewrite <- Permutation_rev. rewrite (HA (map g_amp gs)), map_length. reflexivity. }
    assert (Ho : Forall (fun i => (i < List.length gs)%nat) o).
    { apply Forall_forall. intros i Hi. apply (Permutation_in _ HP) in Hi. apply in_seq in Hi. lia. }
    set (d := scale_psf_data gs cx cy sf).
    assert (TK : forall k f, get d k = Some (Vec (map f gs)) -> taken d k (List.length gs) o = Some (map (fun i => f (nth i gs g0)) o)).
    { intros k f H. rewrite (taken_ok d k (map f gs)) by (rewrite ?map_length; auto). f_equal. apply map_ext_in. intros i Hi.
      rewrite Forall_forall in Ho. rewrite (nth_indep _ 0 (f g0)) by (rewrite map_length; auto). apply map_nth. }
    exists (mkPars nloc nradii (List.length gs) (repeat (map (fun bin => map (fun i => shrink sf bin (nth i gs g0)) o) (seq 0 nradii)) nloc)). split.
    + unfold convert_psf_data.
      assert (G1 : get d "x" = Some (Vec (map (fun p => g_x p / sf + cx) gs))) by reflexivity.
      assert (G2 : get d "weight" = Some (Vec (map g_amp gs))) by reflexivity.
      assert (G3 : get_default d "a" 1 = Sc 1) by reflexivity.
      assert (G4 : get d "y" = Some (Vec (map (fun p => g_y p / sf + cy) gs))) by reflexivity.
      assert (G5 : get d "sx" = Some (Vec (map (fun p => sqrt (g_xx p) / sf) gs))) by reflexivity.
      assert (G6 : get d "sy" = Some (Vec (map (fun p => sqrt (g_yy p) / sf) gs))) by reflexivity.
      assert (G7 : get d "rho" = Some (Vec (map (fun p => g_xy p / sqrt (g_xx p) / sqrt (g_yy p)) gs))) by reflexivity.
      rewrite G1, G2, G3, G6, map_length. fold o. cbn zeta.
      rewrite (TK _ _ G1), (TK _ _ G2), (TK _ _ G4), (TK _ _ G5), (TK _ _ G6), (TK _ _ G7). cbn [option_map].
      do 4 f_equal. apply map_ext. intros bin. rewrite !map_map, conv_rows_map. apply map_ext_in. intros i Hi.
      assert (PG : positive (nth i gs g0)).
      { rewrite Forall_forall in HG, Ho. apply HG, nth_In, Ho, Hi. }
      destruct PG as (P1 & P2 & P3). set (g := nth i gs g0) in *. clearbody g.
      assert (S1 := sqrt_lt_R0 _ P1). assert (S2 := sqrt_lt_R0 _ P2).
      assert (Q1 := sqrt_sqrt _ (Rlt_le _ _ P1)). assert (Q2 := sqrt_sqrt _ (Rlt_le _ _ P2)).
      unfold conv_row, shrink. f_equal; try (field; lra).
      * rewrite <- Q1 at 2. field. lra.
      * rewrite <- Q2 at 2. field. lra.
    + cbn [q_cells]. split; [apply repeat_length|]. intros l bins r rows Hl Hr.
      apply nth_error_In, repeat_spec in Hl. subst bins. apply nth_error_In, in_map_iff in Hr. destruct Hr as (b & <- & _).
      split.
      * rewrite map_map. cbn [g_amp shrink]. rewrite (Permutation_map _ HP).
        rewrite (seq_nth_map g0 g_amp). reflexivity.
      * intros X Y. rewrite map_map. rewrite (rsum_perm _ _ (Permutation_map _ HP)).
        rewrite (seq_nth_map g0 (fun g => row_dens X Y (shrink sf b g))).
        rewrite <- rsum_scale. f_equal. apply map_ext_in. intros g Hg.
        rewrite Forall_forall in HG. destruct (HG g Hg) as (P1 & P2 & P3).
        unfold row_dens, shrink. cbn [g_amp g_x g_y g_xx g_yy g_xy]. apply gauss_scale; lra.
Qed.
Print Assumptions C58_scaled.
