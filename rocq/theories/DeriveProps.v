(** C54: catalogs made from the results of fits. *)
From Coq Require Import Reals Lra Permutation.
From Verif Require Import Np NpFacts ChainFacts DeriveModel.
Open Scope R_scope.
Local Notation len := List.length (only parsing).

Definition total (l : list R) : R := fold_right Rplus 0 l.
(** Sample [k] of column [c] *)
Definition val (c : string) (k : nat) (r : crow) : R := match field (r_cols r) c with Some l => nth k l 0 | None => 0 end.
(** Every source has its chains, of [n] samples *)
Definition has_chains (n : nat) (cols : list string) (rows : list crow) : Prop :=
  forall r c, In r rows -> In c cols -> exists l, field (r_cols r) c = Some l /\ len l = n.

Lemma total_app a b : total (a ++ b) = total a + total b.
Proof. unfold total. induction a as [|x a IH]; cbn; [lra|rewrite IH; lra]. Qed.
Lemma total_perm a b : Permutation a b -> total a = total b.
Proof. unfold total. intros P. induction P; cbn; lra. Qed.
Lemma sum_chains_acc n cs : (forall c, In c cs -> len c = n) -> forall acc, len acc = n ->
  let s := fold_left (fun acc c => map (fun p => fst p + snd p) (combine acc c)) cs acc in len s = n /\ forall k, (k < n)%nat -> nth k s 0 = nth k acc 0 + total (map (fun c => nth k c 0) cs).
Proof.
  induction cs as [|c cs IH]; intros H acc La; cbn [fold_left map total fold_right]; [split; [exact La|intros; cbn; lra]|].
  set (acc' := map (fun p => fst p + snd p) (combine acc c)). assert (Lc : len c = n) by (apply H; now left). assert (La' : len acc' = n) by (unfold acc'; rewrite map_length, combine_length; lia).
  destruct (IH (fun c' Hc => H c' (or_intror Hc)) acc' La') as [L N]. split; [exact L|]. intros k Hk. cbv zeta in N. rewrite (N k Hk). unfold total. cbn [fold_right map].
  assert (E : nth k acc' 0 = nth k acc 0 + nth k c 0); [|rewrite E; lra]. unfold acc'. pose proof (map_nth (fun p : R * R => fst p + snd p) (combine acc c) (0, 0) k) as M. rewrite combine_nth in M by congruence. cbn [fst snd] in M. rewrite <- M. f_equal. lra.
Qed.
Lemma sum_chains_spec n cs : (forall c, In c cs -> len c = n) -> len (sum_chains n cs) = n /\ forall k, (k < n)%nat -> nth k (sum_chains n cs) 0 = total (map (fun c => nth k c 0) cs).
Proof.
  intros H. destruct (sum_chains_acc n cs H (repeat 0 n) (repeat_length _ _)) as [L N]. split; [exact L|]. intros k Hk. unfold sum_chains. rewrite (N k Hk), nth_repeat. lra.
Qed.
Lemma index_id_spec mid s i : index_id mid s = Some i -> nth_error mid i = Some (Txt s).
Proof.
  revert i. induction mid as [|m mid IH]; intros i H; cbn in H; [discriminate|]. destruct (is_text m s) eqn:E; [injection H as <-; cbn; destruct m as [t|]; [|discriminate]; cbn in E; apply String.eqb_eq in E; now subst|].
  destruct (index_id mid s) as [j|]; [|discriminate]. injection H as <-. cbn. now apply IH.
Qed.
Lemma index_id_in mid s : In (Txt s) mid -> exists i, index_id mid s = Some i.
Proof.
  induction mid as [|m mid IH]; intros H; [destruct H|]. cbn. destruct (is_text m s) eqn:E; [eauto|]. destruct H as [->|H]; [cbn in E; rewrite String.eqb_refl in E; discriminate|]. destruct (IH H) as (i & ->). eexists. reflexivity.
Qed.
Lemma mapM_app {A B} (f : A -> option B) l r : mapM f l = Some r -> Forall2 (fun x y => f x = Some y) l r.
Proof. apply mapM_Some. Qed.
(** The members found for a group *)
Definition members (rows : list crow) (sub : list ident) (ms : list crow) : Prop := Forall2 (fun s r => In r rows /\ r_id r = Txt (text s)) sub ms.
Lemma members_found rows sub inds ms : mapM (index_id (map r_id rows)) (map text sub) = Some inds -> mapM (nth_error rows) inds = Some ms -> members rows sub ms.
Proof.
  revert inds ms. induction sub as [|s sub IH]; intros inds ms H1 H2; cbn [map mapM] in H1; [injection H1 as <-; cbn in H2; injection H2 as <-; constructor|].
  destruct (index_id _ (text s)) as [i|] eqn:E; [|discriminate]. destruct (mapM _ (map text sub)) as [is|]; [|discriminate]. injection H1 as <-. cbn [mapM] in H2. destruct (nth_error rows i) as [r|] eqn:Er; [|discriminate]. destruct (mapM (nth_error rows) is) as [ms'|] eqn:E2; [|discriminate]. injection H2 as <-.
  constructor; [|exact (IH is ms' eq_refl E2)]. split; [now apply (nth_error_In _ i)|]. apply index_id_spec in E. rewrite nth_error_map, Er in E. cbn in E. congruence.
Qed.
Lemma members_exist rows sub : (forall s, In s sub -> exists r, In r rows /\ r_id r = Txt (text s)) -> exists inds ms, mapM (index_id (map r_id rows)) (map text sub) = Some inds /\ mapM (nth_error rows) inds = Some ms.
Proof.
  induction sub as [|s sub IH]; intros H; [exists [], []; auto|]. destruct IH as (inds & ms & E1 & E2); [intros x Hx; apply H; now right|]. destruct (H s (or_introl eq_refl)) as (r & Hr & Er).
  destruct (index_id_in (map r_id rows) (text s)) as (i & Ei); [rewrite <- Er; now apply in_map|]. pose proof (index_id_spec _ _ _ Ei) as X. rewrite nth_error_map in X. destruct (nth_error rows i) as [r'|] eqn:E'; [|discriminate].
  exists (i :: inds), (r' :: ms). cbn [map mapM]. rewrite Ei, E1. cbn [mapM]. rewrite E', E2. auto.
Qed.
Lemma members_in rows sub ms r : members rows sub ms -> In r ms -> In r rows.
Proof. intros H. induction H as [|s x sub ms [H _] _ IH]; intros K; [destruct K|]. destruct K as [<-|K]; auto. Qed.
Lemma fields_exist n cols rows ms c : has_chains n cols rows -> In c cols -> (forall r, In r ms -> In r rows) -> exists cs, mapM (fun r => field (r_cols r) c) ms = Some cs /\ len cs = len ms /\ (forall l, In l cs -> len l = n) /\ forall k, map (fun l => nth k l 0) cs = map (val c k) ms.
Proof.
  intros H Hc. induction ms as [|r ms IH]; intros Hm; [exists []; repeat split; auto; intros l []|]. destruct IH as (cs & E & L & Hl & Hk); [intros x Hx; apply Hm; now right|]. destruct (H r c (Hm r (or_introl eq_refl)) Hc) as (l & El & Ll).
  exists (l :: cs). cbn [mapM]. rewrite El, E. split; [reflexivity|]. split; [cbn; now rewrite L|]. split; [intros x [<-|Hx]; auto|]. intros k. cbn [map]. rewrite Hk. f_equal. unfold val. now rewrite El.
Qed.
Lemma field_app {A} (a b : list (string * A)) c v : field a c = Some v -> field (a ++ b) c = Some v.
Proof. induction a as [|[d w] a IH]; cbn; [discriminate|]. destruct (String.eqb d c); auto. Qed.
Lemma field_app2 {A} (a b : list (string * A)) c : ~ In c (map fst a) -> field (a ++ b) c = field b c.
Proof. induction a as [|[d w] a IH]; cbn; intros H; auto. destruct (String.eqb_spec d c) as [E|E]; [exfalso; auto|]. apply IH. auto. Qed.
Lemma mapM_pairs {A} (f : string -> option A) cs l : mapM (fun c => option_map (pair c) (f c)) cs = Some l -> map fst l = cs /\ forall c, In c cs -> field l c = f c /\ f c <> None.
Proof.
  revert l. induction cs as [|c cs IH]; intros l H; cbn [mapM] in H; [injection H as <-; split; auto; intros c []|]. destruct (f c) as [v|] eqn:Ev; [|discriminate]. cbn [option_map] in H. destruct (mapM _ cs) as [l'|]; [|discriminate]. injection H as <-. destruct (IH l' eq_refl) as [Hf H].
  split; [cbn; now rewrite Hf|]. intros d Hd. cbn [field]. destruct (String.eqb_spec c d) as [<-|E]; [rewrite Ev; split; [reflexivity|discriminate]|]. destruct Hd as [Hd|Hd]; [congruence|]. now apply H.
Qed.

(** What is known of the row made for a group *)
Definition combined (n : nat) (bands : list string) (ms : list crow) (o : orow) : Prop :=
  (forall b, In b bands -> exists l, field (o_cols o) b = Some l /\ len l = n /\ forall k, (k < n)%nat -> nth_error l k = Some (Some (total (map (val b k) ms)))) /\
  (forall c, c = "ra"%string \/ c = "dec"%string -> exists l, field (o_cols o) c = Some l /\ len l = n /\
     forall k, (k < n)%nat -> nth_error l k = Some (match ms with [] => None | _ => Some (total (map (val c k) ms) / INR (len ms)) end)).
Lemma combine_group_spec ftext n rows bands g : has_chains n (bands ++ ["ra"; "dec"]%string) rows -> NoDup (bands ++ ["ra"; "dec"]%string) ->
  (forall o, combine_group ftext n rows bands g = Some o -> ftext (fst g) = Some (o_id o) /\ exists ms, members rows (snd g) ms /\ combined n bands ms o /\ map fst (o_cols o) = bands ++ ["ra"; "dec"]%string) /\
  ((exists o, combine_group ftext n rows bands g = Some o) <-> ftext (fst g) <> None /\ forall s, In s (snd g) -> exists r, In r rows /\ r_id r = Txt (text s)).
Proof.
  intros HC ND.
  assert (Body : forall ms, (forall r, In r ms -> In r rows) -> exists fl po, mapM (fun b => option_map (fun cs => (b, map Some (sum_chains n cs))) (mapM (fun r => field (r_cols r) b) ms)) bands = Some fl /\
            mapM (fun c => option_map (fun cs => (c, mean_chains n cs)) (mapM (fun r => field (r_cols r) c) ms)) ["ra"; "dec"]%string = Some po /\ map fst (fl ++ po) = bands ++ ["ra"; "dec"]%string /\ forall name, combined n bands ms (mkOut name (fl ++ po))).
  { intros ms Hms. assert (Ef : forall c, In c (bands ++ ["ra"; "dec"]%string) -> exists cs, mapM (fun r => field (r_cols r) c) ms = Some cs /\ len cs = len ms /\ (forall l, In l cs -> len l = n) /\ forall k, map (fun l => nth k l 0) cs = map (val c k) ms) by (intros c Hc; now apply (fields_exist n (bands ++ ["ra"; "dec"]%string) rows)).
    assert (Ext1 : forall cs', mapM (fun b => option_map (fun cs => (b, map Some (sum_chains n cs))) (mapM (fun r => field (r_cols r) b) ms)) cs' = mapM (fun b => option_map (pair b) (option_map (fun cs => map Some (sum_chains n cs)) (mapM (fun r => field (r_cols r) b) ms))) cs') by (induction cs' as [|b t IH]; cbn; auto; rewrite IH; destruct (mapM (fun r => field (r_cols r) b) ms); reflexivity).
    assert (Ext2 : forall cs', mapM (fun b => option_map (fun cs => (b, mean_chains n cs)) (mapM (fun r => field (r_cols r) b) ms)) cs' = mapM (fun b => option_map (pair b) (option_map (fun cs => mean_chains n cs) (mapM (fun r => field (r_cols r) b) ms))) cs') by (induction cs' as [|b t IH]; cbn; auto; rewrite IH; destruct (mapM (fun r => field (r_cols r) b) ms); reflexivity).
    rewrite Ext1, Ext2.
    destruct (mapM_total (fun b => option_map (pair b) (option_map (fun cs => map Some (sum_chains n cs)) (mapM (fun r => field (r_cols r) b) ms))) bands) as (fl & Efl); [intros b Hb; destruct (Ef b) as (cs & -> & _); [apply in_or_app; now left|eexists; reflexivity]|].
    destruct (mapM_total (fun b => option_map (pair b) (option_map (fun cs => mean_chains n cs) (mapM (fun r => field (r_cols r) b) ms))) ["ra"; "dec"]%string) as (po & Epo); [intros b Hb; destruct (Ef b) as (cs & -> & _); [apply in_or_app; now right|eexists; reflexivity]|].
    exists fl, po. split; [exact Efl|]. split; [exact Epo|]. destruct (mapM_pairs _ _ _ Efl) as [F1 F2]. destruct (mapM_pairs _ _ _ Epo) as [P1 P2]. split; [rewrite map_app; congruence|]. intros name. split; cbn [o_cols].
    - intros b Hb. destruct (Ef b) as (cs & Ecs & Lc & Hl & Hk); [apply in_or_app; now left|]. destruct (F2 b Hb) as [Fb _]. rewrite Ecs in Fb. cbn in Fb. exists (map Some (sum_chains n cs)). destruct (sum_chains_spec n cs Hl) as [Ls Ns].
      split; [now apply field_app|]. split; [now rewrite map_length|]. intros k Hk'. rewrite nth_error_map, (nth_error_nth' (sum_chains n cs) 0) by lia. cbn. now rewrite Ns, Hk.
    - intros c Hc. assert (Hin : In c ["ra"; "dec"]%string) by (destruct Hc as [->| ->]; cbn; auto). destruct (Ef c) as (cs & Ecs & Lc & Hl & Hk); [apply in_or_app; now right|]. destruct (P2 c Hin) as [Fb _]. rewrite Ecs in Fb. cbn in Fb. exists (mean_chains n cs). destruct (sum_chains_spec n cs Hl) as [Ls Ns].
      split; [rewrite field_app2; [exact Fb|rewrite F1; intros K; apply NoDup_app_iff in ND; destruct ND as (_ & _ & ND); exact (ND c K Hin)]|]. unfold mean_chains. destruct cs as [|c0 cs], ms as [|m0 ms]; try discriminate Lc.
      + split; [apply repeat_length|]. intros k Hk'. now rewrite nth_error_repeat.
      + split; [now rewrite map_length|]. intros k Hk'. rewrite nth_error_map, (nth_error_nth' (sum_chains n (c0 :: cs)) 0) by lia. cbn [option_map]. now rewrite Ns, Hk, Lc. }
  split.
  - intros o H. unfold combine_group in H. destruct (ftext (fst g)) as [name|]; [|discriminate]. destruct (mapM (index_id _) _) as [inds|] eqn:E1; [|discriminate]. destruct (mapM (nth_error rows) inds) as [ms|] eqn:E2; [|discriminate]. pose proof (members_found rows (snd g) inds ms E1 E2) as Hm.
    destruct (Body ms) as (fl & po & B1 & B2 & B3 & B4); [intros r; now apply members_in with (snd g)|]. rewrite B1, B2 in H. injection H as <-. split; [reflexivity|]. exists ms. auto.
  - split.
    + intros (o & H). unfold combine_group in H. destruct (ftext (fst g)) as [name|]; [|discriminate]. split; [discriminate|]. destruct (mapM (index_id _) _) as [inds|] eqn:E1; [|discriminate]. destruct (mapM (nth_error rows) inds) as [ms|] eqn:E2; [|discriminate]. pose proof (members_found rows (snd g) inds ms E1 E2) as Hm. clear -Hm.
      intros s Hs. induction Hm as [|x r sub ms' Hx _ IH]; [destruct Hs|]. destruct Hs as [<-|Hs]; eauto.
    + intros [Hf Hs]. unfold combine_group. destruct (ftext (fst g)) as [name|]; [|congruence]. destruct (members_exist rows (snd g) Hs) as (inds & ms & E1 & E2). rewrite E1, E2. destruct (Body ms) as (fl & po & B1 & B2 & _); [intros r; apply members_in with (snd g); now apply (members_found rows _ inds)|]. rewrite B1, B2. eexists. reflexivity.
Qed.
Definition reserved (n : nat) : list string := ["id"; "source_index"; "wall"; "lnp_best"]%string ++ (if Nat.ltb 3 n then ["lnp"%string] else []).
Lemma out_names_spec n bands : (exists l, out_names n bands = Some l) <-> NoDup (reserved n ++ bands ++ ["ra"; "dec"]%string).
Proof.
  unfold out_names, reserved. rewrite <- app_assoc. cbv zeta. destruct (ListDec.NoDup_dec _ _) as [H|H]; split; [auto|eauto|intros (l & X); discriminate|intros K; contradiction].
Qed.

(** Each group becomes one row, in order: its fluxes are sample by sample the sums over
    its members, its positions the means; it works when every member is in the catalog
    under that name, the group names are numbers and no column name is repeated. *)
Theorem C54_combined : forall ftext rows bands groups n, has_chains n (bands ++ ["ra"; "dec"]%string) rows ->
  (forall out hdr, combine_chains ftext rows bands groups = Some (out, hdr) -> len out = len groups /\
     forall i g sub, nth_error groups i = Some (g, sub) -> exists o ms, nth_error out i = Some o /\ ftext g = Some (o_id o) /\ members rows sub ms /\ combined n bands ms o) /\
  ((exists r, combine_chains ftext rows bands groups = Some r) <->
     rows <> [] /\ NoDup (reserved n ++ bands ++ ["ra"; "dec"]%string) /\
     forall g sub, In (g, sub) groups -> ftext g <> None /\ forall s, In s sub -> exists r, In r rows /\ r_id r = Txt (text s)).
Proof.
  intros ftext rows bands groups n HC. unfold combine_chains. destruct rows as [|r0 rows]; [split; [discriminate|split; [intros (r & H); discriminate|intros (H & _); congruence]]|]. set (rs := r0 :: rows) in *.
  destruct (HC r0 "ra"%string (or_introl eq_refl)) as (c0 & E0 & L0); [apply in_or_app; right; now left|]. rewrite E0, L0. pose proof (out_names_spec n bands) as ON. destruct (out_names n bands) as [nm|] eqn:En.
  - assert (ND : NoDup (bands ++ ["ra"; "dec"]%string)). { destruct ON as [ON _]. specialize (ON (ex_intro _ nm eq_refl)). apply NoDup_app_iff in ON. tauto. }
    split.
    + intros out hdr H. destruct (mapM _ groups) as [o|] eqn:E; [|discriminate]. injection H as -> _. destruct (mapM_nth _ _ _ E) as [L N]. split; [exact L|]. intros i g sub Hi. destruct (N i (g, sub) Hi) as (o & Ho & Eo). exists o. destruct (proj1 (combine_group_spec ftext n rs bands (g, sub) HC ND) o Eo) as (F & ms & Hm & Hc & _). exists ms. auto.
    + split.
      * intros (r & H). split; [discriminate|]. split; [apply ON; eauto|]. intros g sub Hin. destruct (mapM _ groups) as [o|] eqn:E; [|discriminate]. apply In_nth_error in Hin. destruct Hin as (i & Hi). destruct (mapM_nth _ _ _ E) as [_ N]. destruct (N i _ Hi) as (oo & _ & Eo).
        exact (proj1 (proj2 (combine_group_spec ftext n rs bands (g, sub) HC ND)) (ex_intro _ oo Eo)).
      * intros (_ & _ & H). destruct (mapM_total (combine_group ftext n rs bands) groups) as (out & ->); [|eauto]. intros [g sub] Hin. exact (proj2 (proj2 (combine_group_spec ftext n rs bands (g, sub) HC ND)) (H g sub Hin)).
  - split; [discriminate|]. split; [intros (r & H); discriminate|]. intros (_ & H & _). apply ON in H. destruct H; discriminate.
Qed.
(** The header records the members of each group. *)
Lemma dput_spec d k v : field (dput d k v) k = Some v /\ forall k', k' <> k -> field (dput d k v) k' = field d k'.
Proof.
  induction d as [|[a w] d [I1 I2]]; cbn [dput].
  - cbn [field]. rewrite String.eqb_refl. split; [reflexivity|]. intros k' H. destruct (String.eqb_spec k k'); congruence.
  - destruct (String.eqb_spec k a) as [<-|E]; cbn [field].
    + rewrite String.eqb_refl. split; [reflexivity|]. intros k' H. destruct (String.eqb_spec k k'); congruence.
    + destruct (String.eqb_spec a k) as [E2|E2]; [congruence|]. split; [exact I1|]. intros k' H. destruct (String.eqb a k'); [reflexivity|now apply I2].
Qed.
Theorem C54_header : forall ftext rows bands groups out hdr g sub, combine_chains ftext rows bands groups = Some (out, hdr) -> NoDup (map (fun g => text (fst g)) groups) -> In (g, sub) groups ->
  field hdr ("G" ++ text g)%string = Some (String.concat "," (map text sub)).
Proof.
  intros ftext rows bands groups out hdr g sub H ND Hin. unfold combine_chains in H. destruct rows as [|r0 rows]; [discriminate|]. destruct (field (r_cols r0) "ra"%string); [|discriminate]. destruct (out_names _ _); [|discriminate]. destruct (mapM _ groups); [|discriminate]. injection H as _ <-.
  assert (Ginj : forall a b, ("G" ++ a = "G" ++ b)%string -> a = b) by (intros a b E; now injection E).
  assert (Keep : forall gs d, ~ In (text g) (map (fun g => text (fst g)) gs) -> field (fold_left (fun d g => dput d ("G" ++ text (fst g))%string (String.concat "," (map text (snd g)))) gs d) ("G" ++ text g)%string = field d ("G" ++ text g)%string).
  { induction gs as [|h gs IH]; intros d Hn; [reflexivity|]. cbn [fold_left]. rewrite IH by (intros K; apply Hn; now right). apply dput_spec. intros E. apply Hn. left. symmetry. now apply Ginj. }
  generalize (@nil (string * string)). revert ND Hin. induction groups as [|h gs IH]; intros ND Hin d; [destruct Hin|]. cbn [map] in ND. inversion ND as [|? ? Hn ND']; subst. cbn [fold_left]. destruct Hin as [->|Hin]; [|now apply IH].
  rewrite Keep by exact Hn. apply dput_spec.
Qed.

(** Grouping all the sources loses no flux. *)
Theorem C54_conserved : forall ftext rows bands groups n out hdr b k, has_chains n (bands ++ ["ra"; "dec"]%string) rows -> combine_chains ftext rows bands groups = Some (out, hdr) ->
  NoDup (map r_id rows) -> Permutation (map (fun s => Txt (text s)) (concat (map snd groups))) (map r_id rows) -> In b bands -> (k < n)%nat ->
  exists vs, map (fun o => match field (o_cols o) b with Some l => nth_error l k | None => None end) out = map (fun v => Some (Some v)) vs /\ total vs = total (map (val b k) rows).
Proof.
  intros ftext rows bands groups n out hdr b k HC H NDr P Hb Hk. destruct (proj1 (C54_combined ftext rows bands groups n HC) out hdr H) as [L K].
  assert (G : forall groups out, len out = len groups -> (forall i g sub, nth_error groups i = Some (g, sub) -> exists o ms, nth_error out i = Some o /\ ftext g = Some (o_id o) /\ members rows sub ms /\ combined n bands ms o) ->
     exists mss, map (fun o => match field (o_cols o) b with Some l => nth_error l k | None => None end) out = map (fun v => Some (Some v)) (map (fun ms => total (map (val b k) ms)) mss) /\ members rows (concat (map snd groups)) (concat mss)).
  { clear -Hb Hk. induction groups as [|[g sub] groups IH]; intros [|o out] L K; try discriminate; [exists []; split; [reflexivity|constructor]|].
    destruct (K 0%nat g sub eq_refl) as (o' & ms & E & _ & Hm & [Hc _]). injection E as <-. destruct (IH out) as (mss & E & Hms); [cbn in L; lia|intros i; exact (K (S i))|]. exists (ms :: mss). cbn [map concat snd]. split; [|now apply Forall2_app].
    rewrite E. f_equal. destruct (Hc b Hb) as (l & -> & _ & Hl). now apply Hl. }
  destruct (G groups out L K) as (mss & E & Hm). exists (map (fun ms => total (map (val b k) ms)) mss). split; [exact E|].
  assert (Et : total (map (fun ms => total (map (val b k) ms)) mss) = total (map (val b k) (concat mss))). { clear. induction mss as [|ms mss IH]; [reflexivity|]. cbn [map concat]. rewrite map_app, total_app, <- IH. reflexivity. }
  rewrite Et. apply total_perm, Permutation_map. assert (Eid : map r_id (concat mss) = map (fun s => Txt (text s)) (concat (map snd groups))). { clear -Hm. induction Hm as [|s r sub ms [_ Hx] _ IH]; [reflexivity|]. cbn. now rewrite Hx, IH. }
  assert (NDm : NoDup (map r_id (concat mss))) by (rewrite Eid; exact (Permutation_NoDup (Permutation_sym P) NDr)).
  apply NoDup_Permutation; [exact (NoDup_map_inv _ _ NDm)|exact (NoDup_map_inv _ _ NDr)|]. intros r. split; [now apply members_in with (concat (map snd groups))|]. intros Hr.
  assert (Hi : In (r_id r) (map r_id (concat mss))) by (rewrite Eid; apply (Permutation_in _ (Permutation_sym P)); now apply in_map). apply in_map_iff in Hi. destruct Hi as (r' & E' & Hr'). assert (Hrr : In r' rows) by (now apply members_in with (concat (map snd groups)) (concat mss)).
  assert (r' = r); [|congruence]. clear -NDr Hr Hrr E'. induction rows as [|x rows IH]; [destruct Hr|]. cbn in NDr. inversion NDr as [|? ? Hn ND]; subst. destruct Hr as [->|Hr], Hrr as [->|Hrr]; auto; exfalso; apply Hn; [rewrite <- E'|rewrite E']; now apply in_map.
Qed.
(** The order of the members of a group does not matter. *)
Theorem C54_order : forall ftext rows bands n g sub sub' o o', has_chains n (bands ++ ["ra"; "dec"]%string) rows -> NoDup (map r_id rows) -> Permutation sub sub' ->
  (exists h, combine_chains ftext rows bands [(g, sub)] = Some ([o], h)) -> (exists h, combine_chains ftext rows bands [(g, sub')] = Some ([o'], h)) -> o = o'.
Proof.
  intros ftext rows bands n g sub sub' o o' HC NDr P (h & H) (h' & H'). unfold combine_chains in H, H'. destruct rows as [|r0 rows]; [discriminate|]. destruct (HC r0 "ra"%string (or_introl eq_refl)) as (c0 & E0 & L0); [apply in_or_app; right; now left|]. rewrite E0, L0 in H, H'. set (rs := r0 :: rows) in *.
  pose proof (out_names_spec n bands) as ON. destruct (out_names n bands) as [nm|]; [|discriminate]. assert (ND : NoDup (bands ++ ["ra"; "dec"]%string)) by (destruct ON as [ON _]; specialize (ON (ex_intro _ nm eq_refl)); apply NoDup_app_iff in ON; tauto).
  cbn [mapM] in H, H'. destruct (combine_group ftext n rs bands (g, sub)) as [x|] eqn:Ex; [|discriminate]. destruct (combine_group ftext n rs bands (g, sub')) as [x'|] eqn:Ex'; [|discriminate]. assert (x = o) by congruence. assert (x' = o') by congruence. subst x x'. clear H H'.
  destruct (proj1 (combine_group_spec ftext n rs bands (g, sub) HC ND) o Ex) as (F & ms & Hm & [C1 C2] & Cn). destruct (proj1 (combine_group_spec ftext n rs bands (g, sub') HC ND) o' Ex') as (F' & ms' & Hm' & [C1' C2'] & Cn').
  assert (Pm : Permutation ms ms').
  { clear -P Hm Hm' NDr. assert (Q : exists m2, members rs sub' m2 /\ Permutation ms m2). { clear Hm'. revert ms Hm. induction P as [|s a b P IH|s t a|a b c P1 IH1 P2 IH2]; intros ms Hm.
      - inversion Hm; subst. exists []. split; constructor.
      - inversion Hm as [|? r ? ms1 Hr Hms]; subst. destruct (IH ms1 Hms) as (m2 & M & Q). exists (r :: m2). split; [now constructor|now constructor].
      - inversion Hm as [|? r ? ms1 Hr Hms]; subst. inversion Hms as [|? r2 ? ms2 Hr2 Hms2]; subst. exists (r2 :: r :: ms2). split; [constructor; [exact Hr2|constructor; [exact Hr|exact Hms2]]|constructor].
      - destruct (IH1 ms Hm) as (m2 & M & Q). destruct (IH2 m2 M) as (m3 & M3 & Q3). exists m3. split; [exact M3|now transitivity m2]. }
    destruct Q as (m2 & M2 & Q). enough (Em : m2 = ms') by (rewrite <- Em; exact Q). clear -M2 Hm' NDr. revert ms' Hm'. induction M2 as [|s r sub m [R1 R2] _ IH]; intros ms' Hm'; inversion Hm' as [|? r' ? m' [R1' R2'] Hm2]; subst; [reflexivity|]. f_equal; [|now apply IH].
    clear -NDr R1 R2 R1' R2'. rewrite <- R2' in R2. induction rs as [|x rs IH]; [destruct R1|]. cbn in NDr. inversion NDr as [|? ? Hn ND]; subst. destruct R1 as [->|Hr], R1' as [->|Hrr]; auto; exfalso; apply Hn; [rewrite R2|rewrite <- R2]; now apply in_map. }
  destruct o as [i1 cols], o' as [i2 cols']. cbn [o_id o_cols fst snd] in *. f_equal; [congruence|]. assert (Ef : forall c, In c (bands ++ ["ra"; "dec"]%string) -> field cols c = field cols' c).
  { intros c Hc. apply in_app_or in Hc. destruct Hc as [Hc|Hc].
    - destruct (C1 c Hc) as (l & -> & Ll & Hl). destruct (C1' c Hc) as (l' & -> & Ll' & Hl'). f_equal. apply nth_error_ext. intros k. destruct (Nat.lt_ge_cases k n) as [Hk|Hk]; [rewrite (Hl k Hk), (Hl' k Hk); do 2 f_equal; apply total_perm, Permutation_map, Pm|]. now rewrite !(proj2 (nth_error_None _ _)) by lia.
    - assert (Hc' : c = "ra"%string \/ c = "dec"%string) by (destruct Hc as [<-|[<-|[]]]; auto). destruct (C2 c Hc') as (l & -> & Ll & Hl). destruct (C2' c Hc') as (l' & -> & Ll' & Hl'). f_equal. apply nth_error_ext. intros k. destruct (Nat.lt_ge_cases k n) as [Hk|Hk]; [|now rewrite !(proj2 (nth_error_None _ _)) by lia].
      rewrite (Hl k Hk), (Hl' k Hk). pose proof (Permutation_length Pm) as PL. rewrite PL, (total_perm _ _ (Permutation_map (val c k) Pm)). destruct ms, ms'; auto; discriminate. }
  assert (Enm : map fst cols = map fst cols') by congruence. assert (NDc : NoDup (map fst cols)) by (rewrite Cn; exact ND). rewrite <- Cn in Ef. clear -Enm NDc Ef. revert cols' Enm Ef. induction cols as [|[a v] cols IH]; intros [|[a' v'] cols'] E Ef; try discriminate; [reflexivity|]. cbn in E. injection E as <- E. cbn in NDc. inversion NDc as [|? ? Hn ND]; subst.
  pose proof (Ef a (or_introl eq_refl)) as Ea. cbn [field] in Ea. rewrite String.eqb_refl in Ea. injection Ea as <-. f_equal. apply IH; [exact ND|exact E|]. intros c Hc. specialize (Ef c (or_intror Hc)). cbn [field] in Ef. destruct (String.eqb_spec a c) as [->|]; [contradiction|exact Ef].
Qed.
(** Ids written as integers, as in the catalogs of posterior samples, are never found. *)
Theorem C54_integer_ids_refuted : forall ftext rows bands groups g s sub, (forall r, In r rows -> exists z, r_id r = Num z) -> In (g, s :: sub) groups -> combine_chains ftext rows bands groups = None.
Proof.
  intros ftext rows bands groups g s sub Hi Hin. unfold combine_chains. destruct rows as [|r0 rows]; [reflexivity|]. destruct (field (r_cols r0) "ra"%string) as [c0|]; [|reflexivity]. destruct (out_names _ _); [|reflexivity]. set (rs := r0 :: rows) in *.
  assert (E : mapM (combine_group ftext (len c0) rs bands) groups = None); [|now rewrite E]. induction groups as [|h groups IH]; [destruct Hin|]. cbn [mapM]. destruct Hin as [->|Hin]; [|rewrite (IH Hin); now destruct (combine_group _ _ _ _ h)].
  assert (E : combine_group ftext (len c0) rs bands (g, s :: sub) = None); [|now rewrite E]. unfold combine_group. cbn [fst snd map mapM]. destruct (ftext g); [|reflexivity]. destruct (index_id (map r_id rs) (text s)) as [i|] eqn:E; [|reflexivity].
  exfalso. apply index_id_spec in E. rewrite nth_error_map in E. destruct (nth_error rs i) as [r|] eqn:Er; [|discriminate]. destruct (Hi r (nth_error_In _ _ Er)) as (z & Ez). cbn in E. congruence.
Qed.
(** A row is not found under the name of its group when that name is a number written
    without a point: the id is the text of a float. *)
Definition digits (s : string) : Prop := forall c, In c (list_ascii_of_string s) -> (48 <= Ascii.nat_of_ascii c <= 57)%nat.
Theorem C54_names_refuted : forall ftext rows bands groups out hdr i g sub o n, has_chains n (bands ++ ["ra"; "dec"]%string) rows ->
  (forall g t, ftext g = Some t -> ~ digits t) -> combine_chains ftext rows bands groups = Some (out, hdr) -> nth_error groups i = Some (g, sub) -> digits (text g) -> nth_error out i = Some o -> o_id o <> text g.
Proof.
  intros ftext rows bands groups out hdr i g sub o n HC Hf H Hi Hd Ho E. destruct (proj2 (proj1 (C54_combined ftext rows bands groups n HC) out hdr H) i g sub Hi) as (o' & ms & Ho' & F & _). rewrite Ho in Ho'. injection Ho' as <-. apply (Hf g _ F). now rewrite E.
Qed.
(** A mean position lies among those of the members *)
Theorem C54_position : forall ftext rows bands groups n out hdr i g sub o c k v, has_chains n (bands ++ ["ra"; "dec"]%string) rows -> combine_chains ftext rows bands groups = Some (out, hdr) ->
  nth_error groups i = Some (g, sub) -> nth_error out i = Some o -> c = "ra"%string \/ c = "dec"%string -> (exists l, field (o_cols o) c = Some l /\ nth_error l k = Some (Some v)) ->
  exists r r', In r rows /\ In r' rows /\ (exists s, In s sub /\ r_id r = Txt (text s)) /\ (exists s, In s sub /\ r_id r' = Txt (text s)) /\ val c k r <= v <= val c k r'.
Proof.
  intros ftext rows bands groups n out hdr i g sub o c k v HC H Hi Ho Hc (l & El & Hl). destruct (proj2 (proj1 (C54_combined ftext rows bands groups n HC) out hdr H) i g sub Hi) as (o' & ms & Ho' & _ & Hm & _ & Hp). rewrite Ho in Ho'. injection Ho' as <-.
  destruct (Hp c Hc) as (l' & El' & Ll & Hk). rewrite El in El'. injection El' as <-. assert (Kn : (k < n)%nat) by (rewrite <- Ll; apply nth_error_Some; congruence). rewrite (Hk k Kn) in Hl. destruct ms as [|m ms]; [discriminate|]. assert (Ev : v = total (map (val c k) (m :: ms)) / INR (len (m :: ms))) by congruence. subst v. clear Hl.
  assert (B : forall m ms, exists r r', In r (m :: ms) /\ In r' (m :: ms) /\ forall x, In x (m :: ms) -> val c k r <= val c k x <= val c k r').
  { clear. intros m ms. revert m. induction ms as [|y ms IH]; intros m; [exists m, m; repeat split; try (now left); destruct H as [<-|[]]; lra|]. destruct (IH y) as (r & r' & H1 & H2 & H3).
    exists (if Rle_dec (val c k m) (val c k r) then m else r), (if Rle_dec (val c k r') (val c k m) then m else r'). destruct (Rle_dec (val c k m) (val c k r)), (Rle_dec (val c k r') (val c k m)); (split; [cbn; tauto|]; split; [cbn; tauto|]; intros x [<-|Hx]; [|specialize (H3 x Hx)]; split; try lra). }
  destruct (B m ms) as (r & r' & H1 & H2 & H3). assert (Hs : forall x, In x (m :: ms) -> exists s, In s sub /\ r_id x = Txt (text s)).
  { clear -Hm. induction Hm as [|s x sub ms0 [_ Hx] _ IH]; intros y Hy; [destruct Hy|]. destruct Hy as [<-|Hy]; [exists s; cbn; auto|]. destruct (IH y Hy) as (s' & S1 & S2). exists s'. cbn; auto. }
  exists r, r'. split; [now apply (members_in rows sub (m :: ms))|]. split; [now apply (members_in rows sub (m :: ms))|]. split; [auto|]. split; [auto|].
  assert (T : forall l, (forall x, In x l -> val c k r <= val c k x <= val c k r') -> INR (len l) * val c k r <= total (map (val c k) l) <= INR (len l) * val c k r').
  { clear. induction l as [|x l IH]; intros H; [cbn; lra|]. specialize (IH (fun y Hy => H y (or_intror Hy))). specialize (H x (or_introl eq_refl)). change (len (x :: l)) with (S (len l)). rewrite S_INR. unfold total in *. cbn [map fold_right]. lra. }
  specialize (T (m :: ms) H3). assert (Hp0 : 0 < INR (len (m :: ms))) by (apply lt_0_INR; cbn; lia). set (N := INR (len (m :: ms))) in *. set (t := total _) in *. split.
  - apply (Rmult_le_reg_l N); [exact Hp0|]. replace (N * (t / N)) with t by (field; lra). lra.
  - apply (Rmult_le_reg_l N); [exact Hp0|]. replace (N * (t / N)) with t by (field; lra). lra.
Qed.
(** Two sources on both sides of right ascension zero are put on the other side of the sky. *)
Theorem C54_wrap_refuted : forall ftext rows bands groups n out hdr i g s1 s2 r1 r2 o k e, has_chains n (bands ++ ["ra"; "dec"]%string) rows -> NoDup (map r_id rows) -> combine_chains ftext rows bands groups = Some (out, hdr) ->
  nth_error groups i = Some (g, [s1; s2]) -> nth_error out i = Some o -> In r1 rows -> r_id r1 = Txt (text s1) -> In r2 rows -> r_id r2 = Txt (text s2) -> (k < n)%nat ->
  val "ra" k r1 = e -> val "ra" k r2 = 360 - e -> exists l, field (o_cols o) "ra" = Some l /\ nth_error l k = Some (Some 180).
Proof.
  intros ftext rows bands groups n out hdr i g s1 s2 r1 r2 o k e HC ND H Hi Ho R1 I1 R2 I2 Hk V1 V2. destruct (proj2 (proj1 (C54_combined ftext rows bands groups n HC) out hdr H) i g [s1; s2] Hi) as (o' & ms & Ho' & _ & Hm & _ & Hp). rewrite Ho in Ho'. injection Ho' as <-.
  assert (U : forall a b, In a rows -> In b rows -> r_id a = r_id b -> a = b). { clear -ND. induction rows as [|x rows IH]; intros a b Ha Hb E; [destruct Ha|]. cbn in ND. inversion ND as [|? ? Hn ND']; subst. destruct Ha as [->|Ha], Hb as [->|Hb]; auto; exfalso; apply Hn; [rewrite E|rewrite <- E]; now apply in_map. }
  inversion Hm as [|? a ? m1 [A1 A2] Hm1]; subst. inversion Hm1 as [|? b ? m2 [B1 B2] Hm2]; subst. inversion Hm2; subst. assert (a = r1) by (apply U; auto; congruence). assert (b = r2) by (apply U; auto; congruence). subst a b.
  destruct (Hp "ra"%string (or_introl eq_refl)) as (l & El & _ & Hl). exists l. split; [exact El|]. rewrite (Hl k Hk). do 2 f_equal. unfold total. cbn [map fold_right List.length INR]. rewrite V2. field.
Qed.
Print Assumptions C54_combined.
Print Assumptions C54_header.
Print Assumptions C54_conserved.
Print Assumptions C54_order.
Print Assumptions C54_integer_ids_refuted.
Print Assumptions C54_names_refuted.
Print Assumptions C54_position.
Print Assumptions C54_wrap_refuted.
