(** C59: the two stores of a run filled from files *)
From Coq Require Import List String Ascii Bool Arith Lia Permutation.
From Verif Require Import Np NpFacts ChainFacts IdentModel IdentFacts IdentProps IdentMeta.
Import ListNotations.
Open Scope nat_scope.

(** The files of a run: below the directory [D], in [rel], with FILTER, DETECTOR, header and pixels *)
Record exposure {H P : Type} := mkExposure { x_rel : string; x_base : string; x_filter : string; x_detector : option string; x_hdr : H; x_pix : P }.
Arguments exposure : clear implicits.
Arguments mkExposure {H P}.
Definition located {H P} (D : string) (x : exposure H P) : Prop :=
  ends_slash (x_rel x) = false /\ prefix "/" (x_rel x) = false /\ contains "//" (x_rel x) = false /\
  (x_rel x <> ""%string -> contains D ("/" ++ x_rel x) = false) /\ plain (x_base x) /\ x_base x <> ""%string /\
  has_slash (x_filter x) = false /\ x_filter x <> ""%string /\ (forall d, x_detector x = Some d -> has_slash d = false).

Lemma contains_slash b : has_slash b = false -> contains "//" b = false.
Proof.
  intros H. destruct (contains "//" b) eqn:E; [|reflexivity]. apply contains_iff in E. destruct E as (u & v & ->).
  rewrite has_slash_app in H. cbn in H. rewrite orb_true_r in H. discriminate H.
Qed.
Lemma contains_join a b : contains "//" a = false -> has_slash b = false -> ends_slash a = false -> contains "//" (a ++ String "/" b) = false.
Proof.
  intros H1 H2 H3. induction a as [|c a IH]; cbn [String.append contains].
  - rewrite contains_slash by exact H2. cbn [prefix]. destruct (ascii_dec "/" "/"); [|reflexivity]. change (prefix "/" b || false = false). rewrite no_prefix_slash by exact H2. reflexivity.
  - cbn [contains] in H1. apply orb_false_iff in H1. destruct H1 as [P1 P2]. apply orb_false_iff. split.
    + cbn [prefix] in *. destruct (ascii_dec "/" c) as [<-|]; [|reflexivity]. destruct a as [|d a]; [discriminate H3|]. cbn [String.append prefix] in *.
      destruct (ascii_dec "/" d); [destruct a; discriminate P1 | reflexivity].
    + apply IH; [exact P2|]. destruct a; [reflexivity | exact H3].
Qed.
Lemma ends_plain b : has_slash b = false -> ends_slash b = false.
Proof.
  induction b as [|c b IH]; [reflexivity|]. cbn [has_slash]. intros H. apply orb_false_iff in H. destruct H as [H1 H2].
  destruct b; [exact H1 | exact (IH H2)].
Qed.
Lemma normal_path rel base : ends_slash rel = false -> prefix "/" rel = false -> contains "//" rel = false -> has_slash base = false -> base <> ""%string ->
  normal (path rel base).
Proof.
  intros E P C B N. unfold path, normal. destruct rel as [|c rel].
  - repeat split; [exact N | apply no_prefix_slash, B | apply ends_plain, B | apply contains_slash, B].
  - repeat split; [discriminate | | |].
    + cbn [String.append prefix] in *. destruct (ascii_dec "/" c); [destruct rel; discriminate P | reflexivity].
    + rewrite ends_slash_app by discriminate. change ("/" ++ base)%string with (String "/" base). destruct base; [congruence | exact (ends_plain _ B)].
    + exact (contains_join (String c rel) base C B E).
Qed.
Lemma upc_slash c : Ascii.eqb (upc c) "/" = Ascii.eqb c "/".
Proof. destruct c as [[] [] [] [] [] [] [] []]; reflexivity. Qed.
Lemma upper_slash s : has_slash (upper s) = has_slash s.
Proof. induction s as [|c s IH]; [reflexivity|]. cbn [upper has_slash]. rewrite upc_slash, IH. reflexivity. Qed.
Lemma get_slash s : has_slash s = false -> forall n c, String.get n s = Some c -> Ascii.eqb c "/" = false.
Proof.
  induction s as [|d s IH]; intros H n c E; [destruct n; discriminate E|]. cbn [has_slash] in H. apply orb_false_iff in H. destruct H as [H1 H2].
  destruct n; cbn in E; [injection E as <-; exact H1 | exact (IH H2 n c E)].
Qed.
Lemma band_plain filt det split b : has_slash filt = false -> filt <> ""%string -> (forall d, det = Some d -> has_slash d = false) ->
  band_of filt det split = Some b -> has_slash b = false /\ b <> ""%string.
Proof.
  intros H N HD E. unfold band_of in E. destruct existsb.
  - destruct det as [d|]; [|discriminate E]. destruct (String.get 3 d) as [m|] eqn:G; [|discriminate E]. injection E as <-.
    rewrite has_slash_app, upper_slash, H. cbn [upper has_slash orb]. rewrite upc_slash, (get_slash d (HD d eq_refl) 3 m G). split; [reflexivity|].
    destruct filt; [congruence | discriminate].
  - injection E as <-. rewrite upper_slash. split; [exact H|]. destruct filt; [congruence | discriminate].
Qed.

(** What header_to_id gives for each file *)
Definition ids {H P} (D : string) (split : list string) (xs : list (exposure H P)) : option (list (string * string)) :=
  mapM (fun x => header_to_id (x_filter x) (x_detector x) (file D (x_rel x) (x_base x)) (Some D) split) xs.
Lemma id_path {H P} D split (x : exposure H P) b e : directory D -> located D x ->
  header_to_id (x_filter x) (x_detector x) (file D (x_rel x) (x_base x)) (Some D) split = Some (b, e) ->
  e = path (x_rel x) (x_base x) /\ has_slash b = false /\ b <> ""%string /\ normal e.
Proof.
  intros HD (L1 & L2 & L3 & L4 & L5 & L6 & L7 & L8 & L9) E.
  destruct (band_of (x_filter x) (x_detector x) split) as [bb|] eqn:B; [|unfold header_to_id in E; rewrite B in E; discriminate E].
  rewrite (C59_identity D _ _ _ _ split bb HD L2 L1 L4 L5 B) in E. injection E as <- <-.
  destruct (band_plain _ _ _ _ L7 L8 L9 B) as [B1 B2]. repeat split; try assumption; apply normal_path; try assumption; apply L5.
Qed.

(** Different files, none of which is named like a directory of another, have after any number of them their own header in
    one store and their own pixels in the other under the same name, and are all there. *)
Theorem C59_run : forall {H W P : Type} D split (xs : list (exposure H P)) names,
  directory D -> Forall (located D) xs -> ids D split xs = Some names ->
  NoDup (map (fun x => (x_rel x, x_base x)) xs) ->
  (forall x y, In x xs -> In y xs -> prefix (path (x_rel x) (x_base x) ++ "/") (path (x_rel y) (x_base y)) = false) ->
  exists f, store_all [] (combine names (map x_pix xs)) = Some f /\
    let m := add_all (new_meta H W) (combine names (map (fun x => (x_hdr x, None)) xs)) in
    nexp H W m = List.length xs /\
    forall i x, nth_error xs i = Some x -> exists b e, nth_error names i = Some (b, e) /\
      get2 (headers H W m) b e = Some (x_hdr x) /\ look (parts (b ++ "/" ++ e)) f = Some (x_pix x).
Proof.
  intros H W P D split xs names HD HL HI ND HP.
  assert (Ln := mapM_length _ _ _ HI). assert (HN := proj2 (mapM_nth _ _ _ HI)). cbv beta in HN. rewrite Forall_forall in HL.
  assert (Info : forall i b e, nth_error names i = Some (b, e) -> exists x, nth_error xs i = Some x /\ e = path (x_rel x) (x_base x) /\ has_slash b = false /\ b <> ""%string /\ normal e).
  { intros i b e E. destruct (nth_error xs i) as [x|] eqn:X.
    - exists x. split; [reflexivity|]. destruct (HN i x X) as (y & Y & Z). rewrite E in Y. injection Y as <-.
      apply (id_path D split x b e HD (HL x (nth_error_In _ _ X)) Z).
    - apply nth_error_None in X. assert (nth_error names i = None) by (apply nth_error_None; lia). congruence. }
  assert (NDn : NoDup names).
  { apply NoDup_nth_error. intros i j Hi E. destruct (nth_error names i) as [[b e]|] eqn:Ei; [|apply nth_error_None in Ei; lia]. symmetry in E.
    destruct (Info i b e Ei) as (x & X & Ex & _). destruct (Info j b e E) as (y & Y & Ey & _).
    destruct (HL x (nth_error_In _ _ X)) as (L1 & L2 & L3 & L4 & L5 & _). destruct (HL y (nth_error_In _ _ Y)) as (M1 & M2 & M3 & M4 & M5 & _).
    destruct (path_inj (x_rel x) (x_base x) (x_rel y) (x_base y)) as [K1 K2]; [apply L5 | apply M5 | exact L2 | exact M2 | congruence|].
    rewrite NoDup_nth_error in ND. apply ND; [rewrite map_length; lia|]. rewrite !nth_error_map, X, Y. cbn. congruence. }
  assert (FC : forall {A} (g : exposure H P -> A), map fst (combine names (map g xs)) = names).
  { intros A g. assert (L : List.length names = List.length (map g xs)) by (rewrite map_length; exact Ln). clear -L. revert L. generalize (map g xs). clear xs. intros xs.
    revert xs. induction names as [|n names IH]; intros [|x xs] L; try discriminate L; [reflexivity|]. cbn. f_equal. apply IH. cbn in L. lia. }
  assert (NC : forall {A} (g : exposure H P -> A) i n x, nth_error names i = Some n -> nth_error xs i = Some x -> nth_error (combine names (map g xs)) i = Some (n, g x)).
  { intros A g. clear. revert names. induction xs as [|y xs IH]; intros names i n x E1 E2; [destruct i; discriminate E2|].
    destruct names as [|m names]; [destruct i; discriminate E1|]. destruct i; cbn in *; [congruence | apply IH; assumption]. }
  destruct (C59_pixels (combine names (map x_pix xs))) as (f & S & K).
  - apply Forall_forall. intros [[b e] v] Hx. apply in_combine_l in Hx. apply In_nth_error in Hx. destruct Hx as (i & Hi).
    destruct (Info i b e Hi) as (x & _ & _ & B1 & B2 & B3). repeat split; cbn; try assumption; apply B3.
  - intros [[b e] v] [[b' e'] v'] Hx Hy Eb Be. cbn [fst snd] in *. apply in_combine_l in Hx. apply in_combine_l in Hy.
    apply In_nth_error in Hx. destruct Hx as (i & Hi). apply In_nth_error in Hy. destruct Hy as (j & Hj).
    destruct (Info i b e Hi) as (x & X & Ex & _). destruct (Info j b' e' Hj) as (y & Y & Ey & _).
    destruct Be as [Be|Be]; [congruence|]. rewrite Ex, Ey in Be. rewrite (HP x y (nth_error_In _ _ X) (nth_error_In _ _ Y)) in Be. discriminate Be.
  - exists f. split; [exact S|]. intros m.
    destruct (C59_headers (W := W) (combine names (map (fun x => (x_hdr x, None)) xs))) as (M1 & _ & M3). fold m in M1, M3. split.
    + rewrite M3, FC. rewrite nodup_fixed_point by exact NDn. exact Ln.
    + intros i x X. destruct (HN i x X) as ([b e] & Y & _). exists b, e. split; [exact Y|].
      assert (Q : forall {A} (g : exposure H P -> A), exists l1 l2, combine names (map g xs) = l1 ++ ((b, e), g x) :: l2 /\ ~ In (b, e) (map fst l2)).
      { intros A g. destruct (nth_error_split _ _ (NC A g i (b, e) x Y X)) as (l1 & l2 & E & _). exists l1, l2. split; [exact E|].
        assert (F := FC A g). rewrite E, map_app in F. cbn [map fst] in F. rewrite <- F in NDn. apply NoDup_remove_2 in NDn.
        intros I. apply NDn. apply in_or_app. right. exact I. }
      split.
      * destruct (Q _ (fun x => (x_hdr x, @None W))) as (l1 & l2 & E & N). exact (M1 l1 b e (x_hdr x) None l2 E N).
      * destruct (Q _ x_pix) as (l1 & l2 & E & N). exact (K l1 b e (x_pix x) l2 E N).
Qed.
Print Assumptions C59_run.

(** ** Cases *)
Definition nircam : list (exposure string nat) :=
  [mkExposure "visit1" "jw01_nrca1" "F200W" (Some "NRCA1") "h1" 1; mkExposure "visit1" "jw01_nrcb1" "F200W" (Some "NRCB1") "h2" 2;
   mkExposure "visit2" "jw01_nrca1" "F200W" (Some "NRCA1") "h3" 3; mkExposure "" "mosaic" "f115w" None "h4" 4]%string.
Example run_case : directory "/data/frames" /\ Forall (located "/data/frames") nircam /\
  ids "/data/frames" ["F200W"%string] nircam =
    Some [("F200WA", "visit1/jw01_nrca1"); ("F200WB", "visit1/jw01_nrcb1"); ("F200WA", "visit2/jw01_nrca1"); ("F115W", "mosaic")]%string /\
  NoDup (map (fun x => (x_rel x, x_base x)) nircam) /\
  (forall x y, In x nircam -> In y nircam -> prefix (path (x_rel x) (x_base x) ++ "/") (path (x_rel y) (x_base y)) = false).
Proof.
  split; [split; [discriminate | reflexivity]|]. split.
  - repeat constructor; cbn; try reflexivity; try discriminate; intros d E; injection E as <-; reflexivity.
  - split; [vm_compute; reflexivity|]. split.
    + repeat constructor; cbn; intuition congruence.
    + intros x y Hx Hy. cbn in Hx, Hy. repeat destruct Hx as [<-|Hx]; try contradiction; repeat destruct Hy as [<-|Hy]; try contradiction; reflexivity.
Qed.
(** Storing "a" again loses the exposure "a/b" that was stored after it *)
Example deleted_case : exists f f', store_all [] [("F", "a", 1); ("F", "a/b", 2)]%string = Some f /\ look ["F"; "a"; "b"]%string f = Some 2 /\
  store f "F" "a" 1 = Some f' /\ look ["F"; "a"; "b"]%string f' = None /\ look ["F"; "a"]%string f' = Some 1.
Proof. eexists _, _. split; [vm_compute; reflexivity|]. split; [reflexivity|]. split; [vm_compute; reflexivity|]. split; reflexivity. Qed.
Example collide_case : header_to_id "F200W" None "/data/x/data/a.fits" (Some "/data"%string) [] = Some ("F200W", "x/a")%string /\
  header_to_id "F200W" None "/data/x/a.fits" (Some "/data"%string) [] = Some ("F200W", "x/a")%string /\
  header_to_id "F200W" None "/data/a.fits" (Some "/data/"%string) [] = None.
Proof. repeat split; vm_compute; reflexivity. Qed.
Example gwcs_case : let m := add_all (new_meta nat nat) [("F", "a", (1, Some 10)); ("F", "b", (2, None))]%string in
  exists f, write_to_file nat nat nat id m "meta.json" (mkFiles nat nat [] []) = Some f /\
    read_meta nat nat nat S id f "meta.json" true true = None /\
    read_meta nat nat nat S id f "meta.json" false true = Some (mkMeta nat nat [("F", [("a", 1); ("b", 2)])] [] (Some [("F", [("a", 2); ("b", 3)])]))%string.
Proof. eexists. split; [vm_compute; reflexivity|]. split; vm_compute; reflexivity. Qed.
Example table_case : let m := add_all (new_meta nat nat) [("F", "a", (1, None)); ("G", "a", (2, None)); ("F", "b", (3, None))]%string in
  to_table nat nat nat (fun c h => if String.eqb c "filter" then h * 10 else 0) (fun h => Some (h, h + 100)) ["filter"; "ra"; "dec"]%string m =
  Some [[("filter", 10); ("ra", 1); ("dec", 101)]; [("filter", 30); ("ra", 3); ("dec", 103)]; [("filter", 20); ("ra", 2); ("dec", 102)]]%string.
Proof. vm_compute. reflexivity. Qed.
