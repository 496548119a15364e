(** C56: what is lost, the patch regions, the pages, and examples. *)
From Verif Require Import Np NpFacts CombineModel CombineProps ImagesModel ImagesProps.
From Coq Require Import Permutation Sorted.
Open Scope nat_scope.

(** Two exposures of different directories (for instance two bands) with the same base name: the images of
    the first are overwritten by those of the second and are nowhere on disk. *)
Theorem C56_same_name_refuted : forall d1 r1 i1 d2 r2 i2, ~ (d1 == d2)%Q -> ~ (d1 == r2)%Q -> ~ (d1 == d2 - r2)%Q ->
  exists e1 e2 d',
    e1 <> e2 /\
    write_images "run" "image" (fun _ => Some (1, 1)) true false
      [[mkRexp e1 [0%Z] [0%Z] [r1] [d1] [i1]; mkRexp e2 [0%Z] [0%Z] [r2] [d2] [i2]]] [] = Some d' /\
    List.length d' = 3 /\
    forall f h row v, In (f, h) d' -> In row (h_rows h) -> In (Some v) row -> ~ (v == d1)%Q.
Proof.
  intros d1 r1 i1 d2 r2 i2 N1 N2 N3. exists "F115W/mosaic.fits"%string, "F200W/mosaic.fits"%string. eexists.
  split; [discriminate|]. split; [vm_compute; reflexivity|]. split; [reflexivity|].
  intros f h row v [H|[H|[H|[]]]]; injection H as <- <-; cbn [h_rows]; intros [<-|[]] [Hv|[]]; injection Hv as <-; intros E.
  - apply N1. now symmetry.
  - apply N2. now symmetry.
  - apply N3. symmetry. exact E.
Qed.
Print Assumptions C56_same_name_refuted.

(** ** write_patchreg *)
Lemma insert_str_perm s l : Permutation (insert_str s l) (s :: l).
Proof. induction l as [|t l IH]; simpl; auto. destruct (String.leb s t); auto. rewrite IH. apply perm_swap. Qed.
Lemma sort_str_perm l : Permutation (sort_str l) l.
Proof. induction l as [|s l IH]; simpl; auto. rewrite insert_str_perm. now constructor. Qed.
Lemma patch_lines_spec read : forall l i, (forall p, In p l -> exists ra dec r, read p = Some (Circle ra dec r)) ->
  exists ls, patch_lines read i l = Some ls /\ List.length ls = List.length l /\
    forall k p ra dec r, nth_error l k = Some p -> read p = Some (Circle ra dec r) -> nth_error ls k = Some (ra, dec, r, i + k).
Proof.
  induction l as [|p l IH]; intros i H; simpl.
  - exists []. repeat split; auto. intros [|k] p; discriminate.
  - destruct (H p (or_introl eq_refl)) as (ra & dec & r & E). rewrite E.
    destruct (IH (S i)) as (ls & El & L & N); [intros; apply H; simpl; auto|]. rewrite El. cbn [option_map].
    eexists. split; [reflexivity|]. split; [simpl; congruence|].
    intros [|k] p' ra' dec' r' Hk Hr; simpl in *.
    + injection Hk as <-. rewrite E in Hr. injection Hr as <- <- <-. now rewrite Nat.add_0_r.
    + rewrite (N k p' ra' dec' r' Hk Hr). do 2 f_equal. lia.
Qed.

(** With circular patches the file has one circle for each patch, that of its region, and the caller's list of
    names comes back in another order; if any patch is missing or not circular the call fails. *)
Theorem C56_patch_regions : forall read patchlist,
  let '(after, lines) := write_patchreg read patchlist in
  Permutation after patchlist /\
  ((exists p, In p patchlist /\ forall ra dec r, read p <> Some (Circle ra dec r)) -> lines = None) /\
  ((forall p, In p patchlist -> exists ra dec r, read p = Some (Circle ra dec r)) ->
   exists ls, lines = Some ls /\ List.length ls = List.length patchlist /\
     Permutation (map (fun x => Some (Circle (fst (fst (fst x))) (snd (fst (fst x))) (snd (fst x)))) ls) (map read patchlist) /\
     map snd ls = seq 0 (List.length patchlist)).
Proof.
  intros read patchlist. unfold write_patchreg. pose proof (sort_str_perm patchlist) as P. split; [exact P|]. split.
  - intros (p & Hin & Hno). apply (Permutation_in _ (Permutation_sym P)) in Hin. clear P. revert Hin.
    generalize (sort_str patchlist), 0. induction l as [|q l IH]; intros i []; simpl.
    + subst q. destruct (read p) as [[ra dec r|]|] eqn:E; auto. exfalso. exact (Hno _ _ _ eq_refl).
    + destruct (read q) as [[ra dec r|]|]; auto. now rewrite (IH (S i)).
  - intros H. destruct (patch_lines_spec read (sort_str patchlist) 0) as (ls & E & L & N).
    { intros p Hp. apply H. eapply Permutation_in; eauto. }
    exists ls. split; [exact E|]. split; [rewrite L; now apply Permutation_length|].
    assert (X : forall k x, nth_error ls k = Some x -> exists p, nth_error (sort_str patchlist) k = Some p /\
      read p = Some (Circle (fst (fst (fst x))) (snd (fst (fst x))) (snd (fst x))) /\ snd x = k).
    { intros k x Hk. destruct (nth_error (sort_str patchlist) k) as [p|] eqn:Ep.
      - exists p. split; auto. destruct (H p) as (ra & dec & r & Er).
        { eapply Permutation_in; [exact P|]. eapply nth_error_In; eauto. }
        rewrite (N k p ra dec r Ep Er) in Hk. injection Hk as <-. auto.
      - apply nth_error_None in Ep. assert (nth_error ls k <> None) by congruence. apply nth_error_Some in H0. lia. }
    split.
    + rewrite <- (Permutation_map read P). replace (map read (sort_str patchlist)) with
        (map (fun x : patch_line => Some (Circle (fst (fst (fst x))) (snd (fst (fst x))) (snd (fst x)))) ls); [reflexivity|].
      apply nth_error_ext. intros k. rewrite !nth_error_map. destruct (nth_error ls k) as [x|] eqn:Ek.
      * destruct (X k x Ek) as (p & -> & Er & _). simpl. now rewrite Er.
      * apply nth_error_None in Ek. rewrite L in Ek. apply nth_error_None in Ek. now rewrite Ek.
    + apply nth_error_ext. intros k. rewrite nth_error_map. unfold patch_line in *. destruct (nth_error ls k) as [x|] eqn:Ek.
      * destruct (X k x Ek) as (p & Hp & _ & <-). cbn [option_map]. assert (Hk : snd x < List.length patchlist).
        { rewrite <- (Permutation_length P). apply nth_error_Some. congruence. }
        rewrite (nth_error_nth' _ 0) by now rewrite seq_length. rewrite seq_nth by exact Hk. reflexivity.
      * apply nth_error_None in Ek. symmetry. apply nth_error_None. rewrite seq_length, <- (Permutation_length P). lia.
Qed.
Print Assumptions C56_patch_regions.

Definition pname (k : string) : string := ("patch" ++ k ++ "_samples.h5")%string.
(** The text beside a circle is not the number of the patch: with eleven patches, the circle labelled 1 is
    that of patch 10 and the circle labelled 2 that of patch 1. *)
Theorem C56_labels_refuted : forall region : string -> Q,
  let read p := Some (Circle (region p) 0 1) in
  exists lines, snd (write_patchreg read (map pname ["0"; "1"; "2"; "3"; "4"; "5"; "6"; "7"; "8"; "9"; "10"]%string)) = Some lines /\
    In (region (pname "10"), 0%Q, 1%Q, 1) lines /\ In (region (pname "1"), 0%Q, 1%Q, 2) lines.
Proof.
  intros region read. eexists. split; [reflexivity|]. vm_compute. split; [right; left; reflexivity|right; right; left; reflexivity].
Qed.
Print Assumptions C56_labels_refuted.

(** ** residual_pdf *)
Lemma skipn_seq k a n : skipn k (seq a n) = seq (a + k) (n - k).
Proof. revert a n. induction k as [|k IH]; intros a [|n]; simpl; auto; [now rewrite Nat.add_0_r|]. rewrite IH. f_equal; lia. Qed.
Lemma firstn_seq k a n : k <= n -> firstn k (seq a n) = seq a k.
Proof. revert a n. induction k as [|k IH]; intros a [|n] H; simpl; auto; [lia|]. f_equal. apply IH. lia. Qed.
Lemma pages_flat n m : forall J a, n * (a + J) <= m ->
  concat (map (fun j => firstn n (skipn (n * j) (seq 0 m))) (seq a J)) = seq (n * a) (n * J).
Proof.
  induction J as [|J IH]; intros a H; simpl; [now rewrite Nat.mul_0_r|].
  rewrite IH by lia. rewrite skipn_seq, firstn_seq by lia. rewrite Nat.mul_succ_r with (m := J).
  rewrite (Nat.add_comm (n * J)), seq_app. cbn [Nat.add]. f_equal. f_equal. lia.
Qed.

(** The pages show, in order, all patches up to the last full page, and no others: every patch is shown exactly
    when their number is a multiple of the number on a page. *)
Theorem C56_pages_partial : forall npatch n ps, pages npatch n = Some ps ->
  concat ps = seq 0 (npatch - npatch mod n) /\ (forall p, In p ps -> List.length p = n) /\
  ((forall k, k < npatch -> exists p, In p ps /\ In k p) <-> npatch mod n = 0).
Proof.
  intros npatch n ps H. unfold pages in H. destruct (Nat.eqb_spec n 0) as [E|N]; [discriminate|]. injection H as <-.
  pose proof (Nat.div_mod_eq npatch n) as D. pose proof (Nat.mod_upper_bound npatch n N) as B.
  assert (F : concat (map (fun j => firstn n (skipn (n * j) (seq 0 npatch))) (seq 0 (npatch / n))) = seq 0 (npatch - npatch mod n)).
  { rewrite pages_flat by lia. rewrite Nat.mul_0_r. f_equal. lia. }
  split; [exact F|]. split.
  - intros p Hp. apply in_map_iff in Hp as (j & <- & Hj). apply in_seq in Hj.
    assert (n * (j + 1) <= n * (npatch / n)) by (apply Nat.mul_le_mono_l; lia).
    rewrite skipn_seq, firstn_seq by lia. apply seq_length.
  - split.
    + intros Hall. destruct (Nat.eq_dec (npatch mod n) 0) as [|Ne]; auto. exfalso.
      destruct (Hall (npatch - 1)) as (p & Hp & Hk); [lia|].
      assert (Hin : In (npatch - 1) (seq 0 (npatch - npatch mod n))) by (rewrite <- F; apply in_concat; eauto).
      apply in_seq in Hin. lia.
    + intros E k Hk. assert (Hin : In k (seq 0 (npatch - npatch mod n))) by (apply in_seq; lia).
      rewrite <- F in Hin. apply in_concat in Hin as (p & Hp & Hk'). eauto.
Qed.
Print Assumptions C56_pages_partial.
Theorem C56_pages_refuted : forall npatch n ps, pages npatch n = Some ps -> npatch mod n <> 0 ->
  forall p, In p ps -> ~ In (npatch - 1) p.
Proof.
  intros npatch n ps H Hm p Hp Hin. destruct (C56_pages_partial _ _ _ H) as (F & _).
  assert (K : In (npatch - 1) (concat ps)) by (apply in_concat; eauto). rewrite F in K. apply in_seq in K.
  unfold pages in H. destruct (Nat.eqb_spec n 0) as [|N]; [discriminate|]. pose proof (Nat.mod_le npatch n N). lia.
Qed.
Print Assumptions C56_pages_refuted.
Example C56_pages_case : pages 7 3 = Some [[0; 1; 2]; [3; 4; 5]] /\ pages 7 3 <> None /\ pages 2 3 = Some [].
Proof. repeat split; discriminate. Qed.

(** ** The premises of [C56_images_partial] met: two patches that overlap in a pixel of one exposure, and a
    second exposure of another size. *)
Definition case_hdr (n : string) : option (nat * nat) := if String.eqb n "F115W/a.fits" then Some (2, 3) else Some (1, 1).
Definition case_shape (n : string) : nat * nat := match case_hdr n with Some s => s | None => (0, 0) end.
Definition case_files : list (list rexp) :=
  [[mkRexp "F115W/a.fits" [0; 1]%Z [0; 2]%Z [1#2; 1#3]%Q [5; 6]%Q [2; 2]%Q];
   [mkRexp "F115W/a.fits" [1]%Z [2]%Z [1#4]%Q [7]%Q [3]%Q; mkRexp "F200W/b.fits" [0]%Z [0]%Z [0]%Q [9]%Q [1]%Q]].
Definition case_disk : option disk := Eval vm_compute in write_images "run" "image" case_hdr true true case_files [].
Example C56_case :
  (case_files <> [] /\ sizes case_hdr (2048, 2048) case_shape (map r_name (concat case_files)) /\
   (forall x, In x (concat case_files) -> same_length x) /\
   (forall x px py, In x (concat case_files) -> In (px, py) (combine (r_xs x) (r_ys x)) -> fits_in (case_shape (r_name x)) px py) /\
   (forall e1 e2, In e1 (map r_name (concat case_files)) -> In e2 (map r_name (concat case_files)) -> exp_name e1 = exp_name e2 -> e1 = e2)) /\
  write_images "run" "image" case_hdr true true case_files [] = case_disk /\
  (match case_disk with Some d => option_map h_rows (on_disk d "run/image/a_model.fits") | None => None end) =
    Some [[Some (9#2)%Q; None]; [None; None]; [None; Some (27#4)%Q]] /\
  (match case_disk with Some d => List.length d | None => 0 end) = 8.
Proof.
  split; [split; [discriminate|split; [|split; [|split]]]|].
  - left. intros e [<-|[<-|[<-|[]]]]; reflexivity.
  - intros x [<-|[<-|[<-|[]]]]; repeat split.
  - intros x px py [<-|[<-|[<-|[]]]]; simpl; intros Hin; repeat destruct Hin as [Hin|Hin]; try contradiction; injection Hin as <- <-; split; simpl; lia.
  - intros e1 e2 H1 H2. simpl in H1, H2. repeat destruct H1 as [<-|H1]; try contradiction; repeat destruct H2 as [<-|H2]; try contradiction; vm_compute; congruence.
  - split; [vm_compute; reflexivity|]. split; vm_compute; reflexivity.
Qed.
(** The premises of [C56_names] met *)
Example C56_names_case : has_slash "jw01180_f115w" = false /\ ~ has_ext "jw01180_f115w" /\
  out_file "run" "image" "data/F115W/jw01180_f115w.fits" "chi" = "run/image/jw01180_f115w_chi.fits"%string.
Proof.
  split; [reflexivity|]. split; [|reflexivity]. intros (a & b & E).
  do 13 (destruct a as [|? a]; [discriminate E|injection E as _ E]).
  destruct a; discriminate E.
Qed.
