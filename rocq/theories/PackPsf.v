(** C25: padding.  C41, C45: the PSF table. *)
From Verif Require Import Np NpFacts SceneModel ChainFacts PackModel PackFacts PackLoop PackBuild PackProps.
From Coq Require Import Sorting.Sorted.

(** Padding completes whole warps with pixels of zero inverse error and keeps the rest. *)
Theorem C25_padding {V} (zero m1 : V) warp flux ie xp yp f' i' x' y' : 0 < warp ->
  List.length ie = List.length flux -> List.length xp = List.length flux -> List.length yp = List.length flux ->
  pad_pixels zero m1 warp flux ie xp yp = (f', i', x', y') ->
  exists n, List.length f' = n * warp /\ List.length flux <= n * warp < List.length flux + warp /\
    List.length i' = List.length f' /\ List.length x' = List.length f' /\ List.length y' = List.length f' /\
    (forall k, k < List.length flux -> nth_error f' k = nth_error flux k /\ nth_error i' k = nth_error ie k /\
                                   nth_error x' k = nth_error xp k /\ nth_error y' k = nth_error yp k) /\
    (forall k, List.length flux <= k < n * warp -> nth_error f' k = Some zero /\ nth_error i' k = Some zero /\ nth_error x' k = Some m1 /\ nth_error y' k = Some m1).
Proof.
  intros Hw Hi Hx Hy. unfold pad_pixels. set (N := List.length flux) in *. set (r := N mod warp).
  assert (Hr : r < warp) by (apply Nat.mod_upper_bound; lia). assert (Hd : N = warp * (N / warp) + r) by (apply Nat.div_mod; lia).
  assert (Hrep : forall (v : V) m k, k < m -> nth_error (repeat v m) k = Some v).
  { intros v m. induction m; intros [|k] Hk; simpl; auto; try lia. apply IHm. lia. }
  destruct (Nat.eqb_spec (warp - r) warp) as [E|E]; intros H; injection H as <- <- <- <-.
  - exists (N / warp). fold N. rewrite Hi, Hx, Hy. assert (r = 0) by lia. repeat split; try lia; auto.
  - exists (S (N / warp)). rewrite !app_length, !repeat_length. fold N. rewrite Hi, Hx, Hy. repeat split; try lia;
      try (apply nth_error_app1; lia); rewrite nth_error_app2 by (fold N; lia); apply Hrep; fold N; lia.
Qed.

Section Psf.
Context {Row Src : Type} (local : string -> Src -> list Row) (sources : list Src).
Notation rows b := (flat_map (local b) sources).
Lemma psf_loop_spec bands : forall s starts out,
  psf_loop local bands sources s starts out =
  (starts ++ map (fun e => s + list_sum (firstn e (map (fun b => List.length (rows b)) bands))) (seq 0 (List.length bands)),
   out ++ flat_map (fun b => rows b) bands).
Proof.
  induction bands as [|b bands IH]; intros s starts out; cbn [psf_loop flat_map].
  - simpl. now rewrite !app_nil_r.
  - rewrite IH. f_equal; [|now rewrite <- app_assoc]. rewrite <- app_assoc. f_equal. cbn [List.length seq map firstn app].
    f_equal; [simpl; lia|]. rewrite <- seq_shift, map_map. apply map_ext. intros e. cbn [firstn]. change (list_sum (?a :: ?l)) with (a + list_sum l). lia.
Qed.
Lemma rows_length b n : (forall s, In s sources -> List.length (local b s) = n) -> List.length (rows b) = n * List.length sources.
Proof. induction sources as [|s l IH]; simpl; intros H; [lia|]. rewrite app_length, IH, H; auto; lia. Qed.
End Psf.

Lemma sum_by_band (g : nat -> nat) W : list_sum (map g W) = list_sum (map (fun v => g v * count_occ Nat.eq_dec W v) (np_unique W)).
Proof.
  assert (G : forall us m, NoDup us -> (forall x, In x m -> In x us) -> list_sum (map g m) = list_sum (map (fun u => g u * count_occ Nat.eq_dec m u) us)).
  { intros us m ND. induction m as [|x m IH]; intros Hm.
    - simpl. clear. induction us; simpl; auto. rewrite Nat.mul_0_r. exact IHus.
    - assert (Hs : forall us, NoDup us -> list_sum (map (fun u => g u * count_occ Nat.eq_dec (x :: m) u) us)
                 = (if in_dec Nat.eq_dec x us then g x else 0) + list_sum (map (fun u => g u * count_occ Nat.eq_dec m u) us)).
      { induction us0 as [|u us0 IHu]; intros ND0; auto. inversion ND0; subst. rewrite !map_cons.
        change (g u * count_occ Nat.eq_dec (x :: m) u + list_sum (map (fun u => g u * count_occ Nat.eq_dec (x :: m) u) us0)
          = (if in_dec Nat.eq_dec x (u :: us0) then g x else 0) + (g u * count_occ Nat.eq_dec m u + list_sum (map (fun u => g u * count_occ Nat.eq_dec m u) us0))).
        rewrite IHu by auto. destruct (Nat.eq_dec x u) as [->|Hne].
        - rewrite count_occ_cons_eq by reflexivity. destruct (in_dec Nat.eq_dec u us0); [contradiction|]. destruct (in_dec Nat.eq_dec u (u :: us0)) as [|Hn]; [lia|]. exfalso. apply Hn. simpl. auto.
        - rewrite count_occ_cons_neq by auto. destruct (in_dec Nat.eq_dec x us0) as [Hi|Hi]; destruct (in_dec Nat.eq_dec x (u :: us0)) as [Hj|Hj]; try lia; exfalso.
          + apply Hj. simpl. auto.
          + destruct Hj; [congruence|contradiction]. }
      rewrite Hs by auto. change (list_sum (map g (x :: m))) with (g x + list_sum (map g m)). rewrite IH by (intros; apply Hm; simpl; auto). destruct (in_dec Nat.eq_dec x us); [lia|]. exfalso. apply n. apply Hm. simpl. auto. }
  apply G; [unfold np_unique; apply NoDup_filter, seq_NoDup|]. intros x Hx. now apply in_unique.
Qed.

Section PsfProps.
Context {V Row Src : Type} (sub : V -> V -> V).
Variables (allbands : list string) (exps : list (exposure V)) (offsets : option (list V)) (pk : packed V).
Variables (attr : string -> option nat) (local : string -> Src -> list Row) (sources : list Src).
Hypothesis built : build_patch sub allbands exps offsets = Some pk.
Hypothesis lengths : Forall aligned exps.
(** The store declares for each band the number of rows of each of its tables. *)
Hypothesis declared : forall b, In b (map x_band exps) -> exists n, attr b = Some n /\ forall s, In s sources -> List.length (local b s) = n.

Lemma psf_total : exists ns, mapM attr (bandlist pk) = Some ns /\
  list_sum (map (fun p => fst p * snd p * List.length sources) (combine ns (n_exp_per_band pk)))
  = List.length (flat_map (fun b => flat_map (local b) sources) (map x_band exps)).
Proof.
  pose proof (build_sound sub _ _ _ _ built) as (Hne & Ho & Hk & Hf & Hs).
  set (num := fun b => match attr b with Some n => n | None => 0 end).
  exists (map num (bandlist pk)).
  assert (Hbl : forall b, In b (bandlist pk) -> In b (map x_band exps)).
  { intros b Hb. destruct (C25_bands sub _ _ _ _ built lengths) as (_ & _ & _ & _ & Hin & _). apply Hin in Hb. destruct Hb as (ex & He & <-). now apply in_map. }
  split.
  - apply mapM_Some. revert Hbl. generalize (bandlist pk) as l. induction l as [|b l IH]; intros Hl; cbn [map]; constructor.
    + destruct (declared b) as (n & Hn & _); [apply Hl; simpl; auto|]. unfold num. now rewrite Hn.
    + apply IH. intros; apply Hl; simpl; auto.
  - rewrite (built_closed sub _ _ _ _ built lengths). cbn [closed_form bandlist n_exp_per_band]. set (W := ids allbands exps).
    transitivity (list_sum (map (fun v => num (nth v allbands EmptyString) * List.length sources * count_occ Nat.eq_dec W v) (np_unique W))).
    + unfold unique_counts. rewrite map_map. generalize (np_unique W) as u. induction u as [|v u IH]; simpl; auto. unfold list_sum in *. rewrite IH. simpl. lia.
    + rewrite <- (sum_by_band (fun v => num (nth v allbands EmptyString) * List.length sources) W). unfold W, ids. rewrite map_map.
      assert (E : forall l, (forall ex, In ex l -> In ex exps) ->
         list_sum (map (fun ex => num (nth (ix allbands (x_band ex)) allbands EmptyString) * List.length sources) l)
         = List.length (flat_map (fun b => flat_map (local b) sources) (map x_band l))).
      { induction l as [|ex l IH]; intros Hl; auto. cbn [map flat_map]. rewrite app_length, <- IH by (intros; apply Hl; simpl; auto).
        change (list_sum (?a :: ?m)) with (a + list_sum m). f_equal. assert (Hin : In ex exps) by (apply Hl; simpl; auto).
        destruct (declared (x_band ex)) as (n & Hn & Hlen); [now apply in_map|].
        rewrite (nth_error_nth allbands _ EmptyString (ix_nth allbands (x_band ex) (proj1 (Forall_forall _ _) Hk ex Hin))).
        unfold num. rewrite Hn. symmetry. now apply rows_length. }
      apply E. auto.
Qed.

(** What the kernel reads (kernel: psfgauss[psfgauss_start[e] + p] for p < n_psf_per_source[band],
    KernelModel) are the rows of the band of the exposure, for the first source. *)
Lemma psf_rows : exists t, pack_psf attr local (bandlist pk) (n_exp_per_band pk) (map x_band exps) (List.length sources) sources = Some t /\
  List.length (t_psfgauss_start t) = List.length exps /\ List.length (t_n_psf_per_source t) = List.length (bandlist pk) /\
  forall k b e ex j src, nth_error (bandlist pk) k = Some b -> nth_error exps e = Some ex -> x_band ex = b -> nth_error sources j = Some src ->
    exists n s, nth_error (t_n_psf_per_source t) k = Some n /\ nth_error (t_psfgauss_start t) e = Some s /\
      List.length (local b src) = n /\ slice (s + n * j) n (t_psfgauss t) = local b src.
Proof.
  destruct psf_total as (ns & Hns & Htot). unfold pack_psf. rewrite Hns, psf_loop_spec. cbn [app]. rewrite Htot, Nat.eqb_refl. eexists. split; [reflexivity|].
  cbn [t_psfgauss_start t_n_psf_per_source t_psfgauss]. split; [now rewrite map_length, seq_length, map_length|]. split; [eapply mapM_length; eauto|].
  intros k b e ex j src Hb He Eb Hj. destruct (declared b) as (n & Hn & Hlen); [subst b; apply in_map; eapply nth_error_In; eauto|].
  exists n. exists (list_sum (firstn e (map (fun b => List.length (flat_map (local b) sources)) (map x_band exps)))).
  assert (He' : e < List.length exps) by (apply nth_error_Some; congruence).
  split. { destruct (proj2 (mapM_nth _ _ _ Hns) _ _ Hb) as (n' & Hn' & Hn2). congruence. }
  split. { rewrite nth_error_map, (nth_error_nth' _ 0) by (rewrite seq_length, map_length; lia). rewrite seq_nth by (rewrite map_length; lia). reflexivity. }
  assert (Hsrc : In src sources) by (eapply nth_error_In; eauto). split; [auto|].
  assert (Hm : nth_error (map x_band exps) e = Some b) by (rewrite nth_error_map, He; simpl; congruence).
  pose proof (slice_flat (fun b => flat_map (local b) sources) _ _ _ Hm) as H1. cbv beta in H1.
  pose proof (slice_flat (local b) _ _ _ Hj) as H2. rewrite (Hlen src Hsrc) in H2.
  assert (Hc : list_sum (firstn j (map (fun y => List.length (local b y)) sources)) = n * j).
  { clear -Hlen Hj. revert j Hj. induction sources as [|s l IH]; intros [|j] Hj; try discriminate; simpl in *; [lia|].
    rewrite (Hlen s) by auto. unfold list_sum in IH. rewrite IH; auto. lia. }
  rewrite Hc in H2. unfold slice in *. rewrite <- H1 in H2. rewrite skipn_firstn_comm, firstn_firstn in H2. rewrite skipn_skipn in H2.
  assert (Hfit : n * j + n <= List.length (flat_map (local b) sources)).
  { rewrite (rows_length local sources b n Hlen). assert (j < List.length sources) by (apply nth_error_Some; congruence). nia. }
  rewrite Nat.min_l in H2 by lia. exact H2.
Qed.

Theorem C41_psf_rows : exists t, pack_psf attr local (bandlist pk) (n_exp_per_band pk) (map x_band exps) (List.length sources) sources = Some t /\
  forall k b e ex src, nth_error (bandlist pk) k = Some b -> nth_error exps e = Some ex -> x_band ex = b -> nth_error sources 0 = Some src ->
    exists n s, nth_error (t_n_psf_per_source t) k = Some n /\ nth_error (t_psfgauss_start t) e = Some s /\
      n = List.length (local b src) /\
      forall p, p < n -> nth_error (t_psfgauss t) (s + p) = nth_error (local b src) p.
Proof.
  destruct psf_rows as (t & Ht & _ & _ & H). exists t. split; auto. intros k b e ex src Hb He Eb Hs.
  destruct (H k b e ex 0 src Hb He Eb Hs) as (n & s & H1 & H2 & H3 & H4). exists n, s. repeat split; auto. intros p Hp.
  rewrite <- H4. unfold slice. rewrite nth_error_firstn, nth_error_skipn by auto. f_equal. lia.
Qed.

(** When every source gets the same table, as PSFStore gives it, the rows the kernel
    reads for an exposure serve every source. *)
Theorem C45_shared_psf_partial : (forall b s s', In s sources -> In s' sources -> local b s = local b s') -> 
  exists t, pack_psf attr local (bandlist pk) (n_exp_per_band pk) (map x_band exps) (List.length sources) sources = Some t /\
  forall k b e ex src, nth_error (bandlist pk) k = Some b -> nth_error exps e = Some ex -> x_band ex = b -> In src sources ->
    exists n s, nth_error (t_n_psf_per_source t) k = Some n /\ nth_error (t_psfgauss_start t) e = Some s /\
      n = List.length (local b src) /\
      forall p, p < n -> nth_error (t_psfgauss t) (s + p) = nth_error (local b src) p.
Proof.
  intros Hsame. destruct C41_psf_rows as (t & Ht & H). exists t. split; auto. intros k b e ex src Hb He Eb Hin.
  destruct sources as [|s0 l] eqn:Es; [easy|]. destruct (H k b e ex s0 Hb He Eb eq_refl) as (n & s & H1 & H2 & H3 & H4).
  exists n, s. rewrite (Hsame b src s0); simpl; auto.
Qed.
End PsfProps.

(** PSFStore chooses the table by detector location but _pack_psf never passes one:
    every source gets the table stored first. *)
Theorem C45_store_ignores_position {Row Src} (parameters : string -> list (list Row)) nearest b (s s' : Src) :
  get_local_psf parameters nearest b s = get_local_psf parameters nearest b s' /\
  get_local_psf parameters nearest b s = nth 0 (parameters b) [].
Proof. split; reflexivity. Qed.

(** Two exposures of one band, three rows in the second of two bands *)
Module PackCase.
Open Scope string_scope.
Definition exps : list (exposure nat) :=
  [mkExposure "a" [10;11] [1;1] [0;1] [0;0]; mkExposure "c" [20;21;22] [2;0;2] [0;1;2] [5;5;5]; mkExposure "c" [30] [3] [7] [7]].
Definition allbands := ["a"; "b"; "c"].
Definition pk : packed nat := mkPacked ["a"; "c"] [1; 2] [9;10;18;19;20;27] [1;1;2;0;2;3] [0;1;0;1;2;7] [0;0;5;5;5;7] [0;1] [1;2] [0;2;5] [2;3;1] [2;4].
Example C25_case : build_patch Nat.sub allbands exps (Some [1;2;3]) = Some pk /\ Forall aligned exps /\
  split_pix pk [9;10;18;19;20;27] = [[9;10];[18;19;20];[27]] /\ split_band pk [9;10;18;19;20;27] = [[9;10];[18;19;20;27]].
Proof. split; [reflexivity|]. split; [repeat constructor|]. split; reflexivity. Qed.
Example C25_unsorted_rejected : build_patch Nat.sub allbands (rev exps) None = None.
Proof. reflexivity. Qed.
Example C25_padding_case : pad_pixels 0 99 4 [1;2;3;4;5] [1;1;1;1;1] [0;0;0;0;0] [1;2;3;4;5]
  = ([1;2;3;4;5;0;0;0], [1;1;1;1;1;0;0;0], [0;0;0;0;0;99;99;99], [1;2;3;4;5;99;99;99]).
Proof. reflexivity. Qed.
Definition attr (b : string) : option nat := if String.eqb b "a" then Some 1 else Some 2.
(** rows: (band tag, source, component) *)
Definition local (b : string) (s : nat) : list (nat * nat * nat) := if String.eqb b "a" then [(1, s, 0)] else [(3, s, 0); (3, s, 1)].
Example C41_case :
  (forall b, In b (map x_band exps) -> exists n, attr b = Some n /\ forall s, In s [7; 8] -> List.length (local b s) = n) /\
  option_map (fun t => (t_n_psf_per_source t, t_psfgauss_start t)) (pack_psf attr local (bandlist pk) (n_exp_per_band pk) (map x_band exps) 2 [7; 8]) = Some ([1; 2], [0; 2; 6]).
Proof.
  split; [|reflexivity]. intros b. simpl. intros [<-|[<-|[<-|[]]]]; eexists; (split; [reflexivity|]); intros s _; reflexivity.
Qed.
End PackCase.

(** The assertion at the end of _pack_psf compares grand totals only: per-band counts
    that disagree with the tables but cancel are accepted, and the kernel then reads rows
    of the wrong band. *)
Theorem C41_mixed_lengths_refuted :
  exists (exps : list (exposure nat)) pk attr (local : string -> nat -> list string) t,
    build_patch Nat.sub ["a"; "b"]%string exps None = Some pk /\ Forall aligned exps /\
    pack_psf attr local (bandlist pk) (n_exp_per_band pk) (map x_band exps) 1 [0] = Some t /\
    exists k b e ex n s p, nth_error (bandlist pk) k = Some b /\ nth_error exps e = Some ex /\ x_band ex = b /\
      nth_error (t_n_psf_per_source t) k = Some n /\ nth_error (t_psfgauss_start t) e = Some s /\ p < n /\
      nth_error (t_psfgauss t) (s + p) = Some "b-row"%string /\ b = "a"%string /\ local b 0 = ["a-row"%string].
Proof.
  exists [mkExposure "a" [1] [1] [1] [1]; mkExposure "b" [1] [1] [1] [1]]%string.
  eexists. exists (fun b => if String.eqb b "a" then Some 2 else Some 1), (fun b _ => if String.eqb b "a" then ["a-row"] else ["b-row"; "b-row"])%string.
  eexists. split; [reflexivity|]. split; [repeat constructor|]. split; [reflexivity|].
  exists 0, "a"%string, 0, (mkExposure "a"%string [1] [1] [1] [1]), 2, 0, 1. repeat (split; [reflexivity|]). split; [lia|]. repeat split; reflexivity.
Qed.

(** With per-source tables the kernel uses the first source's rows for every source. *)
Theorem C45_per_source_psf_refuted :
  exists (exps : list (exposure nat)) pk attr (local : string -> nat -> list string) t,
    build_patch Nat.sub ["a"]%string exps None = Some pk /\ Forall aligned exps /\
    (forall b, In b (map x_band exps) -> exists n, attr b = Some n /\ forall s, In s [0; 1] -> List.length (local b s) = n) /\
    pack_psf attr local (bandlist pk) (n_exp_per_band pk) (map x_band exps) 2 [0; 1] = Some t /\
    nth_error (t_psfgauss_start t) 0 = Some 0 /\ nth_error (t_n_psf_per_source t) 0 = Some 1 /\
    nth_error (t_psfgauss t) 0 = nth_error (local "a"%string 0) 0 /\
    nth_error (t_psfgauss t) 0 <> nth_error (local "a"%string 1) 0.
Proof.
  exists [mkExposure "a" [1] [1] [1] [1]]%string. eexists.
  exists (fun _ => Some 1), (fun _ s => match s with 0 => ["first"] | _ => ["second"] end)%string. eexists.
  split; [reflexivity|]. split; [repeat constructor|]. split.
  - intros b _. exists 1. split; [reflexivity|]. intros s [<-|[<-|[]]]; reflexivity.
  - repeat (split; [reflexivity|]). discriminate.
Qed.

Print Assumptions C25_accepts.
Print Assumptions C25_exposures.
Print Assumptions C25_bands.
Print Assumptions C25_split.
Print Assumptions C25_padding.
Print Assumptions C41_psf_rows.
Print Assumptions C45_shared_psf_partial.
