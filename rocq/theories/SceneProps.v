(** C14, C15, C16, C35, C44: the layout of the parameter vector. *)
From Verif Require Import Np NpFacts SceneModel SceneSpec SceneFacts StackFacts LnlikeModel LnlikeFacts ChainFacts.
From Coq Require Import Reals.
Open Scope nat_scope.

(** * C14 *)
Theorem C14_set_then_get : forall V (sc : list (source V)) Theta,
  Forall well_made sc -> Forall (fun s => s_kind s <> BaseSource) sc ->
  total sc <= List.length Theta ->
  exists sc', set_all_source_params sc Theta = Some sc' /\
    (* fixed sources are untouched, the others keep everything that is not a parameter *)
    Forall2 (fun s s' => same_object s s' /\ well_made s' /\ (fixed s = true -> s' = s)) sc sc' /\
    (* every active source has its own consecutive slice *)
    (forall i s s', nth_error sc i = Some s -> nth_error sc' i = Some s' -> fixed s = false ->
       flux s' ++ described_by s' = firstn (size s) (skipn (offset sc i) Theta)) /\
    (* reading back gives the vector that was set *)
    ((exists s, In s sc /\ fixed s = false) -> get_all_source_params sc' true = Some (firstn (total sc) Theta)).
Proof.
  intros V sc Theta Hw Hk HL. destruct (set_all_ok sc 0 Theta Hw Hk HL) as (sc' & H1 & H2 & H3 & H4).
  exists sc'. split; [exact H1|]. split; [exact H2|]. split; [exact H3|].
  intros (s & Hin & Hf). rewrite get_all_active; [now rewrite H4|].
  apply In_nth_error in Hin as (i & Hi). intros E.
  assert (Hlen : List.length sc = List.length sc') by (eapply Forall2_len; eauto).
  assert (Hlt : i < List.length sc') by (rewrite <- Hlen; apply nth_error_Some; congruence).
  destruct (nth_error sc' i) as [s'|] eqn:Es'; [|apply nth_error_None in Es'; lia].
  assert (Hs' : In s' (active_sources sc')).
  { unfold active_sources. apply filter_In. split; [eapply nth_error_In; eauto|].
    assert (Hso : same_object s s').
    { clear -H2 Hi Es'. revert i Hi Es'. induction H2 as [|x y l l' (Hx & _) _ IH]; intros [|i] Hi Es'; simpl in *; try discriminate; eauto.
      congruence. }
    destruct Hso as (_ & _ & Hfx & _). rewrite Hfx, Hf. reflexivity. }
  rewrite E in Hs'. contradiction.
Qed.
Print Assumptions C14_set_then_get.

(** A vector that is too short is refused (python slices do not raise; the length
    check of the source does). *)
Theorem C14_too_short_fails : forall V (sc : list (source V)) Theta,
  Forall well_made sc -> Forall (fun s => s_kind s <> BaseSource) sc ->
  List.length Theta < total sc -> set_all_source_params sc Theta = None.
Proof. intros. apply set_all_short; auto. lia. Qed.
Print Assumptions C14_too_short_fails.

(** Setting one band sets that flux and the shape, and reads back. *)
Theorem C14_single_band : forall V (s : source V) v shape f k,
  well_made s -> f <> EmptyString -> NoDup (filternames s) -> nth_error (filternames s) k = Some f ->
  List.length shape = List.length (described_by s) ->
  exists s', set_params s (v :: shape) (Some f) = Some s' /\
    get_param_vector s' (Some f) = Some (v :: shape) /\
    (forall j, j <> k -> nth_error (flux s') j = nth_error (flux s) j) /\ same_object s s'.
Proof.
  intros V s v shape f k Hw Hf HN Hk HL.
  assert (Hi := index_of_NoDup f _ _ HN Hk).
  destruct (set_params_band s v shape f k Hw Hi HL) as (s' & H1 & H2 & H3 & H4 & H5).
  exists s'. split; auto. destruct (index_of_nth _ _ _ Hi) as [_ Hlt]. rewrite <- Hw in Hlt. split; [|split; auto].
  - rewrite (get_params_band s' f k v Hf); [now rewrite H3|destruct H4 as (_ & -> & _); auto|].
    rewrite H2, nth_error_upd, Nat.eqb_refl. destruct (Nat.ltb_spec k (List.length (flux s))); [reflexivity|lia].
  - intros j Hj. rewrite H2, nth_error_upd. destruct (Nat.eqb_spec k j); [congruence|reflexivity].
Qed.
Print Assumptions C14_single_band.

(** The generic Source class does not satisfy it: a scene takes n_bands + 4 entries
    for it but its set_params insists on n_bands + 6, for every vector. *)
Theorem C14_generic_source_refuted : forall V (s : source V) Theta,
  s_kind s = BaseSource -> fixed s = false -> set_all_source_params [s] Theta = None.
Proof.
  intros V s Theta Hk Hf. unfold set_all_source_params. cbn [set_all_from]. rewrite Hf, set_params_bad; auto.
  rewrite py_slice_length. unfold n_params, n_bands, npos, nshape, described_by. rewrite Hk. cbn [List.length]. lia.
Qed.
Print Assumptions C14_generic_source_refuted.

Definition ex_src (k : kind) (bands : list string) (f : list nat) (fx : bool) : source nat :=
  mkSource k bands f 1 2 3 4 5 6 7 8 fx.
Definition ex_scene : list (source nat) :=
  [ex_src Galaxy ["a"; "b"]%string [10; 11] false; ex_src Star ["a"; "b"]%string [12; 13] true;
   ex_src Star ["a"]%string [14] false; ex_src Shear ["a"; "b"]%string [15; 16] false].
Example C14_case : Forall well_made ex_scene /\ Forall (fun s => s_kind s <> BaseSource) ex_scene /\
  total ex_scene = 19 /\
  exists sc', set_all_source_params ex_scene (seq 100 19) = Some sc' /\
    get_all_source_params sc' true = Some (seq 100 19) /\ nth_error sc' 1 = nth_error ex_scene 1 /\
    option_map flux (nth_error sc' 3) = Some [111; 112].
Proof.
  split; [repeat constructor|]. split; [repeat constructor; discriminate|]. split; [reflexivity|].
  eexists. split; [vm_compute; reflexivity|]. vm_compute. auto.
Qed.

(** * C15 *)
(** The layout alone, for any values and addition. *)
Theorem C15_stacked_layout : forall V (zero : V) add ns nb (K : list (list (list V))),
  response_shape nb ns K ->
  List.length (stack_grad zero add ns nb K) = ns * (nb + 6) /\
  forall s, s < ns ->
    (forall b, b < nb -> nth (s * (nb + 6) + b) (stack_grad zero add ns nb K) zero
                       = add zero (nth 0 (nth s (nth b K []) []) zero)) /\
    (forall p, p < 6 -> nth (s * (nb + 6) + (nb + p)) (stack_grad zero add ns nb K) zero
                      = fold_left add (map (fun D => nth (S p) (nth s D []) zero) K) zero).
Proof. intros. now apply stack_entries. Qed.
Print Assumptions C15_stacked_layout.

(** The gradient is the gradient: if entry (b, s, p) of the kernel response is the
    derivative of band b's chi-square for the p-th number the kernel reads of
    source s, then entry k of the stacked vector is the derivative of the
    log-likelihood for entry k of the parameter vector. *)
Theorem C15_stacked_gradient : forall amps qf paf nb sc theta chi2 ps (K : list (list (list R))),
  fast_galaxies nb sc -> sc <> [] -> nb <= 30 -> List.length theta = List.length sc * (nb + 6) ->
  proposal_of amps qf paf sc theta = Some ps ->
  response_shape nb (List.length sc) K ->
  (forall b s p, b < nb -> s < List.length sc -> p < 7 ->
     derivable_pt_lim (fun t => chi2 b (upd s (upd p t (nth s (map (kernel_row b) ps) [])) (map (kernel_row b) ps)))
       (nth p (nth s (map (kernel_row b) ps) []) 0%R) (nth p (nth s (nth b K []) []) 0%R)) ->
  forall k, k < List.length theta ->
    exists f, (forall t, lnlike amps qf paf chi2 nb sc (upd k t theta) = Some (f t)) /\
              derivable_pt_lim f (nth k theta 0%R) (nth k (lnlike_grad (List.length sc) nb K) 0%R).
Proof. intros. eapply gradient_lemma; eauto. Qed.
Print Assumptions C15_stacked_gradient.

(** Two sources, one band, chi-square = 3 flux0 * ra1 + q0: the hypotheses hold,
    the gradient is not constant. *)
Section C15ex.
Open Scope R_scope.
Definition g15 (f ra q : R) : source R := mkSource Galaxy ["a"%string] [f] ra 0 q 0 1 1 0 0 false.
Definition sc15 := [g15 1 0 (1/2); g15 1 0 (1/2)].
Definition th15 : list R := [2; 5; 0; 1/3; 0; 1; 1;   1; 7; 0; 1/2; 0; 1; 1].
Definition chi15 (b : nat) (rows : list (list R)) : R :=
  3 * nth 0 (nth 0 rows []) 0 * nth 1 (nth 1 rows []) 0 + nth 3 (nth 0 rows []) 0.
Definition K15 : list (list (list R)) := [[[21; 0; 0; 1; 0; 0; 0]; [0; 6; 0; 0; 0; 0; 0]]].
Lemma lin_deriv a c x : derivable_pt_lim (fun t => a * t + c) x a.
Proof.
  assert (H : derivable_pt_lim (fun t => a * t + c) x (a * 1 + 0)); [|now replace (a * 1 + 0) with a in H by ring].
  apply (derivable_pt_lim_plus (fun t => a * t) (fun _ => c)).
  - apply (derivable_pt_lim_scal (fun t => t)). apply derivable_pt_lim_id.
  - apply derivable_pt_lim_const.
Qed.
Example C15_case :
  fast_galaxies 1 sc15 /\ List.length th15 = (List.length sc15 * (1 + 6))%nat /\
  response_shape 1 (List.length sc15) K15 /\
  exists ps, proposal_of (fun _ _ => []) (fun _ _ => 0) (fun _ _ => 0) sc15 th15 = Some ps /\
  (forall b s p, (b < 1)%nat -> (s < List.length sc15)%nat -> (p < 7)%nat ->
     derivable_pt_lim (fun t => chi15 b (upd s (upd p t (nth s (map (kernel_row b) ps) [])) (map (kernel_row b) ps)))
       (nth p (nth s (map (kernel_row b) ps) []) 0) (nth p (nth s (nth b K15 []) []) 0)) /\
  nth 8 (lnlike_grad 2 1 K15) 0 = -1/2 * (0 + 6).
Proof.
  split; [repeat constructor|]. split; [reflexivity|]. split; [split; [reflexivity|repeat constructor]|].
  exists [mkProp [2] 5 0 (1/3) 0 1 1 []; mkProp [1] 7 0 (1/2) 0 1 1 []]. split; [reflexivity|]. split; [|reflexivity].
  intros b s p Hb Hs Hp. simpl in Hs.
  assert (Heq : forall f a x, (forall t, f t = a * t + f 0) -> derivable_pt_lim f x a).
  { intros f a x H. apply derivable_pt_lim_ext with (fun t => a * t + f 0); [intros; symmetry; apply H|apply lin_deriv]. }
  destruct b; [|lia].
  destruct s as [|[|s]]; [| |lia]; do 7 (destruct p as [|p]; [apply Heq; intros t; unfold chi15, th15; cbn [nth upd map kernel_row p_fluxes p_ra p_dec p_q p_pa p_nsersic p_rh K15]; ring|]); lia.
Qed.
End C15ex.

(** * C16 *)
(** One position for (source s, column j) in the parameter vector read from the
    scene, in the bounds vectors, in the proposal and in the chain catalog. *)
Definition width (bands : list string) : nat := List.length (bands ++ SHAPE_COLS Galaxy).

Theorem C16_parameter_vector : forall V (zero : V) bands cat sc, cat <> [] ->
  scene_from_catalog zero bands cat = Some sc ->
  List.length sc = List.length cat /\
  exists Theta, get_all_source_params sc true = Some Theta /\ List.length Theta = List.length cat * width bands /\
    forall s r j c, nth_error cat s = Some r -> nth_error (bands ++ SHAPE_COLS Galaxy) j = Some c ->
      exists v, col r c = Some v /\ nth_error Theta (s * width bands + j) = Some v.
Proof. intros. eapply catalog_vector; eauto. Qed.
Print Assumptions C16_parameter_vector.

Theorem C16_bounds : forall V (sub : V -> V -> V) bcat bands ref lo up,
  bounds_vectors sub bcat bands (SHAPE_COLS Galaxy) ref = Some (lo, up) ->
  List.length lo = List.length bcat * width bands /\ List.length up = List.length bcat * width bands /\
  forall s j r c, nth_error bcat s = Some r -> nth_error (bands ++ SHAPE_COLS Galaxy) j = Some c ->
    exists l u, col r c = Some (l, u) /\
      let shift v := if String.eqb c "ra" then sub v (fst ref) else if String.eqb c "dec" then sub v (snd ref) else v in
      nth_error lo (s * width bands + j) = Some (shift l) /\ nth_error up (s * width bands + j) = Some (shift u).
Proof. intros V sub bcat bands ref lo up H. exact (bounds_vectors_lemma sub _ _ _ _ _ _ H). Qed.
Print Assumptions C16_bounds.
Theorem C16_bounds_exist : forall V (sub : V -> V -> V) bcat bands ref,
  (forall r c, In r bcat -> In c (bands ++ SHAPE_COLS Galaxy) -> exists p, col r c = Some p) ->
  exists lo up, bounds_vectors sub bcat bands (SHAPE_COLS Galaxy) ref = Some (lo, up).
Proof.
  intros V sub bcat bands ref H. apply bounds_vectors_total. intros r c Hr Hc. apply H; auto.
  destruct Hc as [<-|[<-|Hc]]; auto; apply in_or_app; right; simpl; auto.
Qed.
Print Assumptions C16_bounds_exist.

(** What the kernel reads after a vector has been set: for band [b] the row of
    source [s] is entry [b] and the six shape entries of the s-th slice. *)
Theorem C16_proposal : forall amps qf paf nb sc theta,
  fast_galaxies nb sc -> sc <> [] -> nb <= 30 -> List.length theta = List.length sc * (nb + 6) ->
  exists ps, proposal_of amps qf paf sc theta = Some ps /\ List.length ps = List.length sc /\
    forall b s, b < nb -> s < List.length sc ->
      exists p, nth_error ps s = Some p /\
        kernel_row b p = nth (s * (nb + 6) + b) theta 0%R :: firstn 6 (skipn (s * (nb + 6) + nb) theta).
Proof.
  intros amps qf paf nb sc theta Hg Hne Hnb HL.
  destruct (proposal_view amps qf paf nb sc theta Hg Hne Hnb HL) as (ps & H1 & H2). exists ps.
  split; auto.
  assert (Hlen : List.length ps = List.length sc).
  { unfold proposal_of in H1.
    assert (Hw : Forall well_made sc) by (eapply Forall_impl; [|exact Hg]; simpl; tauto).
    assert (Hk : Forall (fun s => s_kind s <> BaseSource) sc).
    { eapply Forall_impl; [|exact Hg]. simpl. intros a (E & _). rewrite E. discriminate. }
    destruct (set_all_source_params sc theta) as [sc'|] eqn:Es; [|discriminate].
    assert (Htot : 0 + total sc <= List.length theta).
    { unfold total. rewrite (galaxies_offset nb) by auto. lia. }
    destruct (set_all_ok sc 0 theta Hw Hk Htot) as (sc2 & E2 & F2 & _).
    change (set_all_from 0 sc theta) with (set_all_source_params sc theta) in E2. rewrite Es in E2. injection E2 as <-.
    unfold get_proposal in H1. destruct (active_sources sc') as [|x l] eqn:Ea; [discriminate|].
    rewrite <- Ea in H1. apply mapM_nth in H1 as [HL1 _]. rewrite HL1, active_all.
    - symmetry. eapply Forall2_len. exact F2.
    - intros s' Hs'. clear -F2 Hg Hs'. revert Hg Hs'. induction F2 as [|a b l l' (Hso & _) _ IH]; intros Hg Hs'; [contradiction|].
      inversion Hg as [|? ? (_ & Hf & _) Hg']; subst. destruct Hs' as [<-|Hs']; auto.
      destruct Hso as (_ & _ & -> & _). exact Hf. }
  split; auto. intros b s Hb Hs. destruct (nth_error ps s) as [p|] eqn:Ep; [|apply nth_error_None in Ep; lia].
  exists p. split; auto.
  assert (Hrow : nth s (map (kernel_row b) ps) [] = kernel_row b p).
  { apply nth_error_nth. now rewrite nth_error_map, Ep. }
  rewrite <- Hrow, (H2 b Hb), view_row by auto.
  assert (Hbig : s * (nb + 6) + (nb + 6) <= List.length theta).
  { rewrite HL. replace (s * (nb + 6) + (nb + 6)) with (S s * (nb + 6)) by lia. apply Nat.mul_le_mono_r. lia. }
  cbn [seq map]. unfold LnlikeFacts.pos. f_equal.
  clear -Hbig.
  assert (Hsl : forall n a, a + n <= List.length theta -> firstn n (skipn a theta) = map (fun i => nth (a + i) theta 0%R) (seq 0 n)).
  { intros n a Han. apply (nth_ext _ _ 0%R 0%R).
    - rewrite firstn_length, skipn_length, map_length, seq_length. lia.
    - intros i Hi. rewrite firstn_length, skipn_length in Hi.
      rewrite nth_indep with (d' := (fun i => nth (a + i) theta 0%R) 0) (l := map _ _) by (rewrite map_length, seq_length; lia).
      rewrite (map_nth (fun i => nth (a + i) theta 0%R)), seq_nth by lia. simpl.
      assert (E : nth_error (firstn n (skipn a theta)) i = nth_error theta (a + i)).
      { rewrite nth_error_firstn by lia. now rewrite nth_error_skipn. }
      destruct (nth_error theta (a + i)) as [x|] eqn:Ex; [|apply nth_error_None in Ex; lia].
      rewrite (nth_error_nth _ _ _ Ex), (nth_error_nth _ _ _ E). reflexivity. }
  rewrite Hsl by lia. cbn [seq map].
  repeat match goal with |- ?a :: _ = ?b :: _ => replace a with b by (f_equal; lia); apply f_equal end. reflexivity.
Qed.
Print Assumptions C16_proposal.

Theorem C16_chain_catalog : forall V (add : V -> V -> V) chain n_param bands active ref rows,
  make_chaincat add chain n_param bands active ref (SHAPE_COLS Galaxy) = Some rows ->
  n_param = List.length active * width bands /\ List.length rows = List.length active /\
  forall s a j c, nth_error active s = Some a -> nth_error (bands ++ SHAPE_COLS Galaxy) j = Some c ->
    exists row samples, nth_error rows s = Some row /\ c_index row = a /\
      col (c_cols row) c = Some samples /\ List.length samples = List.length chain /\
      forall i theta, nth_error chain i = Some theta ->
        exists v, nth_error theta (s * width bands + j) = Some v /\
          nth_error samples i =
            Some (if String.eqb c "ra" then add v (fst ref) else if String.eqb c "dec" then add v (snd ref) else v).
Proof.
  intros V add chain n_param bands active ref rows H. destruct (chaincat_lemma add _ _ _ _ _ _ _ H) as (H1 & _ & H2 & H3).
  split; [exact H1|]. split; [exact H2|]. intros s a j c Hs Hj.
  destruct (H3 s a j c Hs Hj) as (row & sm & K1 & K2 & _ & K3 & K4 & K5). exists row, sm. auto 6.
Qed.
Print Assumptions C16_chain_catalog.

Definition ex_cat : list (srow Z) :=
  [[("a", 1); ("b", 2); ("ra", 100); ("dec", 50); ("q", 3); ("pa", 4); ("sersic", 5); ("rhalf", 6)];
   [("rhalf", 16); ("a", 11); ("dec", 51); ("b", 12); ("ra", 101); ("q", 13); ("pa", 14); ("sersic", 15)]]%string%Z.
Definition ex_bounds : list (srow (Z * Z)) := map (map (fun kv => (fst kv, (snd kv - 1, snd kv + 1)%Z))) ex_cat.
Example C16_case :
  (exists sc, scene_from_catalog 0%Z ["a"; "b"]%string ex_cat = Some sc /\
     get_all_source_params sc true = Some [1; 2; 100; 50; 3; 4; 5; 6; 11; 12; 101; 51; 13; 14; 15; 16]%Z) /\
  (exists up, bounds_vectors Z.sub ex_bounds ["a"; "b"]%string (SHAPE_COLS Galaxy) (100, 50)%Z =
     Some ([0; 1; -1; -1; 2; 3; 4; 5; 10; 11; 0; 0; 12; 13; 14; 15]%Z, up)).
Proof. split; eexists; [split; vm_compute; reflexivity|vm_compute; reflexivity]. Qed.
Definition ex_chain : list (list Z) := map (fun i => map (fun k => (1000 * i + Z.of_nat k)%Z) (seq 0 16)) [1; 2; 3]%Z.
Example C16_chain_case : exists rows, make_chaincat Z.add ex_chain 16 ["a"; "b"]%string [7; 9]%Z (100000, 50000)%Z (SHAPE_COLS Galaxy) = Some rows /\
  option_map (fun r => col (c_cols r) "ra") (nth_error rows 1) = Some (Some [101010; 102010; 103010]%Z).
Proof. eexists. split; vm_compute; reflexivity. Qed.

(** * C35 *)
Theorem C35_chain_catalog_exists : forall V (add : V -> V -> V) chain bands active ref,
  NoDup (bands ++ SHAPE_COLS Galaxy) ->
  (forall theta, In theta chain -> List.length theta = List.length active * width bands) ->
  exists rows, make_chaincat add chain (List.length active * width bands) bands active ref (SHAPE_COLS Galaxy) = Some rows.
Proof.
  intros V add chain bands active ref HN HL. apply chaincat_total; auto.
  - rewrite app_length. simpl. lia.
  - apply in_or_app. right. simpl. auto.
  - apply in_or_app. right. simpl. auto.
Qed.
Print Assumptions C35_chain_catalog_exists.

(** Reading sample [it] (python index, so negative counts from the end) of the
    catalog made from a chain. *)
Theorem C35_sample_roundtrip : forall V (add : V -> V -> V) chain n_param bands active ref rows (act : list (Z * srow V)) it i theta,
  make_chaincat add chain n_param bands active ref (SHAPE_COLS Galaxy) = Some rows ->
  List.length act = List.length active ->
  np_index (List.length chain) it = Some i -> nth_error chain i = Some theta ->
  exists act', get_sample_cat rows it act = Some act' /\ List.length act' = List.length act /\
    forall s a r, nth_error active s = Some a -> nth_error act s = Some r ->
      exists r', nth_error act' s = Some r' /\ fst r' = a /\ map fst (snd r') = map fst (snd r) /\
        (forall j c v0, nth_error (bands ++ SHAPE_COLS Galaxy) j = Some c -> col (snd r) c = Some v0 ->
           exists v, nth_error theta (s * width bands + j) = Some v /\
             col (snd r') c = Some (if String.eqb c "ra" then add v (fst ref)
                                    else if String.eqb c "dec" then add v (snd ref) else v)) /\
        (forall c v0, ~ In c (bands ++ SHAPE_COLS Galaxy) -> col (snd r) c = Some v0 -> col (snd r') c = Some v0).
Proof.
  intros V add chain n_param bands active ref rows act it i theta H HLa Hit Hth.
  destruct (chaincat_lemma add _ _ _ _ _ _ _ H) as (_ & HN & HLr & Hrows). cbv zeta in Hrows.
  assert (Hrow : forall s row, nth_error rows s = Some row ->
     exists a, nth_error active s = Some a /\ c_index row = a /\ map fst (c_cols row) = bands ++ SHAPE_COLS Galaxy).
  { intros s row Hs. assert (Hlt : s < List.length active) by (rewrite <- HLr; apply nth_error_Some; congruence).
    destruct (nth_error active s) as [a|] eqn:Ea; [|apply nth_error_None in Ea; lia]. exists a. split; auto.
    assert (Hj : nth_error (bands ++ SHAPE_COLS Galaxy) (List.length bands) = Some "ra"%string)
      by (rewrite nth_error_app2, Nat.sub_diag by lia; reflexivity).
    destruct (Hrows s a _ _ Ea Hj) as (row' & sm & K1 & K2 & K3 & _). rewrite Hs in K1. injection K1 as <-. auto. }
  assert (Hcolin : forall (l : srow (list V)) d x, col l d = Some x -> In d (map fst l)).
  { induction l as [|[k y] l IH]; simpl; intros d x E; [discriminate|].
    destruct (String.eqb_spec d k) as [->|]; auto. right. eapply IH; eauto. }
  assert (Hlens : forall s row, nth_error rows s = Some row -> forall d sm, col (c_cols row) d = Some sm -> List.length sm = List.length chain).
  { intros s row Hs d sm Hd. destruct (Hrow s row Hs) as (a & Ha & Hc & Hk). apply Hcolin in Hd as Hin. rewrite Hk in Hin.
    apply In_nth_error in Hin as (j & Hj). destruct (Hrows s a j d Ha Hj) as (row' & sm' & K1 & _ & _ & K4 & K5 & _).
    rewrite Hs in K1. injection K1 as <-. rewrite Hd in K4. injection K4 as <-. exact K5. }
  unfold get_sample_cat. rewrite HLr, HLa, Nat.eqb_refl. cbn [negb].
  destruct (mapM_total (fun p => sample_row it (fst p) (snd p)) (combine act rows)) as (act' & E).
  { intros [r row] Hin. apply In_nth_error in Hin as (s & Hs). cbn [fst snd].
    assert (Hs2 : nth_error rows s = Some row).
    { clear -Hs. revert act rows Hs. induction s as [|s IH]; intros [|x act] [|y rows] Hs; simpl in *; try discriminate; eauto. congruence. }
    apply (sample_row_total it r row (List.length chain)).
    - eapply Hlens; eauto.
    - unfold np_index in Hit. destruct ((0 <=? it) && (it <? Z.of_nat (List.length chain)))%Z eqn:E1; [lia|].
      destruct ((- Z.of_nat (List.length chain) <=? it) && (it <? 0))%Z eqn:E2; [lia|discriminate]. }
  exists act'. split; auto. apply mapM_nth in E as [HLE HNE].
  assert (Hcl : List.length (combine act rows) = List.length act) by (rewrite combine_length; lia).
  split; [lia|]. intros s a r Ha Hr.
  assert (Hlt : s < List.length rows) by (rewrite HLr; apply nth_error_Some; congruence).
  destruct (nth_error rows s) as [row|] eqn:Es; [|apply nth_error_None in Es; lia].
  assert (Hcomb : nth_error (combine act rows) s = Some (r, row)).
  { clear -Hr Es. revert act rows Hr Es. induction s as [|s IH]; intros [|x act] [|y rows] Hr Es; simpl in *; try discriminate; eauto. congruence. }
  destruct (HNE _ _ Hcomb) as (r' & Hr' & Hsr). cbn [fst snd] in Hsr.
  apply sample_row_col in Hsr as (F1 & F2 & F3). exists r'. split; auto.
  destruct (Hrow s row Es) as (a' & Ha' & Hc & Hk). rewrite Ha in Ha'. injection Ha' as <-.
  split; [congruence|]. split; auto. split.
  - intros j c v0 Hj Hv0. destruct (Hrows s a j c Ha Hj) as (row' & sm & K1 & _ & _ & K4 & K5 & K6).
    rewrite Es in K1. injection K1 as <-. destruct (K6 i theta Hth) as (v & Hv & Hsm).
    exists v. split; auto. specialize (F3 c v0 Hv0). rewrite K4 in F3. destruct F3 as (i' & Hi' & F4 & _).
    rewrite K5, Hit in Hi'. injection Hi' as <-. rewrite F4. exact Hsm.
  - intros c v0 Hc' Hv0. specialize (F3 c v0 Hv0). destruct (col (c_cols row) c) as [sm|] eqn:Ec; auto.
    apply Hcolin in Ec. rewrite Hk in Ec. contradiction.
Qed.
Print Assumptions C35_sample_roundtrip.
Example C35_case :
  let act := map (fun r => (0%Z, ("id", 77%Z) :: r)%string) ex_cat in
  exists rows act', make_chaincat Z.add ex_chain 16 ["a"; "b"]%string [7; 9]%Z (100000, 50000)%Z (SHAPE_COLS Galaxy) = Some rows /\
    get_sample_cat rows (-1) act = Some act' /\
    nth_error act' 1 = Some (9, [("id", 77); ("rhalf", 3015); ("a", 3008); ("dec", 53011); ("b", 3009); ("ra", 103010);
                                 ("q", 3012); ("pa", 3013); ("sersic", 3014)])%string%Z.
Proof. do 2 eexists. split; [vm_compute; reflexivity|]. split; vm_compute; reflexivity. Qed.

(** * C44 *)
Theorem C44_indices_of_active_source : forall V (sc : list (source V)) sid s f,
  (forall x, In x sc -> fixed x = false) -> Forall well_made sc -> Forall (fun x => s_kind x <> BaseSource) sc ->
  nth_error sc sid = Some s -> f <> EmptyString -> In f (filternames s) ->
  exists Theta inds, get_all_source_params sc true = Some Theta /\ param_indices sc sid f = Some inds /\
    fancy_get Theta inds = get_param_vector s (Some f).
Proof. intros. eapply param_indices_lemma; eauto. Qed.
Print Assumptions C44_indices_of_active_source.

(** With an inactive source in front the indices are another source's. *)
Theorem C44_fixed_source_refuted : exists (sc : list (source nat)) sid s f Theta inds,
  Forall well_made sc /\ nth_error sc sid = Some s /\ fixed s = false /\ In f (filternames s) /\
  get_all_source_params sc true = Some Theta /\ param_indices sc sid f = Some inds /\
  fancy_get Theta inds <> get_param_vector s (Some f).
Proof.
  exists [ex_src Star ["a"]%string [1] true; ex_src Star ["a"]%string [2] false; ex_src Star ["a"]%string [3] false], 1.
  do 4 eexists. split; [repeat constructor|]. split; [reflexivity|]. split; [reflexivity|].
  split; [left; reflexivity|]. split; [vm_compute; reflexivity|]. split; [vm_compute; reflexivity|]. vm_compute. discriminate.
Qed.
Print Assumptions C44_fixed_source_refuted.
Example C44_case : param_indices [ex_src Galaxy ["a"; "b"]%string [10; 11] false; ex_src Star ["a"; "b"]%string [12; 13] false] 1 "b"
  = Some [9; 10; 11].
Proof. reflexivity. Qed.
