(** Concrete cases for C75. *)
From Verif Require Import Np.
From Coq Require Import Reals Lra Lia.
From Verif Require Import QuantModel DemoModel ReportModel ReportProps.
From Verif Require CombineModel CombineProps LinkedModel LinkedSpec LinkedExamples SuperSceneModel Ds9Model.
Import ListNotations.
Open Scope R_scope.

(** Two pixels without a mask meet C75_scale *)
Definition two_pix := [mkRp 4 7 (Some 3) 1 (Some 1); mkRp 5 7 (Some (-2)) 2 (Some (-9))].
Example two_pix_meet : two_pix <> [] /\ forall p, In p two_pix -> p_ierr p <> 0 /\ exists d r, p_data p = Some d /\ p_resid p = Some r.
Proof. split; [discriminate|]. intros p [<-|[<-|[]]]; cbn [p_ierr p_data p_resid]; (split; [lra|eauto]). Qed.
Example two_pix_scale : exists s lo hi, show None None two_pix = Some s /\ sh_min s = Some lo /\ sh_max s = Some hi /\ lo <= -9 /\ 7 <= hi.
Proof.
  destruct (C75_scale two_pix (proj1 two_pix_meet) (proj2 two_pix_meet)) as (s & lo & hi & E & E1 & E2 & A & _). exists s, lo, hi. split; [exact E|]. split; [exact E1|]. split; [exact E2|].
  destruct (C75_panels _ _ _ _ E) as [P _]. destruct (P 1%nat _ eq_refl) as (D & R' & M & H1 & H2 & H3 & _ & H4). destruct (H4 _ _ eq_refl eq_refl) as (-> & m & -> & Hm & Hr). rewrite Hr in H2 by (cbn; lra). cbn [p_resid p_data] in *.
  apply nth_error_In in H2, H3. apply (in_map snd) in H2, H3. cbn [snd] in *. split.
  - destruct (A (Some (-9))) as (x & Ex & B); [rewrite !in_app_iff; right; left; exact H2|]. injection Ex as <-. lra.
  - destruct (A (Some m)) as (x & Ex & B); [rewrite !in_app_iff; right; right; exact H3|]. injection Ex as <-. lra.
Qed.
(** With a masked pixel a residual of -100 is far below a scale that begins at 0 *)
Definition masked_pix := [mkRp 0 0 (Some 0) 1 (Some (-100)); mkRp 1 0 (Some 5) 0 (Some 2)].
Example masked_pix_scale : exists s lo, show None None masked_pix = Some s /\ sh_min s = Some lo /\ 0 <= lo /\ In (0%Z, 0%Z, Some (-100)) (sh_resid s).
Proof.
  destruct (C75_scale_refuted masked_pix (mkRp 1 0 (Some 5) 0 (Some 2))) as (s & lo & hi & E & E1 & E2 & (p & Hp & L) & _); [now right; left|reflexivity|intros p [<-|[<-|[]]]; cbn; eauto|]. exists s, lo. split; [exact E|]. split; [exact E1|]. split.
  - destruct Hp as [<-|[<-|[]]]; cbn [p_data p_resid model_of nan_sub] in L; destruct L as [L|L]; injection L as <-; lra.
  - destruct (C75_panels _ _ _ _ E) as [P _]. destruct (P 0%nat _ eq_refl) as (D & R' & M & _ & H2 & _ & _ & H4). destruct (H4 _ _ eq_refl eq_refl) as (_ & m & _ & _ & Hr). rewrite Hr in H2 by (cbn; lra). apply nth_error_In in H2. exact H2.
Qed.

(** Three pixels of a patch in the middle of an image, with padding *)
Definition placed := [(11, 20, 5%nat); (-1, -1, 0%nat); (12, 22, 6%nat); (10, 20, 7%nat)]%Z.
Example placed_meets : exists r, CombineModel.populate_image placed = Some r /\ In (12, 22, 6%nat)%Z placed /\ cell_middle r 2 2 = (12, 22).
Proof.
  eexists. split; [reflexivity|]. split; [now right; right; left|]. unfold cell_middle, CombineModel.nx, CombineModel.ny. cbn. change (Pos.to_nat 3) with 3%nat. cbn [INR]. f_equal; lra.
Qed.

(** Three calls: the second is drawn in the colour of the first, the third in its own *)
Example three_calls : map (get_key "color") (mark_calls mark_default [[("color", "cyan")]; [("marker", "x")]; [("color", "lime")]]%string) = [Some "cyan"; Some "cyan"; Some "lime"]%string /\
  map (get_key "marker") (mark_calls mark_default [[("color", "cyan")]; [("marker", "x")]; [("color", "lime")]]%string) = [get_key "marker" mark_default; Some "x"; Some "x"]%string.
Proof. split; reflexivity. Qed.

(** A patch with two bands and a shape parameter has its pages *)
Example two_band_meets : (0 <= 1 / 2 <= 1)%R /\ (2 <= List.length ["F1"; "F2"]%string)%nat /\ (List.length ["q"%string] <= 6)%nat /\ In true [true; true; true; false] /\
  forall i c, (i < 3)%nat -> In c (["F1"%string; "F2"%string] ++ ["q"%string])%list -> (exists xx, Some [INR i; 1] = Some xx /\ xx <> []) /\ (exists v : R, Some (INR i) = Some v) /\ forall b : nat -> string -> option (R * R), None = Some b -> exists p, b i c = Some p.
Proof. split; [lra|]. split; [cbn; lia|]. split; [cbn; lia|]. split; [now left|]. intros i c _ _. split; [eexists; split; [reflexivity|discriminate]|]. split; [eauto|discriminate]. Qed.
Example two_band_pages : exists pages, chain_pdf (1 / 2) ["F1"; "F2"]%string ["q"%string] [true; true; true; false] 3 (fun i _ => Some [INR i; 1]) None (fun i _ => Some (INR i)) = Some pages /\ List.length pages = 3%nat.
Proof.
  destruct two_band_meets as (A & B & C & D & E). destruct (C75_chain_pdf (1 / 2) _ _ _ 3 (fun i _ => Some [INR i; 1]) None (fun i _ => Some (INR i)) A B C D) as (pages & P & L & _); [|eauto].
  intros i c Hi Hc. exact (E i c Hi Hc).
Qed.
Example one_band : (0 < 3)%nat /\ (List.length ["F1"%string] <= 1)%nat. Proof. cbn. lia. Qed.

Example stats_table : make_statscat ["depth"; "diverging"]%string [[("depth", 3%nat); ("diverging", 0%nat)]; [("diverging", 1%nat); ("depth", 5%nat)]]%string = Some [("depth"%string, [3; 5]%nat); ("diverging"%string, [0; 1]%nat)].
Proof. reflexivity. Qed.
Example stats_missing : make_statscat ["depth"; "energy"]%string [[("depth", 3%nat)]]%string = None.
Proof. reflexivity. Qed.
Example log_case : serialize (info (info [] "a"%string "t0"%string) "b"%string "t1"%string) = ("a" ++ newline ++ "b")%string.
Proof. reflexivity. Qed.
Example one_dupe : [tt] <> []. Proof. discriminate. Qed.

(** A sky with two pairs and a loner: a circle about 12 of radius 1 meets the source at 11 only; one about 20 finds nothing
    within reach and fails *)
Example good_overlap_meets : LinkedSpec.lenv_ok (List.length (SuperSceneModel.sourcecat (LinkedExamples.lstart LinkedExamples.good))) LinkedExamples.good_e /\ LinkedSpec.roi_ok LinkedExamples.good_c (LinkedExamples.lstart LinkedExamples.good) /\ (0 <= 1)%Q /\
  (forall k, (k < List.length (SuperSceneModel.sourcecat (LinkedExamples.lstart LinkedExamples.good)))%nat -> (LinkedSpec.roi_of LinkedExamples.good_c (LinkedExamples.lstart LinkedExamples.good) k <= SuperSceneModel.boundary_radius (LinkedModel.base LinkedExamples.good_c))%Q).
Proof. split; [exact (LinkedExamples.line_lenv_ok (map fst LinkedExamples.good))|]. split; [exact LinkedExamples.good_roi|]. split; [discriminate|]. exact LinkedExamples.good_small. Qed.
Example good_overlap : option_map (@List.length _) (overlap_circle LinkedExamples.good_e LinkedExamples.good_c (LinkedExamples.lstart LinkedExamples.good) (25 # 2) 0 1) = Some 1%nat /\
  overlap_circle LinkedExamples.good_e LinkedExamples.good_c (LinkedExamples.lstart LinkedExamples.good) 20 0 1 = None.
Proof. split; reflexivity. Qed.

Example pymc3_case : run_pymc3 (fun _ c => if String.eqb c "F"%string then [1; 2] else [3; 4]) ["F"; "q"]%string (Vec [0; 0]) (Vec [9; 9]) = Some [[1; 3]; [2; 4]].
Proof. unfold run_pymc3. cbn [List.length Nat.eqb andb]. destruct (ListDec.NoDup_dec string_dec ["F"; "q"]%string) as [_|N]; [reflexivity|]. exfalso. apply N. repeat constructor; cbn; intuition discriminate. Qed.
