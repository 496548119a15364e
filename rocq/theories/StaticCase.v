(** C61: witnesses and cases. *)
From Coq Require Import Arith List Bool Lia.
From Verif Require Import Np NpFacts PackModel PackFacts StaticModel StaticFacts StaticProps.
Import ListNotations.

(** Three stamps in two bands (identifiers 2 and 7), of 6, 1 and 35 pixels *)
Definition flat (nx ny base : nat) : list nat := map (fun k => base + k) (seq 0 (nx * ny)).
Definition stp (b nx ny base : nat) : stamp nat := mkStamp b nx ny (flat nx ny base) (flat nx ny (base + 1)) (flat nx ny (base + 2)) (flat nx ny (base + 3)).
Definition stamps3 := [stp 2 3 2 100; stp 2 1 1 200; stp 7 5 7 300].
(** A source with two radii: one gaussian each in band 2, two and one in band 7 *)
Definition src (fixed : bool) (k : nat) : source nat nat nat nat :=
  mkSource fixed [1; 2] [[[k]; [k + 1]]; [[k + 2]; [k + 3]]; [[k + 4; k + 5]; [k + 6]]] [k; k; k] [k; k; k] [k; k; k] [k; k + 1; k + 2] [k + 3; k + 4; k + 5].
Definition scene2 := [src false 10; src false 20].
Lemma stamps3_wf : forall s, In s stamps3 -> wf s.
Proof. intros s [<-|[<-|[<-|[]]]]; repeat split; reflexivity. Qed.
Lemma scene2_declared : declared stamps3 [2; 3] scene2.
Proof.
  intros e st so He Hs. destruct e as [|[|[|e]]]; cbn in He; [| | |destruct e; discriminate]; injection He as <-; destruct Hs as [<-|[<-|[]]];
    eexists; (split; [reflexivity|reflexivity]).
Qed.
Definition patch3 := match static_patch 0 stamps3 [2; 3] scene2 None with Some p => p | None => mkPatch 0 0 (mkPixels [] [] [] [] [] [] [] [] [] []) 0 [] (mkAstro [] [] [] [] []) (mkPsfs [] [] []) end.
Example patch3_built : static_patch 0 stamps3 [2; 3] scene2 None = Some patch3. Proof. vm_compute. reflexivity. Qed.
Example patch3_starts : px_start (pt_pixels patch3) = [0; 32; 64] /\ px_N (pt_pixels patch3) = [32; 32; 64] /\
  px_band_start (pt_pixels patch3) = [0; 2] /\ px_band_N (pt_pixels patch3) = [2; 1] /\ ps_start (pt_psfs patch3) = [0; 4; 8].
Proof. vm_compute. repeat split. Qed.
Example patch3_built_hyps : exists p, static_patch 0 stamps3 [2; 3] scene2 None = Some p /\ ps_n (pt_psfs p) = [2; 3] /\ pt_n_sources p = 2 /\ pt_n_exp p = 3.
Proof.
  apply (C61_built 0 stamps3 [2; 3] [2; 3] scene2 None); try discriminate; auto.
  - apply stamps3_wf.
  - intros so [<-|[<-|[]]]; reflexivity.
  - apply scene2_declared.
  - intros so [<-|[<-|[]]]; repeat split; reflexivity.
Qed.
Example patch3_psf : exists k n, nth_error (ps_start (pt_psfs patch3)) 2 = Some k /\ nth_error (ps_n (pt_psfs patch3)) 1 = Some n /\ n = 3 /\
  slice (k + 1 * n) n (ps_gauss (pt_psfs patch3)) = map Some [(24, 0); (25, 0); (26, 1)].
Proof.
  destruct (C61_psf 0 stamps3 [2; 3] scene2 None patch3 patch3_built stamps3_wf) with (e := 2) (st := stp 7 5 7 300) (i := 1) (so := src false 20) (l := [(24, 0); (25, 0); (26, 1)])
    as (k & n & H1 & H2 & H3 & H4 & _); try reflexivity.
  - replace (ps_n (pt_psfs patch3)) with [2; 3] by (vm_compute; reflexivity). apply scene2_declared.
  - exists k, n. auto.
Qed.
Example patch3_pixels : exists st n, nth_error (px_start (pt_pixels patch3)) 1 = Some st /\ slice st 1 (px_data (pt_pixels patch3)) = [202] /\ padding_zero 0 (stp 2 1 1 200) st n (px_x (pt_pixels patch3)) /\ n = 32.
Proof. exists 32, 32. vm_compute. repeat split. Qed.

(** The number of gaussians is not looked at in the last exposure: a first source with one gaussian and a second
    with three pass for two with two, and the second is read from its second gaussian's place *)
Definition one_stamp := [stp 2 2 2 100].
Definition thin : source nat nat nat nat := mkSource false [1] [[[10]]] [0] [0] [0] [0] [0].
Definition thick : source nat nat nat nat := mkSource false [1] [[[20; 21; 22]]] [0] [0] [0] [0] [0].
Theorem C61_last_refuted : exists p, static_patch 0 one_stamp [2] [thin; thick] None = Some p /\
  psfgauss thick 0 = Some [(20, 0); (21, 0); (22, 0)] /\ nth_error (ps_start (pt_psfs p)) 0 = Some 0 /\ ps_n (pt_psfs p) = [2] /\
  slice (0 + 0 * 2) 2 (ps_gauss (pt_psfs p)) = [Some (10, 0); Some (20, 0)] /\
  slice (0 + 1 * 2) 2 (ps_gauss (pt_psfs p)) = [Some (21, 0); Some (22, 0)].
Proof. eexists. split; [vm_compute; reflexivity|]. repeat split. Qed.
(** Too few gaussians leave places of the table unset *)
Theorem C61_unset_refuted : exists p, static_patch 0 one_stamp [2] [thin; thin] None = Some p /\
  slice (0 + 1 * 2) 2 (ps_gauss (pt_psfs p)) = [None; None] /\ psfgauss thin 0 = Some [(10, 0)].
Proof. eexists. split; [vm_compute; reflexivity|]. repeat split. Qed.
(** Reference pixels of the sources after the first are lost *)
Theorem C61_reference_refuted : exists p, static_patch 0 stamps3 [2; 3] scene2 None = Some p /\
  nth_error (as_crpix (pt_astro p)) 0 = Some [10; 10] /\ nth_error (so_crpixs (src false 20)) 0 = Some 20.
Proof. exists patch3. split; [exact patch3_built|]. vm_compute. split; reflexivity. Qed.

(** One value stands for all pixels of a stamp *)
Theorem C61_single : exists p, static_patch 0 [mkStamp 2 2 2 (flat 2 2 1) (flat 2 2 1) (flat 2 2 1) [5]] [2] [thin; thick] None = Some p /\
  slice 0 5 (px_ierr (pt_pixels p)) = [5; 5; 5; 5; 0] /\ slice 0 5 (px_data (pt_pixels p)) = [1; 2; 3; 4; 0].
Proof. eexists. split; [vm_compute; reflexivity|]. split; reflexivity. Qed.
Example gaussians_radius : let so : source nat nat nat nat := mkSource false [1; 2] [[[7]; [8]]; [[10; 11]; [20]]] [0] [0] [0] [0] [0] in
  psfgauss so 1 = Some [(10, 0); (11, 0); (20, 1)] /\ nth_error [(10, 0); (11, 0); (20, 1)] (2 + 0) = Some (20, 1).
Proof.
  intros so. assert (H : psfgauss so 1 = Some [(10, 0); (11, 0); (20, 1)]) by reflexivity. split; [exact H|].
  destruct (proj1 (C61_gaussians so 1) _ H) as (ps & Hp & _ & _ & N). injection Hp as <-. now apply (N 1 [20] 0 20).
Qed.
Example sizes3 : forall s, In s stamps3 -> fits s (st_values s).
Proof. intros s H. now apply (C61_sizes 0 _ _ _ _ _ patch3_built s H). Qed.

Example fixed_stops : static_patch 0 stamps3 [2; 3] [src false 10; src true 20] None = None.
Proof. apply (C61_fixed_refuted 0 stamps3 [2; 3] _ None (src true 20)); [discriminate|cbn; auto|reflexivity]. Qed.
Example mask_stops : static_patch 0 stamps3 [2; 3] scene2 (Some [false; true]) = None.
Proof. apply C61_mask_refuted; discriminate. Qed.
Example unsorted_stops : static_patch 0 [stp 7 1 1 0; stp 2 1 1 0] [2; 3] scene2 None = None.
Proof. apply (C61_unsorted 0 _ _ _ _ 0 1 (stp 7 1 1 0) (stp 2 1 1 0)); try reflexivity; cbn; lia. Qed.
Example back_stops : patch_to_stamps patch3 = None.
Proof. exact (C61_back_refuted 0 _ _ _ _ _ patch3_built stamps3_wf). Qed.

Print Assumptions C61_pixels. Print Assumptions C61_bands. Print Assumptions C61_psf. Print Assumptions C61_built. Print Assumptions C61_unsorted.
Print Assumptions C61_mask_refuted. Print Assumptions C61_fixed_refuted. Print Assumptions C61_astrometry. Print Assumptions C61_back_refuted.
Print Assumptions C61_last_refuted. Print Assumptions C61_unset_refuted. Print Assumptions C61_reference_refuted.
Print Assumptions C61_sizes. Print Assumptions C61_single. Print Assumptions C61_gaussians.
