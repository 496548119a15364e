(** C42: when an image of a FITS store is taken to see a region
    (FITSPatch.find_exposures, patches/pixel_patch.py 419-429): for every astrometry and box. *)
From Coq Require Import Reals Lra Lia List Bool String.
From Verif Require Import Np RegionModel RegionFacts SearchProps.
Import ListNotations.
Open Scope R_scope.

Lemma max_above d l v : In d l -> (v < list_max d l <-> exists x, In x l /\ v < x).
Proof.
  intros Hd. split; [intros H; exists (list_max d l); split; [destruct (list_max_in d l) as [->|E]; assumption|exact H]|].
  intros (x & Hx & H). pose proof (list_max_ge d l x Hx). lra.
Qed.
Lemma min_below d l v : In d l -> (list_min d l < v <-> exists x, In x l /\ x < v).
Proof.
  intros Hd. split; [intros H; exists (list_min d l); split; [destruct (list_min_in d l) as [->|E]; assumption|exact H]|].
  intros (x & Hx & H). pose proof (list_min_le d l x Hx). lra.
Qed.
Lemma ltb_iff x y : Rltb x y = true <-> x < y.
Proof. unfold Rltb. destruct (Rlt_dec x y); split; auto; discriminate. Qed.

(** C42: a corner of the box inside the image, or corners past every one of its
    four sides. *)
Theorem C42_fits_check : forall nx ny w bbox,
  fits_check nx ny w bbox = true <->
  (exists c, In c bbox /\ 0 < fst (world_to_pixel w (fst c) (snd c)) < nx /\ 0 < snd (world_to_pixel w (fst c) (snd c)) < ny) \/
  ((exists c, In c bbox /\ nx < fst (world_to_pixel w (fst c) (snd c))) /\ (exists c, In c bbox /\ fst (world_to_pixel w (fst c) (snd c)) < 0) /\
   (exists c, In c bbox /\ ny < snd (world_to_pixel w (fst c) (snd c))) /\ (exists c, In c bbox /\ snd (world_to_pixel w (fst c) (snd c)) < 0)).
Proof.
  intros nx ny w bbox. unfold fits_check. rewrite orb_true_iff.
  assert (C : corner_in_image nx ny w bbox = true <-> exists c, In c bbox /\ 0 < fst (world_to_pixel w (fst c) (snd c)) < nx /\ 0 < snd (world_to_pixel w (fst c) (snd c)) < ny).
  { unfold corner_in_image. rewrite existsb_exists. split; intros (c & Hc & H); exists c; (split; [exact Hc|]); destruct (world_to_pixel w (fst c) (snd c)) as [bx by_]; cbn [fst snd] in *; rewrite !andb_true_iff, !ltb_iff in *; tauto. }
  rewrite C. clear C.
  assert (A : around_image nx ny w bbox = true <-> (exists c, In c bbox /\ nx < fst (world_to_pixel w (fst c) (snd c))) /\ (exists c, In c bbox /\ fst (world_to_pixel w (fst c) (snd c)) < 0) /\
   (exists c, In c bbox /\ ny < snd (world_to_pixel w (fst c) (snd c))) /\ (exists c, In c bbox /\ snd (world_to_pixel w (fst c) (snd c)) < 0)); [|rewrite A; reflexivity].
  unfold around_image. destruct bbox as [|c0 bbox]; [split; [discriminate|intros ((c & [] & _) & _)]|].
  set (f := fun c : point => world_to_pixel w (fst c) (snd c)). set (l := c0 :: bbox).
  transitivity ((Rltb nx (list_max (fst (f c0)) (map fst (map f l))) && Rltb (list_min (fst (f c0)) (map fst (map f l))) 0) &&
    (Rltb ny (list_max (snd (f c0)) (map snd (map f l))) && Rltb (list_min (snd (f c0)) (map snd (map f l))) 0) = true); [reflexivity|].
  rewrite !map_map. rewrite !andb_true_iff, !ltb_iff.
  assert (I : In c0 l) by (left; reflexivity).
  rewrite !max_above, !min_below by (apply (in_map (fun c => fst (f c)) l c0 I) || apply (in_map (fun c => snd (f c)) l c0 I)).
  assert (M : forall (g : point -> R) (Q : R -> Prop), (exists x, In x (map g l) /\ Q x) <-> exists c, In c l /\ Q (g c)).
  { intros g Q. split; [intros (x & Hx & H); apply in_map_iff in Hx; destruct Hx as (c & <- & Hc); exists c; auto|intros (c & Hc & H); exists (g c); split; [apply in_map; exact Hc|exact H]]. }
  rewrite (M (fun c => fst (f c)) (fun x => nx < x)), (M (fun c => fst (f c)) (fun x => x < 0)), (M (fun c => snd (f c)) (fun x => ny < x)), (M (fun c => snd (f c)) (fun x => x < 0)). tauto.
Qed.
(** A region around the whole image is found, one across its lower half and past
    both sides is not. *)
Example C42_fits_check_case : fits_check 10 10 identity_wcs [(-1, -1); (11, -1); (11, 11); (-1, 11)] = true /\ fits_check 10 10 identity_wcs [(-1, -1); (11, -1); (11, 5); (-1, 5)] = false.
Proof.
  split.
  - apply C42_fits_check. right. cbn [identity_wcs world_to_pixel fst snd]. repeat split; [exists (11, 11)|exists (-1, -1)|exists (11, 11)|exists (-1, -1)]; cbn; split; auto; lra.
  - apply not_true_is_false. intros H. apply C42_fits_check in H. cbn [identity_wcs world_to_pixel fst snd] in H. destruct H as [(c & Hc & H)|(_ & _ & (c & Hc & H) & _)]; cbn in Hc; destruct Hc as [<-|[<-|[<-|[<-|[]]]]]; cbn in H; lra.
Qed.
Print Assumptions C42_fits_check.
