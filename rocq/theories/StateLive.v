(** C63: when a run leaves a catalog for the next (postop_catalog). *)
From Verif Require Import Np NpFacts SuperSceneModel StateModel StateProps StateMore StateCase.
From Coq Require Import String.

(** C63: the catalog is made exactly when the samples of patch 0 are there, the first
    catalog of the directory can be read, and the uncertainties are made or not asked for. *)
Theorem C63_made : forall d root listing unc bands catname,
  (exists d' out, postop_catalog d root listing unc bands catname = Some (d', out)) <->
  (exists sb raw, d (root ++ "/patches/patch0_samples.h5")%string = Some (Samp sb raw)) /\
  (exists f fs t h e, globbed listing = f :: fs /\ d (root ++ "/" ++ f)%string = Some (Cat t h e)) /\ unc <> Raised.
Proof.
  intros d root listing unc bands catname. unfold postop_catalog. split.
  - intros (d' & out & H). destruct (d (root ++ "/patches/patch0_samples.h5")%string) as [[]|]; try discriminate H. 
    destruct (globbed listing) as [|f fs]; [discriminate|]. destruct (d (root ++ "/" ++ f)%string) as [[]|] eqn:Ef; try discriminate H. 
    split; [eauto|]. split; [do 5 eexists; split; [reflexivity|exact Ef]|]. intros ->. discriminate.
  - intros ((sb & raw & ->) & (f & fs & t & h & e & -> & ->) & Hu). destruct unc; [eauto|eauto|congruence].
Qed.
(** The directory of StateCase, with and without its uncertainties. *)
Example C63_made_case : (exists d' out, postop_catalog stale "run" ["initial.fits"%string] NoAttribute None None = Some (d', out)) /\
  ~ (exists d' out, postop_catalog stale "run" ["initial.fits"%string] Raised None None = Some (d', out)).
Proof.
  split.
  - apply C63_made. split; [do 2 eexists; vm_compute; reflexivity|]. split; [|discriminate]. do 5 eexists. split; [vm_compute; reflexivity|vm_compute; reflexivity].
  - intros H. apply C63_made in H. now apply H.
Qed.
Print Assumptions C63_made.
