(** C70: which unknowns the model has, and when there is a model at all. *)
From Coq Require Import Reals.
From Coquelicot Require Import Coquelicot.
From Coq Require Import List String Bool Arith Lra Lia.
From Verif Require Import WeightModel WeightFacts WeightProps WeightCase.
Import ListNotations.
Open Scope R_scope.

(** The background is unknown if a largest one is given, the centre if it may move, the amplitude
    unless fixed, and the weights always, each under the prior asked for; nothing is sampled twice. *)
Theorem C70_unknowns : forall inv s pix v sites mu, sersic_model inv s pix v = Some (sites, mu) ->
  NoDup (map fst sites) /\
  (forall d, In ("bg"%string, d) sites <-> 0 < s_maxbg s /\ d = Uniform (- s_maxbg s) (s_maxbg s)) /\
  (forall d, In ("x"%string, d) sites <-> 0 < s_dcen s /\ d = Normal (s_xcen s) (s_dcen s)) /\
  (forall d, In ("y"%string, d) sites <-> 0 < s_dcen s /\ d = Normal (s_ycen s) (s_dcen s)) /\
  (forall d, In ("a"%string, d) sites <-> (s_afix s = None \/ s_afix s = Some 0) /\ d = Uniform (1 / 2) (s_amax s)) /\
  ((exists d, In ("weight"%string, d) sites) <-> s_prior s = "dirichlet"%string) /\
  ((exists d, In ("lnW"%string, d) sites) <-> s_prior s <> "dirichlet"%string).
Proof.
  intros inv s pix v sites mu H.
  assert (A : (fixed_amplitude (s_afix s) = None /\ (s_afix s = None \/ s_afix s = Some 0)) \/ ((exists a, fixed_amplitude (s_afix s) = Some a) /\ ~ (s_afix s = None \/ s_afix s = Some 0))).
  { unfold fixed_amplitude. destruct (s_afix s) as [a|]; [|auto]. destruct (Req_EM_T a 0) as [->|N]; [auto|]. right. split; [eauto|]. intros [K|K]; congruence. }
  assert (F : exists bgs xys ams name d, sites = (bgs ++ xys ++ ams ++ [(name, d)])%list /\
    (0 < s_maxbg s /\ bgs = [("bg"%string, Uniform (- s_maxbg s) (s_maxbg s))] \/ ~ 0 < s_maxbg s /\ bgs = []) /\
    (0 < s_dcen s /\ xys = [("x"%string, Normal (s_xcen s) (s_dcen s)); ("y"%string, Normal (s_ycen s) (s_dcen s))] \/ ~ 0 < s_dcen s /\ xys = []) /\
    ((s_afix s = None \/ s_afix s = Some 0) /\ ams = [("a"%string, Uniform (1 / 2) (s_amax s))] \/ ~ (s_afix s = None \/ s_afix s = Some 0) /\ ams = []) /\
    (s_prior s = "dirichlet"%string /\ name = "weight"%string \/ s_prior s <> "dirichlet"%string /\ name = "lnW"%string)).
  { unfold sersic_model, positive in H.
    assert (W : exists name d w, (s_prior s = "dirichlet"%string /\ name = "weight"%string \/ s_prior s <> "dirichlet"%string /\ name = "lnW"%string) /\
      ((if String.eqb (s_prior s) "dirichlet" then Some ([("weight"%string, Dirichlet (concentration (List.length (s_radii s))))], v_weight v)
        else match get_kernel inv (List.length (s_radii s)) (s_prior s) (s_scale s) with
             | None => None
             | Some K => Some ([("lnW"%string, MultivariateNormal (repeat (- ln (INR (List.length (s_radii s)))) (List.length (s_radii s))) (fun i j => s_lambda s * K i j))], map exp (v_lnW v))
             end) = Some ([(name, d)], w)) \/
      ((if String.eqb (s_prior s) "dirichlet" then Some ([("weight"%string, Dirichlet (concentration (List.length (s_radii s))))], v_weight v)
        else match get_kernel inv (List.length (s_radii s)) (s_prior s) (s_scale s) with
             | None => None
             | Some K => Some ([("lnW"%string, MultivariateNormal (repeat (- ln (INR (List.length (s_radii s)))) (List.length (s_radii s))) (fun i j => s_lambda s * K i j))], map exp (v_lnW v))
             end) = None)).
    { destruct (String.eqb_spec (s_prior s) "dirichlet") as [Hp|Hp]; [exists "weight"%string; do 2 eexists; left; split; [now left|reflexivity]|].
      destruct (get_kernel _ _ _ _) as [K|]; [exists "lnW"%string; do 2 eexists; left; split; [now right|reflexivity]|]. exists ""%string, (Uniform 0 0), []. now right. }
    destruct W as (name & d & w & [[Hn E]|E]).
    - exists (if Rlt_dec 0 (s_maxbg s) then [("bg"%string, Uniform (- s_maxbg s) (s_maxbg s))] else []),
        (if Rlt_dec 0 (s_dcen s) then [("x"%string, Normal (s_xcen s) (s_dcen s)); ("y"%string, Normal (s_ycen s) (s_dcen s))] else []),
        (match fixed_amplitude (s_afix s) with None => [("a"%string, Uniform (1 / 2) (s_amax s))] | Some _ => [] end), name, d. rewrite E in H. clear E.
      split; [|split; [destruct (Rlt_dec 0 (s_maxbg s)); auto|split; [destruct (Rlt_dec 0 (s_dcen s)); auto|split; [destruct A as [[Ea A]|[(a & Ea) A]]; rewrite Ea; auto|exact Hn]]]].
      destruct (Rlt_dec 0 (s_maxbg s)); destruct (Rlt_dec 0 (s_dcen s)); destruct (Rlt_dec 0 (s_gmax s)); try discriminate H;
      destruct (fixed_amplitude (s_afix s)); (destruct (sersic_prediction _ _ _ _ _ _ _ _); [|discriminate H]); (destruct (s_ngauss_neg s); [|discriminate H]); injection H as <- _; reflexivity.
    - exfalso. destruct (Rlt_dec 0 (s_maxbg s)); destruct (Rlt_dec 0 (s_dcen s)); destruct (Rlt_dec 0 (s_gmax s)); try discriminate H;
      destruct (fixed_amplitude (s_afix s)); rewrite E in H; discriminate H. }
  clear H A. destruct F as (bgs & xys & ams & name & d & -> & Fb & Fx & Fa & Fn).
  assert (Nn : name <> "bg"%string /\ name <> "x"%string /\ name <> "y"%string /\ name <> "a"%string) by (destruct Fn as [[_ ->]|[_ ->]]; repeat split; discriminate).
  assert (I : forall k e, In (k, e) (bgs ++ xys ++ ams ++ [(name, d)])%list <-> In (k, e) bgs \/ In (k, e) xys \/ In (k, e) ams \/ (name = k /\ d = e)).
  { intros k e. rewrite !in_app_iff. cbn [In]. split; [intros [K|[K|[K|[K|[]]]]]; auto; injection K as -> ->; auto 6|intros [K|[K|[K|[-> ->]]]]; auto 6]. }
  assert (Ib : forall k e, In (k, e) bgs <-> k = "bg"%string /\ 0 < s_maxbg s /\ e = Uniform (- s_maxbg s) (s_maxbg s)).
  { intros k e. destruct Fb as [[P ->]|[P ->]]; cbn [In]; [|tauto]. split; [intros [K|[]]; injection K as <- <-; auto|intros (-> & _ & ->); auto]. }
  assert (Ix : forall k e, In (k, e) xys <-> 0 < s_dcen s /\ (k = "x"%string /\ e = Normal (s_xcen s) (s_dcen s) \/ k = "y"%string /\ e = Normal (s_ycen s) (s_dcen s))).
  { intros k e. destruct Fx as [[P ->]|[P ->]]; cbn [In]; [|tauto]. split; [intros [K|[K|[]]]; injection K as <- <-; auto|intros (_ & [[-> ->]|[-> ->]]); auto]. }
  assert (Ia : forall k e, In (k, e) ams <-> k = "a"%string /\ (s_afix s = None \/ s_afix s = Some 0) /\ e = Uniform (1 / 2) (s_amax s)).
  { intros k e. destruct Fa as [[P ->]|[P ->]]; cbn [In]; [|tauto]. split; [intros [K|[]]; injection K as <- <-; auto|intros (-> & _ & ->); auto]. }
  destruct Nn as (N1 & N2 & N3 & N4).
  split; [|split; [|split; [|split; [|split; [|split]]]]].
  - assert (Q : forall k, ~ In k (@nil string)) by (intros k []). destruct Fb as [[_ ->]|[_ ->]], Fx as [[_ ->]|[_ ->]], Fa as [[_ ->]|[_ ->]]; cbn [map app fst];
    repeat (constructor; [cbn [In]; intros K; repeat (destruct K as [K|K]; [first [discriminate K|congruence]|]); exact K|]); constructor.
  - intros e. rewrite I, Ib, Ix, Ia. split; [intros [K|[(_ & [[K _]|[K _]])|[[K _]|[K _]]]]; [exact (proj2 K)|discriminate K|discriminate K|discriminate K|congruence]|intros K; left; split; [reflexivity|exact K]].
  - intros e. rewrite I, Ib, Ix, Ia. split; [intros [[K _]|[(P & [[_ K]|[K _]])|[[K _]|[K _]]]]; [discriminate K|split; assumption|discriminate K|discriminate K|congruence]|intros [P K]; right; left; split; [exact P|left; split; [reflexivity|exact K]]].
  - intros e. rewrite I, Ib, Ix, Ia. split; [intros [[K _]|[(P & [[K _]|[_ K]])|[[K _]|[K _]]]]; [discriminate K|discriminate K|split; assumption|discriminate K|congruence]|intros [P K]; right; left; split; [exact P|right; split; [reflexivity|exact K]]].
  - intros e. rewrite I, Ib, Ix, Ia. split; [intros [[K _]|[(P & [[K _]|[K _]])|[K|[K _]]]]; [discriminate K|discriminate K|discriminate K|exact (proj2 K)|congruence]|intros K; right; right; left; split; [reflexivity|exact K]].
  - split.
    + intros [e K]. apply I in K. rewrite Ib, Ix, Ia in K. destruct K as [[K _]|[(P & [[K _]|[K _]])|[[K _]|[K _]]]]; try discriminate K. destruct Fn as [[Fn _]|[_ Fn]]; [exact Fn|congruence].
    + intros K. exists d. apply I. right; right; right. destruct Fn as [[_ Fn]|[Fn _]]; [auto|contradiction].
  - split.
    + intros [e K]. apply I in K. rewrite Ib, Ix, Ia in K. destruct K as [[K _]|[(P & [[K _]|[K _]])|[[K _]|[K _]]]]; try discriminate K. destruct Fn as [[_ Fn]|[Fn _]]; [congruence|exact Fn].
    + intros K. exists d. apply I. right; right; right. destruct Fn as [[Fn _]|[_ Fn]]; [contradiction|auto].
Qed.
Print Assumptions C70_unknowns.
(** With no shear and no negative Gaussians, a weight for every radius and a scale that suits the prior, there is a model. *)
Theorem C70_model_made : forall inv s pix v, inverts inv -> s_gmax s <= 0 -> s_ngauss_neg s = O ->
  let n := List.length (s_radii s) in
  (s_prior s = "dirichlet"%string /\ List.length (v_weight v) = n) \/
  (List.length (v_lnW v) = n /\ (s_prior s = "exp-squared"%string /\ s_scale s <> 0 \/
     (s_prior s = "finite-difference"%string \/ s_prior s = "triangular"%string) /\ (0 < n)%nat /\ -1 <= s_scale s <= 1)) ->
  exists sites mu, sersic_model inv s pix v = Some (sites, mu) /\ List.length mu = List.length pix.
Proof.
  intros inv s pix v Hi Hg Hn n H. unfold sersic_model. fold n. unfold positive. destruct (Rlt_dec 0 (s_gmax s)) as [K|_]; [lra|].
  assert (P : forall x y a w bg, List.length w = n -> exists mu, sersic_prediction pix x y a (WEach w) None (s_radii s) bg = Some mu /\ List.length mu = List.length pix).
  { intros x y a w bg L. unfold sersic_prediction, predict_separate, spread. fold n. rewrite L, Nat.eqb_refl. cbn [option_map]. eexists. split; [reflexivity|]. now rewrite !map_length. }
  assert (W : exists site w, (if String.eqb (s_prior s) "dirichlet" then Some ([("weight"%string, Dirichlet (concentration n))], v_weight v)
    else match get_kernel inv n (s_prior s) (s_scale s) with
         | None => None
         | Some K => Some ([("lnW"%string, MultivariateNormal (repeat (- ln (INR n)) n) (fun i j => s_lambda s * K i j))], map exp (v_lnW v))
         end) = Some (site, w) /\ List.length w = n).
  { destruct H as [[E L]|[L H]].
    - rewrite E. cbn [String.eqb Ascii.eqb Bool.eqb]. eauto.
    - assert (G : exists K, get_kernel inv n (s_prior s) (s_scale s) = Some K /\ s_prior s <> "dirichlet"%string).
      { destruct H as [[E Hs]|[[E|E] [Hn0 Hs]]]; rewrite E.
        - destruct (C70_exp_squared inv n (s_scale s) Hi Hs) as (K & EK & _). exists K. split; [exact EK|discriminate].
        - destruct (C70_finite_difference inv n (s_scale s) Hi) as [_ D]. destruct (D Hn0 Hs) as (K & EK). exists K. split; [exact EK|discriminate].
        - destruct (C70_triangular inv n (s_scale s) Hi Hn0 Hs) as (K & EK & _). exists K. split; [exact EK|discriminate]. }
      destruct G as (K & -> & N). apply String.eqb_neq in N. rewrite N. do 2 eexists. split; [reflexivity|]. now rewrite map_length. }
  destruct W as (site & w & E & L). rewrite Hn.
  destruct (if Rlt_dec 0 (s_maxbg s) then true else false); destruct (if Rlt_dec 0 (s_dcen s) then true else false); destruct (fixed_amplitude (s_afix s)); rewrite E;
    match goal with |- context [sersic_prediction pix ?x ?y ?a _ None _ ?bg] => destruct (P x y a w bg L) as (mu & -> & Lm) end; eauto.
Qed.
Print Assumptions C70_model_made.

(** Two Gaussians under the smooth prior: five unknowns *)
Example C70_model_made_case : exists sites mu, sersic_model inv0 two [(5, 5); (5, 6)] found = Some (sites, mu) /\ List.length mu = 2%nat /\
  In ("bg"%string, Uniform (- (1 / 10)) (1 / 10)) sites /\ In ("y"%string, Normal 5 1) sites /\ In ("a"%string, Uniform (1 / 2) 2) sites /\ ~ exists d, In ("weight"%string, d) sites.
Proof.
  destruct (C70_model_made inv0 two [(5, 5); (5, 6)] found inv0_inverts) as (sites & mu & E & L); [cbn; lra|reflexivity|right; split; [reflexivity|left; split; [reflexivity|cbn; lra]]|].
  exists sites, mu. split; [exact E|]. split; [exact L|]. destruct (C70_unknowns _ _ _ _ _ _ E) as (_ & Hb & _ & Hy & Ha & Hw & _).
  split; [apply Hb; cbn; split; [lra|reflexivity]|]. split; [apply Hy; cbn; split; [lra|reflexivity]|]. split; [apply Ha; cbn; auto|]. intros K. apply Hw in K. discriminate K.
Qed.
