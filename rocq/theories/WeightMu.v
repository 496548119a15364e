(** C70: what the model of a profile predicts for every pixel. *)
From Coq Require Import Reals.
From Coquelicot Require Import Coquelicot.
From Coq Require Import List String Bool Arith Lra Lia.
From Verif Require Import WeightModel WeightFacts WeightProps WeightCase WeightLive.
Import ListNotations.
Open Scope R_scope.

Lemma total_component px py x y a w radii : Forall (fun r => r <> 0) radii ->
  total (map (component px py x y a) (combine w radii)) = a * fold_right Rplus 0 (map (fun wr => fst wr * (exp (- ((px - x) ^ 2 + (py - y) ^ 2) / (2 * snd wr ^ 2)) / (2 * PI * snd wr ^ 2))) (combine w radii)).
Proof.
  intros H. assert (K : forall wr, In wr (combine w radii) -> snd wr <> 0) by (intros [w0 r] Hi; cbn; apply in_combine_r in Hi; rewrite Forall_forall in H; exact (H r Hi)).
  induction (combine w radii) as [|[w0 r] l IH]; cbn [map total fold_right]; [ring|]. unfold total in IH. rewrite IH by (intros wr Hi; apply K; now right).
  cbn [component fst snd]. pose proof (K (w0, r) (or_introl eq_refl)) as Hr. cbn in Hr. pose proof PI_neq0 as HP.
  replace (- (1 / 2) * (((px - x) / r) ^ 2 + ((py - y) / r) ^ 2)) with (- ((px - x) ^ 2 + (py - y) ^ 2) / (2 * r ^ 2)) by (field; exact Hr). field. split; assumption.
Qed.
(** The background, and round Gaussians of the radii about the centre that share the amplitude by the weights: each of these is
    the sampled value where it is unknown, and otherwise the one given. *)
Theorem C70_mu : forall inv s pix v sites mu, sersic_model inv s pix v = Some (sites, mu) -> Forall (fun r => r <> 0) (s_radii s) ->
  exists bg x y a w, List.length w = List.length (s_radii s) /\
    (0 < s_maxbg s -> bg = v_bg v) /\ (s_maxbg s <= 0 -> bg = 0) /\
    (0 < s_dcen s -> x = v_x v /\ y = v_y v) /\ (s_dcen s <= 0 -> x = s_xcen s /\ y = s_ycen s) /\
    (s_afix s = None \/ s_afix s = Some 0 -> a = v_a v) /\ (forall a0, s_afix s = Some a0 -> a0 <> 0 -> a = a0) /\
    (s_prior s = "dirichlet"%string -> w = v_weight v) /\ (s_prior s <> "dirichlet"%string -> w = map exp (v_lnW v)) /\
    mu = map (fun p => a * fold_right Rplus 0 (map (fun wr => fst wr * (exp (- ((fst p - x) ^ 2 + (snd p - y) ^ 2) / (2 * snd wr ^ 2)) / (2 * PI * snd wr ^ 2))) (combine w (s_radii s))) + bg) pix.
Proof.
  intros inv s pix v sites mu H HR. unfold sersic_model, positive in H.
  assert (A : exists a, (match fixed_amplitude (s_afix s) with Some a => a | None => v_a v end) = a /\ (s_afix s = None \/ s_afix s = Some 0 -> a = v_a v) /\ (forall a0, s_afix s = Some a0 -> a0 <> 0 -> a = a0)).
  { eexists. split; [reflexivity|]. unfold fixed_amplitude. split; [intros [->| ->]; [reflexivity|]; destruct (Req_EM_T 0 0); [reflexivity|lra]|]. intros a0 -> N. destruct (Req_EM_T a0 0); [contradiction|reflexivity]. }
  destruct A as (a & Ea & A1 & A2).
  assert (P : forall x y a w bg r, sersic_prediction pix x y a (WEach w) None (s_radii s) bg = Some r -> List.length w = List.length (s_radii s) /\
    r = map (fun p => a * fold_right Rplus 0 (map (fun wr => fst wr * (exp (- ((fst p - x) ^ 2 + (snd p - y) ^ 2) / (2 * snd wr ^ 2)) / (2 * PI * snd wr ^ 2))) (combine w (s_radii s))) + bg) pix).
  { intros x y a0 w bg r E. unfold sersic_prediction, predict_separate, spread in E. destruct (Nat.eqb_spec (List.length w) (List.length (s_radii s))) as [L|]; [|discriminate]. cbn [option_map] in E. injection E as <-. split; [exact L|].
    rewrite map_map. apply map_ext. intros p. now rewrite total_component. }
  assert (W : exists sw w, (if String.eqb (s_prior s) "dirichlet" then Some ([("weight"%string, Dirichlet (concentration (List.length (s_radii s))))], v_weight v)
        else match get_kernel inv (List.length (s_radii s)) (s_prior s) (s_scale s) with
             | None => None
             | Some K => Some ([("lnW"%string, MultivariateNormal (repeat (- ln (INR (List.length (s_radii s)))) (List.length (s_radii s))) (fun i j => s_lambda s * K i j))], map exp (v_lnW v))
             end) = Some (sw, w) /\ (s_prior s = "dirichlet"%string -> w = v_weight v) /\ (s_prior s <> "dirichlet"%string -> w = map exp (v_lnW v))).
  { destruct (String.eqb_spec (s_prior s) "dirichlet") as [Hp|Hp]; [do 2 eexists; split; [reflexivity|]; split; [reflexivity|contradiction]|].
    destruct (get_kernel _ _ _ _) as [K|]; [do 2 eexists; split; [reflexivity|]; split; [contradiction|reflexivity]|]. exfalso.
    destruct (Rlt_dec 0 (s_maxbg s)); destruct (Rlt_dec 0 (s_dcen s)); destruct (Rlt_dec 0 (s_gmax s)); try discriminate H; destruct (fixed_amplitude (s_afix s)); discriminate H. }
  destruct W as (sw & w & Ew & W1 & W2). rewrite Ew in H.
  exists (if Rlt_dec 0 (s_maxbg s) then v_bg v else 0), (if Rlt_dec 0 (s_dcen s) then v_x v else s_xcen s), (if Rlt_dec 0 (s_dcen s) then v_y v else s_ycen s), a, w.
  assert (F : List.length w = List.length (s_radii s) /\ mu = map (fun p => a * fold_right Rplus 0 (map (fun wr => fst wr * (exp (- ((fst p - (if Rlt_dec 0 (s_dcen s) then v_x v else s_xcen s)) ^ 2 + (snd p - (if Rlt_dec 0 (s_dcen s) then v_y v else s_ycen s)) ^ 2) / (2 * snd wr ^ 2)) / (2 * PI * snd wr ^ 2))) (combine w (s_radii s))) + (if Rlt_dec 0 (s_maxbg s) then v_bg v else 0)) pix).
  { apply P. rewrite <- Ea. destruct (Rlt_dec 0 (s_maxbg s)); destruct (Rlt_dec 0 (s_dcen s)); destruct (Rlt_dec 0 (s_gmax s)); try discriminate H;
    destruct (fixed_amplitude (s_afix s)); (destruct (sersic_prediction _ _ _ _ _ _ _ _) as [m|] eqn:E; [|discriminate H]); (destruct (s_ngauss_neg s); [|discriminate H]); injection H as _ <-; reflexivity. }
  destruct F as [F1 F2]. split; [exact F1|]. split; [intros; destruct (Rlt_dec 0 (s_maxbg s)); [reflexivity|contradiction]|]. split; [intros; destruct (Rlt_dec 0 (s_maxbg s)); [lra|reflexivity]|].
  split; [intros; destruct (Rlt_dec 0 (s_dcen s)); [split; reflexivity|contradiction]|]. split; [intros; destruct (Rlt_dec 0 (s_dcen s)); [lra|split; reflexivity]|]. auto 10.
Qed.
Print Assumptions C70_mu.
(** Two Gaussians of radii one and two: the brightest pixel *)
Example C70_mu_case : exists sites mu, sersic_model inv0 two [(5, 5)] found = Some (sites, mu) /\ mu = [1 / (2 * PI) + exp (-1) / (8 * PI) + 1 / 20].
Proof.
  destruct (C70_model_made inv0 two [(5, 5)] found inv0_inverts) as (sites & mu & E & L); [cbn; lra|reflexivity|right; split; [reflexivity|left; split; [reflexivity|cbn; lra]]|].
  exists sites, mu. split; [exact E|]. destruct (C70_mu _ _ _ _ _ _ E) as (bg & x & y & a & w & _ & Hb & _ & Hx & _ & Ha & _ & _ & Hw & ->); [cbn; repeat constructor; lra|].
  rewrite Hb by (cbn; lra). destruct Hx as [-> ->]; [cbn; lra|]. rewrite Ha by (cbn; auto). rewrite Hw by (cbn; discriminate). cbn [map found v_bg v_x v_y v_a v_lnW two s_radii combine fst snd fold_right].
  f_equal. rewrite exp_0. replace (- ((5 - 5) ^ 2 + (5 - 5) ^ 2) / (2 * 1 ^ 2)) with 0 by field. replace (- ((5 - 5) ^ 2 + (5 - 5) ^ 2) / (2 * 2 ^ 2)) with 0 by field. rewrite exp_0. field. apply PI_neq0.
Qed.
