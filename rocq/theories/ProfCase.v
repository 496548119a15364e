(** Cases meeting the hypotheses of ProfProps *)
From Coq Require Import Reals.
From Coquelicot Require Import Coquelicot.
From Verif Require Import Np.
From Coq Require Import Lra Lia Psatz.
From Verif Require Import CornerModel CornerFacts CornerProps ProfModel ProfProps.
Import ListNotations.
Open Scope R_scope.

(** The functions of shape one: those of a Gaussian profile *)
Definition gi (a p : R) : R := - ln (1 - p).
Definition gg (a x : R) : R := 1 - exp (- x).
Lemma gg_spec : gamma_spec (2 * (1 / 2)) gg gi 1.
Proof.
  constructor.
  - unfold gg. rewrite Ropp_0, exp_0. ring.
  - lra.
  - intros x Hx. unfold gg. replace (Rpower x (2 * (1 / 2) - 1) * exp (- x) / 1) with (exp (- x)).
    + auto_derive; [exact I|]. ring.
    + replace (2 * (1 / 2) - 1) with 0 by field. rewrite Rpower_O by exact Hx. field.
  - intros e He. exists e. split; [exact He|]. intros x Hx. unfold gg. pose proof (exp_ineq1 (- x) ltac:(lra)) as L. assert (exp (- x) < 1) by (rewrite <- exp_0; apply exp_increasing; lra). rewrite Rabs_pos_eq by lra. lra.
  - intros p Hp. unfold gi, gg. split.
    + assert (ln (1 - p) <= 0); [|lra]. destruct (Req_dec p 0) as [->|Hne]; [rewrite Rminus_0_r, ln_1; lra|]. rewrite <- ln_1. left. apply ln_increasing; lra.
    + rewrite Ropp_involutive, exp_ln by lra. ring.
  - intros e He. exists (/ e). intros x Hx. unfold gg. assert (0 < / e) by now apply Rinv_0_lt_compat. replace (1 - exp (- x) - 1) with (- exp (- x)) by ring. rewrite Rabs_Ropp, Rabs_pos_eq by (left; apply exp_pos).
    rewrite exp_Ropp. rewrite <- (Rinv_involutive e) by lra. apply Rinv_lt_contravar; [apply Rmult_lt_0_compat; [assumption|apply exp_pos]|]. pose proof (exp_ineq1 x ltac:(lra)). lra.
Qed.
Example case_profile : sersic_plain gi (1 / 2) 3 3 = 1 /\ sersic_plain gi (1 / 2) 3 6 < 1.
Proof. destruct (C73_profile gg gi 1 (1 / 2) 3 gg_spec ltac:(lra) ltac:(lra)) as (A & B & C). split; [exact A|]. rewrite <- A at 2. apply C. lra. Qed.
Example case_fraction : exists r, rfrac_from_halfn gi (3 / 4) (1 / 2) 3 = Some r /\ cfd_sersic gi gg (1 / 2) 3 r = 3 / 4.
Proof. destruct (C73_radius_of_fraction gg gi 1 (1 / 2) 3 (3 / 4) gg_spec ltac:(lra) ltac:(lra) ltac:(lra)) as (r & A & _ & B & _). now exists r. Qed.
Example case_enclosed : 0 < cfd_sersic gi gg (1 / 2) 3 1 < 1.
Proof. apply (C73_enclosed_light gg gi 1 (1 / 2) 3 gg_spec ltac:(lra) ltac:(lra)). lra. Qed.
(** The density at the centre of the unit Gaussian *)
Example case_normal : normal_at 1 0 1 0 0 = sqrt (2 * PI) * (1 / (2 * PI)).
Proof.
  pose proof (C73_normal_refuted 1 0 1 0 0) as K. cbv zeta in K. rewrite K by lra. f_equal. replace (1 * 1 - 0 * 0) with 1 by ring. rewrite sqrt_1.
  replace (- (1 * 0 ^ 2 - 2 * 0 * 0 * 0 + 1 * 0 ^ 2) / (2 * 1)) with 0 by field. rewrite exp_0. f_equal. ring.
Qed.
Example case_table : nth 3 (table_row 2 3 [1; 3]) 0 = 3 / 4.
Proof. destruct (C73_table 2 3 [1; 3]) as (_ & _ & A); [cbn; lra|]. specialize (A 1%nat). change (nth 3 (table_row 2 3 [1; 3]) 0) with (nth 1 (skipn 2 (table_row 2 3 [1; 3])) 0). rewrite A. cbn. lra. Qed.
Example case_columns : table_columns [1 / 100; 3 / 100] = [0%Z; 0%Z].
Proof. unfold table_columns. cbn [map]. rewrite !C73_columns_refuted by lra. reflexivity. Qed.
Example case_best : infer true [("x"%string, [10%nat; 11%nat; 12%nat]); ("flux"%string, [20%nat; 21%nat; 22%nat])] [5; 2; 3] = Some [("x"%string, 11%nat); ("flux"%string, 21%nat)].
Proof. unfold infer. cbn [argmin argmin_from]. destruct (Rlt_dec 2 5); [|lra]. destruct (Rlt_dec 3 2); [lra|]. reflexivity. Qed.

(** Four pixels about a centre, eight beyond *)
Lemma radius_of x y r : 0 <= r -> x ^ 2 + y ^ 2 = r ^ 2 -> radius 0 0 (x, y) = r.
Proof. intros H E. unfold radius. cbn [fst snd]. rewrite !Rminus_0_r, E. apply sqrt_pow2; exact H. Qed.
Definition pix : list (R * R) := [(0, 0); (1, 0); (0, 2); (3, 4)].
Lemma pix_radii : map (radius 0 0) pix = [0; 1; 2; 5].
Proof. unfold pix. cbn [map]. rewrite (radius_of 0 0 0), (radius_of 1 0 1), (radius_of 0 2 2), (radius_of 3 4 5) by lra. reflexivity. Qed.
Lemma pix_max : maximum [0; 1; 2; 5] = 5. Proof. unfold maximum. cbn [fold_left]. unfold Rmax. repeat (destruct (Rle_dec _ _); try lra). Qed.
Lemma pix_min : minimum [0; 1; 2; 5] = 0. Proof. unfold minimum. cbn [fold_left]. unfold Rmin. repeat (destruct (Rle_dec _ _); try lra). Qed.
Example case_ee : exists rr eed eem, ee_plot pix [4; 3; 2; 1] [8; 6; 4; 2] 8 0 0 3 true = Some (rr, eed, eem) /\ nth 0 eed 0 = 7 / 9 /\ nth 0 eem 0 = 14 / 9.
Proof.
  assert (D : exists rr eed eem, ee_plot pix [4; 3; 2; 1] [8; 6; 4; 2] 8 0 0 3 true = Some (rr, eed, eem)).
  { unfold ee_plot. rewrite pix_radii, pix_max, pix_min. cbv zeta. destruct (Rlt_dec _ _); [lra|]. unfold histogram, weighted. cbn [List.length Nat.eqb]. repeat eexists. }
  destruct D as (rr & eed & eem & E). exists rr, eed, eem. split; [exact E|].
  assert (L : minimum (map (radius 0 0) pix) < maximum (map (radius 0 0) pix) / (14 / 10)) by (rewrite pix_radii, pix_max, pix_min; lra). rewrite <- radius_dist in L.
  pose proof (C73_enclosed pix [4; 3; 2; 1] [8; 6; 4; 2] 8 0 0 3 true rr eed eem ltac:(lia) L E) as K. cbv zeta in K. rewrite radius_dist in K. destruct K as (_ & _ & _ & R0 & R2 & K).
  assert (R1 : nth 1 rr 0 = 5 / (28 / 10)).
  { clear K. revert E. unfold ee_plot. rewrite pix_radii, pix_max, pix_min. cbv zeta. destruct (Rlt_dec _ _); [discriminate|]. unfold histogram, weighted. cbn [List.length Nat.eqb]. intros E. injection E as <- _ _. unfold linspace. cbn. lra. }
  destruct (K 0%nat ltac:(lia)) as [A B]. cbn [Nat.add] in A, B. rewrite R1 in A, B. rewrite A, B. rewrite pix_radii. unfold light. cbn [combine map fst snd Nat.eqb].
  repeat (destruct (Rlt_dec _ _); try lra). unfold sumr. cbn. lra.
Qed.
Example case_narrow : ee_plot [(1, 0); (0, 1)] [1; 1] [1; 1] 2 0 0 10 false = None.
Proof.
  apply C73_narrow_refuted. rewrite radius_dist. cbn [map]. rewrite (radius_of 1 0 1), (radius_of 0 1 1) by lra. unfold maximum, minimum. cbn [fold_left]. unfold Rmax, Rmin. repeat (destruct (Rle_dec _ _); try lra).
Qed.
Example case_residual : exists c, nth_error (display_chi [5; 7] [4; 10]) 1 = Some c /\ c = - 30.
Proof.
  assert (M : maximum [4; 10] = 10) by (unfold maximum; cbn [fold_left]; unfold Rmax; repeat (destruct (Rle_dec _ _); try lra)).
  destruct (C73_residual [5; 7] [4; 10] 1 7 10 eq_refl eq_refl ltac:(rewrite M; lra)) as (c & A & B). exists c. split; [exact A|]. rewrite M in B. lra.
Qed.
(** A decomposition *)
Definition eig : eigen := fun a b c =>
  let s := sqrt ((a - c) ^ 2 + 4 * b ^ 2) in let l0 := (a + c + s) / 2 in
  ((l0, (a + c - s) / 2), if Req_EM_T b 0 then (if Rle_dec c a then (1, 0) else (0, 1)) else (b, l0 - a)).
Lemma eig_spec : eigen_spec eig.
Proof.
  intros a b c Ha Hc Hd. unfold eig. cbv zeta. set (s := sqrt _). assert (P : 0 <= (a - c) ^ 2 + 4 * b ^ 2) by (pose proof (pow2_ge_0 (a - c)); pose proof (pow2_ge_0 b); lra).
  assert (Es : s * s = (a - c) ^ 2 + 4 * b ^ 2) by (apply sqrt_sqrt; exact P). destruct (Req_EM_T b 0) as [B|B].
  - assert (Es' : s = Rabs (a - c)). { unfold s. rewrite B. replace ((a - c) ^ 2 + 4 * 0 ^ 2) with (Rsqr (a - c)) by (unfold Rsqr; ring). apply sqrt_Rsqr_abs. }
    destruct (Rle_dec c a) as [L|L].
    + rewrite Rabs_pos_eq in Es' by lra. rewrite Es', B. split; [left; lra|]. repeat split; lra.
    + rewrite Rabs_left in Es' by lra. rewrite Es', B. split; [right; lra|]. repeat split; lra.
  - split; [now left|]. split; [lra|]. split; [|split; [lra|]].
    + transitivity (((a - c) ^ 2 + 4 * b ^ 2 - (a - c) ^ 2) / 4 + c * ((a + c + s) / 2 - a)); [field|]. rewrite <- Es. field.
    + transitivity (((a + c) ^ 2 - s * s) / 4); [field|]. rewrite Es. field.
Qed.
Example case_ellipse_em : exists e, draw_em eig [1; 10; 20; 2; 3; 1 / 2] = Some e /\ forall t, on_contour 10 20 2 3 (1 / 2) (snd (boundary e t), fst (boundary e t)).
Proof. apply C73_ellipse_em; [apply eig_spec|lra..]. Qed.
Example case_ellipse_hmc : exists e t, draw_hmc eig 10 20 2 (Some 3) None (1 / 2) = Some e /\ ~ on_contour 10 20 2 3 (1 / 2) (boundary e t).
Proof. destruct (C73_ellipse_hmc_refuted eig 10 20 2 3 (1 / 2) eig_spec ltac:(lra) ltac:(lra) ltac:(lra)) as (e & A & _ & _ & B). destruct (B ltac:(lra)) as (t & T). now exists e, t. Qed.
(** A series that falls short *)
Example case_smoothed : sersic_profile gi (fun _ _ _ _ => Some 0) (1 / 2) 3 1 2 = sersic_plain gi (1 / 2) 3 2 /\ sersic_profile gi (fun _ _ _ _ => None) (1 / 2) 3 1 2 = sersic_plain gi (1 / 2) 3 2.
Proof.
  split.
  - unfold sersic_profile. cbv zeta. destruct (Rle_dec 1 0); [lra|]. destruct (Rlt_dec 2 (1 * 15)); [|reflexivity]. destruct (Rlt_dec 1 2); [|lra]. destruct (Rlt_dec _ _) as [|N]; [reflexivity|]. exfalso. apply N. rewrite Rmult_0_r. apply exp_pos.
  - destruct (C73_smoothed gi (fun _ _ _ _ => None) (1 / 2) 3 1 2) as (A & _). apply A. right. now right.
Qed.
