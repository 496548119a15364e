(** C29: the amplitudes a scene hands to the device and their derivatives. *)
From Verif Require Import Np PackModel KernelModel DeviceModel.
From Coq Require Import Reals Lra.
Open Scope R_scope.

(** Where the splines are the derivatives of the amplitudes with respect to the radius and to the index, what is handed over
    for a source are the derivatives of its amplitudes with respect to its own radius and index *)
Theorem C29_derivatives : forall sp,
  (forall n r k, derivable_pt_lim (fun r => amplitudes sp n r k) r (damp_drh sp n r k)) ->
  (forall n r k, derivable_pt_lim (fun n => amplitudes sp n r k) n (damp_dsersic sp n r k)) ->
  forall sources s g p, nth_error sources s = Some g -> nth_error (get_proposal (mkScene sp sources)) s = Some p -> forall k,
  mixture_amplitudes p k = amplitudes sp (g_sersic g) (g_rhalf g) k /\
  derivable_pt_lim (fun r => mixture_amplitudes (proposal sp (mkGal (g_flux g) (g_ra g) (g_dec g) (g_q g) (g_pa g) (g_sersic g) r)) k) (g_rhalf g) (damplitude_drh p k) /\
  derivable_pt_lim (fun n => mixture_amplitudes (proposal sp (mkGal (g_flux g) (g_ra g) (g_dec g) (g_q g) (g_pa g) n (g_rhalf g))) k) (g_sersic g) (damplitude_dnsersic p k).
Proof.
  intros sp Hr Hn sources s g p Hs Hp k. unfold get_proposal in Hp. cbn [sc_sources sc_spline] in Hp. rewrite nth_error_map, Hs in Hp. injection Hp as <-. cbn. auto.
Qed.
Print Assumptions C29_derivatives.
(** Amplitudes that grow with the radius by their number, and with the square of the index *)
Example C29_derivatives_case : let sp := mkSpline [1; 2] (fun n r k => INR k * r + n * n) (fun _ _ k => INR k) (fun n _ _ => 2 * n) in
  (forall n r k, derivable_pt_lim (fun r => amplitudes sp n r k) r (damp_drh sp n r k)) /\ (forall n r k, derivable_pt_lim (fun n => amplitudes sp n r k) n (damp_dsersic sp n r k)).
Proof.
  cbn. split; intros n r k.
  - assert (G : derivable_pt_lim (fun r => INR k * r + n * n) r (INR k * 1 + 0)); [|replace (INR k * 1 + 0) with (INR k) in G by ring; exact G]. apply (derivable_pt_lim_plus (fun r => INR k * r) (fun _ => n * n)); [|apply derivable_pt_lim_const]. apply (derivable_pt_lim_scal id (INR k) r 1). apply derivable_pt_lim_id.
  - assert (G : derivable_pt_lim (fun n => INR k * r + n * n) n (0 + (1 * n + n * 1))); [|replace (0 + (1 * n + n * 1)) with (2 * n) in G by ring; exact G]. apply (derivable_pt_lim_plus (fun _ => INR k * r) (fun n => n * n)); [apply derivable_pt_lim_const|]. apply (derivable_pt_lim_mult id id); apply derivable_pt_lim_id.
Qed.
