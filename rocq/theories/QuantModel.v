(** Quantiles of samples: /repo/forcepho/utils/corner.py get_spans 551-576, quantile
    579-593, _quantile 596-640; /repo/forcepho/utils/catalog.py pctile_cat 92-150.

    Simplifications: floats are reals (no nan in the samples); np.percentile is its
    documented default, linear interpolation between order statistics; np.argsort, whose
    order of equal samples is not specified, is an argument; sample columns of a catalog
    are one-dimensional, and a column of samples stays one also when a single percentile
    is asked for (numpy has changed what a field length of one means). *)
From Verif Require Import Np.
From Coq Require Import Reals.
Open Scope R_scope.

(** ** np.percentile *)
(** np.sort *)
Fixpoint insert (x : R) (l : list R) : list R :=
  match l with [] => [x] | y :: t => if Rle_dec x y then x :: l else y :: insert x t end.
Fixpoint sort (l : list R) : list R := match l with [] => [] | x :: t => insert x (sort t) end.
Definition floorn (v : R) : nat := Z.to_nat (Int_part v).
(** The value at virtual index [v] of sorted samples *)
Definition at_pos (s : list R) (v : R) : R :=
  let j := floorn v in
  let a := nth j s 0 in
  let b := nth (Nat.min (j + 1) (List.length s - 1)) s 0 in
  a + (b - a) * (v - INR j).
Definition percentile (x : list R) (q : R) : R := at_pos (sort x) (INR (List.length x - 1) * (q / 100)).
Definition in_range (lo hi x : R) : bool := if Rle_dec lo x then if Rle_dec x hi then true else false else false.
(** np.percentile(x, qs): ValueError for percentiles outside [0, 100], IndexError without samples *)
Definition percentiles (x qs : list R) : option (list R) :=
  match x with [] => None | _ => if forallb (in_range 0 100) qs then Some (map (percentile x) qs) else None end.

(** ** _quantile 596-640 *)
(** np.cumsum *)
Fixpoint cumsum_from (acc : R) (l : list R) : list R := match l with [] => [] | x :: t => (acc + x) :: cumsum_from (acc + x) t end.
(** np.interp on the points (xp, fp), xp not decreasing *)
Fixpoint interp_from (x x0 f0 : R) (l : list (R * R)) : R :=
  match l with
  | [] => f0
  | (x1, f1) :: t => if Rlt_dec x x1 then f0 + (f1 - f0) / (x1 - x0) * (x - x0) else interp_from x x1 f1 t
  end.
Definition interp (x : R) (pts : list (R * R)) : option R :=
  match pts with [] => None | (x0, f0) :: t => if Rlt_dec x x0 then Some f0 else Some (interp_from x x0 f0 t) end.
(** 634-636; None when cdf[-1] is not there or when it is zero (nan) *)
Definition cdf_of (sw : list R) : option (list R) :=
  let c := removelast (cumsum_from 0 sw) in
  match c with
  | [] => None
  | _ => if Req_EM_T (last c 0) 0 then None else Some (0 :: map (fun v => v / last c 0) c)
  end.
Definition take (x : list R) (idx : list nat) : list R := map (fun i => nth i x 0) idx.
Definition quantile1 (argsort : list R -> list nat) (x q : list R) (weights : option (list R)) : option (list R) :=
  if forallb (in_range 0 1) q then
    match weights with
    | None => percentiles x (map (fun p => 100 * p) q)
    | Some w =>
      if Nat.eqb (List.length x) (List.length w) then
        let idx := argsort x in
        match cdf_of (take w idx) with
        | None => None
        | Some cdf => mapM (fun p => interp p (combine cdf (take x idx))) q
        end
      else None
    end
  else None.
(** ** get_spans 551-576: an entry is a pair or a fraction *)
Definition span_of (argsort : list R -> list nat) (x : list R) (weights : option (list R)) (sp : R * R + R) : option (R * R) :=
  match sp with
  | inl p => Some p
  | inr f => match quantile1 argsort x [1 / 2 - 1 / 2 * f; 1 / 2 + 1 / 2 * f] weights with Some [a; b] => Some (a, b) | _ => None end
  end.
(** [None] for the default span of every parameter *)
Definition get_spans (argsort : list R -> list nat) (default : R) (span : option (list (R * R + R))) (samples : list (list R)) (weights : option (list R)) : option (list (R * R)) :=
  let span := match span with None => map (fun _ => inr default) samples | Some s => s end in
  if Nat.eqb (List.length span) (List.length samples) then mapM (fun sx => span_of argsort (snd sx) weights (fst sx)) (combine span samples) else None.

(** ** pctile_cat 92-150 *)
Section Catalog.
Context {V : Type}.
(** A column of a structured array with one value per row, or with one array of samples
    per row (a dtype entry of length 3) *)
Inductive column := Scalar (v : list V) | Sampled (s : list (list R)).
(** The catalog and SMPLCOLS of the header.  (In the catalog returned the [Sampled]
    columns have one value per percentile.) *)
Definition pctile_column (qs : list R) (c : column) : option column :=
  match c with
  | Scalar v => Some (Scalar v)
  | Sampled s => if forallb (in_range 0 100) qs then option_map Sampled (mapM (fun x => percentiles x qs) s) else None
  end.
Definition sampled (c : column) : bool := match c with Sampled _ => true | _ => false end.
Definition pctile_cat (qs : list R) (cat : list (string * column)) : option (list (string * column) * list string) :=
  match mapM (fun nc => option_map (pair (fst nc)) (pctile_column qs (snd nc))) cat with
  | None => None
  | Some e => Some (e, map fst (filter (fun nc => sampled (snd nc)) cat))
  end.
End Catalog.
Arguments column : clear implicits.
