(** Corner plots: /repo/forcepho/utils/corner.py show_extras 110-170 (lines of quantiles and truths), prettify_axes
    173-256 (labels and hidden panels), corner 259-341 (which samples go to which panel), twodhist 344-497, marginal
    500-530, scatter 533-548, get_cmap 641-648.  get_spans and _quantile are in QuantModel.

    Simplifications: floats are reals; a sample array is flat; matplotlib is what it is given (levels, coordinates, values,
    labels, lines); scipy's gaussian_filter is the argument [kde1] or [kde2]; np.histogram and np.histogram2d are their
    documented bins (half open, the last closed).  [None] is an exception, or a loop that has not ended within the given
    number of rounds. *)
From Verif Require Import Np.
From Coq Require Import Reals.
From Verif Require Import QuantModel.
Open Scope R_scope.

(** ** Histograms *)
(** np.sort of a pair; numpy's outer edges: an empty range is widened by one half on either side *)
Definition sort_pair (p : R * R) : R * R := (Rmin (fst p) (snd p), Rmax (fst p) (snd p)).
Definition outer (p : R * R) : R * R := let (a, b) := sort_pair p in if Req_EM_T a b then (a - 1 / 2, b + 1 / 2) else (a, b).
Definition edges (p : R * R) (n : nat) : list R :=
  let (a, b) := outer p in map (fun k => a + INR k * ((b - a) / INR n)) (seq 0 (n + 1)).
(** Is x in bin k of the edges? *)
Definition in_bin (e : list R) (k : nat) (x : R) : bool :=
  if Rle_dec (nth k e 0) x then
    if Rlt_dec x (nth (k + 1) e 0) then true
    else if Nat.eqb (k + 2) (List.length e) then (if Req_EM_T x (nth (k + 1) e 0) then true else false) else false
  else false.
Definition sumr (l : list R) : R := fold_right Rplus 0 l.
(** The samples with their weights; ValueError when the lengths differ *)
Definition weighted {A} (xs : list A) (ws : option (list R)) : option (list (A * R)) :=
  match ws with
  | None => Some (map (fun x => (x, 1)) xs)
  | Some w => if Nat.eqb (List.length xs) (List.length w) then Some (combine xs w) else None
  end.
Definition histogram (e : list R) (xs : list R) (ws : option (list R)) : option (list R) :=
  match weighted xs ws with
  | None => None
  | Some xw => Some (map (fun k => sumr (map (fun p => if in_bin e k (fst p) then snd p else 0) xw)) (seq 0 (List.length e - 1)))
  end.
Definition histogram2d (ex ey : list R) (xs ys : list R) (ws : option (list R)) : option (list (list R)) :=
  if Nat.eqb (List.length xs) (List.length ys) then
    match weighted (combine xs ys) ws with
    | None => None
    | Some xw => Some (map (fun i => map (fun j =>
        sumr (map (fun p => if in_bin ex i (fst (fst p)) && in_bin ey j (snd (fst p)) then snd p else 0) xw)) (seq 0 (List.length ey - 1))) (seq 0 (List.length ex - 1)))
    end
  else None.

(** ** Numbers of bins *)
(** Python's round: to the nearest integer, halves to the even one *)
Definition round_even (v : R) : Z :=
  let f := Int_part v in
  let d := v - IZR f in
  if Rlt_dec d (1 / 2) then f else if Rlt_dec (1 / 2) d then (f + 1)%Z else if Z.even f then f else (f + 1)%Z.
(** twodhist 414-425: bins and the width of the filter; a smoothing of zero raises, a negative one gives a negative number
    of bins, which raises *)
Definition bins2 (s : R) : option (nat * R) :=
  if Rlt_dec 1 s then Some (Z.to_nat (Int_part s), 0)
  else if Rle_dec s 0 then None else Some (Z.to_nat (round_even (2 / s)), 2).

(** ** Density levels, 441-460 *)
(** Hflat[argsort][::-1]: the values in descending order, whatever argsort does with equal ones *)
Definition descending (l : list R) : list R := rev (sort l).
(** sm <= v0, false for every entry when the sum is zero (nan) *)
Definition below (hs : list R) (v0 : R) : list bool :=
  let tot := sumr hs in
  map (fun s => if Req_EM_T tot 0 then false else if Rle_dec (s / tot) v0 then true else false) (cumsum_from 0 hs).
Fixpoint masked {A} (l : list A) (m : list bool) : list A :=
  match l, m with x :: l', b :: m' => if b then x :: masked l' m' else masked l' m' | _, _ => [] end.
(** 448-451; there is always a bin *)
Definition level_value (hs : list R) (v0 : R) : R :=
  match masked hs (below hs v0) with [] => hd 0 hs | m => last m 0 end.
(** 456-458: the first of two equal neighbours made a little smaller, until there are none *)
Definition shrink : R := 1 - 1 / 10000.
Fixpoint untie_step (v : list R) : option (list R) :=
  match v with
  | a :: ((b :: _) as t) => if Req_EM_T a b then Some (a * shrink :: t) else match untie_step t with Some t' => Some (a :: t') | None => None end
  | _ => None
  end.
Fixpoint untie (rounds : nat) (v : list R) : option (list R) :=
  match untie_step v with
  | None => Some v
  | Some v' => match rounds with O => None | S n => untie n v' end
  end.
Definition contour_levels (rounds : nat) (H : list (list R)) (levels : list R) : option (list R) :=
  let hs := descending (concat H) in
  match untie rounds (sort (map (level_value hs) levels)) with Some v => Some (sort v) | None => None end.
(** 391-392: the default levels *)
Definition default_levels : list R := map (fun k => 1 - exp (- (1 / 2) * (INR k / 2) ^ 2)) [1; 2; 3; 4]%nat.

(** ** The padded density, 462-479 *)
Definition centres (e : list R) : list R := map (fun k => 1 / 2 * (nth (k + 1) e 0 + nth k e 0)) (seq 0 (List.length e - 1)).
(** X1[0] + [-2, -1] * diff(X1[:2]), X1, X1[-1] + [1, 2] * diff(X1[-2:]); with one bin the differences are empty and the
    product raises *)
Definition extended (c : list R) : option (list R) :=
  match c with
  | a :: b :: _ =>
    let n := List.length c in
    let d := b - a in
    let l := nth (n - 1) c 0 in
    let d' := l - nth (n - 2) c 0 in
    Some ([a + -2 * d; a + -1 * d] ++ c ++ [l + 1 * d'; l + 2 * d'])
  | _ => None
  end.
Definition at2 (H : list (list R)) (i j : nat) : R := nth j (nth i H []) 0.
Definition minimum (l : list R) : R := match l with [] => 0 | x :: t => fold_left Rmin t x end.
Definition maximum (l : list R) : R := match l with [] => 0 | x :: t => fold_left Rmax t x end.
(** The assignments to H2 in their order, as a function of the two indices *)
Definition inner (n i : nat) : bool := (2 <=? i)%nat && (i <? n + 2)%nat.
Definition padded (H : list (list R)) (nx ny : nat) : nat -> nat -> R :=
  let h0 := fun _ _ : nat => minimum (concat H) in
  let h1 := fun i j => if inner nx i && inner ny j then at2 H (i - 2) (j - 2) else h0 i j in
  let h2 := fun i j => if inner nx i && (j =? 1)%nat then at2 H (i - 2) 0 else h1 i j in
  let h3 := fun i j => if inner nx i && (j =? ny + 2)%nat then at2 H (i - 2) (ny - 1) else h2 i j in
  let h4 := fun i j => if (i =? 1)%nat && inner ny j then at2 H 0 (j - 2) else h3 i j in
  let h5 := fun i j => if (i =? nx + 2)%nat && inner ny j then at2 H (nx - 1) (j - 2) else h4 i j in
  let h6 := fun i j => if (i =? 1)%nat && (j =? 1)%nat then at2 H 0 0 else h5 i j in
  let h7 := fun i j => if (i =? 1)%nat && (j =? ny + 2)%nat then at2 H 0 (ny - 1) else h6 i j in
  let h8 := fun i j => if (i =? nx + 2)%nat && (j =? 1)%nat then at2 H (nx - 1) 0 else h7 i j in
  fun i j => if (i =? nx + 2)%nat && (j =? ny + 2)%nat then at2 H (nx - 1) (ny - 1) else h8 i j.
(** The transposed array: rows of y, columns of x *)
Definition padded_T (H : list (list R)) (nx ny : nat) : list (list R) :=
  map (fun j => map (fun i => padded H nx ny i j) (seq 0 (nx + 4))) (seq 0 (ny + 4)).

Record density := mkDensity { d_x : list R; d_y : list R; d_h : list (list R); d_levels : list R; d_clevels : list R }.
(** twodhist 384-497 *)
Definition twodhist (rounds : nat) (kde2 : R -> R -> list (list R) -> list (list R)) (argsort : list R -> list nat) (default : R)
    (x y : list R) (weights : option (list R)) (span : option (list (R * R + R))) (smooth : R * R) (levels : option (list R)) : option density :=
  match get_spans argsort default span [x; y] weights with
  | Some [px; py] =>
    match bins2 (fst smooth), bins2 (snd smooth) with
    | Some (nx, sx), Some (ny, sy) =>
      let ex := edges px nx in let ey := edges py ny in
      match histogram2d ex ey x y weights with
      | None => None
      | Some H0 =>
        let H := kde2 sx sy H0 in
        match contour_levels rounds H (match levels with None => default_levels | Some l => l end) with
        | None => None
        | Some v =>
          match extended (centres ex), extended (centres ey) with
          | Some x2, Some y2 => Some (mkDensity x2 y2 (padded_T H nx ny) v (0 :: v ++ [maximum (concat H) * (1 + 1 / 10000)]))
          | _, _ => None
          end
        end
      end
    | _, _ => None
    end
  | _ => None
  end.
(** get_cmap 641-648: the opacities of the colours between the levels, of a colour with opacity [alpha] *)
Definition opacities (alpha : R) (nlevels : nat) : list R := map (fun i => alpha * (INR i / INR (nlevels + 1))) (seq 0 (nlevels + 1)).

(** ** marginal 500-530: the edges and heights drawn *)
(** 527-528; [None] for the weights times a number raises *)
Definition scaled_weights (wght : option (list R)) (n : list R) (peak : option R) : option (option (list R)) :=
  match peak with
  | None => Some wght
  | Some p => match wght with None => None | Some w => Some (Some (map (fun v => v * p / maximum n) w)) end
  end.
Definition marginal (kde1 : R -> list R -> list R) (x : list R) (weights : option (list R)) (span : R * R) (smooth : R) (peak : option R) : option (list R * list R) :=
  let setup :=
    if Rlt_dec 1 smooth then Some (x, edges span (Z.to_nat (round_even smooth)), weights)
    else if Rle_dec smooth 0 then None
    else
      let b := edges span (Z.to_nat (round_even (10 / smooth))) in
      match histogram b x weights with
      | None => None
      | Some n => Some (centres b, b, Some (kde1 10 n))
      end in
  match setup with
  | None => None
  | Some (xx, b, wght) =>
    match histogram b xx wght with
    | None => None
    | Some n =>
      match scaled_weights wght n peak with
      | None => None
      | Some w => match histogram b xx w with Some h => Some (b, h) | None => None end
      end
    end
  end.

(** ** Panels, 318-341: what is drawn at row i and column j; the samples are named by their number *)
Inductive drawing := Marginal (k : nat) | Joint (horizontal vertical : nat).
Definition panels (n : nat) (upper : bool) : list (nat * nat * drawing) :=
  flat_map (fun i => (i, i, Marginal i) ::
    flat_map (fun j => if (i <=? j)%nat && negb upper then [] else if (j <=? i)%nat && upper then [] else [(i, j, Joint j i)]) (seq 0 n)) (seq 0 n).
(** scatter 533-548: the points overplotted *)
Definition scattered (n : nat) (upper : bool) : list (nat * nat * drawing) :=
  flat_map (fun i => flat_map (fun j => if ((i <=? j)%nat && negb upper) || ((j <=? i)%nat && upper) then [] else [(i, j, Joint j i)]) (seq 0 n)) (seq 0 n).
(** prettify_axes 203-255: hidden panels, and the labels below and beside the others *)
Definition hidden (upper : bool) (i j : nat) : bool := ((j <? i)%nat && upper) || ((i <? j)%nat && negb upper).
Definition xlabel (labels : list string) (n : nat) (upper : bool) (i j : nat) : option string :=
  if hidden upper i j then None
  else if ((j =? i)%nat && upper) || ((i + 1 =? n)%nat && negb upper) then nth_error labels j else None.
Definition ylabel (labels : list string) (n : nat) (upper : bool) (i j : nat) : option string :=
  if hidden upper i j then None
  else if ((j + 1 =? n)%nat && (i + 1 <? n)%nat && upper) || ((j =? 0)%nat && (0 <? i)%nat && negb upper) then nth_error labels i else None.

(** ** show_extras 128-170: the lines at true values, one value per parameter or None; [ax] is the panel on the diagonal
    throughout *)
Inductive line := Vertical (v : R) | Horizontal (v : R).
Definition truth_lines (n : nat) (truths : list (option R)) : list (nat * nat * line) :=
  let at_ k f := match nth_error truths k with Some (Some t) => [f t] | _ => [] end in
  flat_map (fun i => map (fun l => (i, i, l)) (at_ i Vertical ++ flat_map (fun j => at_ j Vertical ++ at_ i Horizontal) (seq 0 i))) (seq 0 n).
