(** Covariance blocks: /repo/forcepho/superscene.py SuperScene.bounds_and_covs 351-360 and
    the update of the covariance matrices in checkin_region 328-335,
    /repo/forcepho/utils/__init__.py extract_block_diag 51-81, and
    scipy.linalg.block_diag as documented.

    Simplifications: a matrix is a list of rows over an abstract number type with a
    zero; strides are counted in elements; arrays are C-contiguous, as np.array(...)
    makes them (fitting.py 121-123). *)
From Verif Require Import Np StoreModel.
From Coq Require Import ZArith.

Section Blocks.
Context {A : Type} (zero : A).
Definition matrix := list (list A).
Definition zeros (r c : nat) : matrix := repeat (repeat zero c) r.
(** out[r:r+h, c:c+w] = blk *)
Definition assign (out : matrix) (r c : nat) (blk : matrix) : matrix :=
  map (fun irow => map (fun jx => match (if (r <=? fst irow) && (c <=? fst jx) then get2 blk (fst irow - r) (fst jx - c) else None) with Some v => v | None => snd jx end)
                       (combine (seq 0 (List.length (snd irow))) (snd irow)))
      (combine (seq 0 (List.length out)) out).
Definition n_rows (m : matrix) : nat := List.length m.
Definition n_cols (m : matrix) : nat := match m with [] => 0 | r :: _ => List.length r end.
(** scipy.linalg.block_diag: zeros, then each block below and right of the one before *)
Fixpoint fill_blocks (out : matrix) (r c : nat) (blocks : list matrix) : matrix :=
  match blocks with
  | [] => out
  | b :: t => fill_blocks (assign out r c b) (r + n_rows b) (c + n_cols b) t
  end.
Definition block_diag (blocks : list matrix) : matrix :=
  fill_blocks (zeros (list_sum (map n_rows blocks)) (list_sum (map n_cols blocks))) 0 0 blocks.

(** as_strided(a, (nb, n, n), (s, s0, s1)) from element [off] of the buffer; [None] for a
    read beyond it *)
Definition strided (buf : list A) (off nb n s s0 s1 : nat) : option (list matrix) :=
  mapM (fun b => mapM (fun i => mapM (fun j => nth_error buf (off + b * s + i * s0 + j * s1)) (seq 0 n)) (seq 0 n)) (seq 0 nb).
(** extract_block_diag 51-81; [None]: ValueError for n = 0 *)
Definition extract_block_diag (a : matrix) (n : nat) (k : Z) : option (list matrix) :=
  if n =? 0 then None else
  let buf := List.concat a in
  let s0 := n_cols a in
  let '(off, h, w) := if (0 <? k)%Z then (n * Z.to_nat k, n_rows a, n_cols a - n * Z.to_nat k)
                      else (n * Z.to_nat (- k) * s0, n_rows a - n * Z.to_nat (- k), n_cols a) in
  strided buf off (Nat.min (h / n) (w / n)) n (n * s0 + n * 1) s0 1.

(** bounds_and_covs 354-356 *)
Definition covs_of (covariance_matrices : list matrix) (sourceIDs : list nat) : option matrix :=
  option_map block_diag (fancy_get covariance_matrices sourceIDs).
(** checkin_region 328-335 *)
Definition update_covs (covariance_matrices : list matrix) (active_inds : list nat) (block_covs : list matrix) : list matrix :=
  fancy_put covariance_matrices active_inds block_covs.
End Blocks.
