(** * Block matrices: matrix/ops/block.py, matrix/ops/block_diag.py

    [o] is the record of core operations.  The variant of [block_diag] for tiled blocks is in Tiled.v. *)
From mathcomp Require Import all_ssreflect all_algebra.
From Verif Require Import Outcome Shape Tensor Mat Dispatch Ops Ops2.
Set Implicit Arguments. Unset Strict Implicit. Unset Printing Implicit Defensive.
Import GRing.Theory Num.Theory.
Local Open Scope ring_scope.

Section Block.
Variable F : rcfType.
Notation tensor := (tensor F).
Notation mat := (mat F).
Variable o : ops F.

(** [isinstance(x, Zero)], [isinstance(x, Diagonal)], [isinstance(x, B.Numeric)] *)
Definition iszero (a : mat) : bool := if a is Zero _ _ _ _ then true else false.
Definition isdiag (a : mat) : bool := if a is Diag _ then true else false.
Definition isnum (a : mat) : bool := if a is Nm _ then true else false.
(** [B.shape_matrix(x, 0)], [B.shape_matrix(x, 1)] *)
Definition rows_of (a : mat) : outcome nat := do ' (r, _) <- shape_matrix a; ret r.
Definition cols_of (a : mat) : outcome nat := do ' (_, c) <- shape_matrix a; ret c.

(** [align_batch] of lists of matrices: matrix/ops/util.py:29-40. *)
Definition align_batch_rows (rows : seq (seq mat)) : outcome (seq (seq mat)) :=
  do b <- shape_batch_broadcast (flatten rows); mapM (mapM (fun x => broadcast_batch_to x b)) rows.

(** [_attempt_zero]: block.py:54-64. *)
Definition attempt_zero (rows : seq (seq mat)) : outcome (option mat) :=
  if all (all iszero) rows then
    match rows with
    | (x :: row) :: _ =>
        do b <- shape_batch_broadcast (flatten rows);
        do hs <- mapM (fun r => if r is y :: _ then rows_of y else Raise IndexError) rows;
        do ws <- mapM cols_of (x :: row);
        ret (Some (Zero (mdtype x) b (sumn hs) (sumn ws)))
    | _ => Raise IndexError
    end
  else ret None.

(** The double loop of [_attempt_diagonal]: block.py:77-96; [false] is [return None]. *)
Fixpoint check_row (r c : nat) (row : seq mat) : outcome bool :=
  match row with
  | [::] => ret true
  | x :: row' =>
      do ' (h, w) <- shape_matrix x;
      if (if r == c then (isdiag x || iszero x) && (h == w) else iszero x)
      then check_row r c.+1 row' else ret false
  end.
Fixpoint check_rows (r : nat) (rows : seq (seq mat)) : outcome bool :=
  match rows with
  | [::] => ret true
  | row :: rows' => do k <- check_row r 0 row; if k then check_rows r.+1 rows' else ret false
  end.
(** [diagonal_blocks]: block.py:76-83. *)
Fixpoint diag_blocks (r : nat) (rows : seq (seq mat)) : seq mat :=
  match rows with
  | [::] => [::]
  | row :: rows' => nth (Nm (t_scalar DInt 0)) row r :: diag_blocks r.+1 rows'
  end.
(** [_attempt_diagonal]: block.py:67-101. *)
Definition attempt_diagonal (rows0 : seq (seq mat)) : outcome (option mat) :=
  do rows <- align_batch_rows rows0;
  if all (fun row => size row == size rows) rows then
    do k <- check_rows 0 rows;
    if k then
      do b <- shape_batch_broadcast (flatten rows);
      do ds <- mapM (fun x => broadcast_batch_to x b) (diag_blocks 0 rows);
      do ts <- mapM (o_diag o) ds;
      do t <- t_concat ts ax1; do d <- mk_diag t; ret (Some d)
    else ret None
  else ret None.

(** [B.concat2d]: LAB concatenates every row along the last axis, then the rows along the second last. *)
Definition t_concat2d (rows : seq (seq tensor)) : outcome tensor :=
  do rs <- mapM (fun row => t_concat row ax1) rows; t_concat rs ax2.

(** [block]: block.py:13-51. *)
Definition block (rows : seq (seq mat)) : outcome mat :=
  if rows is [:: [:: x]] then ret x
  else
    do z <- attempt_zero rows;
    if z is Some c then ret c
    else
      do d <- attempt_diagonal rows;
      if d is Some c then ret c
      else
        do _ <- warn_if true;
        do rows' <- align_batch_rows rows;
        do ts <- mapM (mapM (o_dense o)) rows';
        do t <- t_concat2d ts; ret (mk_dense t).

(** Iteration over a numeric array (its outermost axis, the last one of the reversed shape). *)
Definition t_iter (t : tensor) : outcome (seq tensor) :=
  match rev (sh t) with
  | [::] => Raise ValueError (* the code raises TypeError *)
  | d :: s => ret [seq Tensor (dt t) (rev s) (fun idx => tget t (rcons idx k)) | k <- iota 0 d]
  end.
(** [align_batch] of numeric arrays as [block_diag] uses it: [B.squeeze] of a list with one element returns the
    element, which is then iterated over (util.py:13-26, block_diag.py:28, 31-33). *)
Definition aligned (ts : seq tensor) : outcome (seq tensor) :=
  do xs <- align_batch (map (@Nm F) ts);
  let us := pmap (fun x : mat => if x is Nm u then Some u else None) xs in
  if us is [:: u] then t_iter u else ret us.
(** The loop: block_diag.py:36-49. *)
Fixpoint bd_rows (d : dtype) (b : shape) (tc built : nat) (es : seq (tensor * (nat * nat))) : outcome (seq tensor) :=
  match es with
  | [::] => ret [::]
  | (e, (h, w)) :: es' =>
      do row <- t_concat [:: t_zeros d [:: built, h & b]; e; t_zeros d [:: tc - built - w, h & b]%N] ax1;
      do rows <- bd_rows d b tc (built + w)%N es';
      ret (row :: rows)
  end.
(** [block_diag] of numeric arrays: block_diag.py:15-50. *)
Definition t_block_diag (ts : seq tensor) : outcome tensor :=
  do es <- aligned ts;
  do shapes <- mapM (fun e => shape_matrix (Nm e)) es;
  match es with
  | [::] => Raise IndexError
  | e0 :: _ =>
      do b <- shape_batch (Nm e0);
      do rows <- bd_rows (dt e0) b (sumn (map snd shapes)) 0 (zip es shapes);
      t_concat rows ax2
  end.
(** [_attempt_zero]: block_diag.py:87-95; [B.shape(block, -2)] is the number of rows. *)
Definition bd_attempt_zero (blocks : seq mat) : outcome (option mat) :=
  if all iszero blocks then
    match blocks with
    | x :: _ =>
        do b <- shape_batch_broadcast blocks;
        do hs <- mapM rows_of blocks; do ws <- mapM cols_of blocks;
        ret (Some (Zero (mdtype x) b (sumn hs) (sumn ws)))
    | _ => Raise IndexError
    end
  else ret None.
(** [_attempt_diagonal]: block_diag.py:98-104 (called with at least two blocks). *)
Definition bd_attempt_diagonal (blocks : seq mat) : outcome (option mat) :=
  if all isdiag blocks then
    do xs <- align_batch blocks; do ts <- mapM (o_diag o) xs;
    do t <- t_concat ts ax1; do d <- mk_diag t; ret (Some d)
  else ret None.
(** [block_diag]: block_diag.py:15-50 if all arguments are numeric, block_diag.py:56-84 otherwise. *)
Definition block_diag (blocks : seq mat) : outcome mat :=
  if all isnum blocks then
    do t <- t_block_diag (pmap (fun x : mat => if x is Nm u then Some u else None) blocks); ret (Nm t)
  else if blocks is [:: x] then ret x
  else
    do z <- bd_attempt_zero blocks;
    if z is Some c then ret c
    else
      do d <- bd_attempt_diagonal blocks;
      if d is Some c then ret c
      else
        do _ <- warn_if true;
        do ts <- mapM (o_dense o) blocks;
        do t <- t_block_diag ts; ret (mk_dense t).
End Block.
