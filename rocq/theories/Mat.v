(** * The matrix classes, their constructors and the structural operations

    Model of matrix/matrix.py, constant.py, diagonal.py, triangular.py,
    lowrank.py, woodbury.py, kronecker.py, promote.py and of the operations
    which recurse over the structure only: shape*, dtype, transpose, negative,
    cast, broadcast_batch_to, fill_diag, one(s), zero(s), eye. *)
From mathcomp Require Import all_ssreflect all_algebra.
From Verif Require Import Outcome Shape Tensor.
Set Implicit Arguments. Unset Strict Implicit. Unset Printing Implicit Defensive.
Import GRing.Theory.
Local Open Scope ring_scope.

Section Mats.
Variable F : rcfType.
Notation tensor := (tensor F).

(** One constructor per class; [Nm] is a raw numeric array.  [TiledBlocks] is
    modelled separately in [Tiled.v].  Caching attributes are left out here
    (see [Cache.v]).
    - [Zero d b r c]: matrix/constant.py:11-39 (dtype, batch, rows, cols);
    - [Dense t]: matrix/matrix.py:97-111;
    - [Diag t]: matrix/diagonal.py:15-42;
    - [Const t r c]: matrix/constant.py:56-91 ([batch] always equals the shape of [const]);
    - [LT t], [UT t]: matrix/triangular.py:11-28, 47-64;
    - [LR l r m]: matrix/lowrank.py:11-104, in the order of the constructor
      (left, right, middle); the default right factor (lowrank.py:88-92) and
      the default middle factor (lowrank.py:96-102) are filled in by
      [mk_lowrank];
    - [Wb d l r m]: matrix/woodbury.py:15-43, [Woodbury(Diagonal(d), LowRank(l, r, m))];
    - [Kron l r]: matrix/kronecker.py:10-34. *)
Inductive mat :=
| Nm (t : tensor)
| Zero (d : dtype) (b : shape) (r c : nat)
| Dense (t : tensor)
| Diag (t : tensor)
| Const (t : tensor) (r c : nat)
| LT (t : tensor)
| UT (t : tensor)
| LR (l r m : mat)
| Wb (d : tensor) (l r m : mat)
| Kron (l r : mat).

(** [structured(x)]: matrix/matrix.py:150-187. *)
Definition structured (a : mat) : bool :=
  match a with Nm _ | Dense _ => false | _ => true end.

(** ** Shapes *)

(** [convert(x: Numeric, AbstractMatrix)]: matrix/promote.py:14-22.  Every
    rank-0 tensor is treated as a [B.Number] (NumPy and Python scalars). *)
Definition convert_num (t : tensor) : mat :=
  if sh t is [::] then
    (if tget t [::] == 0 then Zero (dt t) [::] 1 1 else Const t 1 1)
  else Dense (t_uprank t).

(** [shape_batch]: matrix/ops/shape_batch.py:33-70 and
    shape_batch_broadcast.py:11-20. *)
Fixpoint shape_batch (a : mat) : outcome shape :=
  match a with
  | Nm t => ret (drop 2 (sh (t_uprank t)))
  | Zero _ b _ _ => ret b
  | Dense t | LT t | UT t => ret (drop 2 (sh t))
  | Diag t => ret (behead (sh t))
  | Const t _ _ => ret (sh t)
  | LR l r m =>
      do bl <- shape_batch l; do br <- shape_batch r; do bm <- shape_batch m;
      expand_and_broadcast [:: bl; br; bm]
  | Wb d l r m =>
      do bl <- shape_batch l; do br <- shape_batch r; do bm <- shape_batch m;
      do blr <- expand_and_broadcast [:: bl; br; bm];
      expand_and_broadcast [:: behead (sh d); blr]
  | Kron l r =>
      do bl <- shape_batch l; do br <- shape_batch r;
      expand_and_broadcast [:: bl; br]
  end.

(** [shape_matrix] (rows, columns): matrix/ops/shape_matrix.py:34-74. *)
Fixpoint shape_matrix (a : mat) : outcome (nat * nat) :=
  match a with
  | Nm t => let u := t_uprank t in ret (trows u, tcols u)
  | Zero _ _ r c => ret (r, c)
  | Const _ r c => ret (r, c)
  | Dense t | LT t | UT t => ret (trows t, tcols t)
  | Diag t => ret (tcols t, tcols t)
  | LR l r m =>
      do ' (rl, _) <- shape_matrix l; do ' (rr, _) <- shape_matrix r; ret (rl, rr)
  | Wb d l r m =>
      do ' (rl, _) <- shape_matrix l; do ' (rr, _) <- shape_matrix r;
      do s <- broadcast [:: [:: tcols d; tcols d]; [:: rr; rl]];
      ret (nth 0%N s 1, nth 0%N s 0)
  | Kron l r =>
      do ' (lr, lc) <- shape_matrix l; do ' (rr, rc) <- shape_matrix r;
      ret (lr * rr, lc * rc)%N
  end.

(** [shape]: matrix/ops/shape.py:12-14; LAB's [B.shape] on numerics. *)
Definition shape_of (a : mat) : outcome shape :=
  match a with
  | Nm t => ret (sh t)
  | _ => do b <- shape_batch a; do ' (r, c) <- shape_matrix a; ret [:: c, r & b]
  end.

(** [rank]: matrix/ops/rank.py:8-10. *)
Definition rank_of (a : mat) : outcome nat := do s <- shape_of a; ret (size s).

(** [assert_matrix]: matrix/shape.py:29-40, [assert_square]: matrix/shape.py:43-55. *)
Definition assert_matrix (a : mat) : outcome unit :=
  do k <- rank_of a; require (2 <= k)%N AssertionError.
Definition assert_square (a : mat) : outcome unit :=
  do _ <- assert_matrix a; do ' (r, c) <- shape_matrix a; require (r == c) AssertionError.

(** [shape_broadcast], [shape_batch_broadcast], [shape_matrix_broadcast] of two
    elements: matrix/ops/shape_broadcast.py:11-20, shape_batch_broadcast.py,
    shape_matrix_broadcast.py. *)
Definition shape_broadcast2 (a b : mat) : outcome shape :=
  do s <- shape_of a; do s' <- shape_of b; expand_and_broadcast [:: s; s'].
Definition shape_batch_broadcast (xs : seq mat) : outcome shape :=
  do ss <- mapM shape_batch xs; expand_and_broadcast ss.
Definition shape_matrix_broadcast2 (a b : mat) : outcome (nat * nat) :=
  do ' (r, c) <- shape_matrix a; do ' (r', c') <- shape_matrix b;
  do s <- expand_and_broadcast [:: [:: c; r]; [:: c'; r']];
  ret (nth 0%N s 1, nth 0%N s 0).
(** [assert_compatible(B.shape(a), B.shape(b))] *)
Definition assert_shapes_compatible (a b : mat) : outcome unit :=
  do s <- shape_of a; do s' <- shape_of b; assert_compatible s s'.

(** [dtype]: matrix/ops/dtype.py:17-49. *)
Fixpoint mdtype (a : mat) : dtype :=
  match a with
  | Zero d _ _ _ => d
  | Nm t | Dense t | Diag t | Const t _ _ | LT t | UT t => dt t
  | LR l r m => promote (promote (mdtype l) (mdtype r)) (mdtype m)
  | Wb d l r m => promote (dt d) (promote (promote (mdtype l) (mdtype r)) (mdtype m))
  | Kron l r => promote (mdtype l) (mdtype r)
  end.

(** ** Constructors *)

(** [Dense(t)] for a numeric argument: matrix/matrix.py:109-111. *)
Definition mk_dense (t : tensor) : mat := Dense (t_uprank t).
(** [Diagonal(t)]: matrix/diagonal.py:28-37 with matrix/shape.py:16-26. *)
Definition mk_diag (t : tensor) : outcome mat :=
  do _ <- require (1 <= trank t)%N AssertionError; ret (Diag t).
(** [LowerTriangular(t)], [UpperTriangular(t)] for a numeric argument:
    matrix/triangular.py:21-27, 57-63. *)
Definition mk_lt (t : tensor) : outcome mat :=
  do _ <- require (2 <= trank t)%N AssertionError; ret (LT t).
Definition mk_ut (t : tensor) : outcome mat :=
  do _ <- require (2 <= trank t)%N AssertionError; ret (UT t).
(** [Zero(dtype, *shape)]: matrix/constant.py:31-39. *)
Definition mk_zero (d : dtype) (s : shape) : outcome mat :=
  match s with
  | c :: r :: b => ret (Zero d b r c)
  | _ => Raise ValueError
  end.
(** [Constant(t, *shape)]: matrix/constant.py:75-91. *)
Definition mk_const (t : tensor) (s : shape) : outcome mat :=
  match s with
  | [:: c; r] => ret (Const t r c)
  | c :: r :: b =>
      do b' <- expand_and_broadcast [:: sh t; b];
      do t' <- t_broadcast_to t b'; ret (Const t' r c)
  | _ => Raise ValueError
  end.

(** [fill_diag(t, n)]: matrix/ops/fill_diag.py:9-18. *)
Definition fill_diag (t : tensor) (n : nat) : outcome mat :=
  do d <- t_mul (t_expand1 t) (t_ones (dt t) (n :: sh t)); mk_diag d.
(** [B.one(a)], [B.zero(a)]: matrix/ops/one.py, zero.py. *)
Definition one_of (a : mat) : tensor := t_scalar (mdtype a) 1.
Definition zero_of (a : mat) : tensor := t_scalar (mdtype a) 0.

(** [LowRank(left, right, middle)]: matrix/lowrank.py:36-84, with the default
    factors of lines 86-102. *)
Definition mk_lowrank (l : mat) (r m : option mat) : outcome mat :=
  do _ <- assert_matrix l;
  do ' (_, lc) <- shape_matrix l;
  do _ <- (match m with
           | None => ret tt
           | Some m => do _ <- assert_matrix m; do ' (mr, _) <- shape_matrix m;
                       require (lc == mr) AssertionError
           end);
  do _ <- (match r with
           | None => ret tt
           | Some r =>
               do _ <- assert_matrix r; do ' (_, rc) <- shape_matrix r;
               match m with
               | Some m => do ' (_, mc) <- shape_matrix m; require (rc == mc) AssertionError
               | None => require (rc == lc) AssertionError
               end
           end);
  do m' <- (match m with Some m => ret m | None => fill_diag (one_of l) lc end);
  ret (LR l (if r is Some r then r else l) m').

(** [Woodbury(diag, lr)]: matrix/woodbury.py:36-43. *)
Definition mk_woodbury (d lr : mat) : outcome mat :=
  match d, lr with
  | Diag t, LR l r m => do _ <- assert_shapes_compatible d lr; ret (Wb t l r m)
  | _, _ => Raise NotFoundLookup
  end.
(** [a.diag], [a.lr] of a Woodbury matrix. *)
Definition wb_diag (d : tensor) : mat := Diag d.
Definition wb_lr (l r m : mat) : mat := LR l r m.

(** [convert(a: Constant, LowRank)]: matrix/promote.py:25-33. *)
Definition const_to_lowrank (t : tensor) (r c : nat) : outcome mat :=
  do middle <- fill_diag t 1;
  if r == c then mk_lowrank (Nm (t_ones (dt t) [:: 1%N; r])) None (Some middle)
  else mk_lowrank (Nm (t_ones (dt t) [:: 1%N; r])) (Some (Nm (t_ones (dt t) [:: 1%N; c])))
                  (Some middle).

(** ** Structural operations *)

(** [transpose]: matrix/ops/transpose.py:16-58. *)
Fixpoint transpose (a : mat) : outcome mat :=
  match a with
  | Nm t => do u <- t_transpose t; ret (Nm u)
  | Zero d b r c => ret (Zero d b c r)
  | Dense t => do u <- t_transpose t; ret (mk_dense u)
  | Diag t => ret (Diag t)
  | Const t r c => mk_const t [:: r, c & sh t]
  | LT t => do u <- t_transpose t; mk_ut u
  | UT t => do u <- t_transpose t; mk_lt u
  | LR l r m => do m' <- transpose m; mk_lowrank r (Some l) (Some m')
  | Wb d l r m =>
      do m' <- transpose m; do lr <- mk_lowrank r (Some l) (Some m');
      mk_woodbury (Diag d) lr
  | Kron l r => do l' <- transpose l; do r' <- transpose r; ret (Kron l' r')
  end.

(** [negative]: matrix/ops/negative.py:14-56. *)
Fixpoint negative (a : mat) : outcome mat :=
  match a with
  | Nm t => ret (Nm (t_map -%R t))
  | Zero d b r c => ret (Zero d b r c)
  | Dense t => ret (mk_dense (t_map -%R t))
  | Diag t => mk_diag (t_map -%R t)
  | Const t r c => mk_const (t_map -%R t) [:: c; r]
  | LT t => mk_lt (t_map -%R t)
  | UT t => mk_ut (t_map -%R t)
  | LR l r m => do m' <- negative m; mk_lowrank l (Some r) (Some m')
  | Wb d l r m =>
      do d' <- mk_diag (t_map -%R d);
      do m' <- negative m; do lr <- mk_lowrank l (Some r) (Some m');
      mk_woodbury d' lr
  | Kron l r => do l' <- negative l; ret (Kron l' r)
  end.

(** [B.cast(dtype, t)] on numerics: only the data type changes (the rounding
    of a cast is not modelled). *)
Definition t_cast (d : dtype) (t : tensor) : tensor := Tensor d (sh t) (tget t).

(** [cast]: matrix/ops/cast.py:15-61. *)
Fixpoint cast (d : dtype) (a : mat) : outcome mat :=
  match a with
  | Nm t => ret (Nm (t_cast d t))
  | Zero _ b r c => ret (Zero d b r c)
  | Dense t => ret (mk_dense (t_cast d t))
  | LT t => mk_lt (t_cast d t)
  | UT t => mk_ut (t_cast d t)
  | Diag t => mk_diag (t_cast d t)
  | Const t r c => mk_const (t_cast d t) [:: c, r & sh t]
  | LR l r m =>
      do l' <- cast d l; do r' <- cast d r; do m' <- cast d m;
      mk_lowrank l' (Some r') (Some m')
  | Wb dg l r m =>
      do dg' <- mk_diag (t_cast d dg);
      do l' <- cast d l; do r' <- cast d r; do m' <- cast d m;
      do lr <- mk_lowrank l' (Some r') (Some m');
      mk_woodbury dg' lr
  | Kron l r => do l' <- cast d l; do r' <- cast d r; ret (Kron l' r')
  end.

(** [broadcast_batch_to] on numerics: matrix/ops/broadcast_batch_to.py:18-29.
    [B.shape(a, -2, -1)] raises on tensors of rank below two. *)
Definition t_broadcast_batch_to (t : tensor) (b : shape) : outcome tensor :=
  match sh t with
  | c :: r :: _ => t_broadcast_to t [:: c, r & b]
  | _ => Raise IndexError
  end.

(** [broadcast_batch_to]: matrix/ops/broadcast_batch_to.py:18-84. *)
Fixpoint broadcast_batch_to (a : mat) (b : shape) : outcome mat :=
  match a with
  | Nm t => do u <- t_broadcast_batch_to t b; ret (Nm u)
  | Zero d _ r c => ret (Zero d b r c)
  | Dense t => do u <- t_broadcast_batch_to t b; ret (mk_dense u)
  | Const t r c => do u <- t_broadcast_to t b; mk_const u [:: c; r]
  | Diag t => do u <- t_broadcast_to t (tcols t :: b); mk_diag u
  | LT t => do u <- t_broadcast_batch_to t b; mk_lt u
  | UT t => do u <- t_broadcast_batch_to t b; mk_ut u
  | LR l r m =>
      do l' <- broadcast_batch_to l b; do r' <- broadcast_batch_to r b;
      do m' <- broadcast_batch_to m b; mk_lowrank l' (Some r') (Some m')
  | Wb d l r m =>
      do u <- t_broadcast_to d (tcols d :: b); do d' <- mk_diag u;
      do l' <- broadcast_batch_to l b; do r' <- broadcast_batch_to r b;
      do m' <- broadcast_batch_to m b; do lr <- mk_lowrank l' (Some r') (Some m');
      mk_woodbury d' lr
  | Kron l r =>
      do l' <- broadcast_batch_to l b; do r' <- broadcast_batch_to r b;
      ret (Kron l' r')
  end.

(** [align_batch] of matrices: matrix/ops/util.py:13-26. *)
Definition align_batch (xs : seq mat) : outcome (seq mat) :=
  do b <- shape_batch_broadcast xs; mapM (fun x => broadcast_batch_to x b) xs.

(** [zeros], [ones], [eye] of a matrix: matrix/ops/zeros.py:8-11, ones.py:8-11,
    eye.py:9-12. *)
Definition zeros_of (a : mat) : outcome mat := do s <- shape_of a; mk_zero (mdtype a) s.
Definition ones_of (a : mat) : outcome mat := do s <- shape_of a; mk_const (one_of a) s.
Definition eye_of (a : mat) : outcome mat :=
  do _ <- assert_square a; do ' (r, _) <- shape_matrix a; fill_diag (one_of a) r.
(** [uprank(a, rank)]: matrix/ops/uprank.py:8-12. *)
Definition uprank_of (a : mat) (rank : nat) : outcome mat :=
  do _ <- require (rank == 2)%N ValueError; ret a.

End Mats.
Arguments Zero {F}. Arguments mk_zero {F}.
