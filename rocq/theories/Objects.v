(** * The methods of the class [AbstractMatrix] and the remaining functions

    matrix/matrix.py:18-89, matrix/ops/isabstract.py, isnan.py, to_numpy.py. *)
From mathcomp Require Import all_ssreflect all_algebra.
From Verif Require Import Outcome Shape Tensor Mat Dispatch Ops Ops2.
Set Implicit Arguments. Unset Strict Implicit. Unset Printing Implicit Defensive.
Import GRing.Theory.
Local Open Scope ring_scope.

Inductive binop := OpAdd | OpSub | OpMul | OpDiv | OpMatmul.

Section Objects.
Variable F : rcfType.
Notation tensor := (tensor F).
Notation mat := (mat F).
Variable o : ops F.

(** Is this an instance of [AbstractMatrix]? *)
Definition isobj (a : mat) : bool := if a is Nm _ then false else true.

(** [__add__] 21-22, [__sub__] 27-28, [__mul__] 33-34, [__truediv__] 39-40, [__matmul__] 50-51. *)
Definition method (k : binop) (self other : mat) : outcome mat :=
  match k with
  | OpAdd => o_add o self other
  | OpSub => subtract o self other
  | OpMul => o_mul o self other
  | OpDiv => divide o self other
  | OpMatmul => o_matmul o self other false false
  end.
(** [__radd__] 24-25, [__rsub__] 30-31, [__rmul__] 36-37, [__rtruediv__] 42-43, [__rmatmul__] 53-54. *)
Definition rmethod (k : binop) (self other : mat) : outcome mat :=
  match k with
  | OpAdd => o_add o other self
  | OpSub => subtract o other self
  | OpMul => o_mul o other self
  | OpDiv => divide o other self
  | OpMatmul => o_matmul o other self false false
  end.
(** Python's evaluation of [x op y]: the method of [x] if it has one, and otherwise the reflected method of [y].
    A Python number has no method that accepts a matrix; for a NumPy array as [x], NumPy's own operator decides
    first, which is not modelled.  Neither is arithmetic on two numerics (the first case of the last line). *)
Definition py_binop (k : binop) (x y : mat) : outcome mat :=
  if isobj x then method k x y else if isobj y then rmethod k y x else Raise AttributeError.

(** [__neg__] 18-19; [T] 64-66; [diagonal] 89-90; [squeeze] 76-77; [reshape] 79-85; [flatten] 87-88. *)
Definition m_neg (a : mat) : outcome mat := negative a.
Definition m_T (a : mat) : outcome mat := transpose a.
Definition m_diagonal (a : mat) : outcome tensor := o_diag o a.
Definition m_squeeze (a : mat) : outcome tensor := squeeze_op o a.
(** A dimension [None] is [-1]. *)
Definition m_reshape (a : mat) (ds : seq (option nat)) : outcome tensor := reshape_op o a ds.
Definition m_flatten (a : mat) : outcome tensor := m_reshape a [:: None].
(** [__pow__] 45-48: [modulo] is given or not. *)
Definition m_pow (a : mat) (n : nat) (modulo : bool) : outcome mat :=
  do _ <- require (~~ modulo) AssertionError; power_op o n a.

(** [__getitem__] 56-61.  [index] is what indexing with the given item does to an array. *)
Definition m_getitem (index : tensor -> outcome tensor) (a : mat) : outcome tensor :=
  do _ <- warn_if (structured a); do t <- o_dense o a; index t.

(** isnan.py:11-17; [nan] is the backend's test of one entry, the result is an array of truth values. *)
Definition isnan_op (nan : F -> bool) (a : mat) : outcome tensor :=
  do _ <- warn_if (structured a); do t <- o_dense o a; ret (t_map (fun x => (nan x)%:R) t).
(** to_numpy.py:8-10; an array of the NumPy backend is returned as it is. *)
Definition to_numpy_op (a : mat) : outcome tensor := o_dense o a.

(** isabstract.py:14-48.  [abst] is the backend's test of one array. *)
Fixpoint isabstract (abst : tensor -> bool) (a : mat) : bool :=
  match a with
  | Nm t | Dense t | LT t | UT t => abst t
  | Diag t => abst t
  | Zero _ _ _ _ => false
  | Const t _ _ => abst t
  | LR l r m => [|| isabstract abst l, isabstract abst m | isabstract abst r]
  | Wb d l r m => abst d || [|| isabstract abst l, isabstract abst m | isabstract abst r]
  | Kron l r => isabstract abst l || isabstract abst r
  end.
End Objects.
