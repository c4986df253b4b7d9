(** * Specification: matrices as elements of the matrix algebra

    Like Spec.v, this file is a reference for reading theorems and does not use the operations of the model.
    [mxof n m a be] is the [n] x [m] matrix (mathcomp's ['M_(n, m)]) which the object [a] stands for at the batch
    index [be]. *)
From mathcomp Require Import all_ssreflect all_algebra.
From Verif Require Import Outcome Shape Tensor Mat Spec.
Set Implicit Arguments. Unset Strict Implicit. Unset Printing Implicit Defensive.
Import GRing.Theory Num.Theory.
Local Open Scope ring_scope.

Section SpecLA.
Variable F : rcfType.
Notation mat := (mat F).

Definition mxof n m (a : mat) (be : seq nat) : 'M[F]_(n, m) := \matrix_(i, j) ent a be i j.
(** [c] is a well-formed object which stands for the batch [X] of [n] x [m] matrices. *)
Definition is_mx (c : mat) n m (b : shape) (X : seq nat -> 'M[F]_(n, m)) : Prop :=
  [/\ wf c, mrows c = n /\ mcols c = m, mbatch c = b & forall be, okb b be -> mxof n m c be = X be].

(** Quadratic forms, symmetric, positive-definite and positive-semidefinite matrices. *)
Definition qf n (A : 'M[F]_n) (v : 'cV[F]_n) : F := (v^T *m A *m v) 0 0.
Definition sym n (A : 'M[F]_n) : Prop := A^T = A.
Definition pd n (A : 'M[F]_n) : Prop := sym A /\ forall v, v != 0 -> 0 < qf A v.
Definition psd n (A : 'M[F]_n) : Prop := sym A /\ forall v, 0 <= qf A v.
End SpecLA.

(** Nesting depth of an object. *)
Fixpoint mdepth F (a : mat F) : nat :=
  match a with
  | LR l r m | Wb _ l r m => (maxn (maxn (mdepth l) (mdepth r)) (mdepth m)).+1
  | Kron l r => (maxn (mdepth l) (mdepth r)).+1
  | _ => 0
  end.
