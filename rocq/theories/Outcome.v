(** * Outcomes of a call: values, exceptions, warnings

    A Python call of the library either returns a value or raises.  We model
    a call as a value of type [outcome A].  Beside the value or exception, a call
    carries a log with two flags:

    - [lw]: a [ToDenseWarning] has been emitted ([warn_upmodule(...,
      category=ToDenseWarning)], e.g. matrix/ops/add.py:51-53);
    - [lx]: *ghost* flag, not part of the program: during the call the
      approximate column matching of matrix/ops/algorithms/align.py:28-29 (or
      the approximate zero test of matrix/ops/add.py:192) identified values
      which are not exactly equal.  The program never reads it.  Theorems use
      it to separate exact from inexact evaluations. *)
From mathcomp Require Import all_ssreflect.
Set Implicit Arguments. Unset Strict Implicit. Unset Printing Implicit Defensive.

(** The exceptions which the modelled code can raise. *)
Inductive exn :=
| AssertionError   (* e.g. matrix/shape.py:18-53, matrix/ops/matmul.py:35-37 *)
| RuntimeError     (* matrix/shape.py:104,119 *)
| ValueError       (* matrix/constant.py:32, NumPy broadcasting errors *)
| IndexError       (* NumPy indexing out of range *)
| NotFoundLookup   (* plum: no method for these types *)
| AmbiguousLookup  (* plum: no unique most specific method *)
| AttributeError   (* unreachable in the model: a method body applied to the wrong type *)
| LinAlgError      (* a factorisation or inversion failed *)
| RecursionError.  (* recursion deeper than the allotted fuel *)

Record log := Log { lw : bool; lx : bool }.
Definition log0 := Log false false.
Definition ljoin (l1 l2 : log) := Log (lw l1 || lw l2) (lx l1 || lx l2).
Definition exact (l : log) : bool := ~~ lx l.

Inductive outcome (A : Type) :=
| Ret (l : log) (a : A)
| RaiseL (l : log) (e : exn).
Arguments RaiseL {A} l e.
Notation Raise e := (RaiseL log0 e).

Definition ret A (a : A) : outcome A := Ret log0 a.

Definition bind A B (m : outcome A) (f : A -> outcome B) : outcome B :=
  match m with
  | RaiseL l e => RaiseL l e
  | Ret l a =>
      match f a with
      | RaiseL l' e => RaiseL (ljoin l l') e
      | Ret l' b => Ret (ljoin l l') b
      end
  end.

Notation "'do' x <- m ; k" := (bind m (fun x => k))
  (at level 200, x name, m at level 100, k at level 200, right associativity).
Notation "'do' ' p <- m ; k" := (bind m (fun x => let: p := x in k))
  (at level 200, p strict pattern, m at level 100, k at level 200, right associativity).

(** Emit a [ToDenseWarning] if [b]. *)
Definition warn_if (b : bool) : outcome unit := Ret (Log b false) tt.
Definition warn : outcome unit := warn_if true.
(** Ghost: record whether an approximate comparison was inexact. *)
Definition mark_inexact (b : bool) : outcome unit := Ret (Log false b) tt.
(** [if not b: raise e] *)
Definition require (b : bool) (e : exn) : outcome unit :=
  if b then ret tt else Raise e.

Fixpoint mapM A B (f : A -> outcome B) (s : seq A) : outcome (seq B) :=
  match s with
  | [::] => ret [::]
  | x :: s' => do y <- f x; do ys <- mapM f s'; ret (y :: ys)
  end.

(** Hoare triple: a call in which all approximate comparisons were exact
    either runs out of fuel or returns a value satisfying [P]; it raises
    nothing else. *)
Definition hoare A (m : outcome A) (P : A -> Prop) : Prop :=
  match m with
  | Ret l a => exact l -> P a
  | RaiseL l e => exact l -> e = RecursionError
  end.

(** Partial triple: whatever is returned satisfies [P]; any exception is allowed. *)
Definition phoare A (m : outcome A) (P : A -> Prop) : Prop :=
  match m with
  | Ret l a => exact l -> P a
  | RaiseL _ _ => True
  end.
