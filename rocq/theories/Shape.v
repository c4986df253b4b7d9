(** * Shapes and broadcasting: model of matrix/shape.py

    Convention (used in the whole development): a shape is a list of
    dimensions *innermost axis first*, i.e. the reverse of the Python tuple:
    the Python shape [(b1, ..., bk, rows, cols)] is [[:: cols; rows; bk; ...; b1]].
    So Python's axis [-1] is position 0, axis [-2] is position 1, and the left
    padding with ones of [expand_and_broadcast] is a right padding here.
    [PyShape.v] states the functions of matrix/shape.py in Python order and
    proves that both versions agree. *)
From mathcomp Require Import all_ssreflect.
From Verif Require Import Outcome.
Set Implicit Arguments. Unset Strict Implicit. Unset Printing Implicit Defensive.

Definition shape := seq nat.

(** [broadcast(d1: Dimension, d2: Dimension)]: matrix/shape.py:116-120. *)
Definition broadcast_dim (d1 d2 : nat) : outcome nat :=
  if [&& d1 != 1, d2 != 1 & d1 != d2] then Raise RuntimeError
  else ret (if d1 == 1 then d2 else d1).

(** [broadcast(s1: Shape, s2: Shape)]: matrix/shape.py:92-105. *)
Definition broadcast2 (s1 s2 : shape) : outcome shape :=
  if size s1 != size s2 then Raise RuntimeError
  else mapM (fun p => broadcast_dim p.1 p.2) (zip s1 s2).

(** [expand_and_broadcast(s1: Shape, s2: Shape)]: matrix/shape.py:133-150.
    The padding [(1,) * k + s] becomes [s ++ nseq k 1] (reversed shapes). *)
Definition expand_and_broadcast2 (s1 s2 : shape) : outcome shape :=
  if size s1 < size s2 then broadcast2 (s1 ++ nseq (size s2 - size s1) 1) s2
  else if size s2 < size s1 then broadcast2 s1 (s2 ++ nseq (size s1 - size s2) 1)
  else broadcast2 s1 s2.

(** The loop over further shapes: matrix/shape.py:153-158. *)
Fixpoint fold_shapes (op : shape -> shape -> outcome shape)
    (running : shape) (ss : seq shape) : outcome shape :=
  match ss with
  | [::] => ret running
  | s :: ss' => do r <- op running s; fold_shapes op r ss'
  end.

(** [expand_and_broadcast(variadic)]: matrix/shape.py:161-168. *)
Definition expand_and_broadcast (ss : seq shape) : outcome shape :=
  match ss with
  | [::] => Raise ValueError
  | s :: ss' => fold_shapes expand_and_broadcast2 s ss'
  end.

(** [broadcast(variadic)]: matrix/shape.py:108-113, 123-130. *)
Definition broadcast (ss : seq shape) : outcome shape :=
  match ss with
  | [::] => Raise ValueError
  | s :: ss' => fold_shapes broadcast2 s ss'
  end.

(** [compatible(s1, s2)]: matrix/shape.py:56-76 (only [RuntimeError] is caught). *)
Definition compatible (s1 s2 : shape) : outcome bool :=
  match expand_and_broadcast2 s1 s2 with
  | Ret _ _ => ret true
  | RaiseL _ RuntimeError => ret false
  | RaiseL l e => RaiseL l e
  end.

(** [assert_compatible(s1, s2)]: matrix/shape.py:79-89. *)
Definition assert_compatible (s1 s2 : shape) : outcome unit :=
  do c <- compatible s1 s2; require c AssertionError.

(** ** NumPy broadcasting, as a separate specification

    [bc s1 s2] is NumPy's broadcasting rule, [bto s s'] says that [s]
    broadcasts to [s'] and [clamp s idx] is the index into a tensor of shape
    [s] which is read when it is broadcast and then indexed by [idx]. *)
Definition bcd (d1 d2 : nat) : option nat :=
  if d1 == 1 then Some d2 else if d2 == 1 then Some d1
  else if d1 == d2 then Some d1 else None.

Fixpoint bc (s1 s2 : shape) : option shape :=
  match s1, s2 with
  | [::], _ => Some s2
  | _, [::] => Some s1
  | d1 :: s1', d2 :: s2' =>
      match bcd d1 d2, bc s1' s2' with
      | Some d, Some s => Some (d :: s)
      | _, _ => None
      end
  end.

Fixpoint bto (s s' : shape) : bool :=
  match s, s' with
  | [::], _ => true
  | _ :: _, [::] => false
  | d :: t, d' :: t' => ((d == 1) || (d == d')) && bto t t'
  end.

Definition cl (d i : nat) : nat := if d == 1 then 0 else i.

Fixpoint clamp (s : shape) (idx : seq nat) : seq nat :=
  match s with
  | [::] => [::]
  | d :: s' => cl d (head 0 idx) :: clamp s' (behead idx)
  end.

(** [inb s idx]: [idx] is an index of a tensor of shape [s]. *)
Fixpoint inb (s : shape) (idx : seq nat) : bool :=
  match s, idx with
  | [::], [::] => true
  | d :: s', i :: idx' => (i < d) && inb s' idx'
  | _, _ => false
  end.

(** Total versions, for shapes known to broadcast. *)
Definition bct (s1 s2 : shape) : shape := odflt [::] (bc s1 s2).
