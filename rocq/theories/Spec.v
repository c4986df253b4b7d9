(** * Specification: what a matrix object means

    This file is the reference for reading the theorems.  It does not use the
    operations of the model (Ops.v), only the data types.  [mrows], [mcols],
    [mbatch] and [ent] say which (batch of) mathematical matrices an object
    stands for; [wf] says which objects are well formed. *)
From mathcomp Require Import all_ssreflect all_algebra.
From Verif Require Import Outcome Shape Tensor Mat.
Set Implicit Arguments. Unset Strict Implicit. Unset Printing Implicit Defensive.
Import GRing.Theory.
Local Open Scope ring_scope.

(** Two shapes are broadcast-compatible (NumPy). *)
Definition bcok (s1 s2 : shape) : bool := isSome (bc s1 s2).
(** Broadcast of two dimensions (when compatible). *)
Definition bcn (d1 d2 : nat) : nat := if d1 == 1%N then d2 else d1.
Definition bcnok (d1 d2 : nat) : bool := [|| d1 == 1%N, d2 == 1%N | d1 == d2].
(** [be] can be read as an index into a batch of shape [s] (with broadcasting). *)
Definition okb (s : shape) (be : seq nat) : bool := inb s (clamp s be).
(** No empty axis. *)
Definition posn (s : shape) : bool := all (fun d => 0 < d)%N s.

Section Spec.
Variable F : rcfType.
Notation tensor := (tensor F).
Notation mat := (mat F).

(** Numbers of rows and columns and batch shape of the matrix an object
    stands for.  A numeric vector is a column, a scalar is a 1x1 matrix. *)
Fixpoint mrows (a : mat) : nat :=
  match a with
  | Nm t => trows (t_uprank t)
  | Zero _ _ r _ | Const _ r _ => r
  | Dense t | LT t | UT t => trows t
  | Diag t => tcols t
  | LR l _ _ => mrows l
  | Wb d _ _ _ => tcols d
  | Kron l r => (mrows l * mrows r)%N
  end.
Fixpoint mcols (a : mat) : nat :=
  match a with
  | Nm t => tcols (t_uprank t)
  | Zero _ _ _ c | Const _ _ c => c
  | Dense t | LT t | UT t => tcols t
  | Diag t => tcols t
  | LR _ r _ => mrows r
  | Wb d _ _ _ => tcols d
  | Kron l r => (mcols l * mcols r)%N
  end.
Fixpoint mbatch (a : mat) : shape :=
  match a with
  | Nm t => tbatch (t_uprank t)
  | Zero _ b _ _ => b
  | Dense t | LT t | UT t => tbatch t
  | Diag t => behead (sh t)
  | Const t _ _ => sh t
  | LR l r m => bct (bct (mbatch l) (mbatch r)) (mbatch m)
  | Wb d l r m => bct (behead (sh d)) (bct (bct (mbatch l) (mbatch r)) (mbatch m))
  | Kron l r => bct (mbatch l) (mbatch r)
  end.
(** The full shape, innermost axis first. *)
Definition mshape (a : mat) : shape := [:: mcols a, mrows a & mbatch a].

(** Entry (i, j) of the matrix at batch index [be]. *)
Fixpoint ent (a : mat) (be : seq nat) (i j : nat) : F :=
  match a with
  | Nm t => mx (t_uprank t) be i j
  | Zero _ _ _ _ => 0
  | Dense t | LT t | UT t => mx t be i j
  | Diag t => if i == j then vx t be i else 0
  | Const t _ _ => sx t be
  | LR l r m =>
      sumf (mcols l) (fun p => sumf (mcols r) (fun q => ent l be i p * ent m be p q * ent r be j q))
  | Wb d l r m =>
      (if i == j then vx d be i else 0) +
      sumf (mcols l) (fun p => sumf (mcols r) (fun q => ent l be i p * ent m be p q * ent r be j q))
  | Kron l r =>
      ent l be (i %/ mrows r) (j %/ mcols r) * ent r be (i %% mrows r) (j %% mcols r)
  end.
(** Entry read after broadcasting the matrix to a larger shape: an axis of
    length one is read at 0. *)
Definition entb (a : mat) (be : seq nat) (i j : nat) : F :=
  ent a be (cl (mrows a) i) (cl (mcols a) j).
(** Entry of the transposed matrix if [t]. *)
Definition entt (a : mat) (t : bool) (be : seq nat) (i j : nat) : F :=
  if t then ent a be j i else ent a be i j.
Definition mrowst (a : mat) (t : bool) : nat := if t then mcols a else mrows a.
Definition mcolst (a : mat) (t : bool) : nat := if t then mrows a else mcols a.

(** The dense array an object stands for. *)
Definition den (a : mat) : tensor :=
  Tensor (mdtype a) (mshape a) (fun idx => if idx is j :: i :: be then ent a be i j else 0).

(** ** Well-formedness *)

(** A (batch of) matrices / vectors without empty axis. *)
Definition wft (t : tensor) : bool := (2 <= trank t)%N && posn (sh t).
Definition wfv (t : tensor) : bool := (1 <= trank t)%N && posn (sh t).

(** Entries strictly above / below the diagonal vanish. *)
Definition lower (t : tensor) : Prop := forall be i j, okb (tbatch t) be ->
  (i < trows t)%N -> (j < tcols t)%N -> (i < j)%N -> mx t be i j = 0.
Definition upper (t : tensor) : Prop := forall be i j, okb (tbatch t) be ->
  (i < trows t)%N -> (j < tcols t)%N -> (j < i)%N -> mx t be i j = 0.

(** No Kronecker product occurs in the object. *)
Fixpoint kfree (a : mat) : bool :=
  match a with
  | Kron _ _ => false
  | LR l r m | Wb _ l r m => [&& kfree l, kfree r & kfree m]
  | _ => true
  end.

(** Well-formed objects: numeric data of the right rank, no empty axis,
    factors which fit, factor batches which broadcast, triangular types which
    are triangular, square Woodbury matrices.  Kronecker products are not
    nested in low-rank factors. *)
Fixpoint wf (a : mat) : Prop :=
  match a with
  | Nm t | Dense t => wft t
  | Zero _ b r c => posn [:: c, r & b]
  | Diag t => wfv t
  | Const t r c => posn [:: c, r & sh t]
  | LT t => wft t /\ lower t
  | UT t => wft t /\ upper t
  | LR l r m =>
      [/\ wf l, wf r, wf m, [&& kfree l, kfree r & kfree m] &
          [&& mcols l == mrows m, mcols r == mcols m,
              bcok (mbatch l) (mbatch r) & bcok (bct (mbatch l) (mbatch r)) (mbatch m)]]
  | Wb d l r m =>
      [/\ wf l, wf r, wf m, [&& kfree l, kfree r & kfree m] &
          [&& mcols l == mrows m, mcols r == mcols m,
              bcok (mbatch l) (mbatch r) & bcok (bct (mbatch l) (mbatch r)) (mbatch m)]]
      /\ [&& wfv d, mrows l == tcols d, mrows r == tcols d &
             bcok (behead (sh d)) (bct (bct (mbatch l) (mbatch r)) (mbatch m))]
  | Kron l r => [/\ wf l, wf r & bcok (mbatch l) (mbatch r)]
  end.

(** Operands: well-formed matrices, or numeric scalars. *)
Definition isscal (a : mat) : bool := if a is Nm t then sh t == [::] else false.
Definition wfo (a : mat) : Prop := wf a \/ isscal a.

(** ** Side conditions

    [full a b]: the matrix shape of [a] is not stretched when [a] and [b] are
    broadcast together. *)
Definition full (a b : mat) : bool :=
  (mrows a == bcn (mrows a) (mrows b)) && (mcols a == bcn (mcols a) (mcols b)).
Definition samesh (a b : mat) : bool := (mrows a == mrows b) && (mcols a == mcols b).

(** The types for which [add] is only right if a structured operand is not
    stretched (see C42 for counterexamples). *)
Definition add_side (a b : mat) : bool :=
  match a, b with
  | Diag _, Diag _ | LT _, LT _ | UT _, UT _ | LT _, Diag _ | Diag _, LT _
  | UT _, Diag _ | Diag _, UT _ | LR _ _ _, Diag _ | Diag _, LR _ _ _
  | Wb _ _ _ _, Wb _ _ _ _ | Wb _ _ _ _, Diag _ | Diag _, Wb _ _ _ _ => samesh a b
  | Const _ _ _, Diag _ | Const _ _ _, Wb _ _ _ _ | LR _ _ _, Wb _ _ _ _ => full b a
  | Diag _, Const _ _ _ | Wb _ _ _ _, Const _ _ _ | Wb _ _ _ _, LR _ _ _ => full a b
  | Nm t, (Diag _ | Wb _ _ _ _) => isscal a ==> full b a
  | (Diag _ | Wb _ _ _ _), Nm t => isscal b ==> full a b
  | _, _ => true
  end.

(** [diag] of a Kronecker product needs a square right factor. *)
Fixpoint dgok (a : mat) : bool :=
  if a is Kron l r then [&& mrows r == mcols r, dgok l & dgok r] else true.

Fixpoint mul_side (a b : mat) {struct a} : bool :=
  match a, b with
  | Zero _ _ _ _, _ | _, Zero _ _ _ _ => true
  | Kron la ra, Kron lb rb =>
      [&& samesh la lb, samesh ra rb, mul_side la lb & mul_side ra rb]
  | Diag _, Diag _ | Wb _ _ _ _, Wb _ _ _ _
  | Diag _, Wb _ _ _ _ | Wb _ _ _ _, Diag _ => samesh a b
  | LT _, LT _ | UT _, UT _ => true
  | UT _, LT _ | LT _, UT _ => samesh a b && (mrows a == mcols a)
  | Wb _ _ _ _, (LT _ | UT _) | (LT _ | UT _), Wb _ _ _ _ => samesh a b
  | (Diag _ | Wb _ _ _ _), _ => full a b && dgok b
  | _, (Diag _ | Wb _ _ _ _) => full b a && dgok a
  | (LT _ | UT _), _ => full a b
  | _, (LT _ | UT _) => full b a
  | Const _ _ _, (LR _ _ _ | Kron _ _) => full b a
  | (LR _ _ _ | Kron _ _), Const _ _ _ => full a b
  | _, _ => true
  end.

(** Factors of Kronecker products must compose pairwise. *)
Fixpoint mm_side (a b : mat) (ta tb : bool) {struct a} : bool :=
  match a, b with
  | Kron la ra, Kron lb rb =>
      [&& mcolst la ta == mrowst lb tb, mcolst ra ta == mrowst rb tb,
          mm_side la lb ta tb & mm_side ra rb ta tb]
  | _, _ => true
  end.

(** ** What an operation must return

    [is_res c r k B f]: [c] is a well-formed [r] x [k] matrix whose batch
    shape is the least one above the shapes described by [B] and whose
    entries are given by [f]. *)
Definition is_res (c : mat) (r k : nat) (b : shape) (f : seq nat -> nat -> nat -> F) : Prop :=
  [/\ wf c, mrows c = r /\ mcols c = k, mbatch c = b &
      forall be i j, okb b be -> (i < r)%N -> (j < k)%N -> ent c be i j = f be i j].

End Spec.
