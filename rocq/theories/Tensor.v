(** * Numeric tensors: the LAB / NumPy functions the library calls

    None of the code of this file is in /repo: LAB ([import lab as B]) is an
    external dependency.  These definitions are the part of the trusted base
    that says what LAB's numeric functions do on dense arrays, in exact
    arithmetic over an ordered field with square roots ([rcfType]) instead of
    floating point.  A tensor is a data type, a shape (innermost axis first,
    see [Shape.v]) and its entries. *)
From mathcomp Require Import all_ssreflect all_algebra.
From Verif Require Import Outcome Shape.
Set Implicit Arguments. Unset Strict Implicit. Unset Printing Implicit Defensive.
Import GRing.Theory.
Local Open Scope ring_scope.

(** Data types, with NumPy's promotion rule. *)
Inductive dtype := DBool | DInt | DFloat32 | DFloat64.
Definition promote (d1 d2 : dtype) : dtype :=
  match d1, d2 with
  | DBool, d | d, DBool => d
  | DInt, DInt => DInt
  | DFloat32, DFloat32 => DFloat32
  | _, _ => DFloat64
  end.
(** A Python number which meets an array takes the data type of the array: its data type is neutral for promotion. *)
Definition weak : dtype := DBool.

(** [resolve_axis(a, axis, negative=True)] of [lab.util]: a Python axis is an
    integer; [Negz n] is the axis [-(n+1)], which is position [n]. *)
Definition resolve_axis (rank : nat) (axis : int) : outcome nat :=
  match axis with
  | Negz n => if (n < rank)%N then ret n else Raise ValueError
  | Posz n => if (n < rank)%N then ret (rank - n.+1)%N else Raise ValueError
  end.
Definition ax1 : int := Negz 0. (* axis=-1 *)
Definition ax2 : int := Negz 1. (* axis=-2 *)

(** Row-major (C order) flattening of indices, for reversed shapes. *)
Fixpoint ravel (s : shape) (idx : seq nat) : nat :=
  match s, idx with
  | d :: s', i :: idx' => (i + d * ravel s' idx')%N
  | _, _ => 0%N
  end.
Fixpoint unravel (s : shape) (n : nat) : seq nat :=
  match s with
  | [::] => [::]
  | d :: s' => (n %% d)%N :: unravel s' (n %/ d)%N
  end.
Definition prodn (s : shape) : nat := foldr muln 1%N s.

(** Indices or a mask, the argument of [B.take] and [B.submatrix]. *)
Inductive iom := Idx (l : seq int) | Mask (m : seq bool).
(** Resolve one (possibly negative) index into an axis of length [d]. *)
Definition resolve_index (d : nat) (i : int) : outcome nat :=
  match i with
  | Posz n => if (n < d)%N then ret n else Raise IndexError
  | Negz n => if (n < d)%N then ret (d - n.+1)%N else Raise IndexError
  end.
Definition mask_positions (m : seq bool) : seq nat :=
  [seq p.1 | p <- zip (iota 0 (size m)) m & p.2].
Definition resolve_iom (d : nat) (x : iom) : outcome (seq nat) :=
  match x with
  | Idx l => mapM (resolve_index d) l
  | Mask m => if size m == d then ret (mask_positions m) else Raise IndexError
  end.

(** Replace position [p] of a list. *)
Fixpoint upd (A : Type) (s : seq A) (p : nat) (x : A) : seq A :=
  match s, p with
  | [::], _ => [::]
  | _ :: s', O => x :: s'
  | y :: s', p'.+1 => y :: upd s' p' x
  end.
(** Remove / insert position [p]. *)
Fixpoint del (A : Type) (s : seq A) (p : nat) : seq A :=
  match s, p with
  | [::], _ => [::]
  | _ :: s', O => s'
  | y :: s', p'.+1 => y :: del s' p'
  end.
Fixpoint ins (A : Type) (s : seq A) (p : nat) (x : A) : seq A :=
  match p, s with
  | O, _ => x :: s
  | p'.+1, y :: s' => y :: ins s' p' x
  | _.+1, [::] => [:: x]
  end.

Section Tensors.
Variable F : rcfType.

Record tensor := Tensor { dt : dtype; sh : shape; tget : seq nat -> F }.

(** Sum of [f 0 + ... + f (n-1)]. *)
Definition sumf (n : nat) (f : nat -> F) : F :=
  foldr (fun i acc => f i + acc) 0 (iota 0 n).
Fixpoint sumall (s : shape) (f : seq nat -> F) : F :=
  match s with
  | [::] => f [::]
  | d :: s' => sumf d (fun i => sumall s' (fun idx => f (i :: idx)))
  end.
Fixpoint allidx (s : shape) (f : seq nat -> bool) : bool :=
  match s with
  | [::] => f [::]
  | d :: s' => all (fun i => allidx s' (fun idx => f (i :: idx))) (iota 0 d)
  end.

(** Entry read by broadcasting [t] and then indexing with [idx]. *)
Definition bat (t : tensor) (idx : seq nat) : F := tget t (clamp (sh t) idx).
(** Entry [(i, j)] of the matrix at batch index [be], with broadcasting of the
    batch axes; likewise for vectors and scalars. *)
Definition mx (t : tensor) (be : seq nat) (i j : nat) : F :=
  tget t [:: j, i & clamp (drop 2 (sh t)) be].
Definition vx (t : tensor) (be : seq nat) (i : nat) : F :=
  tget t (i :: clamp (behead (sh t)) be).
Definition sx (t : tensor) (be : seq nat) : F := bat t be.

Definition trank (t : tensor) : nat := size (sh t).
Definition tcols (t : tensor) : nat := nth 1%N (sh t) 0.
Definition trows (t : tensor) : nat := nth 1%N (sh t) 1.
Definition tbatch (t : tensor) : shape := drop 2 (sh t).

(** [B.zeros], [B.ones], [B.eye] *)
Definition t_full (d : dtype) (s : shape) (x : F) : tensor := Tensor d s (fun _ => x).
Definition t_zeros d s := t_full d s 0.
Definition t_ones d s := t_full d s 1.
Definition t_eye d n := Tensor d [:: n; n]
  (fun idx => if idx is [:: j; i] then (if i == j then 1 else 0) else 0).
Definition t_scalar d (x : F) := Tensor d [::] (fun _ => x).

(** Elementwise functions: [B.negative], [B.abs], ... *)
Definition t_map (f : F -> F) (t : tensor) : tensor :=
  Tensor (dt t) (sh t) (fun idx => f (tget t idx)).
(** Elementwise binary functions with NumPy broadcasting. *)
Definition t_map2 (f : F -> F -> F) (a b : tensor) : outcome tensor :=
  match bc (sh a) (sh b) with
  | Some s => ret (Tensor (promote (dt a) (dt b)) s (fun idx => f (bat a idx) (bat b idx)))
  | None => Raise ValueError
  end.
Definition t_add := t_map2 (fun x y => x + y).
Definition t_mul := t_map2 (fun x y => x * y).
Definition t_sub := t_map2 (fun x y => x - y).
(** Division is only used where the divisor is not zero; see [t_div]. *)
Definition t_div := t_map2 (fun x y => x / y).
Definition t_scale (x : F) (t : tensor) := t_map (fun y => y * x) t.

(** [B.broadcast_to] *)
Definition t_broadcast_to (t : tensor) (s : shape) : outcome tensor :=
  if bto (sh t) s then ret (Tensor (dt t) s (bat t)) else Raise ValueError.

(** [B.transpose]: swap the last two axes. *)
Definition t_transpose (t : tensor) : outcome tensor :=
  match sh t with
  | c :: r :: b => ret (Tensor (dt t) [:: r, c & b]
      (fun idx => if idx is j :: i :: be then tget t [:: i, j & be] else 0))
  | _ => Raise ValueError
  end.

(** [B.matmul] on tensors of rank at least two; batch axes are broadcast. *)
Definition t_matmul_nn (a b : tensor) : outcome tensor :=
  match sh a, sh b with
  | ca :: ra :: ba, cb :: rb :: bb =>
      if ca == rb then
        match bc ba bb with
        | Some s => ret (Tensor (promote (dt a) (dt b)) [:: cb, ra & s]
            (fun idx => if idx is j :: i :: be
                        then sumf ca (fun k => mx a be i k * mx b be k j) else 0))
        | None => Raise ValueError
        end
      else Raise ValueError
  | _, _ => Raise ValueError
  end.
Definition t_tr (t : tensor) (tr : bool) : outcome tensor :=
  if tr then t_transpose t else ret t.
Definition t_matmul (a b : tensor) (ta tb : bool) : outcome tensor :=
  do a' <- t_tr a ta; do b' <- t_tr b tb; t_matmul_nn a' b'.

(** [B.sum] over one axis (given as a position) or over all axes. *)
Definition t_sum_pos (t : tensor) (p : nat) : outcome tensor :=
  if (p < size (sh t))%N then
    ret (Tensor (dt t) (del (sh t) p)
          (fun idx => sumf (nth 0%N (sh t) p) (fun k => tget t (ins idx p k))))
  else Raise ValueError.
Definition t_sum_all (t : tensor) : tensor :=
  t_scalar (dt t) (sumall (sh t) (tget t)).
Definition t_sum (t : tensor) (axis : option int) : outcome tensor :=
  match axis with
  | None => ret (t_sum_all t)
  | Some ax => do p <- resolve_axis (trank t) ax; t_sum_pos t p
  end.

(** [B.take] along one axis (given as a position). *)
Definition t_take_nat (t : tensor) (l : seq nat) (p : nat) : tensor :=
  Tensor (dt t) (upd (sh t) p (size l))
    (fun idx => tget t (upd idx p (nth 0%N l (nth 0%N idx p)))).
Definition t_take_pos (t : tensor) (x : iom) (p : nat) : outcome tensor :=
  if (p < size (sh t))%N then
    do l <- resolve_iom (nth 0%N (sh t) p) x; ret (t_take_nat t l p)
  else Raise ValueError.
Definition t_take (t : tensor) (x : iom) (axis : int) : outcome tensor :=
  do p <- resolve_axis (trank t) axis; t_take_pos t x p.

(** [B.concat] along one axis (given as a position). *)
Fixpoint cat_get (ts : seq tensor) (p : nat) (idx : seq nat) : F :=
  match ts with
  | [::] => 0
  | t :: ts' =>
      let i := nth 0%N idx p in
      let d := nth 0%N (sh t) p in
      if (i < d)%N then tget t idx else cat_get ts' p (upd idx p (i - d)%N)
  end.
Definition t_concat_pos (ts : seq tensor) (p : nat) : outcome tensor :=
  match ts with
  | [::] => Raise ValueError
  | t :: _ =>
      if (p < size (sh t))%N && all (fun u => upd (sh u) p 0%N == upd (sh t) p 0%N) ts then
        ret (Tensor (foldr (fun u d => promote (dt u) d) (dt t) ts)
              (upd (sh t) p (sumn [seq nth 0%N (sh u) p | u <- ts])) (cat_get ts p))
      else Raise ValueError
  end.

(** [B.reshape]; a dimension [-1] is [None]. *)
Definition resolve_dims (total : nat) (ds : seq (option nat)) : outcome shape :=
  let known := prodn (pmap id ds) in
  if count (fun d => ~~ isSome d) ds == 1%N then
    if (known != 0%N) && (known %| total)%N
    then ret [seq odflt (total %/ known)%N d | d <- ds]
    else Raise ValueError
  else if (count (fun d => ~~ isSome d) ds == 0%N) && (known == total)
  then ret (pmap id ds) else Raise ValueError.
Definition t_reshape (t : tensor) (ds : seq (option nat)) : outcome tensor :=
  do s <- resolve_dims (prodn (sh t)) ds;
  ret (Tensor (dt t) s (fun idx => tget t (unravel (sh t) (ravel s idx)))).

(** [B.expand_dims(t, axis=-1)], [axis=-2] and [axis=-1, times=2,
    ignore_scalar=True]. *)
Definition t_expand1 (t : tensor) : tensor :=
  Tensor (dt t) (1%N :: sh t) (fun idx => tget t (behead idx)).
Definition t_expand2 (t : tensor) : tensor :=
  Tensor (dt t) (ins (sh t) 1 1%N) (fun idx => tget t (del idx 1)).
Definition t_expand1_is (t : tensor) : tensor :=
  if sh t is [::] then t else t_expand1 t.
Definition t_expand11_is (t : tensor) : tensor :=
  if sh t is [::] then t else t_expand1 (t_expand1 t).
(** [B.uprank] *)
Definition t_uprank (t : tensor) : tensor :=
  match sh t with
  | [::] => t_expand1 (t_expand1 t)
  | [:: _] => t_expand1 t
  | _ => t
  end.
(** [B.squeeze(t, axis=-1)] and [axis=-2] of a tensor whose axis has length one. *)
Definition t_squeeze1 (t : tensor) : outcome tensor :=
  if sh t is 1%N :: s then ret (Tensor (dt t) s (fun idx => tget t (0%N :: idx)))
  else Raise ValueError.
Definition t_squeeze2 (t : tensor) : outcome tensor :=
  if sh t is c :: 1%N :: s
  then ret (Tensor (dt t) (c :: s) (fun idx => tget t (ins idx 1 0%N)))
  else Raise ValueError.

(** [B.diag_construct], [B.diag_extract] *)
Definition t_diag_construct (t : tensor) : outcome tensor :=
  match sh t with
  | n :: b => ret (Tensor (dt t) [:: n, n & b]
      (fun idx => if idx is j :: i :: be then (if i == j then tget t (i :: be) else 0) else 0))
  | _ => Raise ValueError
  end.
Definition t_diag_extract (t : tensor) : outcome tensor :=
  match sh t with
  | c :: r :: b => ret (Tensor (dt t) (minn r c :: b)
      (fun idx => if idx is i :: be then tget t [:: i, i & be] else 0))
  | _ => Raise ValueError
  end.

(** [B.kron(a, b, -2, -1)] and [B.kron(a, b, -1)]: Kronecker products over the
    last two axes / the last axis of tensors with equal batch shapes. *)
Definition t_kron2 (a b : tensor) : outcome tensor :=
  match sh a, sh b with
  | ca :: ra :: ba, cb :: rb :: bb =>
      if ba == bb then
        ret (Tensor (promote (dt a) (dt b)) [:: (ca * cb)%N, (ra * rb)%N & ba]
          (fun idx => if idx is j :: i :: be
             then tget a [:: (j %/ cb)%N, (i %/ rb)%N & be] * tget b [:: (j %% cb)%N, (i %% rb)%N & be]
             else 0))
      else Raise ValueError
  | _, _ => Raise ValueError
  end.
Definition t_kron1 (a b : tensor) : outcome tensor :=
  match sh a, sh b with
  | ca :: ba, cb :: bb =>
      if ba == bb then
        ret (Tensor (promote (dt a) (dt b)) ((ca * cb)%N :: ba)
          (fun idx => if idx is j :: be
             then tget a ((j %/ cb)%N :: be) * tget b ((j %% cb)%N :: be) else 0))
      else Raise ValueError
  | _, _ => Raise ValueError
  end.

(** [t[..., :k, :]] *)
Definition t_firstrows (t : tensor) (k : nat) : tensor :=
  Tensor (dt t) (upd (sh t) 1 (minn k (trows t))) (tget t).
(** [t[(0,)*nb + (slice(None), slice(None))]]: the first matrix of a batch. *)
Definition t_first (t : tensor) : outcome tensor :=
  match sh t with
  | c :: r :: b =>
      if all (fun d => (0 < d)%N) b
      then ret (Tensor (dt t) [:: c; r]
                  (fun idx => if idx is [:: j; i] then tget t [:: j, i & nseq (size b) 0%N] else 0))
      else Raise IndexError
  | _ => Raise IndexError
  end.
(** [t[..., 0, 0]] *)
Definition t_get00 (t : tensor) : outcome tensor :=
  match sh t with
  | c :: r :: b =>
      if (0 < c)%N && (0 < r)%N
      then ret (Tensor (dt t) b (fun be => tget t [:: 0%N, 0%N & be])) else Raise IndexError
  | _ => Raise IndexError
  end.

(** [B.unstack(t, axis)] and [B.stack]  at a position. *)
Definition t_unstack (t : tensor) (p : nat) : outcome (seq tensor) :=
  if (p < size (sh t))%N then
    ret [seq Tensor (dt t) (del (sh t) p) (fun idx => tget t (ins idx p k))
        | k <- iota 0 (nth 0%N (sh t) p)]
  else Raise ValueError.
Definition t_stack (ts : seq tensor) (p : nat) : outcome tensor :=
  match ts with
  | [::] => Raise ValueError
  | t :: _ =>
      if (p <= size (sh t))%N && all (fun u => sh u == sh t) ts then
        ret (Tensor (foldr (fun u d => promote (dt u) d) (dt t) ts)
              (ins (sh t) p (size ts))
              (fun idx => tget (nth t ts (nth 0%N idx p)) (del idx p)))
      else Raise ValueError
  end.

(** [B.tile]: one repetition per axis. *)
Definition t_tile (t : tensor) (reps : seq nat) : outcome tensor :=
  if size reps == size (sh t) then
    ret (Tensor (dt t) [seq (p.1 * p.2)%N | p <- zip (sh t) reps]
      (fun idx => tget t [seq (p.1 %% p.2)%N | p <- zip idx (sh t)]))
  else Raise ValueError.

(** [B.mean(t)] compared with a bound; an empty mean is [nan], which compares
    to [False]. *)
Definition t_mean_lt (t : tensor) (x : F) : bool :=
  if prodn (sh t) == 0%N then false
  else (sumall (sh t) (tget t) / (prodn (sh t))%:R < x)%R.

(** Equality of tensors: same shape and same entries (the data type is
    treated separately). *)
Definition teq (a b : tensor) : Prop :=
  sh a = sh b /\ forall idx, inb (sh a) idx -> tget a idx = tget b idx.

End Tensors.
Arguments Tensor {F}. Arguments t_zeros {F}. Arguments t_ones {F}. Arguments t_eye {F}.
