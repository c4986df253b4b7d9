(** * The remaining arithmetic operations of matrix/ops

    These call the core operations (Ops.v) through the record [o] and
    are not called by them.  Results which are numeric arrays are [Nm]. *)
From mathcomp Require Import all_ssreflect all_algebra.
From Verif Require Import Outcome Shape Tensor Mat Dispatch Ops.
Set Implicit Arguments. Unset Strict Implicit. Unset Printing Implicit Defensive.
Import GRing.Theory Num.Theory.
Local Open Scope ring_scope.

(** ** Tables *)
(** matrix/ops/kron.py *)
Inductive kron_id := KZeroR (* 20-22 *) | KZeroL (* 25-27 *) | KGen (* 33-35 *) | KConst (* 41-43 *).
Definition kron_table : option (table kron_id) :=
  Some [::]
  |> reg PAny (PT TZero) 1 KZeroR
  |> reg (PT TZero) PAny 2 KZeroL
  |> reg PAny PAny 0 KGen
  |> reg (PT TConst) (PT TConst) 0 KConst.
(** matrix/ops/divide.py *)
Inductive div_id := VGen (* 10-17 *) | VConst (* 20-22 *).
Definition div_table : option (table div_id) :=
  Some [::] |> reg PAny PAny 0 VGen |> reg PAny (PT TConst) 0 VConst.
(** matrix/ops/matmul_diag.py: 9-26 has no annotations. *)
Inductive mmd_id := QGen | QLR (* 30-32 *).
Definition mmd_table : option (table mmd_id) :=
  Some [::] |> reg PAny PAny 0 QGen |> reg (PT TLR) (PT TLR) 0 QLR.

Section Ops2.
Variable F : rcfType.
Notation tensor := (tensor F).
Notation mat := (mat F).
Variable o : ops F.

(** ** subtract: matrix/ops/subtract.py:8-10; numerics: LAB. *)
Definition subtract (a b : mat) : outcome mat :=
  match a, b with
  | Nm x, Nm y => do z <- t_sub x y; ret (Nm z)
  | _, _ => do b' <- negative (to_matrix b); o_add o (to_matrix a) b'
  end.

(** ** sum over one axis: matrix/ops/sum.py.  The position [p] counts from the
    last axis ([resolve_axis(a, axis, negative=True)] is [-(p+1)]).  Where the
    code passes [resolve_axis(a, axis)] to an array with fewer trailing axes,
    the position shifts by the missing axes. *)
Definition sum_pos (a : mat) (p : nat) : outcome mat :=
  match p with
  | 0 => do t <- o_sumax o a true; ret (Nm t)
  | 1 => do t <- o_sumax o a false; ret (Nm t)
  | q.+2 =>
      match a with
      | Nm t | Dense t | LT t | UT t => do u <- t_sum_pos t p; ret (Nm u)
      (* 29-33 *)
      | Zero d b r c => ret (Nm (t_zeros d [:: c, r & del b q]))
      (* 51-53 *)
      | Diag t => do u <- t_sum_pos t q.+1; mk_diag u
      (* 67-69 *)
      | Const t r c => do u <- t_sum_pos t q; mk_const u [:: c; r]
      (* 94-99, 135-140 *)
      | LR _ _ _ | Kron _ _ =>
          do _ <- warn; do t <- o_dense o a; do u <- t_sum_pos t p; ret (Nm u)
      (* 112-116; [B.sum] of the low-rank part is a numeric array (94-99) *)
      | Wb d l r m =>
          do xs <- align_batch [:: wb_diag d; wb_lr l r m];
          match xs with
          | [:: Diag d'; lr] =>
              do u <- t_sum_pos d' q.+1; do x <- mk_diag u;
              do _ <- warn; do t <- o_dense o lr; do v <- t_sum_pos t p; o_add o x (Nm v)
          | _ => Raise AttributeError
          end
      end
  end.
Definition sum_op (a : mat) (axis : option int) : outcome mat :=
  match axis with
  | None => do t <- o_sumall o a; ret (Nm t)
  | Some ax => do k <- rank_of a; do p <- resolve_axis k ax; sum_pos a p
  end.

(** ** trace: matrix/ops/trace.py:8-11 *)
Definition trace (a : mat) : outcome tensor := do t <- o_diag o a; t_sum_pos t 0.

(** ** divide: matrix/ops/divide.py *)
Definition div_body (i : div_id) (a b : mat) : outcome mat :=
  match i, b with
  | VConst, Const t r c =>
      do s <- shape_of b; do c' <- mk_const (t_map (fun x => 1 / x) t) s; o_mul o a c'
  | VGen, _ =>
      do _ <- warn_if (structured a || structured b);
      do x <- o_dense o a; do y <- o_dense o b; do z <- t_div x y; ret (mk_dense z)
  | _, _ => Raise AttributeError
  end.
Definition divide (a b : mat) : outcome mat :=
  match a, b with
  | Nm x, Nm y => do z <- t_div x y; ret (Nm z)
  | _, _ =>
      let a := to_matrix a in let b := to_matrix b in
      do i <- lookup div_table (ty_of_matrix a) (ty_of_matrix b); div_body i a b
  end.

(** ** mean: matrix/ops/mean.py:12-19.  [n] is a Python integer. *)
Definition mean_op (a : mat) (axis : option int) : outcome mat :=
  do s <- shape_of a;
  do n <- (match axis with
           | None => ret (prodn s)
           | Some ax => do p <- resolve_axis (size s) ax; ret (nth 0%N s p)
           end);
  do x <- sum_op a axis; divide x (Nm (t_scalar weak n%:R)).

(** ** abs.py:14-51, sqrt.py:14-51, power.py:14-51: the three files have the
    same methods for an entrywise function [f] ([power]: for one numeric scalar exponent). *)
Fixpoint elementwise (f : F -> F) (a : mat) : outcome mat :=
  match a with
  | Nm t => ret (Nm (t_map f t))
  | Zero _ _ _ _ => ret a
  | Diag t => mk_diag (t_map f t)
  | Const t r c => mk_const (t_map f t) [:: c; r]
  | LT t => mk_lt (t_map f t)
  | UT t => mk_ut (t_map f t)
  | Kron l r => do l' <- elementwise f l; do r' <- elementwise f r; ret (Kron l' r')
  | Dense _ | LR _ _ _ | Wb _ _ _ _ =>
      do _ <- warn_if (structured a); do t <- o_dense o a; ret (mk_dense (t_map f t))
  end.
Definition abs_op := elementwise (fun x => `|x|).
Definition sqrt_op := elementwise Num.sqrt.
Definition power_op (n : nat) := elementwise (fun x => x ^+ n).

(** ** matmul_diag: matrix/ops/matmul_diag.py:10-32.  Numerics: [B.multiply] and
    [B.sum] of LAB. *)
Definition matmul_diag (a b : mat) (ta tb : bool) : outcome tensor :=
  let gen := do a' <- tr a (~~ ta); do b' <- tr b tb; do c <- o_mul o a' b'; o_sumax o c false in
  match a, b with
  | LR _ _ _, LR _ _ _ => do c <- o_matmul o a b ta tb; o_diag o c
  | _, _ => gen
  end.

(** ** kron: matrix/ops/kron.py.  [kron(Zero, b)] calls [kron(b, Zero)] through
    the dispatcher, hence the recursion depth [n].  Numerics: LAB's [kron] over the last two axes. *)
Definition product_shape (a b : mat) : outcome (nat * nat) :=
  do ' (ar, ac) <- shape_matrix a; do ' (br, bc) <- shape_matrix b; ret (ar * br, ac * bc)%N.
Definition kron_body (rec : mat -> mat -> outcome mat) (a b : mat) : outcome mat :=
  do i <- lookup kron_table (ty_of_matrix a) (ty_of_matrix b);
  match i with
  | KZeroR =>
      do s <- shape_batch_broadcast [:: a; b]; do ' (r, c) <- product_shape a b;
      mk_zero (mdtype b) [:: c, r & s]
  | KZeroL => rec b a
  | KGen => ret (Kron a b)
  | KConst =>
      match a, b with
      | Const x _ _, Const y _ _ =>
          do z <- t_mul x y; do ' (r, c) <- product_shape a b; mk_const z [:: c; r]
      | _, _ => Raise AttributeError
      end
  end.
Fixpoint kron_n (n : nat) (a b : mat) : outcome mat :=
  match n with
  | 0 => Raise RecursionError
  | n'.+1 =>
      match a, b with
      | Nm x, Nm y => do z <- t_kron2 x y; ret (Nm z)
      | _, _ => kron_body (kron_n n') (to_matrix a) (to_matrix b)
      end
  end.

(** ** tile: matrix/ops/tile.py:15-42.  [reps] is innermost first. *)
Definition tile_op (a : mat) (reps : seq nat) : outcome mat :=
  match a with
  | Nm t => do u <- t_tile t reps; ret (Nm u)
  | Zero d b r c =>
      do _ <- require (size b + 2 == size reps)%N ValueError;
      ret (Zero d [seq (p.1 * p.2)%N | p <- zip b (drop 2 reps)]
             (r * nth 0%N reps 1) (c * nth 0%N reps 0))
  | Const t r c =>
      do k <- rank_of a;
      do _ <- require (k == size reps)%N ValueError;
      do u <- t_tile t (drop 2 reps);
      mk_const u [:: (c * nth 0%N reps 0)%N; (r * nth 0%N reps 1)%N]
  | _ =>
      do _ <- warn_if (structured a); do t <- o_dense o a; do u <- t_tile t reps;
      ret (mk_dense u)
  end.

(** ** concat of matrices: matrix/ops/concat.py:11-23; the position counts from the last axis
    of the first array. *)
Definition t_concat (ts : seq tensor) (axis : int) : outcome tensor :=
  do p <- resolve_axis (if ts is t :: _ then trank t else 0%N) axis; t_concat_pos ts p.
Definition concat_op (xs : seq mat) (axis : int) : outcome mat :=
  do _ <- warn_if (has (@structured F) xs);
  do ts <- mapM (o_dense o) xs; do u <- t_concat ts axis; ret (mk_dense u).

(** ** reshape: matrix/ops/reshape.py:10-16, squeeze: matrix/ops/squeeze.py:10-14 *)
Definition reshape_op (a : mat) (ds : seq (option nat)) : outcome tensor :=
  do _ <- warn_if (structured a); do t <- o_dense o a; t_reshape t ds.
Definition t_squeeze (t : tensor) : outcome tensor :=
  t_reshape t (map Some [seq d <- sh t | d != 1%N]).
Definition squeeze_op (a : mat) : outcome tensor :=
  do _ <- warn_if (structured a); do t <- o_dense o a; t_squeeze t.

(** ** take: matrix/ops/take.py.  [n] bounds the recursion into factors.
    [_count_indices_or_mask]: take.py:37-45. *)
Definition count_iom (x : iom) : nat :=
  match x with Idx l => size l | Mask m => count id m end.
(** The axis argument: the default of [B.take] for a numeric array is 0 (LAB),
    for a matrix -2. *)
Definition default_axis (a : mat) : int := if a is Nm _ then Posz 0 else ax2.

Section Take.
Variable rec : mat -> iom -> int -> outcome mat.
(** take.py:22-25 *)
Definition take_gen (a : mat) (x : iom) (p : nat) : outcome mat :=
  do _ <- warn_if (structured a); do t <- o_dense o a; do u <- t_take_pos t x p; ret (mk_dense u).
Definition take_step (a : mat) (x : iom) (axis : int) : outcome mat :=
  do k <- rank_of a; do p <- resolve_axis k axis;
  (* [resolve_axis(a, axis)] is [k - 1 - p] *)
  let pos_axis := Posz (k - p.+1)%N in
  match a with
  | Nm t => do u <- t_take_pos t x p; ret (Nm u)
  (* 48-54 *)
  | Zero d b r c => mk_zero d (upd [:: c, r & b] p (count_iom x))
  | Dense _ => take_gen a x p
  (* 57-63 *)
  | Diag t =>
      if (p < 2)%N then take_gen a x p
      else do u <- t_take t x pos_axis; mk_diag u
  (* 66-79 *)
  | Const t r c =>
      if p == 1%N then mk_const t [:: c; count_iom x]
      else if p == 0%N then mk_const t [:: count_iom x; r]
      else do u <- t_take t x pos_axis; mk_const u [:: c; r]
  (* 82-99 *)
  | LT t => do u <- t_take_pos t x p; if (p < 2)%N then ret (mk_dense u) else mk_lt u
  | UT t => do u <- t_take_pos t x p; if (p < 2)%N then ret (mk_dense u) else mk_ut u
  (* 102-116 *)
  | LR l r m =>
      if p == 1%N then do l' <- rec l x (default_axis l); mk_lowrank l' (Some r) (Some m)
      else if p == 0%N then do r' <- rec r x (default_axis r); mk_lowrank l (Some r') (Some m)
      else
        do xs <- align_batch [:: l; m; r];
        do l' <- rec (nth l xs 0) x pos_axis; do r' <- rec (nth r xs 2) x pos_axis;
        do m' <- rec (nth m xs 1) x pos_axis; mk_lowrank l' (Some r') (Some m')
  (* 119-131 *)
  | Wb d l r m =>
      if (p < 2)%N then
        do x1 <- rec (wb_diag d) x (Negz p); do x2 <- rec (wb_lr l r m) x (Negz p); o_add o x1 x2
      else
        do xs <- align_batch [:: wb_diag d; wb_lr l r m];
        do x1 <- rec (nth a xs 0) x pos_axis; do x2 <- rec (nth a xs 1) x pos_axis;
        o_add o x1 x2
  (* 134-146 *)
  | Kron l r =>
      if (p < 2)%N then take_gen a x p
      else
        do xs <- align_batch [:: l; r];
        do l' <- rec (nth l xs 0) x pos_axis; do r' <- rec (nth r xs 1) x pos_axis;
        ret (Kron l' r')
  end.
End Take.
Fixpoint take_n (n : nat) : mat -> iom -> int -> outcome mat :=
  match n with
  | 0 => fun _ _ _ => Raise RecursionError
  | n'.+1 => take_step (take_n n')
  end.
(** Nesting depth; enough for the recursion of [take]. *)
Fixpoint depth (a : mat) : nat :=
  match a with
  | LR l r m => (maxn (depth l) (maxn (depth r) (depth m))).+1
  | Wb _ l r m => (maxn (depth l) (maxn (depth r) (depth m))).+2
  | Kron l r => (maxn (depth l) (depth r)).+1
  | _ => 1%N
  end.
Definition take_op (a : mat) (x : iom) (axis : int) : outcome mat := take_n (depth a) a x axis.

(** ** submatrix: matrix/ops/submatrix.py; of a numeric array: LAB. *)
Definition t_submatrix (t : tensor) (x : iom) : outcome tensor :=
  do u <- t_take t x ax2; t_take u x ax1.
Definition submatrix_lr (l r m : mat) (x : iom) : outcome mat :=
  do l' <- take_op l x ax2; do r' <- take_op r x ax2; mk_lowrank l' (Some r') (Some m).
Definition submatrix (a : mat) (x : iom) : outcome mat :=
  match a with
  | Nm t => do u <- t_submatrix t x; ret (Nm u)
  (* 40-44 *)
  | Zero d b _ _ => ret (Zero d b (count_iom x) (count_iom x))
  (* 47-49 *)
  | Diag t => do u <- t_take t x ax1; mk_diag u
  (* 52-56 *)
  | Const t _ _ => mk_const t [:: count_iom x, count_iom x & sh t]
  (* 59-66 *)
  | LT t => do u <- t_submatrix t x; mk_lt u
  | UT t => do u <- t_submatrix t x; mk_ut u
  (* 69-75 *)
  | LR l r m => submatrix_lr l r m x
  (* 78-82 *)
  | Wb d l r m =>
      do u <- t_take d x ax1; do d' <- mk_diag u; do lr <- submatrix_lr l r m x;
      mk_woodbury d' lr
  (* 29-37 *)
  | Dense _ | Kron _ _ =>
      do _ <- warn_if (structured a); do t <- o_dense o a;
      do u <- t_submatrix t x; ret (mk_dense u)
  end.
End Ops2.
