(** * Tiled blocks: model of matrix/tiledblocks.py and of the functions with a method for it

    A [TiledBlocks] is not a [mat] of [Mat.v]: no function of the core has a method for it, and every function
    modelled here has one.  Simplification: the blocks are matrices of [Mat.v], so a [TiledBlocks] is not a block of
    another one (the code constructs such an object but [dense] of it raises, since [broadcast_batch_to] has no
    method for [TiledBlocks]). *)
From mathcomp Require Import all_ssreflect all_algebra.
From Verif Require Import Outcome Shape Tensor Mat Dispatch Ops Ops2 Block.
Set Implicit Arguments. Unset Strict Implicit. Unset Printing Implicit Defensive.
Import GRing.Theory.
Local Open Scope ring_scope.

Section Tiled.
Variable F : rcfType.
Notation tensor := (tensor F).
Notation mat := (mat F).
Variable o : ops F.

(** The attributes [blocks] and [reps] (zipped) and [axis]: tiledblocks.py:48-50.  The cache [dense] (l. 51) is not
    modelled: [dense] is pure. *)
Record tiled := Tiled { tl_items : seq (mat * nat); tl_axis : int }.
Implicit Types (a : tiled) (its : seq (mat * nat)).

(** The first constructor, with pairs of blocks and repetitions: tiledblocks.py:33-51. *)
Definition mk_tiled its (axis : int) : outcome tiled :=
  match its with
  | [::] => Raise NotFoundLookup
  | _ => do _ <- mapM (fun q => assert_matrix q.1) its; ret (Tiled its axis)
  end.
(** The second constructor, with blocks only: tiledblocks.py:53-55. *)
Definition mk_tiled_blocks (blocks : seq mat) (axis : int) : outcome tiled :=
  mk_tiled [seq (b, 1%N) | b <- blocks] axis.
(** The third constructor: tiledblocks.py:57-61. *)
Definition mk_tiled_single (block : mat) (reps : nat) (axis : int) : outcome tiled :=
  mk_tiled [:: (block, reps)] axis.

(** [(1,) * (rank - len(shape)) + tuple(shape)]: shape.py:32 and dense.py:103. *)
Definition pad_shape (rank : nat) (s : shape) : shape := s ++ nseq (rank - size s) 1%N.

(** [shape]: shape.py:27-49.  The position of [axis] is counted from the last axis (l. 36-39); [_drop_axis]
    (l. 14-24) is [del].  Simplification: an axis out of range raises at once. *)
Definition tl_shape a : outcome shape :=
  do ss0 <- mapM (fun q => shape_of q.1) (tl_items a);
  let rank := foldr maxn 0%N (map size ss0) in
  let ss := map (pad_shape rank) ss0 in
  do p <- resolve_axis rank (tl_axis a);
  do s <- broadcast (map (fun s => del s p) ss);
  ret (ins s p (sumn [seq (q.2 * nth 0%N q.1 p)%N | q <- zip ss (map snd (tl_items a))])).
(** [shape_matrix]: shape_matrix.py:77-81; [shape_batch]: shape_batch.py:73-77. *)
Definition tl_shape_matrix a : outcome (nat * nat) :=
  do s <- tl_shape a; ret (nth 0%N s 1, nth 0%N s 0).
Definition tl_shape_batch a : outcome shape := do s <- tl_shape a; ret (drop 2 s).

(** The arrays of a list of numeric matrices. *)
Definition nums (xs : seq mat) : seq tensor := pmap (fun x : mat => if x is Nm u then Some u else None) xs.
(** [B.concat]: of arrays if all elements are numeric; otherwise LAB promotes them to matrices and
    concat.py:11-23 applies. *)
Definition concat_any (xs : seq mat) (axis : int) : outcome mat :=
  if all (@isnum F) xs then do t <- t_concat (nums xs) axis; ret (Nm t)
  else concat_op o (map (@to_matrix F) xs) axis.

(** One block: dense.py:101-120; [p] is the position of the axis, [tb] the batch shape of the result. *)
Definition tl_block (p : nat) (tb : shape) (q : mat * nat) : outcome mat :=
  do b0 <- shape_batch q.1;
  let b := pad_shape (size tb) b0 in
  let target := if (p < 2)%N then tb else upd tb (p - 2) (nth 0%N b (p - 2)) in
  do y <- broadcast_batch_to q.1 target;
  tile_op o y (upd (nseq (size tb).+2 1%N) p q.2).
(** [dense]: dense.py:89-123. *)
Definition tl_dense a : outcome mat :=
  do s <- tl_shape a;
  do p <- resolve_axis (size s) (tl_axis a);
  do us <- mapM (tl_block p (drop 2 s)) (tl_items a);
  concat_any us (Negz p).

(** [transpose]: transpose.py:61-73. *)
Definition tl_transpose a : outcome tiled :=
  do s <- tl_shape a;
  do p <- resolve_axis (size s) (tl_axis a);
  do its <- mapM (fun q => do x <- transpose q.1; ret (x, q.2)) (tl_items a);
  mk_tiled its (match p with 1%N => ax1 | 0%N => ax2 | _ => Negz p end).

(** [cast]: cast.py:64-69; [dtype]: dtype.py:52-54. *)
Definition tl_cast (d : dtype) a : outcome tiled :=
  do its <- mapM (fun q => do x <- cast d q.1; ret (x, q.2)) (tl_items a);
  mk_tiled its (tl_axis a).
Definition tl_dtype a : dtype :=
  match tl_items a with
  | [::] => DBool
  | q :: its => foldl (fun d r => promote d (mdtype r.1)) (mdtype q.1) its
  end.

(** [concat] of tiled blocks: concat.py:26-40.  With different axes it is dense, with a warning;
    simplification: [Dense] of a [Dense] (when [tl_dense] returns a matrix) is the latter. *)
Definition tl_concat (xs : seq tiled) (axis : int) : outcome (tiled + mat) :=
  if all (fun a => tl_axis a == axis) xs then
    do a <- mk_tiled (flatten (map tl_items xs)) axis; ret (inl a)
  else
    do _ <- warn_if true;
    do ds <- mapM tl_dense xs;
    do c <- concat_any ds axis;
    ret (inr (if c is Nm t then mk_dense t else c)).

(** [block_diag(a: TiledBlocks)]: block_diag.py:107-114; [n] bounds the recursion of [kron]. *)
Definition tl_block_diag (n : nat) a : outcome mat :=
  do xs <- mapM (fun q => kron_n n (Nm (t_eye (mdtype q.1) q.2)) q.1) (tl_items a);
  block_diag o xs.
End Tiled.
