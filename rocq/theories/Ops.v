(** * The mutually recursive core: dense, add, multiply, matmul, sum, diag

    Model of matrix/ops/{dense,add,multiply,matmul,sum,diag,broadcast_to}.py
    and matrix/ops/algorithms/align.py.  Every method body is a non-recursive
    function over the record [self] of the operations it can call; [ops_n]
    ties the knot with fuel. *)
From mathcomp Require Import all_ssreflect all_algebra.
From Verif Require Import Outcome Shape Tensor Mat Dispatch.
Set Implicit Arguments. Unset Strict Implicit. Unset Printing Implicit Defensive.
Import GRing.Theory Num.Theory.
Local Open Scope ring_scope.

Section Ops.
Variable F : rcfType.
Notation tensor := (tensor F).
Notation mat := (mat F).

(** [B.argsort], left abstract: NumPy does not specify the order of equal
    norms.  The theorems assume that it returns a permutation of the positions. *)
Variable argsort : seq F -> seq nat.

(** The operations a method body may call. *)
Record ops := Ops {
  o_dense  : mat -> outcome tensor;
  o_matmul : mat -> mat -> bool -> bool -> outcome mat;
  o_add    : mat -> mat -> outcome mat;
  o_mul    : mat -> mat -> outcome mat;
  o_sumax  : mat -> bool -> outcome tensor;   (* true: axis=-1, false: axis=-2 *)
  o_sumall : mat -> outcome tensor;           (* axis=None *)
  o_diag   : mat -> outcome tensor
}.

(** The type of a matrix, for dispatch.  [None]: a numeric array. *)
Definition ty_of (a : mat) : option ty :=
  match a with
  | Nm _ => None | Zero _ _ _ _ => Some TZero | Dense _ => Some TDense
  | Diag _ => Some TDiag | Const _ _ _ => Some TConst | LT _ => Some TLT
  | UT _ => Some TUT | LR _ _ _ => Some TLR | Wb _ _ _ _ => Some TWb
  | Kron _ _ => Some TKron
  end.
(** LAB promotes a numeric argument which meets a matrix:
    [add_promotion_rule(AbstractMatrix, B.Numeric, AbstractMatrix)],
    matrix/promote.py:10-22. *)
Definition to_matrix (a : mat) : mat := if a is Nm t then convert_num t else a.
Definition ty_of_matrix (a : mat) : ty :=
  match a with
  | Zero _ _ _ _ => TZero | Dense _ | Nm _ => TDense
  | Diag _ => TDiag | Const _ _ _ => TConst | LT _ => TLT
  | UT _ => TUT | LR _ _ _ => TLR | Wb _ _ _ _ => TWb | Kron _ _ => TKron
  end.

Section Bodies.
Variable self : ops.

(** ** dense: matrix/ops/dense.py:19-86 *)
Definition mm3 (a b c : mat) (ta tb tc : bool) : outcome mat :=
  (** three-argument [matmul]: matrix/ops/matmul.py:22-27, 62-74 *)
  let tr (x : nat * nat) (t : bool) := if t then (x.2, x.1) else x in
  do sa <- shape_matrix a; do sb <- shape_matrix b; do sc <- shape_matrix c;
  let '(ar, ac) := tr sa ta in
  let '(br, bc) := tr sb tb in
  let '(_, cc) := tr sc tc in
  let cost_ab_first := (ar * ac * bc + ar * bc * cc)%N in
  let cost_bc_first := (br * bc * cc + ar * br * cc)%N in
  if (cost_ab_first <= cost_bc_first)%N then
    do ab <- o_matmul self a b ta tb; o_matmul self ab c false tc
  else
    do bc <- o_matmul self b c tb tc; o_matmul self a bc ta false.

Definition t_const_dense (t : tensor) (r c : nat) : outcome tensor :=
  t_mul (t_expand11_is t) (t_ones (dt t) [:: c, r & nseq (size (sh t)) 1%N]).

Definition dense_step (a : mat) : outcome tensor :=
  match a with
  | Nm t => ret t
  | Zero d b r c => ret (t_zeros d [:: c, r & b])
  | Dense t | LT t | UT t => ret t
  | Diag t => t_diag_construct t
  | Const t r c => t_const_dense t r c
  | LR l r m => do x <- mm3 l m r false false true; o_dense self x
  | Wb d l r m =>
      do x <- o_dense self (wb_diag d); do y <- o_dense self (wb_lr l r m); t_add x y
  | Kron l r =>
      do lr <- align_batch [:: l; r];
      do x <- o_dense self (nth l lr 0); do y <- o_dense self (nth r lr 1); t_kron2 x y
  end.

(** ** Helpers *)
(** [LowerTriangular(mat)], [UpperTriangular(mat)] applied to a matrix:
    matrix/triangular.py:21-27, 57-63. *)
Definition mk_lt_mat (a : mat) : outcome mat :=
  do _ <- assert_matrix a; do t <- o_dense self a; ret (LT t).
Definition mk_ut_mat (a : mat) : outcome mat :=
  do _ <- assert_matrix a; do t <- o_dense self a; ret (UT t).

(** [broadcast_to]: matrix/ops/broadcast_to.py:16-47. *)
Definition broadcast_to_step (a : mat) (s : shape) : outcome mat :=
  do sa <- shape_of a;
  if sa == s then ret a else
  match a with
  | Nm t => do u <- t_broadcast_to t s; ret (Nm u)
  | Zero d _ _ _ => do s' <- expand_and_broadcast [:: sa; s]; mk_zero d s'
  | Const t _ _ => do s' <- expand_and_broadcast [:: sa; s]; mk_const t s'
  | _ =>
      if take 2 sa == take 2 s then broadcast_batch_to a (drop 2 s)
      else
        do _ <- warn_if (structured a);
        do t <- o_dense self a; do u <- t_broadcast_to t s; ret (mk_dense u)
  end.

(** [a[(0,)*k + (slice(None), slice(None))]] for a numeric array or a matrix:
    matrix/matrix.py:56-61. *)
Definition getitem_dense (a : mat) : outcome tensor :=
  do _ <- warn_if (structured a); o_dense self a.

(** [B.concat(a, zeros, axis)] where [zeros] is numeric: numerics stay
    numeric, otherwise matrix/ops/concat.py:12-25. *)
Definition concat_num (a : mat) (z : tensor) (p : nat) : outcome mat :=
  match a with
  | Nm t => do u <- t_concat_pos [:: t; z] p; ret (Nm u)
  | _ => do _ <- warn_if (structured a); do t <- o_dense self a;
         do u <- t_concat_pos [:: t; z] p; ret (mk_dense u)
  end.
(** [_pad_zero_row], [_pad_zero_col], [_pad_zero_both]: matrix/ops/add.py:149-160. *)
Definition pad_zero_row (a : mat) : outcome mat :=
  do b <- shape_batch a; do s <- shape_of a;
  concat_num a (t_zeros (mdtype a) [:: nth 0%N s 0, 1%N & b]) 1.
Definition pad_zero_col (a : mat) : outcome mat :=
  do b <- shape_batch a; do s <- shape_of a;
  concat_num a (t_zeros (mdtype a) [:: 1%N, nth 0%N s 1 & b]) 0.
Definition pad_zero_both (a : mat) : outcome mat :=
  do x <- pad_zero_row a; pad_zero_col x.
(** [B.take(a, l, axis)] of a numeric array or a [Dense]: matrix/ops/take.py:18-22. *)
Definition take_num (a : mat) (l : seq int) (p : nat) : outcome mat :=
  match a with
  | Nm t => do u <- t_take_pos t (Idx l) p; ret (Nm u)
  | _ => do _ <- warn_if (structured a); do t <- o_dense self a;
         do u <- t_take_pos t (Idx l) p; ret (mk_dense u)
  end.

(** ** align: matrix/ops/algorithms/align.py *)
Definition tol : F := (10%:R ^+ 10)^-1. (* 1e-10 *)
(** [a0[:, i]] *)
Definition t_col (a0 : tensor) (i : nat) : tensor :=
  Tensor (dt a0) [:: trows a0] (fun idx => tget a0 [:: i; head 0%N idx]).
(** [equal(i, j)]: align.py:28-29. *)
Definition col_equal (a0 b0 : tensor) (i j : nat) : outcome bool :=
  do d <- t_sub (t_col a0 i) (t_col b0 j); ret (t_mean_lt (t_map (fun x => x * x) d) tol).
(** [B.sum(B.multiply(a0, a0), axis=0)]: align.py:32-33. *)
Definition norms (a0 : tensor) : seq F :=
  [seq sumf (trows a0) (fun i => tget a0 [:: j; i] * tget a0 [:: j; i]) | j <- iota 0 (tcols a0)].
(** Ghost: are column [i] of [ta] and column [j] of [tb] exactly equal, for
    all rows and batch elements? *)
Definition t_colb (t : tensor) (i : nat) : tensor :=
  Tensor (dt t) (behead (sh t)) (fun idx => tget t (i :: idx)).
Definition t_same (u v : tensor) : bool :=
  if bc (sh u) (sh v) is Some s then allidx s (fun idx => bat u idx == bat v idx) else false.

Record alignment := Alignment {
  al_a : seq int; al_b : seq int; al_ja : seq int; al_jb : seq int }.
Definition al_cons (ia ib ja jb : int) (x : alignment) : alignment :=
  Alignment (ia :: al_a x) (ib :: al_b x) (ja :: al_ja x) (jb :: al_jb x).

(** The while loop (align.py:45-67) and the two final cases (align.py:70-79).
    [sa], [sb] are the remaining sorted indices; [k] bounds the number of
    iterations ([size sa + size sb] suffices, see [align_loop_enough]). *)
Fixpoint align_loop (k : nat) (eq : nat -> nat -> outcome bool) (same : nat -> nat -> bool)
    (na nb : seq F) (sa sb : seq nat) : outcome alignment :=
  match k, sa, sb with
  | _, [::], _ =>
      let m1 := nseq (size sb) (Negz 0) in
      ret (Alignment m1 (map Posz sb) m1 (map Posz sb))
  | _, _, [::] =>
      let m1 := nseq (size sa) (Negz 0) in
      ret (Alignment (map Posz sa) m1 (map Posz sa) m1)
  | O, _, _ => Raise RecursionError
  | k'.+1, i :: sa', j :: sb' =>
      do e <- eq i j;
      if e then
        do _ <- mark_inexact (~~ same i j);
        do x <- align_loop k' eq same na nb sa' sb';
        ret (al_cons (Posz i) (Posz j) (Posz i) (Negz 0) x)
      else if nth 0 na i < nth 0 nb j then
        do x <- align_loop k' eq same na nb sa' sb;
        ret (al_cons (Posz i) (Negz 0) (Posz i) (Negz 0) x)
      else
        do x <- align_loop k' eq same na nb sa sb';
        ret (al_cons (Negz 0) (Posz j) (Negz 0) (Posz j) x)
  end.

(** [align(a, b)]: align.py:4-86, without the control-flow cache for JITs
    (align.py:17-22, 81-84). *)
Definition align (a b : mat) : outcome alignment :=
  do ta <- getitem_dense a; do a0 <- t_first ta;
  do tb <- getitem_dense b; do b0 <- t_first tb;
  let na := norms a0 in
  let nb := norms b0 in
  let sa := argsort na in
  let sb := argsort nb in
  align_loop (size sa + size sb) (col_equal a0 b0)
    (fun i j => t_same (t_colb ta i) (t_colb tb j)) na nb sa sb.

(** ** add: matrix/ops/add.py *)

(** add.py:163-201. *)
Definition add_lr_lr (la ra ma lb rb mb : mat) : outcome mat :=
  do _ <- assert_shapes_compatible (LR la ra ma) (LR lb rb mb);
  do pl <- align la lb;
  do pr <- align ra rb;
  do a_left <- (do x <- pad_zero_col la; take_num x (al_ja pl) 0);
  do b_left <- (do x <- pad_zero_col lb; take_num x (al_jb pl) 0);
  do join_left <- o_add self a_left b_left;
  do a_right <- (do x <- pad_zero_col ra; take_num x (al_ja pr) 0);
  do b_right <- (do x <- pad_zero_col rb; take_num x (al_jb pr) 0);
  do join_right <- o_add self a_right b_right;
  do a_mid <- (do x <- pad_zero_both ma; do y <- take_num x (al_a pl) 1; take_num y (al_a pr) 0);
  do b_mid <- (do x <- pad_zero_both mb; do y <- take_num x (al_b pl) 1; take_num y (al_b pr) 0);
  do join_middle <- o_add self a_mid b_mid;
  do lr <- mk_lowrank join_left (Some join_right) (Some join_middle);
  (* [B.mean(B.abs(join_middle)) < 1e-10]; [join_middle] is numeric or [Dense]. *)
  do jm <- o_dense self join_middle;
  let is_zero := t_mean_lt (t_map (fun x => `|x|) jm) tol in
  do _ <- mark_inexact (is_zero && ~~ allidx (sh jm) (fun idx => tget jm idx == 0));
  if is_zero then zeros_of lr else ret lr.

Definition add_body (i : add_id) (a b : mat) : outcome mat :=
  match i, a, b with
  | AZeroR, _, _ =>
      do _ <- assert_shapes_compatible a b;
      do s <- shape_broadcast2 a b; broadcast_to_step a s
  | AZeroL, _, _ =>
      do _ <- assert_shapes_compatible a b;
      do s <- shape_broadcast2 a b; broadcast_to_step b s
  | AGen, _, _ =>
      do _ <- warn_if (structured a && structured b);
      do x <- o_dense self a; do y <- o_dense self b;
      do z <- t_add x y; ret (mk_dense z)
  | ADense, Dense x, Dense y => do z <- t_add x y; ret (mk_dense z)
  | ADiag, Diag x, Diag y => do z <- t_add x y; mk_diag z
  | AConst, Const x _ _, Const y _ _ =>
      do _ <- assert_shapes_compatible a b;
      do z <- t_add x y; do s <- shape_broadcast2 a b; mk_const z s
  | AConstGen, Const x _ _, _ =>
      do _ <- warn_if (structured b);
      do y <- o_dense self b; do z <- t_add (t_expand11_is x) y;
      do s <- shape_broadcast2 a b; do u <- t_broadcast_to z s; ret (mk_dense u)
  | AConstDiag, Const x _ _, Diag _ =>
      do _ <- assert_shapes_compatible a b;
      do ' (r, c) <- shape_matrix_broadcast2 a b;
      do a' <- const_to_lowrank x r c; o_add self a' b
  | ARev, _, _ => o_add self b a
  | ALT, LT x, LT y => do z <- t_add x y; mk_lt z
  | ALTDiag, LT x, Diag _ => do y <- o_dense self b; do z <- t_add x y; mk_lt z
  | AUT, UT x, UT y => do z <- t_add x y; mk_ut z
  | AUTLT, UT x, LT y => do z <- t_add x y; ret (mk_dense z)
  | AUTDiag, UT x, Diag _ => do y <- o_dense self b; do z <- t_add x y; mk_ut z
  | ALR, LR la ra ma, LR lb rb mb => add_lr_lr la ra ma lb rb mb
  | ALRConst, LR _ _ _, Const y _ _ =>
      do ' (r, c) <- shape_matrix_broadcast2 a b;
      do b' <- const_to_lowrank y r c; o_add self a b'
  | ALRDiag, LR _ _ _, Diag _ => mk_woodbury b a
  | ADiagLR, Diag _, LR _ _ _ => mk_woodbury a b
  | AWb, Wb da la ra ma, Wb db lb rb mb =>
      do x <- o_add self (wb_diag da) (wb_diag db);
      do y <- o_add self (wb_lr la ra ma) (wb_lr lb rb mb); o_add self x y
  | AWbDiag, Wb da la ra ma, Diag _ =>
      do x <- o_add self (wb_diag da) b; o_add self x (wb_lr la ra ma)
  | AWbLR, Wb da la ra ma, _ =>
      do y <- o_add self (wb_lr la ra ma) b; o_add self (wb_diag da) y
  | _, _, _ => Raise AttributeError
  end.

Definition add_step (a b : mat) : outcome mat :=
  match a, b with
  | Nm x, Nm y => do z <- t_add x y; ret (Nm z)
  | _, _ =>
      let a := to_matrix a in let b := to_matrix b in
      do i <- lookup add_table (ty_of_matrix a) (ty_of_matrix b); add_body i a b
  end.

(** ** multiply: matrix/ops/multiply.py *)

(** multiply.py:188-228. *)
Definition mul_lr_lr (la ra ma lb rb mb : mat) : outcome mat :=
  do _ <- assert_shapes_compatible (LR la ra ma) (LR lb rb mb);
  do _ <- warn_if [|| structured la, structured ra, structured lb | structured rb];
  do al <- o_dense self la; do am <- o_dense self ma; do ar <- o_dense self ra;
  do bl <- o_dense self lb; do bm <- o_dense self mb; do br <- o_dense self rb;
  do batch <- shape_batch_broadcast [:: Nm al; Nm am; Nm ar; Nm bl; Nm bm; Nm br];
  do al <- t_broadcast_batch_to al batch; do am <- t_broadcast_batch_to am batch;
  do ar <- t_broadcast_batch_to ar batch; do bl <- t_broadcast_batch_to bl batch;
  do bm <- t_broadcast_batch_to bm batch; do br <- t_broadcast_batch_to br batch;
  do als <- t_unstack al 0; do ars <- t_unstack ar 0;
  do bls <- t_unstack bl 0; do brs <- t_unstack br 0;
  do ams <- (do rows <- t_unstack am 1; mapM (fun x => t_unstack x 0) rows);
  do bms <- (do rows <- t_unstack bm 1; mapM (fun x => t_unstack x 0) rows);
  do sl <- (do xs <- mapM (fun p => t_mul p.1 p.2) [seq (x, y) | x <- als, y <- bls];
              t_stack xs 0);
  do sr <- (do xs <- mapM (fun p => t_mul p.1 p.2) [seq (x, y) | x <- ars, y <- brs];
               t_stack xs 0);
  do sm <- (do xs <- mapM (fun p =>
                       do ys <- mapM (fun q => t_mul q.1 q.2) [seq (x, y) | x <- p.1, y <- p.2];
                       t_stack ys 0) [seq (x, y) | x <- ams, y <- bms];
                t_stack xs 1);
  mk_lowrank (Nm sl) (Some (Nm sr)) (Some (Nm sm)).

Definition mul_body (i : mul_id) (a b : mat) : outcome mat :=
  match i, a, b with
  | MZeroR, _, _ =>
      do _ <- assert_shapes_compatible a b;
      do s <- shape_broadcast2 a b; broadcast_to_step b s
  | MZeroL, _, _ =>
      do _ <- assert_shapes_compatible a b;
      do s <- shape_broadcast2 a b; broadcast_to_step a s
  | MGen, _, _ =>
      do _ <- warn_if (structured a || structured b);
      do x <- o_dense self a; do y <- o_dense self b;
      do z <- t_mul x y; ret (mk_dense z)
  | MDense, Dense x, Dense y => do z <- t_mul x y; ret (mk_dense z)
  | MDiag, Diag x, Diag y => do z <- t_mul x y; mk_diag z
  | MDiagGen, Diag x, _ =>
      do _ <- assert_shapes_compatible a b;
      do ' (rows, cols) <- shape_matrix b;
      do y <- (if rows == 1%N then do t <- o_dense self b; t_squeeze2 t
               else if cols == 1%N then do t <- o_dense self b; t_squeeze1 t
               else o_diag self b);
      do z <- t_mul x y; mk_diag z
  | MRev, _, _ => o_mul self b a
  | MConst, Const x _ _, Const y _ _ =>
      do _ <- assert_shapes_compatible a b;
      do z <- t_mul x y; do s <- shape_broadcast2 a b; mk_const z s
  | MConstGen, Const x _ _, _ =>
      do _ <- assert_shapes_compatible a b;
      do _ <- warn_if (structured b);
      do y <- o_dense self b; do z <- t_mul (t_expand11_is x) y;
      do s <- shape_broadcast2 a b; do u <- t_broadcast_to z s; ret (mk_dense u)
  | MConstDiag, Const x _ _, Diag y =>
      do _ <- assert_shapes_compatible a b;
      do z <- t_mul (t_expand1_is x) y; mk_diag z
  | MLT, LT x, LT y => do z <- t_mul x y; mk_lt z
  | MLTGen, LT x, _ => do y <- o_dense self b; do z <- t_mul x y; mk_lt z
  | MLTConst, LT x, Const y _ _ => do z <- t_mul x (t_expand11_is y); mk_lt z
  | MUT, UT x, UT y => do z <- t_mul x y; mk_ut z
  | MUTLT, UT _, LT _ =>
      do x <- o_diag self a; do y <- o_diag self b; do z <- t_mul x y; mk_diag z
  | MUTGen, UT x, _ => do y <- o_dense self b; do z <- t_mul x y; mk_ut z
  | MUTConst, UT x, Const y _ _ => do z <- t_mul x (t_expand11_is y); mk_ut z
  | MLR, LR la ra ma, LR lb rb mb => mul_lr_lr la ra ma lb rb mb
  | MConstLR, Const x _ _, LR l r m =>
      do _ <- assert_shapes_compatible a b;
      do m' <- o_mul self (Nm (t_expand11_is x)) m; mk_lowrank l (Some r) (Some m')
  | MWbGen, Wb d l r m, _ =>
      do x <- o_mul self (wb_diag d) b; do y <- o_mul self (wb_lr l r m) b; o_add self x y
  | MKron, Kron la ra, Kron lb rb =>
      do sla <- shape_matrix la; do slb <- shape_matrix lb;
      do sra <- shape_matrix ra; do srb <- shape_matrix rb;
      do _ <- require ((sla == slb) && (sra == srb)) AssertionError;
      do l <- o_mul self la lb; do r <- o_mul self ra rb; ret (Kron l r)
  | MConstKron, Const x _ _, Kron l r =>
      do _ <- assert_shapes_compatible a b;
      do l' <- o_mul self (Nm (t_expand11_is x)) l; ret (Kron l' r)
  | _, _, _ => Raise AttributeError
  end.

Definition mul_step (a b : mat) : outcome mat :=
  match a, b with
  | Nm x, Nm y => do z <- t_mul x y; ret (Nm z)
  | _, _ =>
      let a := to_matrix a in let b := to_matrix b in
      do i <- lookup mul_table (ty_of_matrix a) (ty_of_matrix b); mul_body i a b
  end.

(** ** matmul: matrix/ops/matmul.py *)

(** [_tr]: matmul.py:18-19. *)
Definition tr (a : mat) (t : bool) : outcome mat := if t then transpose a else ret a.
(** [_shape_matrix_tr]: matmul.py:22-27. *)
Definition shape_matrix_tr (a : mat) (t : bool) : outcome (nat * nat) :=
  do ' (r, c) <- shape_matrix a; ret (if t then (c, r) else (r, c)).
(** [_assert_composable]: matmul.py:30-37. *)
Definition assert_composable (a b : mat) (ta tb : bool) : outcome unit :=
  do s1 <- shape_matrix_tr a ta; do s2 <- shape_matrix_tr b tb;
  require (s1.2 == s2.1) AssertionError.

(** [B.reshape] of a numeric array or a matrix: matrix/ops/reshape.py:8-14. *)
Definition reshape_mat (a : mat) (ds : seq (option nat)) : outcome tensor :=
  do _ <- warn_if (structured a); do t <- o_dense self a; t_reshape t ds.
(** [_reshape_cols(a, i, j)], [_reshape_rows(a, i, j)]: matmul.py:325-330. *)
Definition reshape_cols (a : mat) (i j : option nat) : outcome tensor :=
  do b <- shape_batch a; do at_ <- transpose a;
  do t <- reshape_mat at_ [:: i, j & map Some b]; t_transpose t.
Definition reshape_rows (a : mat) (i j : option nat) : outcome tensor :=
  do b <- shape_batch a; reshape_mat a [:: j, i & map Some b].
(** [_kron_id_a_b], [_kron_a_id_b]: matmul.py:333-340. *)
Definition kron_id_a_b (a b : mat) : outcome tensor :=
  do sa <- shape_of a; do sb <- shape_of b;
  do reshaped <- reshape_cols b (Some (nth 0%N sa 0)) None;
  do x <- o_matmul self a (Nm reshaped) false false;
  reshape_cols x None (Some (nth 0%N sb 0)).
Definition kron_a_id_b (a b : mat) : outcome tensor :=
  do sa <- shape_of a; do sb <- shape_of b;
  do reshaped <- reshape_rows b (Some (nth 0%N sa 0)) None;
  do x <- o_matmul self a (Nm reshaped) false false;
  reshape_rows x None (Some (nth 0%N sb 0)).

Definition mm_body (i : mm_id) (a b : mat) (ta tb : bool) : outcome mat :=
  match i, a, b with
  | PZeroR, _, Zero d _ _ _ =>
      do _ <- assert_composable a b ta tb;
      do s1 <- shape_matrix_tr a ta; do s2 <- shape_matrix_tr b tb;
      do batch <- shape_batch_broadcast [:: a; b]; ret (Zero d batch s1.1 s2.2)
  | PZeroL, Zero d _ _ _, _ =>
      do _ <- assert_composable a b ta tb;
      do s1 <- shape_matrix_tr a ta; do s2 <- shape_matrix_tr b tb;
      do batch <- shape_batch_broadcast [:: a; b]; ret (Zero d batch s1.1 s2.2)
  | PDense, Dense x, Dense y => do z <- t_matmul x y ta tb; ret (mk_dense z)
  | PDiag, Diag x, Diag y =>
      do _ <- assert_composable a b ta tb; do z <- t_mul x y; mk_diag z
  | PDiagGen, Diag x, _ =>
      do _ <- assert_composable a b ta tb;
      do b' <- tr b tb; o_mul self (mk_dense (t_expand1 x)) b'
  | PGenDiag, _, Diag y =>
      do _ <- assert_composable a b ta tb;
      do a' <- tr a ta; o_mul self a' (mk_dense (t_expand2 y))
  | PConst, Const _ _ _, Const _ _ _ =>
      do _ <- assert_composable a b ta tb;
      do a' <- tr a ta; do b' <- tr b tb;
      match a', b' with
      | Const x r c, Const y _ c' =>
          do z <- t_mul x y; mk_const (t_scale c%:R z) [:: c'; r]
      | _, _ => Raise AttributeError
      end
  | PConstGen, Const _ _ _, _ =>
      do _ <- assert_composable a b ta tb;
      do a' <- tr a ta; do b' <- tr b tb;
      match a' with
      | Const x r _ =>
          do s <- o_sumax self b' false; do m <- fill_diag x 1;
          mk_lowrank (Nm (t_ones (dt x) [:: 1%N; r])) (Some (Nm (t_expand1 s))) (Some m)
      | _ => Raise AttributeError
      end
  | PGenConst, _, Const _ _ _ =>
      do _ <- assert_composable a b ta tb;
      do a' <- tr a ta; do b' <- tr b tb;
      match b' with
      | Const y _ c =>
          do s <- o_sumax self a' true; do m <- fill_diag y 1;
          mk_lowrank (Nm (t_expand1 s)) (Some (Nm (t_ones (dt y) [:: 1%N; c]))) (Some m)
      | _ => Raise AttributeError
      end
  | PLT, LT x, LT y =>
      if ~~ ta && ~~ tb then do z <- t_matmul x y false false; mk_lt z
      else do a' <- tr a ta; do b' <- tr b tb; o_matmul self a' b' false false
  | PLTGen, _, _ =>
      do _ <- warn_if (structured b);
      do x <- o_dense self a; o_matmul self (Nm x) b ta tb
  | PGenLT, _, _ =>
      do _ <- warn_if (structured a);
      do y <- o_dense self b; o_matmul self a (Nm y) ta tb
  | PLTDiag, LT x, Diag _ =>
      if ~~ ta then do z <- o_matmul self (Nm x) b false false; mk_lt_mat z
      else do a' <- tr a ta; o_matmul self a' b false false
  | PDiagLT, Diag _, LT y =>
      if ~~ tb then do z <- o_matmul self a (Nm y) false false; mk_lt_mat z
      else do b' <- tr b tb; o_matmul self a b' false false
  | PUT, UT x, UT y =>
      if ~~ ta && ~~ tb then do z <- t_matmul x y false false; mk_ut z
      else do a' <- tr a ta; do b' <- tr b tb; o_matmul self a' b' false false
  | PUTDiag, UT x, Diag _ =>
      if ~~ ta then do z <- o_matmul self (Nm x) b false false; mk_ut_mat z
      else do a' <- tr a ta; o_matmul self a' b false false
  | PDiagUT, Diag _, UT y =>
      if ~~ tb then do z <- o_matmul self a (Nm y) false false; mk_ut_mat z
      else do b' <- tr b tb; o_matmul self a b' false false
  | PLR, LR _ _ _, LR _ _ _ =>
      do _ <- assert_composable a b ta tb;
      do a' <- tr a ta; do b' <- tr b tb;
      match a', b' with
      | LR la ra ma, LR lb rb mb =>
          do m <- o_matmul self ra lb true false;
          do m <- mm3 ma m mb false false false;
          do s <- shape_matrix m;
          do m <- (if s == (1, 1)%N then
                     (* middle[..., 0, 0]: matrix/matrix.py:56-61 *)
                     do t <- getitem_dense m; do x <- t_get00 t; mk_diag (t_expand1 x)
                   else ret m);
          mk_lowrank la (Some rb) (Some m)
      | _, _ => Raise AttributeError
      end
  | PLRGen, LR _ _ _, _ =>
      do _ <- assert_composable a b ta tb;
      do a' <- tr a ta; do b' <- tr b tb;
      match a' with
      | LR la ra ma => do x <- o_matmul self b' ra true false; mk_lowrank la (Some x) (Some ma)
      | _ => Raise AttributeError
      end
  | PGenLR, _, LR _ _ _ =>
      do _ <- assert_composable a b ta tb;
      do a' <- tr a ta; do b' <- tr b tb;
      match b' with
      | LR lb rb mb => do x <- o_matmul self a' lb false false; mk_lowrank x (Some rb) (Some mb)
      | _ => Raise AttributeError
      end
  | PLRConst, LR _ _ _, Const y r c =>
      do b' <- const_to_lowrank y r c; o_matmul self a b' ta tb
  | PConstLR, Const x r c, LR _ _ _ =>
      do a' <- const_to_lowrank x r c; o_matmul self a' b ta tb
  | PWbGen, Wb d l r m, _ =>
      do x <- o_matmul self (wb_diag d) b ta tb;
      do y <- o_matmul self (wb_lr l r m) b ta tb; o_add self x y
  | PGenWb, _, Wb d l r m =>
      do x <- o_matmul self a (wb_diag d) ta tb;
      do y <- o_matmul self a (wb_lr l r m) ta tb; o_add self x y
  | PKron, Kron la ra, Kron lb rb =>
      do _ <- assert_composable la lb ta tb;
      do _ <- assert_composable ra rb ta tb;
      do l <- o_matmul self la lb ta tb; do r <- o_matmul self ra rb ta tb; ret (Kron l r)
  | PKronGen, Kron _ _, _ =>
      do _ <- assert_composable a b ta tb;
      do a' <- tr a ta; do b' <- tr b tb;
      match a' with
      | Kron kl kr =>
          do ' (l_rows, l_cols) <- shape_matrix kl;
          do ' (r_rows, r_cols) <- shape_matrix kr;
          let cost_first_left := (l_rows * l_cols * r_cols + r_rows * r_cols * l_rows)%N in
          let cost_first_right := (r_rows * r_cols * l_cols + l_rows * l_cols * r_rows)%N in
          if (cost_first_left <= cost_first_right)%N then
            do x <- kron_a_id_b kl b'; do y <- kron_id_a_b kr (Nm x); ret (convert_num y)
          else
            do x <- kron_id_a_b kr b'; do y <- kron_a_id_b kl (Nm x); ret (convert_num y)
      | _ => Raise AttributeError
      end
  | PGenKron, _, Kron _ _ =>
      do x <- o_matmul self b a (~~ tb) (~~ ta); transpose x
  | PKronDiag, Kron _ _, Diag _ =>
      do _ <- warn; do x <- o_dense self a; o_matmul self (Nm x) b ta tb
  | PDiagKron, Diag _, Kron _ _ =>
      do _ <- warn; do y <- o_dense self b; o_matmul self a (Nm y) ta tb
  | _, _, _ => Raise AttributeError
  end.

Definition matmul_step (a b : mat) (ta tb : bool) : outcome mat :=
  match a, b with
  | Nm x, Nm y => do z <- t_matmul x y ta tb; ret (Nm z)
  | _, _ =>
      let a := to_matrix a in let b := to_matrix b in
      do i <- lookup mm_table (ty_of_matrix a) (ty_of_matrix b); mm_body i a b ta tb
  end.

(** ** sum: matrix/ops/sum.py, for axis -1 (position 0) and -2 (position 1) *)
Definition t_sum_ax (t : tensor) (ax : bool) : outcome tensor :=
  t_sum_pos t (if ax then 0%N else 1%N).
Definition sumax_step (a : mat) (ax : bool) : outcome tensor :=
  match a with
  | Nm t => t_sum_ax t ax
  (* sum.py:20-31 *)
  | Zero d b r c => ret (t_zeros d ((if ax then r else c)%N :: b))
  (* sum.py:36-41 *)
  | Dense t | LT t | UT t => t_sum_ax t ax
  (* sum.py:44-50 *)
  | Diag t => ret t
  (* sum.py:56-66 *)
  | Const t r c =>
      t_mul (t_scale (if ax then c else r)%N%:R (t_expand1_is t))
            (t_ones (dt t) ((if ax then r else c)%N :: nseq (size (sh t)) 1%N))
  (* sum.py:72-95 *)
  | LR l r m =>
      if ax then
        do x <- o_matmul self l m false false; do s <- o_sumax self r false;
        do y <- o_mul self x (Nm (t_expand2 s)); o_sumax self y true
      else
        do s <- o_sumax self l false; do x <- o_matmul self r m false true;
        do y <- o_mul self (Nm (t_expand2 s)) x; o_sumax self y true
  (* sum.py:103-112 *)
  | Wb d l r m =>
      do x <- o_sumax self (wb_diag d) ax; do y <- o_sumax self (wb_lr l r m) ax; t_add x y
  (* sum.py:120-134 *)
  | Kron l r =>
      do x <- o_sumax self l ax; do y <- o_sumax self r ax;
      do z <- t_mul (t_expand1 x) (t_expand2 y);
      do b <- shape_batch a; do ' (rows, cols) <- shape_matrix a;
      t_reshape z (map Some ((if ax then rows else cols) :: b))
  end.

(** axis=None *)
Definition sumall_step (a : mat) : outcome tensor :=
  match a with
  | Nm t => ret (t_sum_all t)
  | Zero d _ _ _ => ret (t_scalar d 0)
  | Dense t | LT t | UT t => ret (t_sum_all t)
  | Diag t => ret (t_sum_all t)
  | Const t r c => ret (t_scale c%:R (t_scale r%:R (t_sum_all t)))
  | LR l r m =>
      do lm <- o_matmul self l m false false;
      do x <- o_sumax self lm false; do y <- o_sumax self r false;
      do z <- t_mul x y; ret (t_sum_all z)
  | Wb d l r m =>
      do x <- o_sumax self (wb_diag d) true; do x <- t_sum_pos x 0;
      do y <- o_sumax self (wb_lr l r m) true; do y <- t_sum_pos y 0;
      do z <- t_add y x; ret (t_sum_all z)
  | Kron l r =>
      do x <- o_sumax self l true; do x <- t_sum_pos x 0;
      do y <- o_sumax self r true; do y <- t_sum_pos y 0;
      do z <- t_mul x y; ret (t_sum_all z)
  end.

(** ** diag: matrix/ops/diag.py:19-69.  [B.diag] of a numeric matrix is LAB's
    [diag_extract]. *)
Definition diag_len (a : mat) : outcome nat :=
  do ' (r, c) <- shape_matrix a; ret (minn r c).
Definition diag_step (a : mat) : outcome tensor :=
  match a with
  | Nm t => t_diag_extract t
  | Zero d b _ _ => do n <- diag_len a; ret (t_zeros d (n :: b))
  | Dense t | LT t | UT t => t_diag_extract t
  | Diag t => ret t
  | Const t _ _ =>
      do n <- diag_len a; t_mul (t_expand1_is t) (t_ones (dt t) (n :: sh t))
  | LR l r m =>
      do _ <- warn_if (structured l || structured r);
      do n <- diag_len a;
      do lm <- o_matmul self l m false false; do x <- o_dense self lm;
      do y <- o_dense self r;
      do z <- t_mul (t_firstrows x n) (t_firstrows y n); t_sum_pos z 0
  | Wb d l r m =>
      do x <- o_diag self (wb_diag d); do y <- o_diag self (wb_lr l r m); t_add x y
  | Kron l r =>
      do lr <- align_batch [:: l; r];
      do x <- o_diag self (nth l lr 0); do y <- o_diag self (nth r lr 1); t_kron1 x y
  end.

End Bodies.

Definition ops_step (self : ops) : ops := Ops
  (dense_step self) (matmul_step self) (add_step self) (mul_step self)
  (sumax_step self) (sumall_step self) (diag_step self).
Definition ops_bot : ops := Ops
  (fun _ => Raise RecursionError) (fun _ _ _ _ => Raise RecursionError)
  (fun _ _ => Raise RecursionError) (fun _ _ => Raise RecursionError)
  (fun _ _ => Raise RecursionError) (fun _ => Raise RecursionError)
  (fun _ => Raise RecursionError).
(** The operations with recursion depth at most [n]. *)
Fixpoint ops_n (n : nat) : ops := if n is n'.+1 then ops_step (ops_n n') else ops_bot.

End Ops.
