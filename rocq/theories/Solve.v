(** * Inverses, factorisations, solves and what is built on them

    Model of matrix/ops/{inv,pd_inv,schur,pd_schur,cholesky,cholesky_solve,solve,triangular_solve,logdet,iqf,
    iqf_diag,ratio,root,sample}.py.  [o] is the record of core operations; recursion which is not structural
    is bounded by the fuel [k].  The caches of [cholesky] and [schur] are left out here (see Cache.v). *)
From mathcomp Require Import all_ssreflect all_algebra.
From Verif Require Import Outcome Shape Tensor Mat Dispatch Ops Ops2 Backend.
Set Implicit Arguments. Unset Strict Implicit. Unset Printing Implicit Defensive.
Import GRing.Theory Num.Theory.
Local Open Scope ring_scope.

(** matrix/ops/solve.py *)
Inductive solve_id := SZero (* 16-18 *) | SGen (* 21-28 *) | SDiag (* 31-33 *) | SLT (* 36-43 *) | SUT (* 46-53 *) | SWb (* 56-59 *).
Definition solve_table : option (table solve_id) :=
  Some [::]
  |> reg PAny (PT TZero) 1 SZero
  |> reg PAny PAny 0 SGen
  |> reg (PT TDiag) PAny 0 SDiag
  |> reg (PT TLT) PAny 0 SLT
  |> reg (PT TUT) PAny 0 SUT
  |> reg (PT TWb) PAny 0 SWb.
(** matrix/ops/cholesky_solve.py: a [Union] annotation stands for one method per member. *)
Inductive csolve_id := CTri (* 13-18 *) | CKron (* 21-26 *).
Definition csolve_table : option (table csolve_id) :=
  Some [::]
  |> reg (PT TDiag) PAny 0 CTri |> reg (PT TLT) PAny 0 CTri |> reg (PT TUT) PAny 0 CTri
  |> reg (PT TKron) (PT TKron) 0 CKron.
(** matrix/ops/triangular_solve.py *)
Inductive tsolve_id := TsLT (* 10-17 *) | TsUT (* 20-27 *).
Definition tsolve_table : option (table tsolve_id) :=
  Some [::] |> reg (PT TLT) PAny 0 TsLT |> reg (PT TUT) PAny 0 TsUT.

Section Solve.
Variable F : rcfType.
Notation tensor := (tensor F).
Notation mat := (mat F).
Variable o : ops F.

(** [B.inv(a.diag)], the inverse of a [Diagonal]: inv.py:18-20. *)
Definition diag_inv (d : tensor) : outcome mat := do u <- t_div (t_scalar weak 1) d; mk_diag u.
(** ** schur, pd_schur: schur.py:20-23, pd_schur.py:20-23; [inv] inverts the middle factor. *)
Definition schur_with (inv : mat -> outcome mat) (d : tensor) (l r m : mat) : outcome mat :=
  do di <- diag_inv d;
  do second <- mm3 o r di l true false false;
  do mi <- inv m;
  o_add o mi second.
(** The inverse of a Woodbury matrix: inv.py:24-36, pd_inv.py:38-49. *)
Definition woodbury_inv (inv : mat -> outcome mat) (d : tensor) (l r m : mat) : outcome mat :=
  do di <- diag_inv d;
  do x <- o_matmul o di l false false;
  do y <- o_matmul o di r false false;
  do s <- schur_with inv d l r m;
  do si <- inv s;
  do lr <- mk_lowrank x (Some y) (Some si);
  subtract o di lr.
(** ** inv: inv.py:13-40; numerics: LAB. *)
Fixpoint inv_n (k : nat) (a : mat) : outcome mat :=
  match k with
  | 0 => Raise RecursionError
  | k'.+1 =>
      match a with
      | Nm t => do u <- t_inv t; ret (Nm u)
      | Dense t => do u <- t_inv t; ret (mk_dense u)
      | Diag t => diag_inv t
      | Wb d l r m => woodbury_inv (inv_n k') d l r m
      | Kron l r => do x <- inv_n k' l; do y <- inv_n k' r; ret (Kron x y)
      | _ => Raise NotFoundLookup
      end
  end.
(** [B.schur(a)]: schur.py:9-23 *)
Definition schur_n (k : nat) (a : mat) : outcome mat :=
  match a with Wb d l r m => schur_with (inv_n k) d l r m | _ => Raise NotFoundLookup end.

(** ** cholesky: cholesky.py:22-75; numerics: LAB. *)
Fixpoint cholesky (a : mat) : outcome mat :=
  match a with
  | Nm t => do u <- t_chol t; ret (Nm u)
  | Zero _ _ _ _ => do _ <- assert_square a; ret a
  | Dense t => do _ <- assert_square a; do u <- t_chol t; mk_lt u
  | Diag t => do _ <- assert_square a; mk_diag (t_map Num.sqrt t)
  | Const t r c =>
      do _ <- assert_square a;
      do u <- t_div (t_map Num.sqrt t) (t_scalar DFloat64 (Num.sqrt c%:R)); mk_const u [:: c; r]
  | LR l _ m => do _ <- assert_square a; do x <- cholesky m; o_matmul o l x false false
  | Wb _ _ _ _ => do _ <- warn; do t <- o_dense o a; do u <- t_chol t; mk_lt u
  | Kron l r => do x <- cholesky l; do y <- cholesky r; ret (Kron x y)
  | LT _ | UT _ => Raise NotFoundLookup
  end.

(** ** solve: solve.py:16-59; numerics: LAB. *)
Definition solve_body (k : nat) (i : solve_id) (a b : mat) : outcome mat :=
  match i, a with
  | SZero, _ => ret b
  | SGen, _ =>
      do _ <- warn_if (structured a || structured b);
      do ab <- align_batch [:: a; b];
      do x <- o_dense o (nth a ab 0); do y <- o_dense o (nth b ab 1);
      do u <- t_solve x y; ret (Nm u)
  | SDiag, _ | SWb, _ => do ai <- inv_n k a; o_matmul o ai b false false
  | SLT, LT t =>
      do _ <- warn_if (structured b);
      do ab <- align_batch [:: Nm t; b];
      do x <- o_dense o (nth a ab 0); do y <- o_dense o (nth b ab 1);
      do u <- t_trisolve x y true; ret (mk_dense u)
  | SUT, UT t =>
      do _ <- warn_if (structured b);
      do ab <- align_batch [:: Nm t; b];
      do x <- o_dense o (nth a ab 0); do y <- o_dense o (nth b ab 1);
      do u <- t_trisolve x y false; ret (mk_dense u)
  | _, _ => Raise AttributeError
  end.
Definition solve_m (k : nat) (a b : mat) : outcome mat :=
  do i <- lookup solve_table (ty_of_matrix a) (ty_of_matrix b); solve_body k i a b.
Definition solve (k : nat) (a b : mat) : outcome mat :=
  match a, b with
  | Nm x, Nm y => do u <- t_solve x y; ret (Nm u)
  | _, _ => solve_m k (to_matrix a) (to_matrix b)
  end.

(** ** triangular_solve: triangular_solve.py:10-27.  The warning about the flag is a [UserWarning], which is not
    recorded. *)
Definition triangular_solve (k : nat) (a b : mat) (lower_a : bool) : outcome mat :=
  match a, b with
  | Nm x, Nm y => do u <- t_trisolve x y lower_a; ret (Nm u)
  | _, _ => do i <- lookup tsolve_table (ty_of_matrix (to_matrix a)) (ty_of_matrix (to_matrix b)); solve k (to_matrix a) (to_matrix b)
  end.

(** ** cholesky_solve: cholesky_solve.py:13-26, for a matrix [a] (numerics: LAB, not called by the library). *)
Fixpoint cholesky_solve (k : nat) (a b : mat) : outcome mat :=
  do i <- lookup csolve_table (ty_of_matrix a) (ty_of_matrix (to_matrix b));
  match i, a, b with
  | CTri, _, _ => do x <- solve k a (to_matrix b); do a' <- transpose a; solve k a' x
  | CKron, Kron l r, Kron l' r' =>
      do x <- cholesky_solve k l l'; do y <- cholesky_solve k r r'; ret (Kron x y)
  | CKron, _, _ => Raise AttributeError
  end.

(** ** pd_inv: pd_inv.py:15-54 *)
Fixpoint pd_inv_n (k : nat) (a : mat) : outcome mat :=
  match k with
  | 0 => Raise RecursionError
  | k'.+1 =>
      match a with
      | Diag t => diag_inv t
      | Wb d l r m => woodbury_inv (pd_inv_n k') d l r m
      | Kron l r => do x <- pd_inv_n k' l; do y <- pd_inv_n k' r; ret (Kron x y)
      | _ =>
          let a := to_matrix a in
          do c <- cholesky a; do e <- eye_of a; do t <- o_dense o e; cholesky_solve k' c (Nm t)
      end
  end.
(** [B.pd_schur(a)]: pd_schur.py:9-23 *)
Definition pd_schur_n (k : nat) (a : mat) : outcome mat :=
  match a with Wb d l r m => schur_with (pd_inv_n k) d l r m | _ => Raise NotFoundLookup end.

(** ** logdet: logdet.py:15-41; numerics: LAB.  [log] is LAB's logarithm. *)
Variable log : F -> F.
Definition logdet_diag (a : mat) : outcome tensor :=
  do t <- o_diag o a; t_sum_pos (t_log log t) 0.
Fixpoint logdet_n (k : nat) (a : mat) : outcome tensor :=
  match k with
  | 0 => Raise RecursionError
  | k'.+1 =>
      match a with
      | Nm t => t_logdet log t
      | Diag _ | LT _ | UT _ => logdet_diag a
      | Wb d l r m =>
          do x <- logdet_n k' (wb_diag d);
          do y <- logdet_n k' m;
          do xy <- t_add x y;
          do s <- pd_schur_n k' a;
          do z <- logdet_n k' s; t_add xy z
      | Kron l r =>
          do _ <- assert_square l; do _ <- assert_square r;
          do ' (n, _) <- shape_matrix l; do ' (m, _) <- shape_matrix r;
          do x <- logdet_n k' l; do y <- logdet_n k' r;
          t_add (t_scale m%:R x) (t_scale n%:R y)
      | _ => do c <- cholesky a; do t <- logdet_n k' c; ret (t_scale 2%:R t)
      end
  end.

(** ** iqf, iqf_diag: iqf.py:9-40, iqf_diag.py:9-40.  [same]: [c is b]. *)
Definition iqf_parts (k : nat) (a b c : mat) (same : bool) : outcome (mat * mat) :=
  do chol <- cholesky a;
  do cb <- solve k chol b;
  do cc <- (if same then ret cb else solve k chol c);
  ret (cb, cc).
Definition iqf (k : nat) (a b c : mat) (same : bool) : outcome mat :=
  match a with
  | Wb _ _ _ _ => do ai <- pd_inv_n k a; mm3 o b ai c true false false
  | _ => do ' (cb, cc) <- iqf_parts k a b c same; o_matmul o cb cc true false
  end.
Definition iqf2 (k : nat) (a b : mat) : outcome mat := iqf k a b b true.
Definition iqf_diag (k : nat) (a b c : mat) (same : bool) : outcome tensor :=
  match a with
  | Wb _ _ _ _ => do ai <- pd_inv_n k a; do x <- o_matmul o ai c false false; matmul_diag o b x true false
  | _ => do ' (cb, cc) <- iqf_parts k a b c same; matmul_diag o cb cc true false
  end.
Definition iqf_diag2 (k : nat) (a b : mat) : outcome tensor := iqf_diag k a b b true.

(** ** ratio: ratio.py:9-38 *)
Definition trace_mm (a b : mat) : outcome tensor := do x <- o_matmul o a b false false; trace o x.
Definition ratio (k : nat) (a b : mat) : outcome tensor :=
  match b with
  | Wb _ _ _ _ =>
      do bi <- pd_inv_n k b;
      match bi with
      | Wb d' l' r' m' =>
          match a with
          | Wb d l r m =>
              do x <- trace_mm (wb_diag d) bi;
              do y <- trace_mm (wb_lr l r m) (wb_diag d'); do xy <- t_add x y;
              do z <- trace_mm (wb_lr l r m) (wb_lr l' r' m'); t_add xy z
          | _ =>
              do x <- trace_mm a (wb_diag d'); do y <- trace_mm a (wb_lr l' r' m'); t_add x y
          end
      | _ => Raise AttributeError
      end
  | _ => do chol <- cholesky a; do t <- iqf_diag2 k b chol; t_sum_pos t 0
  end.

(** ** root: root.py:40-73; numerics: [t_root]. *)
Variable svd : forall n, 'M[F]_n -> 'M[F]_n * 'rV[F]_n * 'M[F]_n.
Fixpoint root (a : mat) : outcome mat :=
  match a with
  | Nm t => do _ <- assert_square a; do u <- t_root svd t; ret (Nm u)
  | Zero _ _ _ _ => do _ <- assert_square a; ret a
  | Dense t => do _ <- assert_square (Nm t); do u <- t_root svd t; ret (mk_dense u)
  | Diag _ | Const _ _ _ => do _ <- assert_square a; cholesky a
  | LR _ _ _ | Wb _ _ _ _ =>
      do _ <- warn; do t <- o_dense o a; do _ <- assert_square (Nm t); do u <- t_root svd t; ret (mk_dense u)
  | Kron l r => do x <- root l; do y <- root r; ret (Kron x y)
  | LT _ | UT _ => Raise NotFoundLookup
  end.

(** ** sample: sample.py:9-45.  [randn] is LAB's generator of normal noise: it maps a state, a data type and a shape
    (innermost axis first) to the next state and the noise. *)
Variable state : Type.
Variable randn : state -> dtype -> shape -> state * tensor.
Definition sample_gen (st : state) (a : mat) (num : nat) : outcome (state * mat) :=
  do chol <- cholesky a;
  do b <- shape_batch a;
  do ' (_, w) <- shape_matrix chol;
  let: (st', noise) := randn st (float_of (mdtype a)) [:: num, w & b] in
  do x <- o_matmul o chol (Nm noise) false false;
  ret (st', x).
Definition sample (st : state) (a : mat) (num : nat) : outcome (state * mat) :=
  match a with
  | Wb d l r m =>
      do ' (st', x) <- sample_gen st (wb_diag d) num;
      do ' (st'', y) <- sample_gen st' (wb_lr l r m) num;
      do z <- o_add o x y; ret (st'', z)
  | _ => sample_gen st a num
  end.
End Solve.
