(** * The linear-algebra backend: inverses, factorisations and solves of arrays

    None of this code is in /repo: these are the numeric functions of LAB (NumPy, SciPy)
    which matrix/ops/{inv,cholesky,solve,root,logdet}.py call on dense arrays, in exact
    arithmetic.  Inverse, triangular solve and Cholesky factor are mathematically unique,
    so they are defined, not axiomatised.  A backend call on a batch fails ([LinAlgError])
    if it fails on one of the matrices of the batch. *)
From mathcomp Require Import all_ssreflect all_algebra.
From Verif Require Import Outcome Shape Tensor.
Set Implicit Arguments. Unset Strict Implicit. Unset Printing Implicit Defensive.
Import GRing.Theory Num.Theory.
Local Open Scope ring_scope.

(** The data type of the result of a factorisation. *)
Definition float_of (d : dtype) : dtype := match d with DBool | DInt => DFloat64 | _ => d end.

Section Backend.
Variable F : rcfType.
Notation tensor := (tensor F).

(** Matrices of mathcomp and functions of two natural numbers. *)
Definition gmx n m (g : nat -> nat -> F) : 'M[F]_(n, m) := \matrix_(i, j) g i j.
Definition mget n m (A : 'M[F]_(n, m)) (i j : nat) : F :=
  oapp (fun i' => oapp (fun j' => A i' j') 0 (insub j)) 0 (insub i).

(** The lower Cholesky factor, which reads the lower triangle only. *)
Fixpoint chol_f n : 'M[F]_n -> 'M[F]_n :=
  match n with
  | 0 => fun A => A
  | n'.+1 => fun A : 'M[F]_(1 + n') =>
      let a := A 0 0 in
      let b := dlsubmx A : 'cV_n' in
      block_mx (Num.sqrt a)%:M 0 ((Num.sqrt a)^-1 *: b) (chol_f (drsubmx A - a^-1 *: (b *m b^T)))
  end.
(** It exists: all pivots are positive. *)
Fixpoint chol_ok n : 'M[F]_n -> bool :=
  match n with
  | 0 => fun A => true
  | n'.+1 => fun A : 'M[F]_(1 + n') =>
      let a := A 0 0 in
      let b := dlsubmx A : 'cV_n' in
      (0 < a) && chol_ok (drsubmx A - a^-1 *: (b *m b^T))
  end.

(** A function of the square matrices of a batch. *)
Definition t_square (ok : forall n, 'M[F]_n -> bool) (f : forall n, 'M[F]_n -> 'M[F]_n) (t : tensor) : outcome tensor :=
  match sh t with
  | c :: r :: b =>
      if (c == r) && allidx b (fun be => ok r (gmx r r (mx t be))) then
        ret (Tensor (float_of (dt t)) [:: r, r & b]
          (fun idx => if idx is j :: i :: be then mget (f r (gmx r r (mx t be))) i j else 0))
      else Raise LinAlgError
  | _ => Raise LinAlgError
  end.
(** [B.inv], [B.cholesky] *)
Definition t_inv : tensor -> outcome tensor := t_square (fun n A => A \in unitmx) (fun n A => invmx A).
Definition t_chol : tensor -> outcome tensor := t_square chol_ok chol_f.

(** Solving [S(a) x = b] where [S] selects the entries of [a] which the routine reads. *)
Definition t_solve_sel (sel : nat -> nat -> bool) (a b : tensor) : outcome tensor :=
  match sh a, sh b with
  | ca :: ra :: ba, cb :: rb :: bb =>
      if (ca == ra) && (ra == rb) then
        match bc ba bb with
        | Some s =>
            let A be := gmx ra ra (fun i j => if sel i j then mx a be i j else 0) in
            if allidx s (fun be => A be \in unitmx) then
              ret (Tensor (float_of (promote (dt a) (dt b))) [:: cb, ra & s]
                (fun idx => if idx is j :: i :: be then mget (invmx (A be) *m gmx ra cb (mx b be)) i j else 0))
            else Raise LinAlgError
        | None => Raise ValueError
        end
      else Raise ValueError
  | _, _ => Raise ValueError
  end.
(** [B.solve], [B.trisolve(..., lower_a)] *)
Definition t_solve : tensor -> tensor -> outcome tensor := t_solve_sel (fun _ _ => true).
Definition t_trisolve (a b : tensor) (lower : bool) : outcome tensor :=
  t_solve_sel (fun i j => if lower then (j <= i)%N else (i <= j)%N) a b.
(** [B.logdet] of an array: twice the sum of the logarithms of the diagonal of the Cholesky factor.  [log] is LAB's
    logarithm. *)
Definition t_log (log : F -> F) (t : tensor) : tensor :=
  Tensor (float_of (dt t)) (sh t) (fun idx => log (tget t idx)).
Definition t_logdet (log : F -> F) (t : tensor) : outcome tensor :=
  do u <- t_chol t; do d <- t_diag_extract u; do s <- t_sum_pos (t_log log d) 0; ret (t_scale 2%:R s).

(** [root] of an array: matrix/ops/root.py:22-37.  [svd] is LAB's singular value decomposition of one matrix (left
    singular vectors, singular values, right singular vectors); the batched product of line 37 is written as a
    matrix product. *)
Definition t_root (svd : forall n, 'M[F]_n -> 'M[F]_n * 'rV[F]_n * 'M[F]_n) : tensor -> outcome tensor :=
  t_square (fun _ _ => true)
    (fun n A => let '(u, s, _) := svd n A in u *m diag_mx (map_mx Num.sqrt s) *m u^T).
End Backend.
