(** * Caches

    Model of the caches on matrix objects: [a.dense] (matrix/ops/dense.py:42-44, 54-56, 61-64, 69-71, 76-78, 83-86),
    [a.cholesky] (matrix/ops/cholesky.py:30-32, 38-40, 46-49, 55-57, 62-68, 73-75) and [a.schur]
    (matrix/ops/schur.py:20-23 and matrix/ops/pd_schur.py:19-22, which share one slot).

    Ops.v and Solve.v model the methods with all slots empty.  Here every method with a slot first asks an
    oracle, the slots at the time of the call, and the histories of calls which may have filled the slots are modelled
    by the inductive predicate [stored].

    Simplifications.  Objects are identified by their contents (the library never changes the contents of an object): an
    oracle may answer for some objects with the contents [a] and not for others only through the recursion depth.  This
    allows more hits than the program has: an object may find what was computed for another object with the
    same contents.  During one call the slots of the oracle do not change, so that a value which the call itself
    has stored is computed again rather than found.  Data types without a slot (Dense for dense, Zero for cholesky) may find their value too.
    The slot [_middle_default] of LowRank (lowrank.py) holds a constant and is left out. *)
From mathcomp Require Import all_ssreflect all_algebra.
From Verif Require Import Outcome Shape Tensor Mat Dispatch Ops Ops2 Backend Solve.
Set Implicit Arguments. Unset Strict Implicit. Unset Printing Implicit Defensive.
Import GRing.Theory Num.Theory.
Local Open Scope ring_scope.

Section Cache.
Variable F : rcfType.
Notation tensor := (tensor F).
Notation mat := (mat F).

(** The contents of the slots.  [c_schur p] is what [B.schur] (if [p = false]) or [B.pd_schur] (if [p = true]) finds, together with
    the function which has stored it. *)
Record caches := Caches {
  c_dense : nat -> mat -> option tensor;
  c_chol : mat -> option mat;
  c_schur : bool -> mat -> option (bool * mat) }.
Definition no_caches : caches := Caches (fun _ _ => None) (fun _ => None) (fun _ _ => None).

(** [if a.slot is None: compute]; [return a.slot] *)
Definition cached A (slot : option A) (compute : outcome A) : outcome A := if slot is Some v then ret v else compute.

Section Bodies.
Variable o : ops F.
(** cholesky.py:22-75, as [Solve.cholesky]. *)
Definition cholesky_body (rec : mat -> outcome mat) (a : mat) : outcome mat :=
  match a with
  | Nm t => do u <- t_chol t; ret (Nm u)
  | Zero _ _ _ _ => do _ <- assert_square a; ret a
  | Dense t => do _ <- assert_square a; do u <- t_chol t; mk_lt u
  | Diag t => do _ <- assert_square a; mk_diag (t_map Num.sqrt t)
  | Const t r c =>
      do _ <- assert_square a;
      do u <- t_div (t_map Num.sqrt t) (t_scalar DFloat64 (Num.sqrt c%:R)); mk_const u [:: c; r]
  | LR l _ m => do _ <- assert_square a; do x <- rec m; o_matmul o l x false false
  | Wb _ _ _ _ => do _ <- warn; do t <- o_dense o a; do u <- t_chol t; mk_lt u
  | Kron l r => do x <- rec l; do y <- rec r; ret (Kron x y)
  | LT _ | UT _ => Raise NotFoundLookup
  end.
(** inv.py:24-36, pd_inv.py:38-49, as [Solve.woodbury_inv]. *)
Definition woodbury_inv_body (schur : outcome mat) (inv : mat -> outcome mat) (d : tensor) (l r m : mat) : outcome mat :=
  do di <- diag_inv d;
  do x <- o_matmul o di l false false;
  do y <- o_matmul o di r false false;
  do s <- schur;
  do si <- inv s;
  do lr <- mk_lowrank x (Some y) (Some si);
  subtract o di lr.
(** inv.py:13-40, as [Solve.inv_n]. *)
Definition inv_body (schur inv : mat -> outcome mat) (a : mat) : outcome mat :=
  match a with
  | Nm t => do u <- t_inv t; ret (Nm u)
  | Dense t => do u <- t_inv t; ret (mk_dense u)
  | Diag t => diag_inv t
  | Wb d l r m => woodbury_inv_body (schur a) inv d l r m
  | Kron l r => do x <- inv l; do y <- inv r; ret (Kron x y)
  | _ => Raise NotFoundLookup
  end.
(** schur.py:9-23, pd_schur.py:9-23 with an empty slot. *)
Definition schur_body (inv : mat -> outcome mat) (a : mat) : outcome mat :=
  match a with Wb d l r m => schur_with o inv d l r m | _ => Raise NotFoundLookup end.
(** solve.py:16-59, as [Solve.solve]. *)
Definition solve_body_c (inv : mat -> outcome mat) (i : solve_id) (a b : mat) : outcome mat :=
  match i, a with
  | SZero, _ => ret b
  | SGen, _ =>
      do _ <- warn_if (structured a || structured b);
      do ab <- align_batch [:: a; b];
      do x <- o_dense o (nth a ab 0); do y <- o_dense o (nth b ab 1);
      do u <- t_solve x y; ret (Nm u)
  | SDiag, _ | SWb, _ => do ai <- inv a; o_matmul o ai b false false
  | SLT, LT t =>
      do _ <- warn_if (structured b);
      do ab <- align_batch [:: Nm t; b];
      do x <- o_dense o (nth a ab 0); do y <- o_dense o (nth b ab 1);
      do u <- t_trisolve x y true; ret (mk_dense u)
  | SUT, UT t =>
      do _ <- warn_if (structured b);
      do ab <- align_batch [:: Nm t; b];
      do x <- o_dense o (nth a ab 0); do y <- o_dense o (nth b ab 1);
      do u <- t_trisolve x y false; ret (mk_dense u)
  | _, _ => Raise AttributeError
  end.
Definition solve_m_c (inv : mat -> outcome mat) (a b : mat) : outcome mat :=
  do i <- lookup solve_table (ty_of_matrix a) (ty_of_matrix b); solve_body_c inv i a b.
Definition solve_c (inv : mat -> outcome mat) (a b : mat) : outcome mat :=
  match a, b with
  | Nm x, Nm y => do u <- t_solve x y; ret (Nm u)
  | _, _ => solve_m_c inv (to_matrix a) (to_matrix b)
  end.
(** cholesky_solve.py:13-26, as [Solve.cholesky_solve]. *)
Fixpoint cholesky_solve_c (inv : mat -> outcome mat) (a b : mat) : outcome mat :=
  do i <- lookup csolve_table (ty_of_matrix a) (ty_of_matrix (to_matrix b));
  match i, a, b with
  | CTri, _, _ => do x <- solve_c inv a (to_matrix b); do a' <- transpose a; solve_c inv a' x
  | CKron, Kron l r, Kron l' r' =>
      do x <- cholesky_solve_c inv l l'; do y <- cholesky_solve_c inv r r'; ret (Kron x y)
  | CKron, _, _ => Raise AttributeError
  end.
(** pd_inv.py:15-54, as [Solve.pd_inv_n]. *)
Definition pd_inv_body (chol inv pd_schur pd_inv : mat -> outcome mat) (a : mat) : outcome mat :=
  match a with
  | Diag t => diag_inv t
  | Wb d l r m => woodbury_inv_body (pd_schur a) pd_inv d l r m
  | Kron l r => do x <- pd_inv l; do y <- pd_inv r; ret (Kron x y)
  | _ =>
      let a := to_matrix a in
      do c <- chol a; do e <- eye_of a; do t <- o_dense o e; cholesky_solve_c inv c (Nm t)
  end.
(** logdet.py:15-41, as [Solve.logdet_n]. *)
Variable log : F -> F.
Definition logdet_body (chol pd_schur : mat -> outcome mat) (logdet : mat -> outcome tensor) (a : mat) : outcome tensor :=
  match a with
  | Nm t => t_logdet log t
  | Diag _ | LT _ | UT _ => logdet_diag o log a
  | Wb d l r m =>
      do x <- logdet (wb_diag d);
      do y <- logdet m;
      do xy <- t_add x y;
      do s <- pd_schur a;
      do z <- logdet s; t_add xy z
  | Kron l r =>
      do _ <- assert_square l; do _ <- assert_square r;
      do ' (n, _) <- shape_matrix l; do ' (m, _) <- shape_matrix r;
      do x <- logdet l; do y <- logdet r;
      t_add (t_scale m%:R x) (t_scale n%:R y)
  | _ => do c <- chol a; do t <- logdet c; ret (t_scale 2%:R t)
  end.
End Bodies.

(** ** The operations in the presence of caches, with recursion depth at most [k] *)
Variable argsort : seq F -> seq nat.
Variable log : F -> F.
Variable w : caches.
(** The core operations: only [dense] has a slot. *)
Fixpoint cops (n : nat) : ops F :=
  match n with
  | 0 => ops_bot F
  | n'.+1 =>
      let s := ops_step argsort (cops n') in
      Ops (fun a => cached (c_dense w n' a) (o_dense s a)) (o_matmul s) (o_add s) (o_mul s) (o_sumax s) (o_sumall s) (o_diag s)
  end.
Section Rec.
Variable o : ops F.
Fixpoint cholesky_c (a : mat) : outcome mat :=
  cached (c_chol w a) (cholesky_body o cholesky_c a).
Fixpoint inv_c (k : nat) (a : mat) : outcome mat :=
  match k with
  | 0 => Raise RecursionError
  | k'.+1 => inv_body o (fun a => cached (omap snd (c_schur w false a)) (schur_body o (inv_c k') a)) (inv_c k') a
  end.
Definition schur_c (k : nat) (a : mat) : outcome mat := cached (omap snd (c_schur w false a)) (schur_body o (inv_c k) a).
Fixpoint pd_inv_c (k : nat) (a : mat) : outcome mat :=
  match k with
  | 0 => Raise RecursionError
  | k'.+1 =>
      pd_inv_body o cholesky_c (inv_c k') (fun a => cached (omap snd (c_schur w true a)) (schur_body o (pd_inv_c k') a)) (pd_inv_c k') a
  end.
Definition pd_schur_c (k : nat) (a : mat) : outcome mat := cached (omap snd (c_schur w true a)) (schur_body o (pd_inv_c k) a).
Fixpoint logdet_c (k : nat) (a : mat) : outcome tensor :=
  match k with
  | 0 => Raise RecursionError
  | k'.+1 => logdet_body o log cholesky_c (pd_schur_c k') (logdet_c k') a
  end.
(** iqf.py:9-40, iqf_diag.py:9-40, ratio.py:9-38, as in Solve.v *)
Definition solve_k (k : nat) (a b : mat) := solve_c o (inv_c k) a b.
Definition iqf_parts_c (k : nat) (a b c : mat) (same : bool) : outcome (mat * mat) :=
  do chol <- cholesky_c a;
  do cb <- solve_k k chol b;
  do cc <- (if same then ret cb else solve_k k chol c);
  ret (cb, cc).
Definition iqf_c (k : nat) (a b c : mat) (same : bool) : outcome mat :=
  match a with
  | Wb _ _ _ _ => do ai <- pd_inv_c k a; mm3 o b ai c true false false
  | _ => do ' (cb, cc) <- iqf_parts_c k a b c same; o_matmul o cb cc true false
  end.
Definition iqf_diag_c (k : nat) (a b c : mat) (same : bool) : outcome tensor :=
  match a with
  | Wb _ _ _ _ => do ai <- pd_inv_c k a; do x <- o_matmul o ai c false false; matmul_diag o b x true false
  | _ => do ' (cb, cc) <- iqf_parts_c k a b c same; matmul_diag o cb cc true false
  end.
Definition ratio_c (k : nat) (a b : mat) : outcome tensor :=
  match b with
  | Wb _ _ _ _ =>
      do bi <- pd_inv_c k b;
      match bi with
      | Wb d' l' r' m' =>
          match a with
          | Wb d l r m =>
              do x <- trace_mm o (wb_diag d) bi;
              do y <- trace_mm o (wb_lr l r m) (wb_diag d'); do xy <- t_add x y;
              do z <- trace_mm o (wb_lr l r m) (wb_lr l' r' m'); t_add xy z
          | _ =>
              do x <- trace_mm o a (wb_diag d'); do y <- trace_mm o a (wb_lr l' r' m'); t_add x y
          end
      | _ => Raise AttributeError
      end
  | _ => do chol <- cholesky_c a; do t <- iqf_diag_c k b chol chol true; t_sum_pos t 0
  end.
(** root.py:40-73, sample.py:9-45, as in Solve.v *)
Variable svd : forall n, 'M[F]_n -> 'M[F]_n * 'rV[F]_n * 'M[F]_n.
Fixpoint root_c (a : mat) : outcome mat :=
  match a with
  | Nm t => do _ <- assert_square a; do u <- t_root svd t; ret (Nm u)
  | Zero _ _ _ _ => do _ <- assert_square a; ret a
  | Dense t => do _ <- assert_square (Nm t); do u <- t_root svd t; ret (mk_dense u)
  | Diag _ | Const _ _ _ => do _ <- assert_square a; cholesky_c a
  | LR _ _ _ | Wb _ _ _ _ =>
      do _ <- warn; do t <- o_dense o a; do _ <- assert_square (Nm t); do u <- t_root svd t; ret (mk_dense u)
  | Kron l r => do x <- root_c l; do y <- root_c r; ret (Kron x y)
  | LT _ | UT _ => Raise NotFoundLookup
  end.
Variable state : Type.
Variable randn : state -> dtype -> shape -> state * tensor.
Definition sample_gen_c (st : state) (a : mat) (num : nat) : outcome (state * mat) :=
  do chol <- cholesky_c a;
  do b <- shape_batch a;
  do ' (_, w) <- shape_matrix chol;
  let: (st', noise) := randn st (float_of (mdtype a)) [:: num, w & b] in
  do x <- o_matmul o chol (Nm noise) false false;
  ret (st', x).
Definition sample_c (st : state) (a : mat) (num : nat) : outcome (state * mat) :=
  match a with
  | Wb d l r m =>
      do ' (st', x) <- sample_gen_c st (wb_diag d) num;
      do ' (st'', y) <- sample_gen_c st' (wb_lr l r m) num;
      do z <- o_add o x y; ret (st'', z)
  | _ => sample_gen_c st a num
  end.
End Rec.
End Cache.
Arguments no_caches {F}.

(** ** Histories *)
Section Histories.
Variable F : rcfType.
Notation tensor := (tensor F).
Notation mat := (mat F).
Variable argsort : seq F -> seq nat.
(** What a slot may hold. *)
Inductive entry := EDense of tensor | EChol of mat | ESchur of bool & mat.
(** [B.schur] finds only what [B.schur] has stored, [B.pd_schur] only what [B.pd_schur] has stored. *)
Definition unmixed (w : caches F) : Prop := forall p a q s, c_schur w p a = Some (q, s) -> q = p.
(** [stored mix a e]: some finite history of calls, from empty caches, stores [e] in an object with contents [a].  A value is stored
    by a call of [dense], [cholesky], [schur] or [pd_schur] at any recursion depth (on its own or inside another call), in
    which the slots hold what previous calls have stored.  If [mix] is false, [schur] and [pd_schur] do not find
    each other's values (they are not called on the same object). *)
Inductive stored (mix : bool) : mat -> entry -> Prop :=
| Stored (w : caches F) (a : mat) (e : entry) (n k : nat) l :
    (forall i x t, c_dense w i x = Some t -> stored mix x (EDense t)) ->
    (forall x c, c_chol w x = Some c -> stored mix x (EChol c)) ->
    (forall p x q s, c_schur w p x = Some (q, s) -> stored mix x (ESchur q s)) ->
    (~~ mix -> unmixed w) ->
    match e with
    | EDense t => o_dense (cops argsort w n) a = Ret l t
    | EChol c => cholesky_c w (cops argsort w n) a = Ret l c
    | ESchur false s => schur_c w (cops argsort w n) k a = Ret l s
    | ESchur true s => pd_schur_c w (cops argsort w n) k a = Ret l s
    end -> stored mix a e.
(** The slots hold what some history has stored. *)
Definition reachable (mix : bool) (w : caches F) : Prop :=
  [/\ forall i x t, c_dense w i x = Some t -> stored mix x (EDense t),
      forall x c, c_chol w x = Some c -> stored mix x (EChol c),
      forall p x q s, c_schur w p x = Some (q, s) -> stored mix x (ESchur q s) & ~~ mix -> unmixed w].
End Histories.
