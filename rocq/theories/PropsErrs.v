(** * C50: which exceptions a call can raise

    Whatever the operands are - of any class, nested to any depth, with shapes which do not fit together or which
    no constructor accepts -, an operation either returns or fails with one of the errors about shapes and indices;
    the linear algebra can fail with [LinAlgError] or with a lookup error, the latter only for the classes without
    a method.  No call fails because a method was applied to an object of the wrong class (an attribute which does
    not exist), and no call is ambiguous. *)
From mathcomp Require Import all_ssreflect all_algebra.
From Verif Require Import Outcome Monad Shape Tensor Mat Dispatch Ops Spec Term Api Samples PropsMm Ops2 Block Backend Solve Objects Errs Errs2.
Set Implicit Arguments. Unset Strict Implicit. Unset Printing Implicit Defensive.
Import GRing.Theory Num.Theory.
Local Open Scope ring_scope.

(** ** Specification *)
(** The errors about shapes and indices: failed assertions, shapes which do not broadcast (in the library or in the
    backend) and indices out of range. *)
Inductive shape_exn : exn -> Prop :=
| is_assert : shape_exn AssertionError
| is_runtime : shape_exn RuntimeError
| is_value : shape_exn ValueError
| is_index : shape_exn IndexError.
(** Also: the recursion limit [n] of the call was too small. *)
Inductive limit_exn : exn -> Prop :=
| is_shape e : shape_exn e -> limit_exn e
| is_limit : limit_exn RecursionError.
(** Also: a matrix which is not invertible or not positive definite. *)
Inductive linalg_exn : exn -> Prop :=
| is_limited e : limit_exn e -> linalg_exn e
| is_linalg : linalg_exn LinAlgError.
(** Also: no method for the classes of the operands. *)
Inductive lookup_exn : exn -> Prop :=
| is_la e : linalg_exn e -> lookup_exn e
| is_lookup : lookup_exn NotFoundLookup.
(** If the call fails, it fails with one of the exceptions [P]. *)
Definition fails_with (P : exn -> Prop) A (m : outcome A) : Prop := forall l e, m = RaiseL l e -> P e.

Lemma limitP e : shape_error e -> limit_exn e. Proof. by case: e => // _; repeat constructor. Qed.
Lemma linalgP e : linalg_error e -> linalg_exn e. Proof. by case: e => // _; repeat constructor. Qed.
Lemma lookupP e : linalg_lookup_error e -> lookup_exn e. Proof. by case: e => // _; repeat constructor. Qed.
Lemma fails A (S : exn -> bool) (P : exn -> Prop) (m : outcome A) : (forall e, S e -> P e) -> E S m (fun=> True) -> fails_with P m.
Proof. by move=> h he l e E; rewrite E in he; exact: h. Qed.

Section Errs.
Variable F : rcfType.
Notation mat := (mat F).
Notation tensor := (tensor F).
Variable argsort : seq F -> seq nat.
Notation run n := (ops_n argsort n).
Let H0 : forall e, shape_error e -> shape_error e. Proof. by []. Qed.
Let L0 : forall e, linalg_error e -> linalg_error e. Proof. by []. Qed.
Let Ho n : eops shape_error (run n) := eops_n H0 argsort n.
Notation sh m := (fails limitP m).

(** ** The core, with any recursion limit and for all operands *)
Theorem C50_core n (a b : mat) (ta tb ax : bool) :
  [/\ fails_with limit_exn (o_dense (run n) a), fails_with limit_exn (o_add (run n) a b), fails_with limit_exn (o_mul (run n) a b),
      fails_with limit_exn (o_matmul (run n) a b ta tb) &
  [/\ fails_with limit_exn (o_sumax (run n) a ax), fails_with limit_exn (o_sumall (run n) a) & fails_with limit_exn (o_diag (run n) a)]].
Proof.
split; [exact: (sh (eo_dense (Ho n) a))|exact: (sh (eo_add (Ho n) a b))|exact: (sh (eo_mul (Ho n) a b))|exact: (sh (eo_mm (Ho n) a b ta tb))|].
by split; [exact: (sh (eo_sx (Ho n) a ax))|exact: (sh (eo_sa (Ho n) a))|exact: (sh (eo_dg (Ho n) a))].
Qed.
(** With a recursion limit which is large enough, the call returns or fails with an error about shapes or indices;
    [gd a]: the numeric data in [a] are not scalars.  Shapes may be anything. *)
Definition ends_well A (f : ops F -> outcome A) : Prop :=
  exists l, (exists c : A, settles argsort f (Ret l c)) \/ (exists e, settles argsort f (RaiseL l e) /\ shape_exn e).
Lemma ends_only A (f : ops F -> outcome A) : ends argsort f -> (forall n, fails_with limit_exn (f (run n))) -> ends_well f.
Proof.
move=> [l [[c h]|[e [[n0 h] ne]]]] hf; exists l; [by left; exists c|right; exists e; split; first by exists n0].
by case: (hf n0 l e (h n0 (leqnn _))) ne => // e' h'.
Qed.
Theorem C50_core_ends (a b : mat) (ta tb ax : bool) : gd a -> gd b ->
  [/\ ends_well (fun o => o_dense o a), ends_well (fun o => o_add o a b), ends_well (fun o => o_mul o a b),
      ends_well (fun o => o_matmul o a b ta tb) &
  [/\ ends_well (fun o => o_sumax o a ax), ends_well (fun o => o_sumall o a) & ends_well (fun o => o_diag o a)]].
Proof.
move=> ga gb; have [h1 h2 h3 h4 [h5 h6 h7]] := C35_terminates argsort ta tb ax ga gb.
split; [apply: ends_only h1 _|apply: ends_only h2 _|apply: ends_only h3 _|apply: ends_only h4 _|
  split; [apply: ends_only h5 _|apply: ends_only h6 _|apply: ends_only h7 _]] => n; have [? ? ? ? [? ? ?]] := C50_core n a b ta tb ax; assumption.
Qed.
(** ** Structural operations: these do not recurse into the core *)
Theorem C50_structural (a b : mat) s d r :
  [/\ fails_with limit_exn (transpose a), fails_with limit_exn (negative a), fails_with limit_exn (cast d a),
      fails_with limit_exn (broadcast_batch_to a s) & fails_with limit_exn (shape_of a)] /\
  [/\ fails_with limit_exn (zeros_of a), fails_with limit_exn (ones_of a), fails_with limit_exn (eye_of a),
      fails_with limit_exn (@mk_lowrank F a r (Some b)) & fails_with limit_exn (align_batch [:: a; b])].
Proof.
split; split.
- exact: (sh (e_tr' H0 a)).
- exact: (sh (e_neg H0 a)).
- exact: (sh (e_cast H0 d a)).
- exact: (sh (e_bb H0 a s)).
- exact: (sh (e_so H0 a)).
- exact: (sh (e_zeros H0 a)).
- exact: (sh (e_ones H0 a)).
- exact: (sh (e_eye H0 a)).
- exact: (sh (e_lr H0 a r (Some b))).
- exact: (sh (e_ab H0 [:: a; b])).
Qed.
(** The constructor of Woodbury matrices, for its classes. *)
Theorem C50_woodbury (t : tensor) (l r m : mat) : fails_with limit_exn (mk_woodbury (Diag t) (LR l r m)).
Proof. by apply: (fails limitP); apply: E_weak (e_wb H0 _ _); [exists t|exists l, r, m]. Qed.

(** ** Derived operations *)
Theorem C50_arithmetic n (a b : mat) axis (ta tb : bool) f :
  [/\ fails_with limit_exn (subtract (run n) a b), fails_with limit_exn (divide (run n) a b), fails_with limit_exn (sum_op (run n) a axis),
      fails_with limit_exn (mean_op (run n) a axis) & fails_with limit_exn (trace (run n) a)] /\
  [/\ fails_with limit_exn (matmul_diag (run n) a b ta tb), fails_with limit_exn (kron_n n a b) & fails_with limit_exn (elementwise (run n) f a)].
Proof.
split; split.
- exact: (sh (d_sub H0 (Ho n) a b)).
- exact: (sh (d_div H0 (Ho n) a b)).
- exact: (sh (d_sum H0 (Ho n) a axis)).
- exact: (sh (d_mean H0 (Ho n) a axis)).
- exact: (sh (d_trace H0 (Ho n) a)).
- exact: (sh (d_mmd H0 (Ho n) a b ta tb)).
- exact: (sh (d_kron H0 n a b)).
- exact: (sh (d_ew H0 (Ho n) f a)).
Qed.
(** The Python operators, where at least one operand is a matrix object. *)
Theorem C50_operators n k (x y : mat) : isobj x || isobj y -> fails_with limit_exn (py_binop (run n) k x y).
Proof.
have [h1 h2 h3 h4 _] := C50_core n x y false false false.
have hm u v : fails_with limit_exn (o_matmul (run n) u v false false) by have [_ _ _ h _] := C50_core n u v false false false.
have [[s1 s2 _ _ _] _] := C50_arithmetic n x y None false false id.
by rewrite /py_binop; case: (isobj x) => [_|/= ->]; case: k.
Qed.
Theorem C50_arrays n (a : mat) (xs : seq mat) (rows : seq (seq mat)) axis ds reps x :
  [/\ fails_with limit_exn (tile_op (run n) a reps), fails_with limit_exn (concat_op (run n) xs axis), fails_with limit_exn (reshape_op (run n) a ds),
      fails_with limit_exn (squeeze_op (run n) a) & fails_with limit_exn (take_op (run n) a x axis)] /\
  [/\ fails_with limit_exn (submatrix (run n) a x), fails_with limit_exn (block (run n) rows) & fails_with limit_exn (block_diag (run n) xs)].
Proof.
split; split.
- exact: (sh (d_tile H0 (Ho n) a reps)).
- exact: (sh (d_concat H0 (Ho n) xs axis)).
- exact: (sh (d_reshape H0 (Ho n) a ds)).
- exact: (sh (d_squeeze H0 (Ho n) a)).
- exact: (sh (d_take H0 (Ho n) a x axis)).
- exact: (sh (d_submatrix H0 (Ho n) a x)).
- exact: (sh (d_block H0 (Ho n) rows)).
- exact: (sh (d_bd H0 (Ho n) xs)).
Qed.
(** ** Linear algebra *)
Notation la m := (fails lookupP m).
Theorem C50_linalg n k (a b c : mat) same lower log svd :
  [/\ fails_with lookup_exn (inv_n (run n) k a), fails_with lookup_exn (pd_inv_n (run n) k a), fails_with lookup_exn (schur_n (run n) k a),
      fails_with lookup_exn (pd_schur_n (run n) k a) & fails_with lookup_exn (cholesky (run n) a)] /\
  [/\ fails_with lookup_exn (solve (run n) k a b), fails_with lookup_exn (triangular_solve (run n) k a b lower),
      fails_with lookup_exn (cholesky_solve (run n) k a b), fails_with lookup_exn (logdet_n (run n) log k a) &
  [/\ fails_with lookup_exn (iqf (run n) k a b c same), fails_with lookup_exn (iqf_diag (run n) k a b c same),
      fails_with lookup_exn (ratio (run n) k a b) & fails_with lookup_exn (root (run n) svd a)]].
Proof.
split; split.
- exact: (la (n_inv argsort n k a)).
- exact: (la (n_pdinv argsort n k a)).
- exact: (la (n_schurn argsort n k a)).
- exact: (la (n_pdschur argsort n k a)).
- exact: (la (n_cholesky argsort n a)).
- exact: (la (n_solve argsort n k a b)).
- exact: (la (n_tsolve argsort n k a b lower)).
- exact: (la (n_csolve argsort n k a b)).
- exact: (la (n_logdet argsort n log k a)).
split.
- exact: (la (n_iqf argsort n k a b c same)).
- exact: (la (n_iqfd argsort n k a b c same)).
- exact: (la (n_ratio argsort n k a b)).
- exact: (la (n_root argsort n svd a)).
Qed.
Theorem C50_sample n (state : Type) randn (st : state) (a : mat) num : fails_with lookup_exn (sample (run n) randn st a num).
Proof. exact: (la (n_sample argsort n randn st a num)). Qed.
(** Without a failed lookup: [cholesky] and [root] of matrices which are not triangular and not built from triangular
    ones in the middle of a low-rank matrix or in a Kronecker product. *)
Inductive has_cholesky : mat -> Prop :=
| hc_nm t : has_cholesky (Nm t) | hc_zero d b r c : has_cholesky (Zero d b r c) | hc_dense t : has_cholesky (Dense t)
| hc_diag t : has_cholesky (Diag t) | hc_const t r c : has_cholesky (Const t r c) | hc_wb d l r m : has_cholesky (Wb d l r m)
| hc_lr l r m : has_cholesky m -> has_cholesky (LR l r m)
| hc_kron l r : has_cholesky l -> has_cholesky r -> has_cholesky (Kron l r).
Theorem C50_cholesky n (a : mat) : has_cholesky a -> fails_with linalg_exn (cholesky (run n) a).
Proof.
by move=> h; apply: (fails linalgP); apply: l_cholesky => //; elim: h => //= l r _ -> _ ->.
Qed.
Inductive has_root : mat -> Prop :=
| hr_nm t : has_root (Nm t) | hr_zero d b r c : has_root (Zero d b r c) | hr_dense t : has_root (Dense t)
| hr_diag t : has_root (Diag t) | hr_const t r c : has_root (Const t r c) | hr_wb d l r m : has_root (Wb d l r m)
| hr_lr l r m : has_root (LR l r m)
| hr_kron l r : has_root l -> has_root r -> has_root (Kron l r).
Theorem C50_root n (a : mat) svd : has_root a -> fails_with linalg_exn (root (run n) svd a).
Proof.
by move=> h; apply: (fails linalgP); apply: l_rootm => //; elim: h => //= l r _ -> _ ->.
Qed.
(** [inv] of dense and diagonal matrices and their Kronecker products; [solve] with any matrix on the left which is
    not a Woodbury matrix. *)
Inductive has_inverse : mat -> Prop :=
| hi_nm t : has_inverse (Nm t) | hi_dense t : has_inverse (Dense t) | hi_diag t : has_inverse (Diag t)
| hi_kron l r : has_inverse l -> has_inverse r -> has_inverse (Kron l r).
Theorem C50_inv n k (a : mat) : has_inverse a -> fails_with linalg_exn (inv_n (run n) k a).
Proof.
by move=> h; apply: (fails linalgP); apply: l_invc => //; elim: h => //= l r _ -> _ ->.
Qed.
Theorem C50_solve n k (a b : mat) : (forall d l r m, a <> Wb d l r m) -> fails_with linalg_exn (solve (run n) k a b).
Proof.
move=> h; apply: (fails linalgP); apply: l_solve_wb => //; left.
by case: a h => // d l r m /(_ d l r m).
Qed.
End Errs.

Print Assumptions C50_core. Print Assumptions C50_core_ends. Print Assumptions C50_structural. Print Assumptions C50_woodbury.
Print Assumptions C50_arithmetic. Print Assumptions C50_operators. Print Assumptions C50_arrays. Print Assumptions C50_linalg.
Print Assumptions C50_sample. Print Assumptions C50_cholesky. Print Assumptions C50_root. Print Assumptions C50_inv. Print Assumptions C50_solve.

(** The theorems are not about calls that always return: the exceptions which they allow occur, ... *)
Example C50_ex_fails (F : rcfType) (argsort : seq F -> seq nat) :
  let v n := Dense (t_zeros DInt [:: n; n]) in
  settles argsort (fun o => o_add o (v 2%N) (v 3%N)) (Raise ValueError).
Proof. by exists 1%N => -[|n] // _; cbn [ops_n ops_step o_add]; rewrite /add_step /to_matrix [ty_of_matrix _]/= LookThy.add_selE [LookThy.selof _ _ _]/= bind_ret. Qed.
(** ... also for a matrix without a Cholesky factor, and for a class without a method. *)
Example C50_ex_linalg (F : rcfType) (o : ops F) :
  cholesky o (Nm (t_zeros DFloat64 [:: 1%N; 1%N])) = Raise LinAlgError.
Proof. by rewrite /cholesky /t_chol /t_square /= !mxE /= Order.POrderTheory.ltxx. Qed.
Example C50_ex_lookup (F : rcfType) (o : ops F) k t : inv_n o k.+1 (LT t) = Raise NotFoundLookup /\ cholesky o (UT t) = Raise NotFoundLookup.
Proof. by []. Qed.
(** The classes of the last theorems are inhabited by nested matrices. *)
Example C50_ex_classes (F : rcfType) (t : tensor F) : has_cholesky (Kron (LR (Dense t) (Dense t) (Diag t)) (Diag t)) /\ has_inverse (Kron (Dense t) (Kron (Diag t) (Dense t))).
Proof. by split; repeat constructor. Qed.
