(** * C43, C44: operators, indexing and tests *)
From mathcomp Require Import all_ssreflect all_algebra.
From mathcomp Require Import zify.
From Verif Require Import Outcome Monad Shape Tensor Mat Dispatch Ops Spec ShapeThy TensorThy TensorThy2 MatThy OpsOk DenseOk LookThy AddOk OpsMain Term Term2 Term5 Exact Exact2 Calm Api Bridge Ans Samples Inhabited PropsCore Ops2 PropsSum PropsArith PropsLift Objects.
Set Implicit Arguments. Unset Strict Implicit. Unset Printing Implicit Defensive.
Import GRing.Theory.
Local Open Scope ring_scope.

(** ** Specification *)
Section Spec.
Variable F : rcfType.
Notation mat := (mat F).
Notation tensor := (tensor F).
(** The operator of NumPy. *)
Definition np_op (k : binop) (x y : tensor) : outcome tensor :=
  match k with
  | OpAdd => t_add x y | OpSub => t_sub x y | OpMul => t_mul x y | OpDiv => t_div x y
  | OpMatmul => t_matmul x y false false
  end.
(** The operands fit (and avoid the limits of C42). *)
Definition op_fits (k : binop) (x y : mat) : Prop :=
  match k with
  | OpAdd | OpSub => [/\ wfo x, wfo y, wf x \/ wf y, bcok (mshape x) (mshape y) & add_side x y]
  | OpMul => [/\ wfo x, wfo y, wf x \/ wf y, bcok (mshape x) (mshape y) & mul_side x y]
  | OpDiv => [/\ wfo x, wfo y, wf x \/ wf y, bcok (mshape x) (mshape y) & div_side x y]
  | OpMatmul => [/\ wf x, wf y, mcols x = mrows y, bcok (mbatch x) (mbatch y) & mm_side x y false false]
  end.
(** The arrays which an object is made of. *)
Fixpoint arrays (a : mat) : seq tensor :=
  match a with
  | Nm t | Dense t | LT t | UT t | Diag t | Const t _ _ => [:: t]
  | Zero _ _ _ _ => [::]
  | LR l r m => arrays l ++ arrays r ++ arrays m
  | Wb d l r m => d :: arrays l ++ arrays r ++ arrays m
  | Kron l r => arrays l ++ arrays r
  end.
(** [index] depends on the shape and the entries of the array only. *)
Definition index_ok (index : tensor -> outcome tensor) : Prop := forall x y z, teq x y -> index y = ret z ->
  exists2 z', index x = ret z' & teq z' z.
End Spec.

Lemma ravel_lt' s idx : inb s idx -> (ravel s idx < prodn s)%N.
Proof. by elim: s idx => [|d s IH] [|i idx] //= /andP[hi /IH h]; nia. Qed.

Section Obj.
Variable F : rcfType.
Notation mat := (mat F).
Notation tensor := (tensor F).
Variable argsort : seq F -> seq nat.
Hypothesis perm : argsort_ok argsort.
Notation answers := (answers argsort).
Notation returns := (returns argsort).
Implicit Types a : mat.

(** The operators compute what NumPy's do on the dense arrays, with the operands in the order in which they are
    written, also if the left operand is a number. *)
Theorem C43_operators k (x y : mat) : isobj x || isobj y -> op_fits k x y ->
  answers (fun o => py_binop o k x y) (fun c => wf c /\ is_value (np_op k (den x) (den y)) (den c)).
Proof.
move=> h fit; have -> : (fun o => py_binop o k x y) = (fun o : ops F => method o k x y).
  by move: h; rewrite /py_binop; case: (isobj x) => //= ->; case: k fit.
case: k fit => -[h1 h2 h3 h4 h5] /=.
- exact: C03_add.
- exact: C08_subtract.
- exact: C04_multiply.
- exact: C21_divide.
- exact: C05_matmul.
Qed.
(** In particular with a number on the left. *)
Theorem C43_number_left a d (v : F) : wf a -> isobj a ->
  [/\ answers (fun o => py_binop o OpAdd (Nm (t_scalar d v)) a) (fun c => wf c /\ teq (den c) (t_map (fun y => v + y) (den a))),
      answers (fun o => py_binop o OpSub (Nm (t_scalar d v)) a) (fun c => wf c /\ teq (den c) (t_map (fun y => v - y) (den a))) &
      answers (fun o => py_binop o OpMul (Nm (t_scalar d v)) a) (fun c => wf c /\ teq (den c) (t_map (fun y => v * y) (den a)))].
Proof.
move=> w h; have [_ h1 _ h2] := C20_scalar perm d v w; have [_ h3 _] := C20_scalar_sub_div perm d v w.
by rewrite /py_binop /= h.
Qed.
Theorem C43_methods a : wf a ->
  [/\ exists2 c, m_neg a = ret c & wf c /\ teq (den c) (t_map (fun x => - x) (den a)),
      exists2 c, m_T a = ret c & wf c /\ is_value (t_transpose (den a)) (den c),
      dgok a -> answers (fun o => m_diagonal o a) (is_value (t_diag_extract (den a))),
      (forall ds z, t_reshape (den a) ds = ret z -> answers (fun o => m_reshape o a ds) (fun t => teq t z)) &
      (forall z, t_squeeze (den a) = ret z -> answers (fun o => m_squeeze o a) (fun t => teq t z))].
Proof.
move=> w; split.
- by have [c e [h1 _ h2]] := C08_negative w; exists c.
- by have [c e [h1 _ h2]] := C07_transpose w; exists c.
- exact: C10_diag.
- by move=> ds z; exact: C23_reshape.
- by move=> z; exact: C23_squeeze.
Qed.
(** The entries in row-major order; for a batch, one matrix after the other. *)
Theorem C43_flatten a : wf a -> answers (fun o => m_flatten o a) (fun t => sh t = [:: prodn (mshape a)] /\
  forall be i j, inb (mshape a) [:: j, i & be] ->
    tget t [:: ((ravel (mbatch a) be * mrows a + i) * mcols a + j)%N] = ent a be i j).
Proof.
move=> w; have w' := den_tmat w.
have [z hz [sz ez]] : exists2 z, t_reshape (den a) [:: None] = ret z & sh z = [:: prodn (mshape a)] /\
    forall k, tget z [:: k] = tget (den a) (unravel (mshape a) k).
  have ravel1 k : ravel [:: prodn (mshape a)] [:: k] = k by rewrite /= muln0 addn0.
  rewrite /t_reshape /resolve_dims -[sh (den a)]/(mshape a) [count _ _ == _]/= [pmap _ _]/= [prodn [::]]/= /=.
  rewrite dvd1n divn1 bind_ret; eexists; first reflexivity.
  by split=> // k; rewrite -[in RHS](ravel1 k).
apply: ans_conseq (C23_reshape perm w hz) _ => t [st et]; split; first by rewrite st.
move=> be i j hin.
have hk : ravel (mshape a) [:: j, i & be] = ((ravel (mbatch a) be * mrows a + i) * mcols a + j)%N.
  by rewrite /=; nia.
have hlt : (ravel (mshape a) [:: j, i & be] < prodn (mshape a))%N by apply: ravel_lt'.
rewrite -hk et; last by rewrite st sz -[inb _ _]/((_ < _)%N && true) andbT.
by rewrite ez unravelK.
Qed.
Theorem C43_power a n : wf a ->
  ((0 < n)%N -> answers (fun o => m_pow o a n false) (fun c => wf c /\ teq (den c) (t_map (fun x => x ^+ n) (den a)))) /\
  forall o, m_pow o a n true = Raise AssertionError.
Proof.
move=> w; split=> // n0; apply: ans_ext (_ : forall o, power_op o n a = _) _ => [o|]; last exact: C21_power.
by rewrite /m_pow /require /= bind_ret.
Qed.

(** ** C44 *)
(** Indexing is indexing of the dense array. *)
Theorem C44_getitem (index : tensor -> outcome tensor) a z : index_ok index -> wf a -> index (den a) = ret z ->
  answers (fun o => m_getitem o index a) (fun t => teq t z).
Proof.
move=> hi w hz; apply: ans_warn; apply: ans_bind (ans_dense perm w) _ => t ht.
have [u -> hu] := hi _ _ _ (tmat_teq ht (den_tmat w)) hz; exact: ans_ret.
Qed.
Theorem C44_getitem_warns n (index : tensor -> outcome tensor) a : structured a ->
  lw (logof (m_getitem (ops_n argsort n) index a)).
Proof.
by move=> h; rewrite /m_getitem /warn_if h /bind; case: (o_dense _ a) => [l t|l e] //=; case: (index t).
Qed.
Theorem C44_isnan (nan : F -> bool) a : wf a ->
  answers (fun o => isnan_op o nan a) (fun t => teq t (t_map (fun x => (nan x)%:R) (den a))).
Proof.
move=> w; apply: ans_warn; apply: ans_bind (ans_dense perm w) _ => t ht; apply: ans_ret.
by have := tmat_teq ht (den_tmat w); case=> h1 h2; split=> // idx hidx /=; rewrite h2.
Qed.
Theorem C44_to_numpy a : wf a -> answers (fun o => to_numpy_op o a) (fun t => teq t (den a)).
Proof. exact: C01_dense. Qed.
(** An object is abstract if and only if one of its arrays is. *)
Theorem C44_isabstract (abst : tensor -> bool) a : isabstract abst a = has abst (arrays a).
Proof.
elim: a => //=; try by move=> *; rewrite orbF.
- by move=> l -> r -> m ->; rewrite !has_cat [X in _ || X]orbC.
- by move=> d l -> r -> m ->; rewrite !has_cat [X in _ || (_ || X)]orbC.
- by move=> l -> r ->; rewrite has_cat.
Qed.
End Obj.

(** ** The hypotheses can be met *)
Section Examples.
Variable F : rcfType.
Example C43_ex : [/\ op_fits OpMatmul (s_lr F) (s_lr F), op_fits OpSub (Nm (t_scalar DInt (2%:R : F))) (s_lr F),
  op_fits OpDiv (s_lr F) (s_lr F) & isobj (s_lr F)].
Proof. by split=> //; split=> //; first [by left|by right]. Qed.
(** Indexing with [(..., 0, 0)] on matrices without batch: the first entry. *)
Example C44_ex : index_ok (fun t : tensor F => if sh t is [:: _.+1; _.+1] then ret (t_scalar (dt t) (tget t [:: 0; 0]%N)) else Raise IndexError).
Proof.
move=> x y z [h1 h2]; rewrite -h1; case E: (sh x) => [|[|m] [|[|n] [|? ?]]] // [<-].
by eexists; first reflexivity; split=> // -[|? ?] //= _; apply: h2; rewrite E.
Qed.
End Examples.
Print Assumptions C43_operators. Print Assumptions C43_number_left. Print Assumptions C43_methods.
Print Assumptions C43_flatten. Print Assumptions C43_power.
Print Assumptions C44_getitem. Print Assumptions C44_getitem_warns. Print Assumptions C44_isnan.
Print Assumptions C44_to_numpy. Print Assumptions C44_isabstract.
