(** * C01 - C07: dense, shapes, sums, products, transposes

    How to read the statements.
    - [answers argsort f P] (Api.v): for every sufficiently large recursion
      limit the call [f] returns one and the same value, which satisfies [P]; the only
      exception allowed is that an approximate column comparison in the sum of two
      low-rank matrices identified different columns (then nothing is claimed).
      [returns argsort f P] is the same without the exception.
    - [den a] (Spec.v) is the mathematical array the object [a] stands for;
      [is_value m t]: [t] is the array the NumPy computation [m] returns.
    - [wf a] (Spec.v): [a] is well formed; [wfo a]: or a numeric scalar. *)
From mathcomp Require Import all_ssreflect all_algebra.
From Verif Require Import Outcome Monad Shape Tensor Mat Dispatch Ops Spec ShapeThy TensorThy MatThy OpsOk Term Exact Exact2 Calm Api Bridge.
From Verif Require Import Samples.
Set Implicit Arguments. Unset Strict Implicit. Unset Printing Implicit Defensive.
Import GRing.Theory.
Local Open Scope ring_scope.

Section Core.
Variable F : rcfType.
Notation tensor := (tensor F).
Notation mat := (mat F).
Variable argsort : seq F -> seq nat.
Hypothesis perm : argsort_ok argsort.
Notation answers := (answers argsort).
Notation returns := (returns argsort).
Implicit Types a b c : mat.

(** ** C01 *)
Theorem C01_dense a : wf a -> answers (fun o => o_dense o a) (fun t => teq t (den a)).
Proof.
by move=> w; apply: ans_conseq (ans_dense perm w) _ => t ht; exact: tmat_teq ht (den_tmat w).
Qed.
(** Unconditionally if no Woodbury matrix is nested in the factors of [a]
    ([a] itself may be a Woodbury matrix). *)
Theorem C01_dense_returns a : wf a -> nw1 a -> returns (fun o => o_dense o a) (fun t => teq t (den a)).
Proof. by move=> w h; apply: ans_returns (C01_dense w) => n; exact: xe_dense. Qed.

(** ** C02 *)
Theorem C02_shapes a : wf a ->
  [/\ shape_of a = ret (sh (den a)), shape_batch a = ret (drop 2 (sh (den a))),
      shape_matrix a = ret (nth 0%N (sh (den a)) 1, nth 0%N (sh (den a)) 0) &
      rank_of a = ret (size (sh (den a)))].
Proof.
move=> w; split; rewrite ?shape_ofE ?shape_batchE ?shape_matrixE //= ?drop0 //.
by rewrite /rank_of shape_ofE // bind_ret.
Qed.
(** In terms of the API only. *)
Theorem C02_shapes_dense a : wf a -> answers (fun o => o_dense o a) (fun t =>
  [/\ shape_of a = ret (sh t), shape_batch a = ret (drop 2 (sh t)),
      shape_matrix a = ret (nth 0%N (sh t) 1, nth 0%N (sh t) 0) & rank_of a = ret (size (sh t))]).
Proof.
by move=> w; apply: ans_conseq (C01_dense w) _ => t [-> _]; exact: C02_shapes.
Qed.

(** ** C03 *)
Theorem C03_add a b : wfo a -> wfo b -> wf a \/ wf b ->
  bcok (mshape a) (mshape b) -> add_side a b ->
  answers (fun o => o_add o a b) (fun c => wf c /\ is_value (t_add (den a) (den b)) (den c)).
Proof.
rewrite -shapes_bcok => w1 w2 w3 s1 s2; apply: ans_conseq (ans_add perm w1 w2 w3 s1 s2) _ => c [h _].
by split; [case: h|exact: value_map2 w1 w2 s1 h].
Qed.
(** In terms of the API only: dense(a + b) = dense(a) + dense(b). *)
Theorem C03_add_dense a b : wf a -> wf b -> bcok (mshape a) (mshape b) -> add_side a b ->
  answers (fun o => do c <- o_add o a b; do t <- o_dense o c;
                    do x <- o_dense o a; do y <- o_dense o b; do z <- t_add x y; ret (t, z))
          (fun p => teq p.1 p.2).
Proof.
rewrite -shapes_bcok => wa wb s1 s2.
apply: ans_bind (ans_add perm (or_introl wa) (or_introl wb) (or_introl wa) s1 s2) _ => c [[wc [e1 e2] e3 hc] _].
apply: ans_bind (ans_dense perm wc) _ => t ht.
apply: ans_bind (ans_dense perm wa) _ => x hx; apply: ans_bind (ans_dense perm wb) _ => y hy.
case/and3P: s1 => k1 k2 k3.
have [z hz tz] := calm_hoare (cm_map2 _ x y) (tmat_map2 +%R hx hy k1 k2 k3).
apply: ans_ext (_ : forall o, ret (t, z) = _) _ => [o|]; first by rewrite /t_add hz bind_ret.
apply: ans_ret; rewrite /= e1 e2 e3 in ht *; apply: tmat_teq _ tz; apply: tmat_ext ht _; exact: hc.
Qed.
(** Unconditionally, if not both operands are low-rank, Woodbury or constant
    ([addx], Exact.v) and no Woodbury matrix is nested in factors. *)
Theorem C03_add_returns a b : wfo a -> wfo b -> wf a \/ wf b ->
  bcok (mshape a) (mshape b) -> add_side a b -> addx a b ->
  returns (fun o => o_add o a b) (fun c => wf c /\ is_value (t_add (den a) (den b)) (den c)).
Proof.
move=> w1 w2 w3 s1 s2 hx; apply: ans_returns (C03_add w1 w2 w3 s1 s2) => n; exact: xh_xe (xe_add _ _ hx).
Qed.

(** ** C04 *)
Theorem C04_multiply a b : wfo a -> wfo b -> wf a \/ wf b ->
  bcok (mshape a) (mshape b) -> mul_side a b ->
  answers (fun o => o_mul o a b) (fun c => wf c /\ is_value (t_mul (den a) (den b)) (den c)).
Proof.
rewrite -shapes_bcok => w1 w2 w3 s1 s2; apply: ans_conseq (ans_mul perm w1 w2 w3 s1 s2) _ => c [h _].
by split; [case: h|exact: value_map2 w1 w2 s1 h].
Qed.
Theorem C04_multiply_dense a b : wf a -> wf b -> bcok (mshape a) (mshape b) -> mul_side a b ->
  answers (fun o => do c <- o_mul o a b; do t <- o_dense o c;
                    do x <- o_dense o a; do y <- o_dense o b; do z <- t_mul x y; ret (t, z))
          (fun p => teq p.1 p.2).
Proof.
rewrite -shapes_bcok => wa wb s1 s2.
apply: ans_bind (ans_mul perm (or_introl wa) (or_introl wb) (or_introl wa) s1 s2) _ => c [[wc [e1 e2] e3 hc] _].
apply: ans_bind (ans_dense perm wc) _ => t ht.
apply: ans_bind (ans_dense perm wa) _ => x hx; apply: ans_bind (ans_dense perm wb) _ => y hy.
case/and3P: s1 => k1 k2 k3.
have [z hz tz] := calm_hoare (cm_map2 _ x y) (tmat_map2 *%R hx hy k1 k2 k3).
apply: ans_ext (_ : forall o, ret (t, z) = _) _ => [o|]; first by rewrite /t_mul hz bind_ret.
apply: ans_ret; rewrite /= e1 e2 e3 in ht *; apply: tmat_teq _ tz; apply: tmat_ext ht _; exact: hc.
Qed.
(** Unconditionally on operands without Woodbury matrices. *)
Theorem C04_multiply_returns a b : wfo a -> wfo b -> wf a \/ wf b ->
  bcok (mshape a) (mshape b) -> mul_side a b -> nw a -> nw b ->
  returns (fun o => o_mul o a b) (fun c => wf c /\ is_value (t_mul (den a) (den b)) (den c)).
Proof.
move=> w1 w2 w3 s1 s2 h1 h2; apply: ans_returns (C04_multiply w1 w2 w3 s1 s2) => n.
exact: xh_xe (xk_mul (xk_n argsort n) h1 h2).
Qed.

(** ** C05 *)
Theorem C05_matmul a b (ta tb : bool) : wf a -> wf b ->
  mcolst a ta = mrowst b tb -> bcok (mbatch a) (mbatch b) -> mm_side a b ta tb ->
  answers (fun o => o_matmul o a b ta tb)
    (fun c => wf c /\ is_value (t_matmul (den a) (den b) ta tb) (den c)).
Proof.
move=> w1 w2 s1 s2 s3; apply: ans_conseq (ans_mm perm w1 w2 s1 s2 s3) _ => c [h _].
by split; [case: h|exact: value_matmul w1 w2 s1 s2 h].
Qed.
Theorem C05_matmul_dense a b (ta tb : bool) : wf a -> wf b ->
  mcolst a ta = mrowst b tb -> bcok (mbatch a) (mbatch b) -> mm_side a b ta tb ->
  answers (fun o => do c <- o_matmul o a b ta tb; do t <- o_dense o c;
                    do x <- o_dense o a; do y <- o_dense o b; do z <- t_matmul x y ta tb; ret (t, z))
          (fun p => teq p.1 p.2).
Proof.
move=> wa wb s1 s2 s3.
apply: ans_bind (ans_mm perm wa wb s1 s2 s3) _ => c [[wc [e1 e2] e3 hc] _].
apply: ans_bind (ans_dense perm wc) _ => t ht.
apply: ans_bind (ans_dense perm wa) _ => x hx; apply: ans_bind (ans_dense perm wb) _ => y hy.
have [z hz tz] := calm_hoare (cm_matmul x y ta tb) (tmat_matmul hx hy s2 s1).
apply: ans_ext (_ : forall o, ret (t, z) = _) _ => [o|]; first by rewrite hz bind_ret.
apply: ans_ret; rewrite /= e1 e2 e3 in ht *; apply: tmat_teq _ tz; apply: tmat_ext ht _; exact: hc.
Qed.
Theorem C05_matmul_returns a b (ta tb : bool) : wf a -> wf b ->
  mcolst a ta = mrowst b tb -> bcok (mbatch a) (mbatch b) -> mm_side a b ta tb -> nw a -> nw b ->
  returns (fun o => o_matmul o a b ta tb)
    (fun c => wf c /\ is_value (t_matmul (den a) (den b) ta tb) (den c)).
Proof.
move=> w1 w2 s1 s2 s3 h1 h2; apply: ans_returns (C05_matmul w1 w2 s1 s2 s3) => n.
exact: xh_xe (xk_mm (xk_n argsort n) ta tb h1 h2).
Qed.

(** ** C07 *)
(** The class of the transposed object. *)
Definition tr_ty (x : option ty) : option ty :=
  match x with Some TLT => Some TUT | Some TUT => Some TLT | x => x end.
Lemma tag_ty a c : tag a = tag c -> ty_of a = ty_of c. Proof. by case: a; case: c. Qed.
Lemma trtag_ty a c : tag c = trtag (tag a) -> ty_of c = tr_ty (ty_of a). Proof. by case: a; case: c. Qed.

Theorem C07_transpose a : wf a -> exists2 c, transpose a = ret c &
  [/\ wf c, ty_of c = tr_ty (ty_of a) & is_value (t_transpose (den a)) (den c)].
Proof.
move=> w; have [c -> [hc _ ht]] := calm_hoare (cm_transp a) (transpose_ok w); exists c => //.
split; [by case: hc|exact: trtag_ty|].
exact: value_tmat (cm_transpose _) (tmat_transpose (den_tmat w)) (res_tmat hc).
Qed.
Theorem C07_involutive a : wf a -> exists c d,
  [/\ transpose a = ret c, transpose c = ret d, ty_of d = ty_of a & teq (den d) (den a)].
Proof.
move=> w; have [c e1 [hc _ ht]] := calm_hoare (cm_transp a) (transpose_ok w).
have wc : wf c by case: hc.
have [d e2 [hd _ ht']] := calm_hoare (cm_transp c) (transpose_ok wc); exists c, d; split=> //.
  by rewrite (trtag_ty ht') (trtag_ty ht); case: (ty_of a) => [[]|].
apply: tmat_teq (res_tmat hd) _; case: hc => _ [r1 r2] bb ec; rewrite r1 r2 bb.
by apply: tmat_ext (den_tmat w) _ => be i j hb hi hj; rewrite ec.
Qed.
Theorem C08_negative a : wf a -> exists2 c, negative a = ret c &
  [/\ wf c, ty_of c = ty_of a & teq (den c) (t_map -%R (den a))].
Proof.
move=> w; have [c -> [hc _ ht]] := calm_hoare (cm_negative a) (negative_ok w); exists c => //.
split; [by case: hc|exact: tag_ty|].
exact: tmat_teq (res_tmat hc) (tmat_map -%R (den_tmat w)).
Qed.
End Core.

Print Assumptions C01_dense. Print Assumptions C01_dense_returns.
Print Assumptions C02_shapes. Print Assumptions C02_shapes_dense.
Print Assumptions C03_add. Print Assumptions C03_add_dense. Print Assumptions C03_add_returns.
Print Assumptions C04_multiply. Print Assumptions C04_multiply_dense. Print Assumptions C04_multiply_returns.
Print Assumptions C05_matmul. Print Assumptions C05_matmul_dense. Print Assumptions C05_matmul_returns.
Print Assumptions C07_transpose. Print Assumptions C07_involutive. Print Assumptions C08_negative.

(** The hypotheses can be met. *)
Example C01_ex (F : rcfType) : wf (s_kron F) /\ wf (s_wb F) /\ nw1 (s_wb F).
Proof. by split; [exact: s_kron_wf|]. Qed.
Example C03_ex (F : rcfType) :
  [/\ wf (s_kron F), wf (s_dense4 F), bcok (mshape (s_kron F)) (mshape (s_dense4 F)) & add_side (s_kron F) (s_dense4 F)]
  /\ [/\ wf (s_wb F), wf (s_lr F), bcok (mshape (s_wb F)) (mshape (s_lr F)) & add_side (s_wb F) (s_lr F)]
  /\ [/\ wfo (s_scal F), wf (s_diag F), bcok (mshape (s_scal F)) (mshape (s_diag F)), add_side (s_scal F) (s_diag F) & addx (s_scal F) (s_diag F)].
Proof.
split; first by split=> //; exact: s_kron_wf.
split; split=> //.
- by right.
- by rewrite /addx /= !andbF.
Qed.
Example C04_ex (F : rcfType) : mul_side (s_lt F) (s_diag F) /\ bcok (mshape (s_lt F)) (mshape (s_diag F)).
Proof. by []. Qed.
Example C05_ex (F : rcfType) : mcolst (s_lt F) true = mrowst (s_dense23 F) false /\ mm_side (s_kron F) (s_kron F) true false.
Proof. by []. Qed.
