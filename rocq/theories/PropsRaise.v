(** * C38: operands of incompatible shapes are rejected *)
From mathcomp Require Import all_ssreflect all_algebra.
From Verif Require Import Outcome Monad Shape Tensor Mat Dispatch Ops Spec ShapeThy TensorThy TensorThy2 MatThy OpsOk MmOk OpsMain Term Term2 Term5 Exact Exact2 Calm Api Bridge Samples Inhabited RaiseThy.
Set Implicit Arguments. Unset Strict Implicit. Unset Printing Implicit Defensive.
Import GRing.Theory.
Local Open Scope ring_scope.

Section Props.
Variable F : rcfType.
Notation mat := (mat F).
Implicit Types a b : mat.
Variable argsort : seq F -> seq nat.
Hypothesis perm : argsort_ok argsort.
Notation raises := (raises argsort).
Notation inexact := (inexact argsort).

Lemma nv_raises A (f : ops F -> outcome A) n0 :
  (forall n, never false (f (ops_n argsort n))) -> (forall n k, ole (f (ops_n argsort n)) (f (ops_n argsort (n + k)))) ->
  nrec (f (ops_n argsort n0)) -> raises f.
Proof.
move=> hn hm hr; have := settle_core hm hr; have := hn n0; move: hr.
case: (f (ops_n argsort n0)) => [l a|l e] //= hr _ hs; exists l, e; split=> // E; by rewrite E in hr.
Qed.
Lemma nv_raises_w A (f : ops F -> outcome A) n0 :
  (forall n, never true (f (ops_n argsort n))) -> (forall n k, ole (f (ops_n argsort n)) (f (ops_n argsort (n + k)))) ->
  nrec (f (ops_n argsort n0)) -> raises f \/ inexact f.
Proof.
move=> hn hm hr; have := settle_core hm hr; have := hn n0; move: hr.
case: (f (ops_n argsort n0)) => [l a|l e] //= hr h hs; last by left; exists l, e; split=> // E; rewrite E in hr.
by right; case: hs => n1 hs; exists n1 => n hk; rewrite hs.
Qed.

Let le n k : ople (ops_n argsort n) (ops_n argsort (n + k)) := ople_n argsort n k.

(** ** add *)
(** Whatever the types: the sum of two matrices whose shapes do not broadcast is not returned, except possibly when
    an approximate comparison (align.py:28-29, add.py:192) took two different values for equal. *)
Theorem C38_add a b : wf a -> wf b -> ~~ bcok (mshape a) (mshape b) ->
  raises (fun o => o_add o a b) \/ inexact (fun o => o_add o a b).
Proof.
rewrite -shapes_bcok => wa wb h; apply: (@nv_raises_w _ _ (fu_add a b)) => [n|n k|].
- by have [H _ _] := ops_nv true perm n; apply: H.
- exact (le_add (le n k) _ _).
- exact (thnrec (tk_add (tm_n argsort _) (wfo_gdo (or_introl wa)) (wfo_gdo (or_introl wb)) (wf_gd2 (or_introl wa)) (leqnn _))).
Qed.
(** Unconditionally, unless two Woodbury, low-rank or constant matrices, at least one of them Woodbury, are added
    ([wbp]), or a Woodbury matrix occurs inside the factors of an operand ([nw1]). *)
Theorem C38_add_raises a b : wf a -> wf b -> nw1 a -> nw1 b -> ~~ wbp a b -> ~~ bcok (mshape a) (mshape b) ->
  raises (fun o => o_add o a b).
Proof.
rewrite -shapes_bcok => wa wb n1 n2 n3 h; apply: (@nv_raises _ _ (fu_add a b)) => [n|n k|].
- by have [H _ _] := ops_nv false perm n; apply: H => //; rewrite /okx n1 n2.
- exact (le_add (le n k) _ _).
- exact (thnrec (tk_add (tm_n argsort _) (wfo_gdo (or_introl wa)) (wfo_gdo (or_introl wb)) (wf_gd2 (or_introl wa)) (leqnn _))).
Qed.

(** ** multiply *)
Theorem C38_multiply a b : wf a -> wf b -> ~~ bcok (mshape a) (mshape b) -> ~~ mul_unchecked a b ->
  raises (fun o => o_mul o a b) \/ inexact (fun o => o_mul o a b).
Proof.
rewrite -shapes_bcok => wa wb h u; apply: (@nv_raises_w _ _ (fu_mul a b)) => [n|n k|].
- by have [_ H _] := ops_nv true perm n; apply: H.
- exact (le_mul (le n k) _ _).
- exact (thnrec (tk_mul (tm_n argsort _) (wfo_gdo (or_introl wa)) (wfo_gdo (or_introl wb)) (wf_gd2 (or_introl wa)) (leqnn _))).
Qed.
Theorem C38_multiply_raises a b : wf a -> wf b -> nw1 a -> nw1 b -> ~~ bcok (mshape a) (mshape b) -> ~~ mul_unchecked a b ->
  raises (fun o => o_mul o a b).
Proof.
rewrite -shapes_bcok => wa wb n1 n2 h u; apply: (@nv_raises _ _ (fu_mul a b)) => [n|n k|].
- by have [_ H _] := ops_nv false perm n; apply: H => //; rewrite /okm /okn n1 n2.
- exact (le_mul (le n k) _ _).
- exact (thnrec (tk_mul (tm_n argsort _) (wfo_gdo (or_introl wa)) (wfo_gdo (or_introl wb)) (wf_gd2 (or_introl wa)) (leqnn _))).
Qed.

(** ** matmul: the inner dimensions differ *)
Theorem C38_matmul a b (ta tb : bool) : wf a -> wf b ->
  (if ta then mrows a else mcols a) <> (if tb then mcols b else mrows b) ->
  raises (fun o => o_matmul o a b ta tb) \/ inexact (fun o => o_matmul o a b ta tb).
Proof.
move=> wa wb /eqP h; apply: (@nv_raises_w _ _ (fu_mm a b ta tb)) => [n|n k|].
- by have [_ _ H] := ops_nv true perm n; apply: H.
- exact (le_mm (le n k) _ _ _ _).
- exact (thnrec (tk_mm (tm_n argsort _) (wf_gd wa) (wf_gd wb) (leqnn _))).
Qed.
Theorem C38_matmul_raises a b (ta tb : bool) : wf a -> wf b -> nw1 a -> nw1 b ->
  (if ta then mrows a else mcols a) <> (if tb then mcols b else mrows b) ->
  raises (fun o => o_matmul o a b ta tb).
Proof.
move=> wa wb n1 n2 /eqP h; apply: (@nv_raises _ _ (fu_mm a b ta tb)) => [n|n k|].
- by have [_ _ H] := ops_nv false perm n; apply: H => //; rewrite /okm /okn n1 n2.
- exact (le_mm (le n k) _ _ _ _).
- exact (thnrec (tk_mm (tm_n argsort _) (wf_gd wa) (wf_gd wb) (leqnn _))).
Qed.
End Props.

(** ** The exceptions [mul_unchecked] are necessary *)
Section Unchecked.
Variable F : rcfType.
Notation mat := (mat F).
Notation tensor := (tensor F).
Variable argsort : seq F -> seq nat.
Notation returns := (returns argsort).

Lemma returnsI A (f : ops F -> outcome A) (P : A -> Prop) n0 l c :
  (forall n k, ole (f (ops_n argsort n)) (f (ops_n argsort (n + k)))) -> f (ops_n argsort n0) = Ret l c -> P c -> returns f P.
Proof.
move=> hm e p; exists l, c; split=> //; rewrite -e; apply: settle_core => //; by rewrite e.
Qed.
Let le n k : ople (ops_n argsort n) (ops_n argsort (n + k)) := ople_n argsort n k.

(** The product of a triangular matrix and a constant one: the rows and columns of the constant matrix do not matter. *)
Lemma lt_const_mul (x y : tensor) r c n : o_mul (ops_n argsort n) (LT x) (Const y r c) = o_mul (ops_n argsort n) (LT x) (Const y 1 1).
Proof. by case: n => [|n] //=; rewrite /mul_step /= !LookThy.mul_selE /= !bind_ret. Qed.
Lemma ut_const_mul (x y : tensor) r c n : o_mul (ops_n argsort n) (UT x) (Const y r c) = o_mul (ops_n argsort n) (UT x) (Const y 1 1).
Proof. by case: n => [|n] //=; rewrite /mul_step /= !LookThy.mul_selE /= !bind_ret. Qed.
Theorem C38_triangular_constant_unchecked (a : mat) (y : tensor) (r c : nat) : argsort_ok argsort ->
  wf a -> tag a = 5%N \/ tag a = 6%N -> wf (Const y r c) -> bcok (mbatch a) (sh y) ->
  returns (fun o => o_mul o a (Const y r c)) (fun z => [/\ wf z, mrows z = mrows a & mcols z = mcols a]).
Proof.
move=> perm wa ta wb ob; have wb' : wf (Const y 1 1) by have [h1 h2 h3] := posn3 wb; rewrite /= !posn_cons h3.
have so : shapes_ok a (Const y 1 1) by rewrite /shapes_ok ob /= /bcnok eqxx !orbT.
have fu : full a (Const y 1 1) by rewrite /full /= !bcn1 !eqxx.
have sd : mul_side a (Const y 1 1) by move: fu; clear -ta; case: a ta => //= *; intuition discriminate.
have [l [z [hs hz]]] : returns (fun o => o_mul o a (Const y 1 1)) (fun z => [/\ wf z, mrows z = mrows a & mcols z = mcols a]).
  apply: ans_returns => [n|].
    apply: xh_xe (xk_mul (xk_n argsort n) _ _) => //; by clear -ta; case: a ta => //= *; intuition discriminate.
  apply: ans_conseq (ans_mul perm (or_introl wa) (or_introl wb') (or_introl wa) so sd) _ => z [[wz [rz cz] _ _] _].
  by split=> //; [rewrite rz|rewrite cz]; rewrite /= bcn1.
exists l, z; split=> //; case: hs => n0 hs; exists n0 => n hn; rewrite -(hs n hn).
by clear -ta; case: a ta => [?|? ? ? ?|?|?|? ? ?|?|?|? ? ?|? ? ? ?|? ?] ta; try (by case: ta); rewrite 1?lt_const_mul 1?ut_const_mul.
Qed.
(** A 2x3 upper-triangular times a 3x2 lower-triangular matrix. *)
Definition w_ut : mat := UT (Tensor DFloat64 [:: 3; 2]%N (fun idx => if idx is [:: j; i] then (if (j < i)%N then 0 else 1) else 0)).
Definition w_lt : mat := LT (Tensor DFloat64 [:: 2; 3]%N (fun idx => if idx is [:: j; i] then (if (i < j)%N then 0 else 1) else 0)).
Theorem C38_upper_lower_unchecked : [/\ wf w_ut, wf w_lt, ~~ bcok (mshape w_ut) (mshape w_lt) &
  returns (fun o => o_mul o w_ut w_lt) (fun c => wf c /\ mshape c = [:: 2; 2]%N)].
Proof.
split=> //.
- by split=> // be i j _ _ _ h; rewrite /mx /= h.
- by split=> // be i j _ _ _ h; rewrite /mx /= h.
- apply: (@returnsI _ _ _ 2) => [n k| |]; first exact (le_mul (le n k) _ _).
  + by vm_compute.
  + by [].
Qed.
(** Two Kronecker products with batches (2) and (3): the result is a [Kronecker] whose factors have the batches
    (2) and (3), with no dense form. *)
Definition w_k1 : mat := Kron (Dense (t_ones DFloat64 [:: 1; 1; 2]%N)) (Dense (t_ones DFloat64 [:: 1; 1]%N)).
Definition w_k2 : mat := Kron (Dense (t_ones DFloat64 [:: 1; 1]%N)) (Dense (t_ones DFloat64 [:: 1; 1; 3]%N)).
Theorem C38_kronecker_batch_unchecked : [/\ wf w_k1, wf w_k2, ~~ bcok (mshape w_k1) (mshape w_k2) &
  returns (fun o => o_mul o w_k1 w_k2) (fun c => ~ wf c /\ raises argsort (fun o => o_dense o c))].
Proof.
split=> //; apply: (@returnsI _ _ _ 3) => [n k| |]; first exact (le_mul (le n k) _ _).
  by vm_compute.
split; first by case.
apply: (@nv_raises _ _ _ _ 4) => [n|n k|]; [|exact (le_dense (le n k) _)|by vm_compute].
by case: n => [|[|[|n]]]; vm_compute.
Qed.
End Unchecked.

Section Examples.
Variable F : rcfType.
Variable argsort : seq F -> seq nat.
Hypothesis perm : argsort_ok argsort.
Notation raises := (raises argsort).
Example C38_ex_add : raises (fun o => o_add o (s_lt F) (s_dense23 F)).
Proof. by apply: C38_add_raises => //; exact: s_lt_wf. Qed.
Example C38_ex_mul : raises (fun o => o_mul o (s_wb F) (s_dense23 F)).
Proof. by apply: C38_multiply_raises. Qed.
Example C38_ex_mm : raises (fun o => o_matmul o (s_dense23 F) (s_wb F) false true).
Proof. by apply: C38_matmul_raises. Qed.
Example C38_ex_mm_kron : raises (fun o => o_matmul o (s_dense23 F) (s_kron F) false true) \/
  inexact argsort (fun o => o_matmul o (s_dense23 F) (s_kron F) false true).
Proof. by apply: C38_matmul => //; exact: s_kron_wf. Qed.
End Examples.

Print Assumptions C38_add. Print Assumptions C38_add_raises. Print Assumptions C38_multiply. Print Assumptions C38_multiply_raises.
Print Assumptions C38_matmul. Print Assumptions C38_matmul_raises. Print Assumptions C38_triangular_constant_unchecked.
Print Assumptions C38_upper_lower_unchecked. Print Assumptions C38_kronecker_batch_unchecked.
