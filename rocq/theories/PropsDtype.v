(** * C47: the data types of results *)
From mathcomp Require Import all_ssreflect all_algebra.
From Verif Require Import Outcome Shape Tensor Mat Dispatch Ops Spec Ops2 Block Backend Solve Types PropsMisc Samples Dtypes.
Set Implicit Arguments. Unset Strict Implicit. Unset Printing Implicit Defensive.
Import GRing.Theory.
Local Open Scope ring_scope.

Section Dtype.
Variable F : rcfType.
Notation tensor := (tensor F).
Notation mat := (mat F).
Variable argsort : seq F -> seq nat.
Notation run := (ops_n argsort).

(** ** Specification *)
(** [stored d a] ([PropsMisc.v]): some array stored in [a] has data type [d].  All of them are in [S]: *)
Definition arrays_in (S : dtype -> Prop) (a : mat) : Prop := forall d, stored d a -> S d.
(** Promotion does not lead out of [S].  Examples: one data type; the data types below (above) a given one. *)
Definition closed (S : dtype -> Prop) : Prop := forall x y, S x -> S y -> S (promote x y).
(** Whatever matrix (array) is returned has its data types in [S]. *)
Definition keeps (S : dtype -> Prop) (m : outcome mat) : Prop := forall l c, m = Ret l c -> arrays_in S c.
Definition keeps_array (S : dtype -> Prop) (m : outcome tensor) : Prop := forall l t, m = Ret l t -> S (dt t).

Lemma closed_one d : closed (fun x => x = d). Proof. by move=> x y -> ->; case: d. Qed.
Lemma closed_below e : closed (fun x => dle x e). Proof. by move=> x y hx hy; apply/dle_promote. Qed.
Lemma closed_above e : closed (fun x => dle e x).
Proof. by rewrite /dle => x y; case: e; case: x; case: y. Qed.

Lemma dM_in S (a : mat) : arrays_in S a <-> dM S a.
Proof.
rewrite /arrays_in; elim: a => [t|d b r c|t|t|t r c|t|t|l IHl r IHr m IHm|d l IHl r IHr m IHm|l IHl r IHr];
  rewrite /= /dT; try by split=> [|h d' ->] //; exact.
- split=> [h|[/IHl h1 /IHr h2 /IHm h3] d [|[]]]; [|exact: h1|exact: h2|exact: h3].
  by split; [apply/IHl|apply/IHr|apply/IHm] => d hd; apply: h; auto.
- split=> [h|[h0 /IHl h1 /IHr h2 /IHm h3] d' [->//|[|[]]]]; [|exact: h1|exact: h2|exact: h3].
  by split; [exact: h (or_introl erefl)|apply/IHl|apply/IHr|apply/IHm] => d' hd; apply: h; auto.
- split=> [h|[/IHl h1 /IHr h2] d []]; [|exact: h1|exact: h2].
  by split; [apply/IHl|apply/IHr] => d hd; apply: h; auto.
Qed.
Lemma keepsP S m : dq (dM S) m -> keeps S m. Proof. by move=> h l c /(dq_inv h)/dM_in. Qed.
Lemma keeps_arrayP S m : dq (dT S) m -> keeps_array S m. Proof. by move=> h l c /(dq_inv h). Qed.
Lemma All_in S (xs : seq mat) : (forall k, (k < size xs)%N -> arrays_in S (nth (Nm (t_scalar DInt 0)) xs k)) -> All (dM S) xs.
Proof. by elim: xs => //= x xs IH h; split; [apply/dM_in; exact: (h 0%N)|apply: IH => k hk; exact: (h k.+1)]. Qed.

(** ** The core: every operation keeps to the data types of its arguments *)
Theorem C47_core S n a b (ta tb : bool) : closed S -> arrays_in S a -> arrays_in S b ->
  [/\ keeps S (o_add (run n) a b), keeps S (o_mul (run n) a b) & keeps S (o_matmul (run n) a b ta tb)].
Proof.
move=> cl /dM_in ha /dM_in hb; have o := d_run argsort cl n.
by split; apply: keepsP; [exact: dp_add o _ _ ha hb|exact: dp_mul o _ _ ha hb|exact: dp_matmul o _ _ _ _ ha hb].
Qed.
Theorem C47_core1 S n a (ax : bool) : closed S -> arrays_in S a ->
  [/\ keeps_array S (o_dense (run n) a), keeps_array S (o_sumax (run n) a ax), keeps_array S (o_sumall (run n) a) &
      keeps_array S (o_diag (run n) a)].
Proof.
move=> cl /dM_in ha; have o := d_run argsort cl n.
by split; apply: keeps_arrayP; [exact: dp_dense o _ ha|exact: dp_sumax o _ _ ha|exact: dp_sumall o _ ha|exact: dp_diag o _ ha].
Qed.
Theorem C47_more S n k a b (ta tb : bool) (f : F -> F) (ax : option int) (reps : seq nat) (x : iom) (pos : int)
    (s : shape) (ds : seq (option nat)) : closed S -> arrays_in S a -> arrays_in S b ->
  [/\ [/\ keeps S (subtract (run n) a b), keeps S (divide (run n) a b), keeps S (kron_n k a b) &
          keeps_array S (matmul_diag (run n) a b ta tb)],
      [/\ keeps S (transpose a), keeps S (negative a), keeps S (broadcast_batch_to a s) & keeps S (elementwise (run n) f a)],
      [/\ keeps S (sum_op (run n) a ax), keeps_array S (trace (run n) a), S weak -> keeps S (mean_op (run n) a ax) &
          keeps S (tile_op (run n) a reps)] &
      [/\ keeps S (take_op (run n) a x pos), keeps S (submatrix (run n) a x), keeps_array S (reshape_op (run n) a ds) &
          keeps_array S (squeeze_op (run n) a)]].
Proof.
move=> cl /dM_in ha /dM_in hb; have o := d_run argsort cl n; split; split.
- by apply: keepsP; apply: d_subtract.
- by apply: keepsP; apply: d_divide.
- by apply: keepsP; apply: d_kron.
- by apply: keeps_arrayP; apply: d_matmul_diag.
- by apply: keepsP; apply: d_transposeM.
- by apply: keepsP; apply: d_negative.
- by apply: keepsP; apply: d_bbtM.
- by apply: keepsP; apply: d_elementwise.
- by apply: keepsP; apply: d_sum.
- by apply: keeps_arrayP; apply: d_trace.
- by move=> hw; apply: keepsP; apply: d_mean.
- by apply: keepsP; apply: d_tileM.
- by apply: keepsP; apply: d_takeM.
- by apply: keepsP; apply: d_submatrix.
- by apply: keeps_arrayP; apply: d_reshapeM.
- by apply: keeps_arrayP; apply: d_squeezeM.
Qed.
Theorem C47_blocks S n xs (rows : seq (seq mat)) ax : closed S ->
  (forall k, (k < size xs)%N -> arrays_in S (nth (Nm (t_scalar DInt 0)) xs k)) ->
  (forall i k, (i < size rows)%N -> (k < size (nth [::] rows i))%N -> arrays_in S (nth (Nm (t_scalar DInt 0)) (nth [::] rows i) k)) ->
  [/\ keeps S (concat_op (run n) xs ax), keeps S (block_diag (run n) xs) & keeps S (block (run n) rows)].
Proof.
move=> cl /All_in hx hr; have o := d_run argsort cl n; split; apply: keepsP.
- exact: d_concatM.
- exact: d_block_diag.
- apply: d_block => //; elim: rows hr => //= row rows IH h; split; first by apply: All_in => k; exact: (h 0%N).
  by apply: IH => i; exact: (h i.+1).
Qed.

(** ** In terms of [B.dtype] *)
(** One data type in, the same data type out, for every array of the result. *)
Theorem C47_same n l a b c d (ta tb : bool) : arrays_in (eq^~ d) a -> arrays_in (eq^~ d) b ->
  (o_add (run n) a b = Ret l c \/ o_mul (run n) a b = Ret l c \/ o_matmul (run n) a b ta tb = Ret l c) ->
  arrays_in (eq^~ d) c /\ mdtype c = d.
Proof.
move=> ha hb h; have [h1 h2 h3] := C47_core n ta tb (@closed_one d) ha hb.
have hc : arrays_in (eq^~ d) c by case: h => [|[]]; [exact: h1|exact: h2|exact: h3].
by split=> //; move/dM_in: hc => /(dM_dtype (@closed_one d)).
Qed.
(** No operation invents a wider data type than the promotion of those of its arguments, *)
Theorem C47_not_wider n l a b c (ta tb : bool) :
  (o_add (run n) a b = Ret l c \/ o_mul (run n) a b = Ret l c \/ o_matmul (run n) a b ta tb = Ret l c) ->
  dle (mdtype c) (promote (mdtype a) (mdtype b)).
Proof.
pose e := promote (mdtype a) (mdtype b).
have [ha hb] : arrays_in (dle^~ e) a /\ arrays_in (dle^~ e) b.
  by split; apply/C37_dtype; rewrite /e /dle; case: (mdtype a); case: (mdtype b).
move=> h; have [h1 h2 h3] := C47_core n ta tb (@closed_below e) ha hb.
have hc : arrays_in (dle^~ e) c by case: h => [|[]]; [exact: h1|exact: h2|exact: h3].
by move/dM_in: hc => /(dM_dtype (@closed_below e)).
Qed.
(** and none falls below all of them.  That the result has exactly the promoted data type is false: see
    [C42_zero_dtype]. *)
Theorem C47_not_narrower n l a b c e (ta tb : bool) : arrays_in (dle e) a -> arrays_in (dle e) b ->
  (o_add (run n) a b = Ret l c \/ o_mul (run n) a b = Ret l c \/ o_matmul (run n) a b ta tb = Ret l c) ->
  dle e (mdtype c).
Proof.
move=> ha hb h; have [h1 h2 h3] := C47_core n ta tb (@closed_above e) ha hb.
have hc : arrays_in (dle e) c by case: h => [|[]]; [exact: h1|exact: h2|exact: h3].
by move/dM_in: hc => /(dM_dtype (@closed_above e)).
Qed.

(** ** Inverses and solves (for sets which contain the floating point type of each member) *)
Section Solve.
Variable S : dtype -> Prop.
Hypothesis cl : closed S.
Hypothesis fl : forall d, S d -> S (float_of d).
Variable o : ops F.
Hypothesis ho : dops S o.
Lemma d_t_inv (t : tensor) : dT S t -> dq (dT S) (t_inv t).
Proof. by move=> h; rewrite /t_inv /t_square; case: (sh t) => [|? [|? ?]] //; case: ifP => // _; exact: fl. Qed.
Lemma d_diag_inv (t : tensor) : dT S t -> dq (dM S) (diag_inv t).
Proof.
move=> h; apply: (dq_bind (P := dT S)) => [|u hu]; last exact: d_mk_diag.
by rewrite /t_div /t_map2 -[promote _ _]/(dt t); case: (bc _ _).
Qed.
Lemma d_schur inv d l r m : (forall a, dM S a -> dq (dM S) (inv a)) -> dT S d -> dM S l -> dM S r -> dM S m ->
  dq (dM S) (schur_with o inv d l r m).
Proof.
move=> hi hd hl hr hm; apply: dq_bind (d_diag_inv hd) _ => x hx.
apply: dq_bind (d_mm3 ho _ _ _ hr hx hl) _ => y hy; apply: dq_bind (hi _ hm) _ => z hz; exact: dp_add ho _ _ hz hy.
Qed.
Lemma d_inv k a : dM S a -> dq (dM S) (inv_n o k a).
Proof.
elim: k a => [//|k IH] [t h|? ? ? ? //|t h|t h|//|//|//|//|d l r m [hd hl hr hm]|l r [hl hr]] //; cbn [inv_n].
- by apply: dq_bind (d_t_inv h) _.
- by apply: dq_bind (d_t_inv h) _ => u hu; apply: dq_ret; exact: d_uprank.
- exact: d_diag_inv.
- apply: dq_bind (d_diag_inv hd) _ => x hx; apply: dq_bind (dp_matmul ho _ _ hx hl) _ => y hy.
  apply: dq_bind (dp_matmul ho _ _ hx hr) _ => z hz; apply: dq_bind (d_schur IH hd hl hr hm) _ => s hs.
  apply: dq_bind (IH _ hs) _ => si hsi; apply: (dq_bind (P := dM S)) => [|lr hlr]; first by apply: d_mk_lowrank.
  exact: d_subtract.
- by apply: dq_bind (IH _ hl) _ => x hx; apply: dq_bind (IH _ hr) _.
Qed.
Lemma d_solve_sel sel (a b : tensor) : dT S a -> dT S b -> dq (dT S) (t_solve_sel sel a b).
Proof.
move=> ha hb; rewrite /t_solve_sel; case: (sh a) => [|? [|? ?]] //; case: (sh b) => [|? [|? ?]] //; case: ifP => // _.
by case: (bc _ _) => // s; case: ifP => // _; apply: fl; exact: cl.
Qed.
Lemma d_solve_body k i a b : dM S a -> dM S b -> dq (dM S) (solve_body o k i a b).
Proof.
have D x : dM S x -> dq (dT S) (o_dense o x) by exact: dp_dense ho _.
case: i => ha hb; rewrite /solve_body.
- by [].
- apply: dq_bind (dqT _) _ => _ _; apply: (dq_bind (P := All (dM S))) => [|ab hab]; first by apply: d_align_batch.
  apply: dq_bind (D _ (All_nth _ ha hab)) _ => x hx; apply: dq_bind (D _ (All_nth _ hb hab)) _ => y hy.
  by apply: dq_bind (d_solve_sel _ hx hy) _.
- by apply: dq_bind (d_inv k ha) _ => x hx; exact: (dp_matmul ho _ _ hx hb).
- case: a ha => // t ha; apply: dq_bind (dqT _) _ => _ _.
  apply: (dq_bind (P := All (dM S))) => [|ab hab]; first by apply: d_align_batch.
  apply: dq_bind (D _ (All_nth _ (ha : dM S (LT t)) hab)) _ => x hx; apply: dq_bind (D _ (All_nth _ hb hab)) _ => y hy.
  by apply: dq_bind (d_solve_sel _ hx hy) _ => u hu; apply: dq_ret; exact: d_uprank.
- case: a ha => // t ha; apply: dq_bind (dqT _) _ => _ _.
  apply: (dq_bind (P := All (dM S))) => [|ab hab]; first by apply: d_align_batch.
  apply: dq_bind (D _ (All_nth _ (ha : dM S (UT t)) hab)) _ => x hx; apply: dq_bind (D _ (All_nth _ hb hab)) _ => y hy.
  by apply: dq_bind (d_solve_sel _ hx hy) _ => u hu; apply: dq_ret; exact: d_uprank.
- by apply: dq_bind (d_inv k ha) _ => x hx; exact: (dp_matmul ho _ _ hx hb).
Qed.
Lemma d_solve k a b : dM S a -> dM S b -> dq (dM S) (solve o k a b).
Proof.
move=> ha hb; have K : dq (dM S) (solve_m o k (to_matrix a) (to_matrix b)).
  by apply: dq_bind (dqT _) _ => i _; apply: d_solve_body; exact: d_to_matrix.
case: a ha K => [t ha|? ? ? ? ?|? ?|? ?|? ? ? ?|? ?|? ?|? ? ? ?|? ? ? ? ?|? ? ?] K.
2-10: exact K.
case: b hb K => [u hb|? ? ? ? ?|? ?|? ?|? ? ? ?|? ?|? ?|? ? ? ?|? ? ? ? ?|? ? ?] K.
2-10: exact K.
by apply: dq_bind (d_solve_sel _ ha hb) _.
Qed.
End Solve.
End Dtype.

Theorem C47_inv_solve (F : rcfType) argsort S n k (a b : mat F) : closed S -> (forall d, S d -> S (float_of d)) ->
  arrays_in S a -> arrays_in S b ->
  [/\ keeps S (inv_n (ops_n argsort n) k a), keeps S (schur_n (ops_n argsort n) k a) & keeps S (solve (ops_n argsort n) k a b)].
Proof.
move=> cl fl /dM_in ha /dM_in hb; have o := d_run argsort cl n; split; apply: keepsP.
- exact: d_inv.
- by case: a ha => // d l r m [? ? ? ?]; apply: d_schur => // x hx; exact: d_inv.
- exact: d_solve.
Qed.

(** ** The hypotheses can be met *)
Section Examples.
Variable F : rcfType.
(** A Woodbury matrix of float32 arrays and a float32 Kronecker product; the sample Woodbury matrix mixes float32 and
    float64. *)
Definition e_t (s : shape) : tensor F := t_ones DFloat32 s.
Definition e_wb : mat F := Wb (e_t [:: 2]%N) (Dense (e_t [:: 1; 2]%N)) (Const (e_t [::]) 2 1) (Diag (e_t [:: 1]%N)).
Definition e_kron : mat F := Kron (Diag (e_t [:: 2]%N)) (Dense (e_t [:: 1; 1]%N)).
Example C47_ex_one : [/\ wf e_wb, wf e_kron, arrays_in (fun d => d = DFloat32) e_wb & arrays_in (fun d => d = DFloat32) e_kron].
Proof. by split=> // d /=; intuition. Qed.
Example C47_ex_mixed : [/\ wf (s_wb F), arrays_in (dle DFloat32) (s_wb F), stored DFloat32 (s_wb F) & stored DFloat64 (s_wb F)].
Proof. by split=> // [d /=||]; rewrite /=; intuition; subst. Qed.
(** The results exist: here a Woodbury matrix plus a diagonal matrix. *)
Example C47_ex_add argsort : exists n l c, o_add (ops_n argsort n) e_wb (Diag (e_t [:: 2]%N)) = Ret l c /\ mdtype c = DFloat32.
Proof. by exists 3%N; do 2!eexists; split; [by vm_compute|]. Qed.
Example C47_ex_float : closed (dle DFloat32) /\ forall d, dle DFloat32 d -> dle DFloat32 (float_of d).
Proof. by split; [exact: closed_above|case]. Qed.
End Examples.

Print Assumptions C47_core.
Print Assumptions C47_core1.
Print Assumptions C47_more.
Print Assumptions C47_blocks.
Print Assumptions C47_same.
Print Assumptions C47_not_wider.
Print Assumptions C47_not_narrower.
Print Assumptions C47_inv_solve.
