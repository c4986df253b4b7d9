(** * C42: where the library returns something else than the dense computation

    The side conditions of the other properties are necessary: each theorem of this file gives operands for which
    an operation returns a wrong value, an object which breaks the invariant of its class, or raises although the
    dense computation is defined. *)
From mathcomp Require Import all_ssreflect all_algebra.
From Verif Require Import Outcome Monad Shape Tensor Mat Dispatch Ops Spec ShapeThy TensorThy TensorThy2 MatThy OpsOk AddOk MmOk OpsMain Term Term2 Term5 Exact Exact2 Calm Api Bridge Samples Inhabited PropsRaise Ops2 PropsAlign PropsLrAdd.
Set Implicit Arguments. Unset Strict Implicit. Unset Printing Implicit Defensive.
Import GRing.Theory.
Local Open Scope ring_scope.

Section Limits.
Variable F : rcfType.
Notation mat := (mat F).
Notation tensor := (tensor F).
Variable argsort : seq F -> seq nat.
Notation returns := (returns argsort).
Notation raises := (raises argsort).
Let le n k : ople (ops_n argsort n) (ops_n argsort (n + k)) := ople_n argsort n k.

(** The dense computation [m] returns an array other than [t]. *)
Definition off (m : outcome tensor) (t : tensor) : Prop := exists2 z, m = ret z & ~ teq t z.
Definition ones (s : shape) : tensor := t_ones DFloat64 s.
(** The n x n identity matrix, as a triangular matrix. *)
Definition eye (n : nat) : tensor := Tensor DFloat64 [:: n; n] (fun idx => if idx is [:: j; i] then (i == j)%:R else 0).
Lemma eye_lt n : (0 < n)%N -> wf (LT (eye n)).
Proof. by move=> h; split; [rewrite /= /wft /= !posn_cons h|move=> be i j _ _ _ /ltn_eqF h'; rewrite /mx /= h']. Qed.
Lemma eye_ut n : (0 < n)%N -> wf (UT (eye n)).
Proof. by move=> h; split; [rewrite /= /wft /= !posn_cons h|move=> be i j _ _ _ /gtn_eqF h'; rewrite /mx /= h']. Qed.

(** ** Stretching a structured 1x1 operand *)
Theorem C42_add_diag : let a : mat := Diag (ones [:: 1]%N) in let b : mat := Diag (ones [:: 2]%N) in
  [/\ wf a, wf b, bcok (mshape a) (mshape b) &
      returns (fun o => o_add o a b) (fun c => off (t_add (den a) (den b)) (den c))].
Proof.
split=> //; apply: (@returnsI _ _ _ _ _ 1) => [n k| |]; [exact (le_add (le n k) _ _)|by vm_compute|].
eexists; first by vm_compute.
case=> _ /(_ [:: 1; 0]%N isT) h; have : (0 : F) = 1 + 0 := h.
by rewrite addr0 => /esym/eqP; rewrite oner_eq0.
Qed.

Lemma one0 : (1 : F) = 0 -> False. Proof. by move/eqP; rewrite oner_eq0. Qed.

(** The result is called lower-triangular, but has an entry above the diagonal. *)
Theorem C42_add_lower : let a : mat := LT (ones [:: 1; 1]%N) in let b : mat := LT (eye 2) in
  [/\ wf a, wf b, bcok (mshape a) (mshape b) &
      returns (fun o => o_add o a b) (fun c => ty_of c = Some TLT /\ ent c [::] 0 1 <> 0)].
Proof.
split=> //; [by split=> // be [] // [] // i _ _; rewrite ltnS|exact: eye_lt|].
apply: (@returnsI _ _ _ _ _ 1) => [n k| |]; [exact (le_add (le n k) _ _)|by vm_compute|].
by split=> // h; have : (1 : F) + 0 = 0 := h; rewrite addr0 => /one0.
Qed.
(** Diag(1x1) + LowRank(2x2) is a Woodbury matrix of shape 2x2, which cannot be multiplied by a 2x2 matrix. *)
Theorem C42_add_lowrank_diag : let a : mat := Diag (ones [:: 1]%N) in let b : mat := s_lr F in
  [/\ wf a, wf b, bcok (mshape a) (mshape b) &
      returns (fun o => o_add o a b) (fun c => shape_of c = ret [:: 2; 2]%N /\
        raises (fun o => o_matmul o c (Dense (ones [:: 2; 2]%N)) false false))].
Proof.
split=> //.
apply: (@returnsI _ _ _ _ _ 1) => [n k| |]; [exact (le_add (le n k) _ _)|by vm_compute|].
split; first by vm_compute.
exists log0, AssertionError; split=> //; exists 2%N => n hn; by rewrite -(subnKC hn); vm_compute.
Qed.
Theorem C42_multiply_diag : let a : mat := Diag (ones [:: 1]%N) in let b : mat := Dense (ones [:: 2; 2]%N) in
  [/\ wf a, wf b, bcok (mshape a) (mshape b) &
      returns (fun o => o_mul o a b) (fun c => off (t_mul (den a) (den b)) (den c))].
Proof.
split=> //; apply: (@returnsI _ _ _ _ _ 2) => [n k| |]; [exact (le_mul (le n k) _ _)|by vm_compute|].
eexists; first by vm_compute.
by case=> _ /(_ [:: 1; 0]%N isT) h; have : (0 : F) = 1 * 1 := h; rewrite mulr1 => /esym/one0.
Qed.
Theorem C42_multiply_lower : let a : mat := LT (ones [:: 1; 1]%N) in let b : mat := Dense (ones [:: 2; 2]%N) in
  [/\ wf a, wf b, bcok (mshape a) (mshape b) &
      returns (fun o => o_mul o a b) (fun c => ty_of c = Some TLT /\ ent c [::] 0 1 <> 0)].
Proof.
split=> //; first by split=> // be [] // [] // i _ _; rewrite ltnS.
apply: (@returnsI _ _ _ _ _ 2) => [n k| |]; [exact (le_mul (le n k) _ _)|by vm_compute|].
by split=> // h; have : (1 : F) * 1 = 0 := h; rewrite mulr1 => /one0.
Qed.
(** ** Shapes *)
(** Every product of a constant matrix and a low-rank matrix (without Woodbury factors) or a Kronecker product has
    the shape of the latter: if the constant matrix is larger, then the result is not broadcast. *)
Lemma const_mul (b : mat) (x : tensor) r c n : tag b = 7%N \/ tag b = 9%N -> wf (Const x r c) -> wf b -> shapes_ok (Const x r c) b ->
  o_mul (ops_n argsort n) (Const x r c) b = o_mul (ops_n argsort n) (Const x 1 1) b.
Proof.
move=> tb wa wb so; have [c0 r0 px] := posn3 wa.
have wa' : wf (Const x 1 1) by rewrite /= !posn_cons px.
have so' : shapes_ok (Const x 1 1) b by case/and3P: so => _ _ h; rewrite /shapes_ok h /= /bcnok.
case: n => [|n]; first by [].
case: b tb wb so so' => [?|? ? ? ?|?|?|? ? ?|?|?|l r' m|? ? ? ?|l r'] tb wb so so'; try (by case: tb).
- by cbn [o_mul ops_n ops_step]; rewrite /mul_step /to_matrix !LookThy.mul_selE; look; rewrite ?bind_ret /mul_body !assert_shapesE.
- by cbn [o_mul ops_n ops_step]; rewrite /mul_step /to_matrix !LookThy.mul_selE; look; rewrite ?bind_ret /mul_body !assert_shapesE.
Qed.
Theorem C42_multiply_constant (x : tensor) (b : mat) r c : argsort_ok argsort ->
  wf (Const x r c) -> wf b -> tag b = 7%N \/ tag b = 9%N -> nw b -> bcok (mshape (Const x r c)) (mshape b) ->
  returns (fun o => o_mul o (Const x r c) b) (fun z => mrows z = mrows b /\ mcols z = mcols b).
Proof.
rewrite -shapes_bcok => perm wa wb tb nb so; have [c0 r0 px] := posn3 wa.
have wa' : wf (Const x 1 1) by rewrite /= !posn_cons px.
have so' : shapes_ok (Const x 1 1) b by case/and3P: so => _ _ h; rewrite /shapes_ok h /= /bcnok.
have fu : full b (Const x 1 1) by rewrite /full /= !bcn1 !eqxx.
have sd : mul_side (Const x 1 1) b by move: fu; clear -tb; case: b tb => //= *; intuition discriminate.
have [l [z [hs hz]]] : returns (fun o => o_mul o (Const x 1 1) b) (fun z => mrows z = mrows b /\ mcols z = mcols b).
  apply: ans_returns => [n|]; first exact: xh_xe (xk_mul (xk_n argsort n) _ _).
  apply: ans_conseq (ans_mul perm (or_introl wa') (or_introl wb) (or_introl wa') so' sd) _ => z [[wz [rz cz] _ _] _].
  by split; [rewrite rz|rewrite cz]; rewrite /= /bcn.
by exists l, z; split=> //; case: hs => n0 hs; exists n0 => n hn; rewrite const_mul // hs.
Qed.
(** UpperTriangular(2x3) * LowerTriangular(2x3) is 2x2. *)
Theorem C42_multiply_upper_lower : let a : mat := w_ut F in
  let b : mat := LT (Tensor DFloat64 [:: 3; 2]%N (fun idx => if idx is [:: j; i] then (if (i < j)%N then 0 else 1) else 0)) in
  [/\ wf a, wf b, bcok (mshape a) (mshape b) &
      returns (fun o => o_mul o a b) (fun c => off (t_mul (den a) (den b)) (den c))].
Proof.
split=> //; try (by split=> // be i j _ _ _ h; rewrite /mx /= h).
apply: (@returnsI _ _ _ _ _ 2) => [n k| |]; [exact (le_mul (le n k) _ _)|by vm_compute|].
by eexists; [vm_compute|case].
Qed.
(** The diagonal of a 2x2 Kronecker product of a 2x1 and a 1x2 matrix has one entry. *)
Theorem C42_diag_kronecker : let a : mat := Kron (Dense (ones [:: 1; 2]%N)) (Dense (ones [:: 2; 1]%N)) in
  [/\ wf a, mshape a = [:: 2; 2]%N & returns (fun o => o_diag o a) (fun t => off (t_diag_extract (den a)) t)].
Proof.
split=> //; apply: (@returnsI _ _ _ _ _ 2) => [n k| |]; [exact (le_diag (le n k) _)|by vm_compute|].
by eexists; [vm_compute|case].
Qed.
(** [matmul_diag] of a 1x2 and a 2x2 matrix has two entries. *)
Theorem C42_matmul_diag : let a : mat := Dense (ones [:: 2; 1]%N) in let b : mat := Dense (ones [:: 2; 2]%N) in
  [/\ wf a, wf b & returns (fun o => matmul_diag o a b false false)
    (fun t => off (do z <- t_matmul (den a) (den b) false false; t_diag_extract z) t)].
Proof.
split=> //; exists log0; eexists; split.
  by exists 2%N => n hn; rewrite -(subnKC hn); vm_compute.
by eexists; [vm_compute|case].
Qed.
(** ** Indices *)
(** The submatrix of the identity for the indices 0, 0. *)
Theorem C42_submatrix_diag : let a : mat := Diag (ones [:: 2]%N) in let x := Idx [:: Posz 0; Posz 0] in
  wf a /\ returns (fun o => submatrix o a x) (fun c => off (t_submatrix (den a) x) (den c)).
Proof.
split=> //; exists log0; eexists; split.
  by exists 0%N => n hn; vm_compute.
eexists; first by vm_compute.
by case=> _ /(_ [:: 1; 0]%N isT) h; have : (0 : F) = 1 := h => /esym/one0.
Qed.
(** The submatrix of a lower-triangular matrix for the indices 1, 0 is upper-triangular, but is called lower. *)
Theorem C42_submatrix_lower : let a : mat := s_lt F in let x := Idx [:: Posz 1; Posz 0] in
  wf a /\ returns (fun o => submatrix o a x) (fun c => ty_of c = Some TLT /\ ent c [:: 0%N] 0 1 <> 0).
Proof.
split; first exact: s_lt_wf; exists log0; eexists; split.
  by exists 0%N => n hn; vm_compute.
by split=> // h; have : (2%:R : F) = 0 := h; move/eqP; rewrite Num.Theory.pnatr_eq0.
Qed.
(** [take] of rows of a Zero or a Constant matrix does not check the indices; the dense computation raises. *)
Theorem C42_take_unchecked (n : nat) o : let x := Idx [:: Posz n.+2] in
  (exists e, t_take (den (Const (t_scalar DFloat64 1) 2 2)) x ax2 = Raise e :> outcome tensor) /\
  (exists2 c, take_op o (Const (t_scalar DFloat64 1) 2 2 : mat) x ax2 = ret c & mshape c = [:: 2; 1]%N) /\
  (exists2 c, take_op o (Zero DFloat64 [::] 2 2 : mat) x ax2 = ret c & mshape c = [:: 2; 1]%N).
Proof.
split; first by eexists; vm_compute.
by split; eexists; [vm_compute| |vm_compute|].
Qed.
(** Rows of a batch of low-rank matrices with a numeric left factor are taken along the batch. *)
Theorem C42_take_batched_numeric : let a : mat := LR (Nm (ones [:: 1; 3; 2]%N)) (Nm (ones [:: 1; 3]%N)) (Nm (ones [:: 1; 1]%N)) in
  let x := Idx [:: Posz 0] in
  wf a /\ returns (fun o => take_op o a x ax2) (fun c => off (t_take (den a) x ax2) (den c)).
Proof.
split=> //; exists log0; eexists; split.
  by exists 0%N => n hn; vm_compute.
by eexists; [vm_compute|case].
Qed.
(** ** Powers *)
(** Exponent zero: a diagonal matrix stays diagonal although 0^0 = 1, a Zero stays zero. *)
Theorem C42_power_zero : wf (Diag (ones [:: 2]%N)) /\
  returns (fun o => power_op o 0 (Diag (ones [:: 2]%N))) (fun c => ~ teq (den c) (t_map (fun x => x ^+ 0) (den (Diag (ones [:: 2]%N))))) /\
  returns (fun o => power_op o 0 (@Zero F DInt [::] 2 2)) (fun c => ~ teq (den c) (t_map (fun x => x ^+ 0) (den (@Zero F DInt [::] 2 2)))).
Proof.
split=> //; split; exists log0; eexists; split.
- by exists 0%N => n hn.
- by case=> _ /(_ [:: 1; 0]%N isT) h; have : (0 : F) = 0 ^+ 0 := h; rewrite expr0 => /esym/one0.
- by exists 0%N => n hn.
- by case=> _ /(_ [:: 1; 0]%N isT) h; have : (0 : F) = 0 ^+ 0 := h; rewrite expr0 => /esym/one0.
Qed.
(** ** Data types *)
(** Zero(float64) + Dense(int) is an integer matrix, Dense(int) @ Zero(float64) as well (the data type of the other
    operand resp. of the Zero is taken). *)
Theorem C42_zero_dtype : let z : mat := Zero DFloat64 [::] 2 2 in let b : mat := Dense (t_ones DInt [:: 2; 2]%N) in
  [/\ wf z, wf b, returns (fun o => o_add o z b) (fun c => mdtype c = DInt),
      returns (fun o => o_matmul o (Zero DInt [::] 2 2) (Dense (ones [:: 2; 2]%N)) false false) (fun c => mdtype c = DInt) &
      exists2 t, t_add (den z) (den b) = ret t & dt t = DFloat64].
Proof.
split=> //.
- by apply: (@returnsI _ _ _ _ _ 1) => [n k| |]; [exact (le_add (le n k) _ _)|vm_compute|].
- by apply: (@returnsI _ _ _ _ _ 1) => [n k| |]; [exact (le_mm (le n k) _ _ _ _)|vm_compute|].
- by eexists; [vm_compute|].
Qed.
(** ** Kronecker products *)
(** kron(2x2, 1x1) @ kron(1x1, 2x2) raises, although the product of the 2x2 matrices is defined. *)
Theorem C42_matmul_kronecker : let a : mat := Kron (Dense (ones [:: 2; 2]%N)) (Dense (ones [:: 1; 1]%N)) in
  let b : mat := Kron (Dense (ones [:: 1; 1]%N)) (Dense (ones [:: 2; 2]%N)) in
  [/\ wf a, wf b, exists t, t_matmul (den a) (den b) false false = ret t & raises (fun o => o_matmul o a b false false)].
Proof.
split=> //; first by eexists; vm_compute.
exists log0, AssertionError; split=> //; exists 1%N => n hn; by rewrite -(subnKC hn); vm_compute.
Qed.
Theorem C42_multiply_kronecker : let a : mat := Kron (Dense (ones [:: 2; 2]%N)) (Dense (ones [:: 1; 1]%N)) in
  let b : mat := Kron (Dense (ones [:: 1; 1]%N)) (Dense (ones [:: 2; 2]%N)) in
  [/\ wf a, wf b, exists t, t_mul (den a) (den b) = ret t & raises (fun o => o_mul o a b)].
Proof.
split=> //; first by eexists; vm_compute.
exists log0, AssertionError; split=> //; exists 1%N => n hn; by rewrite -(subnKC hn); vm_compute.
Qed.
(** ** Batches *)
(** A product of a batch of 2 low-rank matrices and a batch of 3 matrices is returned as a low-rank matrix whose
    factors have these batches, without a dense form. *)
Theorem C42_matmul_lowrank_batch :
  let a : mat := LR (Dense (ones [:: 1; 1; 2]%N)) (Dense (ones [:: 1; 1]%N)) (Dense (ones [:: 1; 1]%N)) in
  let b : mat := Dense (ones [:: 1; 1; 3]%N) in
  [/\ wf a, wf b, (exists e, t_matmul (den a) (den b) false false = Raise e) &
      returns (fun o => o_matmul o a b false false) (fun c => ~ wf c /\ raises (fun o => o_dense o c))].
Proof.
split=> //; first by eexists; vm_compute.
apply: (@returnsI _ _ _ _ _ 3) => [n k| |]; [exact (le_mm (le n k) _ _ _ _)|by vm_compute|].
split; first by case.
by exists log0; eexists; split; [exists 4%N => n hn; rewrite -(subnKC hn); vm_compute|].
Qed.
(** ** Constructors *)
(** [Woodbury(Diagonal(1x1), LowRank(2x3))] is accepted. *)
Theorem C42_woodbury_constructor : let d : mat := Diag (ones [:: 1]%N) in
  let lr : mat := LR (Dense (ones [:: 1; 2]%N)) (Dense (ones [:: 1; 3]%N)) (Dense (ones [:: 1; 1]%N)) in
  [/\ wf d, wf lr & mk_woodbury d lr = ret (Wb (ones [:: 1]%N) (Dense (ones [:: 1; 2]%N)) (Dense (ones [:: 1; 3]%N)) (Dense (ones [:: 1; 1]%N)))].
Proof. by split=> //; vm_compute. Qed.
(** ** Sums of low-rank matrices *)
Section LowRankSum.
Hypothesis perm : argsort_ok argsort.
Lemma argsort1 (v : F) : argsort [:: v] = [:: 0%N].
Proof. by apply: perm_small_eq => //; exact: perm [:: v]. Qed.
(** Two numeric columns of height 1, of which the first batch elements are close, are considered equal. *)
Lemma align1 n (x y : tensor) bx by' : sh x = [:: 1, 1 & bx]%N -> sh y = [:: 1, 1 & by']%N -> posn bx -> posn by' ->
  (tget x [:: 0, 0 & nseq (size bx) 0]%N - tget y [:: 0, 0 & nseq (size by') 0]%N) ^+ 2 < tol F ->
  exists l, align argsort (ops_n argsort n.+1) (Nm x) (Nm y) = Ret l (Alignment [:: Posz 0] [:: Posz 0] [:: Posz 0] [:: Negz 0]).
Proof.
move=> ex ey px py h; rewrite /align /getitem_dense /= /dense_step /= !bind_ret.
case: x ex h => dx sx fx /= ex; case: y ey => dy sy fy /= ey; subst sx sy => h.
have ax : all (fun d => (0 < d)%N) bx := px; have ay : all (fun d => (0 < d)%N) by' := py.
rewrite /t_first /= ax bind_ret /= !bind_ret /= ay bind_ret /norms /= /tcols /= !argsort1 /=.
set ce := col_equal _ _ 0 0; have -> : ce = ret true.
  rewrite /ce /col_equal /t_sub /t_map2 /= /t_mean_lt /= bind_ret /=.
  congr ret; move: h; rewrite /sumf /= ?addr0 ?muln1 /= expr2 => h.
  rewrite /trows /= divr1; exact: h.
rewrite bind_ret /=; case: (t_same _ _) => /=; by eexists.
Qed.
Lemma tol_gt0 : 0 < tol F.
Proof. by rewrite /tol Num.Theory.invr_gt0 Num.Theory.exprn_gt0 // Num.Theory.ltr0n. Qed.

Definition cell (d : dtype) (b : shape) (f : seq nat -> F) : tensor := Tensor d [:: 1, 1 & b]%N f.
Definition bat01 (b : shape) : Prop := b = [::] \/ b = [:: 2]%N.
Lemma inb_cell b idx : inb [:: 1, 1 & b]%N idx -> exists2 be, idx = [:: 0, 0 & be]%N & inb b be.
Proof. by case: idx => [|[|j] [|[|i] be]] // h; exists be. Qed.
Lemma pt0 n d b f : bat01 b -> exists2 u, (do x <- pad_zero_col (ops_n argsort n) (Nm (cell d b f)); take_num (ops_n argsort n) x [:: Posz 0] 0) = ret (Nm u)
  & sh u = [:: 1, 1 & b]%N /\ (forall be, inb b be -> tget u [:: 0, 0 & be]%N = f [:: 0, 0 & be]%N).
Proof.
by case=> ->; (eexists; [vm_compute; reflexivity|split=> // be; case: be => [|[|[|k]] [|k' be]]]).
Qed.
Lemma ptm n d b f : bat01 b -> exists2 u, (do x <- pad_zero_col (ops_n argsort n) (Nm (cell d b f)); take_num (ops_n argsort n) x [:: Negz 0] 0) = ret (Nm u)
  & sh u = [:: 1, 1 & b]%N /\ (forall be, inb b be -> tget u [:: 0, 0 & be]%N = 0).
Proof.
by case=> ->; (eexists; [vm_compute; reflexivity|split=> // be; case: be => [|[|[|k]] [|k' be]]]).
Qed.
Lemma ptb n d b f : bat01 b -> exists2 u, (do x <- pad_zero_both (ops_n argsort n) (Nm (cell d b f)); do y <- take_num (ops_n argsort n) x [:: Posz 0] 1; take_num (ops_n argsort n) y [:: Posz 0] 0) = ret (Nm u)
  & sh u = [:: 1, 1 & b]%N /\ (forall be, inb b be -> tget u [:: 0, 0 & be]%N = f [:: 0, 0 & be]%N).
Proof.
by case=> ->; (eexists; [vm_compute; reflexivity|split=> // be; case: be => [|[|[|k]] [|k' be]]]).
Qed.
Lemma addc n (u v : tensor) b (f g : seq nat -> F) : bat01 b ->
  sh u = [:: 1, 1 & b]%N /\ (forall be, inb b be -> tget u [:: 0, 0 & be]%N = f be) ->
  sh v = [:: 1, 1 & b]%N /\ (forall be, inb b be -> tget v [:: 0, 0 & be]%N = g be) ->
  exists2 w, o_add (ops_n argsort n.+1) (Nm u) (Nm v) = ret (Nm w) &
    sh w = [:: 1, 1 & b]%N /\ (forall be, inb b be -> tget w [:: 0, 0 & be]%N = f be + g be).
Proof.
case: u v => du su fu [dv sv fv] hb /= [-> hu] [-> hv].
case: hb hu hv => -> hu hv; (eexists; [vm_compute; reflexivity|split=> // be hbe; rewrite -hu // -hv //; by case: be hbe => [|[|[|k]] [|k' be]]]).
Qed.
Definition is_cell (t : tensor) (b : shape) (f : seq nat -> F) := sh t = [:: 1, 1 & b]%N /\ (forall be, inb b be -> tget t [:: 0, 0 & be]%N = f be).
Lemma add1 n b dx dy du dv dm dk (x y u v m k : seq nat -> F) : bat01 b ->
  let b0 := nseq (size b) 0%N in
  (x [:: 0, 0 & b0]%N - y [:: 0, 0 & b0]%N) ^+ 2 < tol F -> (u [:: 0; 0]%N - v [:: 0; 0]%N) ^+ 2 < tol F ->
  retd (o_add (ops_n argsort n.+2) (LR (Nm (cell dx b x)) (Nm (cell du [::] u)) (Nm (cell dm [::] m)))
    (LR (Nm (cell dy b y)) (Nm (cell dv [::] v)) (Nm (cell dk [::] k)))) (fun c =>
   exists jl jr jm, [/\ is_cell jl b (fun be => x [:: 0, 0 & be]%N + 0), is_cell jr [::] (fun be => u [:: 0, 0 & be]%N + 0),
     is_cell jm [::] (fun be => m [:: 0, 0 & be]%N + k [:: 0, 0 & be]%N) &
  c = if t_mean_lt (t_map (fun x => `|x|) jm) (tol F) then Zero (mdtype (LR (Nm jl) (Nm jr) (Nm jm))) b 1 1 else LR (Nm jl) (Nm jr) (Nm jm)]).
Proof.
move=> hb b0 h1 h2; rewrite o_add_LR /add_lr_lr.
have -> : assert_shapes_compatible (LR (Nm (cell dx b x)) (Nm (cell du [::] u)) (Nm (cell dm [::] m))) (LR (Nm (cell dy b y)) (Nm (cell dv [::] v)) (Nm (cell dk [::] k))) = ret tt.
  by case: hb => ->; vm_compute.
have pb : posn b by case: hb => ->.
rewrite bind_ret; have [l1 ->] := @align1 n (cell dx b x) (cell dy b y) b b erefl erefl pb pb h1.
have [l2 E2] := @align1 n (cell du [::] u) (cell dv [::] v) [::] [::] erefl erefl isT isT h2.
have [w1 F1 V1] := pt0 n.+1 dx x hb; have [w2 F2 V2] := ptm n.+1 dy y hb; have [w3 F3 V3] := addc n hb V1 V2.
have hz : bat01 [::] by left.
have [w4 F4 V4] := pt0 n.+1 du u hz; have [w5 F5 V5] := ptm n.+1 dv v hz; have [w6 F6 V6] := addc n hz V4 V5.
have [w7 F7 V7] := ptb n.+1 dm m hz; have [w8 F8 V8] := ptb n.+1 dk k hz; have [w9 F9 V9] := addc n hz V7 V8.
pose A := Alignment [:: Posz 0] [:: Posz 0] [:: Posz 0] [:: Negz 0].
apply: (@retd_bind _ _ _ _ (fun z => z = A)) => [|_ ->]; first by exists l1, A.
rewrite E2; apply: (@retd_bind _ _ _ _ (fun z => z = A)) => [|_ ->]; first by exists l2, A.
rewrite /al_ja /al_jb /al_a /al_b /A F1 bind_ret F2 bind_ret F3 bind_ret F4 bind_ret F5 bind_ret F6 bind_ret F7 bind_ret F8 bind_ret F9 bind_ret.
have -> : mk_lowrank (Nm w3) (Some (Nm w6)) (Some (Nm w9)) = ret (LR (Nm w3) (Nm w6) (Nm w9)).
  case: V3 V6 V9 => [s3 _] [s6 _] [s9 _]; clear -s3 s6 s9 hb; case: w3 w6 w9 s3 s6 s9 => ? ? ? [? ? ?] [? ? ?] /= -> -> ->.
  by case: hb => ->; vm_compute.
rewrite bind_ret [o_dense _ _]/= /dense_step /= bind_ret.
have Z : zeros_of (LR (Nm w3) (Nm w6) (Nm w9)) = ret (Zero (mdtype (LR (Nm w3) (Nm w6) (Nm w9))) b 1 1).
  case: V3 V6 V9 => [s3 _] [s6 _] [s9 _]; clear -s3 s6 s9 hb; case: w3 w6 w9 s3 s6 s9 => ? ? ? [? ? ?] [? ? ?] /= -> -> ->.
  by case: hb => ->; vm_compute.
apply: (@retd_bind _ _ _ _ (fun z => True)) => [|_ _]; first by case: (_ && _); do 2 eexists.
rewrite Z; case: ifP => h; apply: retd_ret; exists w3, w6, w9; split=> //; by rewrite h.
Qed.
Lemma ret_add1 b dx dy du dv dm dk (x y u v m k : seq nat -> F) (P : mat -> Prop) : bat01 b ->
  let b0 := nseq (size b) 0%N in
  (x [:: 0, 0 & b0]%N - y [:: 0, 0 & b0]%N) ^+ 2 < tol F -> (u [:: 0; 0]%N - v [:: 0; 0]%N) ^+ 2 < tol F ->
  (forall jl jr jm, is_cell jl b (fun be => x [:: 0, 0 & be]%N + 0) -> is_cell jr [::] (fun be => u [:: 0, 0 & be]%N + 0) ->
     is_cell jm [::] (fun be => m [:: 0, 0 & be]%N + k [:: 0, 0 & be]%N) ->
     P (if t_mean_lt (t_map (fun x => `|x|) jm) (tol F) then Zero (mdtype (LR (Nm jl) (Nm jr) (Nm jm))) b 1 1 else LR (Nm jl) (Nm jr) (Nm jm))) ->
  returns (fun o => o_add o (LR (Nm (cell dx b x)) (Nm (cell du [::] u)) (Nm (cell dm [::] m)))
    (LR (Nm (cell dy b y)) (Nm (cell dv [::] v)) (Nm (cell dk [::] k)))) P.
Proof.
move=> hb b0 h1 h2 H; have [l [c [E [jl [jr [jm [v1 v2 v3 Ec]]]]]]] := @add1 0 b dx dy du dv dm dk x y u v m k hb h1 h2.
apply: (@returnsI _ _ _ _ _ 2) E _ => [n i|]; first exact (le_add (le n i) _ _).
by rewrite Ec; apply: H.
Qed.
(** A batch of two 1x1 low-rank matrices: (1, 1) + (1, 2).  The columns of the left factors are compared in the
    first element of the batch only; the sum is returned as (2, 2) instead of (2, 3). *)
Definition w_lr (x y : F) : mat := LR (Nm (cell DFloat64 [:: 2]%N (fun idx => if idx is [:: _; _; O] then x else y)))
  (Nm (ones [:: 1; 1]%N)) (Nm (ones [:: 1; 1]%N)).
Theorem C42_add_lowrank_batch : let a := w_lr 1 1 in let b := w_lr 1 (1 + 1) in
  [/\ wf a, wf b, mshape a = mshape b & returns (fun o => o_add o a b) (fun c => off (t_add (den a) (den b)) (den c))].
Proof.
split=> //; apply: ret_add1; [by right|by rewrite subrr expr0n /= tol_gt0|by rewrite subrr expr0n /= tol_gt0|].
move=> jl jr jm [s1 v1] [s2 v2] [s3 v3].
have [z [E sz _ ez]] := @t_map2P _ +%R (den (w_lr 1 1)) (den (w_lr 1 (1 + 1))) isT.
exists z => // - [_ h].
have {}ez := ez [:: 0; 0; 1]%N.
have e1 : bat (den (w_lr 1 1)) [:: 0; 0; 1]%N = 1 * 1 * 1 + 0 + 0 by [].
have e2 : bat (den (w_lr 1 (1 + 1))) [:: 0; 0; 1]%N = (1 + 1) * 1 * 1 + 0 + 0 by [].
have e3 : bat z [:: 0; 0; 1]%N = tget z [:: 0; 0; 1]%N by rewrite /bat sz.
rewrite e1 e2 e3 !mulr1 !addr0 in ez.
have {}h : (if t_mean_lt (t_map [eta Num.Def.normr] jm) (tol F) then 0 else 1 + 1) = 1 + (1 + 1) :> F.
  rewrite -ez -h; clear h ez e3; last first.
    by case: ifP => _ //; case: jl s1 {v1} => ? ? ? /= ->; case: jr s2 {v2} => ? ? ? /= ->; case: jm s3 {v3} => ? ? ? /= ->.
  case: ifP => _ //.
  have := v1 [:: 1]%N isT; have := v2 [::] isT; have := v3 [::] isT.
  case: jl s1 {v1} => ? ? ? /= ->; case: jr s2 {v2} => ? ? ? /= ->; case: jm s3 {v3} => ? ? f /= -> /= h1 h2 h3.
  have -> : 1 + 1 = ((1 + 0) * (1 + 1) * (1 + 0) + 0) + 0 :> F by rewrite !addr0 mul1r mulr1.
  by rewrite -{1}h3 -h2 -h1.
have : (3%:R : F) = 0 \/ (1 : F) = 0.
  move: h; case: ifP => _ h; [left|right].
    by rewrite h -[3%N]/(1 + (1 + 1))%N !natrD.
  by apply: (addIr (1 + 1)); rewrite add0r -h.
by case; [move/eqP; rewrite Num.Theory.pnatr_eq0|exact: one0].
Qed.
(** Two equal 1x1 low-rank matrices whose entry is small but not zero: the sum is returned as [Zero]. *)
Theorem C42_add_lowrank_small (e : F) : 0 < e -> e + e < tol F ->
  let a : mat := LR (Nm (ones [:: 1; 1]%N)) (Nm (ones [:: 1; 1]%N)) (Nm (t_full DFloat64 [:: 1; 1]%N e)) in
  [/\ wf a, is_value (t_add (den a) (den a)) (t_full DFloat64 [:: 1; 1]%N (e + e)), e + e <> 0 & 
      returns (fun o => o_add o a a) (fun c => exists d, c = Zero d [::] 1 1)].
Proof.
move=> e0 h a; have wa : wf a by [].
have ne : e + e <> 0 by apply/eqP; rewrite Order.POrderTheory.gt_eqF // Num.Theory.addr_gt0.
split=> //.
  have [z [E sz _ ez]] := @t_map2P _ +%R (den a) (den a) isT.
  exists z => //; split=> [|idx]; first by rewrite sz.
  case: idx => [|[|j] [|[|i] [|k be]]] //= _; have {}ez := ez [:: 0; 0]%N.
  have e3 : bat z [:: 0; 0]%N = tget z [:: 0; 0]%N by rewrite /bat sz.
  rewrite -e3 ez.
  have -> : bat (den a) [:: 0; 0]%N = 1 * e * 1 + 0 + 0 by [].
  by rewrite !addr0 mulr1 mul1r.
apply: ret_add1; [by left|by rewrite subrr expr0n /= tol_gt0|by rewrite subrr expr0n /= tol_gt0|].
move=> jl jr jm _ _ [s3 v3]; eexists; rewrite ifT //.
rewrite /t_mean_lt /= s3 /= /sumf /= !addr0 muln1 divr1 (v3 [::] isT) /=.
by rewrite Num.Theory.gtr0_norm // Num.Theory.addr_gt0.
Qed.
Example C42_ex_small : exists e : F, 0 < e /\ e + e < tol F.
Proof.
exists (tol F / 4%:R); have h := tol_gt0; split; first by rewrite Num.Theory.divr_gt0 // Num.Theory.ltr0n.
rewrite -mulrDl Num.Theory.ltr_pdivr_mulr ?Num.Theory.ltr0n //.
have -> : 4%:R = 1 + 1 + (1 + 1) :> F by rewrite -[4%N]/(1 + 1 + (1 + 1))%N !natrD.
by rewrite [in X in _ < X]mulrDr !mulrDr !mulr1 Num.Theory.ltr_addl Num.Theory.addr_gt0.
Qed.
End LowRankSum.
End Limits.

Print Assumptions C42_add_diag.
Print Assumptions C42_add_lower.
Print Assumptions C42_add_lowrank_diag.
Print Assumptions C42_multiply_diag.
Print Assumptions C42_multiply_lower.
Print Assumptions C42_multiply_constant.
Print Assumptions C42_multiply_upper_lower.
Print Assumptions C42_diag_kronecker.
Print Assumptions C42_matmul_diag.
Print Assumptions C42_submatrix_diag.
Print Assumptions C42_submatrix_lower.
Print Assumptions C42_take_unchecked.
Print Assumptions C42_take_batched_numeric.
Print Assumptions C42_power_zero.
Print Assumptions C42_zero_dtype.
Print Assumptions C42_matmul_kronecker.
Print Assumptions C42_multiply_kronecker.
Print Assumptions C42_matmul_lowrank_batch.
Print Assumptions C42_woodbury_constructor.
Print Assumptions C42_add_lowrank_batch.
Print Assumptions C42_add_lowrank_small.
