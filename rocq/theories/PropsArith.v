(** * C21, C23, C36: entrywise functions, division, means, Kronecker products,
      tiling, concatenation, reshaping, diagonals of products *)
From mathcomp Require Import all_ssreflect all_algebra zify.
From Verif Require Import Outcome Monad Shape Tensor Mat Dispatch Ops Ops2 Spec ShapeThy TensorThy TensorThy2 MatThy OpsOk DenseOk LookThy AddOk MulOk OpsMain Term Calm Api Bridge Ans SumThy PropsSum.
From Verif Require Import Samples.
Set Implicit Arguments. Unset Strict Implicit. Unset Printing Implicit Defensive.
Import GRing.Theory Num.Theory.
Local Open Scope ring_scope.

Section PropsArith.
Variable F : rcfType.
Notation tensor := (tensor F).
Notation mat := (mat F).
Variable argsort : seq F -> seq nat.
Hypothesis perm : argsort_ok argsort.
Notation answers := (answers argsort).
Implicit Types (a c : mat) (f : F -> F).

(** ** C21: abs, sqrt, power *)
(** [f] is multiplicative on the entries of the factors of Kronecker products. *)
Fixpoint kmult f a : Prop :=
  if a is Kron l r then
    [/\ kmult f l, kmult f r & forall be i j i' j', okb (mbatch (Kron l r)) be ->
      (i < mrows l)%N -> (j < mcols l)%N -> (i' < mrows r)%N -> (j' < mcols r)%N ->
      f (ent l be i j * ent r be i' j') = f (ent l be i j) * f (ent r be i' j')]
  else True.
Lemma elementwise_ok f a : wf a -> f 0 = 0 -> kmult f a ->
  answers (fun o => elementwise o f a) (fun c => is_res c (mrows a) (mcols a) (mbatch a)
    (fun be i j => f (ent a be i j)) /\ (if a is (LR _ _ _ | Wb _ _ _ _) then tag c = 2%N else tag c = tag a)).
Proof.
move=> + f0; elim: a => [t|d b r c|t|t|t r c|t|t|l _ r _ m _|d l _ r _ m _|l IHl r IHr] w k.
- by apply: ans_ret; split=> //; exact: res_num (tmat_map f (tmat_num w (or_introl erefl))).
- by apply: ans_ret; split=> //; apply: res_ext (res_wf w) _ => be i j _ _ _ /=; rewrite f0.
- rewrite /elementwise; apply: ans_warn; apply: ans_bind (ans_dense perm w) _ => x hx.
  by apply: ans_ret; split; [exact: res_mk_dense (tmat_map f hx)|rewrite (mk_dense_tmat (tmat_map f hx))].
- have ht := tvec_map f (tvec_wfv (w : wfv t)); apply: ans_calm; first exact: cm_mk_diag.
  rewrite /elementwise (mk_diag_tvec ht); apply: hoare_ret; split=> //.
  by apply: res_ext (res_diag ht) _ => be i j _ _ _ /=; case: ifP.
- have [p0 p1 p2] := posn3 (w : posn [:: c, r & sh t]); apply: ans_ret; split=> //.
- have ht := tmat_map f (tmat_num w (or_intror (or_intror (or_introl erefl)))).
  apply: ans_calm; first exact: cm_mk_lt.
  rewrite /elementwise (mk_lt_tmat ht); apply: hoare_ret; split=> //; apply: res_lt ht _ => be i j hb hi hj hij /=.
  by case: w => _ /(_ be i j hb hi hj hij) ->.
- have ht := tmat_map f (tmat_num w (or_intror (or_intror (or_intror erefl)))).
  apply: ans_calm; first exact: cm_mk_ut.
  rewrite /elementwise (mk_ut_tmat ht); apply: hoare_ret; split=> //; apply: res_ut ht _ => be i j hb hi hj hij /=.
  by case: w => _ /(_ be i j hb hi hj hij) ->.
- rewrite /elementwise; apply: ans_warn; apply: ans_bind (ans_dense perm w) _ => x hx.
  by apply: ans_ret; split; [exact: res_mk_dense (tmat_map f hx)|rewrite (mk_dense_tmat (tmat_map f hx))].
- rewrite /elementwise; apply: ans_warn; apply: ans_bind (ans_dense perm w) _ => x hx.
  by apply: ans_ret; split; [exact: res_mk_dense (tmat_map f hx)|rewrite (mk_dense_tmat (tmat_map f hx))].
- case: (w) => wl wr o; case: k => kl kr km.
  rewrite [elementwise]lock /= -lock.
  apply: ans_ext (_ : forall o, (do l' <- elementwise o f l; do r' <- elementwise o f r; ret (Kron l' r')) = _) _ => //.
  apply: ans_bind (IHl wl kl) _ => l' [[wl' [r1 c1] b1 e1] _].
  apply: ans_bind (IHr wr kr) _ => r' [[wr' [r2 c2] b2 e2] _].
  apply: ans_ret; split=> //; split; rewrite /= ?r1 ?r2 ?c1 ?c2 ?b1 ?b2 //.
  move=> be i j hb hi hj; move: (hb); rewrite okb_bct // => /andP[hb1 hb2].
  have [p1 p2 _] := posn3 (wf_posn wr).
  by rewrite e1 ?e2 ?km ?ltn_mod ?ltn_divLR.
Qed.
Lemma elementwise_value f a : wf a -> f 0 = 0 -> kmult f a ->
  answers (fun o => elementwise o f a) (fun c => wf c /\ teq (den c) (t_map f (den a))).
Proof.
move=> w f0 k; apply: ans_conseq (elementwise_ok w f0 k) _ => c [hc _]; split; first by case: hc.
exact: tmat_teq (res_tmat hc) (tmat_map f (den_tmat w)).
Qed.
Theorem C21_abs a : wf a ->
  answers (fun o => abs_op o a) (fun c => wf c /\ teq (den c) (t_map (fun x => `|x|) (den a))).
Proof.
move=> w; apply: elementwise_value => //; first exact: normr0.
by elim: {w} a => //= l hl r hr; split=> // *; rewrite normrM.
Qed.
Theorem C21_power n a : wf a -> (0 < n)%N ->
  answers (fun o => power_op o n a) (fun c => wf c /\ teq (den c) (t_map (fun x => x ^+ n) (den a))).
Proof.
move=> w n0; apply: elementwise_value => //; first by rewrite expr0n; case: n n0.
by elim: {w} a => //= l hl r hr; split=> // *; rewrite exprMn.
Qed.
(** The entries of the left factor of every Kronecker product are nonnegative. *)
Fixpoint knneg a : Prop :=
  if a is Kron l r then [/\ knneg l, knneg r & forall be i j, okb (mbatch l) be ->
    (i < mrows l)%N -> (j < mcols l)%N -> 0 <= ent l be i j]
  else True.
Theorem C21_sqrt a : wf a -> knneg a ->
  answers (fun o => sqrt_op o a) (fun c => wf c /\ teq (den c) (t_map Num.sqrt (den a))).
Proof.
move=> w k; apply: elementwise_value => //; first exact: sqrtr0.
elim: a w k => //= l hl r hr [wl wr o] [kl kr kp]; split=> //; [exact: hl|exact: hr|].
by move=> be i j i' j'; rewrite okb_bct // => /andP[h1 h2] *; rewrite sqrtrM // kp.
Qed.
(** The class is kept by all classes with their own method. *)
Theorem C21_class f a : wf a -> f 0 = 0 -> kmult f a ->
  answers (fun o => elementwise o f a) (fun c =>
    ty_of c = match ty_of a with Some (TLR | TWb) => Some TDense | x => x end).
Proof.
move=> w f0 k; apply: ans_conseq (elementwise_ok w f0 k) _ => c [_ h].
by case: a w k h => [t|d b r x|t|t|t r x|t|t|l r m|d l r m|l r] w k; case: c.
Qed.

(** ** C21: divide *)
(** Division by a constant (or a scalar) is multiplication by its inverse: the
    conditions of [multiply] apply. *)
Definition div_side a (b : mat) : bool :=
  match b with Const _ _ _ => mul_side a b | Nm t => isscal b ==> mul_side a b | _ => true end.
Lemma look_div (x y : ty) : lookup div_table x y = ret (if y is TConst then VConst else VGen).
Proof. by case: x; case: y. Qed.
Lemma mul_side_const a t t' r k : mul_side a (Const t r k) = mul_side a (Const t' r k).
Proof. by case: a. Qed.
Lemma divide_ok a (b : mat) : wfo a -> wfo b -> wf a \/ wf b -> shapes_ok a b -> div_side a b ->
  answers (fun o => divide o a b) (res2 (fun x y => x / y) a b).
Proof.
move=> wa wb w so sd.
have [[ta tb]|tt] : (tag a = 0%N /\ tag b = 0%N) \/ (tag a != 0%N \/ tag b != 0%N).
  by case: (tag a); case: (tag b); auto.
- have [x ea] := tag0 ta; have [y eb] := tag0 tb; subst a b.
  apply: ans_calm; first by apply: calm_bind => //; exact: cm_map2.
  by apply: hoare_conseq (num2_ok (fun x y => x / y) wa wb w so) _ => z [].
have E o : divide o a b = do i <- lookup div_table (ty_of_matrix (to_matrix a)) (ty_of_matrix (to_matrix b)); div_body o i (to_matrix a) (to_matrix b).
  by case: a tt {wa w so sd} => [x|? ? ? ?|x|x|x ? ?|x|x|? ? ?|? ? ? ?|? ?];
     case: b {wb} => [y|? ? ? ?|y|y|y ? ?|y|y|? ? ?|? ? ? ?|? ?] // [].
apply: ans_ext (fun o => esym (E o)) _.
have [ra ka na _ _] := to_matrix_ok wa; have [rb kb nb _ _] := to_matrix_ok wb.
case/and3P: (so) => s1 s2 s3.
rewrite look_div; apply: ans_eq erefl _.
have [[t [r [k eb]]]|nc] : (exists t r k, to_matrix b = Const t r k) \/ (tag (to_matrix b) != 4%N).
  by case: (to_matrix b) nb => [x|? ? ? ?|x|x|x r k|x|x|? ? ?|? ? ? ?|? ?] // _; first [by right|left; exists x, r, k].
- have sd' : mul_side (to_matrix a) (Const t r k).
    rewrite -eb; apply: mul_side_to_matrix => //.
    case: b eb sd {wb w so E tt rb kb nb s1 s2 s3} => //= t0; rewrite /convert_num; by case: (sh t0).
  rewrite eb /=; have wB : wf (Const t r k : mat) by rewrite -eb; case: rb.
  have [p0 p1 p2] := posn3 (wB : posn [:: k, r & sh t]).
  apply: ans_ext (_ : forall o, (do s <- shape_of (Const t r k : mat); do c' <- mk_const (t_map (fun x => 1 / x) t) s; o_mul o (to_matrix a) c') = _) _ => //.
  apply: ans_eq (shape_ofE wB) _.
  have ht := tsca_map (fun x => 1 / x) (tsca_posn p2).
  apply: ans_bindc (cm_mk_const _ _) (mk_const_ok ht wB (bto_refl _)) _ => c' [hc kc tc].
  have [t' ec] : exists t', c' = Const t' r k.
    by case: c' hc kc tc => // t' r' k' [_ [<- <-] _ _] _ _; exists t'.
  have sd2 : mul_side (to_matrix a) c' by rewrite ec (mul_side_const _ _ t).
  have hc' : is_res c' (mrows b) (mcols b) (mbatch b) (fun be i j => 1 / ent b be i j).
    case: rb; rewrite eb => _ [<- <-] <- e4; apply: res_ext hc _ => be i j h1 h2 h3; by rewrite -e4.
  apply: ans_conseq (ans_mul_res perm ra hc' s1 s2 s3 sd2) _ => z [hz _].
  by apply: res_ext hz _ => be i j _ _ _; rewrite div1r.
- have -> : (if ty_of_matrix (to_matrix b) is TConst then VConst else VGen) = VGen by case: (to_matrix b) nc.
  apply: ans_ext (_ : forall o, (do _ <- warn_if (structured (to_matrix a) || structured (to_matrix b));
      do x <- o_dense o (to_matrix a); do y <- o_dense o (to_matrix b); do z <- t_div x y; ret (mk_dense z)) = _) _ => //.
  apply: ans_warn; apply: ans_bind (ans_dense_res perm ra) _ => x hx.
  apply: ans_bind (ans_dense_res perm rb) _ => y hy.
  apply: ans_bindc (cm_map2 _ _ _) (tmat_map2 (fun x y => x / y) hx hy s1 s2 s3) _ => z hz.
  by apply: ans_ret; exact: res_mk_dense hz.
Qed.

Theorem C21_divide a (b : mat) : wfo a -> wfo b -> wf a \/ wf b -> bcok (mshape a) (mshape b) -> div_side a b ->
  answers (fun o => divide o a b) (fun c => wf c /\ is_value (t_div (den a) (den b)) (den c)).
Proof.
rewrite -shapes_bcok => w1 w2 w3 s1 s2; apply: ans_conseq (divide_ok w1 w2 w3 s1 s2) _ => c h.
by split; [case: h|exact: value_map2 w1 w2 s1 h].
Qed.

(** ** C20: scalars *)
Let scal d x : mat := Nm (t_scalar d x).
Lemma scal_wfo d x : wfo (scal d x). Proof. by right. Qed.
Lemma scal_shapes a d x : shapes_ok a (scal d x) /\ shapes_ok (scal d x) a.
Proof.
have [h1 h2 h3 _] := scal_facts (erefl : sh (t_scalar d x) = [::]).
by rewrite /shapes_ok h1 h2 h3 !bcnok1 !bc1nok bcoks0 bcok0s.
Qed.
Lemma scal_full a d x : full a (scal d x). Proof. by rewrite /full /= !bcn1 !eqxx. Qed.
Lemma scal_add a d x : add_side a (scal d x) && add_side (scal d x) a.
Proof. by case: a => * //=; rewrite ?scal_full. Qed.
Lemma scal_mul a d x : mul_side a (scal d x) && mul_side (scal d x) a.
Proof. by rewrite full_mul_num' ?full_mul_num // scal_full. Qed.
Lemma res2_scal (op : F -> F -> F) a d x c : wf a -> res2 op a (scal d x) c -> teq (den c) (t_map (fun y => op y x) (den a)).
Proof.
move=> w; rewrite /res2 /= !bcn1 bcts0 => /res_tmat h; apply: tmat_teq h _.
apply: tmat_ext (tmat_map (fun y => op y x) (den_tmat w)) _ => be i j _ hi hj; congr (op _ _).
by rewrite /entb !clid.
Qed.
Lemma res2_scal' (op : F -> F -> F) a d x c : wf a -> res2 op (scal d x) a c -> teq (den c) (t_map (fun y => op x y) (den a)).
Proof.
move=> w; rewrite /res2 /= !bc1n bct0s => /res_tmat h; apply: tmat_teq h _.
apply: tmat_ext (tmat_map (fun y => op x y) (den_tmat w)) _ => be i j _ hi hj; congr (op _ _).
by rewrite /entb !clid.
Qed.
(** Every operation with a scalar acts entrywise, for every matrix [a] and every scalar [x] (also 0, which
    becomes a [Zero]). *)
Theorem C20_scalar a d (x : F) : wf a ->
  [/\ answers (fun o => o_add o a (Nm (t_scalar d x))) (fun c => wf c /\ teq (den c) (t_map (fun y => y + x) (den a))),
      answers (fun o => o_add o (Nm (t_scalar d x)) a) (fun c => wf c /\ teq (den c) (t_map (fun y => x + y) (den a))),
      answers (fun o => o_mul o a (Nm (t_scalar d x))) (fun c => wf c /\ teq (den c) (t_map (fun y => y * x) (den a))) &
      answers (fun o => o_mul o (Nm (t_scalar d x)) a) (fun c => wf c /\ teq (den c) (t_map (fun y => x * y) (den a)))].
Proof.
move=> w; have [s1 s2] := scal_shapes a d x; have [a1 a2] := andP (scal_add a d x); have [m1 m2] := andP (scal_mul a d x).
have ws := scal_wfo d x; have wo : wfo a by left.
split; [apply: ans_conseq (ans_add perm wo ws (or_introl w) s1 a1) _|apply: ans_conseq (ans_add perm ws wo (or_intror w) s2 a2) _|
        apply: ans_conseq (ans_mul perm wo ws (or_introl w) s1 m1) _|apply: ans_conseq (ans_mul perm ws wo (or_intror w) s2 m2) _] => c [h _].
- by split; [case: h|exact: (res2_scal (op := +%R)) h].
- by split; [case: h|exact: (res2_scal' (op := +%R)) h].
- by split; [case: h|exact: (res2_scal (op := *%R)) h].
- by split; [case: h|exact: (res2_scal' (op := *%R)) h].
Qed.
Theorem C20_scalar_sub_div a d (x : F) : wf a ->
  [/\ answers (fun o => subtract o a (Nm (t_scalar d x))) (fun c => wf c /\ teq (den c) (t_map (fun y => y - x) (den a))),
      answers (fun o => subtract o (Nm (t_scalar d x)) a) (fun c => wf c /\ teq (den c) (t_map (fun y => x - y) (den a))) &
      answers (fun o => divide o a (Nm (t_scalar d x))) (fun c => wf c /\ teq (den c) (t_map (fun y => y / x) (den a)))].
Proof.
move=> w; have [s1 s2] := scal_shapes a d x; have [a1 a2] := andP (scal_add a d x); have [m1 m2] := andP (scal_mul a d x).
have ws := scal_wfo d x; have wo : wfo a by left.
split; [apply: ans_conseq (subtract_ok perm wo ws (or_introl w) s1 a1) _|apply: ans_conseq (subtract_ok perm ws wo (or_intror w) s2 a2) _|
        apply: ans_conseq (divide_ok wo ws (or_introl w) s1 m1) _] => c h.
- by split; [case: h|exact: (res2_scal (op := fun x y => x - y)) h].
- by split; [case: h|exact: (res2_scal' (op := fun x y => x - y)) h].
- by split; [case: h|exact: (res2_scal (op := fun x y => x / y)) h].
Qed.
(** A numeric array of rank at least two behaves as [Dense] next to a matrix. *)
Theorem C20_numeric a (t : tensor) n (ta tb : bool) : ty_of a <> None -> (2 <= trank t)%N ->
  let o := ops_n argsort n in
  [/\ o_add o a (Nm t) = o_add o a (Dense t) /\ o_add o (Nm t) a = o_add o (Dense t) a,
      o_mul o a (Nm t) = o_mul o a (Dense t) /\ o_mul o (Nm t) a = o_mul o (Dense t) a,
      o_matmul o a (Nm t) ta tb = o_matmul o a (Dense t) ta tb /\ o_matmul o (Nm t) a ta tb = o_matmul o (Dense t) a ta tb,
      divide o a (Nm t) = divide o a (Dense t) /\ divide o (Nm t) a = divide o (Dense t) a &
      subtract o a (Nm t) = subtract o a (Dense t) /\ subtract o (Nm t) a = subtract o (Dense t) a].
Proof.
move=> h1 h2; have E : to_matrix (Nm t) = Dense t.
  by rewrite /to_matrix /convert_num uprank2 //; case e: (sh t) => //; move: h2; rewrite /trank e.
have A o : subtract o a (Nm t) = subtract o a (Dense t) /\ subtract o (Nm t) a = subtract o (Dense t) a.
  by case: a h1 => // *; rewrite /subtract E.
have B o : divide o a (Nm t) = divide o a (Dense t) /\ divide o (Nm t) a = divide o (Dense t) a.
  by case: a h1 {A} => // *; rewrite /divide E.
have A1 := A (ops_n argsort n); have B1 := B (ops_n argsort n).
case: n A1 B1 => [|n] A1 B1; first by split.
have C o : add_step argsort o a (Nm t) = add_step argsort o a (Dense t) /\ add_step argsort o (Nm t) a = add_step argsort o (Dense t) a.
  by case: a h1 {A B A1 B1} => // *; rewrite /add_step E.
have D o : mul_step o a (Nm t) = mul_step o a (Dense t) /\ mul_step o (Nm t) a = mul_step o (Dense t) a.
  by case: a h1 {A B C A1 B1} => // *; rewrite /mul_step E.
have G o : matmul_step o a (Nm t) ta tb = matmul_step o a (Dense t) ta tb /\ matmul_step o (Nm t) a ta tb = matmul_step o (Dense t) a ta tb.
  by case: a h1 {A B C D A1 B1} => // *; rewrite /matmul_step E.
by split; [exact: C|exact: D|exact: G| |].
Qed.
End PropsArith.
Print Assumptions C21_abs. Print Assumptions C21_power. Print Assumptions C21_sqrt. Print Assumptions C21_class.
Print Assumptions C21_divide. Print Assumptions C20_scalar. Print Assumptions C20_scalar_sub_div. Print Assumptions C20_numeric.
(** The hypotheses can be met: the triangular factor of the sample has nonnegative entries; division of
    a Kronecker product by a Woodbury matrix, and of a low-rank matrix by a scalar. *)
Example C21_ex_sqrt (F : rcfType) : wf (s_kron F) /\ knneg (s_kron F).
Proof. by split; [exact: s_kron_wf|split=> // -[|k be] i j _ _ _; rewrite /= /mx /=; case: ifP => // _; exact: ler0n]. Qed.
Example C21_ex_divide (F : rcfType) : [/\ wfo (s_lr F), wfo (s_scal F), bcok (mshape (s_lr F)) (mshape (s_scal F)) & div_side (s_lr F) (s_scal F)].
Proof. by split=> //; [left; exact: s_lr_wf|right]. Qed.
