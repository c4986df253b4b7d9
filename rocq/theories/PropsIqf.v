(** * C30: quadratic forms and ratios *)
From mathcomp Require Import all_ssreflect all_algebra.
From mathcomp Require Import zify.
From Verif Require Import Outcome Monad Shape Tensor Mat Dispatch Ops Spec ShapeThy TensorThy TensorThy2 MatThy OpsOk MulOk DenseOk MmOk OpsMain Term Calm Api Bridge Samples Inhabited Ans PropsMm Types PropsStruct Ops2 PropsSum PropsLift PropsExpr Exact.
From Verif Require Import Backend SpecLA LinAlg MxThy ClsThy Solve InvThy PropsInv SolveThy CholThy PdThy PropsLA PropsChol.
Set Implicit Arguments. Unset Strict Implicit. Unset Printing Implicit Defensive.
Import Order.TTheory GRing.Theory Num.Theory.
Local Open Scope ring_scope.

(** ** Specification: [b^T a^-1 c], its diagonal, and the trace of [b^-1 a]. *)
Section Spec.
Variable F : rcfType.
Notation mat := (mat F).
Definition iqf_batch (a b c : mat) : shape := bct (mbatch a) (bct (mbatch b) (mbatch c)).
Definition iqf_mx (a b c : mat) (be : seq nat) : 'M[F]_(mcols b, mcols c) :=
  let n := mrows a in (mxof n (mcols b) b be)^T *m invmx (mxof n n a be) *m mxof n (mcols c) c be.
Definition is_iqf (a b c z : mat) : Prop :=
  [/\ wf z, mshape z = [:: mcols c, mcols b & iqf_batch a b c] &
      forall be, okb (iqf_batch a b c) be -> mxof (mcols b) (mcols c) z be = iqf_mx a b c be].
Definition is_iqf_diag (a b c : mat) (t : tensor F) : Prop :=
  sh t = mcols b :: iqf_batch a b c /\
  forall be (i : nat) (hb : (i < mcols b)%N) (hc : (i < mcols c)%N), okb (iqf_batch a b c) be ->
    vx t be i = iqf_mx a b c be (Ordinal hb) (Ordinal hc).
Definition is_ratio (a b : mat) (t : tensor F) : Prop :=
  sh t = bct (mbatch a) (mbatch b) /\
  forall be, okb (bct (mbatch a) (mbatch b)) be -> let n := mrows a in
    sx t be = \tr (invmx (mxof n n b be) *m mxof n n a be).
(** The arguments fit together. *)
Definition iqf_fits (a b c : mat) : Prop :=
  [/\ mrows b = mrows a, mrows c = mrows a, bcok (mbatch b) (mbatch c) & bcok (mbatch a) (bct (mbatch b) (mbatch c))].
(** A [Zero] argument already has the batch of [a] (see C28). *)
Definition zero_fits (a b : mat) : Prop := ~~ iswb a -> cls b = TZero -> bto (mbatch a) (mbatch b).
End Spec.

Section PropsIqf.
Variable F : rcfType.
Notation tensor := (tensor F).
Notation mat := (mat F).
Variable argsort : seq F -> seq nat.
Hypothesis perm : argsort_ok argsort.
Notation answers := (answers argsort).
Implicit Types a b c l r : mat.

Lemma fits_ub a b c : iqf_fits a b c -> exists u, [/\ bto (mbatch a) u, bto (mbatch b) u & bto (mbatch c) u].
Proof. by case=> _ _ o1 /bcokP[u]; rewrite bto_bct // => h1 /andP[h2 h3]; exists u. Qed.
Lemma chol_not_wb a n c : chol_of a n c -> iswb c = false.
Proof. by case=> C [_ _ _ + _]; case: c => // d l r m; case: a. Qed.

Lemma iswbP a : iswb a = false -> forall k o (b c : mat) same, iqf o k a b c same = (do ' (cb, cc) <- iqf_parts o k a b c same; o_matmul o cb cc true false).
Proof. by case: a. Qed.
Lemma iqf_diagE a : iswb a = false -> forall k o (b c : mat) same, iqf_diag o k a b c same = (do ' (cb, cc) <- iqf_parts o k a b c same; matmul_diag o cb cc true false).
Proof. by case: a. Qed.
Lemma bto_abc (x y z : shape) u : bcok y z -> bcok x (bct y z) -> bto (bct x (bct y z)) u = [&& bto x u, bto y u & bto z u].
Proof. by move=> h1 h2; rewrite !bto_bct. Qed.
Section Parts.
Variables (a : mat) (n k : nat).
Hypotheses (wa : wf a) (pa : posdef a) (en : mrows a = n) (hk : (0 < k)%N).
Section One.
Variables (b : mat) (q : nat).
Hypotheses (nb : mrows b = n) (eq : mcols b = q) (wb : wf b) (o1 : bcok (mbatch a) (mbatch b)) (z1 : cls b = TZero -> bto (mbatch a) (mbatch b)).
Definition part_of (C : seq nat -> 'M[F]_n) x := [/\ is_mx x (bct (mbatch a) (mbatch b)) (fun be => invmx (C be) *m mxof n q b be), kfree x & istri x -> istri b].
Lemma part_ok ch (C : seq nat -> 'M[F]_n) : is_mx ch (mbatch a) C -> (forall be, okb (mbatch a) be -> C be \in unitmx) -> iswb ch = false ->
  answers (fun o => solve o k ch b) (part_of C).
Proof.
move=> hC uC nwb; have hb : is_mx b (mbatch b) (mxof n q b) by exact: mx_wf.
apply: ans_conseq (solve_main perm hC hb o1 uC _ _ _) _ => [||h|x [hx kx tx _]] //; rewrite /sdepth ?nwb //.
by apply: bto_bctE => //; exact: z1.
Qed.
End One.
Lemma parts_ok b c (same : bool) p q : mrows b = n -> mrows c = n -> mcols b = p -> mcols c = q -> wf b -> wf c ->
  bcok (mbatch a) (mbatch b) -> bcok (mbatch a) (mbatch c) ->
  (cls b = TZero -> bto (mbatch a) (mbatch b)) -> (cls c = TZero -> bto (mbatch a) (mbatch c)) -> (same -> b = c) ->
  answers (fun o => iqf_parts o k a b c same) (fun z => exists C : seq nat -> 'M[F]_n,
    [/\ forall be, okb (mbatch a) be -> C be *m (C be)^T = mxof n n a be, forall be, okb (mbatch a) be -> C be \in unitmx,
        part_of b p C z.1, part_of c q C z.2 & same -> z.1 = z.2]).
Proof.
move=> nb nc ep eq wb wc o1 o2 z1 z2 es; rewrite /iqf_parts.
apply: ans_bind (cholesky_main perm wa pa en) _ => ch /[dup] hch [C [hC gC uC _ _]]; have nwb := chol_not_wb hch.
apply: ans_bind (part_ok nb ep wb o1 z1 hC uC nwb) _ => cb hcb.
case: same es => es.
  apply: ans_eq erefl _; apply: ans_ret; exists C; split=> //=; rewrite -(es isT).
  by have -> : q = p by rewrite -ep -eq es.
apply: ans_bind (part_ok nc eq wc o2 z2 hC uC nwb) _ => cc hcc; apply: ans_ret.
by exists C; split.
Qed.
End Parts.
Lemma quad n p q (A C : 'M[F]_n) (B : 'M[F]_(n, p)) (D : 'M[F]_(n, q)) : C *m C^T = A -> C \in unitmx ->
  (invmx C *m B)^T *m (invmx C *m D) = B^T *m invmx A *m D.
Proof.
move=> <- u; rewrite trmx_mul !mulmxA trmx_inv; congr (_ *m _); rewrite -!mulmxA; congr (_ *m _); apply/esym/invmx_uniq.
by rewrite -mulmxA (mulmxA C^T) mulmxV ?unitmx_tr // mul1mx mulmxV.
Qed.
Lemma fits_ok a b c : iqf_fits a b c -> [/\ bcok (mbatch a) (mbatch b), bcok (mbatch a) (mbatch c) &
  bct (bct (mbatch a) (mbatch b)) (bct (mbatch a) (mbatch c)) = iqf_batch a b c /\ bcok (bct (mbatch a) (mbatch b)) (bct (mbatch a) (mbatch c))].
Proof.
move=> /[dup] /fits_ub[u [h1 h2 h3]] [_ _ o1 o2].
have o3 := bcok_ub h1 h2; have o4 := bcok_ub h1 h3.
have o5 : bcok (bct (mbatch a) (mbatch b)) (bct (mbatch a) (mbatch c)) by apply: (@bcok_ub u); rewrite bto_bct // h1.
split=> //; split=> //.
by apply: bto_ext => v; rewrite bto_abc // !bto_bct //; case: (bto _ v) => //=; case: (bto _ v).
Qed.

(** B.iqf(a, b, c), for every positive-definite [a] and all [b], [c] that fit. *)
Theorem C30_iqf a b c k (same : bool) : wf a -> wf b -> wf c -> posdef a -> iqf_fits a b c -> (same -> b = c) ->
  zero_fits a b -> zero_fits a c -> (mdepth a + 1 < k)%N ->
  answers (fun o => iqf o k a b c same) (is_iqf a b c).
Proof.
move=> wa wb wc pa fi es z1 z2 hk; case: (fi) => nb nc obc oabc.
have hb := mx_wf wb nb erefl; have hc := mx_wf wc nc erefl.
have [o1 o2 [e o3]] := fits_ok fi.
have [nwb|iwb] : iswb a = false \/ iswb a by case: iswb; auto.
  apply: ans_ext (fun o => esym (iswbP nwb k o b c same)) _.
  have hk' : (0 < k)%N by apply: leq_ltn_trans hk.
  have H := parts_ok wa pa erefl hk' nb nc erefl erefl wb wc o1 o2 (z1 (negbT nwb)) (z2 (negbT nwb)) es.
  apply: ans_bind H _ => -[x y] /= [C [gC uC [hx kx _] [hy ky _] _]].
  apply: ans_conseq (ans_mm_mx_tn perm hx hy o3 (mm_side_kfree _ _ _)) _ => [|z [hz _ _]]; first by rewrite kx.
  rewrite e in hz; case: hz => wz [z3 z4] z5 z6; split=> //; first by rewrite /mshape z3 z4 z5.
  move=> be ob; rewrite z6 // /iqf_mx; apply: quad; [apply: gC|apply: uC].
    by move: ob; rewrite okb_bct // => /andP[].
  by move: ob; rewrite okb_bct // => /andP[].
have sq := posdef_sq pa.
have H := pd_inv_main perm wa pa erefl hk.
apply: ans_ext (_ : forall o, (do ai <- pd_inv_n o k a; mm3 o b ai c true false false) = _) _; first by clear -iwb; case: a iwb.
apply: ans_bind H _ => ai [hai kai _].
have ka : kfree a by clear -iwb wa; case: a iwb wa => // d l r m _ [[_ _ _ h _] _].
have o4 : bcok (mbatch b) (mbatch a) by rewrite bcokC.
have [u [u1 u2 u3]] := fits_ub fi.
have o5 : bcok (bct (mbatch b) (mbatch a)) (mbatch c) by apply: (@bcok_ub u); rewrite ?bto_bct // u1 u2.
apply: ans_conseq (ans_mm3_mx perm hb hai hc o4 o5 (kai ka)) _ => z [hz _ _].
have e' : bct (bct (mbatch b) (mbatch a)) (mbatch c) = iqf_batch a b c.
  by apply: bto_ext => v; rewrite bto_abc // !bto_bct //; case: (bto _ v) => //=; case: (bto _ v).
by rewrite e' in hz; case: hz => wz [z3 z4] z5 z6; split=> //; rewrite /mshape z3 z4 z5.
Qed.

(** ** iqf_diag *)
Lemma mul_side_self a : kfree a -> mul_side a a.
Proof.
have h : samesh a a by rewrite /samesh !eqxx. have f : full a a by rewrite /full !bcnn !eqxx.
by move: h f; clear; case: a => //= *; rewrite ?h ?f ?andbT.
Qed.
Lemma mul_side_dg a b : samesh a b -> dgok a -> kfree b -> ~~ (istri a && istri b) || (mrows a == mcols a) -> mul_side a b.
Proof.
move=> h; have [f1 f2] : full a b /\ full b a by move: h; rewrite /samesh /full => /andP[/eqP-> /eqP->]; rewrite !bcnn !eqxx.
have d2 : kfree b -> dgok b by case: (b).
move=> g1 /[dup] kb /d2 g2.
case: a b h kb f1 f2 g1 g2 {d2} => [x|? ? ? ?|x|x|x ? ?|x|x|? ? ?|? ? ? ?|? ?] [y|? ? ? ?|y|y|y ? ?|y|y|? ? ?|? ? ? ?|? ?] h kb f1 f2 g1 g2 t //;
  rewrite /mul_side ?h ?f1 ?f2 ?g1 ?g2 //; exact: t.
Qed.
Lemma mdiag_mx x y n q bx by' (X Y : seq nat -> 'M[F]_(n, q)) : is_mx x bx X -> is_mx y by' Y -> bcok bx by' -> mul_side x y ->
  answers (fun o => matmul_diag o x y true false) (fun t => tvec t q (bct bx by') (fun be i => mget ((X be)^T *m Y be) i i)).
Proof.
move=> hx hy o sd; have [w1 w2] := (mx_ok hx, mx_ok hy); have [_ [x1 x2] x3 x4] := mx_res hx; have [_ [y1 y2] y3 y4] := mx_res hy.
have H := matmul_diag_res perm w1 w2 (ta := true) (tb := false).
apply: ans_conseq (H _ _ _ _) _ => [||||t ht].
- by rewrite /= x1 y1.
- by rewrite /= x2 y2.
- by rewrite x3 y3.
- by right=> a' b' /= [<-] [<-].
move: ht; rewrite /= x1 x2 x3 y3 => ht; apply: tvec_ext ht _ => be i; rewrite okb_bct // => /andP[b1 b2] hi /=.
transitivity (sumf n (fun p => mget (X be) p i * mget (Y be) p i)).
  by apply: eq_sumf => p hp; rewrite x4 // y4.
rewrite -[LHS](mget_gmx (n := q) (m := q) (fun i j => sumf n (fun p => mget (X be) p i * mget (Y be) p j))) // gmx_mul.
by congr (mget _ _ _); rewrite (gmx_tr q n (fun p i => mget (X be) p i)) !gmx_mget.
Qed.
(** [multiply] of two triangular matrices is right for square ones (see C07). *)
Definition tri_fits a b c (same : bool) : bool :=
  if iswb a then dgok b else same || (~~ (istri b && istri c) || (mrows b == mcols b)).
Lemma iqf_diag_res a b c k (same : bool) : wf a -> wf b -> wf c -> posdef a -> iqf_fits a b c -> mcols b = mcols c -> (same -> b = c) ->
  zero_fits a b -> zero_fits a c -> (mdepth a + 1 < k)%N -> tri_fits a b c same ->
  answers (fun o => iqf_diag o k a b c same) (fun t => tvec t (mcols b) (iqf_batch a b c) (fun be i => mget (iqf_mx a b c be) i i)).
Proof.
move=> wa wb wc pa fi eq es z1 z2 hk; case: (fi) => nb nc obc oabc.
have hb := mx_wf wb nb erefl; have hc := mx_wf wc nc erefl.
have [o1 o2 [e o3]] := fits_ok fi; rewrite /tri_fits /iqf_mx -eq.
have [nwb|iwb] : iswb a = false \/ iswb a by case: iswb; auto.
  rewrite nwb => tf.
  apply: ans_ext (fun o => esym (iqf_diagE nwb k o b c same)) _.
  have hk' : (0 < k)%N by apply: leq_ltn_trans hk.
  have H := parts_ok wa pa erefl hk' nb nc erefl (esym eq) wb wc o1 o2 (z1 (negbT nwb)) (z2 (negbT nwb)) es.
  apply: ans_bind H _ => -[x y] /= [C [gC uC [hx kx tx] [hy ky ty] exy]].
  have sd : mul_side x y.
    case: same es tf exy => es /= tf exy; first by rewrite -exy //; exact: mul_side_self.
    have [_ [x1 x2] _ _] := hx; have [_ [y1 y2] _ _] := hy.
    apply: mul_side_same => //; first by rewrite /samesh x1 x2 y1 y2 !eqxx.
    rewrite x1 x2; case/orP: tf => [h|]; last by rewrite nb => ->; rewrite orbT.
    by apply/orP; left; apply: contra h => /andP[/tx-> /ty->].
  apply: ans_conseq (mdiag_mx hx hy o3 sd) _ => t; rewrite e => ht.
  apply: tvec_ext ht _ => be i; rewrite okb_bct // => /andP[b1 _] hi; congr (mget _ _ _).
  by apply: quad; [apply: gC|apply: uC].
rewrite iwb => dg; have H := pd_inv_main perm wa pa erefl hk.
apply: ans_ext (_ : forall o, (do ai <- pd_inv_n o k a; do x <- o_matmul o ai c false false; matmul_diag o b x true false) = _) _; first by clear -iwb; case: a iwb.
apply: ans_bind H _ => ai [hai kai tai].
have ka : kfree a by clear -iwb wa; case: a iwb wa => // d l r m _ [[_ _ _ h _] _].
rewrite eq in hb dg *.
apply: ans_bind (ans_mm_mx perm hai hc o2 (mm_side_kfree _ _ _)) _ => [|x [hx kx tx]]; first by rewrite kai.
have kx' : kfree x by apply: kx; rewrite kai.
have o4 : bcok (mbatch b) (bct (mbatch a) (mbatch c)).
  by have [u [u1 u2 u3]] := fits_ub fi; apply: (@bcok_ub u); rewrite // bto_bct // u1 u3.
have tr' : ~~ istri x by move: tx; rewrite tai; have -> : cls a = TWb by [clear -iwb; case: a iwb]; clear; case: c; case: x.
apply: ans_conseq (mdiag_mx hb hx o4 _) _ => [|t ht].
  have [_ [x1 x2] _ _] := hx; have [_ [y1 y2] _ _] := hb.
  by apply: mul_side_dg => //; rewrite ?/samesh ?x1 ?x2 ?y1 ?y2 ?eqxx // (negbTE tr') andbF.
have e' : bct (mbatch b) (bct (mbatch a) (mbatch c)) = iqf_batch a b c.
  by apply: bto_ext => v; rewrite bto_abc // !bto_bct //; case: (bto _ v) => //=; case: (bto _ v).
rewrite e' in ht; apply: tvec_ext ht _ => be i _ _; by rewrite mulmxA.
Qed.
(** B.iqf_diag(a, b, c). *)
Theorem C30_iqf_diag a b c k (same : bool) : wf a -> wf b -> wf c -> posdef a -> iqf_fits a b c -> mcols b = mcols c -> (same -> b = c) ->
  zero_fits a b -> zero_fits a c -> (mdepth a + 1 < k)%N -> tri_fits a b c same ->
  answers (fun o => iqf_diag o k a b c same) (is_iqf_diag a b c).
Proof.
move=> wa wb wc pa fi eq es z1 z2 hk tf; apply: ans_conseq (iqf_diag_res wa wb wc pa fi eq es z1 z2 hk tf) _ => t [h1 _ h3].
by split=> // be i hi hj ob; rewrite h3 // (mgetE _ hi hj).
Qed.

(** ** ratio *)
Lemma trace_mm_ok x y n bx by' (X Y : seq nat -> 'M[F]_n) : is_mx x bx X -> is_mx y by' Y -> bcok bx by' -> kfree x || kfree y ->
  answers (fun o => trace_mm o x y) (fun t => tsca t (bct bx by') (fun be => \tr (X be *m Y be))).
Proof.
move=> hx hy o kf; rewrite /trace_mm.
apply: ans_bind (ans_mm_mx perm hx hy o (mm_side_kfree _ _ kf)) _ => z [hz kz _]; rewrite /trace.
have dz : dgok z by move: (kz kf); case: (z).
apply: ans_bind (ans_diag_res perm (mx_res hz) dz) _ => t; rewrite minnn => ht.
have [s es hs] := calm_hoare (cm_sumpos _ _) (tvec_sum0 ht).
apply: ans_ext (fun _ => esym es) _; apply: ans_ret; apply: tsca_ext hs _ => be _.
by rewrite sumfE big_mkord /mxtrace; apply: eq_bigr => i _; rewrite mget_ord.
Qed.
Lemma wb_split d l r m n : wf (Wb d l r m) -> mrows (Wb d l r m) = n -> let a := Wb d l r m in
  [/\ is_mx (Diag d : mat) (behead (sh d)) (mxof n n (Diag d)), is_mx (LR l r m) (mbatch (LR l r m)) (mxof n n (LR l r m)),
      bcok (behead (sh d)) (mbatch (LR l r m)), mbatch a = bct (behead (sh d)) (mbatch (LR l r m)) &
      forall be, mxof n n a be = mxof n n (Diag d) be + mxof n n (LR l r m) be].
Proof.
move=> w en a; case: (w) => wl /and4P[wd /eqP n1 /eqP n2 o].
have e2 : tcols d = n by []. rewrite e2 in n1 n2.
have h1 : is_mx (Diag d : mat) (behead (sh d)) (mxof n n (Diag d)) by exact (mx_wf (a := Diag d) wd e2 e2).
have h2 : is_mx (LR l r m) (mbatch (LR l r m)) (mxof n n (LR l r m)) by exact (mx_wf (a := LR l r m) wl n1 n2).
by split=> // be; apply/matrixP => i j; rewrite !mxE.
Qed.
Lemma bct_split1 (x y z u : shape) : bto x u -> bto y u -> bto z u -> bct (bct x y) (bct x z) = bct x (bct y z).
Proof.
move=> h1 h2 h3; have o1 := bcok_ub h1 h2; have o2 := bcok_ub h1 h3; have o3 := bcok_ub h2 h3.
apply: bto_ext => v; rewrite !bto_bct //; try by apply: (@bcok_ub u); rewrite ?bto_bct // ?h1 ?h2.
by case: (bto x v).
Qed.
Lemma bct_split2 (d l e m u : shape) : bto d u -> bto l u -> bto e u -> bto m u ->
  bct (bct (bct d (bct e m)) (bct l e)) (bct l m) = bct (bct d l) (bct e m).
Proof.
move=> h1 h2 h3 h4; have o1 := bcok_ub h1 h2; have o2 := bcok_ub h3 h4; have o3 := bcok_ub h2 h3; have o4 := bcok_ub h2 h4.
have o5 : bcok d (bct e m) by apply: (@bcok_ub u); rewrite ?bto_bct // h3.
have o6 : bcok (bct d (bct e m)) (bct l e) by apply: (@bcok_ub u); rewrite !bto_bct // ?h1 ?h3 ?h2.
have o7 : bcok (bct (bct d (bct e m)) (bct l e)) (bct l m) by apply: (@bcok_ub u); rewrite !bto_bct // ?h1 ?h3 ?h2 ?h4.
have o8 : bcok (bct d l) (bct e m) by apply: (@bcok_ub u); rewrite !bto_bct // ?h1 ?h3 ?h2 ?h4.
by apply: bto_ext => v; rewrite !bto_bct //; case: (bto d v) => //=; case: (bto e v); rewrite ?andbF //=; case: (bto l v); rewrite ?andbF //= ?andbT andbb.
Qed.
Definition ratio_fits a b : Prop := [/\ mrows a = mrows b, bcok (mbatch a) (mbatch b) &
  if iswb b then mcols a = mrows a else cholable a /\ (cls a = TZero \/ cls a = TLR -> bto (mbatch b) (mbatch a))].
(** B.ratio(a, b): [b] is positive definite; [a] has a Cholesky factor, or is any square matrix if [b] is Woodbury. *)
Theorem C30_ratio a b k : wf a -> wf b -> posdef b -> ratio_fits a b -> (mdepth b + 1 < k)%N ->
  answers (fun o => ratio o k a b) (is_ratio a b).
Proof.
move=> wa wb pb [nab o] fi hk; have ob : bcok (mbatch b) (mbatch a) by rewrite bcokC.
have [nwb|iwb] : iswb b = false \/ iswb b by case: iswb; auto.
  move: fi; rewrite nwb => -[ca za].
  apply: ans_ext (_ : forall o, (do chol <- cholesky o a; do t <- iqf_diag2 o k b chol; t_sum_pos t 0) = _) _; first by clear -nwb; case: b nwb.
  apply: ans_bind (cholesky_gen perm wa ca) _ => ch [w [C [hC gC kC cC]]].
  have [wc [c1 c2] c3 c4] := hC.
  have fi : iqf_fits b ch ch by split; rewrite ?c1 ?c3 ?bctss ?bcokss.
  have zf : zero_fits b ch.
    move=> _ cz; rewrite c3; apply: za.
    have [h|h] : cls a = TLR \/ cls a <> TLR by case: (cls a); first [by left|by right]. by right.
    left; have := cC h; rewrite cz; clear; by case: a => //.
  have tf : tri_fits b ch ch true by rewrite /tri_fits nwb.
  apply: ans_bind (iqf_diag_res wb wc wc pb fi erefl (fun _ => erefl) zf zf hk tf) _ => t ht.
  have [s es hs] := calm_hoare (cm_sumpos _ _) (tvec_sum0 ht).
  apply: ans_ext (fun _ => esym es) _; apply: ans_ret; case: hs => s1 _ s2.
  have e : iqf_batch b ch ch = bct (mbatch a) (mbatch b) by rewrite /iqf_batch c3 bctss bctC.
  split; first by rewrite s1 e.
  move=> be oB n; rewrite s2 ?e // sumfE big_mkord.
  have -> : \sum_(i < mcols ch) mget (iqf_mx b ch ch be) i i = \tr (iqf_mx b ch ch be).
    by apply: eq_bigr => i _; rewrite mget_ord.
  have oA : okb (mbatch a) be by move: oB; rewrite okb_bct // => /andP[].
  rewrite /iqf_mx -/n -nab -/n -mulmxA mxtrace_mulC -mulmxA; congr (\tr (_ *m _)).
  by rewrite -gC // -c4 // c2.
move: fi; rewrite iwb => sq.
have H := pd_inv_main perm wb pb (esym nab) hk; have ha := mx_wf wa erefl sq.
have goal t : tsca t (bct (mbatch a) (mbatch b)) (fun be => \tr (mxof (mrows a) (mrows a) a be *m invmx (mxof (mrows a) (mrows a) b be))) -> is_ratio a b t.
  by case=> h1 _ h2; split=> // be hb n; rewrite h2 // mxtrace_mulC.
have kb : kfree b by clear -iwb wb; case: b iwb wb => // d l r m _ [[_ _ _ h _] _].
apply: ans_ext (_ : forall o, (do bi <- pd_inv_n o k b; match bi with
      | Wb d' l' r' m' =>
          match a with
          | Wb d l r m =>
              do x <- trace_mm o (wb_diag d) bi;
              do y <- trace_mm o (wb_lr l r m) (wb_diag d'); do xy <- t_add x y;
              do z <- trace_mm o (wb_lr l r m) (wb_lr l' r' m'); t_add xy z
          | _ =>
              do x <- trace_mm o a (wb_diag d'); do y <- trace_mm o a (wb_lr l' r' m'); t_add x y
          end
      | _ => Raise AttributeError
      end) = _) _; first by clear -iwb; case: b iwb.
apply: ans_bind H _ => bi [hbi kbi tbi].
have : cls bi = TWb by rewrite tbi; clear -iwb; case: b iwb.
case: bi hbi kbi {tbi} => // d' l' r' m' hbi kbi _; have wbi := mx_ok hbi; case: (hbi) => _ [b1 b2] b3 b4.
have [hd hl odl eb sb] := wb_split wbi b1; rewrite b3 in eb.
have kl : kfree (LR l' r' m' : mat) := kbi kb.
have [ub [ua ubb]] : exists u, bto (mbatch a) u /\ bto (mbatch b) u by case/bcokP: o => u; exists u.
have := ubb; rewrite eb bto_bct // => /andP[u1 u2].
have E1 : (forall d l r m, a <> Wb d l r m) -> answers (fun o => do x <- trace_mm o a (wb_diag d'); do y <- trace_mm o a (wb_lr l' r' m'); t_add x y) (is_ratio a b).
  move=> _; have o1 := bcok_ub ua u1; have o2 := bcok_ub ua u2.
  apply: ans_bind (trace_mm_ok ha hd o1 _) _ => [|x hx]; first by rewrite orbT.
  apply: ans_bind (trace_mm_ok ha hl o2 _) _ => [|y hy]; first by rewrite kl orbT.
  have o3 : bcok (bct (mbatch a) (behead (sh d'))) (bct (mbatch a) (mbatch (LR l' r' m'))) by apply: (@bcok_ub ub); rewrite bto_bct // ua.
  have [s es hs] := calm_hoare (cm_map2 _ _ _) (tsca_map2 +%R hx hy o3).
  apply: ans_ext (fun _ => esym es) _; apply: ans_ret; apply: goal; case: hs => s1 s2 s3.
  have e : bct (bct (mbatch a) (behead (sh d'))) (bct (mbatch a) (mbatch (LR l' r' m'))) = bct (mbatch a) (mbatch b).
    by rewrite eb; exact: (bct_split1 ua u1 u2).
  rewrite e in s1 s2 s3; split=> // be hb; rewrite s3 // -mxtraceD -mulmxDr -sb b4 //.
  by move: hb; rewrite okb_bct // => /andP[].
have [[d [l [r [m ea']]]]|nw] : (exists d l r m, a = Wb d l r m) \/ (forall d l r m, a <> Wb d l r m).
  by clear; case: a => *; first [by right|by left; do 4 eexists].
  2: by apply: ans_ext (E1 nw) => z; move: nw; clear; case: a => // d l r m /(_ d l r m).
subst a.
clear E1; have [gd gl ogl ea sa] := wb_split wa erefl; set n := mrows _ in gd gl sa nab goal b4 b1 sb hd hl b2.
have ua' := ua; rewrite ea bto_bct // in ua'; case/andP: ua' => v1 v2.
have ka : kfree (LR l r m : mat) by case: wa => -[_ _ _ h _] _.
have o1 := bcok_ub v1 ubb; have o2 := bcok_ub v2 u1; have o3 := bcok_ub v2 u2.
apply: ans_bind (trace_mm_ok gd hbi o1 _) _ => [//|x hx].
apply: ans_bind (trace_mm_ok gl hd o2 _) _ => [|y hy]; first by rewrite ka.
have o4 : bcok (bct (behead (sh d)) (mbatch b)) (bct (mbatch (LR l r m)) (behead (sh d'))) by apply: (@bcok_ub ub); rewrite bto_bct // ?v1 ?v2.
have [s es hs] := calm_hoare (cm_map2 _ _ _) (tsca_map2 +%R hx hy o4).
apply: (ans_eq es).
apply: ans_bind (trace_mm_ok gl hl o3 _) _ => [|z hz]; first by rewrite ka.
have o5 : bcok (bct (bct (behead (sh d)) (mbatch b)) (bct (mbatch (LR l r m)) (behead (sh d')))) (bct (mbatch (LR l r m)) (mbatch (LR l' r' m'))).
  by apply: (@bcok_ub ub); apply: bto_bct_ub => //; apply: bto_bct_ub.
have [w ew hw] := calm_hoare (cm_map2 _ _ _) (tsca_map2 +%R hs hz o5).
apply: ans_ext (fun _ => esym ew) _; apply: ans_ret; apply: goal; case: hw => s1 s2 s3.
set B1 := bct (bct _ _) _ in s1 s2 s3.
have e : B1 = bct (mbatch (Wb d l r m)) (mbatch b).
  by rewrite /B1 eb ea; exact: (bct_split2 v1 v2 u1 u2).
rewrite e in s1 s2 s3; split=> // be hb.
have hb' : okb (mbatch b) be by move: hb; rewrite okb_bct // => /andP[].
by rewrite s3 // sa -b4 // sb !mulmxDl !mulmxDr !mxtraceD !addrA.
Qed.

(** ** Two arguments: [b^T a^-1 b]. *)
Theorem C30_iqf2 a b k : wf a -> wf b -> posdef a -> mrows b = mrows a -> bcok (mbatch a) (mbatch b) -> zero_fits a b ->
  (mdepth a + 1 < k)%N -> answers (fun o => iqf2 o k a b) (is_iqf a b b).
Proof. by move=> wa wb pa e o z hk; apply: C30_iqf => //; split; rewrite ?bctss ?bcokss. Qed.
Theorem C30_iqf_diag2 a b k : wf a -> wf b -> posdef a -> mrows b = mrows a -> bcok (mbatch a) (mbatch b) -> zero_fits a b ->
  (mdepth a + 1 < k)%N -> (iswb a -> dgok b) -> answers (fun o => iqf_diag2 o k a b) (is_iqf_diag a b b).
Proof.
move=> wa wb pa e o z hk h; apply: C30_iqf_diag => //; first by split; rewrite ?bctss ?bcokss.
by rewrite /tri_fits; case: iswb h => //; apply.
Qed.
(** The diagonal is the diagonal of the quadratic form. *)
Theorem C30_iqf_diag_agrees a b k : wf a -> wf b -> posdef a -> mrows b = mrows a -> bcok (mbatch a) (mbatch b) -> zero_fits a b ->
  (mdepth a + 1 < k)%N -> (iswb a -> dgok b) ->
  answers (fun o => do z <- iqf2 o k a b; do t <- iqf_diag2 o k a b; ret (z, t))
    (fun zt => forall be i, okb (mbatch zt.1) be -> (i < mcols b)%N -> vx zt.2 be i = ent zt.1 be i i).
Proof.
move=> wa wb pa e o z hk h; apply: ans_bind (C30_iqf2 wa wb pa e o z hk) _ => x [wx sx ex].
apply: ans_bind (C30_iqf_diag2 wa wb pa e o z hk h) _ => t [st et]; apply: ans_ret => /= be i.
have -> : mbatch x = iqf_batch a b b by move: sx; rewrite /mshape => -[].
by move=> ob hi; rewrite (et _ _ hi hi ob) -ex // mxE.
Qed.

(** ** Without Woodbury matrices the calls return, unconditionally. *)
Lemma xh_parts n k a b c (same : bool) : nw a -> nw b -> nw c -> xh (iqf_parts (ops_n argsort n) k a b c same) (fun p => nw p.1 /\ nw p.2).
Proof.
move=> ha hb hc; apply: xh_bind (xh_chol argsort n ha) _ => ch hch; apply: xh_bind (xh_solve argsort n k hch hb) _ => x hx.
by case: same; [split|apply: xh_bind (xh_solve argsort n k hch hc) _ => y hy; split].
Qed.
Theorem C30_iqf_exact a b c k (same : bool) : wf a -> wf b -> wf c -> nw a -> nw b -> nw c -> posdef a -> iqf_fits a b c -> (same -> b = c) ->
  zero_fits a b -> zero_fits a c -> (mdepth a + 1 < k)%N ->
  returns argsort (fun o => iqf o k a b c same) (is_iqf a b c).
Proof.
move=> wa wb wc na nb nc pa fi es z1 z2 hk; apply: ans_returns; last exact: C30_iqf.
move=> n; have nwb : iswb a = false by clear -na; case: a na.
rewrite (iswbP nwb); apply: xh_bind (xh_parts n k same na nb nc) _ => -[x y] /= [hx hy].
by apply: xh_xe (xk_mm (xk_n argsort n) _ _ hx hy).
Qed.
End PropsIqf.

(** ** Non-vacuity *)
Section Examples.
Variable F : rcfType.
Example C30_ex_wb : [/\ wf (e_wb F), wf (e_b F), posdef (e_wb F), mrows (e_b F) = mrows (e_wb F) & bcok (mbatch (e_wb F)) (mbatch (e_b F))] /\
  iqf_fits (e_wb F) (e_b F) (e_l F) /\ zero_fits (e_wb F) (e_b F) /\ tri_fits (e_wb F) (e_b F) (e_b F) true.
Proof. by split; [split=> //; exact: e_wb_pd|split]. Qed.
Example C30_ex : [/\ wf (Kron (e_m F) (Diag (e_d F))), nw (Kron (e_m F) (Diag (e_d F))), posdef (Kron (e_m F) (Diag (e_d F))),
  iqf_fits (Kron (e_m F) (Diag (e_d F))) (e_b F) (Kron (e_l F) (e_m F)) & zero_fits (Kron (e_m F) (Diag (e_d F))) (e_b F)].
Proof. by split=> //; split; [exact: e_m_pd|exact: e_d_pd]. Qed.
Example C30_ex_ratio : ratio_fits (e_lt F) (e_wb F) /\ ratio_fits (e_wb F) (e_wb F) /\ ratio_fits (e_wb F) (Diag (e_d F)).
Proof. by split=> //; split=> //; split=> //; split; [exact: C27_cholesky_pd (e_wb_wf F) (e_wb_pd F)|case]. Qed.
End Examples.
Print Assumptions C30_iqf. Print Assumptions C30_iqf2. Print Assumptions C30_iqf_exact. Print Assumptions C30_iqf_diag.
Print Assumptions C30_iqf_diag2. Print Assumptions C30_iqf_diag_agrees. Print Assumptions C30_ratio.
