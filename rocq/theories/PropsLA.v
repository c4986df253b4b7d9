(** * C25, C26: inverses and Schur complements *)
From mathcomp Require Import all_ssreflect all_algebra.
From mathcomp Require Import zify.
From Verif Require Import Outcome Monad Shape Tensor Mat Dispatch Ops Spec ShapeThy TensorThy TensorThy2 MatThy OpsOk MulOk DenseOk MmOk OpsMain Term Calm Api Bridge Samples Inhabited Ans PropsMm Types PropsStruct Ops2 PropsSum PropsLift PropsExpr.
From Verif Require Import Backend SpecLA LinAlg MxThy ClsThy Solve InvThy PropsInv SolveThy CholThy PdThy.
Set Implicit Arguments. Unset Strict Implicit. Unset Printing Implicit Defensive.
Import Order.TTheory GRing.Theory Num.Theory.
Local Open Scope ring_scope.

(** ** Specification

    [inverse_of a c]: [c] has the shape and the class of [a] (arrays count as dense), and for every batch index the
    matrices are inverse to each other.  [complement a s]: [s] stands for [m^-1 + r^T d^-1 l] where [a] is the Woodbury
    matrix [d + l m r^T]. *)
Section Spec.
Variable F : rcfType.
Notation mat := (mat F).
Definition inverse_of (a c : mat) : Prop :=
  [/\ wf c, mshape c = mshape a, cls c = cls a &
      forall be, okb (mbatch a) be -> let n := mrows a in
        mxof n n a be *m mxof n n c be = 1%:M /\ mxof n n c be *m mxof n n a be = 1%:M].
Definition complement (d : tensor F) (l r m s : mat) : Prop :=
  let n := mrows l in let p := mrows m in
  [/\ wf s, mshape s = [:: p, p & mbatch (Wb d l r m)] &
      forall be, okb (mbatch (Wb d l r m)) be ->
        mxof p p s be = invmx (mxof p p m be) + (mxof n p r be)^T *m invmx (mxof n n (Diag d) be) *m mxof n p l be].
End Spec.

Section PropsLA.
Variable F : rcfType.
Notation tensor := (tensor F).
Notation mat := (mat F).
Variable argsort : seq F -> seq nat.
Hypothesis perm : argsort_ok argsort.
Notation answers := (answers argsort).
Notation raises := (raises argsort).
Implicit Types a b c l r m x y : mat.

Lemma inverts_of (f : ops F -> mat -> outcome mat) a n : wf a -> mrows a = n -> mcols a = n ->
  (forall be, okb (mbatch a) be -> mxof n n a be \in unitmx) ->
  inverts argsort f a (mbatch a) (mxof n n a) -> answers (fun o => f o a) (inverse_of a).
Proof.
move=> w en em u h; apply: ans_conseq h _ => c [[wc [e1 e2] e3 e4] _ tc]; split=> //.
  by rewrite /mshape e1 e2 e3 en em.
by move=> be hb /=; rewrite en e4 // mulmxV ?mulVmx //; apply: u.
Qed.
(** B.inv: all invertible objects, every recursion budget [k] above the nesting depth. *)
Theorem C25_inv a k : wf a -> invertible a -> (mdepth a < k)%N -> answers (fun o => inv_n o k a) (inverse_of a).
Proof.
move=> w h hk; have [u i] := inv_main perm w h erefl hk.
exact (inverts_of w erefl (esym (invertible_sq h)) u i).
Qed.
(** B.pd_inv: all positive-definite objects. *)
Theorem C25_pd_inv a k : wf a -> posdef a -> (mdepth a + 1 < k)%N -> answers (fun o => pd_inv_n o k a) (inverse_of a).
Proof.
move=> w h hk; have i := pd_inv_main perm w h erefl hk.
apply: (inverts_of w erefl (esym (posdef_sq h)) _ i) => be hb; apply: pd_unit; exact: (posdef_pd w h erefl hb).
Qed.
(** The product which the library computes is the identity (outside Kronecker products, whose product asserts
    matching factors). *)
Theorem C25_inv_product a k : wf a -> invertible a -> kfree a -> (mdepth a < k)%N ->
  answers (fun o => do c <- inv_n o k a; o_matmul o a c false false)
    (fun z => [/\ wf z, mshape z = mshape a & forall be i j, okb (mbatch a) be -> (i < mrows a)%N -> (j < mrows a)%N ->
       ent z be i j = if i == j then 1 else 0]).
Proof.
move=> w h ka hk; have [u i] := inv_main perm w h erefl hk; have sq := invertible_sq h.
have ha : is_mx a (mbatch a) (mxof (mrows a) (mrows a) a) by exact: mx_wf.
apply: ans_bind i _ => c [hc kc tc].
apply: ans_conseq (ans_mm_mx perm ha hc (bcokss _) (mm_side_kfree _ _ _)) _ => [|z [[wz [z1 z2] z3 z4] _ _]]; first by rewrite ka.
rewrite bctss in z3 z4; split=> // [|be i' j' hb hi hj]; first by rewrite /mshape z1 z2 z3 -sq.
have /matrixP/(_ (Ordinal hi) (Ordinal hj)) := z4 be hb; rewrite mulmxV ?u // !mxE /= => ->.
by rewrite -val_eqE /=; case: (_ == _).
Qed.
(** The classes without an inverse: the call raises [NotFoundLookup]. *)
Theorem C25_inv_unsupported a k : (0 < k)%N -> match a with LT _ | UT _ | Const _ _ _ | LR _ _ _ | Zero _ _ _ _ => True | _ => False end ->
  forall o, inv_n o k a = Raise NotFoundLookup.
Proof. by case: k => // k _; case: a. Qed.
(** A singular dense matrix: the call raises [LinAlgError]. *)
Theorem C25_inv_singular (t : tensor) k : (0 < k)%N -> wf (Dense t) -> mrows (Dense t) = mcols (Dense t) -> ~ regular (Dense t) ->
  forall o, inv_n o k (Dense t) = Raise LinAlgError.
Proof.
case: k => // k _ w sq h o; rewrite /= /t_inv /t_square.
have : tmat t (trows t) (tcols t) (tbatch t) (mx t) by exact: tmat_wft.
case=> -> _ _; case: ifP => // /andP[_ ok]; case: h; split=> // be hb.
have -> : mxof (mrows (Dense t)) (mrows (Dense t)) (Dense t) be = gmx (trows t) (trows t) (mx t (clamp (tbatch t) be)).
  rewrite mxofE; apply: eq_gmx => i j _ _; exact: (esym (@ent_clamp F (Dense t) (tbatch t) be i j w (bto_refl _))).
exact: allidxP ok hb.
Qed.

(** ** C26 *)
Lemma compl_of d l r m s (b : shape) n p : wf (Wb d l r m) -> mrows l = n -> mrows m = p ->
  is_mx s b (fun be => wb_S (dmx n (vx d be)) (mxof n p l be) (mxof n p r be) (mxof p p m be)) ->
  b = mbatch (Wb d l r m) -> complement d l r m s.
Proof.
move=> w en em [ws [s1 s2] s3 s4] eb; rewrite /complement en em; split=> //; first by rewrite /mshape s1 s2 s3 eb.
move=> be hb; rewrite s4 ?eb // /wb_S; congr (_ + _ *m invmx _ *m _); by rewrite mxofE dmxE.
Qed.
Lemma schur_gen (inv : ops F -> mat -> outcome mat) d l r m p : wf (Wb d l r m) -> regular (Diag d) ->
  mrows m = p -> mcols m = p -> (forall be, okb (mbatch m) be -> mxof p p m be \in unitmx) ->
  inverts argsort inv m (mbatch m) (mxof p p m) -> answers (fun o => schur_with o (inv o) d l r m) (complement d l r m).
Proof.
move=> w [_ rd] e1 e2 um im.
have [[wl wr wm kf /and4P[/eqP p1 /eqP p2 o1 o2]] /and4P[wd /eqP n1 /eqP n2 o3]] := w.
set n := tcols d in n1 n2 rd *.
have hd : tvec d n (behead (sh d)) (vx d) by exact: tvec_wfv.
have hl : is_mx l (mbatch l) (mxof n p l) by apply: mx_wf; rewrite ?n1 ?p1.
have hr : is_mx r (mbatch r) (mxof n p r) by apply: mx_wf; rewrite ?n2 ?p2.
have [u [eu [ud [ul [ur um']]]]] : exists u, u = mbatch (Wb d l r m) /\ bto (behead (sh d)) u /\ bto (mbatch l) u /\ bto (mbatch r) u /\ bto (mbatch m) u.
  by have := bto_refl (mbatch (Wb d l r m)); rewrite {1}(Wbb _ w) => /and4P[]; exists (mbatch (Wb d l r m)).
have nz be i : okb (behead (sh d)) be -> (i < n)%N -> vx d be i != 0.
  move=> hb; move: i; apply/dmx_unit; have := rd be hb; by rewrite /= mxofE dmxE.
apply: ans_conseq (schur_val perm hd hl hr ud ul ur um' kf nz im) _ => s [hs _ _].
apply: (compl_of w _ e1 hs); first by rewrite n1.
by rewrite (bs_eq ud ul ur um').
Qed.
Theorem C26_schur d l r m k : wf (Wb d l r m) -> regular (Diag d) -> invertible m -> (mdepth m < k)%N ->
  answers (fun o => schur_n o k (Wb d l r m)) (complement d l r m).
Proof.
move=> w rd h hk; have [[_ _ wm _ _] _] := w; have [u i] := inv_main perm wm h erefl hk.
exact (schur_gen w rd erefl (esym (invertible_sq h)) u i).
Qed.
Theorem C26_pd_schur d l r m k : wf (Wb d l r m) -> regular (Diag d) -> posdef m -> (mdepth m + 1 < k)%N ->
  answers (fun o => pd_schur_n o k (Wb d l r m)) (complement d l r m).
Proof.
move=> w rd h hk; have [[_ _ wm _ _] _] := w; have i := pd_inv_main perm wm h erefl hk.
by apply: (schur_gen w rd erefl (esym (posdef_sq h)) _ i) => be hb; apply: pd_unit; exact: (posdef_pd wm h erefl hb).
Qed.
(** The two calls return equal matrices. *)
Theorem C26_agree d l r m k : wf (Wb d l r m) -> regular (Diag d) -> posdef m -> (mdepth m + 1 < k)%N ->
  answers (fun o => do s <- schur_n o k (Wb d l r m); do s' <- pd_schur_n o k (Wb d l r m); ret (s, s'))
    (fun ss => [/\ wf ss.1, wf ss.2, mshape ss.1 = mshape ss.2 &
       forall be i j, okb (mbatch ss.1) be -> (i < mrows ss.1)%N -> (j < mcols ss.1)%N -> ent ss.1 be i j = ent ss.2 be i j]).
Proof.
move=> w rd h hk; have [[_ _ wm _ _] _] := w.
apply: ans_bind (C26_schur w rd (posdef_invertible wm h) _) _ => [|s [ws hs es]]; first by apply: leq_trans hk; rewrite ltnS leq_addr.
apply: ans_bind (C26_pd_schur w rd h hk) _ => s' [ws' hs' es']; apply: ans_ret => /=; split=> //; first by rewrite hs hs'.
move: hs; rewrite /mshape => -[-> -> ->] be i j hb hi hj.
have := etrans (es be hb) (esym (es' be hb)) => /matrixP/(_ (Ordinal hi) (Ordinal hj)); by rewrite !mxE.
Qed.
Theorem C26_only_woodbury a k : ~~ iswb a -> forall o, schur_n o k a = Raise NotFoundLookup /\ pd_schur_n o k a = Raise NotFoundLookup.
Proof. by case: a. Qed.
End PropsLA.

(** ** Non-vacuity: the Woodbury matrix [I + 1 1 1^T] of size 2, Kronecker products of it, a matrix which is not
    positive definite. *)
Section Examples.
Variable F : rcfType.
Definition e_d : tensor F := t_ones DFloat64 [:: 2]%N.
Definition e_l : mat F := Dense (t_ones DFloat64 [:: 1; 2]%N).
Definition e_m : mat F := Dense (t_ones DFloat64 [:: 1; 1]%N).
Definition e_wb : mat F := Wb e_d e_l e_l e_m.
Lemma e_wb_wf : wf e_wb. Proof. by []. Qed.
Lemma pd1 n : pd (1%:M : 'M[F]_n).
Proof. have := @gram_pd F n 1%:M; rewrite trmx1 mulmx1; apply; exact: unitmx1. Qed.
Lemma e_m_pd : definite e_m.
Proof.
split=> // be hb /=; have -> : mxof 1 1 e_m be = 1%:M by apply/matrixP => i j; rewrite !mxE !ord1.
exact: pd1.
Qed.
Lemma e_d_pd : definite (Diag e_d).
Proof.
split=> // be hb /=; have -> : mxof 2 2 (Diag e_d) be = 1%:M by apply/matrixP => i j; rewrite !mxE -val_eqE /=; case: (_ == _).
exact: pd1.
Qed.
Lemma e_wb_pd : posdef e_wb. Proof. by split; [exact: e_m_pd| |exact: e_d_pd|]. Qed.
Definition e_neg : mat F := Diag (t_full DFloat64 [:: 2]%N (-1)).
Lemma e_neg_regular : regular e_neg.
Proof.
split=> // be hb /=; have -> : mxof 2 2 e_neg be = (-1)%:M by apply/matrixP => i j; rewrite !mxE -val_eqE /=; case: (_ == _).
by rewrite unitmxE det_scalar unitfE expf_neq0 // oppr_eq0 oner_eq0.
Qed.
Example C25_ex : wf e_wb /\ invertible e_wb /\ posdef e_wb /\ wf (Kron e_wb e_neg) /\ invertible (Kron e_wb e_neg).
Proof.
have i := posdef_invertible e_wb_wf e_wb_pd.
by split; [exact: e_wb_wf|split; [|split; [exact: e_wb_pd|split; [|split; [|exact: e_neg_regular]]]]].
Qed.
Example C25_ex_ops : exists argsort : seq F -> seq nat, argsort_ok argsort.
Proof. by exists (@an_argsort F); exact: an_argsort_ok. Qed.
Example C26_ex : wf e_wb /\ regular (Diag e_d) /\ posdef e_m.
Proof.
by split; [|split; [case: e_d_pd => s h; split=> // be hb; apply: pd_unit; exact: h|exact: e_m_pd]].
Qed.
End Examples.

Print Assumptions C25_inv. Print Assumptions C25_pd_inv. Print Assumptions C25_inv_product. Print Assumptions C25_inv_unsupported.
Print Assumptions C25_inv_singular. Print Assumptions C26_schur. Print Assumptions C26_pd_schur. Print Assumptions C26_agree.
Print Assumptions C26_only_woodbury.
