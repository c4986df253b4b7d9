(** * Linear algebra over a real closed field (proof support, independent of the model)

    Inversion and determinant lemmas, positive-definite matrices, Cholesky factors, positive square roots. *)
From mathcomp Require Import all_ssreflect all_algebra.
From Verif Require Import Outcome Shape Tensor Backend SpecLA.
Set Implicit Arguments. Unset Strict Implicit. Unset Printing Implicit Defensive.
Import Order.TTheory GRing.Theory Num.Theory.
Local Open Scope ring_scope.

Section LinAlg.
Variable F : rcfType.

(** ** The matrix inversion lemma and the matrix determinant lemma *)
Section Wb.
Variables (n p : nat) (D : 'M[F]_n) (L : 'M[F]_(n, p)) (R : 'M[F]_(n, p)) (M : 'M[F]_p).
Hypothesis uD : D \in unitmx.
Hypothesis uM : M \in unitmx.
Definition wb_S : 'M[F]_p := invmx M + R^T *m invmx D *m L.
Let S := wb_S.
Lemma wb_inv : S \in unitmx ->
  (D + L *m M *m R^T) *m (invmx D - invmx D *m L *m invmx S *m (R^T *m invmx D)) = 1%:M.
Proof.
move=> uS; set Di := invmx D; set W := invmx S.
have h : L *m M *m (R^T *m Di *m L) = L *m M *m S - L.
  have -> : R^T *m Di *m L = S - invmx M by rewrite /S /wb_S addrC addKr.
  by rewrite mulmxBr -(mulmxA L M (invmx M)) mulmxV // mulmx1.
rewrite mulmxDl !mulmxBr mulmxV //.
have -> : D *m (Di *m L *m W *m (R^T *m Di)) = L *m W *m (R^T *m Di).
  by rewrite !mulmxA mulmxV // mul1mx.
have -> : L *m M *m R^T *m (Di *m L *m W *m (R^T *m Di)) = (L *m M *m (R^T *m Di *m L)) *m W *m (R^T *m Di) by rewrite !mulmxA.
rewrite h [(_ - L) *m W]mulmxBl -(mulmxA _ S W) mulmxV // mulmx1 mulmxBl !mulmxA.
by rewrite opprB [X in _ + X]addrCA subrr addr0 subrK.
Qed.
Lemma det_1D (A : 'M[F]_(n, p)) (B : 'M[F]_(p, n)) : \det (1%:M + A *m B) = \det (1%:M + B *m A).
Proof.
have h1 : block_mx 1%:M A (- B) 1%:M = block_mx 1%:M 0 (- B) 1%:M *m block_mx 1%:M A 0 (1%:M + B *m A) :> 'M[F]_(n + p).
  by rewrite mulmx_block !mul1mx !mul0mx !mulmx1 ?mulmx0 ?addr0 mulNmx [- (B *m A) + _]addrC addrK.
have h2 : block_mx 1%:M A (- B) 1%:M = block_mx 1%:M A 0 1%:M *m block_mx (1%:M + A *m B) 0 (- B) 1%:M :> 'M[F]_(n + p).
  by rewrite mulmx_block !mul1mx !mul0mx !mulmx1 ?mulmx0 ?add0r mulmxN addrK.
have := congr1 determinant h1; rewrite {1}h2 !det_mulmx det_lblock !det_ublock det_lblock !det1 !mul1r !mulr1.
by move=> ->.
Qed.
Lemma wb_det : \det (D + L *m M *m R^T) = \det D * \det M * \det S.
Proof.
have -> : D + L *m M *m R^T = D *m (1%:M + (invmx D *m L) *m (M *m R^T)).
  by rewrite mulmxDr mulmx1 !mulmxA mulmxV // mul1mx.
rewrite det_mulmx det_1D -mulrA; congr (_ * _).
rewrite -det_mulmx /S /wb_S mulmxDr mulmxV // !mulmxA.
by [].
Qed.
Lemma wb_unit : (S \in unitmx) = (D + L *m M *m R^T \in unitmx).
Proof.
move: uD uM; rewrite !unitmxE wb_det !unitrM => -> ->; by [].
Qed.
Lemma wb_invE : D + L *m M *m R^T \in unitmx ->
  invmx (D + L *m M *m R^T) = invmx D - invmx D *m L *m invmx S *m (R^T *m invmx D).
Proof.
move=> u; have uS : S \in unitmx by rewrite wb_unit.
by rewrite -[LHS]mulmx1 -(wb_inv uS) mulmxA mulVmx // mul1mx.
Qed.
End Wb.

(** ** Positive-definite matrices *)
Lemma qfD n (A B : 'M[F]_n) v : qf (A + B) v = qf A v + qf B v.
Proof. by rewrite /qf mulmxDr mulmxDl mxE. Qed.
Lemma qf_congr n m (A : 'M[F]_n) (B : 'M[F]_(n, m)) v : qf (B^T *m A *m B) v = qf A (B *m v).
Proof. by rewrite /qf trmx_mul !mulmxA. Qed.
Lemma qf1 n (v : 'cV[F]_n) : qf 1%:M v = \sum_i v i 0 ^+ 2.
Proof. by rewrite /qf mulmx1 mxE; apply: eq_bigr => i _; rewrite mxE expr2. Qed.
Lemma qf1_ge0 n (v : 'cV[F]_n) : 0 <= qf 1%:M v.
Proof. by rewrite qf1; apply: sumr_ge0 => i _; exact: sqr_ge0. Qed.
Lemma qf1_eq0 n (v : 'cV[F]_n) : qf 1%:M v = 0 -> v = 0.
Proof.
rewrite qf1 => /eqP; rewrite psumr_eq0 => [/allP h|i _]; last exact: sqr_ge0.
apply/matrixP => i j; rewrite (ord1 j) !mxE; have := h i (mem_index_enum _).
by rewrite sqrf_eq0 => /eqP.
Qed.
Lemma pd_psd n (A : 'M[F]_n) : pd A -> psd A.
Proof.
case=> s h; split=> // v; have [->|/h/ltW] := eqVneq v 0 => //.
by rewrite /qf mulmx0 mxE.
Qed.
Lemma pd1 n : pd (1%:M : 'M[F]_n).
Proof.
split=> [|v nv]; first by rewrite /sym trmx1.
rewrite lt_neqAle qf1_ge0 andbT eq_sym; apply: contra nv => /eqP/qf1_eq0->; by [].
Qed.
Lemma pdD n (A B : 'M[F]_n) : pd A -> psd B -> pd (A + B).
Proof.
case=> s h [s' h']; split=> [|v nv]; first by rewrite /sym linearD /= s s'.
by rewrite qfD; apply: ltr_paddr; [exact: h'|exact: h].
Qed.
Lemma psd_congr n m (A : 'M[F]_n) (B : 'M[F]_(n, m)) : psd A -> psd (B^T *m A *m B).
Proof. by case=> s h; split=> [|v]; [rewrite /sym !trmx_mul trmxK s mulmxA|rewrite qf_congr]. Qed.
Lemma pd_congr n (A B : 'M[F]_n) : pd A -> B \in unitmx -> pd (B^T *m A *m B).
Proof.
move=> [s h] u; split=> [|v nv]; first by rewrite /sym !trmx_mul trmxK s mulmxA.
rewrite qf_congr; apply: h; apply: contra nv => /eqP e; apply/eqP.
by rewrite -[v]mul1mx -(mulVmx u) -mulmxA e mulmx0.
Qed.
Lemma pd_diag n (d : 'rV[F]_n) : (forall i, 0 < d 0 i) -> pd (diag_mx d).
Proof.
move=> h; split=> [|v nv]; first by rewrite /sym tr_diag_mx.
have e : qf (diag_mx d) v = \sum_i d 0 i * v i 0 ^+ 2.
  by rewrite /qf mul_mx_diag mxE; apply: eq_bigr => i _; rewrite !mxE expr2 mulrCA mulrA.
rewrite e lt_neqAle; apply/andP; split; last by apply: sumr_ge0 => i _; rewrite mulr_ge0 ?sqr_ge0 // ltW.
rewrite eq_sym; apply: contra nv; rewrite psumr_eq0 => [/allP H|i _]; last by rewrite mulr_ge0 ?sqr_ge0 // ltW.
apply/eqP/matrixP => i j; rewrite (ord1 j) !mxE; have := H i (mem_index_enum _).
by rewrite mulf_eq0 sqrf_eq0 (gt_eqF (h i)) => /eqP.
Qed.
Lemma pd_diag_gt0 n (A : 'M[F]_n) i : pd A -> 0 < A i i.
Proof.
case=> _ /(_ (delta_mx i 0)); rewrite /qf trmx_delta -rowE -colE !mxE; apply.
by apply/eqP => /matrixP/(_ i 0)/eqP; rewrite !mxE !eqxx oner_eq0.
Qed.
Lemma sym_inv n (A : 'M[F]_n) : sym A -> sym (invmx A).
Proof. by move=> h; rewrite /sym trmx_inv h. Qed.

(** ** The Cholesky factor *)
Section Chol.
Variable n : nat.
Implicit Type A : 'M[F]_(1 + n).
Let pa A := A 0 0.
Let pb A : 'cV[F]_n := dlsubmx A.
Let pS A : 'M[F]_n := drsubmx A - (pa A)^-1 *: (pb A *m (pb A)^T).
Lemma symblock A : sym A -> A = block_mx (pa A)%:M (pb A)^T (pb A) (drsubmx A).
Proof.
move=> s; rewrite -{1}[A]submxK; congr block_mx; last by rewrite /pb trmx_dlsub s.
by rewrite [LHS]mx11_scalar !mxE /pa; congr (A _ _)%:M; apply/val_inj.
Qed.
Lemma sym_pS A : sym A -> sym (pS A).
Proof. by move=> s; rewrite /sym /pS linearB /= linearZ /= trmx_mul trmxK trmx_drsub s. Qed.
Lemma pd_pS A : pd A -> pd (pS A).
Proof.
move=> [s h]; have pa0 : 0 < pa A by apply: (pd_diag_gt0 0); split.
have na : pa A != 0 by rewrite gt_eqF.
split=> [|w nw]; first exact: sym_pS.
pose v := col_mx (- (pa A)^-1 *: ((pb A)^T *m w)) w : 'cV[F]_(1 + n).
have -> : qf (pS A) w = qf A v.
  rewrite /qf -[in RHS]mulmxA {2}(symblock s) mul_block_col mul_scalar_mx scalerA mulrN divff // scaleN1r addNr.
  rewrite -scalemxAr tr_col_mx mul_row_col mulmx0 add0r -mulmxA; congr ((_ *m _) 0 0).
  by rewrite /pS mulmxBl -scalemxAl scaleNr addrC mulmxA.
apply: h; apply: contra nw => /eqP e; apply/eqP.
by rewrite -[w](col_mxKd (- (pa A)^-1 *: ((pb A)^T *m w))) -/v e linear0.
Qed.
End Chol.
Lemma chol_pd n (A : 'M[F]_n) : pd A -> chol_ok A.
Proof.
elim: n A => // n IH A p /=; apply/andP; split; first exact: (pd_diag_gt0 0 p).
exact: IH (pd_pS p).
Qed.
Lemma chol_gram n (A : 'M[F]_n) : sym A -> chol_ok A -> chol_f A *m (chol_f A)^T = A.
Proof.
elim: n A => [|n IH] A s /=; first by move=> _; apply/matrixP => -[].
case/andP=> pa ok; have na : Num.sqrt (A 0 0) != 0 by rewrite gt_eqF // sqrtr_gt0.
have s2 : Num.sqrt (A 0 0) * Num.sqrt (A 0 0) = A 0 0 by rewrite -expr2 sqr_sqrtr // ltW.
rewrite (@tr_block_mx _ 1 n 1 n) (@mulmx_block _ 1 n 1 n 1 n) tr_scalar_mx !trmx0 ?mul0mx ?mulmx0 ?addr0 ?add0r.
rewrite -scalar_mxM s2 linearZ /= -scalemxAr mul_scalar_mx -scalemxAl mul_mx_scalar !scalerA.
rewrite (mulVf na) !scale1r -scalemxAl -scalemxAr scalerA -invfM s2 IH //; last exact: sym_pS.
by rewrite addrCA subrr addr0 -symblock.
Qed.
Lemma chol_trig n (A : 'M[F]_n) : is_trig_mx (chol_f A).
Proof.
elim: n A => [|n IH] A /=; first by apply/is_trig_mxP => -[].
have h := @is_trig_block_mx F 1 n 1 n; rewrite h // eqxx IH andbT /=; apply/is_trig_mxP => i j; rewrite !ord1 //.
Qed.
Lemma chol_diag n (A : 'M[F]_n) i : chol_ok A -> 0 < chol_f A i i.
Proof.
elim: n A i => [|n IH] A i /=; first by case: i.
case/andP=> pa ok; rewrite -[i](@splitK 1 n); case: (@split 1 n i) => j /=.
  by rewrite (@block_mxEul F 1 n 1 n) mxE eqxx sqrtr_gt0.
by rewrite (@block_mxEdr F 1 n 1 n) IH.
Qed.
Lemma trig_det_gt0 n (L : 'M[F]_n) : is_trig_mx L -> (forall i, 0 < L i i) -> 0 < \det L.
Proof. by move=> t h; rewrite det_trig //; apply: prodr_gt0. Qed.
Lemma chol_unit n (A : 'M[F]_n) : chol_ok A -> chol_f A \in unitmx.
Proof.
move=> ok; rewrite unitmxE unitfE gt_eqF //; apply: trig_det_gt0 => [|i]; [exact: chol_trig|exact: chol_diag].
Qed.
Lemma pd_unit n (A : 'M[F]_n) : pd A -> A \in unitmx.
Proof.
move=> p; have ok := chol_pd p; rewrite -(chol_gram (proj1 p) ok) unitmx_mul unitmx_tr chol_unit //.
Qed.
Lemma pd_invmx n (A : 'M[F]_n) : pd A -> pd (invmx A).
Proof.
move=> p; have u := pd_unit p; have s := sym_inv (proj1 p).
have := pd_congr p (B := invmx A); rewrite unitmx_inv => /(_ u); rewrite s mulVmx // mul1mx; exact.
Qed.
Lemma gram_psd n m (L : 'M[F]_(n, m)) : psd (L *m L^T).
Proof. by have := @psd_congr _ _ 1%:M L^T (pd_psd (pd1 m)); rewrite trmxK mulmx1. Qed.
Lemma gram_pd n (L : 'M[F]_n) : L \in unitmx -> pd (L *m L^T).
Proof. by move=> u; have := @pd_congr _ 1%:M L^T (pd1 n); rewrite unitmx_tr trmxK mulmx1; apply. Qed.
Lemma pd_det n (A : 'M[F]_n) : pd A -> 0 < \det A.
Proof.
move=> p; have ok := chol_pd p; rewrite -(chol_gram (proj1 p) ok) det_mulmx det_tr.
by apply: mulr_gt0; apply: trig_det_gt0 => [|i]; [exact: chol_trig|exact: chol_diag|exact: chol_trig|exact: chol_diag].
Qed.
End LinAlg.
