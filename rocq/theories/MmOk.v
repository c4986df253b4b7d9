(** * Correctness of matmul (proof support) *)
From mathcomp Require Import all_ssreflect all_algebra.
From Verif Require Import Outcome Monad Shape Tensor Mat Dispatch Ops Spec LookThy ShapeThy TensorThy TensorThy2 MatThy OpsOk DenseOk AddOk MulOk.
Set Implicit Arguments. Unset Strict Implicit. Unset Printing Implicit Defensive.
Import GRing.Theory.
Local Open Scope ring_scope.

Section MmOk.
Variable F : rcfType.
Notation tensor := (tensor F).
Notation mat := (mat F).
Implicit Types (a l m : mat) (t : bool) (u be : seq nat).
Variable self : ops F.
Hypothesis ok : ops_ok self.

Let post a b ta tb c := resm a b ta tb c /\ (kfree a || kfree b -> kfree c).
Let good i a b ta tb := hoare (mm_body self i a b ta tb) (post a b ta tb).

(** ** Transposition flags *)
Lemma tr_ok a t : wf a -> hoare (tr a t) (fun a' =>
  [/\ is_res a' (mrowst a t) (mcolst a t) (mbatch a) (entt a t), kfree a' = kfree a &
      tag a' = if t then trtag (tag a) else tag a]).
Proof.
move=> w; rewrite /tr; case: t; last by apply: hoare_ret; split=> //; apply: res_wf.
exact: transpose_ok.
Qed.
Lemma shape_matrix_trE a t : wf a -> shape_matrix_tr a t = ret (mrowst a t, mcolst a t).
Proof. by move=> w; rewrite /shape_matrix_tr shape_matrixE // bind_ret; case: t. Qed.
Lemma assert_composableE a (b : mat) ta tb : wf a -> wf b -> mcolst a ta = mrowst b tb ->
  assert_composable a b ta tb = ret tt.
Proof. by move=> wa wb e; rewrite /assert_composable !shape_matrix_trE // !bind_ret /= e eqxx. Qed.
Lemma shape_batch_broadcast2 a (b : mat) : wf a -> wf b -> bcok (mbatch a) (mbatch b) ->
  shape_batch_broadcast [:: a; b] = ret (bct (mbatch a) (mbatch b)).
Proof. by move=> wa wb o; rewrite /shape_batch_broadcast /= !shape_batchE // !bind_ret eab_two. Qed.
Lemma mrowst_gt0 a t : wf a -> (0 < mrowst a t)%N.
Proof. by move=> w; case: t; [apply: mcols_gt0|apply: mrows_gt0]. Qed.
Lemma mcolst_gt0 a t : wf a -> (0 < mcolst a t)%N.
Proof. by move=> w; case: t; [apply: mrows_gt0|apply: mcols_gt0]. Qed.
Lemma entt_diag (x : tensor) t be i j : entt (Diag x) t be i j = if i == j then vx x be i else 0.
Proof. by case: t => //=; rewrite eq_sym; case: eqP => // ->. Qed.
Lemma mrowst_diag (x : tensor) t : mrowst (Diag x) t = tcols x. Proof. by case: t. Qed.
Lemma mcolst_diag (x : tensor) t : mcolst (Diag x) t = tcols x. Proof. by case: t. Qed.
Lemma diag_tr_res (x : tensor) t : wf (Diag x) ->
  is_res (Diag x) (mrowst (Diag x) t) (mcolst (Diag x) t) (mbatch (Diag x)) (entt (Diag x) t).
Proof.
move=> w; rewrite mrowst_diag mcolst_diag; apply: res_ext (res_wf w) _ => be i j _ _ _.
by rewrite entt_diag.
Qed.
Lemma mm_tr a (b a' b' : mat) ta tb : is_res a' (mrowst a ta) (mcolst a ta) (mbatch a) (entt a ta) ->
  is_res b' (mrowst b tb) (mcolst b tb) (mbatch b) (entt b tb) ->
  kfree a' = kfree a -> kfree b' = kfree b ->
  mcolst a ta = mrowst b tb -> bcok (mbatch a) (mbatch b) -> mm_side a' b' false false ->
  hoare (o_matmul self a' b' false false) (post a b ta tb).
Proof.
move=> ha hb ka kb e o sd; apply: hoare_conseq (mm_res ok ha hb (ta := false) (tb := false) e o sd) _ => c [hc kc].
by split=> //; rewrite -ka -kb.
Qed.
(** The same, with the numeric array of an operand. *)
Lemma mm_numL a (b : mat) (x : tensor) ta tb : tmat x (mrows a) (mcols a) (mbatch a) (ent a) -> wf b ->
  mcolst a ta = mrowst b tb -> bcok (mbatch a) (mbatch b) ->
  hoare (o_matmul self (Nm x) b ta tb) (fun c => resm a b ta tb c /\ kfree c).
Proof.
move=> hx wb e o; apply: (hoare_conseq (mm_res ok (res_num hx) (res_wf wb) (ta := ta) (tb := tb) e o isT)).
by move=> c [hc kc]; split=> //; apply: kc.
Qed.
Lemma mm_numR a (b : mat) (y : tensor) ta tb : wf a -> tmat y (mrows b) (mcols b) (mbatch b) (ent b) ->
  mcolst a ta = mrowst b tb -> bcok (mbatch a) (mbatch b) ->
  hoare (o_matmul self a (Nm y) ta tb) (fun c => resm a b ta tb c /\ kfree c).
Proof.
move=> wa hy e o; have sd : mm_side a (Nm y) ta tb by apply: mm_side_kfree; rewrite orbT.
apply: (hoare_conseq (mm_res ok (res_wf wa) (res_num hy) (ta := ta) (tb := tb) e o sd)).
by move=> c [hc kc]; split=> //; apply: kc; rewrite orbT.
Qed.

(** ** Zero *)
Lemma p_zeroR a d B r c ta tb : wf a -> wf (@Zero F d B r c) -> mcolst a ta = mrowst (@Zero F d B r c) tb ->
  bcok (mbatch a) (mbatch (@Zero F d B r c)) -> good PZeroR a (Zero d B r c) ta tb.
Proof.
move=> wa wb e o; rewrite /good /mm_body assert_composableE // !shape_matrix_trE // !bind_ret shape_batch_broadcast2 // bind_ret.
apply: hoare_ret; split=> //; split=> //.
  by apply/and3P; split; [exact: mcolst_gt0|exact: mrowst_gt0|exact: (posn_bct (mbatch_pos wa) (mbatch_pos wb))].
move=> be i j _ _ _ /=; rewrite -[LHS](sumf0 F (mcolst a ta)); apply: eq_sumf => p _.
by case: (tb); rewrite /entt /= mulr0.
Qed.
Lemma p_zeroL d B r c (b : mat) ta tb : wf (@Zero F d B r c) -> wf b -> mcolst (@Zero F d B r c) ta = mrowst b tb ->
  bcok (mbatch (@Zero F d B r c)) (mbatch b) -> good PZeroL (Zero d B r c) b ta tb.
Proof.
move=> wa wb e o; rewrite /good /mm_body assert_composableE // !shape_matrix_trE // !bind_ret shape_batch_broadcast2 // bind_ret.
apply: hoare_ret; split=> //; split=> //.
  by apply/and3P; split; [exact: mcolst_gt0|exact: mrowst_gt0|exact: (posn_bct (mbatch_pos wa) (mbatch_pos wb))].
move=> be i j _ _ _ /=; rewrite -[LHS](sumf0 F (mcolst (@Zero F d B r c) ta)); apply: eq_sumf => p _.
by case: (ta); rewrite /entt /= mul0r.
Qed.

(** ** Dense and diagonal *)
Lemma p_dense (x y : tensor) ta tb : wf (Dense x) -> wf (Dense y) -> mcolst (Dense x) ta = mrowst (Dense y) tb ->
  bcok (mbatch (Dense x)) (mbatch (Dense y)) -> good PDense (Dense x) (Dense y) ta tb.
Proof.
move=> wa wb e o; apply: (hoare_bind (tmat_matmul (wde wa) (wde wb) o e)) => z hz.
by rewrite (mk_dense_tmat hz); apply: hoare_ret; split=> //; apply: res_dense.
Qed.
Lemma p_diag (x y : tensor) ta tb : wf (Diag x) -> wf (Diag y) -> mcolst (Diag x) ta = mrowst (Diag y) tb ->
  bcok (mbatch (Diag x)) (mbatch (Diag y)) -> good PDiag (Diag x) (Diag y) ta tb.
Proof.
move=> wa wb e o; rewrite /good /mm_body assert_composableE // bind_ret.
rewrite mcolst_diag mrowst_diag in e; have hy := tvec_wfv wb; rewrite -e in hy.
apply: (hoare_bind (tvec_map2e _ (tvec_wfv wa) hy o)) => z hz; rewrite (mk_diag_tvec hz).
apply: hoare_ret; split=> //; rewrite /post /resm !mrowst_diag !mcolst_diag -e.
apply: res_ext (res_diag hz) _ => be i j _ hi hj.
rewrite (@eq_sumf _ _ _ (fun p => if i == p then vx x be i * entt (Diag y) tb be p j else 0)).
  by rewrite (sumf_delta (fun p => vx x be i * entt (Diag y) tb be p j)) // entt_diag; case: eqP => // _; rewrite mulr0.
by move=> p _; rewrite entt_diag; case: eqP => // _; rewrite mul0r.
Qed.
Lemma p_diag_gen (x : tensor) (b : mat) ta tb : wf (Diag x) -> wf b -> mcolst (Diag x) ta = mrowst b tb ->
  bcok (mbatch (Diag x)) (mbatch b) -> kfree b -> good PDiagGen (Diag x) b ta tb.
Proof.
move=> wa wb e o kb; rewrite /good /mm_body assert_composableE // bind_ret.
apply: (hoare_bind (tr_ok tb wb)) => b' [hb kb' _]; have hx := tmat_expand1 (tvec_wfv wa).
rewrite (mk_dense_tmat hx); rewrite mcolst_diag in e; rewrite -e in hb.
have [wb' [r' c'] _ _] := hb.
have fu : full b' (Dense (t_expand1 x)).
  by rewrite /full r' c' [mrows (Dense _)](tmat_rows hx) [mcols (Dense _)](tmat_cols hx) bcnn bcn1 !eqxx.
apply: (hoare_conseq (mul_res ok (res_dense hx) hb (bcnokn _) (bc1nok _) o (full_mul_dense fu))) => c [hc kc].
split; last by move=> _; apply: kc => //; rewrite kb'.
rewrite /resm mrowst_diag mcolst_diag; rewrite bcnn bc1n in hc; apply: res_ext hc _ => be i j _ hi hj.
rewrite (clid hi) (clid hj); rewrite (@eq_sumf _ _ _ (fun p => if i == p then vx x be i * entt b tb be p j else 0)).
  by rewrite (sumf_delta (fun p => vx x be i * entt b tb be p j)).
by move=> p _; rewrite entt_diag; case: eqP => // _; rewrite mul0r.
Qed.
Lemma p_gen_diag a (y : tensor) ta tb : wf a -> wf (Diag y) -> mcolst a ta = mrowst (Diag y) tb ->
  bcok (mbatch a) (mbatch (Diag y)) -> kfree a -> good PGenDiag a (Diag y) ta tb.
Proof.
move=> wa wb e o ka; rewrite /good /mm_body assert_composableE // bind_ret.
apply: (hoare_bind (tr_ok ta wa)) => a' [ha ka' _]; have hy := tmat_expand2 (tvec_wfv wb).
rewrite (mk_dense_tmat hy); rewrite mrowst_diag in e; rewrite e in ha.
have [wa' [r' c'] _ _] := ha.
have fu : full a' (Dense (t_expand2 y)).
  by rewrite /full r' c' [mrows (Dense _)](tmat_rows hy) [mcols (Dense _)](tmat_cols hy) bcnn bcn1 !eqxx.
apply: (hoare_conseq (mul_res ok ha (res_dense hy) (bcnok1 _) (bcnokn _) o (full_mul_dense' fu))) => c [hc kc].
split; last by move=> _; apply: kc => //; rewrite ka'.
rewrite /resm mcolst_diag e; rewrite bcnn bcn1 in hc; apply: res_ext hc _ => be i j _ hi hj.
rewrite (clid hi) !(clid hj); rewrite (@eq_sumf _ _ _ (fun p => if p == j then entt a ta be i p * vx y be p else 0)).
  by rewrite (sumf_delta' (fun p => entt a ta be i p * vx y be p)).
by move=> p _; rewrite entt_diag; case: eqP => // _; rewrite mulr0.
Qed.

(** ** Constant *)
Lemma tag4 a : tag a = 4%N -> exists x r c, a = Const x r c.
Proof. by case: a => // x r c _; exists x, r, c. Qed.
Lemma const_res (x : tensor) r c R C B f : is_res (Const x r c) R C B f -> 
  [/\ r = R, c = C, tsca x B (fun be => f be 0%N 0%N) & forall be i j, okb B be -> (i < R)%N -> (j < C)%N -> f be i j = f be 0%N 0%N].
Proof.
case=> w [/= r1 c1] b1 e; have [c0 r0 p] := posn3 w; have hx := tsca_posn p; subst r c; rewrite -b1 in e *; split=> //.
  by apply: tsca_ext hx _ => be hb; rewrite -e.
by move=> be i j hb hi hj; rewrite -!e.
Qed.
Lemma p_const (x y : tensor) r c r' c' ta tb : wf (Const x r c) -> wf (Const y r' c') ->
  mcolst (Const x r c) ta = mrowst (Const y r' c') tb -> bcok (mbatch (Const x r c)) (mbatch (Const y r' c')) ->
  good PConst (Const x r c) (Const y r' c') ta tb.
Proof.
move=> wa wb e o; rewrite /good /mm_body assert_composableE // bind_ret.
apply: (hoare_bind (tr_ok ta wa)) => a' [ha _ tga]; apply: (hoare_bind (tr_ok tb wb)) => b' [hb _ tgb].
have {tga} [x1 [r1 [c1 ?]]] : exists x r c, a' = Const x r c by apply: tag4; rewrite tga; case: (ta).
have {tgb} [x2 [r2 [c2 ?]]] : exists x r c, b' = Const x r c by apply: tag4; rewrite tgb; case: (tb).
subst a' b'; have [r1E c1E h1 e1] := const_res ha; have [r2E c2E h2 e2] := const_res hb.
apply: (hoare_bind (tsca_map2 _ h1 h2 o)) => z hz; rewrite /mk_const; apply: hoare_ret; split=> //.
have R0 := mrowst_gt0 ta wa; have C0 := mcolst_gt0 tb wb.
rewrite r1E c1E c2E; apply: res_ext (res_const (tsca_map _ hz) R0 C0) _ => be i j; rewrite okb_bct // => /andP[o1 o2] hi hj.
rewrite (@eq_sumf _ _ _ (fun p => entt (Const x r c) ta be 0%N 0%N * entt (Const y r' c') tb be 0%N 0%N)).
  by rewrite sumf_const mulr_natr.
by move=> p hp; rewrite e1 // e2 // -e.
Qed.
Lemma p_const_gen (x : tensor) r c (b : mat) ta tb : wf (Const x r c) -> wf b ->
  mcolst (Const x r c) ta = mrowst b tb -> bcok (mbatch (Const x r c)) (mbatch b) ->
  good PConstGen (Const x r c) b ta tb.
Proof.
move=> wa wb e o; rewrite /good /mm_body assert_composableE // bind_ret.
apply: (hoare_bind (tr_ok ta wa)) => a' [ha _ tga]; apply: (hoare_bind (tr_ok tb wb)) => b' [hb _ _].
have {tga} [x1 [r1 [c1 ?]]] : exists x r c, a' = Const x r c by apply: tag4; rewrite tga; case: (ta).
subst a'; have [r1E c1E h1 e1] := const_res ha.
apply: (hoare_bind (sum2_res ok hb)) => s hs; apply: (hoare_bind (fill_diag_ok h1 (isT : (0 < 1)%N))) => m [hm km _].
have R0 := mrowst_gt0 ta wa.
have hl : is_res (Nm (t_ones (dt x1) [:: 1%N; r1])) (mrowst (Const x r c) ta) 1 [::] (fun _ _ _ => (1 : F)).
  by rewrite r1E; apply: res_num; apply: tmat_full; rewrite !posn_cons R0.
have hr := res_num (tmat_expand1 hs).
have u1 := bct_ubl o; have u2 := bct_ubr o.
apply: (hoare_conseq (mk_lowrank_res (u := bct (mbatch (Const x r c)) (mbatch b)) hl hr hm isT isT km isT u2 u1)) => z [hz [kz _]].
split=> //; apply: (res_cast hz); first by rewrite bct0s bctC // bcokC.
move=> be i j; rewrite okb_bct // => /andP[o1 o2] hi hj; rewrite /lrf !sumf1 /= mul1r sumf_mull e; apply: eq_sumf => p hp.
by rewrite e1 // e.
Qed.
Lemma p_gen_const a (y : tensor) r c ta tb : wf a -> wf (Const y r c) ->
  mcolst a ta = mrowst (Const y r c) tb -> bcok (mbatch a) (mbatch (Const y r c)) ->
  good PGenConst a (Const y r c) ta tb.
Proof.
move=> wa wb e o; rewrite /good /mm_body assert_composableE // bind_ret.
apply: (hoare_bind (tr_ok ta wa)) => a' [ha _ _]; apply: (hoare_bind (tr_ok tb wb)) => b' [hb _ tgb].
have {tgb} [x1 [r1 [c1 ?]]] : exists x r c, b' = Const x r c by apply: tag4; rewrite tgb; case: (tb).
subst b'; have [r1E c1E h1 e1] := const_res hb.
apply: (hoare_bind (sum1_res ok ha)) => s hs; apply: (hoare_bind (fill_diag_ok h1 (isT : (0 < 1)%N))) => m [hm km _].
have C0 := mcolst_gt0 tb wb.
have hr : is_res (Nm (t_ones (dt x1) [:: 1%N; c1])) (mcolst (Const y r c) tb) 1 [::] (fun _ _ _ => (1 : F)).
  by rewrite c1E; apply: res_num; apply: tmat_full; rewrite !posn_cons C0.
have hl := res_num (tmat_expand1 hs).
have u1 := bct_ubl o; have u2 := bct_ubr o.
apply: (hoare_conseq (mk_lowrank_res (u := bct (mbatch a) (mbatch (Const y r c))) hl hr hm isT isT km u1 isT u2)) => z [hz [kz _]].
split=> //; apply: (res_cast hz); first by rewrite bcts0.
move=> be i j; rewrite okb_bct // => /andP[o1 o2] hi hj; rewrite /lrf !sumf1 /= mulr1 sumf_mulr; apply: eq_sumf => p hp.
by rewrite e1 // -e.
Qed.

(** ** Triangular *)
Lemma p_lt (x y : tensor) ta tb : wf (LT x) -> wf (LT y) -> mcolst (LT x) ta = mrowst (LT y) tb ->
  bcok (mbatch (LT x)) (mbatch (LT y)) -> good PLT (LT x) (LT y) ta tb.
Proof.
move=> wa wb e o; rewrite /good /mm_body.
case E: (~~ ta && ~~ tb); last first.
  apply: (hoare_bind (tr_ok ta wa)) => a' [ha ka _]; apply: (hoare_bind (tr_ok tb wb)) => b' [hb kb _].
  by apply: mm_tr => //; apply: mm_side_kfree; rewrite ka.
case/andP: E e => /negbTE-> /negbTE-> e; apply: (hoare_bind (tmat_matmul (ta := false) (tb := false) (wlt wa) (wlt wb) o e)) => z hz.
rewrite (mk_lt_tmat hz); apply: hoare_ret; split=> //; apply: (res_lt hz) => be i j; rewrite okb_bct // => /andP[o1 o2] hi hj hij.
rewrite -[RHS](sumf0 F (mcols (LT x))); apply: eq_sumf => p hp; case: (ltnP i p) => hip.
  by rewrite (ltz wa) ?mul0r.
by rewrite [X in _ * X](ltz wb) ?mulr0 // -?[mrows (LT y)]e //; apply: leq_ltn_trans hij.
Qed.
Lemma p_ut (x y : tensor) ta tb : wf (UT x) -> wf (UT y) -> mcolst (UT x) ta = mrowst (UT y) tb ->
  bcok (mbatch (UT x)) (mbatch (UT y)) -> good PUT (UT x) (UT y) ta tb.
Proof.
move=> wa wb e o; rewrite /good /mm_body.
case E: (~~ ta && ~~ tb); last first.
  apply: (hoare_bind (tr_ok ta wa)) => a' [ha ka _]; apply: (hoare_bind (tr_ok tb wb)) => b' [hb kb _].
  by apply: mm_tr => //; apply: mm_side_kfree; rewrite ka.
case/andP: E e => /negbTE-> /negbTE-> e; apply: (hoare_bind (tmat_matmul (ta := false) (tb := false) (wut wa) (wut wb) o e)) => z hz.
rewrite (mk_ut_tmat hz); apply: hoare_ret; split=> //; apply: (res_ut hz) => be i j; rewrite okb_bct // => /andP[o1 o2] hi hj hij.
rewrite -[RHS](sumf0 F (mcols (UT x))); apply: eq_sumf => p hp; case: (ltnP p i) => hip.
  by rewrite (utz wa) ?mul0r.
by rewrite [X in _ * X](utz wb) ?mulr0 // -?[mrows (UT y)]e //; apply: leq_trans hip.
Qed.
Lemma p_lt_gen a (b : mat) ta tb : wf a -> wf b -> mcolst a ta = mrowst b tb -> bcok (mbatch a) (mbatch b) ->
  good PLTGen a b ta tb.
Proof.
move=> wa wb e o; apply: hoare_warn_if; apply: (hoare_bind (ok_dense ok wa)) => x hx.
by apply: (hoare_conseq (mm_numL hx wb e o)) => c [h k].
Qed.
Lemma p_gen_lt a (b : mat) ta tb : wf a -> wf b -> mcolst a ta = mrowst b tb -> bcok (mbatch a) (mbatch b) ->
  good PGenLT a b ta tb.
Proof.
move=> wa wb e o; apply: hoare_warn_if; apply: (hoare_bind (ok_dense ok wb)) => x hx.
by apply: (hoare_conseq (mm_numR wa hx e o)) => c [h k].
Qed.
Lemma mk_lt_mat_ok z r c b f : is_res z r c b f ->
  (forall be i j, okb b be -> (i < r)%N -> (j < c)%N -> (i < j)%N -> f be i j = 0) ->
  hoare (mk_lt_mat self z) (fun w => is_res w r c b f /\ kfree w).
Proof.
move=> hz h0; case: (hz) => wz _ _ _; rewrite /mk_lt_mat assert_matrixE // bind_ret.
apply: (hoare_bind (dense_res ok hz)) => v ht; apply: hoare_ret; split=> //; exact: res_lt ht h0.
Qed.
Lemma mk_ut_mat_ok z r c b f : is_res z r c b f ->
  (forall be i j, okb b be -> (i < r)%N -> (j < c)%N -> (j < i)%N -> f be i j = 0) ->
  hoare (mk_ut_mat self z) (fun w => is_res w r c b f /\ kfree w).
Proof.
move=> hz h0; case: (hz) => wz _ _ _; rewrite /mk_ut_mat assert_matrixE // bind_ret.
apply: (hoare_bind (dense_res ok hz)) => v ht; apply: hoare_ret; split=> //; exact: res_ut ht h0.
Qed.
Lemma sum_diagr (f : nat -> F) (y : tensor) n tb be j : (j < n)%N ->
  sumf n (fun p => f p * entt (Diag y) tb be p j) = f j * vx y be j.
Proof.
move=> hj; rewrite -(sumf_delta' (fun p => f p * vx y be p) hj); apply: eq_sumf => p _.
by rewrite entt_diag; case: eqP => // _; rewrite mulr0.
Qed.
Lemma sum_diagl (f : nat -> F) (y : tensor) n ta be i : (i < n)%N ->
  sumf n (fun p => entt (Diag y) ta be i p * f p) = vx y be i * f i.
Proof.
move=> hi; rewrite -(sumf_delta (fun p => vx y be i * f p) hi); apply: eq_sumf => p _.
by rewrite entt_diag; case: eqP => // _; rewrite mul0r.
Qed.
Lemma p_lt_diag (x y : tensor) ta tb : wf (LT x) -> wf (Diag y) -> mcolst (LT x) ta = mrowst (Diag y) tb ->
  bcok (mbatch (LT x)) (mbatch (Diag y)) -> good PLTDiag (LT x) (Diag y) ta tb.
Proof.
move=> wa wb e o; rewrite /good /mm_body; case: ta e => e; rewrite [~~ _]/=.
  apply: (hoare_bind (tr_ok true wa)) => a' [ha ka _].
  by apply: (mm_tr (ta := true) (tb := tb) ha (diag_tr_res tb wb)) => //; apply: mm_side_kfree; rewrite ka.
have e' : mcolst (LT x) false = mrowst (Diag y) false by rewrite e !mrowst_diag.
apply: (hoare_bind (mm_numL (wlt wa) wb e' o)) => z [hz kz].
apply: (hoare_conseq (mk_lt_mat_ok hz _)).
  move=> be i j; rewrite okb_bct // => /andP[o1 o2] hi hj hij; rewrite e' in hj *; rewrite (sum_diagr _ y _ _ hj).
  by rewrite [entt (LT x) _ _ _ _](ltz wa) ?mul0r // [mcols (LT x)]e'.
move=> c [hc kc]; split=> //; rewrite /resm mcolst_diag; rewrite /resm mcolst_diag in hc; apply: res_ext hc _ => be i j _ _ _.
by apply: eq_sumf => p _; rewrite !entt_diag.
Qed.
Lemma p_ut_diag (x y : tensor) ta tb : wf (UT x) -> wf (Diag y) -> mcolst (UT x) ta = mrowst (Diag y) tb ->
  bcok (mbatch (UT x)) (mbatch (Diag y)) -> good PUTDiag (UT x) (Diag y) ta tb.
Proof.
move=> wa wb e o; rewrite /good /mm_body; case: ta e => e; rewrite [~~ _]/=.
  apply: (hoare_bind (tr_ok true wa)) => a' [ha ka _].
  by apply: (mm_tr (ta := true) (tb := tb) ha (diag_tr_res tb wb)) => //; apply: mm_side_kfree; rewrite ka.
have e' : mcolst (UT x) false = mrowst (Diag y) false by rewrite e !mrowst_diag.
apply: (hoare_bind (mm_numL (wut wa) wb e' o)) => z [hz kz].
apply: (hoare_conseq (mk_ut_mat_ok hz _)).
  move=> be i j; rewrite okb_bct // => /andP[o1 o2] hi hj hij; rewrite e' in hj *; rewrite (sum_diagr _ y _ _ hj).
  by rewrite [entt (UT x) _ _ _ _](utz wa) ?mul0r // [mcols (UT x)]e'.
move=> c [hc kc]; split=> //; rewrite /resm mcolst_diag; rewrite /resm mcolst_diag in hc; apply: res_ext hc _ => be i j _ _ _.
by apply: eq_sumf => p _; rewrite !entt_diag.
Qed.
Lemma p_diag_lt (x y : tensor) ta tb : wf (Diag x) -> wf (LT y) -> mcolst (Diag x) ta = mrowst (LT y) tb ->
  bcok (mbatch (Diag x)) (mbatch (LT y)) -> good PDiagLT (Diag x) (LT y) ta tb.
Proof.
move=> wa wb e o; rewrite /good /mm_body; case: tb e => e; rewrite [~~ _]/=.
  apply: (hoare_bind (tr_ok true wb)) => b' [hb kb _].
  by apply: (mm_tr (ta := ta) (tb := true) (diag_tr_res ta wa) hb).
have e' : mcolst (Diag x) false = mrowst (LT y) false by rewrite -e !mcolst_diag.
apply: (hoare_bind (mm_numR wa (wlt wb) e' o)) => z [hz kz].
apply: (hoare_conseq (mk_lt_mat_ok hz _)).
  move=> be i j; rewrite okb_bct // => /andP[o1 o2] hi hj hij; rewrite (sum_diagl _ x _ _ hi).
  by rewrite [entt (LT y) _ _ _ _](ltz wb) ?mulr0 // -[mrows (LT y)]e'.
move=> c [hc kc]; split=> //; rewrite /resm !mcolst_diag mrowst_diag; rewrite /resm !mcolst_diag mrowst_diag in hc; apply: res_ext hc _ => be i j _ _ _.
by apply: eq_sumf => p _; rewrite !entt_diag.
Qed.
Lemma p_diag_ut (x y : tensor) ta tb : wf (Diag x) -> wf (UT y) -> mcolst (Diag x) ta = mrowst (UT y) tb ->
  bcok (mbatch (Diag x)) (mbatch (UT y)) -> good PDiagUT (Diag x) (UT y) ta tb.
Proof.
move=> wa wb e o; rewrite /good /mm_body; case: tb e => e; rewrite [~~ _]/=.
  apply: (hoare_bind (tr_ok true wb)) => b' [hb kb _].
  by apply: (mm_tr (ta := ta) (tb := true) (diag_tr_res ta wa) hb).
have e' : mcolst (Diag x) false = mrowst (UT y) false by rewrite -e !mcolst_diag.
apply: (hoare_bind (mm_numR wa (wut wb) e' o)) => z [hz kz].
apply: (hoare_conseq (mk_ut_mat_ok hz _)).
  move=> be i j; rewrite okb_bct // => /andP[o1 o2] hi hj hij; rewrite (sum_diagl _ x _ _ hi).
  by rewrite [entt (UT y) _ _ _ _](utz wb) ?mulr0 // -[mrows (UT y)]e'.
move=> c [hc kc]; split=> //; rewrite /resm !mcolst_diag mrowst_diag; rewrite /resm !mcolst_diag mrowst_diag in hc; apply: res_ext hc _ => be i j _ _ _.
by apply: eq_sumf => p _; rewrite !entt_diag.
Qed.
End MmOk.
