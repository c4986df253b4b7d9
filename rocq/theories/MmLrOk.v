(** * Correctness of matmul: low-rank, Woodbury and Kronecker (proof support) *)
From mathcomp Require Import all_ssreflect all_algebra.
From mathcomp Require Import zify.
From Verif Require Import Outcome Monad Shape Tensor Mat Dispatch Ops Spec LookThy ShapeThy TensorThy TensorThy2 MatThy OpsOk DenseOk AddOk MulOk MmOk.
Set Implicit Arguments. Unset Strict Implicit. Unset Printing Implicit Defensive.
Import GRing.Theory.
Local Open Scope ring_scope.

(** ** Products of functions *)
Section Mulm.
Variable F : rcfType.
Implicit Types f g h : nat -> nat -> F.
Definition mulm (n : nat) f g (i j : nat) : F := sumf n (fun p => f i p * g p j).
Lemma mulmA n k f g h i j : mulm k (mulm n f g) h i j = mulm n f (mulm k g h) i j.
Proof.
rewrite /mulm; transitivity (sumf k (fun q => sumf n (fun p => f i p * g p q * h q j))).
  by apply: eq_sumf => q _; rewrite sumf_mulr.
rewrite sumf_exch; apply: eq_sumf => p _; rewrite sumf_mull; apply: eq_sumf => q _; by rewrite mulrA.
Qed.
Lemma eq_mulm n f f' g g' i j : (forall p, (p < n)%N -> f i p = f' i p) -> (forall p, (p < n)%N -> g p j = g' p j) ->
  mulm n f g i j = mulm n f' g' i j.
Proof. by move=> h1 h2; apply: eq_sumf => p hp; rewrite h1 // h2. Qed.
Lemma sum2_mulm p q f g h i j :
  sumf p (fun x => sumf q (fun y => f i x * g x y * h y j)) = mulm p f (mulm q g h) i j.
Proof. by apply: eq_sumf => x _; rewrite sumf_mull; apply: eq_sumf => y _; rewrite mulrA. Qed.
End Mulm.

Lemma mixlt (a b i j : nat) : (i < a)%N -> (j < b)%N -> (i * b + j < a * b)%N.
Proof. by nia. Qed.

Section MmLrOk.
Variable F : rcfType.
Notation tensor := (tensor F).
Notation mat := (mat F).
Implicit Types (a l m : mat) (t : bool) (u be : seq nat).
Variable self : ops F.
Hypothesis ok : ops_ok self.

Let post a b ta tb c := resm a b ta tb c /\ (kfree a || kfree b -> kfree c).
Let good i a b ta tb := hoare (mm_body self i a b ta tb) (post a b ta tb).
Let T (f : nat -> nat -> F) i j := f j i.

Lemma tag7 a : tag a = 7%N -> exists l r m, a = LR l r m.
Proof. by case: a => // l r m _; exists l, r, m. Qed.
(** Described low-rank matrices. *)
Lemma lr_res l (r : mat) m R C B f : is_res (LR l r m) R C B f ->
  [/\ [/\ is_res l R (mcols l) (mbatch l) (ent l), is_res r C (mcols r) (mbatch r) (ent r) &
          is_res m (mcols l) (mcols r) (mbatch m) (ent m)],
      [/\ kfree l, kfree r & kfree m],
      (forall v, bto B v = [&& bto (mbatch l) v, bto (mbatch r) v & bto (mbatch m) v]),
      [/\ bto (mbatch l) B, bto (mbatch r) B & bto (mbatch m) B] &
      forall be i j, okb B be -> (i < R)%N -> (j < C)%N ->
        f be i j = mulm (mcols l) (ent l be) (mulm (mcols r) (ent m be) (T (ent r be))) i j].
Proof.
case=> w [r1 c1] b1 e; have [[wl wr wm] kk [e1 e2] bb] := lr_facts w.
have h1 : is_res l R (mcols l) (mbatch l) (ent l) by rewrite -r1; apply: res_wf.
have h2 : is_res r C (mcols r) (mbatch r) (ent r) by rewrite -c1; apply: res_wf.
have h3 : is_res m (mcols l) (mcols r) (mbatch m) (ent m) by rewrite e1 e2; apply: res_wf.
split; [by split|by []|by move=> v; rewrite -b1 LRb|by rewrite -b1|].
by move=> be i j hb hi hj; rewrite -e // -sum2_mulm.
Qed.

Lemma p_lr_gen la ra ma (b : mat) ta tb : wf (LR la ra ma) -> wf b -> mcolst (LR la ra ma) ta = mrowst b tb ->
  bcok (mbatch (LR la ra ma)) (mbatch b) -> good PLRGen (LR la ra ma) b ta tb.
Proof.
move=> wa wb e o; rewrite /good /mm_body assert_composableE // bind_ret.
apply: (hoare_bind (tr_ok ta wa)) => a' [ha _ tga]; apply: (hoare_bind (tr_ok tb wb)) => b' [hb kb _].
have {tga} [l [r [m ?]]] : exists l r m, a' = LR l r m by apply: tag7; rewrite tga; case: (ta).
subst a'; have [[hl hr hm] [kl kr km] bE [u1 u2 u3] eE] := lr_res ha.
set u := bct (mbatch (LR la ra ma)) (mbatch b).
have U1 := bct_ubl o; have U2 := bct_ubr o; rewrite -/u in U1 U2.
have {}u1 := bto_trans u1 U1; have {}u2 := bto_trans u2 U1; have {}u3 := bto_trans u3 U1.
have q1 : bcok (mbatch b) (mbatch r) by okt u.
have sd : mm_side b' r true false by apply: mm_side_kfree; rewrite kr orbT.
apply: (hoare_bind (mm_res ok hb hr (ta := true) (tb := false) (esym e) q1 sd)) => x [hx kx].
have {}kx : kfree x by apply: kx; rewrite kr orbT.
have ux : bto (bct (mbatch b) (mbatch r)) u by rewrite bto_bct // U2.
apply: (hoare_conseq (mk_lowrank_res hl hx hm kl kx km u1 ux u3)) => z [hz [kz _]]; split=> //.
have bb : bct (bct (mbatch l) (bct (mbatch b) (mbatch r))) (mbatch m) = u.
  apply: bto_ext => v; rewrite [LHS]bto_bct; last by okt u.
  rewrite [bto (bct (mbatch l) _) v]bto_bct; last by okt u.
  by rewrite (bto_bct _ q1) [RHS]bto_bct // bE; do 4!case: (bto _ v).
apply: (res_cast hz bb) => be i j; rewrite okb_bct // => /andP[o1 o2] hi hj.
rewrite /lrf (_ : sumf _ _ = mulm (mcols l) (ent l be) (mulm (mcols r) (ent m be) (fun q n => sumf (mrowst b tb) (fun p => entt b tb be p n * ent r be p q))) i j); last by rewrite -sum2_mulm.
rewrite -[RHS]/(mulm (mcolst (LR la ra ma) ta) (entt (LR la ra ma) ta be) (entt b tb be) i j).
rewrite [RHS](eq_mulm (f' := mulm (mcols l) (ent l be) (mulm (mcols r) (ent m be) (T (ent r be)))) (g' := entt b tb be)) //; last by move=> p hp; apply: eE.
rewrite [RHS]mulmA; apply: eq_mulm => // p hp; rewrite [RHS]mulmA; apply: eq_mulm => // q hq.
by rewrite /mulm e; apply: eq_sumf => n hn; rewrite mulrC.
Qed.
Lemma p_gen_lr a lb rb mb ta tb : wf a -> wf (LR lb rb mb) -> mcolst a ta = mrowst (LR lb rb mb) tb ->
  bcok (mbatch a) (mbatch (LR lb rb mb)) -> good PGenLR a (LR lb rb mb) ta tb.
Proof.
move=> wa wb e o; rewrite /good /mm_body assert_composableE // bind_ret.
apply: (hoare_bind (tr_ok ta wa)) => a' [ha ka _]; apply: (hoare_bind (tr_ok tb wb)) => b' [hb _ tgb].
have {tgb} [l [r [m ?]]] : exists l r m, b' = LR l r m by apply: tag7; rewrite tgb; case: (tb).
subst b'; have [[hl hr hm] [kl kr km] bE [u1 u2 u3] eE] := lr_res hb.
set u := bct (mbatch a) (mbatch (LR lb rb mb)).
have U1 := bct_ubl o; have U2 := bct_ubr o; rewrite -/u in U1 U2.
have {}u1 := bto_trans u1 U2; have {}u2 := bto_trans u2 U2; have {}u3 := bto_trans u3 U2.
have q1 : bcok (mbatch a) (mbatch l) by okt u.
have sd : mm_side a' l false false by apply: mm_side_kfree; rewrite kl orbT.
apply: (hoare_bind (mm_res ok ha hl (ta := false) (tb := false) e q1 sd)) => x [hx kx].
have {}kx : kfree x by apply: kx; rewrite kl orbT.
have ux : bto (bct (mbatch a) (mbatch l)) u by rewrite bto_bct // U1.
apply: (hoare_conseq (mk_lowrank_res hx hr hm kx kr km ux u2 u3)) => z [hz [kz _]]; split=> //.
have bb : bct (bct (bct (mbatch a) (mbatch l)) (mbatch r)) (mbatch m) = u.
  apply: bto_ext => v; rewrite [LHS]bto_bct; last by okt u.
  rewrite [bto (bct (bct _ _) _) v]bto_bct; last by okt u.
  by rewrite (bto_bct _ q1) [RHS]bto_bct // bE; do 4!case: (bto _ v).
apply: (res_cast hz bb) => be i j; rewrite okb_bct // => /andP[o1 o2] hi hj.
rewrite /lrf (_ : sumf _ _ = mulm (mcols l) (mulm (mcolst a ta) (entt a ta be) (ent l be)) (mulm (mcols r) (ent m be) (T (ent r be))) i j); last by rewrite -sum2_mulm.
rewrite mulmA -[RHS]/(mulm (mcolst a ta) (entt a ta be) (entt (LR lb rb mb) tb be) i j); apply: eq_mulm => // p hp; rewrite e in hp; by rewrite eE.
Qed.
Lemma p_lr la ra ma lb rb mb ta tb : wf (LR la ra ma) -> wf (LR lb rb mb) ->
  mcolst (LR la ra ma) ta = mrowst (LR lb rb mb) tb ->
  bcok (mbatch (LR la ra ma)) (mbatch (LR lb rb mb)) -> good PLR (LR la ra ma) (LR lb rb mb) ta tb.
Proof.
move=> wa wb e o; rewrite /good /mm_body assert_composableE // bind_ret.
apply: (hoare_bind (tr_ok ta wa)) => a' [ha _ tga]; apply: (hoare_bind (tr_ok tb wb)) => b' [hb _ tgb].
have {tga} [l [r [m ?]]] : exists l r m, a' = LR l r m by apply: tag7; rewrite tga; case: (ta).
have {tgb} [l' [r' [m' ?]]] : exists l r m, b' = LR l r m by apply: tag7; rewrite tgb; case: (tb).
subst a' b'; have [[hl hr hm] [kl kr km] bE [u1 u2 u3] eE] := lr_res ha.
have [[hl' hr' hm'] [kl' kr' km'] bE' [u1' u2' u3'] eE'] := lr_res hb.
set A := mbatch (LR la ra ma) in u1 u2 u3 bE eE o ha *; set B := mbatch (LR lb rb mb) in u1' u2' u3' bE' eE' o hb *.
set u := bct A B; have U1 : bto A u := bct_ubl o; have U2 : bto B u := bct_ubr o.
have {}u1 := bto_trans u1 U1; have {}u2 := bto_trans u2 U1; have {}u3 := bto_trans u3 U1.
have {}u1' := bto_trans u1' U2; have {}u2' := bto_trans u2' U2; have {}u3' := bto_trans u3' U2.
have q1 : bcok (mbatch r) (mbatch l') by okt u.
have sd : mm_side r l' true false by apply: mm_side_kfree; rewrite kr.
apply: (hoare_bind (mm_res ok hr hl' (ta := true) (tb := false) e q1 sd)) => w [hw kw].
have {}kw : kfree w by apply: kw; rewrite kr.
have uw : bto (bct (mbatch r) (mbatch l')) u by rewrite bto_bct // u2.
have kk1 : kfree m || kfree w by rewrite km. have kk2 : kfree w || kfree m' by rewrite kw.
apply: (hoare_bind (mm3_res ok hm hw hm' (ta := false) (tb := false) (tc := false) erefl erefl u3 uw u3' kk1 kk2)) => g [hg kg].
have {}kg : kfree g by apply: kg; rewrite km.
rewrite /= in hg; case: (hg) => wg [rg cg] bg _; rewrite (shape_matrixE wg) bind_ret rg cg.
set bgg := bct (bct (mbatch m) (bct (mbatch r) (mbatch l'))) (mbatch m') in hg bg *.
have ubg : bto bgg u by rewrite /bgg bto_bct ?bto_bct ?u3 ?u2 ?u1' ?u3' //; okt u.
set key := mm3f _ _ _ _ _ in hg.
apply: (@hoare_bind _ _ _ _ (fun g' => is_res g' (mcols l) (mcols r') bgg key /\ kfree g')).
  case: eqP => [[E1 E2]|_]; last by apply: hoare_ret.
  rewrite /getitem_dense !bindA; apply: hoare_warn_if; apply: (hoare_bind (dense_res ok hg)) => t0 ht.
  apply: (hoare_bind (tmat_get00 ht)) => x hx; have hv := tvec_expand1 hx; rewrite (mk_diag_tvec hv).
  apply: hoare_ret; split=> //; rewrite E1 E2; apply: res_ext (res_diag hv) _ => be [|i] [|j] //.
move=> g' [hg' kg'].
apply: (hoare_conseq (mk_lowrank_res hl hr' hg' kl kr' kg' u1 u2' ubg)) => z [hz [kz _]]; split=> //.
have bb : bct (bct (mbatch l) (mbatch r')) bgg = u.
  apply: bto_ext => v; rewrite [LHS]bto_bct; last by okt u.
  rewrite [bto (bct (mbatch l) _) v]bto_bct; last by okt u.
  rewrite [bto bgg v]bto_bct; last by okt u.
  rewrite [bto (bct (mbatch m) _) v]bto_bct; last by okt u.
  by rewrite (bto_bct _ q1) [RHS]bto_bct // bE bE'; do 6!case: (bto _ v).
apply: (res_cast hz bb) => be i j; rewrite okb_bct // => /andP[o1 o2] hi hj.
rewrite /lrf (_ : sumf _ _ = mulm (mcols l) (ent l be) (mulm (mcols r') (key be) (T (ent r' be))) i j); last by rewrite -sum2_mulm.
rewrite -[RHS]/(mulm (mcolst (LR la ra ma) ta) (entt (LR la ra ma) ta be) (entt (LR lb rb mb) tb be) i j).
rewrite [RHS](eq_mulm (f' := mulm (mcols l) (ent l be) (mulm (mcols r) (ent m be) (T (ent r be))))
  (g' := mulm (mcols l') (ent l' be) (mulm (mcols r') (ent m' be) (T (ent r' be))))); last 2 first.
- by move=> p hp; rewrite eE.
- by move=> p hp; rewrite eE' // -e.
rewrite [RHS]mulmA; apply: eq_mulm => // p hp; rewrite [RHS]mulmA.
pose W k n := sumf (mcolst (LR la ra ma) ta) (fun x => T (ent r be) k x * ent l' be x n).
rewrite [LHS](eq_mulm (f' := mulm (mcols r) (ent m be) (mulm (mcols l') W (ent m' be))) (g' := T (ent r' be))) //; last first.
  by move=> q hq; rewrite -sum2_mulm.
rewrite [LHS]mulmA; apply: eq_mulm => // k hk; rewrite [LHS]mulmA -[W]/(mulm (mcolst (LR la ra ma) ta) (T (ent r be)) (ent l' be)) [LHS]mulmA.
by [].
Qed.
Lemma p_lr_const la ra ma (y : tensor) r c ta tb : wf (LR la ra ma) -> wf (Const y r c) ->
  mcolst (LR la ra ma) ta = mrowst (Const y r c) tb -> bcok (mbatch (LR la ra ma)) (mbatch (Const y r c)) ->
  good PLRConst (LR la ra ma) (Const y r c) ta tb.
Proof.
move=> wa wb e o; have [c0 r0 p] := posn3 wb.
apply: (hoare_bind (const_to_lowrank_ok (tsca_posn p) r0 c0)) => b' [hb kb _].
have sd : mm_side (LR la ra ma) b' ta tb by apply: mm_side_kfree; rewrite kb orbT.
apply: (hoare_conseq (mm_res ok (res_wf wa) hb (ta := ta) (tb := tb) e o sd)) => z [hz kz].
by split=> // _; apply: kz; rewrite kb orbT.
Qed.
Lemma p_const_lr (x : tensor) r c lb rb mb ta tb : wf (Const x r c) -> wf (LR lb rb mb) ->
  mcolst (Const x r c) ta = mrowst (LR lb rb mb) tb -> bcok (mbatch (Const x r c)) (mbatch (LR lb rb mb)) ->
  good PConstLR (Const x r c) (LR lb rb mb) ta tb.
Proof.
move=> wa wb e o; have [c0 r0 p] := posn3 wa.
apply: (hoare_bind (const_to_lowrank_ok (tsca_posn p) r0 c0)) => a' [ha ka _].
have sd : mm_side a' (LR lb rb mb) ta tb by apply: mm_side_kfree; rewrite ka.
apply: (hoare_conseq (mm_res ok ha (res_wf wb) (ta := ta) (tb := tb) e o sd)) => z [hz kz].
by split=> // _; apply: kz; rewrite ka.
Qed.

(** ** Woodbury *)
Lemma p_wb_gen (d : tensor) l r m (b : mat) ta tb : wf (Wb d l r m) -> wf b -> mcolst (Wb d l r m) ta = mrowst b tb ->
  bcok (mbatch (Wb d l r m)) (mbatch b) -> good PWbGen (Wb d l r m) b ta tb.
Proof.
move=> wa wb e o; have [d1 l1 o1 k1] := wb_res wa.
set u := bct (mbatch (Wb d l r m)) (mbatch b).
have := bct_ubl o; have := bct_ubr o; rewrite -/u wb_ub // => u2 /andP[u3 u4].
have q1 : bcok (behead (sh d)) (mbatch b) by okt u.
have q2 : bcok (mbatch (LR l r m)) (mbatch b) by okt u.
have e' : (if ta then tcols d else tcols d) = (if tb then mcols b else mrows b) by [].
have s1 : mm_side (wb_diag d) b ta tb by []. have s2 : mm_side (wb_lr l r m) b ta tb by [].
apply: (hoare_bind (mm_res ok d1 (res_wf wb) e' q1 s1)) => x [hx kx].
apply: (hoare_bind (mm_res ok l1 (res_wf wb) e' q2 s2)) => y [hy ky].
apply: (hoare_conseq (add_rese ok hx hy _)); first by okt u.
move=> z [hz kz]; split; last by move=> _; apply: kz; [apply: kx|apply: ky; rewrite k1].
apply: (res_cast hz).
  apply: bto_ext => v; rewrite [RHS]bto_bct // wb_ub // [LHS]bto_bct; last by okt u.
  by rewrite !(bto_bct _ q1) !(bto_bct _ q2); do 3!case: (bto _ v).
move=> be i j _ hi hj; rewrite -sumf_add; apply: eq_sumf => p hp.
by rewrite -mulrDl; congr (_ * _); case: (ta).
Qed.
Lemma p_gen_wb a (d : tensor) l r m ta tb : wf a -> wf (Wb d l r m) -> mcolst a ta = mrowst (Wb d l r m) tb ->
  bcok (mbatch a) (mbatch (Wb d l r m)) -> good PGenWb a (Wb d l r m) ta tb.
Proof.
move=> wa wb e o; have [d1 l1 o1 k1] := wb_res wb.
set u := bct (mbatch a) (mbatch (Wb d l r m)).
have := bct_ubl o; have := bct_ubr o; rewrite -/u wb_ub // => /andP[u3 u4] u2.
have q1 : bcok (mbatch a) (behead (sh d)) by okt u.
have q2 : bcok (mbatch a) (mbatch (LR l r m)) by okt u.
have e' : (if ta then mrows a else mcols a) = (if tb then tcols d else tcols d) by [].
have s1 : mm_side a (wb_diag d) ta tb by apply: mm_side_kfree; rewrite orbT.
have s2 : mm_side a (wb_lr l r m) ta tb by apply: mm_side_kfree; rewrite k1 orbT.
apply: (hoare_bind (mm_res ok (res_wf wa) d1 e' q1 s1)) => x [hx kx].
apply: (hoare_bind (mm_res ok (res_wf wa) l1 e' q2 s2)) => y [hy ky].
apply: (hoare_conseq (add_rese ok hx hy _)); first by okt u.
move=> z [hz kz]; split; last by move=> _; apply: kz; [apply: kx; rewrite orbT|apply: ky; rewrite k1 orbT].
apply: (res_cast hz).
  apply: bto_ext => v; rewrite [RHS]bto_bct // wb_ub // [LHS]bto_bct; last by okt u.
  by rewrite !(bto_bct _ q1) !(bto_bct _ q2); do 3!case: (bto _ v).
move=> be i j _ hi hj; rewrite -sumf_add; apply: eq_sumf => p hp.
by rewrite -mulrDr; congr (_ * _); case: (tb).
Qed.

(** ** Kronecker *)
Lemma entt_kron l (r : mat) t be i j : entt (Kron l r) t be i j =
  entt l t be (i %/ mrowst r t) (j %/ mcolst r t) * entt r t be (i %% mrowst r t) (j %% mcolst r t).
Proof. by case: t. Qed.
Lemma mrowst_kron l (r : mat) t : mrowst (Kron l r) t = (mrowst l t * mrowst r t)%N. Proof. by case: t. Qed.
Lemma mcolst_kron l (r : mat) t : mcolst (Kron l r) t = (mcolst l t * mcolst r t)%N. Proof. by case: t. Qed.
Lemma p_kron la ra lb rb ta tb : wf (Kron la ra) -> wf (Kron lb rb) ->
  bcok (mbatch (Kron la ra)) (mbatch (Kron lb rb)) -> mm_side (Kron la ra) (Kron lb rb) ta tb ->
  good PKron (Kron la ra) (Kron lb rb) ta tb.
Proof.
move=> wa wb o /and4P[/eqP e1 /eqP e2 s1 s2]; case: (wa) => wla wra oa; case: (wb) => wlb wrb ob.
set u := bct (mbatch (Kron la ra)) (mbatch (Kron lb rb)).
have := bct_ubl o; have := bct_ubr o; rewrite -/u !Kronb // => /andP[u1 u2] /andP[u3 u4].
have q1 : bcok (mbatch la) (mbatch lb) by okt u.
have q2 : bcok (mbatch ra) (mbatch rb) by okt u.
rewrite /good /mm_body !assert_composableE // !bind_ret.
apply: (hoare_bind (ok_mm ok wla wlb e1 q1 s1)) => l [hl _].
apply: (hoare_bind (ok_mm ok wra wrb e2 q2 s2)) => r [hr _]; apply: hoare_ret; split=> //.
rewrite /post /resm mrowst_kron mcolst_kron mcolst_kron; apply: (res_cast (res_kron hl hr _)); first by okt u.
  by rewrite (bct4 u3 u4 u1 u2).
move=> be i j _ hi hj; rewrite sumf_sumf_mul -sumf_prod_dm; apply: eq_sumf => p hp.
by rewrite !entt_kron e2 mulrACA.
Qed.

Lemma reshape_mat_ok x r c b f R C ds : is_res x r c b f -> (R * C = r * c)%N ->
  ds = [:: None, Some R & map Some b] \/ ds = [:: Some C, None & map Some b] ->
  hoare (reshape_mat self x ds) (fun z => tmat z R C b (fun be i j => f be ((i * C + j) %/ c)%N ((i * C + j) %% c)%N)).
Proof.
move=> hx E hd; rewrite /reshape_mat; apply: hoare_warn_if; apply: (hoare_bind (dense_res ok hx)) => t0 ht.
have -> : t_reshape t0 ds = t_reshape t0 (map Some [:: C, R & b]).
  by case: hd => ->; [apply: reshape_infer0 ht E|apply: reshape_infer1 ht E].
exact: tmat_reshape ht E.
Qed.
Lemma reshape_rows_ok x r c b f R C i j : is_res x r c b f -> (R * C = r * c)%N ->
  (i, j) = (Some R, None) \/ (i, j) = (None, Some C) ->
  hoare (reshape_rows self x i j) (fun z => tmat z R C b (fun be i j => f be ((i * C + j) %/ c)%N ((i * C + j) %% c)%N)).
Proof.
move=> hx E hij; case: (hx) => w _ bx _; rewrite /reshape_rows shape_batchE // bind_ret bx.
by apply: (reshape_mat_ok hx E); case: hij => -[-> ->]; [left|right].
Qed.
Lemma reshape_cols_ok x r c b f R C i j : is_res x r c b f -> (R * C = r * c)%N ->
  (i, j) = (Some R, None) \/ (i, j) = (None, Some C) ->
  hoare (reshape_cols self x i j) (fun z => tmat z R C b (fun be i j => f be ((j * R + i) %% r)%N ((j * R + i) %/ r)%N)).
Proof.
move=> hx E hij; case: (hx) => w [rx cx] bx ex; rewrite /reshape_cols shape_batchE // bind_ret bx.
apply: (hoare_bind (transpose_ok w)) => y [hy _ _]; rewrite rx cx bx in hy.
have hy' : is_res y c r b (fun be i j => f be j i) by apply: res_ext hy _ => be i' j' hb hi hj; rewrite ex.
have E' : (C * R = c * r)%N by rewrite mulnC E mulnC.
apply: (hoare_bind (reshape_mat_ok hy' E' _)); first by case: hij => -[-> ->]; [right|left].
by move=> z hz; apply: (hoare_conseq (tmat_transpose hz)).
Qed.
Lemma kron_a_id_ok a (b : mat) (n : nat) : wf a -> wf b -> mrows b = (mcols a * n)%N -> bcok (mbatch a) (mbatch b) ->
  hoare (kron_a_id_b self a b) (fun z => tmat z (mrows a * n) (mcols b) (bct (mbatch a) (mbatch b))
   (fun be i j => sumf (mcols a) (fun p => ent a be (i %/ n)%N p * ent b be (p * n + i %% n)%N j))).
Proof.
move=> wa wb e o; rewrite /kron_a_id_b !shape_ofE // !bind_ret /=.
have n0 : (0 < n)%N by move: (mrows_gt0 wb); rewrite e muln_gt0 => /andP[].
have ca0 := mcols_gt0 wa; have cb0 := mcols_gt0 wb.
have E1 : (mcols a * (n * mcols b) = mrows b * mcols b)%N by rewrite e mulnA.
apply: (hoare_bind (reshape_rows_ok (res_wf wb) E1 (or_introl erefl))) => y hy.
have sd : mm_side a (Nm y) false false by apply: mm_side_kfree; rewrite orbT.
apply: (hoare_bind (mm_res ok (res_wf wa) (res_num hy) (ta := false) (tb := false) erefl o sd)) => x [hx _].
have E2 : (mrows a * n * mcols b = mrows a * (n * mcols b))%N by rewrite mulnA.
apply: (hoare_conseq (reshape_rows_ok hx E2 (or_intror erefl))) => z hz.
apply: tmat_ext hz _ => be i j hb hi hj /=; apply: eq_sumf => p hp.
have i1 : (i %/ n < mrows a)%N by rewrite ltn_divLR.
have im : (i %% n < n)%N by rewrite ltn_mod.
have X1 : ((i * mcols b + j) %/ (n * mcols b) = i %/ n)%N.
  by rewrite {1}(divn_eq i n) mulnDl -mulnA -addnA divnMDl ?muln_gt0 ?n0 // [(_ %/ (n * _))%N]divn_small ?addn0 //; apply: mixlt.
have X2 : ((i * mcols b + j) %% (n * mcols b) = (i %% n) * mcols b + j)%N.
  by rewrite {1}(divn_eq i n) mulnDl -mulnA -addnA modnMDl modn_small //; apply: mixlt.
rewrite X1 X2; congr (_ * ent b be _ _).
  by rewrite mulnA addnA -mulnDl divnMDl // divn_small ?addn0.
by rewrite mulnA addnA -mulnDl modnMDl modn_small.
Qed.
Lemma kron_id_a_ok a (b : mat) (n : nat) : wf a -> wf b -> mrows b = (n * mcols a)%N -> bcok (mbatch a) (mbatch b) ->
  hoare (kron_id_a_b self a b) (fun z => tmat z (n * mrows a) (mcols b) (bct (mbatch a) (mbatch b))
   (fun be i j => sumf (mcols a) (fun p => ent a be (i %% mrows a)%N p * ent b be ((i %/ mrows a) * mcols a + p)%N j))).
Proof.
move=> wa wb e o; rewrite /kron_id_a_b !shape_ofE // !bind_ret /=.
have n0 : (0 < n)%N by move: (mrows_gt0 wb); rewrite e muln_gt0 => /andP[].
have ca0 := mcols_gt0 wa; have cb0 := mcols_gt0 wb; have ra0 := mrows_gt0 wa.
have E1 : (mcols a * (n * mcols b) = mrows b * mcols b)%N by rewrite e; nia.
apply: (hoare_bind (reshape_cols_ok (res_wf wb) E1 (or_introl erefl))) => y hy.
have sd : mm_side a (Nm y) false false by apply: mm_side_kfree; rewrite orbT.
apply: (hoare_bind (mm_res ok (res_wf wa) (res_num hy) (ta := false) (tb := false) erefl o sd)) => x [hx _].
have E2 : (n * mrows a * mcols b = mrows a * (n * mcols b))%N by nia.
apply: (hoare_conseq (reshape_cols_ok hx E2 (or_intror erefl))) => z hz.
apply: tmat_ext hz _ => be i j hb hi hj /=; apply: eq_sumf => p hp.
have i1 : (i %/ mrows a < n)%N by rewrite ltn_divLR.
have X1 : ((j * (n * mrows a) + i) %/ mrows a = j * n + i %/ mrows a)%N by rewrite mulnA divnMDl.
have X2 : ((j * (n * mrows a) + i) %% mrows a = i %% mrows a)%N by rewrite mulnA modnMDl.
have X3 : ((j * n + i %/ mrows a) * mcols a + p = j * mrows b + (i %/ mrows a * mcols a + p))%N by rewrite e mulnDl -mulnA addnA.
have X4 : (i %/ mrows a * mcols a + p < mrows b)%N by rewrite e; apply: mixlt.
rewrite X1 X2 X3; congr (_ * ent b be _ _); first by rewrite modnMDl modn_small.
by rewrite divnMDl ?mrows_gt0 // divn_small // addn0.
Qed.
Lemma tag9 a : tag a = 9%N -> exists l r, a = Kron l r.
Proof. by case: a => // l r _; exists l, r. Qed.
Lemma p_kron_gen la ra (b : mat) ta tb : wf (Kron la ra) -> wf b -> mcolst (Kron la ra) ta = mrowst b tb ->
  bcok (mbatch (Kron la ra)) (mbatch b) -> good PKronGen (Kron la ra) b ta tb.
Proof.
move=> wa wb e o; rewrite /good /mm_body assert_composableE // bind_ret.
apply: (hoare_bind (tr_ok ta wa)) => a' [ha _ tga]; apply: (hoare_bind (tr_ok tb wb)) => b' [hb _ _].
have {tga} [l [r ?]] : exists l r, a' = Kron l r by apply: tag9; rewrite tga; case: (ta).
subst a'; case: (ha) => wk [rE cE] bE eE; case: (wk) => wl wr ob; case: (hb) => wb' [rb cb] bb eb.
rewrite !shape_matrixE // !bind_ret.
set u := bct (mbatch (Kron la ra)) (mbatch b); have U1 := bct_ubl o; have U2 := bct_ubr o; rewrite -/u in U1 U2.
move: (U1); rewrite -bE Kronb // => /andP[ul ur]; rewrite -bb in U2.
have nb : mrows b' = (mcols l * mcols r)%N by rewrite rb -e -cE.
have q1 : bcok (mbatch l) (mbatch b') by okt u. have q2 : bcok (mbatch r) (mbatch b') by okt u.
have r0 := mrows_gt0 wr; have c0 := mcols_gt0 wr.
have fin (y : tensor) B g : tmat y (mrows l * mrows r) (mcols b') B g -> B = u ->
  (forall be i j, okb u be -> (i < mrows l * mrows r)%N -> (j < mcols b')%N ->
    g be i j = sumf (mcols l) (fun p => sumf (mcols r) (fun q =>
       ent l be (i %/ mrows r)%N p * ent r be (i %% mrows r)%N q * ent b' be (p * mcols r + q)%N j))) ->
  hoare (ret (convert_num y)) (post (Kron la ra) b ta tb).
  move=> hy hB hg; have -> : convert_num y = Dense y.
    by case: (hy) => s _ _; rewrite /convert_num s uprank2 // /trank s.
  apply: hoare_ret; split=> //; rewrite /resm -/u; move: (res_dense hy) => hh.
  have -> : mrowst (Kron la ra) ta = (mrows l * mrows r)%N by rewrite -rE.
  rewrite -cb; apply: (res_cast hh hB) => be i j hbe hi hj; rewrite hg //.
  have [o1 o2] : okb (mbatch (Kron la ra)) be /\ okb (mbatch b) be by move: hbe; rewrite okb_bct // => /andP[].
  rewrite -cE /=; rewrite sumf_prod; apply: eq_sumf => p hp; apply: eq_sumf => q hq.
  have hpq : (p * mcols r + q < mcols l * mcols r)%N by apply: mixlt.
  rewrite -eE -?eb -?rE -?rb -?cb ?nb -?cE //=; congr (_ * _ * _).
    by rewrite divnMDl // [(q %/ _)%N]divn_small ?addn0.
  by rewrite modnMDl [(q %% _)%N]modn_small.
case: ifP => _.
- apply: (hoare_bind (kron_a_id_ok (n := mcols r) wl wb' nb q1)) => x hx.
  have [wx [rx cx] bx ex] := res_num hx.
  have ux : bto (mbatch (Nm x)) u by rewrite bx bto_bct // ul.
  have q3 : bcok (mbatch r) (mbatch (Nm x)) by okt u.
  have rx' : mrows (Nm x) = (mrows l * mcols r)%N by [].
  apply: (hoare_bind (kron_id_a_ok (n := mrows l) wr wx rx' q3)) => y; rewrite cx => hy.
  apply: (fin _ _ _ hy).
    apply: bto_ext => v; rewrite bx [RHS]bto_bct // -bE Kronb // -bb bto_bct -?bx // bx bto_bct //.
    by do 3!case: (bto _ v).
  move=> be i j hbe hi hj; rewrite sumf_exch; apply: eq_sumf => q hq.
  have hi' : (i %/ mrows r < mrows l)%N by rewrite ltn_divLR.
  have hbx : okb (bct (mbatch l) (mbatch b')) be by apply: okb_mono hbe; rewrite -bx.
  have hiq : (i %/ mrows r * mcols r + q < mrows l * mcols r)%N by apply: mixlt.
  rewrite ex // sumf_mull; apply: eq_sumf => p hp.
  by rewrite divnMDl // [(q %/ _)%N]divn_small // addn0 modnMDl [(q %% _)%N]modn_small // mulrCA mulrA.
- apply: (hoare_bind (kron_id_a_ok (n := mcols l) wr wb' nb q2)) => x hx.
  have [wx [rx cx] bx ex] := res_num hx.
  have ux : bto (mbatch (Nm x)) u by rewrite bx bto_bct // ur.
  have q3 : bcok (mbatch l) (mbatch (Nm x)) by okt u.
  have rx' : mrows (Nm x) = (mcols l * mrows r)%N by [].
  apply: (hoare_bind (kron_a_id_ok (n := mrows r) wl wx rx' q3)) => y; rewrite cx => hy.
  apply: (fin _ _ _ hy).
    apply: bto_ext => v; rewrite bx [RHS]bto_bct // -bE Kronb // -bb bto_bct -?bx // bx bto_bct //.
    by do 3!case: (bto _ v).
  move=> be i j hbe hi hj; apply: eq_sumf => p hp.
  have hbx : okb (bct (mbatch r) (mbatch b')) be by apply: okb_mono hbe; rewrite -bx.
  have hm : (i %% mrows r < mrows r)%N by rewrite ltn_mod.
  have hiq : (p * mrows r + i %% mrows r < mcols l * mrows r)%N by apply: mixlt.
  rewrite ex // sumf_mull; apply: eq_sumf => q hq.
  by rewrite divnMDl // [((i %% _) %/ _)%N]divn_small // addn0 modnMDl modn_mod mulrA.
Qed.
Lemma p_gen_kron a lb rb ta tb : wf a -> wf (Kron lb rb) -> mcolst a ta = mrowst (Kron lb rb) tb ->
  bcok (mbatch a) (mbatch (Kron lb rb)) -> mm_side (Kron lb rb) a (~~ tb) (~~ ta) -> good PGenKron a (Kron lb rb) ta tb.
Proof.
move=> wa wb e o sd; have e' : mcolst (Kron lb rb) (~~ tb) = mrowst a (~~ ta) by move: e; case: (ta); case: (tb).
apply: (hoare_bind (ok_mm ok wb wa e' _ sd)); first by rewrite bcokC.
move=> x [[wx [rx cx] bx ex] kx]; apply: (hoare_conseq (transpose_ok wx)) => z [hz kz _].
split; last by rewrite kz orbC.
rewrite rx cx bx in hz; have r1 : mrowst (Kron lb rb) (~~ tb) = mcolst (Kron lb rb) tb by case: (tb).
have r2 : mcolst a (~~ ta) = mrowst a ta by case: (ta).
rewrite r1 r2 in hz rx cx ex.
apply: (res_cast hz); first by rewrite bctC // bcokC.
move=> be i j hb hi hj; rewrite (bctC o) in hb; rewrite ex // e'; rewrite (_ : mrowst a (~~ ta) = mcolst a ta); last by case: (ta).
by apply: eq_sumf => p _; rewrite mulrC; case: (ta); case: (tb).
Qed.
Lemma p_kron_diag la ra (y : tensor) ta tb : wf (Kron la ra) -> wf (Diag y) -> mcolst (Kron la ra) ta = mrowst (Diag y) tb ->
  bcok (mbatch (Kron la ra)) (mbatch (Diag y)) -> good PKronDiag (Kron la ra) (Diag y) ta tb.
Proof.
move=> wa wb e o; apply: hoare_warn_if; apply: (hoare_bind (ok_dense ok wa)) => x hx.
by apply: (hoare_conseq (mm_numL ok hx wb e o)) => c [h k].
Qed.
Lemma p_diag_kron (x : tensor) lb rb ta tb : wf (Diag x) -> wf (Kron lb rb) -> mcolst (Diag x) ta = mrowst (Kron lb rb) tb ->
  bcok (mbatch (Diag x)) (mbatch (Kron lb rb)) -> good PDiagKron (Diag x) (Kron lb rb) ta tb.
Proof.
move=> wa wb e o; apply: hoare_warn_if; apply: (hoare_bind (ok_dense ok wb)) => y hy.
by apply: (hoare_conseq (mm_numR ok wa hy e o)) => c [h k].
Qed.

Theorem mm_mat_ok a (b : mat) ta tb : wf a -> wf b -> tag a != 0%N -> tag b != 0%N -> mcolst a ta = mrowst b tb ->
  bcok (mbatch a) (mbatch b) -> mm_side a b ta tb ->
  hoare (do i <- lookup mm_table (ty_of_matrix a) (ty_of_matrix b); mm_body self i a b ta tb) (post a b ta tb).
Proof.
move=> wa wb ta' tb' e o sd; rewrite mm_selE.
have kl (l r m : mat) : wf (LR l r m) -> kfree (LR l r m) by move=> w; have [_ [x y z] _ _] := lr_facts w; rewrite /= x y z.
have kw (d : tensor) (l r m : mat) : wf (Wb d l r m) -> kfree (Wb d l r m) by case=> -[_ _ _ k _] _.
case: a wa ta' e o sd => [x|d br r c|x|x|x r c|x|x|la ra ma|d la ra ma|la ra] wa ta'; [by []|..];
  (case: b wb tb' => [y|d' b' r' c'|y|y|y r' c'|y|y|lb rb mb|d' lb rb mb|lb rb] wb tb' e o sd; [by []|..]); look;
  lazymatch goal with |- hoare (mm_body _ ?i _ _ _ _) _ => lazymatch i with
    | PZeroR => eapply p_zeroR; eassumption | PZeroL => eapply p_zeroL; eassumption
    | PDense => eapply p_dense; eassumption | PDiag => eapply p_diag; eassumption
    | PDiagGen => (eapply p_diag_gen; first [eassumption|exact: isT|apply: kl; assumption|apply: kw; assumption])
    | PGenDiag => (eapply p_gen_diag; first [eassumption|exact: isT|apply: kl; assumption|apply: kw; assumption])
    | PConst => eapply p_const; eassumption | PConstGen => eapply p_const_gen; eassumption | PGenConst => eapply p_gen_const; eassumption
    | PLT => eapply p_lt; eassumption | PUT => eapply p_ut; eassumption | PLTGen => eapply p_lt_gen; eassumption | PGenLT => eapply p_gen_lt; eassumption
    | PLTDiag => eapply p_lt_diag; eassumption | PUTDiag => eapply p_ut_diag; eassumption | PDiagLT => eapply p_diag_lt; eassumption | PDiagUT => eapply p_diag_ut; eassumption
    | PLR => eapply p_lr; eassumption | PLRGen => eapply p_lr_gen; eassumption | PGenLR => eapply p_gen_lr; eassumption
    | PLRConst => eapply p_lr_const; eassumption | PConstLR => eapply p_const_lr; eassumption
    | PWbGen => eapply p_wb_gen; eassumption | PGenWb => eapply p_gen_wb; eassumption
    | PKron => eapply p_kron; eassumption | PKronGen => eapply p_kron_gen; eassumption
    | PGenKron => (eapply p_gen_kron; first [eassumption|exact: isT])
    | PKronDiag => eapply p_kron_diag; eassumption | PDiagKron => eapply p_diag_kron; eassumption
  end end.
Qed.
End MmLrOk.
