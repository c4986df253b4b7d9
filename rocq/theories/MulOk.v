(** * Correctness of multiply (proof support) *)
From mathcomp Require Import all_ssreflect all_algebra.
From Verif Require Import Outcome Monad Shape Tensor Mat Dispatch Ops Spec LookThy ShapeThy TensorThy TensorThy2 TensorThy3 MatThy OpsOk DenseOk AddOk MulLrOk.
Set Implicit Arguments. Unset Strict Implicit. Unset Printing Implicit Defensive.
Import GRing.Theory.
Local Open Scope ring_scope.

Section MulOk.
Variable F : rcfType.
Notation tensor := (tensor F).
Notation mat := (mat F).
Implicit Types (a l m : mat) (t : tensor) (u be : seq nat).
Variable self : ops F.
Hypothesis ok : ops_ok self.

Let post a b c := res2 *%R a b c /\ (kfree a -> kfree b -> kfree c).
Let good i a b := hoare (mul_body self i a b) (post a b).

Lemma mulrC' (x y : F) : x * y = y * x. Proof. exact: mulrC. Qed.
Lemma wlt (x : tensor) : wf (LT x) -> tmat x (mrows (LT x)) (mcols (LT x)) (mbatch (LT x)) (ent (LT x)).
Proof. by move=> w; apply: (tmat_num w); right; right; left. Qed.
Lemma wut (x : tensor) : wf (UT x) -> tmat x (mrows (UT x)) (mcols (UT x)) (mbatch (UT x)) (ent (UT x)).
Proof. by move=> w; apply: (tmat_num w); right; right; right. Qed.
Lemma wde (x : tensor) : wf (Dense x) -> tmat x (mrows (Dense x)) (mcols (Dense x)) (mbatch (Dense x)) (ent (Dense x)).
Proof. by move=> w; apply: (tmat_num w); right; left. Qed.

Lemma ltz (x : tensor) be i j : wf (LT x) -> okb (mbatch (LT x)) be -> (i < mrows (LT x))%N -> (j < mcols (LT x))%N ->
  (i < j)%N -> ent (LT x) be i j = 0.
Proof. by case=> _ h; apply: h. Qed.
Lemma utz (x : tensor) be i j : wf (UT x) -> okb (mbatch (UT x)) be -> (i < mrows (UT x))%N -> (j < mcols (UT x))%N ->
  (j < i)%N -> ent (UT x) be i j = 0.
Proof. by case=> _ h; apply: h. Qed.
Lemma m_zeroR a d b r c : wf a -> wf (@Zero F d b r c) -> shapes_ok a (Zero d b r c) -> good MZeroR a (Zero d b r c).
Proof.
move=> wa wb so; rewrite /good /mul_body assert_shapesE // shape_broadcastE // !bind_ret.
apply: hoare_conseq (broadcast_to_ok ok wb (out_posn wa wb) (out_btor so)) _ => z [hz kz].
split; last by move=> k _; apply: kz.
by apply: res_ext hz _ => be i j _ _ _; rewrite /entb /= mulr0.
Qed.
Lemma m_zeroL (a : mat) d b r c : wf (@Zero F d b r c) -> wf a -> shapes_ok (Zero d b r c) a -> good MZeroL (Zero d b r c) a.
Proof.
move=> wb wa so; rewrite /good /mul_body assert_shapesE // shape_broadcastE // !bind_ret.
apply: hoare_conseq (broadcast_to_ok ok wb (out_posn wb wa) (out_bto so)) _ => z [hz kz].
split; last by move=> _ _; apply: kz.
apply: res_ext hz _ => be i j _ _ _; by rewrite /entb /= mul0r.
Qed.
Lemma m_gen a (b : mat) : wf a -> wf b -> shapes_ok a b -> good MGen a b.
Proof.
move=> wa wb so; apply: hoare_warn_if; apply: (hoare_bind (ok_dense ok wa)) => x hx.
apply: (hoare_bind (ok_dense ok wb)) => y hy; apply: (hoare_bind (dense2_ok _ so hx hy)) => z hz.
by rewrite (mk_dense_tmat hz); apply: hoare_ret; split=> //; apply: res_dense.
Qed.
Lemma m_dense (x y : tensor) : wf (Dense x) -> wf (Dense y) -> shapes_ok (Dense x) (Dense y) -> good MDense (Dense x) (Dense y).
Proof.
move=> wa wb so; apply: (hoare_bind (dense2_ok _ so (wde wa) (wde wb))) => z hz.
by rewrite (mk_dense_tmat hz); apply: hoare_ret; split=> //; apply: res_dense.
Qed.
Lemma m_diag (x y : tensor) : wf (Diag x) -> wf (Diag y) -> shapes_ok (Diag x) (Diag y) -> samesh (Diag x) (Diag y) -> good MDiag (Diag x) (Diag y).
Proof.
move=> wa wb /and3P[_ _ o] /andP[/eqP /= e _]; rewrite /good /=.
have hx := tvec_wfv wa; have hy := tvec_wfv wb; rewrite -e in hy.
apply: (hoare_bind (tvec_map2e _ hx hy o)) => z hz; rewrite (mk_diag_tvec hz); apply: hoare_ret; split=> //.
rewrite /post /res2 /= -e !bcnn; apply: res_ext (res_diag hz) _ => be i j _ hi hj.
by rewrite /entb /= -e !(clid hi) (clid hj); case: eqP => // _; rewrite mulr0.
Qed.
Lemma m_rev a (b : mat) : wf a -> wf b -> shapes_ok a b -> mul_side b a -> good MRev a b.
Proof.
move=> wa wb so side; rewrite /good; have so' : shapes_ok b a by rewrite shapes_okC.
apply: hoare_conseq (ok_mul ok (or_introl wb) (or_introl wa) (or_introl wb) so' side) _ => z [hz kz].
by split; [apply: res2C mulrC' so hz|move=> h1 h2; apply: kz].
Qed.
Lemma bcn_ne1 n k : n = bcn n k -> bcnok n k -> k <> 1%N -> k = n.
Proof. by rewrite /bcn /bcnok; case: (n =P 1%N) => //= _ _ /orP[/eqP|/eqP]. Qed.
Lemma m_diag_gen (x : tensor) (b : mat) : wf (Diag x) -> wf b -> shapes_ok (Diag x) b -> full (Diag x) b -> dgok b ->
  good MDiagGen (Diag x) b.
Proof.
move=> wa wb so fu dg; rewrite /good /mul_body assert_shapesE // shape_matrixE // !bind_ret.
case/and3P: (so) => o1 o2 o3; have [n1 n2] := wf_bcnok_full fu; have hx := tvec_wfv wa.
set n := mrows (Diag x) in n1 *; have nE : mcols (Diag x) = n by []. rewrite nE in n2 o2.
rewrite -/n in o1; have n0 : (0 < n)%N := mrows_gt0 wa.
set y := (if _ then _ else _).
have key : hoare y (fun y => exists k g, [/\ tvec y k (mbatch b) g, bcnok n k, bcn n k = n &
    forall be i, okb (mbatch b) be -> (i < n)%N -> g be (cl k i) = entb b be i i]).
  rewrite /y; case: (mrows b =P 1%N) => [r1|r1].
    apply: (hoare_bind (ok_dense ok wb)) => t; rewrite r1 => ht.
    apply: hoare_conseq (tmat_squeeze2 ht) _ => v hv; exists (mcols b), (fun be j => ent b be 0%N j).
    by split=> // be i hbe hi; rewrite /entb r1.
  case: (mcols b =P 1%N) => [c1|c1].
    apply: (hoare_bind (ok_dense ok wb)) => t; rewrite c1 => ht.
    apply: hoare_conseq (tmat_squeeze1 ht) _ => v hv; exists (mrows b), (fun be j => ent b be j 0%N).
    by split=> // be i hbe hi; rewrite /entb c1.
  have e1 : mrows b = n.
    exact: bcn_ne1 n1 o1 r1.
  have e2 : mcols b = n.
    exact: bcn_ne1 n2 o2 c1.
  apply: (hoare_conseq (ok_diag ok wb dg)) => v; rewrite e1 e2 minnn => hv.
  exists n, (fun be i => ent b be i i); split=> //; rewrite ?bcnokn ?bcnn // => be i hbe hi.
  by rewrite /entb e1 e2 !clid.
apply: (hoare_bind key) => v [k [g [hv ok1 ok2 e]]].
apply: (hoare_bind (tvec_map2 _ hx hv ok1 o3)) => z; rewrite ok2 => hz.
rewrite (mk_diag_tvec hz); apply: hoare_ret; split=> //.
rewrite /post /res2 -/n nE -n1 -n2; apply: res_ext (res_diag hz) _ => be i j; rewrite okb_bct // => /andP[h1 h2] hi hj.
rewrite /entb -/n nE !(clid hi) !(clid hj) /=; case: eqP => [<-|]; last by rewrite mul0r.
by rewrite e.
Qed.
Lemma m_const_const (x : tensor) r c (y : tensor) r' c' : wf (Const x r c) -> wf (Const y r' c') -> shapes_ok (Const x r c) (Const y r' c') ->
  good MConst (Const x r c) (Const y r' c').
Proof.
move=> wa wb so; rewrite /good /mul_body assert_shapesE // bind_ret; case/and3P: (so) => h1 h2 h3.
have [_ _ px] := posn3 wa; have [_ _ py] := posn3 wb.
apply: (hoare_bind (tsca_map2 _ (tsca_posn px) (tsca_posn py) h3)) => z hz; rewrite shape_broadcastE // bind_ret.
by apply: hoare_conseq (mk_const_ok hz (out_posn wa wb) (bto_refl _)) _ => w [hw kw _].
Qed.
Lemma m_const_gen (x : tensor) r c (b : mat) : wf (Const x r c) -> wf b -> shapes_ok (Const x r c) b -> good MConstGen (Const x r c) b.
Proof.
move=> wa wb so; rewrite /good /mul_body assert_shapesE // bind_ret; apply: hoare_warn_if.
apply: (hoare_bind (ok_dense ok wb)) => y hy.
by apply: hoare_conseq (const_gen_ok _ wa wb so hy) _ => z [hz kz]; split.
Qed.
Lemma m_const_diag (x : tensor) r c (y : tensor) : wf (Const x r c) -> wf (Diag y) -> shapes_ok (Const x r c) (Diag y) -> full (Diag y) (Const x r c) ->
  good MConstDiag (Const x r c) (Diag y).
Proof.
move=> wa wb so fu; rewrite /good /mul_body assert_shapesE // !bind_ret.
have [n1 n2] := full_bcn fu so; have [_ _ px] := posn3 wa; case/and3P: (so) => _ _ o.
apply: (hoare_bind (tvec_map2_sl _ (tsca_posn px) (tvec_wfv wb) o)) => z hz.
rewrite (mk_diag_tvec hz); apply: hoare_ret; split=> //.
rewrite /post /res2 n1 n2; apply: res_ext (res_diag hz) _ => be i j _ hi hj.
by rewrite /entb !(clid hi) !(clid hj) /=; case: eqP => // _; rewrite mulr0.
Qed.
Lemma m_lt_lt (x y : tensor) : wf (LT x) -> wf (LT y) -> shapes_ok (LT x) (LT y) -> good MLT (LT x) (LT y).
Proof.
move=> wa wb so; apply: (hoare_bind (dense2_ok _ so (wlt wa) (wlt wb))) => z hz.
rewrite (mk_lt_tmat hz); apply: hoare_ret; split=> //; apply: res_lt hz _ => be i j.
case/and3P: so => o1 o2 o3; rewrite okb_bct // => /andP[h1 h2] hi hj hij; rewrite /entb.
have r1 := cl_bcn_lt o1 (mrows_gt0 wa) hi; have r2 := cl_bcn_ltr o1 (mrows_gt0 wb) hi.
have k1 := cl_bcn_lt o2 (mcols_gt0 wa) hj; have k2 := cl_bcn_ltr o2 (mcols_gt0 wb) hj.
have cle d k : (cl d k <= k)%N by rewrite /cl; case: ifP.
have [c1|/eqP c1] := mcols (LT x) =P 1%N.
  have c2 : cl (mcols (LT y)) j = j by rewrite /cl; case: eqP => // e; rewrite c1 e /bcn /= ltnNge in hj; case: (j) hj hij.
  rewrite c2 in k2 *; rewrite [X in _ * X](ltz wb) ?mulr0 //; exact: leq_ltn_trans (cle _ _) hij.
have c2 : cl (mcols (LT x)) j = j by rewrite /cl (negbTE c1).
rewrite c2 in k1 *; rewrite [X in X * _](ltz wa) ?mul0r //; exact: leq_ltn_trans (cle _ _) hij.
Qed.
Lemma m_ut_ut (x y : tensor) : wf (UT x) -> wf (UT y) -> shapes_ok (UT x) (UT y) -> good MUT (UT x) (UT y).
Proof.
move=> wa wb so; apply: (hoare_bind (dense2_ok _ so (wut wa) (wut wb))) => z hz.
rewrite (mk_ut_tmat hz); apply: hoare_ret; split=> //; apply: res_ut hz _ => be i j.
case/and3P: so => o1 o2 o3; rewrite okb_bct // => /andP[h1 h2] hi hj hij; rewrite /entb.
have r1 := cl_bcn_lt o1 (mrows_gt0 wa) hi; have r2 := cl_bcn_ltr o1 (mrows_gt0 wb) hi.
have k1 := cl_bcn_lt o2 (mcols_gt0 wa) hj; have k2 := cl_bcn_ltr o2 (mcols_gt0 wb) hj.
have cle d k : (cl d k <= k)%N by rewrite /cl; case: ifP.
have [c1|/eqP c1] := mrows (UT x) =P 1%N.
  have c2 : cl (mrows (UT y)) i = i by rewrite /cl; case: eqP => // e; rewrite c1 e /bcn /= ltnNge in hi; case: (i) hi hij.
  rewrite c2 in r2 *; rewrite [X in _ * X](utz wb) ?mulr0 //; exact: leq_ltn_trans (cle _ _) hij.
have c2 : cl (mrows (UT x)) i = i by rewrite /cl (negbTE c1).
rewrite c2 in r1 *; rewrite [X in X * _](utz wa) ?mul0r //; exact: leq_ltn_trans (cle _ _) hij.
Qed.
Lemma lt_fin (x : tensor) (b : mat) z : wf (LT x) -> full (LT x) b -> shapes_ok (LT x) b ->
  tmat z (bcn (mrows (LT x)) (mrows b)) (bcn (mcols (LT x)) (mcols b)) (bct (mbatch (LT x)) (mbatch b))
    (fun be i j => entb (LT x) be i j * entb b be i j) ->
  hoare (mk_lt z) (post (LT x) b).
Proof.
move=> wa fu so hz; rewrite (mk_lt_tmat hz); apply: hoare_ret; split=> //; apply: res_lt hz _ => be i j.
have [<- <-] := wf_bcnok_full fu; case/and3P: so => o1 o2 o3.
rewrite okb_bct // => /andP[h1 h2] hi hj hij; rewrite {1}/entb (clid hi) (clid hj).
by rewrite (ltz wa) ?mul0r.
Qed.
Lemma ut_fin (x : tensor) (b : mat) z : wf (UT x) -> full (UT x) b -> shapes_ok (UT x) b ->
  tmat z (bcn (mrows (UT x)) (mrows b)) (bcn (mcols (UT x)) (mcols b)) (bct (mbatch (UT x)) (mbatch b))
    (fun be i j => entb (UT x) be i j * entb b be i j) ->
  hoare (mk_ut z) (post (UT x) b).
Proof.
move=> wa fu so hz; rewrite (mk_ut_tmat hz); apply: hoare_ret; split=> //; apply: res_ut hz _ => be i j.
have [<- <-] := wf_bcnok_full fu; case/and3P: so => o1 o2 o3.
rewrite okb_bct // => /andP[h1 h2] hi hj hij; rewrite {1}/entb (clid hi) (clid hj).
by rewrite (utz wa) ?mul0r.
Qed.
Lemma m_lt_gen (x : tensor) (b : mat) : wf (LT x) -> wf b -> shapes_ok (LT x) b -> full (LT x) b -> good MLTGen (LT x) b.
Proof.
move=> wa wb so fu; apply: (hoare_bind (ok_dense ok wb)) => y hy.
by apply: (hoare_bind (dense2_ok _ so (wlt wa) hy)) => z hz; apply: lt_fin.
Qed.
Lemma m_ut_gen (x : tensor) (b : mat) : wf (UT x) -> wf b -> shapes_ok (UT x) b -> full (UT x) b -> good MUTGen (UT x) b.
Proof.
move=> wa wb so fu; apply: (hoare_bind (ok_dense ok wb)) => y hy.
by apply: (hoare_bind (dense2_ok _ so (wut wa) hy)) => z hz; apply: ut_fin.
Qed.
Lemma tri_const (op : F -> F -> F) a (x y : tensor) r c : tmat x (mrows a) (mcols a) (mbatch a) (ent a) -> wf (Const y r c) ->
  shapes_ok a (Const y r c) -> full a (Const y r c) ->
  hoare (t_map2 op x (t_expand11_is y)) (fun z =>
   tmat z (bcn (mrows a) r) (bcn (mcols a) c) (bct (mbatch a) (sh y))
    (fun be i j => op (entb a be i j) (entb (Const y r c) be i j))).
Proof.
move=> hx wb so fu; have [n1 n2] := wf_bcnok_full fu; have [_ _ py] := posn3 wb; case/and3P: (so) => _ _ o.
apply: hoare_conseq (tmat_map2_sr _ (tsca_posn py) hx o) _ => z; rewrite /= in n1 n2; rewrite -n1 -n2 => hz.
by apply: tmat_ext hz _ => be i j _ hi hj; rewrite /entb !(clid hi) !(clid hj).
Qed.
Lemma m_lt_const (x y : tensor) r c : wf (LT x) -> wf (Const y r c) -> shapes_ok (LT x) (Const y r c) -> full (LT x) (Const y r c) ->
  good MLTConst (LT x) (Const y r c).
Proof.
move=> wa wb so fu; apply: (hoare_bind (tri_const _ (wlt wa) wb so fu)) => z hz; exact: lt_fin.
Qed.
Lemma m_ut_const (x y : tensor) r c : wf (UT x) -> wf (Const y r c) -> shapes_ok (UT x) (Const y r c) -> full (UT x) (Const y r c) ->
  good MUTConst (UT x) (Const y r c).
Proof.
move=> wa wb so fu; apply: (hoare_bind (tri_const _ (wut wa) wb so fu)) => z hz; exact: ut_fin.
Qed.
Lemma m_ut_lt (x y : tensor) : wf (UT x) -> wf (LT y) -> shapes_ok (UT x) (LT y) -> samesh (UT x) (LT y) ->
  mrows (UT x) = mcols (UT x) -> good MUTLT (UT x) (LT y).
Proof.
move=> wa wb so ss sq; have [n1 n2] := samesh_bcn ss; case/andP: ss => /eqP e1 /eqP e2; case/and3P: so => _ _ o.
rewrite /good /mul_body; apply: (hoare_bind (ok_diag ok wa isT)) => v hv; apply: (hoare_bind (ok_diag ok wb isT)) => w hw.
rewrite -e1 -e2 in hw; rewrite -sq minnn in hv hw.
apply: (hoare_bind (tvec_map2e _ hv hw o)) => z hz; rewrite (mk_diag_tvec hz); apply: hoare_ret; split=> //.
rewrite /post /res2 n1 n2 -sq; apply: res_ext (res_diag hz) _ => be i j; rewrite okb_bct // => /andP[h1 h2] hi hj.
rewrite /entb -e1 -e2 -sq !(clid hi) !(clid hj); case: ltngtP => [hij|hij|->] //.
  by rewrite [X in _ * X](ltz wb) ?mulr0 -?e1 -?e2 -?sq.
by rewrite [X in X * _](utz wa) ?mul0r -?sq.
Qed.
Lemma m_lr la ra ma lb rb mb : wf (LR la ra ma) -> wf (LR lb rb mb) ->
  shapes_ok (LR la ra ma) (LR lb rb mb) -> good MLR (LR la ra ma) (LR lb rb mb).
Proof. by move=> wa wb so; apply: hoare_conseq (mul_lr_lr_ok ok wa wb so) _ => c [h k]; split. Qed.

(** [B.expand_dims(t, axis=-1, times=2, ignore_scalar=True)] as an operand. *)
Lemma exp11_facts t : posn (sh t) ->
  [/\ wfo (Nm (t_expand11_is t)), mrows (Nm (t_expand11_is t)) = 1%N /\ mcols (Nm (t_expand11_is t)) = 1%N,
      mbatch (Nm (t_expand11_is t)) = sh t &
      forall be i j, okb (sh t) be -> (i < 1)%N -> (j < 1)%N -> ent (Nm (t_expand11_is t)) be i j = sx t be].
Proof.
move=> p; have h := tsca_posn p; case: (sh t =P [::]) => [E|/eqP E].
  have X : t_expand11_is t = t by rewrite /t_expand11_is E.
  rewrite X; have [h1 h2 h3 h4] := scal_facts E; split=> //; first by right; rewrite /= E.
    by rewrite h3 E.
  by move=> be i j _ _ _; rewrite h4 /sx /bat E.
have ht := tmat_exp11 h E; have [w [h1 h2] h3 h4] := res_num ht; split=> //; by left.
Qed.
Lemma mul_exp11 t (b : mat) : posn (sh t) -> wf b -> bcok (sh t) (mbatch b) ->
  hoare (o_mul self (Nm (t_expand11_is t)) b) (fun c =>
    is_res c (mrows b) (mcols b) (bct (sh t) (mbatch b)) (fun be i j => sx t be * ent b be i j) /\ (kfree b -> kfree c)).
Proof.
move=> p wb o; have [w [h1 h2] h3 h4] := exp11_facts p.
have so : shapes_ok (Nm (t_expand11_is t)) b by rewrite /shapes_ok h1 h2 h3 o.
have fu : full b (Nm (t_expand11_is t)) by rewrite /full h1 h2 !bcn1 !eqxx.
apply: hoare_conseq (ok_mul ok w (or_introl wb) (or_intror wb) so (full_mul_num fu)) _ => c [hc kc].
split; last by move=> kb; apply: kc.
move: hc; rewrite /res2 h1 h2 h3 !bc1n => hc; apply: res_ext hc _ => be i j; rewrite okb_bct // => /andP[o1 o2] hi hj.
by rewrite /entb h1 h2 h4 // (clid hi) (clid hj).
Qed.
Lemma m_const_lr (x : tensor) r c lb rb mb : wf (Const x r c) -> wf (LR lb rb mb) -> shapes_ok (Const x r c) (LR lb rb mb) ->
  full (LR lb rb mb) (Const x r c) -> good MConstLR (Const x r c) (LR lb rb mb).
Proof.
move=> wa wb so fu; rewrite /good /mul_body assert_shapesE // bind_ret.
have [n1 n2] := full_bcn fu so; have [_ _ px] := posn3 wa; case/and3P: (so) => _ _ o.
have [[wl wr wm] [kl kr km] [e3 e4] [b4 b5 b6]] := lr_facts wb.
set u := bct (mbatch (Const x r c)) (mbatch (LR lb rb mb)).
have uA : bto (sh x) u := bct_ubl o. have uB : bto (mbatch (LR lb rb mb)) u := bct_ubr o.
move: (b4) (b5) (b6) => /bto_trans/(_ uB) c4 /bto_trans/(_ uB) c5 /bto_trans/(_ uB) c6.
have q : bcok (sh x) (mbatch mb) by okt u.
apply: (hoare_bind (mul_exp11 px wm q)) => m' [hm km']; rewrite -e3 -e4 in hm.
have uM : bto (bct (sh x) (mbatch mb)) u by rewrite bto_bct // uA.
apply: hoare_conseq (mk_lowrank_res (res_wf wl) (res_wf wr) hm kl kr (km' km) c4 c5 uM) _ => z [hz [kz _]].
split=> //; rewrite /post /res2 n1 n2; apply: (res_cast hz).
  apply: bto_ext => v; rewrite [RHS]bto_bct // LRb // [LHS]bto_bct; last by okt u.
  rewrite [bto (bct _ _) v]bto_bct; last by okt u.
  by rewrite (bto_bct _ q) /=; do 4!case: (bto _ v).
move=> be i j _ hi hj; rewrite /entb (clid hi) (clid hj) /= /lrf.
rewrite sumf_mull; apply: eq_sumf => p _; rewrite sumf_mull; apply: eq_sumf => q' _.
by rewrite mulrCA -!mulrA.
Qed.
Lemma res_kron l (r : mat) rl cl' bl fl rr cr br fr : is_res l rl cl' bl fl -> is_res r rr cr br fr -> bcok bl br ->
  is_res (Kron l r) (rl * rr) (cl' * cr) (bct bl br)
    (fun be i j => fl be (i %/ rr)%N (j %/ cr)%N * fr be (i %% rr)%N (j %% cr)%N).
Proof.
case=> w1 [h1 h2] h3 h4 [w2 [g1 g2] g3 g4] o; split=> //=.
- by split=> //; rewrite h3 g3.
- by rewrite h1 h2 g1 g2.
- by rewrite h3 g3.
move=> be i j; rewrite okb_bct // => /andP[o1 o2] hi hj; rewrite g1 g2.
have r0 : (0 < rr)%N by rewrite -g1 mrows_gt0.
have c0 : (0 < cr)%N by rewrite -g2 mcols_gt0.
by rewrite h4 ?g4 ?ltn_mod ?ltn_divLR.
Qed.
Lemma m_const_kron (x : tensor) r c lb rb : wf (Const x r c) -> wf (Kron lb rb) -> shapes_ok (Const x r c) (Kron lb rb) ->
  full (Kron lb rb) (Const x r c) -> good MConstKron (Const x r c) (Kron lb rb).
Proof.
move=> wa wb so fu; rewrite /good /mul_body assert_shapesE // bind_ret.
have [n1 n2] := full_bcn fu so; have [_ _ px] := posn3 wa; case/and3P: (so) => _ _ o.
case: (wb) => wl wr o2; set u := bct (mbatch (Const x r c)) (mbatch (Kron lb rb)).
have uA : bto (sh x) u := bct_ubl o. have uB : bto (mbatch (Kron lb rb)) u := bct_ubr o.
move: (uB); rewrite Kronb // => /andP[u1 u2].
have q : bcok (sh x) (mbatch lb) by okt u.
apply: (hoare_bind (mul_exp11 px wl q)) => l' [hl _]; apply: hoare_ret; split=> //.
have uM : bto (bct (sh x) (mbatch lb)) u by rewrite bto_bct // uA.
rewrite /post /res2 n1 n2; apply: (res_cast (res_kron hl (res_wf wr) _)); first by okt u.
  apply: bto_ext => v; rewrite [RHS]bto_bct // Kronb // [LHS]bto_bct; last by okt u.
  by rewrite (bto_bct _ q) andbA.
by move=> be i j _ hi hj; rewrite /entb (clid hi) (clid hj) /= mulrA.
Qed.
Lemma m_wb_gen d l (r : mat) m (b : mat) : wf (Wb d l r m) -> wf b -> shapes_ok (Wb d l r m) b -> full (Wb d l r m) b ->
  mul_side (Diag d) b -> mul_side (LR l r m) b -> good MWbGen (Wb d l r m) b.
Proof.
move=> wa wb so fu s1 s2; case/and3P: (so) => c1 c2 o.
have [n1 n2] := wf_bcnok_full fu; have [d1 l1 o1 k1] := wb_res wa.
set u := bct (mbatch (Wb d l r m)) (mbatch b).
have := bct_ubl o; have := bct_ubr o; rewrite -/u wb_ub // => u2 /andP[u3 u4].
have q1 : bcok (behead (sh d)) (mbatch b) by okt u.
have q2 : bcok (mbatch (LR l r m)) (mbatch b) by okt u.
rewrite /good /mul_body.
apply: (hoare_bind (mul_res ok d1 (res_wf wb) c1 c2 q1 s1)) => x [hx kx].
apply: (hoare_bind (mul_res ok l1 (res_wf wb) c1 c2 q2 s2)) => y [hy ky].
rewrite -[bcn _ _]n1 -[bcn _ _]n2 in hx hy.
apply: hoare_conseq (add_rese ok hx hy _) _; first by okt u.
move=> z [hz kz]; split; last by move=> _ kb; apply: kz; [apply: kx|apply: ky].
rewrite /post /res2 -?n1 -?n2; apply: (res_cast hz).
  apply: bto_ext => v; rewrite [RHS]bto_bct // wb_ub // [LHS]bto_bct; last by okt u.
  by rewrite !(bto_bct _ q1) !(bto_bct _ q2); do 3!case: (bto _ v).
move=> be i j _ hi hj; rewrite /entb /= !(clid hi) !(clid hj) !mulrDl.
by [].
Qed.
Lemma m_kron la ra lb rb : wf (Kron la ra) -> wf (Kron lb rb) -> shapes_ok (Kron la ra) (Kron lb rb) ->
  samesh la lb -> samesh ra rb -> mul_side la lb -> mul_side ra rb -> good MKron (Kron la ra) (Kron lb rb).
Proof.
move=> wa wb so s1 s2 m1 m2; case: (wa) => wla wra oa; case: (wb) => wlb wrb ob; case/and3P: (so) => _ _ o.
set u := bct (mbatch (Kron la ra)) (mbatch (Kron lb rb)).
have := bct_ubl o; have := bct_ubr o; rewrite -/u !Kronb // => /andP[u1 u2] /andP[u3 u4].
case/andP: (s1) => /eqP e1 /eqP e2; case/andP: (s2) => /eqP e3 /eqP e4.
rewrite /good /mul_body !shape_matrixE // !bind_ret e1 e2 e3 e4 !eqxx /require /= bind_ret.
have q1 : bcok (mbatch la) (mbatch lb) by okt u.
have q2 : bcok (mbatch ra) (mbatch rb) by okt u.
apply: (hoare_bind (mul_res ok (res_wf wla) (res_wf wlb) _ _ q1 m1)); rewrite ?e1 ?e2 ?bcnokn ?bcnn // => l [hl _].
apply: (hoare_bind (mul_res ok (res_wf wra) (res_wf wrb) _ _ q2 m2)); rewrite ?e3 ?e4 ?bcnokn ?bcnn // => r [hr _].
apply: hoare_ret; split=> //; rewrite /post /res2 /= e1 e2 e3 e4 !bcnn; apply: (res_cast (res_kron hl hr _)); first by okt u.
  by rewrite (bct4 u3 u4 u1 u2).
move=> be i j _ hi hj; rewrite /entb /= e1 e2 e3 e4 !(clid hi) !(clid hj).
have r0 : (0 < mrows rb)%N by rewrite mrows_gt0.
have c0 : (0 < mcols rb)%N by rewrite mcols_gt0.
rewrite ![cl (mrows lb) _]clid ?ltn_divLR // ![cl (mcols lb) _]clid ?ltn_divLR //.
rewrite ![cl (mrows rb) _]clid ?ltn_mod // ![cl (mcols rb) _]clid ?ltn_mod //.
by rewrite mulrACA.
Qed.

Lemma sameshC (x y : mat) : samesh x y = samesh y x.
Proof. by rewrite /samesh eq_sym [mcols _ == _]eq_sym. Qed.
Lemma mul_sideC a (b : mat) : mul_side a b -> mul_side b a.
Proof.
elim: a b => [x|d br r c|x|x|x r c|x|x|la _ ra _ ma _|d la _ ra _ ma _|la IHl ra IHr]
  [y|d' b' r' c'|y|y|y r' c'|y|y|lb rb mb|d' lb rb mb|lb rb]; cbn [mul_side]; try exact: id.
all: try by rewrite sameshC.
- by case/andP=> /andP[h1 h2] h3; rewrite sameshC /samesh h1 h2 -(eqP h1) -(eqP h2).
- by case/andP=> /andP[h1 h2] h3; rewrite sameshC /samesh h1 h2 -(eqP h1) -(eqP h2).
by case/and4P=> h1 h2 h3 h4; rewrite sameshC h1 sameshC h2 IHl ?IHr.
Qed.
Lemma samesh_full a (b : mat) : samesh a b -> full a b.
Proof. by case/andP=> /eqP h1 /eqP h2; rewrite /full h1 h2 !bcnn !eqxx. Qed.

(** The parts of a Woodbury matrix inherit the side condition. *)
Lemma wb_side d l (r : mat) m (b : mat) : wf (Wb d l r m) -> wf b -> tag b != 0%N -> mul_side (Wb d l r m) b -> (forall t, b <> Diag t) ->
  (forall D B R C, b <> Zero D B R C) ->
  [/\ full (Wb d l r m) b, mul_side (Diag d) b & mul_side (LR l r m) b].
Proof.
move=> w wb tb h nd nz; have [d1 l1 _ _] := wb_res w; have [_ [lr1 lr2] _ _] := l1.
have fE (c : mat) : full (LR l r m) c = full (Wb d l r m) c by rewrite /full [mrows (LR _ _ _)]lr1 [mcols (LR _ _ _)]lr2.
have fE' (c : mat) : full (Diag d) c = full (Wb d l r m) c by [].
have sE (c : mat) : samesh (LR l r m) c = samesh (Wb d l r m) c by rewrite /samesh [mrows (LR _ _ _)]lr1 [mcols (LR _ _ _)]lr2.
have fR (c : mat) : samesh (Wb d l r m) c -> full c (LR l r m).
  by rewrite -sE sameshC; apply: samesh_full.
case: b wb tb h nd nz => [y|d' b' r' c'|y|y|y r' c'|y|y|lb rb mb|d' lb rb mb|lb rb] wb tb h nd nz; cbn [mul_side] in h |- *.
- by [].
- by case: (nz d' b' r' c').
- by case/andP: h => h _; split=> //; rewrite fE' h.
- by case: (nd y).
- by case/andP: h => h _; split=> //; rewrite ?fE ?fE' ?h.
- have fu := samesh_full h; split=> //; rewrite ?fE' ?fu ?fR //.
- have fu := samesh_full h; split=> //; rewrite ?fE' ?fu ?fR //.
- by case/andP: h => h _; split=> //; rewrite fE' h.
- have fu := samesh_full h; split=> //; rewrite ?fE' ?fu ?fR //.
by case/andP: h => h1 h2; split=> //; rewrite fE' h1.
Qed.

Theorem mul_mat_ok a (b : mat) : wf a -> wf b -> tag a != 0%N -> tag b != 0%N -> shapes_ok a b -> mul_side a b ->
  hoare (do i <- lookup mul_table (ty_of_matrix a) (ty_of_matrix b); mul_body self i a b) (post a b).
Proof.
move=> wa wb ta tb so sd; have sd' := mul_sideC sd; rewrite mul_selE.
have wbs (d : tensor) (l r m : mat) (c : mat) := @wb_side d l r m c.
case: a wa ta so sd sd' => [x|d br r c|x|x|x r c|x|x|la ra ma|d la ra ma|la ra] wa ta; [by []|..];
  (case: b wb tb => [y|d' b' r' c'|y|y|y r' c'|y|y|lb rb mb|d' lb rb mb|lb rb] wb tb so sd sd'; [by []|..]); look;
  lazymatch goal with |- hoare (mul_body _ ?i _ _) _ => lazymatch i with
    | MZeroR => eapply m_zeroR; assumption | MZeroL => eapply m_zeroL; assumption | MGen => eapply m_gen; assumption
    | MDense => eapply m_dense; assumption | MDiag => eapply m_diag; assumption
    | MDiagGen => (eapply m_diag_gen; [assumption|assumption|assumption|
        first [case/andP: sd => ? ?; assumption|exact: (samesh_full sd)]|first [exact: isT|case/andP: sd => ? ?; assumption]])
    | MConst => eapply m_const_const; assumption
    | MConstGen => eapply m_const_gen; assumption
    | MConstDiag => (eapply m_const_diag; [assumption|assumption|assumption|case/andP: sd => ? ?; assumption])
    | MLT => eapply m_lt_lt; assumption | MUT => eapply m_ut_ut; assumption
    | MLTGen => eapply m_lt_gen; assumption | MUTGen => eapply m_ut_gen; assumption
    | MLTConst => eapply m_lt_const; assumption | MUTConst => eapply m_ut_const; assumption
    | MUTLT => (case/andP: sd => ? /eqP ?; eapply m_ut_lt; assumption)
    | MLR => eapply m_lr; assumption | MConstLR => eapply m_const_lr; assumption
    | MConstKron => eapply m_const_kron; assumption
    | MWbGen => (have [f1 f2 f3] := wbs _ _ _ _ _ wa wb tb sd ltac:(by []) ltac:(by []); eapply m_wb_gen; assumption)
    | MKron => (case/and4P: sd => ? ? ? ?; eapply m_kron; assumption)
    | MRev => eapply m_rev; assumption
  end end.
Qed.

Lemma mul_side_to_matrix a (b : mat) : wfo a -> wfo b -> tag a != 0%N \/ tag b != 0%N -> mul_side a b -> mul_side (to_matrix a) (to_matrix b).
Proof.
move=> wa wb tt; move: (full_to_matrix wa wb) (full_to_matrix wb wa).
case: a wa tt => [x|d br r c|x|x|x r c|x|x|la ra ma|d la ra ma|la ra] wa tt;
  case: b wb tt => [y|d' b' r' c'|y|y|y r' c'|y|y|lb rb mb|d' lb rb mb|lb rb] wb [] // _;
  rewrite /to_matrix /convert_num.
all: try (by move=> fE1 fE2 h; exact: h).
all: case E: (sh _) => [|? ?]; last by [].
all: case: ifP => _ fE1 fE2; cbn [mul_side] => h; try (by rewrite ?fE1 ?fE2).
all: by rewrite /full /= ?bcn1 ?eqxx.
Qed.
Theorem mul_ok a (b : mat) : wfo a -> wfo b -> wf a \/ wf b -> shapes_ok a b -> mul_side a b ->
  hoare (mul_step self a b) (post a b).
Proof.
move=> wa wb w so sd.
have [[ta tb]|tt] : (tag a = 0%N /\ tag b = 0%N) \/ (tag a != 0%N \/ tag b != 0%N).
  by case: (tag a); case: (tag b); auto.
- have [x ea] := tag0 ta; have [y eb] := tag0 tb; subst a b.
  by apply: (hoare_conseq (num2_ok *%R wa wb w so)) => z [hz kz]; split.
have [ha ka ta _ _] := to_matrix_ok wa; have [hb kb tb _ _] := to_matrix_ok wb.
have E : mul_step self a b = do i <- lookup mul_table (ty_of_matrix (to_matrix a)) (ty_of_matrix (to_matrix b)); mul_body self i (to_matrix a) (to_matrix b).
  case: a tt {wa w so sd ha ka ta} => [?|? ? ? ?|?|?|? ? ?|?|?|? ? ?|? ? ? ?|? ?] tt; [|reflexivity..].
  case: b tt {wb hb kb tb} => [?|? ? ? ?|?|?|? ? ?|?|?|? ? ?|? ? ? ?|? ?] tt; [|reflexivity..]; by case: tt.
have wA : wf (to_matrix a) by case: ha. have wB : wf (to_matrix b) by case: hb.
have H := mul_mat_ok wA wB ta tb (shapes_to_matrix wa wb so) (mul_side_to_matrix wa wb tt sd); rewrite -E in H.
refine (hoare_conseq H _) => c [hc kc]; by split; [apply: res2_to_matrix|rewrite -ka -kb].
Qed.
End MulOk.
