(** * Correctness of add (proof support) *)
From mathcomp Require Import all_ssreflect all_algebra.
From Verif Require Import Outcome Monad Shape Tensor Mat Dispatch Ops Spec LookThy ShapeThy TensorThy TensorThy2 MatThy OpsOk DenseOk.
Set Implicit Arguments. Unset Strict Implicit. Unset Printing Implicit Defensive.
Import GRing.Theory.
Local Open Scope ring_scope.

(** Compute the result of a method lookup. *)
Ltac look :=
  match goal with |- context [selof ?T ?x ?y] =>
    let x' := eval cbv [ty_of_matrix] in x in
    let y' := eval cbv [ty_of_matrix] in y in
    let r := eval vm_compute in (selof T x' y') in
    match r with Ret _ ?i => change (selof T x y) with (ret i) end
  end; rewrite bind_ret.

Section Common.
Variable F : rcfType.
Notation tensor := (tensor F).
Notation mat := (mat F).
Implicit Types (a l m : mat) (t : tensor) (u be : seq nat).

Lemma tag0 a : tag a = 0%N -> exists x, a = Nm x.
Proof. by case: a => // x _; exists x. Qed.
Lemma shapes_okC a (b : mat) : shapes_ok a b = shapes_ok b a.
Proof. by rewrite /shapes_ok bcnokC [bcnok (mcols a) _]bcnokC bcokC. Qed.
Lemma res2C (op : F -> F -> F) a (b c : mat) : (forall x y, op x y = op y x) -> shapes_ok a b -> res2 op b a c -> res2 op a b c.
Proof.
move=> opC /and3P[h1 h2 h3] h; rewrite /res2 (bcnC h1) (bcnC h2) (bctC h3).
by apply: res_ext h _ => be i j _ _ _; rewrite opC.
Qed.
Lemma assert_shapesE a (b : mat) : wf a -> wf b -> shapes_ok a b -> assert_shapes_compatible a b = ret tt.
Proof.
move=> wa wb /and3P[h1 h2 h3]; rewrite /assert_shapes_compatible !shape_ofE // !bind_ret assert_compatible_ok //.
by rewrite /mshape !bcok_cons h1 h2.
Qed.
Lemma shape_broadcastE a (b : mat) : wf a -> wf b -> shapes_ok a b ->
  shape_broadcast2 a b = ret [:: bcn (mcols a) (mcols b), bcn (mrows a) (mrows b) & bct (mbatch a) (mbatch b)].
Proof.
move=> wa wb /and3P[h1 h2 h3]; rewrite /shape_broadcast2 !shape_ofE // !bind_ret.
have hb : bcok (mrows a :: mbatch a) (mrows b :: mbatch b) by rewrite bcok_cons h1.
by rewrite eab_two /mshape ?bcok_cons ?h1 ?h2 // !bct_cons.
Qed.
Lemma shape_matrix_broadcastE a (b : mat) : wf a -> wf b -> shapes_ok a b ->
  shape_matrix_broadcast2 a b = ret (bcn (mrows a) (mrows b), bcn (mcols a) (mcols b)).
Proof.
move=> wa wb /and3P[h1 h2 h3]; rewrite /shape_matrix_broadcast2 !shape_matrixE // !bind_ret.
have hb : bcok [:: mrows a] [:: mrows b] by rewrite bcok_cons h1.
by rewrite eab_two ?bcok_cons ?h1 ?h2 // !bct_cons // bind_ret.
Qed.
Lemma out_posn a (b : mat) : wf a -> wf b -> 
  posn [:: bcn (mcols a) (mcols b), bcn (mrows a) (mrows b) & bct (mbatch a) (mbatch b)].
Proof.
move=> wa wb; rewrite !posn_cons !bcn_pos ?mrows_gt0 ?mcols_gt0 //=.
by rewrite posn_bct ?mbatch_pos.
Qed.
Lemma bto_bcn d d' : bcnok d d' -> (d == 1%N) || (d == bcn d d').
Proof. by rewrite /bcnok /bcn; case: eqP => //= _; rewrite eqxx. Qed.
Lemma out_bto a (b : mat) : shapes_ok a b ->
  bto (mshape a) [:: bcn (mcols a) (mcols b), bcn (mrows a) (mrows b) & bct (mbatch a) (mbatch b)].
Proof. by case/and3P=> h1 h2 h3; rewrite /= !bto_bcn //= bct_ubl. Qed.
Lemma out_btor a (b : mat) : shapes_ok a b ->
  bto (mshape b) [:: bcn (mcols a) (mcols b), bcn (mrows a) (mrows b) & bct (mbatch a) (mbatch b)].
Proof.
move=> h; case/and3P: (h) => h1 h2 h3; rewrite (bcnC h1) (bcnC h2) (bctC h3).
by apply: out_bto; rewrite shapes_okC.
Qed.
(** Entrywise operations through dense arrays. *)
Lemma dense2_ok (op : F -> F -> F) a (b : mat) x y : shapes_ok a b ->
  tmat x (mrows a) (mcols a) (mbatch a) (ent a) -> tmat y (mrows b) (mcols b) (mbatch b) (ent b) ->
  hoare (t_map2 op x y) (fun z => 
    tmat z (bcn (mrows a) (mrows b)) (bcn (mcols a) (mcols b)) (bct (mbatch a) (mbatch b))
    (fun be i j => op (entb a be i j) (entb b be i j))).
Proof. by case/and3P=> h1 h2 h3 hx hy; apply: tmat_map2. Qed.
(** A batch of scalars against a matrix, broadcast to the common shape. *)
Lemma const_gen_ok (op : F -> F -> F) x (r c : nat) (b : mat) y : wf (Const x r c) -> wf b -> shapes_ok (Const x r c) b ->
  tmat y (mrows b) (mcols b) (mbatch b) (ent b) ->
  hoare (do z <- t_map2 op (t_expand11_is x) y;
         do s <- shape_broadcast2 (Const x r c) b; do u <- t_broadcast_to z s; ret (mk_dense u))
    (fun z => res2 op (Const x r c) b z /\ kfree z).
Proof.
move=> wa wb so hy; have [_ _ p] := posn3 wa; case/and3P: (so) => h1 h2 h3.
apply: (hoare_bind (tmat_map2_sl _ (tsca_posn p) hy h3)) => z hz.
rewrite shape_broadcastE // bind_ret.
have hb : bto [:: mcols b, mrows b & bct (sh x) (mbatch b)]
   [:: bcn (mcols (Const x r c)) (mcols b), bcn (mrows (Const x r c)) (mrows b) & bct (mbatch (Const x r c)) (mbatch b)].
  by case/and3P: (out_btor so) => /= -> -> _; rewrite bto_refl.
apply: (hoare_bind (tmat_broadcast hz (out_posn wa wb) hb)) => w hw.
by rewrite (mk_dense_tmat hw); apply: hoare_ret; split=> //; apply: res_dense.
Qed.
Lemma wf_bcnok_full a (b : mat) : full a b -> mrows a = bcn (mrows a) (mrows b) /\ mcols a = bcn (mcols a) (mcols b).
Proof. by case/andP=> /eqP ? /eqP. Qed.
Lemma full_bcn a (b : mat) : full b a -> shapes_ok a b ->
  bcn (mrows a) (mrows b) = mrows b /\ bcn (mcols a) (mcols b) = mcols b.
Proof. by move=> /wf_bcnok_full[h1 h2] /and3P[o1 o2 _]; rewrite (bcnC o1) (bcnC o2). Qed.
Lemma full_cl a (b : mat) be i j : full b a -> shapes_ok a b ->
  (i < bcn (mrows a) (mrows b))%N -> (j < bcn (mcols a) (mcols b))%N -> entb b be i j = ent b be i j.
Proof. by move=> f s; have [-> ->] := full_bcn f s => hi hj; rewrite /entb !clid. Qed.
Lemma entb_mat a : wfo a -> mrows (to_matrix a) = mrows a /\ mcols (to_matrix a) = mcols a.
Proof. by case/to_matrix_ok=> -[_ [-> ->] _ _]. Qed.
(** From the promoted operands back to the given ones. *)
Lemma res2_to_matrix (op : F -> F -> F) a (b c : mat) : wfo a -> wfo b -> shapes_ok a b ->
  res2 op (to_matrix a) (to_matrix b) c -> res2 op a b c.
Proof.
move=> wa wb /and3P[h1 h2 h3]; have [ha _ _ _ _] := to_matrix_ok wa; have [hb _ _ _ _] := to_matrix_ok wb.
exact: res2_res ha hb h1 h2 h3.
Qed.
Lemma shapes_to_matrix a (b : mat) : wfo a -> wfo b -> shapes_ok a b -> shapes_ok (to_matrix a) (to_matrix b).
Proof.
move=> /to_matrix_ok[[_ [ra ca] ba _] _ _ _ _] /to_matrix_ok[[_ [rb cb] bb _] _ _ _ _].
by rewrite /shapes_ok ra ca rb cb ba bb.
Qed.
Lemma full_to_matrix a (b : mat) : wfo a -> wfo b -> full (to_matrix a) (to_matrix b) = full a b.
Proof.
move=> /to_matrix_ok[[_ [ra ca] ba _] _ _ _ _] /to_matrix_ok[[_ [rb cb] bb _] _ _ _ _].
by rewrite /full ra ca rb cb.
Qed.
(** Two numeric operands. *)
Lemma num_is t : wf (Nm t) -> tmat t (mrows (Nm t)) (mcols (Nm t)) (mbatch (Nm t)) (ent (Nm t)).
Proof. by move=> w; apply: tmat_num; [|left]. Qed.
Lemma num2_ok (op : F -> F -> F) x y : wfo (Nm x) -> wfo (Nm y) -> wf (Nm x) \/ wf (Nm y) -> shapes_ok (Nm x) (Nm y) ->
  hoare (do z <- t_map2 op x y; ret (Nm z)) (fun z => res2 op (Nm x) (Nm y) z /\ kfree z).
Proof.
move=> [wx|/eqP sx] [wy|/eqP sy] w so.
- apply: (hoare_bind (dense2_ok _ so (num_is wx) (num_is wy))) => z hz; apply: hoare_ret; split=> //; exact: res_num.
- have [h1 h2 h3 h4] := scal_facts sy; have E : t_expand11_is y = y by rewrite /t_expand11_is sy.
  have := tmat_map2_sr op (tsca_scal sy) (num_is wx) (bcoks0 _); rewrite E => H.
  apply: (hoare_bind H) => z hz; apply: hoare_ret; split=> //; rewrite /res2 h1 h2 h3 !bcn1.
  by apply: res_ext (res_num hz) _ => be i j _ hi hj; rewrite /entb h4 !clid.
- have [h1 h2 h3 h4] := scal_facts sx; have E : t_expand11_is x = x by rewrite /t_expand11_is sx.
  have := tmat_map2_sl op (tsca_scal sx) (num_is wy) (bcok0s _); rewrite E => H.
  apply: (hoare_bind H) => z hz; apply: hoare_ret; split=> //; rewrite /res2 h1 h2 h3 !bc1n.
  by apply: res_ext (res_num hz) _ => be i j _ hi hj; rewrite /entb h4 !clid.
- by case: w => /=; rewrite /wft /trank ?sx ?sy.
Qed.
End Common.

Section AddOk.
Variable F : rcfType.
Notation tensor := (tensor F).
Notation mat := (mat F).
Implicit Types (a l m : mat) (t : tensor) (u be : seq nat).
Variable argsort : seq F -> seq nat.
Variable self : ops F.
Hypothesis ok : ops_ok self.
Hypothesis lrlr : forall la ra ma lb rb mb, wf (LR la ra ma) -> wf (LR lb rb mb) ->
  shapes_ok (LR la ra ma) (LR lb rb mb) ->
  hoare (add_lr_lr argsort self la ra ma lb rb mb) (fun c =>
    res2 +%R (LR la ra ma) (LR lb rb mb) c /\ kfree c).

Let post a b c := res2 +%R a b c /\ (kfree a -> kfree b -> kfree c).
Let good i a b := hoare (add_body argsort self i a b) (post a b).

Lemma addrC' (x y : F) : x + y = y + x. Proof. exact: addrC. Qed.
Lemma res2_ext (op op' : F -> F -> F) a b c : (forall x y, op x y = op' x y) -> res2 op a b c -> res2 op' a b c.
Proof. by move=> e h; apply: res_ext h _ => be i j _ _ _; rewrite e. Qed.

Lemma zeroR a d b r c : wf a -> wf (@Zero F d b r c) -> shapes_ok a (Zero d b r c) -> good AZeroR a (Zero d b r c).
Proof.
move=> wa wb so; rewrite /good /add_body assert_shapesE // shape_broadcastE // !bind_ret.
apply: hoare_conseq (broadcast_to_ok ok wa (out_posn wa wb) (out_bto so)) _ => z [hz kz].
split; last by move=> k _; apply: kz.
by apply: res_ext hz _ => be i j _ _ _; rewrite /entb /= addr0.
Qed.
Lemma zeroL (a : mat) d b r c : wf (@Zero F d b r c) -> wf a -> shapes_ok (Zero d b r c) a -> good AZeroL (Zero d b r c) a.
Proof.
move=> wb wa so; rewrite /good /add_body assert_shapesE // shape_broadcastE // !bind_ret.
apply: hoare_conseq (broadcast_to_ok ok wa (out_posn wb wa) (out_btor so)) _ => z [hz kz].
split=> //; apply: res_ext hz _ => be i j _ _ _; by rewrite /entb /= add0r.
Qed.
Lemma gen a b : wf a -> wf b -> shapes_ok a b -> good AGen a b.
Proof.
move=> wa wb so; apply: hoare_warn_if; apply: (hoare_bind (ok_dense ok wa)) => x hx.
apply: (hoare_bind (ok_dense ok wb)) => y hy; apply: (hoare_bind (dense2_ok _ so hx hy)) => z hz.
by rewrite (mk_dense_tmat hz); apply: hoare_ret; split=> //; apply: res_dense.
Qed.
Lemma dense_dense x y : wf (Dense x) -> wf (Dense y) -> shapes_ok (Dense x) (Dense y) -> good ADense (Dense x) (Dense y).
Proof.
move=> wa wb so; rewrite /good /=.
apply: (hoare_bind (dense2_ok _ so (tmat_num wa (or_intror (or_introl erefl))) (tmat_num wb (or_intror (or_introl erefl))))) => z hz.
by rewrite (mk_dense_tmat hz); apply: hoare_ret; split=> //; apply: res_dense.
Qed.
Lemma rev a b : wf a -> wf b -> shapes_ok a b -> add_side a b -> add_side b a -> good ARev a b.
Proof.
move=> wa wb so _ side; rewrite /good; have so' : shapes_ok b a by rewrite shapes_okC.
apply: hoare_conseq (ok_add ok (or_introl wb) (or_introl wa) (or_introl wb) so' side) _ => z [hz kz].
by split; [apply: res2C addrC' so hz|move=> h1 h2; apply: kz].
Qed.
Lemma samesh_bcn a b : samesh a b -> bcn (mrows a) (mrows b) = mrows a /\ bcn (mcols a) (mcols b) = mcols a.
Proof. by case/andP=> /eqP <- /eqP <-; rewrite !bcnn. Qed.
Lemma diag_diag x y : wf (Diag x) -> wf (Diag y) -> shapes_ok (Diag x) (Diag y) -> samesh (Diag x) (Diag y) -> good ADiag (Diag x) (Diag y).
Proof.
move=> wa wb /and3P[_ _ o] /andP[/eqP /= e _]; rewrite /good /=.
have hx := tvec_wfv wa; have hy := tvec_wfv wb; rewrite -e in hy.
apply: (hoare_bind (tvec_map2e _ hx hy o)) => z hz; rewrite (mk_diag_tvec hz); apply: hoare_ret; split=> //.
rewrite /post /res2 /= -e !bcnn; apply: res_ext (res_diag hz) _ => be i j _ hi hj.
by rewrite /entb /= -e !(clid hi) (clid hj); case: eqP => // _; rewrite addr0.
Qed.
Lemma const_const x r c y r' c' : wf (Const x r c) -> wf (Const y r' c') -> shapes_ok (Const x r c) (Const y r' c') ->
  good AConst (Const x r c) (Const y r' c').
Proof.
move=> wa wb so; rewrite /good /add_body assert_shapesE // bind_ret; case/and3P: (so) => h1 h2 h3.
have [_ _ px] := posn3 wa; have [_ _ py] := posn3 wb.
apply: (hoare_bind (tsca_map2 _ (tsca_posn px) (tsca_posn py) h3)) => z hz; rewrite shape_broadcastE // bind_ret.
by apply: hoare_conseq (mk_const_ok hz (out_posn wa wb) (bto_refl _)) _ => w [hw kw _].
Qed.
Lemma const_gen x r c b : wf (Const x r c) -> wf b -> shapes_ok (Const x r c) b -> good AConstGen (Const x r c) b.
Proof.
move=> wa wb so; rewrite /good /add_body; apply: hoare_warn_if; apply: (hoare_bind (ok_dense ok wb)) => y hy.
by apply: hoare_conseq (const_gen_ok _ wa wb so hy) _ => z [hz kz]; split.
Qed.
Lemma const_diag x r c y : wf (Const x r c) -> wf (Diag y) -> shapes_ok (Const x r c) (Diag y) -> full (Diag y) (Const x r c) ->
  good AConstDiag (Const x r c) (Diag y).
Proof.
move=> wa wb so fu; rewrite /good /add_body assert_shapesE // shape_matrix_broadcastE // !bind_ret.
have [n1 n2] := full_bcn fu so; have [_ _ px] := posn3 wa.
rewrite /post /res2 n1 n2.
apply: (hoare_bind (const_to_lowrank_ok (tsca_posn px) (mrows_gt0 wb) (mcols_gt0 wb))) => z [hz kz tz].
case/and3P: (so) => _ _ o; apply: hoare_conseq (add_rese ok hz (res_wf wb) o) _ => w [hw kw]; split; last by move=> _ _; apply: kw.
by apply: res_ext hw _ => be i j _ hi hj; rewrite /entb !(clid hi) !(clid hj).
Qed.
Lemma lt_lt x y : wf (LT x) -> wf (LT y) -> shapes_ok (LT x) (LT y) -> samesh (LT x) (LT y) -> good ALT (LT x) (LT y).
Proof.
move=> wa wb so ss; rewrite /good /=.
apply: (hoare_bind (dense2_ok _ so (tmat_num wa (or_intror (or_intror (or_introl erefl)))) (tmat_num wb (or_intror (or_intror (or_introl erefl)))))) => z hz.
rewrite (mk_lt_tmat hz); apply: hoare_ret; split=> //; apply: res_lt hz _ => be i j.
have [-> ->] := samesh_bcn ss; case/andP: ss => /eqP e1 /eqP e2; case/and3P: so => _ _ o.
rewrite okb_bct // => /andP[o1 o2] hi hj hij; rewrite /entb -e1 -e2 !(clid hi) !(clid hj) /=.
case: wa => _ -> //; case: wb => _ -> //; rewrite ?addr0 //.
  by move: hi; rewrite e1.
by move: hj; rewrite e2.
Qed.
Lemma ut_ut x y : wf (UT x) -> wf (UT y) -> shapes_ok (UT x) (UT y) -> samesh (UT x) (UT y) -> good AUT (UT x) (UT y).
Proof.
move=> wa wb so ss; rewrite /good /=.
apply: (hoare_bind (dense2_ok _ so (tmat_num wa (or_intror (or_intror (or_intror erefl)))) (tmat_num wb (or_intror (or_intror (or_intror erefl)))))) => z hz.
rewrite (mk_ut_tmat hz); apply: hoare_ret; split=> //; apply: res_ut hz _ => be i j.
have [-> ->] := samesh_bcn ss; case/andP: ss => /eqP e1 /eqP e2; case/and3P: so => _ _ o.
rewrite okb_bct // => /andP[o1 o2] hi hj hij; rewrite /entb -e1 -e2 !(clid hi) !(clid hj) /=.
case: wa => _ -> //; case: wb => _ -> //; rewrite ?addr0 //.
  by move: hi; rewrite e1.
by move: hj; rewrite e2.
Qed.
Lemma lt_diag x y : wf (LT x) -> wf (Diag y) -> shapes_ok (LT x) (Diag y) -> samesh (LT x) (Diag y) -> good ALTDiag (LT x) (Diag y).
Proof.
move=> wa wb so ss; rewrite /good /=; apply: (hoare_bind (ok_dense ok wb)) => v hv.
apply: (hoare_bind (dense2_ok _ so (tmat_num wa (or_intror (or_intror (or_introl erefl)))) hv)) => z hz.
rewrite (mk_lt_tmat hz); apply: hoare_ret; split=> //; apply: res_lt hz _ => be i j.
have [-> ->] := samesh_bcn ss; case/andP: ss => /eqP e1 /eqP e2; case/and3P: so => _ _ o.
rewrite okb_bct // => /andP[o1 o2] hi hj hij; rewrite /entb -e1 -e2 !(clid hi) !(clid hj) /= ltn_eqF //.
by case: wa => _ -> //; rewrite addr0.
Qed.
Lemma ut_diag x y : wf (UT x) -> wf (Diag y) -> shapes_ok (UT x) (Diag y) -> samesh (UT x) (Diag y) -> good AUTDiag (UT x) (Diag y).
Proof.
move=> wa wb so ss; rewrite /good /=; apply: (hoare_bind (ok_dense ok wb)) => v hv.
apply: (hoare_bind (dense2_ok _ so (tmat_num wa (or_intror (or_intror (or_intror erefl)))) hv)) => z hz.
rewrite (mk_ut_tmat hz); apply: hoare_ret; split=> //; apply: res_ut hz _ => be i j.
have [-> ->] := samesh_bcn ss; case/andP: ss => /eqP e1 /eqP e2; case/and3P: so => _ _ o.
rewrite okb_bct // => /andP[o1 o2] hi hj hij; rewrite /entb -e1 -e2 !(clid hi) !(clid hj) /= gtn_eqF //.
by case: wa => _ -> //; rewrite addr0.
Qed.
Lemma ut_lt x y : wf (UT x) -> wf (LT y) -> shapes_ok (UT x) (LT y) -> good AUTLT (UT x) (LT y).
Proof.
move=> wa wb so; rewrite /good /=.
apply: (hoare_bind (dense2_ok _ so (tmat_num wa (or_intror (or_intror (or_intror erefl)))) (tmat_num wb (or_intror (or_intror (or_introl erefl)))))) => z hz.
by rewrite (mk_dense_tmat hz); apply: hoare_ret; split=> //; apply: res_dense.
Qed.
Lemma lr_lr la ra ma lb rb mb : wf (LR la ra ma) -> wf (LR lb rb mb) ->
  shapes_ok (LR la ra ma) (LR lb rb mb) -> good ALR (LR la ra ma) (LR lb rb mb).
Proof. by move=> wa wb so; apply: hoare_conseq (lrlr wa wb so) _ => c [h k]; split. Qed.
Lemma lr_const la ra ma y r c : wf (LR la ra ma) -> wf (Const y r c) -> shapes_ok (LR la ra ma) (Const y r c) ->
  good ALRConst (LR la ra ma) (Const y r c).
Proof.
move=> wa wb so; rewrite /good /add_body shape_matrix_broadcastE // !bind_ret.
have [_ _ py] := posn3 wb; case/posn3: (out_posn wa wb) => C0 R0 _; case/and3P: (so) => o1 o2 o3.
apply: (hoare_bind (const_to_lowrank_ok (tsca_posn py) R0 C0)) => z [hz kz tz].
have q1 : bcnok (mrows (LR la ra ma)) (bcn (mrows (LR la ra ma)) (mrows (Const y r c))).
  by rewrite /bcnok; case/orP: (bto_bcn o1) => ->; rewrite ?orbT.
have q2 : bcnok (mcols (LR la ra ma)) (bcn (mcols (LR la ra ma)) (mcols (Const y r c))).
  by rewrite /bcnok; case/orP: (bto_bcn o2) => ->; rewrite ?orbT.
have side : add_side (LR la ra ma) z by case: z tz {hz kz}.
apply: hoare_conseq (add_res ok (res_wf wa) hz q1 q2 o3 side) _ => w [hw kw]; split; last by move=> h _; apply: kw.
have bE d d' : bcn d (bcn d d') = bcn d d' by rewrite /bcn; case: (d == 1%N).
by rewrite /post /res2; rewrite !bE in hw; apply: res_ext hw _.
Qed.
Lemma wbf (x : tensor) la (ra : mat) ma : bcn (mrows (Diag x)) (mrows (LR la ra ma)) = mrows (Diag x) -> True.
Proof. by []. Qed.
Lemma diag_lr x la ra ma : wf (Diag x) -> wf (LR la ra ma) -> shapes_ok (Diag x) (LR la ra ma) ->
  samesh (Diag x) (LR la ra ma) -> good ADiagLR (Diag x) (LR la ra ma).
Proof.
move=> wa wb /and3P[_ _ o] ss; have [n1 n2] := samesh_bcn ss; case/andP: (ss) => /eqP e1 /eqP e2.
have hb := res_wf wb; rewrite -e1 -e2 in hb; have [_ [kl kr km] _ _] := lr_facts wb.
have k : kfree (LR la ra ma) by rewrite /= kl kr km.
rewrite /good /add_body; apply: hoare_conseq (hoare_woodbury (tvec_wfv wa) hb o k) _ => w [hw kw _]; split=> //.
rewrite /post /res2 ?n1 ?n2; apply: res_ext hw _ => be i j _ hi hj.
by rewrite /entb -e1 -e2 !(clid hi) !(clid hj).
Qed.
Lemma lr_diag x la ra ma : wf (Diag x) -> wf (LR la ra ma) -> shapes_ok (LR la ra ma) (Diag x) ->
  samesh (Diag x) (LR la ra ma) -> good ALRDiag (LR la ra ma) (Diag x).
Proof.
move=> wa wb so ss; have so' : shapes_ok (Diag x) (LR la ra ma) by rewrite shapes_okC.
apply: hoare_conseq (diag_lr wa wb so' ss) _ => c [h k]; split=> //.
  exact: res2C addrC' so h.
by move=> h1 h2; apply: k.
Qed.
(** The two parts of a Woodbury matrix. *)
Lemma wb_res d (la ra ma : mat) : wf (Wb d la ra ma) ->
  [/\ is_res (wb_diag d) (tcols d) (tcols d) (behead (sh d)) (ent (Diag d)),
      is_res (wb_lr la ra ma) (tcols d) (tcols d) (mbatch (LR la ra ma)) (ent (LR la ra ma)),
      bcok (behead (sh d)) (mbatch (LR la ra ma)) & kfree (LR la ra ma)].
Proof.
move=> w; have wd := wf_wb_d w; have wlr := wf_wb_lr w; have := res_wf wlr; have := res_wf wd.
have [_ [kl kr km] _ _] := lr_facts wlr.
by case: (w) => _ /and4P[_ /eqP n1 /eqP n2 o3] /=; rewrite n1 n2 => h1 h2; split=> //=; rewrite kl kr km.
Qed.
Lemma bct4 (s1 s2 s3 s4 : shape) u : bto s1 u -> bto s2 u -> bto s3 u -> bto s4 u ->
  bct (bct s1 s3) (bct s2 s4) = bct (bct s1 s2) (bct s3 s4).
Proof.
move=> h1 h2 h3 h4; apply: bto_ext => v; rewrite !bto_bct; try okt u.
by rewrite -!andbA; congr (_ && _); rewrite andbCA.
Qed.
Lemma wb_ub d (la ra ma : mat) u : wf (Wb d la ra ma) ->
  bto (mbatch (Wb d la ra ma)) u = bto (behead (sh d)) u && bto (mbatch (LR la ra ma)) u.
Proof. by move=> w; rewrite Wbb // LRb //; apply: wf_wb_lr w. Qed.
Lemma wb_wb da la ra ma db lb rb mb : wf (Wb da la ra ma) -> wf (Wb db lb rb mb) ->
  shapes_ok (Wb da la ra ma) (Wb db lb rb mb) -> samesh (Wb da la ra ma) (Wb db lb rb mb) ->
  good AWb (Wb da la ra ma) (Wb db lb rb mb).
Proof.
move=> wa wb /and3P[_ _ o] ss; have [n1 n2] := samesh_bcn ss; case/andP: (ss) => /eqP /= e1 _.
have [d1 l1 o1 k1] := wb_res wa; have [d2 l2 o2 k2] := wb_res wb; rewrite -e1 in d2 l2.
set u := bct (mbatch (Wb da la ra ma)) (mbatch (Wb db lb rb mb)).
have := bct_ubl o; have := bct_ubr o; rewrite -/u !wb_ub // => /andP[u1 u2] /andP[u3 u4].
rewrite /good /add_body; apply: (hoare_bind (add_rese ok d1 d2 _)); first by okt u.
move=> x [hx kx]; apply: (hoare_bind (add_rese ok l1 l2 _)); first by okt u.
move=> y [hy ky]; apply: hoare_conseq (add_rese ok hx hy _) _; first by okt u.
move=> z [hz kz]; split; last by move=> _ _; apply: kz; [apply: kx|apply: ky].
rewrite /post /res2 ?n1 ?n2; apply: (res_cast hz).
  by rewrite (bct4 u3 u4 u1 u2).
move=> be i j _ hi hj; rewrite /entb /= -e1 !(clid hi) !(clid hj).
by rewrite addrACA.
Qed.
Lemma wb_dg da la ra ma db : wf (Wb da la ra ma) -> wf (Diag db) ->
  shapes_ok (Wb da la ra ma) (Diag db) -> samesh (Wb da la ra ma) (Diag db) ->
  good AWbDiag (Wb da la ra ma) (Diag db).
Proof.
move=> wa wb /and3P[_ _ o] ss; have [n1 n2] := samesh_bcn ss; case/andP: (ss) => /eqP /= e1 _.
have [d1 l1 o1 k1] := wb_res wa; have d2 := res_wf wb; rewrite /= -e1 in d2.
set u := bct (mbatch (Wb da la ra ma)) (mbatch (Diag db)).
have := bct_ubl o; have := bct_ubr o; rewrite -/u wb_ub // => u2 /andP[u3 u4].
rewrite /good /add_body; apply: (hoare_bind (add_rese ok d1 d2 _)); first by okt u.
move=> x [hx kx]; apply: hoare_conseq (add_rese ok hx l1 _) _; first by okt u.
move=> z [hz kz]; split; last by move=> _ _; apply: kz; first by apply: kx.
rewrite /post /res2 ?n1 ?n2; apply: (res_cast hz).
  apply: bto_ext => v; rewrite [RHS]bto_bct // wb_ub // [LHS]bto_bct; last by okt u.
  rewrite [bto (bct _ _) v]bto_bct; last by okt u.
  by rewrite andbAC.
move=> be i j _ hi hj; rewrite /entb /= -e1 !(clid hi) !(clid hj).
by rewrite addrAC.
Qed.
Lemma wb_lrc da la ra ma b : wf (Wb da la ra ma) -> wf b -> add_side (LR la ra ma) b -> kfree b ->
  shapes_ok (Wb da la ra ma) b -> full (Wb da la ra ma) b ->
  good AWbLR (Wb da la ra ma) b.
Proof.
move=> wa wb side kb so fu; case/and3P: (so) => c1 c2 o.
have [n1 n2] := wf_bcnok_full fu; have [d1 l1 o1 k1] := wb_res wa.
set u := bct (mbatch (Wb da la ra ma)) (mbatch b).
have := bct_ubl o; have := bct_ubr o; rewrite -/u wb_ub // => u2 /andP[u3 u4].
rewrite /good /add_body; apply: (hoare_bind (add_res ok l1 (res_wf wb) c1 c2 _ side)); first by okt u.
move=> y [hy ky]; rewrite -[bcn _ _]n1 -[bcn _ _]n2 in hy.
apply: hoare_conseq (add_rese ok d1 hy _) _; first by okt u.
move=> z [hz kz]; split; last by move=> _ _; apply: kz => //; apply: ky.
rewrite /post /res2 -?n1 -?n2; apply: (res_cast hz).
  apply: bto_ext => v; rewrite [RHS]bto_bct // wb_ub // [LHS]bto_bct; last by okt u.
  rewrite [bto (bct _ _) v]bto_bct; last by okt u.
  by rewrite andbA.
move=> be i j _ hi hj; rewrite /entb /= !(clid hi) !(clid hj).
by rewrite addrA.
Qed.

Lemma add_sideC a b : shapes_ok a b -> add_side a b -> add_side b a.
Proof.
have sC (x y : mat) : samesh x y = samesh y x by rewrite /samesh eq_sym [mcols _ == _]eq_sym.
by case: a => [?|? ? ? ?|?|?|? ? ?|?|?|? ? ?|? ? ? ?|? ?]; case: b => [?|? ? ? ?|?|?|? ? ?|?|?|? ? ?|? ? ? ?|? ?] // _; rewrite /add_side // sC.
Qed.

Theorem add_mat_ok a b : wf a -> wf b -> tag a != 0%N -> tag b != 0%N -> shapes_ok a b -> add_side a b ->
  hoare (do i <- lookup add_table (ty_of_matrix a) (ty_of_matrix b); add_body argsort self i a b) (post a b).
Proof.
move=> wa wb ta tb so sd; have sd' := add_sideC so sd; rewrite add_selE.
have kl (l r m : mat) : wf (LR l r m) -> kfree (LR l r m) by move=> w; have [_ [x y z] _ _] := lr_facts w; rewrite /= x y z.
have sC (x y : mat) : samesh x y = samesh y x by rewrite /samesh eq_sym [mcols _ == _]eq_sym.
case: a wa ta so sd sd' => [x|d br r c|x|x|x r c|x|x|la ra ma|d la ra ma|la ra] wa ta; [by []|..];
  (case: b wb tb => [y|d' b' r' c'|y|y|y r' c'|y|y|lb rb mb|d' lb rb mb|lb rb] wb tb so sd sd'; [by []|..]); clear ta tb; look;
  lazymatch goal with |- hoare (add_body _ _ ?i _ _) _ => lazymatch i with
    | AZeroR => eapply zeroR; assumption | AZeroL => eapply zeroL; assumption | AGen => eapply gen; assumption | ADense => eapply dense_dense; assumption
    | ADiag => eapply diag_diag; assumption | AConst => eapply const_const; assumption | AConstDiag => eapply const_diag; assumption
    | AConstGen => eapply const_gen; assumption | ALT => eapply lt_lt; assumption | AUT => eapply ut_ut; assumption | ALTDiag => eapply lt_diag; assumption
    | AUTDiag => eapply ut_diag; assumption | AUTLT => eapply ut_lt; assumption | ALR => eapply lr_lr; assumption | ALRConst => eapply lr_const; assumption
    | ADiagLR => eapply diag_lr; assumption | ALRDiag => (eapply lr_diag; [assumption|assumption|assumption|rewrite sC; exact: sd])
    | AWb => eapply wb_wb; assumption | AWbDiag => eapply wb_dg; assumption | AWbLR => (eapply wb_lrc; first [assumption|exact: isT|apply: kl; assumption])
    | ARev => eapply rev; assumption
  end end.
Qed.

Lemma add_side_to_matrix a b : wfo a -> wfo b -> tag a != 0%N \/ tag b != 0%N -> add_side a b -> add_side (to_matrix a) (to_matrix b).
Proof.
move=> wa wb tt; move: (full_to_matrix wa wb) (full_to_matrix wb wa).
case: a wa tt => [x|d br r c|x|x|x r c|x|x|la ra ma|d la ra ma|la ra] wa tt;
  case: b wb tt => [y|d' b' r' c'|y|y|y r' c'|y|y|lb rb mb|d' lb rb mb|lb rb] wb [] // _;
  rewrite /add_side /to_matrix /convert_num /isscal => fE1 fE2 //.
all: try (by case E: (sh _) => //=; case: ifP).
all: move: fE1 fE2; case E: (sh _) => [|? ?] //=; case: ifP => //= _ fE1 fE2; rewrite ?fE1 ?fE2 //.
Qed.
Theorem add_ok a b : wfo a -> wfo b -> wf a \/ wf b -> shapes_ok a b -> add_side a b ->
  hoare (add_step argsort self a b) (post a b).
Proof.
move=> wa wb w so sd.
have [[ta tb]|tt] : (tag a = 0%N /\ tag b = 0%N) \/ (tag a != 0%N \/ tag b != 0%N).
  by case: (tag a); case: (tag b); auto.
- have [x ea] := tag0 ta; have [y eb] := tag0 tb; subst a b.
  by apply: (hoare_conseq (num2_ok +%R wa wb w so)) => z [hz kz]; split.
have [ha ka ta _ _] := to_matrix_ok wa; have [hb kb tb _ _] := to_matrix_ok wb.
have E : add_step argsort self a b = do i <- lookup add_table (ty_of_matrix (to_matrix a)) (ty_of_matrix (to_matrix b)); add_body argsort self i (to_matrix a) (to_matrix b).
  case: a tt {wa w so sd ha ka ta} => [?|? ? ? ?|?|?|? ? ?|?|?|? ? ?|? ? ? ?|? ?] tt; [|reflexivity..].
  case: b tt {wb hb kb tb} => [?|? ? ? ?|?|?|? ? ?|?|?|? ? ?|? ? ? ?|? ?] tt; [|reflexivity..]; by case: tt.
rewrite E; apply: hoare_conseq (add_mat_ok _ _ ta tb _ _) _.
- by case: ha.
- by case: hb.
- exact: shapes_to_matrix.
- exact: add_side_to_matrix.
by move=> c [hc kc]; split; [apply: res2_to_matrix|rewrite -ka -kb].
Qed.
End AddOk.
