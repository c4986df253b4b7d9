(** * C08 - C10, mean: subtract, sums over any axis, diagonals and traces *)
From mathcomp Require Import all_ssreflect all_algebra zify.
From Verif Require Import Outcome Monad Shape Tensor Mat Dispatch Ops Ops2 Spec ShapeThy TensorThy TensorThy2 MatThy OpsOk DenseOk AddOk OpsMain Term Calm Api Bridge Ans SumThy.
From Verif Require Import Samples.
Set Implicit Arguments. Unset Strict Implicit. Unset Printing Implicit Defensive.
Import GRing.Theory.
Local Open Scope ring_scope.

(** The array a result stands for: a numeric array stands for itself. *)
Definition arr (F : rcfType) (c : mat F) : tensor F := if c is Nm t then t else den c.

Section PropsSum.
Variable F : rcfType.
Notation tensor := (tensor F).
Notation mat := (mat F).
Variable argsort : seq F -> seq nat.
Hypothesis perm : argsort_ok argsort.
Notation answers := (answers argsort).
Implicit Types a c : mat.

Lemma res_arr c r k b (f : seq nat -> nat -> nat -> F) : is_res c r k b f -> teq (arr c) (den c).
Proof.
case: c => // t -[w _ _ _]; move: w; rewrite /= => w; have := den_tmat (w : wf (Nm t)).
exact: tmat_teq (tmat_num (w : wf (Nm t)) (or_introl erefl)).
Qed.
Lemma value_arr (m : outcome tensor) c r k b f : calm m -> hoare m (fun z => tmat z r k b f) ->
  is_res c r k b f -> is_value m (arr c).
Proof.
by move=> h1 h2 hc; apply: is_value_teq (value_tmat h1 h2 (res_tmat hc)) _; exact: res_arr hc.
Qed.

(** ** C08: subtract *)
Lemma add_side_tag (a b a' b' : mat) : tag a = tag a' -> tag b = tag b' -> tag a != 0%N -> tag b != 0%N ->
  mrows a = mrows a' -> mcols a = mcols a' -> mrows b = mrows b' -> mcols b = mcols b' -> add_side a b = add_side a' b'.
Proof.
move=> ta tb na nb r1 c1 r2 c2.
case: a ta na r1 c1 => [x|? ? ? ?|x|x|x ? ?|x|x|? ? ?|? ? ? ?|? ?];
  case: a' => [x'|? ? ? ?|x'|x'|x' ? ?|x'|x'|? ? ?|? ? ? ?|? ?] // _ _ r1 c1;
case: b tb nb r2 c2 => [y|? ? ? ?|y|y|y ? ?|y|y|? ? ?|? ? ? ?|? ?];
  case: b' => [y'|? ? ? ?|y'|y'|y' ? ?|y'|y'|? ? ?|? ? ? ?|? ?] // _ _ r2 c2;
by rewrite /add_side /samesh /full r1 c1 r2 c2.
Qed.
Lemma subtract_ok (a b : mat) : wfo a -> wfo b -> wf a \/ wf b -> shapes_ok a b -> add_side a b ->
  answers (fun o => subtract o a b) (res2 (fun x y => x - y) a b).
Proof.
move=> wa wb w so sd.
have [[ta tb]|tt] : (tag a = 0%N /\ tag b = 0%N) \/ (tag a != 0%N \/ tag b != 0%N).
  by case: (tag a); case: (tag b); auto.
- have [x ea] := tag0 ta; have [y eb] := tag0 tb; subst a b.
  apply: ans_calm; first by apply: calm_bind => //; exact: cm_map2.
  by apply: hoare_conseq (num2_ok (fun x y => x - y) wa wb w so) _ => z [].
- have E o : subtract o a b = do b' <- negative (to_matrix b); o_add o (to_matrix a) b'.
    by case: a tt {wa w so sd} => [x|? ? ? ?|x|x|x ? ?|x|x|? ? ?|? ? ? ?|? ?];
       case: b {wb} => [y|? ? ? ?|y|y|y ? ?|y|y|? ? ?|? ? ? ?|? ?] // [].
  apply: ans_ext (fun o => esym (E o)) _.
  have [ra ka na _ _] := to_matrix_ok wa; have [rb kb nb _ _] := to_matrix_ok wb.
  have wb' : wf (to_matrix b) by case: rb.
  apply: ans_bindc (cm_negative _) (negative_ok wb') _ => b' [hb' kb' tb'].
  have {}hb' : is_res b' (mrows b) (mcols b) (mbatch b) (fun be i j => - ent b be i j).
    case: rb => _ [e1 e2] e3 e4; rewrite e1 e2 e3 in hb'.
    by apply: res_ext hb' _ => be i j h1 h2 h3; rewrite e4.
  have sd' : add_side (to_matrix a) b'.
    rewrite (add_side_tag (a' := to_matrix a) (b' := to_matrix b)) ?tb' //; first exact: add_side_to_matrix.
      by case: hb' rb => _ [-> _] _ _ [_ [-> _] _ _].
    by case: hb' rb => _ [_ ->] _ _ [_ [_ ->] _ _].
  case/and3P: so => s1 s2 s3.
  by apply: ans_conseq (ans_add_res perm ra hb' s1 s2 s3 sd') _ => z [hz _].
Qed.
Theorem C08_subtract (a b : mat) : wfo a -> wfo b -> wf a \/ wf b ->
  bcok (mshape a) (mshape b) -> add_side a b ->
  answers (fun o => subtract o a b) (fun c => wf c /\ is_value (t_sub (den a) (den b)) (den c)).
Proof.
rewrite -shapes_bcok => w1 w2 w3 s1 s2; apply: ans_conseq (subtract_ok w1 w2 w3 s1 s2) _ => c h.
by split; [case: h|exact: value_map2 w1 w2 s1 h].
Qed.

(** ** C09 *)
Lemma align2t l (r : mat) : wf l -> wf r -> bcok (mbatch l) (mbatch r) ->
  hoare (align_batch [:: l; r]) (fun xs => exists l' r', [/\ xs = [:: l'; r'],
     is_res l' (mrows l) (mcols l) (bct (mbatch l) (mbatch r)) (ent l),
     is_res r' (mrows r) (mcols r) (bct (mbatch l) (mbatch r)) (ent r) &
     [/\ tag l' = tag l, tag r' = tag r, kfree l' = kfree l & kfree r' = kfree r]]).
Proof.
move=> wl wr o; rewrite /align_batch /shape_batch_broadcast /= !shape_batchE // !bind_ret.
have -> : expand_and_broadcast [:: mbatch l; mbatch r] = ret (bct (mbatch l) (mbatch r)) by apply: eab_two.
have pb := posn_bct (mbatch_pos wl) (mbatch_pos wr).
rewrite bind_ret; apply: (hoare_bind (broadcast_batch_ok wl pb (bct_ubl o))) => l' [hl kl tl].
rewrite bindA; apply: (hoare_bind (broadcast_batch_ok wr pb (bct_ubr o))) => r' [hr kr tr].
by rewrite !bind_ret; apply: hoare_ret; exists l', r'.
Qed.
Lemma res_diag_vec (x : mat) n b f : is_res x n n b f -> tag x = 3%N ->
  exists t, x = Diag t /\ tvec t n b (fun be i => f be i i).
Proof.
case: x => // t [w [e1 _] e3 e4] _; exists t; split=> //; move: (tvec_wfv (w : wfv t)).
rewrite [tcols t]e1 [behead _]e3 => h; apply: tvec_ext h _ => be i hb hi.
by rewrite -e4 //= eqxx.
Qed.
(** Summing over a batch axis. *)
Lemma sumb_ok a q : wf a -> (q < size (mbatch a))%N ->
  answers (fun o => sum_pos o a q.+2) (fun c => is_res c (mrows a) (mcols a) (del (mbatch a) q)
    (fun be i j => sb (mbatch a) q be (fun be => ent a be i j))).
Proof.
move=> w hq; have pb : posn (del (mbatch a) q) by apply: posn_del; exact: mbatch_pos.
have num t : a = Nm t \/ a = Dense t \/ a = LT t \/ a = UT t ->
  answers (fun _ => do u <- t_sum_pos t q.+2; ret (Nm u)) (fun c => is_res c (mrows a) (mcols a) (del (mbatch a) q)
    (fun be i j => sb (mbatch a) q be (fun be => ent a be i j))).
  move=> h; apply: ans_bindc (cm_sumpos _ _) (tmat_sumb (tmat_num w h) hq) _ => u hu.
  by apply: ans_ret; exact: res_num.
have gen : answers (fun o => do _ <- warn; do t <- o_dense o a; do u <- t_sum_pos t q.+2; ret (Nm u))
   (fun c => is_res c (mrows a) (mcols a) (del (mbatch a) q)
    (fun be i j => sb (mbatch a) q be (fun be => ent a be i j))).
  apply: ans_warn; apply: ans_bind (ans_dense perm w) _ => t ht.
  apply: ans_bindc (cm_sumpos _ _) (tmat_sumb ht hq) _ => u hu.
  by apply: ans_ret; exact: res_num.
case: a w hq pb num gen => [t|d b r c|t|t|t r c|t|t|l r m|d l r m|l r] w hq pb num gen.
- by apply: num; left.
- apply: ans_ret; have [p0 p1 p2] := posn3 w.
  have h := @tmat_full F d r c (del b q) 0; apply: res_ext (res_num (h _)) _; first by rewrite !posn_cons p0 p1.
  by move=> be i j _ _ _; rewrite /sb sumf0.
- by apply: num; right; left.
- have ht := tvec_wfv (w : wfv t).
  apply: ans_bindc (cm_sumpos _ _) (tvec_sumb ht hq) _ => u hu.
  apply: ans_calm; first exact: cm_mk_diag.
  rewrite (mk_diag_tvec hu); apply: hoare_ret; apply: res_ext (res_diag hu) _ => be i j _ _ _ /=.
  by case: (i == j) => //; rewrite /sb sumf0.
- have [p0 p1 p2] := posn3 (w : posn [:: c, r & sh t]).
  apply: ans_bindc (cm_sumpos _ _) (tsca_sumb (tsca_posn p2) hq) _ => u hu.
  by apply: ans_ret; exact (res_const hu p1 p0).
- by apply: num; right; right; left.
- by apply: num; right; right; right.
- exact: gen.
- rewrite /sum_pos; have wd := wf_wb_d w; have wl := wf_wb_lr w.
  have o : bcok (mbatch (Diag d : mat)) (mbatch (LR l r m)) by case: w => _ /and4P[].
  have [rl rr] : mrows l = tcols d /\ mrows r = tcols d by case: (w) => _ /and4P[_ /eqP ? /eqP ? _].
  apply: ans_bindc (cm_align_batch _) (align2t wd wl o) _ => xs [x1 [x2 [-> h1 h2 [t1 t2 _ _]]]].
  have [d' [-> hd0]] := res_diag_vec h1 t1.
  have hd' : tvec d' (tcols d) (bct (mbatch (Diag d : mat)) (mbatch (LR l r m))) (vx d) by apply: tvec_ext hd0 _ => be i _ _ /=; rewrite eqxx.
  apply: ans_bindc (cm_sumpos _ _) (tvec_sumb hd' hq) _ => u hu; rewrite /=.
  apply: ans_eq (mk_diag_tvec hu) _; have hx := res_diag hu.
  apply: ans_warn; apply: ans_bind (ans_dense_res perm h2) _ => t ht.
  apply: ans_bindc (cm_sumpos _ _) (tmat_sumb ht hq) _ => v hv; have hv' := res_num hv.
  rewrite /= rl rr in hv'.
  apply: ans_conseq (ans_add_rese perm hx hv' (bcokss _)) _ => z [hz _].
  apply: res_cast hz (bctss _) _ => be i j hb hi hj.
  rewrite /sb; case: ifP => e /=; first by rewrite -sumf_add; apply: eq_sumf.
  by rewrite add0r; apply: eq_sumf => k hk; rewrite /= add0r.
- exact: gen.
Qed.
Theorem C09_sum a (axis : int) p : wf a -> resolve_axis (size (mshape a)) axis = ret p ->
  answers (fun o => sum_op o a (Some axis)) (fun c => is_value (t_sum (den a) (Some axis)) (arr c)).
Proof.
move=> w hp; have hp' : (p < (size (mbatch a)).+2)%N.
  by move: hp; rewrite /resolve_axis /mshape /=; case: axis => n; case: ifP => // h []; lia.
rewrite /sum_op /rank_of shape_ofE //.
apply: ans_ext (_ : forall o, sum_pos o a p = _) _; first by move=> o; rewrite !bind_ret hp bind_ret.
have E : t_sum (den a) (Some axis) = t_sum_pos (den a) p by rewrite /t_sum /trank hp bind_ret.
rewrite E; case: p hp hp' E => [|[|q]] hp hp' E.
- rewrite /sum_pos; apply: ans_bind (ans_sum1 perm w) _ => t ht; apply: ans_ret.
  exact: value_tvec (cm_sumpos _ _) (tmat_sum0 (den_tmat w)) ht.
- rewrite /sum_pos; apply: ans_bind (ans_sum2 perm w) _ => t ht; apply: ans_ret.
  exact: value_tvec (cm_sumpos _ _) (tmat_sum1 (den_tmat w)) ht.
- apply: ans_conseq (sumb_ok w hp') _ => c hc.
  exact: value_arr (cm_sumpos _ _) (tmat_sumb (den_tmat w) hp') hc.
Qed.
Theorem C09_sum_all a : wf a ->
  answers (fun o => sum_op o a None) (fun c => is_value (t_sum (den a) None) (arr c)).
Proof.
move=> w; rewrite /sum_op; apply: ans_bind (ans_sumall perm w) _ => t [h1 h2]; apply: ans_ret.
exists (t_sum_all (den a)) => //; split=> /=; first by rewrite h1.
case=> [|i idx]; rewrite h1 //= => _; rewrite h2.
by have := tmat_sumall (den_tmat w); rewrite /= => ->.
Qed.
(** A sum over a matrix axis, then over the other one, is the sum over both. *)

(** ** C10 *)
Theorem C10_diag a : wf a -> dgok a ->
  answers (fun o => o_diag o a) (is_value (t_diag_extract (den a))).
Proof.
move=> w h; apply: ans_conseq (ans_diag perm w h) _ => t ht.
exact: value_tvec (cm_dx _) (tmat_diag_extract (den_tmat w)) ht.
Qed.
Theorem C10_trace a : wf a -> dgok a ->
  answers (fun o => trace o a) (fun t => is_value (do d <- t_diag_extract (den a); t_sum_pos d 0) t).
Proof.
move=> w h; apply: ans_bind (ans_diag perm w h) _ => t ht.
apply: ans_calm; first exact: cm_sumpos.
apply: hoare_conseq (tvec_sum0 ht) _ => z hz.
apply: value_tsca _ _ hz; first by apply: calm_bind => [|?]; [exact: cm_dx|exact: cm_sumpos].
by apply: hoare_bind (tmat_diag_extract (den_tmat w)) _ => d hd; exact: tvec_sum0 hd.
Qed.
End PropsSum.
Print Assumptions C08_subtract. Print Assumptions C09_sum. Print Assumptions C09_sum_all.
Print Assumptions C10_diag. Print Assumptions C10_trace.
(** The hypotheses can be met: a sum over the batch axis of a Kronecker product. *)
Example C09_ex (F : rcfType) : wf (s_kron F) /\ resolve_axis (size (mshape (s_kron F))) (Posz 0) = ret 2%N.
Proof. by split; [exact: s_kron_wf|]. Qed.
Example C10_ex (F : rcfType) : wf (s_kron F) /\ dgok (s_kron F).
Proof. by split; [exact: s_kron_wf|]. Qed.
