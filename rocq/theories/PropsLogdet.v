(** * C29: log-determinants *)
From mathcomp Require Import all_ssreflect all_algebra.
From mathcomp Require Import zify.
From Verif Require Import Outcome Monad Shape Tensor Mat Dispatch Ops Spec ShapeThy TensorThy TensorThy2 MatThy OpsOk MulOk DenseOk MmOk OpsMain Term Calm Api Bridge Samples Inhabited Ans PropsMm Types PropsStruct Ops2 PropsSum PropsLift PropsExpr Exact.
From Verif Require Import Backend SpecLA LinAlg MxThy ClsThy Solve InvThy PropsInv SolveThy CholThy PdThy PropsLA PropsChol.
Set Implicit Arguments. Unset Strict Implicit. Unset Printing Implicit Defensive.
Import Order.TTheory GRing.Theory Num.Theory.
Local Open Scope ring_scope.

(** ** Specification

    [is_log log]: the functional equation of the logarithm, which is all that is used of LAB's [log].  Objects with a
    log-determinant: positive-definite dense and Woodbury matrices, square diagonal and triangular matrices with positive
    diagonal, Kronecker products of such objects. *)
Section Spec.
Variable F : rcfType.
Notation mat := (mat F).
Definition is_log (log : F -> F) : Prop := forall x y, 0 < x -> 0 < y -> log (x * y) = log x + log y.
Definition posdiag (a : mat) : Prop :=
  mrows a = mcols a /\ forall be i, okb (mbatch a) be -> (i < mrows a)%N -> 0 < ent a be i i.
Fixpoint logdetable (a : mat) : Prop :=
  match a with
  | Nm _ | Dense _ => definite a
  | Diag _ | LT _ | UT _ => posdiag a
  | Wb _ _ _ _ => posdef a
  | Kron l r => logdetable l /\ logdetable r
  | _ => False
  end.
(** [t] has the batch shape of [a] and holds the logarithm of the determinant of every matrix of the batch. *)
Definition is_logdet (log : F -> F) (a : mat) (t : tensor F) : Prop :=
  sh t = mbatch a /\
  forall be, okb (mbatch a) be -> sx t be = log (\det (mxof (mrows a) (mrows a) a be)).
End Spec.

(** ** Determinants of Kronecker products of products of triangular matrices *)
Section Kdet.
Variable F : rcfType.
Lemma kmx_trig n1 n2 (A : 'M[F]_n1) (B : 'M[F]_n2) : is_trig_mx A -> is_trig_mx B -> is_trig_mx (kmx A B).
Proof.
move=> /is_trig_mxP hA /is_trig_mxP hB; apply/is_trig_mxP => i j h; rewrite mxE.
have /andP[i1 i2] := dm_lt (ltn_ord i); have /andP[j1 j2] := dm_lt (ltn_ord j).
have : (i %/ n2 < j %/ n2)%N || (i %% n2 < j %% n2)%N.
  move: h i2 j2; rewrite {1}(divn_eq i n2) {1}(divn_eq j n2); move: (i %/ n2)%N (j %/ n2)%N (i %% n2)%N (j %% n2)%N => a b c d h h1 h2.
  case: (ltnP a b) => //= hba; rewrite ltnNge; apply/negP => hdc; move: h; rewrite ltnNge => /negP; apply.
  by apply: leq_add => //; apply: leq_mul.
case/orP=> h'.
  by rewrite (mgetE _ i1 j1) hA // mul0r.
by rewrite (mgetE _ i2 j2) hB // mulr0.
Qed.
Lemma prod_dm n1 n2 (f : nat -> nat -> F) : \prod_(i < n1 * n2) f (i %/ n2)%N (i %% n2)%N = \prod_(i < n1) \prod_(j < n2) f i j.
Proof.
have -> : \prod_(i < n1 * n2) f (i %/ n2)%N (i %% n2)%N = \prod_(0 <= i < n1 * n2) f (i %/ n2)%N (i %% n2)%N by rewrite big_mkord.
rewrite big_nat_mul big_mkord; apply: eq_bigr => i _.
rewrite -{1}[(i * n2)%N]add0n big_addn mulSnr addKn big_mkord; apply: eq_bigr => j _.
have n0 : (0 < n2)%N by apply: leq_ltn_trans (ltn_ord j).
by rewrite addnC divnMDl // divn_small // addn0 modnMDl modn_small.
Qed.
Lemma det_kmx_trig n1 n2 (A : 'M[F]_n1) (B : 'M[F]_n2) : is_trig_mx A -> is_trig_mx B ->
  \det (kmx A B) = \det A ^+ n2 * \det B ^+ n1.
Proof.
move=> hA hB; rewrite (det_trig (kmx_trig hA hB)) (det_trig hA) (det_trig hB).
rewrite (eq_bigr (fun i : 'I_(n1 * n2) => mget A (i %/ n2) (i %/ n2) * mget B (i %% n2) (i %% n2))) => [|i _]; last by rewrite mxE.
rewrite (prod_dm n1 n2 (fun i j => mget A i i * mget B j j)).
rewrite (eq_bigr (fun i : 'I_n1 => A i i ^+ n2 * \prod_(j < n2) B j j)) => [|i _].
  by rewrite big_split /= -prodrXl prodr_const card_ord.
rewrite big_split /= prodr_const card_ord mget_ord; congr (_ * _).
by apply: eq_bigr => j _; rewrite mget_ord.
Qed.
Definition lu n (A : 'M[F]_n) : Prop := exists L U : 'M[F]_n, [/\ A = L *m U, is_trig_mx L & is_trig_mx U^T].
Lemma lu_kmx n1 n2 (A : 'M[F]_n1) (B : 'M[F]_n2) : lu A -> lu B -> lu (kmx A B).
Proof.
move=> [L [U [-> hL hU]]] [L' [U' [-> hL' hU']]]; exists (kmx L L'), (kmx U U').
by rewrite kmx_mul kmx_tr; split=> //; apply: kmx_trig.
Qed.
Lemma det_kmx_lu n1 n2 (A : 'M[F]_n1) (B : 'M[F]_n2) : lu A -> lu B -> \det (kmx A B) = \det A ^+ n2 * \det B ^+ n1.
Proof.
move=> [L [U [-> hL hU]]] [L' [U' [-> hL' hU']]]; rewrite -kmx_mul !det_mulmx (det_kmx_trig hL hL').
by rewrite -(det_tr (kmx _ _)) kmx_tr (det_kmx_trig hU hU') !det_tr !exprMn mulrACA.
Qed.
Lemma lu_pd n (A : 'M[F]_n) : pd A -> lu A.
Proof.
move=> h; exists (chol_f A), (chol_f A)^T; rewrite trmxK (chol_gram (proj1 h) (chol_pd h)).
by split=> //; exact: chol_trig.
Qed.
Lemma trig1 n : is_trig_mx (1%:M : 'M[F]_n).
Proof. by apply/is_trig_mxP => i j h; rewrite mxE -val_eqE /= ltn_eqF. Qed.
Lemma lu_lower n (A : 'M[F]_n) : is_trig_mx A -> lu A.
Proof. by move=> h; exists A, 1%:M; rewrite mulmx1 trmx1; split=> //; exact: trig1. Qed.
Lemma lu_upper n (A : 'M[F]_n) : is_trig_mx A^T -> lu A.
Proof. by move=> h; exists 1%:M, A; rewrite mul1mx; split=> //; exact: trig1. Qed.
End Kdet.

Section PropsLogdet.
Variable F : rcfType.
Notation tensor := (tensor F).
Notation mat := (mat F).
Variable argsort : seq F -> seq nat.
Hypothesis perm : argsort_ok argsort.
Notation answers := (answers argsort).
Variable log : F -> F.
Hypothesis lg : is_log log.
Implicit Types a b c l r : mat.

Lemma log1 : log 1 = 0.
Proof. by have := lg ltr01 ltr01; rewrite mulr1 => /(congr1 (fun x => x - log 1)); rewrite addrK subrr. Qed.
Lemma log_prod n (g : 'I_n -> F) : (forall i, 0 < g i) -> log (\prod_i g i) = \sum_i log (g i).
Proof.
elim: n g => [|n IH] g h; first by rewrite !big_ord0 log1.
by rewrite !big_ord_recl lg ?IH //; apply: prodr_gt0 => i _.
Qed.
Lemma log_exp x n : 0 < x -> log (x ^+ n) = log x * n%:R.
Proof.
move=> h; elim: n => [|n IH]; first by rewrite expr0 log1 mulr0.
by rewrite exprS lg ?exprn_gt0 // IH -addn1 natrD mulrDr mulr1 addrC.
Qed.
Lemma tvec_log (t : tensor) n (b : shape) g : tvec t n b g -> tvec (t_log log t) n b (fun be i => log (g be i)).
Proof. by case=> h1 h2 h3; split=> // be i hb hi; rewrite -h3. Qed.
Lemma logdet_vec (t : tensor) n (b : shape) g (X : seq nat -> 'M[F]_n) : tvec t n b g ->
  (forall be i, okb b be -> (i < n)%N -> 0 < g be i) ->
  (forall be, okb b be -> \det (X be) = \prod_(i < n) g be i) ->
  exists2 z, t_sum_pos (t_log log t) 0 = ret z & tsca z b (fun be => log (\det (X be))).
Proof.
move=> ht hp hd; have [z e hz] := calm_hoare (cm_sumpos _ _) (tvec_sum0 (tvec_log ht)); exists z => //.
apply: tsca_ext hz _ => be hb; rewrite hd // log_prod => [|i]; last by apply: hp.
by rewrite sumfE big_mkord.
Qed.
Lemma det_upper n (A : 'M[F]_n) : is_trig_mx A^T -> \det A = \prod_i A i i.
Proof. by move=> h; rewrite -det_tr (det_trig h); apply: eq_bigr => i _; rewrite mxE. Qed.
(** Diagonal and triangular objects. *)
Lemma tri_trig (x : mat) n (b : shape) (X : seq nat -> 'M[F]_n) be : isdlu x -> is_mx x b X -> okb b be -> is_trig_mx (X be) \/ is_trig_mx (X be)^T.
Proof.
move=> d h hb; case: x d h => // t _.
- by case=> w [e1 e2] e3 <- //; left; apply/is_trig_mxP => i j h; rewrite mxE /= ltn_eqF.
- case=> -[w lo] [/= e1 e2] /= e3 <- //; left; apply/is_trig_mxP => i j h; rewrite mxE /=.
  by apply: lo; rewrite ?e1 ?e2 ?e3.
- case=> -[w lo] [/= e1 e2] /= e3 <- //; right; apply/is_trig_mxP => i j h; rewrite !mxE /=.
  by apply: lo; rewrite ?e1 ?e2 ?e3.
Qed.
Lemma tri_det (x : mat) n (b : shape) (X : seq nat -> 'M[F]_n) be : isdlu x -> is_mx x b X -> okb b be -> \det (X be) = \prod_i X be i i.
Proof. by move=> d h hb; case: (tri_trig d h hb) => [/det_trig|/det_upper]. Qed.
Lemma logdet_tri (x : mat) n k (b : shape) (X : seq nat -> 'M[F]_n) : is_mx x b X -> isdlu x -> (0 < k)%N ->
  (forall be (i : 'I_n), okb b be -> 0 < X be i i) ->
  answers (fun o => logdet_n o log k x) (fun t => tsca t b (fun be => log (\det (X be)))).
Proof.
case: k => // k hx d _ hp.
apply: ans_ext (_ : forall o, logdet_diag o log x = _) _; first by clear -d; case: x d.
have dx : dgok x by clear -d; case: x d.
apply: ans_bind (ans_diag_res perm (mx_res hx) dx) _ => t; rewrite minnn => ht.
have [be i hb hi|be hb|z e hz] := logdet_vec (X := X) ht.
- by rewrite (mgetE _ hi hi); exact: hp.
- by rewrite (tri_det d hx hb); apply: eq_bigr => i _; rewrite mget_ord.
by apply: ans_ext (fun o => esym e) _; exact: ans_ret.
Qed.
Lemma chol_logdet n (A : 'M[F]_n) : pd A -> log (\det (chol_f A)) * 2%:R = log (\det A).
Proof.
move=> h; have ok := chol_pd h; have p : 0 < \det (chol_f A) by apply: trig_det_gt0 => [|i]; [exact: chol_trig|exact: chol_diag].
by rewrite -[in RHS](chol_gram (proj1 h) ok) det_mulmx det_tr lg // mulr_natr mulr2n.
Qed.
(** Dense matrices. *)
Lemma logdet_dense a k : wf a -> definite a -> match a with Nm _ | Dense _ => true | _ => false end -> (1 < k)%N ->
  answers (fun o => logdet_n o log k a) (fun t => tsca t (mbatch a) (fun be => log (\det (mxof (mrows a) (mrows a) a be)))).
Proof.
case: k => // k w [sq hp] da hk; have ha := mx_wf w erefl (esym sq).
case: a w sq hp da ha => // t w sq hp _ ha.
  have ht := num_mx_inv (or_introl erefl) ha; have [z e hz] := t_chol_ok ht (fun be hb => chol_pd (hp be hb)).
  apply: (ans_eq e).
  have [v ev] := calm_hoare (cm_dx _) (tmat_diag_extract hz); rewrite minnn => hv; apply: (ans_eq ev).
  have [be i hb hi|be hb|s es hs] := logdet_vec (X := fun be => chol_f (mxof (mrows (Nm t)) (mrows (Nm t)) (Nm t) be)) hv.
  - by rewrite (mgetE _ hi hi); apply: chol_diag; apply: chol_pd; exact: hp.
  - by rewrite (det_trig (chol_trig _)); apply: eq_bigr => i _; rewrite mget_ord.
  apply: (ans_eq es); apply: ans_ret; apply: tsca_ext (tsca_map _ hs) _ => be hb; apply: chol_logdet; exact: hp.
have ht := num_mx_inv (or_intror (or_introl erefl)) ha; have [z e hz] := t_chol_ok ht (fun be hb => chol_pd (hp be hb)).
pose C be := chol_f (mxof (mrows (Dense t)) (mrows (Dense t)) (Dense t) be).
have hC : is_mx (LT z) (mbatch (Dense t)) C by apply: trig_lower => // be hb; exact: chol_trig.
apply: ans_ext (_ : forall o, (do x <- logdet_n o log k (LT z); ret (t_scale 2%:R x)) = _) _ => [o|].
  by rewrite [in RHS]/= (assert_squareE w sq) bind_ret e bind_ret (mk_lt_tmat hz) bind_ret.
apply: ans_bind (logdet_tri hC isT hk _) _ => [be i hb|x hx].
  by apply: chol_diag; apply: chol_pd; exact: hp.
by apply: ans_ret; apply: tsca_ext (tsca_map _ hx) _ => be hb; apply: chol_logdet; exact: hp.
Qed.
Lemma logdetable_sq a : logdetable a -> mrows a = mcols a.
Proof.
elim: a => //= [t [] //|t [] //|t [] //|t [] //|l IHl r IHr [hl hr]].
by rewrite IHl // IHr.
Qed.
Lemma tri_lu a n : wf a -> isdlu a -> posdiag a -> mrows a = n -> forall be, okb (mbatch a) be -> lu (mxof n n a be) /\ 0 < \det (mxof n n a be).
Proof.
move=> w d [sq h] en be hb; have ha := mx_wf w en (etrans (esym sq) en).
split; first by case: (tri_trig d ha hb); [exact: lu_lower|exact: lu_upper].
by rewrite (tri_det d ha hb); apply: prodr_gt0 => i _; rewrite mxE; apply: h => //; rewrite en.
Qed.
Lemma logdetable_lu a n : wf a -> logdetable a -> mrows a = n -> forall be, okb (mbatch a) be -> lu (mxof n n a be) /\ 0 < \det (mxof n n a be).
Proof.
elim: a n => [t|d b r c|t|t|t r c|t|t|l IHl r IHr m IHm|d l IHl r IHr m IHm|l IHl r IHr] n w h en be hb //.
1,2: by case: h => _ h; subst n; split; [apply: lu_pd|apply: pd_det]; apply: h.
1,2,3: exact: tri_lu.
- by have hp := posdef_pd w h en hb; split; [exact: lu_pd|exact: pd_det].
case: (h) => hl hr; case: (w) => wl wr o; subst n; move: (hb); rewrite okb_bct // => /andP[b1 b2].
have [l1 l2] := IHl _ wl hl erefl be b1; have [r1 r2] := IHr _ wr hr erefl be b2.
have -> : mxof (mrows (Kron l r)) (mrows (Kron l r)) (Kron l r) be = kmx (mxof (mrows l) (mrows l) l be) (mxof (mrows r) (mrows r) r be).
  by apply: mxof_kron => //; apply/esym; apply: logdetable_sq.
by split; [exact: lu_kmx|rewrite det_kmx_lu // mulr_gt0 // exprn_gt0].
Qed.
Lemma posdef_logdetable a : wf a -> posdef a -> logdetable a.
Proof.
elim: a => [t|d b r c|t|t|t r c|t|t|l IHl r IHr m IHm|d l IHl r IHr m IHm|l IHl r IHr] w h //.
  case: h => sq h; split=> // be i hb hi; by have := pd_diag_gt0 (Ordinal hi) (h be hb); rewrite mxE.
by case: h w => hl hr [wl wr _]; split; [apply: IHl|apply: IHr].
Qed.
Lemma tri_ld a k : wf a -> isdlu a -> posdiag a -> (0 < k)%N ->
  answers (fun o => logdet_n o log k a) (fun t => tsca t (mbatch a) (fun be => log (\det (mxof (mrows a) (mrows a) a be)))).
Proof.
move=> w d [sq h] hk; have ha := mx_wf w erefl (esym sq); apply: (logdet_tri ha d hk) => be i hb; rewrite mxE; exact: h.
Qed.
Lemma simple_ld a k : wf a -> issimple a -> definite a -> (1 < k)%N ->
  answers (fun o => logdet_n o log k a) (fun t => tsca t (mbatch a) (fun be => log (\det (mxof (mrows a) (mrows a) a be)))).
Proof.
move=> w; case: a w => // t w _ h hk; [exact: logdet_dense|exact: logdet_dense|].
apply: tri_ld => //; [exact: (posdef_logdetable w h)|exact: ltnW].
Qed.
Lemma logdet_main a k : wf a -> logdetable a -> (mdepth a + 1 < k)%N ->
  answers (fun o => logdet_n o log k a) (fun t => tsca t (mbatch a) (fun be => log (\det (mxof (mrows a) (mrows a) a be)))).
Proof.
elim: a k => [t|d b r c|t|t|t r c|t|t|l IHl r IHr m IHm|d l IHl r IHr m IHm|l IHl r IHr] k w h hk //.
1,2: exact: logdet_dense.
1,2,3: by apply: tri_ld => //; case: k hk.
- case: k hk => // k hk; have [n en] : exists n, mrows (Wb d l r m) = n by eexists.
  have [hd hl hr [p1 p2 p3 p4 br]] := wbp w h en erefl; have [ud ul ur um'] := wbu w.
  have [[_ _ wm kf _] /and4P[wd _ _ _]] := w; set p := mrows m in hl hr p1 p2 p3 p4.
  have hk' : (mdepth m + 1 < k)%N by clear -hk; move: hk => /=; lia.
  have [hm ss dd _] := h; have pm := posdef_pd wm hm (erefl : mrows m = p).
  have pdd := wb_dpos h en.
  have k0 : (1 < k)%N by clear -hk'; lia.
  have im := pd_inv_main perm wm hm (erefl : mrows m = p) hk'.
  have nz be i : okb (behead (sh d)) be -> (i < n)%N -> vx d be i != 0.
    by move=> hb hi; rewrite gt_eqF //; apply: pd_dmx hi; exact: pdd.
  rewrite br in ur; move E : (mbatch (Wb d l r m)) ud ul ur um' => u ud ul ur um'.
  have ue : u = bct (mbatch m) (bct (bct (mbatch l) (behead (sh d))) (mbatch l)) by rewrite (@bs_eq u) // -E /= br.
  apply: ans_bind (simple_ld (a := Diag d) wd isT dd k0) _ => x hx.
  apply: ans_bind (IHm k wm (posdef_logdetable wm hm) hk') _ => y hy.
  have o1 : bcok (behead (sh d)) (mbatch m) by apply: (@bcok_ub u).
  have [xy exy hxy] := calm_hoare (cm_map2 _ _ _) (tsca_map2 (fun x y => x + y) hx hy o1).
  apply: (ans_eq exy).
  apply: ans_bind (schur_ok perm hd hl hr ud ul ur um' kf nz im ss) _ => s [hs _ ts]; rewrite -ue in hs.
  have [ws [s1 s2] s3 s4] := hs.
  have pS be : okb u be -> pd (wb_S (dmx n (vx d be)) (mxof n p l be) (mxof n p l be) (mxof p p m be)).
    by move=> hb; apply: schur_pd; [exact: pdd (okb_mono ud hb)|exact: pm (okb_mono um' hb)].
  have ds : definite s by split; rewrite s1 ?s2 // => be; rewrite s3 => hb; rewrite s4 //; exact: pS.
  have is_s : issimple s by move: ts; clear; case: s.
  apply: ans_bind (simple_ld ws is_s ds k0) _ => z; rewrite s1 s3 => hz.
  have o2 : bcok (bct (behead (sh d)) (mbatch m)) u by apply: (@bcok_ub u); rewrite ?bto_bct_ub ?bto_refl.
  have [t et ht] := calm_hoare (cm_map2 _ _ _) (tsca_map2 (fun x y => x + y) hxy hz o2).
  apply: ans_ext (fun o => esym et) _; apply: ans_ret.
  have eu : bct (bct (behead (sh d)) (mbatch m)) u = u.
    by apply: bto_bctE => //; rewrite bto_bct_ub.
  rewrite eu in ht; apply: tsca_ext ht _ => be hb.
  rewrite en (wbE w h en erefl) ?E // wb_det; last 2 first.
  + by apply: pd_unit; exact: pdd (okb_mono ud hb).
  + by apply: pd_unit; exact: pm (okb_mono um' hb).
  rewrite s4 // lg; last by apply: pd_det; exact: pS.
    rewrite lg; [|by apply: pd_det; exact: pdd (okb_mono ud hb)|by apply: pd_det; exact: pm (okb_mono um' hb)].
    by rewrite /= (en : tcols d = n) !mxofE dmxE.
  by apply: mulr_gt0; apply: pd_det; [exact: pdd (okb_mono ud hb)|exact: pm (okb_mono um' hb)].
- case: k hk => // k hk; case: (h) => hl hr; case: (w) => wl wr o.
  have [hk1 hk2] : (mdepth l + 1 < k)%N /\ (mdepth r + 1 < k)%N by clear -hk; move: hk => /=; lia.
  have [sl sr] := (logdetable_sq hl, logdetable_sq hr).
  apply: ans_ext (_ : forall o, (do x <- logdet_n o log k l; do y <- logdet_n o log k r; t_add (t_scale (mrows r)%:R x) (t_scale (mrows l)%:R y)) = _) _.
    by move=> op; rewrite [in RHS]/= !assert_squareE // !bind_ret !shape_matrixE // !bind_ret.
  apply: ans_bind (IHl k wl hl hk1) _ => x hx; apply: ans_bind (IHr k wr hr hk2) _ => y hy.
  have [t et ht] := calm_hoare (cm_map2 _ _ _) (tsca_map2 (fun x y => x + y) (tsca_map (fun y => y * (mrows r)%:R) hx) (tsca_map (fun y => y * (mrows l)%:R) hy) o).
  apply: ans_ext (fun o => esym et) _; apply: ans_ret; apply: tsca_ext ht _ => be hb.
  move: (hb); rewrite okb_bct // => /andP[b1 b2].
  have [l1 l2] := logdetable_lu wl hl erefl b1; have [r1 r2] := logdetable_lu wr hr erefl b2.
  have -> : mxof (mrows (Kron l r)) (mrows (Kron l r)) (Kron l r) be = kmx (mxof (mrows l) (mrows l) l be) (mxof (mrows r) (mrows r) r be).
    by apply: mxof_kron.
  by rewrite det_kmx_lu // lg ?exprn_gt0 // !log_exp.
Qed.

Theorem C29_logdet a k : wf a -> logdetable a -> (mdepth a + 1 < k)%N -> answers (fun o => logdet_n o log k a) (is_logdet log a).
Proof. by move=> w h hk; apply: ans_conseq (logdet_main w h hk) _ => t [h1 h2 h3]. Qed.
Theorem C29_logdet_pd a k : wf a -> posdef a -> (mdepth a + 1 < k)%N -> answers (fun o => logdet_n o log k a) (is_logdet log a).
Proof. by move=> w h; apply: C29_logdet => //; exact: posdef_logdetable. Qed.
(** The determinants are positive, so that the logarithms are meaningful. *)
Theorem C29_det_gt0 a be : wf a -> logdetable a -> okb (mbatch a) be -> 0 < \det (mxof (mrows a) (mrows a) a be).
Proof. by move=> w h hb; case: (logdetable_lu w h erefl hb). Qed.
(** The log-determinant of a zero or constant matrix is defined as that of its Cholesky factor, which has the same
    class: the recursion never ends, whatever the recursion limit. *)
Theorem C29_logdet_zero_refuted d (s : shape) (n k : nat) o : wf (@Zero F d s n n) -> logdet_n o log k (Zero d s n n) = Raise RecursionError.
Proof.
move=> w; elim: k => // k IH; rewrite [LHS]/= (assert_squareE w erefl) bind_ret bind_ret IH //.
Qed.
Theorem C29_logdet_const_refuted (t : tensor) (n k : nat) o : wf (Const t n n) -> logdet_n o log k (Const t n n) = Raise RecursionError.
Proof.
elim: k t => // k IH t w; rewrite [LHS]/= (assert_squareE w erefl) bind_ret.
have p : posn (sh t) by move: w; rewrite /= !posn_cons => /and3P[].
have ht : tsca t (sh t) (sx t) by [].
have hs : tsca (t_scalar DFloat64 (Num.sqrt n%:R : F)) [::] (fun _ => Num.sqrt n%:R) by [].
have [z e hz] := calm_hoare (cm_map2 _ _ _) (tsca_map2 (fun x y : F => x / y) (tsca_map Num.sqrt ht) hs (bcoks0 _)).
rewrite [t_div _ _]e !bind_ret IH //; case: hz => e1 e2 _; move: w; rewrite bcts0 in e1; by rewrite /= e1.
Qed.
(** Without Woodbury matrices the call returns, unconditionally. *)
Lemma xe_logdet n k a : nw a -> xe (logdet_n (ops_n argsort n) log k a).
Proof.
have X := xk_n argsort n; elim: k a => // k IH a h.
have dg : xe (logdet_diag (ops_n argsort n) log a) by apply: xe_bind => [|t]; [exact: (xk_diag X)|exact: xe_sumpos].
have gen : xe (do c <- cholesky (ops_n argsort n) a; do t <- logdet_n (ops_n argsort n) log k c; ret (t_scale 2%:R t)).
  by apply: xh_bind (xh_chol argsort n h) _ => c hc; apply: xe_bind => [|t //]; exact: IH.
case: a h dg gen => [t|d b r c|t|t|t r c|t|t|l r m|d l r m|l r] h dg gen //.
  by apply: xe_bind => [|u]; [exact: xe_square2|apply: xe_bind => [|v]; [exact: xe_dx|apply: xe_bind => [|w //]; exact: xe_sumpos]].
case/andP: h => hl hr /=; apply: xe_bind => [|_]; first exact: xe_asq. apply: xe_bind => [|_]; first exact: xe_asq.
apply: xe_bind => [|[? ?]]; first exact: xe_sm. apply: xe_bind => [|[? ?]]; first exact: xe_sm.
apply: xe_bind => [|x]; first exact: IH. apply: xe_bind => [|y]; [exact: IH|exact: xe_map2].
Qed.
Theorem C29_logdet_exact a k : wf a -> logdetable a -> nw a -> (mdepth a + 1 < k)%N -> returns argsort (fun o => logdet_n o log k a) (is_logdet log a).
Proof. by move=> w h hn hk; apply: ans_returns (C29_logdet w h hk) => n; exact: xe_logdet. Qed.
End PropsLogdet.

(** ** Non-vacuity *)
Section Examples.
Variable F : rcfType.
Example C29_ex : wf (Kron (e_wb F) (e_lt F)) /\ logdetable (Kron (e_wb F) (e_lt F)).
Proof.
split; first by split=> //; exact: e_lt_wf.
split; first exact: (posdef_logdetable (e_wb_wf F) (e_wb_pd F)).
by split=> // be i hb hi; rewrite /= /mx /= leqnn ltr01.
Qed.
Example C29_ex_zero : wf (@Zero F DInt [::] 2 2) /\ wf (Const (t_ones DInt [::] : tensor F) 2 2).
Proof. by []. Qed.
End Examples.

Print Assumptions C29_logdet. Print Assumptions C29_logdet_pd. Print Assumptions C29_det_gt0. Print Assumptions C29_logdet_exact.
Print Assumptions C29_logdet_zero_refuted. Print Assumptions C29_logdet_const_refuted.
