(** * C27, C28: Cholesky factors and solves *)
From mathcomp Require Import all_ssreflect all_algebra.
From mathcomp Require Import zify.
From Verif Require Import Outcome Monad Shape Tensor Mat Dispatch Ops Spec ShapeThy TensorThy TensorThy2 MatThy OpsOk MulOk DenseOk MmOk OpsMain Term Calm Api Bridge Samples Inhabited Ans PropsMm Types PropsStruct Ops2 PropsSum PropsLift PropsExpr Exact.
From Verif Require Import Backend SpecLA LinAlg MxThy ClsThy Solve InvThy PropsInv SolveThy CholThy PdThy PropsLA.
Set Implicit Arguments. Unset Strict Implicit. Unset Printing Implicit Defensive.
Import Order.TTheory GRing.Theory Num.Theory.
Local Open Scope ring_scope.

(** ** Specification

    Which objects have a Cholesky factor: dense and Woodbury matrices which are positive definite, square zero matrices,
    diagonal matrices and square constant matrices with non-negative entries, low-rank matrices [l m l^T] whose middle
    factor has one, Kronecker products whose factors have one. *)
Section Spec.
Variable F : rcfType.
Notation mat := (mat F).
Fixpoint cholable (a : mat) : Prop :=
  match a with
  | Nm _ | Dense _ | Wb _ _ _ _ => definite a
  | Zero _ _ r c => r = c
  | Diag _ => forall be i, okb (mbatch a) be -> (i < mrows a)%N -> 0 <= ent a be i i
  | Const _ r c => r = c /\ forall be, okb (mbatch a) be -> 0 <= ent a be 0 0
  | LR l r m => cholable m /\ teq (den l) (den r)
  | Kron l r => cholable l /\ cholable r
  | LT _ | UT _ => False
  end.
(** [c] is a factor of [a]: [c c^T = a]. *)
Definition factor_of (a c : mat) : Prop :=
  [/\ wf c, mrows c = mrows a, mbatch c = mbatch a &
      forall be, okb (mbatch a) be -> let n := mrows a in let w := mcols c in
        mxof n w c be *m (mxof n w c be)^T = mxof n n a be].
(** [x] solves [a x = b]. *)
Definition solves (a b x : mat) : Prop :=
  [/\ wf x, mshape x = [:: mcols b, mrows a & bct (mbatch a) (mbatch b)] &
      forall be, okb (bct (mbatch a) (mbatch b)) be -> let n := mrows a in let m := mcols b in
        mxof n n a be *m mxof n m x be = mxof n m b be].
(** [x] solves [c c^T x = b]. *)
Definition csolves (c b x : mat) : Prop :=
  [/\ wf x, mshape x = [:: mcols b, mrows c & bct (mbatch c) (mbatch b)] &
      forall be, okb (bct (mbatch c) (mbatch b)) be -> let n := mrows c in let m := mcols b in
        mxof n n c be *m (mxof n n c be)^T *m mxof n m x be = mxof n m b be].
(** The systems which [cholesky_solve] handles: [c] is diagonal or triangular, or both are Kronecker products of such
    systems. *)
Fixpoint csystem (c b : mat) : Prop :=
  match c, b with
  | Kron l r, Kron l' r' => csystem l l' /\ csystem r r'
  | (Diag _ | LT _ | UT _), _ => [/\ regular c, mrows c = mrows b & cls b = TZero -> bto (mbatch c) (mbatch b)]
  | _, _ => False
  end.
End Spec.

Section PropsChol.
Variable F : rcfType.
Notation tensor := (tensor F).
Notation mat := (mat F).
Variable argsort : seq F -> seq nat.
Hypothesis perm : argsort_ok argsort.
Notation answers := (answers argsort).
Notation raises := (raises argsort).
Implicit Types a b c l r m x y : mat.

(** ** C27 *)
Definition chcls (t : ty) : ty := match t with TDense | TWb => TLT | t => t end.
Definition chol_gen_of a c : Prop := exists w, exists C : seq nat -> 'M[F]_(mrows a, w),
  [/\ is_mx c (mbatch a) C, forall be, okb (mbatch a) be -> C be *m (C be)^T = mxof (mrows a) (mrows a) a be,
      kfree a -> kfree c & cls a <> TLR -> cls c = if ismat a then chcls (cls a) else TDense].
Lemma cholable_sq a : wf a -> cholable a -> mrows a = mcols a.
Proof.
elim: a => [t|d b r c|t|t|t r c|t|t|l IHl r IHr m IHm|d l IHl r IHr m IHm|l IHl r IHr] //=.
1,2: by move=> _ [].
- by move=> _ [].
- by move=> _ [_ [/= [_ ->]]].
- by move=> [wl wr _] [hl hr]; rewrite IHl // IHr.
Qed.
Lemma cholesky_gen a : wf a -> cholable a -> answers (fun o => cholesky o a) (chol_gen_of a).
Proof.
elim: a => [t|d b r c|t|t|t r c|t|t|l IHl r IHr m IHm|d l IHl r IHr m IHm|l IHl r IHr] w h //.
- have := h => -[sq hp]; have ha := mx_wf w erefl (esym sq).
  have ht := num_mx_inv (or_introl erefl) ha; have [z e hz] := t_chol_ok ht (fun be hb => chol_pd (hp be hb)).
  apply: (ans_eq e); apply: ans_ret; exists _, (fun be => chol_f (mxof (mrows (Nm t)) (mrows (Nm t)) (Nm t) be)); split=> //; first exact: mx_num.
  by move=> be hb; exact: (chol_gram (proj1 (hp be hb)) (chol_pd (hp be hb))).
- have sq : mrows (@Zero F d b r c) = mcols (@Zero F d b r c) by [].
  apply: ans_ext (_ : forall o, ret (Zero d b r c) = _) _ => [o|]; first by rewrite /= (assert_squareE w sq) bind_ret.
  apply: ans_ret; exists c, (fun _ => 0); split=> //.
    by split=> // be hb; apply/matrixP => i j; rewrite !mxE.
  by move=> be hb; rewrite mul0mx; apply/matrixP => i j; rewrite !mxE.
- have := h => -[sq hp]; have ha := mx_wf w erefl (esym sq).
  have ht := num_mx_inv (or_intror (or_introl erefl)) ha; have [z e hz] := t_chol_ok ht (fun be hb => chol_pd (hp be hb)).
  apply: (ans_eq (assert_squareE w sq)); apply: (ans_eq e).
  apply: ans_ext (_ : forall o, ret (LT z) = _) _; first by move=> o; rewrite (mk_lt_tmat hz).
  apply: ans_ret; exists _, (fun be => chol_f (mxof (mrows (Dense t)) (mrows (Dense t)) (Dense t) be)); split=> //.
  + by apply: trig_lower => // be hb; exact: chol_trig.
  + by move=> be hb; exact: (chol_gram (proj1 (hp be hb)) (chol_pd (hp be hb))).
- have ha : is_mx (Diag t) (mbatch (Diag t)) (mxof (mrows (Diag t)) (mrows (Diag t)) (Diag t)) by exact: mx_wf.
  have [ht e] := diag_mx_inv ha; have hz := tvec_map Num.sqrt ht.
  apply: (ans_eq (assert_squareE w erefl)); apply: ans_ext (_ : forall o, ret (Diag (t_map Num.sqrt t)) = _) _.
    by move=> o; rewrite (mk_diag_tvec hz).
  apply: ans_ret; exists _, (fun be => dmx (mrows (Diag t)) (fun i => Num.sqrt (vx t be i))); split=> //; first exact: mx_diag.
  move=> be hb; rewrite dmx_sym dmx_mul e //; apply: dmx_ext => i hi; rewrite -expr2 sqr_sqrtr //.
  by have := h be i hb hi; rewrite /= eqxx.
- case: (h) => sq hp; have sq' : mrows (Const t r c) = mcols (Const t r c) by [].
  apply: (ans_eq (assert_squareE w sq')).
  have [[r0 c0 p]] : [/\ (0 < r)%N, (0 < c)%N & posn (sh t)] by move: w; rewrite /= !posn_cons => /and3P[].
  have ht : tsca t (sh t) (sx t) by split.
  have hs : tsca (t_scalar DFloat64 (Num.sqrt c%:R : F)) [::] (fun _ => Num.sqrt c%:R) by [].
  have [z e hz] := calm_hoare (cm_map2 _ _ _) (tsca_map2 (fun x y : F => x / y) (tsca_map Num.sqrt ht) hs (bcoks0 _)).
  rewrite bcts0 in hz; apply: (ans_eq e); apply: ans_ret.
  exists c, (fun be => gmx r c (fun _ _ => Num.sqrt (sx t be) / Num.sqrt c%:R)); split=> //.
    exact: (res_mx (res_const hz r0 c0)).
  move=> be hb; apply/matrixP => i j; rewrite !mxE.
  rewrite (eq_bigr (fun _ => sx t be / c%:R)) => [|k _]; last first.
    rewrite !mxE mulrACA -invfM -!expr2 !sqr_sqrtr ?ler0n //; exact: (hp be hb).
  rewrite sumr_const card_ord -mulr_natr mulfVK // pnatr_eq0 -lt0n //.
- case: (h) => hm te; have [wl wr wm kf /and4P[/eqP p1 /eqP p2 _ _]] := w.
  have [e1 e2 e3 e4] := teq_same wl wr te erefl erefl.
  have sq : mrows (LR l r m) = mcols (LR l r m) by [].
  apply: (ans_eq (assert_squareE w sq)).
  apply: ans_bind (IHm wm hm) _ => x [v [C [hx gC kx tx]]].
  rewrite -p1 in C hx gC *.
  have hl : is_mx l (mbatch l) (mxof (mrows l) (mcols l) l) by exact: mx_wf.
  have [o1 o2] : bcok (mbatch l) (mbatch m) /\ mbatch (LR l r m) = bct (mbatch l) (mbatch m).
    by move: w => -[_ _ _ _ /and4P[_ _ _]]; rewrite /= e3 bctss.
  case/and3P: kf => kl kr km.
  apply: ans_conseq (ans_mm_mx perm hl hx o1 (mm_side_kfree _ _ _)) _ => [|z [hz kz tz]]; first by rewrite kl.
  exists v, (fun be => mxof (mrows l) (mcols l) l be *m C be); split=> //.
  + by rewrite o2.
  + move=> be hb; move: (hb); rewrite o2 okb_bct // => /andP[b1 b2].
    have -> : mxof (mrows (LR l r m)) (mrows (LR l r m)) (LR l r m) be = mxof (mrows l) (mcols l) l be *m mxof (mcols l) (mcols l) m be *m (mxof (mrows l) (mcols l) l be)^T.
      by rewrite /= (mxof_lr m (mrows l) (mrows l) be erefl e2) e4.
    by rewrite trmx_mul !mulmxA -(mulmxA _ (C be)) gC.
  + by rewrite kz // kl.
- have := h => -[sq hp]; have ha := mx_wf w erefl (esym sq).
  apply: ans_ext (_ : forall o, (do _ <- warn_if true; do t <- o_dense o (Wb d l r m); do u <- t_chol t; mk_lt u) = _) _ => //.
  apply: ans_warn; apply: ans_bind (ans_dense_mx perm ha) _ => t ht.
  have [z e hz] := t_chol_ok ht (fun be hb => chol_pd (hp be hb)).
  apply: (ans_eq e); apply: ans_ext (_ : forall o, ret (LT z) = _) _; first by move=> o; rewrite (mk_lt_tmat hz).
  apply: ans_ret; exists _, (fun be => chol_f (mxof (mrows (Wb d l r m)) (mrows (Wb d l r m)) (Wb d l r m) be)); split=> //.
  + by apply: trig_lower => // be hb; exact: chol_trig.
  + by move=> be hb; exact: (chol_gram (proj1 (hp be hb)) (chol_pd (hp be hb))).
- case: (h) => hl hr; case: (w) => wl wr o.
  apply: ans_bind (IHl wl hl) _ => x [v1 [X [hx gx kx tx]]]; apply: ans_bind (IHr wr hr) _ => y [v2 [Y [hy gy ky ty]]].
  apply: ans_ret; exists (v1 * v2)%N, (fun be => kmx (X be) (Y be)); split=> //; first exact: mx_kron.
  move=> be hb; rewrite kmx_tr kmx_mul; move: (hb); rewrite okb_bct // => /andP[b1 b2]; rewrite gx // gy //.
  by apply/esym; apply: mxof_kron => //; apply/esym; apply: cholable_sq.
Qed.
(** B.cholesky: [c c^T = a] for all these objects.  Dense and Woodbury matrices give a lower-triangular matrix; the class
    is kept otherwise (for low-rank matrices it is that of a product). *)
Theorem C27_cholesky a : wf a -> cholable a ->
  answers (fun o => cholesky o a) (fun c => factor_of a c /\ (ismat a -> cls a <> TLR -> cls c = chcls (cls a))).
Proof.
move=> w h; apply: ans_conseq (cholesky_gen w h) _ => c [v [C [[wc [e1 e2] e3 e4] g _ tc]]]; split; last by move=> ha /tc; rewrite ha.
by split=> // be hb /=; rewrite e2 e4 // g.
Qed.
(** Positive-definite objects in particular. *)
Theorem C27_cholesky_pd a : wf a -> posdef a -> cholable a.
Proof.
move=> w h; have p := posdef_pd w h erefl; have sq := posdef_sq h.
elim: a w h p sq => [t|d b r c|t|t|t r c|t|t|l IHl r IHr m IHm|d l IHl r IHr m IHm|l IHl r IHr] w h p sq //=.
- move=> be i hb hi; rewrite eqxx; have := pd_diag_gt0 (Ordinal hi) (p be hb); by rewrite mxE /= eqxx; apply: ltW.
- by case: w h => wl wr _ [hl hr]; split; [apply: IHl|apply: IHr]; do ?[exact: posdef_pd|exact: posdef_sq].
Qed.
(** There is no method for triangular matrices. *)
Theorem C27_cholesky_triangular a : match a with LT _ | UT _ => True | _ => False end -> forall o, cholesky o a = Raise NotFoundLookup.
Proof. by case: a. Qed.

(** ** C28 *)
Lemma solves_mx a b x n (m : nat) : wf a -> mrows a = n -> mrows b = n -> mcols b = m -> (forall be, okb (mbatch a) be -> mxof n n a be \in unitmx) -> bcok (mbatch a) (mbatch b) ->
  is_mx x (bct (mbatch a) (mbatch b)) (fun be => invmx (mxof n n a be) *m mxof n m b be) -> solves a b x.
Proof.
move=> wa e1 e2 e3 u o [wx [x1 x2] x3 x4]; rewrite /solves e1 e3; split=> //; first by rewrite /mshape x1 x2 x3.
by move=> be hb /=; rewrite x4 // mulmxA mulmxV ?mul1mx // u //; move: hb; rewrite okb_bct // => /andP[].
Qed.
(** B.solve: every regular object (a Woodbury matrix must be invertible by [inv]), every right-hand side with matching
    rows; a [Zero] right-hand side is returned as it is, so that its batch must already be large enough. *)
Theorem C28_solve a b k : wf a -> wf b -> regular a -> mrows a = mrows b -> bcok (mbatch a) (mbatch b) ->
  (iswb a -> invertible a) -> (mdepth a < k)%N -> (cls b = TZero -> bto (mbatch a) (mbatch b)) ->
  answers (fun o => solve o k a b) (fun x => solves a b x /\ (densely a b -> cls x = TDense)).
Proof.
move=> wa wb [sq u] e o wi hk hz.
have ha := mx_wf wa erefl (esym sq); have hb := mx_wf wb (esym e) erefl.
apply: ans_conseq (solve_main perm ha hb o u wi (sdepth_le hk) _) _ => [h|x [hx _ _ tx]].
  apply: bto_ext => v; rewrite bto_bct //; case h': (bto (mbatch b) v); rewrite ?andbF // andbT.
  by apply: bto_trans (hz h) h'.
by split=> //; exact: solves_mx hx.
Qed.
(** The product of the two is the right-hand side, entry by entry. *)
Theorem C28_solve_entries a b k : wf a -> wf b -> regular a -> mrows a = mrows b -> bcok (mbatch a) (mbatch b) ->
  (iswb a -> invertible a) -> (mdepth a < k)%N -> (cls b = TZero -> bto (mbatch a) (mbatch b)) ->
  answers (fun o => solve o k a b) (fun x => forall be i j, okb (bct (mbatch a) (mbatch b)) be -> (i < mrows a)%N -> (j < mcols b)%N ->
    \sum_(q < mrows a) ent a be i q * ent x be q j = ent b be i j).
Proof.
move=> wa wb ra e o wi hk hz; apply: ans_conseq (C28_solve wa wb ra e o wi hk hz) _ => x [[_ _ h] _] be i j ob hi hj.
have /matrixP/(_ (Ordinal hi) (Ordinal hj)) := h be ob; rewrite !mxE /= => <-; apply: eq_bigr => q _; by rewrite !mxE.
Qed.
(** B.triangular_solve of a triangular object solves the system, whatever the flag; every other class raises. *)
Theorem C28_triangular_solve a b k fl : wf a -> wf b -> match a with LT _ | UT _ => True | _ => False end -> regular a -> mrows a = mrows b ->
  bcok (mbatch a) (mbatch b) -> (0 < k)%N -> (cls b = TZero -> bto (mbatch a) (mbatch b)) ->
  answers (fun o => triangular_solve o k a b fl) (fun x => solves a b x /\ (densely a b -> cls x = TDense)).
Proof.
move=> wa wb ta ra e o hk hz.
have hb := to_matrix_mx (mx_wf wb erefl erefl).
have H : answers (fun op => solve op k a b) (fun x => solves a b x /\ (densely a b -> cls x = TDense)).
  by apply: C28_solve => //; case: a ta {wa ra e o hz}.
apply: ans_ext H => op.
have -> : solve op k a b = solve op k (to_matrix a) (to_matrix b).
  clear -ta wb; have [nb eb] : exists c, c = to_matrix b by exists (to_matrix b).
  have : to_matrix (to_matrix b) = to_matrix b by clear -wb; case: b wb => //= t w; rewrite conv_ns // wf_ns.
  by case: a ta => // t _ E; rewrite /solve E.
have L : lookup tsolve_table (ty_of_matrix (to_matrix a)) (ty_of_matrix (to_matrix b)) = ret (if a is LT _ then TsLT else TsUT).
  by clear -ta wb; case: a ta => // t _; rewrite (to_matrix_ty wb); case: b wb.
by move: L; clear -ta; case: a ta => // t _ L; rewrite /triangular_solve L bind_ret.
Qed.
Lemma csystem_rows c b : csystem c b -> mrows c = mrows b /\ mcols c = mrows c.
Proof.
elim: c b => [t|d s r c|t|t|t r c|t|t|l IHl r IHr m IHm|d l IHl r IHr m IHm|l IHl r IHr] b //=.
1,2,3: by case=> -[].
by case: b => // l' r' [/IHl[h1 h2] /IHr[h3 h4]] /=; rewrite h2 h4 h1 h3.
Qed.
Lemma bto_bctE (u v : shape) : bcok u v -> bto u v -> bct u v = v.
Proof. by move=> o h; apply: bto_ext => w; rewrite bto_bct //; case h': (bto v w); rewrite ?andbF // andbT; apply: bto_trans h h'. Qed.
(** B.cholesky_solve: [c c^T x = b]. *)
Theorem C28_cholesky_solve c b k : wf c -> wf b -> csystem c b -> bcok (mbatch c) (mbatch b) -> (0 < k)%N ->
  answers (fun o => cholesky_solve o k c b) (csolves c b).
Proof.
move=> + + + + hk; elim: c b => [t|d s r c|t|t|t r c|t|t|l IHl r IHr m IHm|d l IHl r IHr m IHm|l IHl r IHr] b wc wb h o //.
1,2,3: (case: h => -[sq u] e hz; have hc := mx_wf wc erefl (esym sq); have hb := mx_wf wb (esym e) erefl;
  apply: ans_conseq (cholesky_solve_main perm hc hb o u isT hk (fun h => bto_bctE o (hz h))) _ => x [[wx [x1 x2] x3 x4] _ _];
  split=> //; [by rewrite /mshape x1 x2 x3|move=> be ob /=; have v := u be; move: (ob); rewrite okb_bct // => /andP[/v {}v _]];
  rewrite x4 // mulmxA mulmxV ?mul1mx // unitmx_mul unitmx_tr; by rewrite v).
case: b wb h o => // l' r' wb [hl hr] o.
have [[wl wr o1] [wl' wr' o2]] := (wc, wb).
have [u [ul ur ul' ur']] : exists u, [/\ bto (mbatch l) u, bto (mbatch r) u, bto (mbatch l') u & bto (mbatch r') u].
  case/bcokP: o => u; rewrite (Kronb _ wc) (Kronb _ wb) => /andP[h1 h2] /andP[h3 h4]; by exists u.
have L : lookup csolve_table (ty_of_matrix (Kron l r)) (ty_of_matrix (Kron l' r')) = ret CKron by [].
apply: ans_ext (_ : forall op, (do x <- cholesky_solve op k l l'; do y <- cholesky_solve op k r r'; ret (Kron x y)) = _) _.
  by move=> op; rewrite [in RHS]/cholesky_solve -/cholesky_solve L bind_ret.
have ol := bcok_ub ul ul'; have or := bcok_ub ur ur'.
apply: ans_bind (IHl l' wl wl' hl ol) _ => x [wx sx ex]; apply: ans_bind (IHr r' wr wr' hr or) _ => y [wy sy ey]; apply: ans_ret.
move: sx sy; rewrite /mshape => -[x2 x1 x3] [y2 y1 y3].
have oxy : bcok (mbatch x) (mbatch y) by rewrite x3 y3; apply: (@bcok_ub u); rewrite bto_bct_ub.
have wk : wf (Kron x y) by split.
have eb : mbatch (Kron x y) = bct (mbatch (Kron l r)) (mbatch (Kron l' r')).
  apply: bto_ext => v; rewrite (Kronb _ wk) x3 y3 !bto_bct // -?andbA; by do 4 case: (bto _ v).
have [[l1 l2] [r1 r2]] := (csystem_rows hl, csystem_rows hr).
split=> //; first by rewrite -eb /mshape /= x1 x2 y1 y2.
move=> be ob /=; have ob' : okb (mbatch (Kron x y)) be by rewrite eb.
have := ob; rewrite okb_bct // => /andP[oc ob2].
rewrite (mxof_kron wc oc erefl l2 erefl r2) (mxof_kron wk ob' x1 x2 y1 y2) (mxof_kron wb ob2 (esym l1) erefl (esym r1) erefl).
rewrite kmx_tr !kmx_mul; congr (kmx _ _).
  by apply: ex; rewrite okb_bct //; move: oc ob2; rewrite /= !okb_bct // => /andP[-> _] /andP[-> _].
by apply: ey; rewrite okb_bct //; move: oc ob2; rewrite /= !okb_bct // => /andP[_ ->] /andP[_ ->].
Qed.

(** ** Without Woodbury matrices nothing is compared approximately: the calls return, unconditionally. *)
Notation run n := (ops_n argsort n).
Lemma xe_square2 (ok : forall n, 'M[F]_n -> bool) (f : forall n, 'M[F]_n -> 'M[F]_n) (t : tensor) : xe (t_square ok f t).
Proof. by rewrite /t_square; case: (sh t) => // c [] // r b; case: ifP. Qed.
Lemma xe_asq a : xe (assert_square a).
Proof.
by apply: xe_bind => [|?]; [apply: xe_am|apply: xe_bind => [|[? ?]]; [apply: xe_sm|apply: xe_require]].
Qed.
Lemma xh_chol n a : nw a -> xh (cholesky (run n) a) (@nw F).
Proof.
elim: a => [t|d b r c|t|t|t r c|t|t|l IHl r IHr m IHm|d l IHl r IHr m IHm|l IHl r IHr] h //.
- by apply: xe_bind => [|u //]; exact: xe_square2.
- by apply: xe_bind => [|u //]; exact: xe_asq.
- apply: xe_bind => [|u]; first exact: xe_asq. apply: xe_bind => [|v]; [exact: xe_square2|exact: xh_mk_lt].
- by apply: xe_bind => [|u]; [exact: xe_asq|exact: xh_mk_diag].
- by apply: xe_bind => [|u]; [exact: xe_asq|apply: xe_bind => [|v //]; exact: xe_map2].
- case/nwLR: h => hl hr hm; apply: xe_bind => [|u]; first exact: xe_asq.
  by apply: xh_bind (IHm hm) _ => x hx; apply: (xk_mm (xk_n argsort n)).
- case/nwKron: h => hl hr; apply: xh_bind (IHl hl) _ => x hx; apply: xh_bind (IHr hr) _ => y hy.
  by split=> //=; rewrite hx.
Qed.
Theorem C27_cholesky_exact a : wf a -> cholable a -> nw a -> returns argsort (fun o => cholesky o a) (factor_of a).
Proof.
move=> w h hn; apply: ans_returns; first by move=> n; apply: xh_xe (xh_chol n hn).
by apply: ans_conseq (C27_cholesky w h) _ => c [].
Qed.
Lemma xe_solve_sel (sel : nat -> nat -> bool) (x y : tensor) : xe (t_solve_sel sel x y).
Proof.
rewrite /t_solve_sel; case: (sh x) => [//|ca [//|ra ba]]; case: (sh y) => [//|cb [//|rb bb]].
by case: ifP => // _; case: (bc _ _) => // s; case: ifP.
Qed.
Lemma xe_look A (t : option (table A)) (x y : ty) : xe (lookup t x y).
Proof. by rewrite /lookup; case: t => // t; rewrite /resolve /resolve_pat; case: most_specific => [|? [|? ?]] //; case: (filter _ _) => [|? []]. Qed.
Lemma xh_dinv (t : tensor) : xh (diag_inv t) (@nw F).
Proof. by apply: xe_bind => [|?]; [exact: xe_map2|exact: xh_mk_diag]. Qed.
Lemma xh_inv n k a : nw a -> xh (inv_n (run n) k a) (@nw F).
Proof.
elim: k a => [//|k IH] [t|d b r c|t|t|t r c|t|t|l r m|d l r m|l r] h //=; last first.
- case/andP: h => hl hr; apply: xh_bind (IH _ hl) _ => x hx; apply: xh_bind (IH _ hr) _ => y hy; by split=> //=; rewrite hx.
- exact: xh_dinv.
- by apply: xe_bind => [|u]; first exact: xe_square2.
- by apply: xe_bind => [|u]; first exact: xe_square2.
Qed.
Lemma xh_solve n k a b : nw a -> nw b -> xh (solve (run n) k a b) (@nw F).
Proof.
move=> ha hb; have X := xk_n argsort n.
have H : xh (solve_m (run n) k (to_matrix a) (to_matrix b)) (@nw F).
  have [] := (nw_tm ha, nw_tm hb); move: (to_matrix a) (to_matrix b) => {ha hb}a {}b ha hb.
  apply: xe_bind => [|i]; first exact: xe_look.
  have gen (x y z z' : mat) (f : tensor -> tensor -> outcome tensor) (g : tensor -> mat) (w : bool) : nw x -> nw y -> nw z -> nw z' -> (forall t u, xe (f t u)) -> (forall t, nw (g t)) ->
      xh (do _ <- warn_if w; do ab <- align_batch [:: x; y]; do x' <- o_dense (run n) (nth z ab 0); do y' <- o_dense (run n) (nth z' ab 1); do u <- f x' y'; ret (g u)) (@nw F).
    move=> hx hy hz hz' hf hg; apply: xe_bind => [|_]; first exact: xe_warn.
    refine (xh_bind (xh_align_batch hx hy) _) => ab [h1 h2].
    have h3 : nw (nth z ab 0) by case: ab h1 {h2}.
    have h4 : nw (nth z' ab 1) by case: ab h2 {h1 h3} => [//|? []].
    apply: xe_bind => [|x']; first exact: (xk_dense X). apply: xe_bind => [|y']; first exact: (xk_dense X).
    by apply: xe_bind => [|u]; [exact: hf|split=> //; exact: hg].
  have gi : xh (do ai <- inv_n (run n) k a; o_matmul (run n) ai b false false) (@nw F).
    by apply: xh_bind (xh_inv n k ha) _ => x hx; exact: (xk_mm X).
  case: i => //=.
  - by apply: gen => // t u; exact: xe_solve_sel.
  - by case: a ha {gi} => // t _; apply: gen => // u v; exact: xe_solve_sel.
  - by case: a ha {gi} => // t _; apply: gen => // u v; exact: xe_solve_sel.
by case: a b ha hb H => [t|d b r c|t|t|t r c|t|t|l r m|d l r m|l r] [t'|d' b' r' c'|t'|t'|t' r' c'|t'|t'|l' r' m'|d' l' r' m'|l' r'] ha hb H //=;
  apply: xe_bind => [|u //]; exact: xe_solve_sel.
Qed.
(** B.solve returns, unconditionally. *)
Theorem C28_solve_exact a b k : wf a -> wf b -> nw a -> nw b -> regular a -> mrows a = mrows b -> bcok (mbatch a) (mbatch b) ->
  (mdepth a < k)%N -> (cls b = TZero -> bto (mbatch a) (mbatch b)) -> returns argsort (fun o => solve o k a b) (solves a b).
Proof.
move=> wa wb na nb ra e o hk hz; apply: ans_returns; first by move=> n; apply: xh_xe (xh_solve n k na nb).
have hi : iswb a -> invertible a by case: a na {wa ra e o hk hz}.
by apply: ans_conseq (C28_solve wa wb ra e o hi hk hz) _ => c [].
Qed.
(** A [Zero] right-hand side is returned as it is: there is no check of the shapes, and the batch of the matrix is
    not taken into account. *)
Theorem C28_solve_zero_unchecked a d (s : shape) (r c k : nat) : wf a -> forall o, solve o k a (Zero d s r c) = ret (Zero d s r c).
Proof.
move=> w o; have -> : solve o k a (Zero d s r c) = solve_m o k (to_matrix a) (Zero d s r c) by clear; case: a.
rewrite /solve_m; have -> : lookup solve_table (ty_of_matrix (to_matrix a)) (ty_of_matrix (@Zero F d s r c)) = ret SZero.
  by rewrite to_matrix_ty //; clear; case: a.
by rewrite bind_ret.
Qed.
Theorem C28_solve_zero_refuted : exists a b, [/\ wf a, wf b, regular a, mrows a = mrows b & bcok (mbatch a) (mbatch b)] /\
  forall k o, exists2 x, solve o k a b = ret x & ~ solves a b x.
Proof.
exists (Dense (t_ones DFloat64 [:: 1; 1; 3]%N)), (Zero DFloat64 [::] 1 1); split.
  split=> //; split=> // be hb /=.
  have -> : mxof 1 1 (Dense (t_ones DFloat64 [:: 1; 1; 3]%N)) be = 1%:M :> 'M[F]_1 by apply/matrixP => i j; rewrite !mxE !ord1.
  exact: unitmx1.
by move=> k o; eexists; [exact: C28_solve_zero_unchecked|case].
Qed.
(** The Cholesky factor of a low-rank matrix does not depend on the right factor, so that it is wrong if the factors
    differ, even if the matrix is positive definite. *)
Theorem C27_lowrank_ignores_right l r r' m o : wf (LR l r m) -> wf (LR l r' m) -> mrows l = mrows r -> mrows l = mrows r' ->
  cholesky o (LR l r m) = cholesky o (LR l r' m).
Proof. by move=> w w' e e'; rewrite /= !assert_squareE. Qed.
Theorem C27_lowrank_refuted : exists a, [/\ wf a, definite a & returns argsort (fun o => cholesky o a) (fun c => ~ factor_of a c)].
Proof.
pose one := Dense (t_ones DFloat64 [:: 1; 1]%N) : mat; pose two := Dense (t_full DFloat64 [:: 1; 1]%N 2%:R) : mat.
have E be : mxof 1 1 (LR one two one) be = 2%:M by apply/matrixP => i j; rewrite !mxE /= !ord1 /sumf /= !mulr1 ?mul1r ?addr0.
have E1 be : mxof 1 1 (LR one one one) be = 1%:M by apply/matrixP => i j; rewrite !mxE /= !ord1 /sumf /= !mulr1 ?mul1r ?addr0.
have w1 : wf (LR one one one) by []. have w2 : wf (LR one two one) by [].
have p2 : pd (2%:M : 'M[F]_1).
  have -> : 2%:M = (Num.sqrt 2%:R)%:M *m ((Num.sqrt 2%:R)%:M)^T :> 'M[F]_1.
    by rewrite tr_scalar_mx -scalar_mxM -expr2 sqr_sqrtr // ler0n.
  by apply: gram_pd; rewrite unitmxE det_scalar expr1 unitfE sqrtr_eq0 -ltNge ltr0n.
exists (LR one two one); split=> //; first by split=> // be hb; rewrite /= E.
have ch : cholable (LR one one one) by split=> //; exact: e_m_pd.
apply: ans_returns; first by move=> n; apply: xh_xe (xh_chol n _).
apply: ans_ext (fun o => C27_lowrank_ignores_right o w1 w2 erefl erefl) _.
apply: ans_conseq (C27_cholesky w1 ch) _ => c [[_ e1 e2 h] _] [_ _ _ h'].
have := etrans (esym (h [::] isT)) (h' [::] isT); rewrite /= E E1 => /matrixP/(_ 0 0); rewrite !mxE /= => /eqP.
by rewrite mulr1n; have := eqr_nat F 1 2; rewrite /= => ->.
Qed.
End PropsChol.

(** ** Non-vacuity *)
Section Examples.
Variable F : rcfType.
Definition e_const : mat F := Const (t_ones DFloat64 [:: 3]%N) 2 2.
Example C27_ex : wf (Kron (e_wb F) e_const) /\ cholable (Kron (e_wb F) e_const) /\
  wf (LR (e_l F) (e_l F) (e_m F)) /\ cholable (LR (e_l F) (e_l F) (e_m F)) /\ nw (LR (e_l F) (e_l F) (e_m F)).
Proof.
have h := C27_cholesky_pd (e_wb_wf F) (e_wb_pd F).
split; first by split=> //; exact: e_wb_wf.
split; first by split=> //; split=> // be hb; exact: ler01.
by split=> //; split=> //; split=> //; exact: e_m_pd.
Qed.
(** A Woodbury matrix and a dense right-hand side with a batch; a triangular matrix. *)
Definition e_b : mat F := Dense (t_ones DFloat64 [:: 4; 2; 3]%N).
Definition e_lt : mat F := LT (Tensor DFloat64 [:: 2; 2]%N (fun idx => if (nth 0 idx 0 <= nth 0 idx 1)%N then 1 else 0)).
Lemma e_lt_wf : wf e_lt.
Proof. by split=> // be i j; rewrite /mx /= => _ _ _ h; rewrite leqNgt h. Qed.
Lemma e_lt_regular : regular e_lt.
Proof.
split=> // be hb /=; set A := mxof _ _ _ _; have tA : is_trig_mx A.
  by apply/is_trig_mxP => i j h; rewrite mxE /= /mx /= leqNgt h.
rewrite unitmxE (det_trig tA) unitfE big1 ?oner_eq0 // => i _; by rewrite mxE /= /mx /= leqnn.
Qed.
Example C28_ex : [/\ wf (e_wb F), wf e_b, regular (e_wb F), mrows (e_wb F) = mrows e_b & bcok (mbatch (e_wb F)) (mbatch e_b)] /\
  invertible (e_wb F) /\ wf e_lt /\ regular e_lt /\ csystem (Kron e_lt e_lt) (Kron (e_l F) e_b).
Proof.
have i := posdef_invertible (e_wb_wf F) (e_wb_pd F); have [_ _ _ r] := i; have rl := e_lt_regular.
split; first by split=> //; exact: e_wb_wf.
split; first exact: i. split; first exact: e_lt_wf. split; first exact: rl.
by split; split.
Qed.
End Examples.

Print Assumptions C27_cholesky. Print Assumptions C27_cholesky_exact. Print Assumptions C27_cholesky_pd. Print Assumptions C27_cholesky_triangular.
Print Assumptions C27_lowrank_ignores_right. Print Assumptions C27_lowrank_refuted. Print Assumptions C28_solve. Print Assumptions C28_solve_entries. Print Assumptions C28_solve_exact.
Print Assumptions C28_triangular_solve. Print Assumptions C28_cholesky_solve. Print Assumptions C28_solve_zero_unchecked. Print Assumptions C28_solve_zero_refuted.
