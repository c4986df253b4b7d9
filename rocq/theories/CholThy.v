(** * Cholesky factors and positive-definite inverses (proof support for C26 - C30) *)
From mathcomp Require Import all_ssreflect all_algebra.
From Verif Require Import Outcome Monad Shape Tensor Mat Dispatch Ops Spec ShapeThy TensorThy TensorThy2 MatThy OpsOk MulOk DenseOk MmOk OpsMain Term Calm Api Bridge Ans PropsMm Types PropsStruct Ops2 PropsSum PropsLift PropsExpr.
From Verif Require Import Backend SpecLA LinAlg MxThy ClsThy Solve InvThy PropsInv SolveThy.
Set Implicit Arguments. Unset Strict Implicit. Unset Printing Implicit Defensive.
Import Order.TTheory GRing.Theory Num.Theory.
Local Open Scope ring_scope.

(** ** Specification: positive-definite objects

    Dense and diagonal matrices: all matrices of the batch are positive definite.  Kronecker products: both factors.
    Woodbury matrices: the diagonal and the middle factor are positive definite, the left and the right factor are
    equal, and the Schur complement is dense or diagonal. *)
Section Spec.
Variable F : rcfType.
Notation mat := (mat F).
Definition definite (a : mat) : Prop :=
  mrows a = mcols a /\ forall be, okb (mbatch a) be -> pd (mxof (mrows a) (mrows a) a be).
Fixpoint posdef (a : mat) : Prop :=
  match a with
  | Nm _ | Dense _ | Diag _ => definite a
  | Kron l r => posdef l /\ posdef r
  | Wb d l r m => [/\ posdef m, schur_simple l r m, definite (Diag d) & teq (den l) (den r)]
  | _ => False
  end.
End Spec.

Section CholThy.
Variable F : rcfType.
Notation tensor := (tensor F).
Notation mat := (mat F).
Variable argsort : seq F -> seq nat.
Hypothesis perm : argsort_ok argsort.
Notation answers := (answers argsort).
Implicit Types a b c l r x y : mat.

Lemma posdef_sq a : posdef a -> mrows a = mcols a.
Proof. elim: a => //= [t [h _] //|t [h _] //|l IHl r IHr [hl hr]]; by rewrite IHl // IHr. Qed.
Lemma teq_same l r n p : wf l -> wf r -> teq (den l) (den r) -> mrows l = n -> mcols l = p ->
  [/\ mrows r = n, mcols r = p, mbatch r = mbatch l & forall be, okb (mbatch l) be -> mxof n p r be = mxof n p l be].
Proof.
move=> wl wr [/= [e1 e2 e3] h] <- <-; split=> // be hb; apply: eq_gmx => i j hi hj.
have := h [:: j, i & clamp (mbatch l) be]; rewrite /= hi hj -/(okb _ _) hb => /(_ isT).
rewrite ent_clamp ?bto_refl // => ->; rewrite ent_clamp // e3; exact: bto_refl.
Qed.
Lemma pd_dmx n (g : nat -> F) : pd (dmx n g) -> forall i, (i < n)%N -> 0 < g i.
Proof. by move=> h i hi; have := pd_diag_gt0 (Ordinal hi) h; rewrite !mxE eqxx mulr1n. Qed.
Lemma kmx_pd n1 n2 (A : 'M[F]_n1) (B : 'M[F]_n2) : pd A -> pd B -> pd (kmx A B).
Proof.
move=> hA hB; have [oA oB] := (chol_pd hA, chol_pd hB).
rewrite -(chol_gram (proj1 hA) oA) -(chol_gram (proj1 hB) oB) -kmx_mul -kmx_tr; apply: gram_pd.
by apply: kmx_unit; exact: chol_unit.
Qed.
(** A Woodbury matrix with equal factors and its Schur complement are positive definite. *)
Lemma wb_pd n p (D : 'M[F]_n) (L : 'M[F]_(n, p)) (M : 'M[F]_p) : pd D -> pd M -> pd (D + L *m M *m L^T).
Proof. by move=> hD hM; apply: pdD => //; have := psd_congr L^T (pd_psd hM); rewrite trmxK. Qed.
Lemma schur_pd n p (D : 'M[F]_n) (L : 'M[F]_(n, p)) (M : 'M[F]_p) : pd D -> pd M -> pd (wb_S D L L M).
Proof.
move=> hD hM; apply: pdD; first exact: pd_invmx.
by apply: psd_congr; apply: pd_psd; exact: pd_invmx.
Qed.

Section WbParts.
Variables (d : tensor) (l r m : mat) (n p : nat).
Hypothesis w : wf (Wb d l r m).
Hypothesis pa : posdef (Wb d l r m).
Hypothesis en : mrows (Wb d l r m) = n.
Hypothesis ep : mrows m = p.
Lemma wbp : [/\ tvec d n (behead (sh d)) (vx d), is_mx l (mbatch l) (mxof n p l), is_mx r (mbatch l) (mxof n p l) &
  [/\ mcols l = p, mcols r = p, mrows m = p, mcols m = p & mbatch r = mbatch l]].
Proof.
case: pa => hm _ _ te; case: (w) => -[wl wr wm kf /and4P[/eqP p1 /eqP p2 _ _]] /and4P[wd /eqP n1 /eqP n2 _].
have en' : tcols d = n by []. have sq := posdef_sq hm.
have nl : mrows l = n by rewrite n1. have cl : mcols l = p by rewrite p1.
have [e1 e2 e3 e4] := teq_same wl wr te nl cl.
split; first by rewrite -en'; exact: tvec_wfv.
- exact: mx_wf.
- by split=> // be hb; rewrite e4.
- by split=> //; rewrite -sq.
Qed.
Lemma wbu : let u := mbatch (Wb d l r m) in [/\ bto (behead (sh d)) u, bto (mbatch l) u, bto (mbatch r) u & bto (mbatch m) u].
Proof. by move=> u; have := bto_refl u; rewrite (Wbb _ w) => /and4P[]. Qed.
Lemma wbE be : okb (mbatch (Wb d l r m)) be ->
  mxof n n (Wb d l r m) be = dmx n (vx d be) + mxof n p l be *m mxof p p m be *m (mxof n p l be)^T.
Proof.
move=> hb; have [_ _ hr [h1 h2 h3 h4 h5]] := wbp; have [u1 u2 u3 u4] := wbu.
rewrite (mxof_wb d m n be h1 h2); congr (_ + _ *m _^T); case: hr => _ _ _; apply; exact: okb_mono u2 hb.
Qed.
Lemma wb_dpos be : okb (behead (sh d)) be -> pd (dmx n (vx d be)).
Proof.
move=> hb; case: pa => _ _ [_ /(_ be hb)] + _; rewrite /= (en : tcols d = n) mxofE dmxE; exact.
Qed.
End WbParts.

Lemma posdef_pd a n : wf a -> posdef a -> mrows a = n -> forall be, okb (mbatch a) be -> pd (mxof n n a be).
Proof.
elim: a n => [t|d b r c|t|t|t r c|t|t|l IHl r IHr m IHm|d l IHl r IHr m IHm|l IHl r IHr] n w h en be hb //.
1,2,3: by case: h => _ h; rewrite -en; apply: h.
- have [_ _ _ [h1 h2 h3 h4 h5]] := wbp w h en erefl; have [u1 u2 u3 u4] := wbu w.
  rewrite (wbE w h en erefl hb); apply: wb_pd; first exact: (wb_dpos h en (okb_mono u1 hb)).
  by case: h => hm _ _ _; apply: IHm => //; [case: w => -[]|exact: okb_mono u4 hb].
- case: (h) => hl hr; case: (w) => wl wr o; subst n; move: (hb); rewrite okb_bct // => /andP[b1 b2].
  have -> : mxof (mrows (Kron l r)) (mrows (Kron l r)) (Kron l r) be = kmx (mxof (mrows l) (mrows l) l be) (mxof (mrows r) (mrows r) r be).
    by apply: mxof_kron => //; apply/esym; apply: posdef_sq.
  by apply: kmx_pd; [apply: IHl|apply: IHr].
Qed.
Lemma posdef_invertible a : wf a -> posdef a -> invertible a.
Proof.
elim: a => [t|d b r c|t|t|t r c|t|t|l IHl r IHr m IHm|d l IHl r IHr m IHm|l IHl r IHr] w h //.
1,2,3: by case: h => sq h; split=> // be hb; apply: pd_unit; apply: h.
- have W : wf (Wb d l r m) := w; have H : posdef (Wb d l r m) := h.
  case: h => hm hs [sd hd] ht; split=> //.
  + by apply: IHm => //; case: w => -[].
  + by split=> // be hb; apply: pd_unit; apply: hd.
  + by split=> // be hb; apply: pd_unit; exact: (posdef_pd W H erefl hb).
- by case: h w => hl hr [wl wr _]; split; [apply: IHl|apply: IHr].
Qed.

(** ** cholesky *)
Lemma trig_lower (t : tensor) n (b : shape) (X : seq nat -> 'M[F]_n) : tmx t b X -> (forall be, okb b be -> is_trig_mx (X be)) -> is_mx (LT t) b X.
Proof.
move=> ht h.
have H : is_res (LT t) n n b (fun be => mget (X be)).
  apply: res_lt ht _ => be i j hb hi hj hij; by rewrite (mgetE _ hi hj); have/is_trig_mxP q := h be hb; exact: q.
by apply: mx_ext (res_mx H) _ => be _; rewrite gmx_mget.
Qed.
Definition chtag (k : nat) : nat := match k with 0 => 0 | 3 => 3 | 9 => 9 | _ => 5 end%N.
Definition chol_of a n c : Prop := exists C : seq nat -> 'M[F]_n,
  [/\ is_mx c (mbatch a) C, forall be, okb (mbatch a) be -> C be *m (C be)^T = mxof n n a be,
      forall be, okb (mbatch a) be -> C be \in unitmx, tag c = chtag (tag a) & kfree a -> kfree c].
Lemma cholesky_main a n : wf a -> posdef a -> mrows a = n -> answers (fun o => cholesky o a) (chol_of a n).
Proof.
elim: a n => [t|d b r c|t|t|t r c|t|t|l IHl r IHr m IHm|d l IHl r IHr m IHm|l IHl r IHr] n w h en //.
- have hp := posdef_pd w h en; have ha := mx_wf w en (etrans (esym (posdef_sq h)) en).
  have ht := num_mx_inv (or_introl erefl) ha; have [z e hz] := t_chol_ok ht (fun be hb => chol_pd (hp be hb)).
  apply: (ans_eq e); apply: ans_ret; exists (fun be => chol_f (mxof n n (Nm t) be)); split=> //; first exact: mx_num.
    by move=> be hb; exact: (chol_gram (proj1 (hp be hb)) (chol_pd (hp be hb))).
  by move=> be hb; apply: chol_unit; apply: chol_pd; exact: hp.
- have hp := posdef_pd w h en; have ha := mx_wf w en (etrans (esym (posdef_sq h)) en).
  have ht := num_mx_inv (or_intror (or_introl erefl)) ha; have [z e hz] := t_chol_ok ht (fun be hb => chol_pd (hp be hb)).
  apply: (ans_eq (assert_squareE w (posdef_sq h))); apply: (ans_eq e).
  apply: ans_ext (_ : forall o, ret (LT z) = _) _; first by move=> o; rewrite (mk_lt_tmat hz).
  apply: ans_ret; exists (fun be => chol_f (mxof n n (Dense t) be)); split=> //.
  + by apply: trig_lower => // be hb; exact: chol_trig.
  + by move=> be hb; exact: (chol_gram (proj1 (hp be hb)) (chol_pd (hp be hb))).
  + by move=> be hb; apply: chol_unit; apply: chol_pd; exact: hp.
- have hp := posdef_pd w h en; have ha := mx_wf w en (etrans (esym (posdef_sq h)) en).
  have [ht e] := diag_mx_inv ha; have hz := tvec_map Num.sqrt ht.
  apply: (ans_eq (assert_squareE w (posdef_sq h))); apply: ans_ext (_ : forall o, ret (Diag (t_map Num.sqrt t)) = _) _.
    by move=> o; rewrite (mk_diag_tvec hz).
  have gt be i : okb (mbatch (Diag t)) be -> (i < n)%N -> 0 < vx t be i.
    by move=> hb; apply: pd_dmx; rewrite -e //; exact: hp.
  apply: ans_ret; exists (fun be => dmx n (fun i => Num.sqrt (vx t be i))); split=> //; first exact: mx_diag.
  + move=> be hb; rewrite dmx_sym dmx_mul e //; apply: dmx_ext => i hi; by rewrite -expr2 sqr_sqrtr // ltW // gt.
  + by move=> be hb; apply/dmx_unit => i hi; rewrite gt_eqF // sqrtr_gt0 gt.
- have hp := posdef_pd w h en; have ha := mx_wf w en (etrans (esym (posdef_sq h)) en).
  apply: ans_ext (_ : forall o, (do _ <- warn_if true; do t <- o_dense o (Wb d l r m); do u <- t_chol t; mk_lt u) = _) _ => //.
  apply: ans_warn; apply: ans_bind (ans_dense_mx perm ha) _ => t ht.
  have [z e hz] := t_chol_ok ht (fun be hb => chol_pd (hp be hb)).
  apply: (ans_eq e); apply: ans_ext (_ : forall o, ret (LT z) = _) _; first by move=> o; rewrite (mk_lt_tmat hz).
  apply: ans_ret; exists (fun be => chol_f (mxof n n (Wb d l r m) be)); split=> //.
  + by apply: trig_lower => // be hb; exact: chol_trig.
  + by move=> be hb; exact: (chol_gram (proj1 (hp be hb)) (chol_pd (hp be hb))).
  + by move=> be hb; apply: chol_unit; apply: chol_pd; exact: hp.
- case: (h) => hl hr; case: (w) => wl wr o.
  apply: ans_bind (IHl _ wl hl erefl) _ => x [X [hx gx ux tx kx]]; apply: ans_bind (IHr _ wr hr erefl) _ => y [Y [hy gy uy ty ky]].
  apply: ans_ret; subst n; exists (fun be => kmx (X be) (Y be)); split=> //; first exact: mx_kron.
    move=> be hb; rewrite kmx_tr kmx_mul; move: (hb); rewrite okb_bct // => /andP[b1 b2]; rewrite gx // gy //.
    by apply/esym; apply: mxof_kron => //; apply/esym; apply: posdef_sq.
  by move=> be; rewrite okb_bct // => /andP[b1 b2]; apply: kmx_unit; [exact: ux|exact: uy].
Qed.
End CholThy.
