(** * C31: square roots *)
From mathcomp Require Import all_ssreflect all_algebra.
From Verif Require Import Outcome Monad Shape Tensor Mat Dispatch Ops Spec ShapeThy TensorThy TensorThy2 MatThy OpsOk MulOk DenseOk MmOk OpsMain Term Calm Api Bridge Samples Inhabited Ans PropsMm Types PropsStruct Ops2 PropsSum PropsLift PropsExpr Exact.
From Verif Require Import Backend SpecLA LinAlg MxThy ClsThy Solve InvThy PropsInv SolveThy CholThy PdThy PropsLA PropsChol.
Set Implicit Arguments. Unset Strict Implicit. Unset Printing Implicit Defensive.
Import Order.TTheory GRing.Theory Num.Theory.
Local Open Scope ring_scope.

(** ** Specification *)
Section Spec.
Variable F : rcfType.
Notation mat := (mat F).
Variable svd : forall n, 'M[F]_n -> 'M[F]_n * 'rV[F]_n * 'M[F]_n.
(** [u diag(s) v^T] is a singular value decomposition of [A]. *)
Definition is_svd n (A : 'M[F]_n) (usv : 'M[F]_n * 'rV[F]_n * 'M[F]_n) : Prop :=
  let '(u, s, v) := usv in
  [/\ u *m u^T = 1%:M, v *m v^T = 1%:M, (forall j, 0 <= s 0 j) & A = u *m diag_mx s *m v^T].
(** [a] is a batch of positive-semidefinite matrices which the backend decomposes correctly. *)
Definition decomposed (a : mat) : Prop := mrows a = mcols a /\ forall be, okb (mbatch a) be ->
  let A := mxof (mrows a) (mrows a) a be in psd A /\ is_svd A (svd A).
(** The objects which have a square root: dense data are positive semidefinite and decomposed correctly. *)
Fixpoint rootable (a : mat) : Prop :=
  match a with
  | Nm _ | Dense _ | LR _ _ _ | Wb _ _ _ _ => decomposed a
  | Zero _ _ r c => r = c
  | Diag _ => forall be i, okb (mbatch a) be -> (i < mrows a)%N -> 0 <= ent a be i i
  | Const _ r c => r = c /\ forall be, okb (mbatch a) be -> 0 <= ent a be 0 0
  | Kron l r => rootable l /\ rootable r
  | LT _ | UT _ => False
  end.
(** The class of the root: only low-rank and Woodbury matrices are densified. *)
Definition rootcls (x : ty) : ty := match x with TLR | TWb => TDense | _ => x end.
(** [r] is a positive-semidefinite square root of [a]. *)
Definition root_of (a r : mat) : Prop :=
  [/\ wf r, mshape r = mshape a &
      forall be, okb (mbatch a) be -> let n := mrows a in let R := mxof n n r be in R *m R = mxof n n a be /\ psd R].
End Spec.

(** ** Positive-semidefinite matrices have one positive-semidefinite square root. *)
Section Psd.
Variable F : rcfType.
Lemma qf_ge0_lin (s q : F) : 0 <= s -> 0 <= q -> (forall t, 0 <= t * s + t * s + t * t * q) -> s = 0.
Proof.
move=> s0 q0 h; apply/eqP; rewrite eq_le s0 andbT leNgt; apply/negP => sp.
have [qe|qn] := eqVneq q 0.
  have := h (-1); rewrite qe mulr0 addr0 mulN1r -opprD oppr_ge0 leNgt; by rewrite addr_gt0.
have qp : 0 < q by rewrite lt_neqAle eq_sym qn.
have := h (- (s / q)); rewrite mulrNN -(mulrA (s / q)) divfK // mulNr addrNK oppr_ge0 leNgt.
by rewrite mulr_gt0 // divr_gt0.
Qed.
Lemma qf_add n (A : 'M[F]_n) v w : qf A (v + w) = qf A v + (v^T *m A *m w) 0 0 + ((w^T *m A *m v) 0 0 + qf A w).
Proof.
rewrite /qf; have -> : (v + w)^T = v^T + w^T by exact: linearD.
by rewrite 2!mulmxDl mulmxDr mulmxDr !mxE.
Qed.
Lemma qf_scale n (A : 'M[F]_n) t v : qf A (t *: v) = t * t * qf A v.
Proof.
rewrite /qf; have -> : (t *: v)^T = t *: v^T by exact: linearZ.
by rewrite -!scalemxAl -scalemxAr !mxE mulrA.
Qed.
Lemma psd_ker n (A : 'M[F]_n) v : psd A -> qf A v = 0 -> A *m v = 0.
Proof.
move=> [sA h] e; apply: qf1_eq0.
apply: (@qf_ge0_lin _ (qf A (A *m v))); [exact: qf1_ge0|exact: h|move=> t].
have := h (v + t *: (A *m v)); rewrite qf_add e qf_scale add0r addrA.
have -> : (t *: (A *m v))^T = t *: (A *m v)^T by exact: linearZ.
have E : qf 1%:M (A *m v) = ((A *m v)^T *m A *m v) 0 0 by rewrite /qf mulmx1 -!mulmxA.
have E' : qf 1%:M (A *m v) = (v^T *m A *m (A *m v)) 0 0 by rewrite /qf mulmx1 trmx_mul sA.
by rewrite -scalemxAr -!scalemxAl mxE -E' mxE -E.
Qed.
Lemma colM n m p j (A : 'M[F]_(n, m)) (X : 'M[F]_(m, p)) : col j (A *m X) = A *m col j X.
Proof. by rewrite !colE mulmxA. Qed.
Lemma tr_qf n (A X : 'M[F]_n) : \tr (X^T *m A *m X) = \sum_j qf A (col j X).
Proof.
apply: eq_bigr => j _; by rewrite /qf tr_col -!row_mul -colM [RHS]mxE [RHS]mxE.
Qed.
Lemma tr_psd0 n (A X : 'M[F]_n) : psd A -> \tr (X^T *m A *m X) = 0 -> A *m X = 0.
Proof.
move=> hA /eqP; rewrite tr_qf psumr_eq0 => [/allP h|j _]; last by case: hA.
apply/matrixP => i j; have /eqP e : qf A (col j X) == 0 by exact: (h j (mem_index_enum _)).
have := psd_ker hA e; rewrite -colM => /colP/(_ i); by rewrite !mxE.
Qed.
Lemma tr_psd_ge0 n (A X : 'M[F]_n) : psd A -> 0 <= \tr (X^T *m A *m X).
Proof. by case=> _ h; rewrite tr_qf; apply: sumr_ge0. Qed.
Theorem psd_root_unique n (A B : 'M[F]_n) : psd A -> psd B -> A *m A = B *m B -> A = B.
Proof.
move=> hA hB e; pose X := A - B; have [sA _] := hA; have [sB _] := hB.
have sX : X^T = X by rewrite /X linearB /= sA sB.
have z : A *m X + X *m B = 0 by rewrite /X mulmxBr mulmxBl e addrA subrK subrr.
have t : \tr (X^T *m A *m X) + \tr (X^T *m B *m X) = 0.
  have -> : \tr (X^T *m B *m X) = \tr (X *m (X *m B)) by rewrite sX [RHS]mxtrace_mulC -mulmxA.
  by rewrite sX -mulmxA -mxtraceD -mulmxDr z mulmx0 mxtrace0.
have /andP[/eqP tA /eqP tB] : (\tr (X^T *m A *m X) == 0) && (\tr (X^T *m B *m X) == 0).
  by rewrite -paddr_eq0 ?tr_psd_ge0 // t.
have a0 := tr_psd0 hA tA; have b0 := tr_psd0 hB tB.
have x0 : X^T *m X = 0 by rewrite sX {1}/X mulmxBl a0 b0 subrr.
have : 1%:M *m X = 0 by apply: (tr_psd0 (pd_psd (pd1 F n))); rewrite mulmx1 x0 mxtrace0.
by rewrite mul1mx => /eqP; rewrite subr_eq0 => /eqP.
Qed.
Lemma svd_root n (A : 'M[F]_n) u s v : psd A -> is_svd A (u, s, v) ->
  let R := u *m diag_mx (map_mx Num.sqrt s) *m u^T in R *m R = A /\ exists G : 'M[F]_n, R = G *m G^T.
Proof.
move=> hA [uu vv s0 eA] R; have uu' := mulmx1C uu; have vv' := mulmx1C vv.
have RR : R *m R = u *m diag_mx s *m u^T.
  rewrite /R !mulmxA -[_ *m u^T *m u]mulmxA uu' mulmx1 -[u *m _ *m diag_mx _]mulmxA mulmx_diag.
  congr (_ *m diag_mx _ *m _); apply/rowP => j; by rewrite !mxE -expr2 sqr_sqrtr.
have gr (g : 'rV[F]_n) : (forall j, 0 <= g 0 j) -> exists G : 'M[F]_n, u *m diag_mx g *m u^T = G *m G^T.
  move=> g0; exists (u *m diag_mx (map_mx Num.sqrt g)); rewrite trmx_mul tr_diag_mx !mulmxA -[u *m _ *m diag_mx _]mulmxA mulmx_diag.
  congr (_ *m diag_mx _ *m _); apply/rowP => j; by rewrite !mxE -expr2 sqr_sqrtr.
split; last by apply: gr => j; rewrite mxE sqrtr_ge0.
rewrite RR; apply: psd_root_unique => //; first by have [G ->] := gr s s0; exact: gram_psd.
have [sA _] := hA.
have -> : A *m A = A *m A^T by rewrite sA.
rewrite {1}eA eA !trmx_mul trmxK tr_diag_mx !mulmxA -[_ *m u^T *m u]mulmxA uu' mulmx1.
by rewrite -[_ *m v^T *m v]mulmxA vv' mulmx1.
Qed.
End Psd.

Section PropsRoot.
Variable F : rcfType.
Notation tensor := (tensor F).
Notation mat := (mat F).
Variable argsort : seq F -> seq nat.
Hypothesis perm : argsort_ok argsort.
Notation answers := (answers argsort).
Variable svd : forall n, 'M[F]_n -> 'M[F]_n * 'rV[F]_n * 'M[F]_n.
Implicit Types a l r : mat.

Definition rootf n (A : 'M[F]_n) : 'M[F]_n := let '(u, s, _) := svd A in u *m diag_mx (map_mx Num.sqrt s) *m u^T.
Definition rooted a n r : Prop := exists R : seq nat -> 'M[F]_n, is_mx r (mbatch a) R /\
  (forall be, okb (mbatch a) be -> R be *m R be = mxof n n a be /\ exists G : 'M[F]_n, R be = G *m G^T) /\
  match a, r with Nm _, Nm _ => True | Nm _, _ => False | _, _ => ty_of_matrix r = rootcls (ty_of_matrix a) end.
Lemma t_root_ok (t : tensor) a n : decomposed svd a -> mrows a = n -> tmx t (mbatch a) (mxof n n a) ->
  exists2 z, t_root svd t = ret z & tmx z (mbatch a) (fun be => rootf (mxof n n a be)) /\
    forall be, okb (mbatch a) be -> rootf (mxof n n a be) *m rootf (mxof n n a be) = mxof n n a be /\ exists G : 'M[F]_n, rootf (mxof n n a be) = G *m G^T.
Proof.
move=> [sq h] en ht; have [//|z e hz] := t_square_ok (ok := fun _ _ => true) rootf ht; exists z => //; split=> // be hb.
have [p q] := h be hb; rewrite /rootf; rewrite /= en in p q.
by case: (svd _) q => -[u s] v q; exact: svd_root p q.
Qed.
Lemma asq_num (t : tensor) n (b : shape) (X : seq nat -> 'M[F]_n) : tmx t b X -> assert_square (Nm t) = ret tt.
Proof. by move=> h; have [w [e1 e2] _ _] := mx_num h; apply: assert_squareE => //; rewrite e1 e2. Qed.
Lemma rootable_sq a : wf a -> rootable svd a -> mrows a = mcols a.
Proof.
elim: a => [t|d b r c|t|t|t r c|t|t|l IHl r IHr m IHm|d l IHl r IHr m IHm|l IHl r IHr] //=; do ?[by move=> _ []].
by move=> [wl wr _] [hl hr]; rewrite IHl // IHr.
Qed.
Lemma root_main a n : wf a -> rootable svd a -> mrows a = n -> answers (fun o => root o svd a) (rooted a n).
Proof.
elim: a n => [t|d b r c|t|t|t r c|t|t|l IHl r IHr m IHm|d l IHl r IHr m IHm|l IHl r IHr] n w h en //.
- have ha := mx_wf w en (etrans (esym (proj1 h)) en); have ht := num_mx_inv (or_introl erefl) ha.
  have [z e [hz gz]] := t_root_ok h en ht.
  apply: (ans_eq (asq_num ht)); apply: (ans_eq e); apply: ans_ret; eexists; split; [exact: mx_num hz|split; [exact: gz|by []]].
- have sq : mrows (@Zero F d b r c) = mcols (@Zero F d b r c) by [].
  apply: (ans_eq (assert_squareE w sq)); apply: ans_ret; exists (fun _ => 0); split.
    apply: mx_ext (mx_wf w en (etrans (esym sq) en)) _ => be _; by apply/matrixP => i j; rewrite !mxE.
  split=> // be _; split; [by rewrite mul0mx; apply/matrixP => i j; rewrite !mxE|by exists 0; rewrite mul0mx].
- have ha := mx_wf w en (etrans (esym (proj1 h)) en); have ht := num_mx_inv (or_intror (or_introl erefl)) ha.
  have [z e [hz gz]] := t_root_ok h en ht.
  apply: (ans_eq (asq_num ht)); apply: (ans_eq e); apply: ans_ret; rewrite (mk_dense_mx hz); eexists; split; [exact: mx_dense hz|split; [exact: gz|by []]].
- have ha := mx_wf w en en; have [ht e] := diag_mx_inv ha; have hz := tvec_map Num.sqrt ht.
  apply: (ans_eq (assert_squareE w erefl)); apply: (ans_eq (assert_squareE w erefl)).
  apply: ans_ext (_ : forall o, ret (Diag (t_map Num.sqrt t)) = _) _; first by move=> o; rewrite (mk_diag_tvec hz).
  apply: ans_ret; exists (fun be => dmx n (fun i => Num.sqrt (vx t be i))); split; first exact: mx_diag.
  split=> // be hb; split.
    rewrite dmx_mul e //; apply: dmx_ext => i hi; rewrite -expr2 sqr_sqrtr //.
    by have hi' : (i < mrows (Diag t))%N by [rewrite en]; have := h be i hb hi'; rewrite /= eqxx.
  exists (dmx n (fun i => Num.sqrt (Num.sqrt (vx t be i)))); rewrite dmx_sym dmx_mul; apply: dmx_ext => i hi.
  by rewrite -expr2 sqr_sqrtr // sqrtr_ge0.
- case: (h) => sq hp; have sq' : mrows (Const t r c) = mcols (Const t r c) by [].
  apply: (ans_eq (assert_squareE w sq')); apply: (ans_eq (assert_squareE w sq')).
  have [[r0 c0 p]] : [/\ (0 < r)%N, (0 < c)%N & posn (sh t)] by move: w; rewrite /= !posn_cons => /and3P[].
  have ht : tsca t (sh t) (sx t) by split.
  have hs : tsca (t_scalar DFloat64 (Num.sqrt c%:R : F)) [::] (fun _ => Num.sqrt c%:R) by [].
  have [z e hz] := calm_hoare (cm_map2 _ _ _) (tsca_map2 (fun x y : F => x / y) (tsca_map Num.sqrt ht) hs (bcoks0 _)).
  rewrite bcts0 in hz; apply: (ans_eq e); apply: ans_ret; have en' : r = n := en; rewrite {}en' in r0 sq sq' w h en hp *; rewrite -{c}sq in c0 hs e hz sq' w h en hp *.
  exists (fun be => gmx n n (fun _ _ => Num.sqrt (sx t be) / Num.sqrt n%:R)); split.
    exact: (res_mx (res_const hz r0 c0)).
  have n0 : n%:R != 0 :> F by rewrite pnatr_eq0 -lt0n.
  split=> // be hb; split.
    apply/matrixP => i j; rewrite !mxE.
    rewrite (eq_bigr (fun _ => sx t be / n%:R)) => [|k _]; last first.
      rewrite !mxE mulrACA -invfM -!expr2 !sqr_sqrtr ?ler0n //; exact: (hp be hb).
    by rewrite sumr_const card_ord -mulr_natr mulfVK.
  pose x : F := Num.sqrt (sx t be) / Num.sqrt n%:R; have x0 : 0 <= x by rewrite divr_ge0 ?sqrtr_ge0.
  exists (const_mx (Num.sqrt (x / n%:R))); apply/matrixP => i j; rewrite !mxE -/x.
  rewrite (eq_bigr (fun _ => x / n%:R)) => [|k _]; last by rewrite !mxE -expr2 sqr_sqrtr // divr_ge0 ?ler0n.
  by rewrite sumr_const card_ord -mulr_natr mulfVK.
- apply: ans_warn; have ha := mx_wf w en (etrans (esym (proj1 h)) en).
  apply: ans_bind (ans_dense_mx perm ha) _ => t ht; have [z e [hz gz]] := t_root_ok h en ht.
  apply: (ans_eq (asq_num ht)); apply: (ans_eq e); apply: ans_ret; rewrite (mk_dense_mx hz); eexists; split; [exact: mx_dense hz|split; [exact: gz|by []]].
- apply: ans_warn; have ha := mx_wf w en (etrans (esym (proj1 h)) en).
  apply: ans_bind (ans_dense_mx perm ha) _ => t ht; have [z e [hz gz]] := t_root_ok h en ht.
  apply: (ans_eq (asq_num ht)); apply: (ans_eq e); apply: ans_ret; rewrite (mk_dense_mx hz); eexists; split; [exact: mx_dense hz|split; [exact: gz|by []]].
- case: h (w) => hl hr [wl wr o]; subst n.
  apply: ans_bind (IHl _ wl hl erefl) _ => x [X [hx [gx _]]]; apply: ans_bind (IHr _ wr hr erefl) _ => y [Y [hy [gy _]]]; apply: ans_ret.
  exists (fun be => kmx (X be) (Y be)); split; first exact: mx_kron.
  split=> // be /[dup] hb; rewrite okb_bct // => /andP[b1 b2]; have [x1 [G x2]] := gx be b1; have [y1 [H y2]] := gy be b2.
  split; last by exists (kmx G H); rewrite kmx_tr kmx_mul -x2 -y2.
  rewrite kmx_mul x1 y1; apply/esym; apply: mxof_kron => //; apply/esym; exact: rootable_sq.
Qed.

(** B.root: a positive-semidefinite square root, of the class given above. *)
Theorem C31_root a : wf a -> rootable svd a ->
  answers (fun o => root o svd a) (fun r => root_of a r /\ (ismat a -> ty_of_matrix r = rootcls (ty_of_matrix a))).
Proof.
move=> w h; apply: ans_conseq (root_main w h erefl) _ => r [R [[wr [e1 e2] e3 e4] [g c]]]; split.
  split=> //; first by rewrite /mshape e1 e2 e3 -(rootable_sq w h).
  by move=> be hb /=; rewrite e4 //; have [gg [G eG]] := g be hb; split; [exact: gg|rewrite eG; exact: gram_psd].
by move: c; clear; case: a.
Qed.
(** There is only one: two objects which are square roots in this sense have equal entries. *)
Theorem C31_root_unique a r r' : wf a -> mrows a = mcols a -> root_of a r -> root_of a r' ->
  mshape r = mshape r' /\ forall be i j, okb (mbatch a) be -> (i < mrows a)%N -> (j < mrows a)%N -> ent r be i j = ent r' be i j.
Proof.
move=> w sq [_ e1 h1] [_ e2 h2]; split=> [|be i j hb hi hj]; first by rewrite e1 e2.
have [g1 p1] := h1 be hb; have [g2 p2] := h2 be hb.
have /matrixP/(_ (Ordinal hi) (Ordinal hj)) := psd_root_unique p1 p2 (etrans g1 (esym g2)); by rewrite !mxE.
Qed.
(** No method for triangular matrices. *)
Theorem C31_root_triangular a : match a with LT _ | UT _ => True | _ => False end -> forall o, root o svd a = Raise NotFoundLookup.
Proof. by case: a. Qed.
Notation run n := (ops_n argsort n).
Lemma xh_root n a : nw a -> xh (root (run n) svd a) (@nw F).
Proof.
elim: a => [t|d b r c|t|t|t r c|t|t|l IHl r IHr m IHm|d l IHl r IHr m IHm|l IHl r IHr] h //.
- by apply: xe_bind => [|_]; [exact: xe_asq|apply: xe_bind => [|u //]; exact: xe_square2].
- by apply: xe_bind => [|_ //]; exact: xe_asq.
- by apply: xe_bind => [|_]; [exact: xe_asq|apply: xe_bind => [|u //]; exact: xe_square2].
- by apply: xe_bind => [|_]; [exact: xe_asq|exact: (xh_chol argsort n h)].
- by apply: xe_bind => [|_]; [exact: xe_asq|exact: (xh_chol argsort n h)].
- apply: xe_bind => [|_]; first exact: xe_warn. apply: xe_bind => [|t]; first exact: (xk_dense (xk_n argsort n)).
  by apply: xe_bind => [|_]; [exact: xe_asq|apply: xe_bind => [|u //]; exact: xe_square2].
- case/nwKron: h => hl hr; apply: xh_bind (IHl hl) _ => x hx; apply: xh_bind (IHr hr) _ => y hy.
  by split=> //=; rewrite hx.
Qed.
(** Without Woodbury matrices the call returns, unconditionally. *)
Theorem C31_root_exact a : wf a -> nw a -> rootable svd a -> returns argsort (fun o => root o svd a) (root_of a).
Proof.
move=> w na h; apply: ans_returns; first by move=> n; apply: xh_xe (xh_root n na).
by apply: ans_conseq (C31_root w h) _ => r [].
Qed.
End PropsRoot.

(** ** Non-vacuity: an [svd] which is right on 1 x 1 matrices, and Kronecker products of such matrices. *)
Section Examples.
Variable F : rcfType.
Definition e_svd n (A : 'M[F]_n) : 'M[F]_n * 'rV[F]_n * 'M[F]_n := (1%:M, \row_j A j j, 1%:M).
Lemma e_svd_diag n (g : nat -> F) : (forall i, 0 <= g i) -> is_svd (dmx n g) (e_svd (dmx n g)).
Proof.
move=> h; rewrite /is_svd /=; split; rewrite ?trmx1 ?mulmx1 //.
  by move=> j; rewrite !mxE eqxx mulr1n.
by rewrite mul1mx; congr diag_mx; apply/rowP => j; rewrite !mxE eqxx mulr1n.
Qed.
Definition e_d4 : tensor F := t_full DFloat64 [:: 2]%N 4%:R.
Definition e_four : mat F := Dense (Tensor DFloat64 [:: 2; 2]%N (fun idx => if nth 0%N idx 0 == nth 0%N idx 1 then 4%:R else 0)).
Lemma e_four_mx be : mxof 2 2 e_four be = dmx 2 (fun _ => 4%:R).
Proof. by rewrite dmxE mxofE; apply: eq_gmx => i j _ _; rewrite /= /mx /= /t_uprank /=; rewrite eq_sym. Qed.
Lemma e_four_ok : decomposed e_svd e_four.
Proof.
split=> // be hb A; have -> : A = dmx 2 (fun _ => 4%:R) by exact: e_four_mx.
split; last by apply: e_svd_diag => _; exact: ler0n.
have -> : dmx 2 (fun _ => 4%:R) = dmx 2 (fun _ => 2%:R) *m (dmx 2 (fun _ => 2%:R))^T :> 'M[F]_2.
  by rewrite dmx_sym dmx_mul; apply: dmx_ext => i _; rewrite -natrM.
exact: gram_psd.
Qed.
Example C31_ex : wf (Kron e_four (Kron (e_const F) (Diag e_d4))) /\ rootable e_svd (Kron e_four (Kron (e_const F) (Diag e_d4))).
Proof.
split=> //; split; first exact: e_four_ok.
by split; [split=> // be _; exact: ler01|move=> be i _ _ /=; rewrite eqxx; exact: ler0n].
Qed.
End Examples.
Print Assumptions C31_root. Print Assumptions C31_root_unique. Print Assumptions C31_root_triangular. Print Assumptions C31_root_exact.
