(** * C25, C26: inverses and Schur complements *)
From mathcomp Require Import all_ssreflect all_algebra.
From Verif Require Import Outcome Monad Shape Tensor Mat Dispatch Ops Spec ShapeThy TensorThy TensorThy2 MatThy OpsOk MulOk MmOk OpsMain Term Calm Api Bridge Ans PropsMm Types PropsStruct Ops2 PropsSum PropsExpr.
From Verif Require Import Backend SpecLA LinAlg MxThy ClsThy Solve InvThy.
Set Implicit Arguments. Unset Strict Implicit. Unset Printing Implicit Defensive.
Import GRing.Theory Num.Theory.
Local Open Scope ring_scope.

(** ** Specification: which objects can be inverted

    Dense and diagonal matrices: all matrices of the batch are invertible.  Kronecker products: both factors.
    Woodbury matrices: the diagonal, the middle factor and the matrix itself, and the Schur complement is dense or
    diagonal according to the classes of the factors ([schur_simple]; e.g. dense factors, see [schur_simple_dense]). *)
Section Spec.
Variable F : rcfType.
Notation mat := (mat F).
Definition regular (a : mat) : Prop :=
  mrows a = mcols a /\ forall be, okb (mbatch a) be -> mxof (mrows a) (mrows a) a be \in unitmx.
Fixpoint invertible (a : mat) : Prop :=
  match a with
  | Nm _ | Dense _ | Diag _ => regular a
  | Kron l r => invertible l /\ invertible r
  | Wb d l r m => [/\ invertible m, schur_simple l r m, regular (Diag d) & regular a]
  | _ => False
  end.
End Spec.

Lemma schur_simple_dense F (l r m : mat F) : cls l = TDense -> cls r = TDense ->
  cls m = TDense \/ cls m = TDiag \/ cls m = TWb -> schur_simple l r m.
Proof. by rewrite /schur_simple /schur_ty /second_ty => -> -> [->|[->|->]]. Qed.
Lemma schur_simple_diag F (l r m : mat F) : cls l = TDiag -> cls r = TDiag -> cls m = TDense \/ cls m = TDiag -> schur_simple l r m.
Proof. by rewrite /schur_simple /schur_ty /second_ty => -> -> [->|->]. Qed.

Section PropsInv.
Variable F : rcfType.
Notation tensor := (tensor F).
Notation mat := (mat F).
Variable argsort : seq F -> seq nat.
Hypothesis perm : argsort_ok argsort.
Notation answers := (answers argsort).
Notation raises := (raises argsort).

Lemma bs_eq (u d l r m : shape) : bto d u -> bto l u -> bto r u -> bto m u -> bct m (bct (bct r d) l) = bct d (bct (bct l r) m).
Proof.
move=> h1 h2 h3 h4; apply: bto_ext => v.
have q s1 s2 : bto s1 u -> bto s2 u -> bto (bct s1 s2) v = bto s1 v && bto s2 v.
  by move=> g1 g2; apply: bto_bct; apply: (@bcok_ub u).
by rewrite !q ?bto_bct_ub //; do 4 case: (bto _ v).
Qed.
Lemma num_mx_inv (a : mat) (t : tensor) n m b (X : seq nat -> 'M[F]_(n, m)) : a = Nm t \/ a = Dense t \/ a = LT t \/ a = UT t -> is_mx a b X -> tmx t b X.
Proof.
move=> E [w [e1 e2] e3 h]; have := tmat_num w E; rewrite e1 e2 e3 => ht.
by apply: tmat_ext ht _ => be i j hb hi hj; rewrite -h // mget_gmx.
Qed.
Lemma mxof_kron (l r : mat) n1 m1 n2 m2 be : wf (Kron l r) -> okb (mbatch (Kron l r)) be ->
  mrows l = n1 -> mcols l = m1 -> mrows r = n2 -> mcols r = m2 ->
  mxof (n1 * n2) (m1 * m2) (Kron l r) be = kmx (mxof n1 m1 l be) (mxof n2 m2 r be).
Proof.
move=> w hb e1 e2 e3 e4; rewrite mxofE; apply: eq_gmx => i j /= /dm_lt/andP[h1 h2] /dm_lt/andP[h3 h4].
by rewrite !mget_gmx // e3 e4.
Qed.
Lemma mxof_lr (l r m : mat) n1 n2 p q be : mcols l = p -> mcols r = q ->
  mxof n1 n2 (LR l r m) be = mxof n1 p l be *m mxof p q m be *m (mxof n2 q r be)^T.
Proof. by move=> <- <-; rewrite mxofE -gmx_lr. Qed.
Lemma mxof_wb d (l r m : mat) n p q be : mcols l = p -> mcols r = q ->
  mxof n n (Wb d l r m) be = dmx n (vx d be) + mxof n p l be *m mxof p q m be *m (mxof n q r be)^T.
Proof. by move=> <- <-; rewrite dmxE -gmx_lr -gmx_add. Qed.
Lemma invertible_sq (a : mat) : invertible a -> mrows a = mcols a.
Proof.
elim: a => //= [t [h _] //|t [h _] //|l IHl r IHr [hl hr]]; by rewrite IHl // IHr.
Qed.
Lemma mx_kron (l r : mat) n1 m1 n2 m2 bl br (L : seq nat -> 'M[F]_(n1, m1)) (R : seq nat -> 'M[F]_(n2, m2)) :
  is_mx l bl L -> is_mx r br R -> bcok bl br -> is_mx (Kron l r) (bct bl br) (fun be => kmx (L be) (R be)).
Proof. by move=> hl hr o; exact: res_mx (res_kron (mx_res hl) (mx_res hr) o). Qed.

Lemma inv_simple k (s : mat) n b (S : seq nat -> 'M[F]_n) : is_mx s b S -> simple_ty (cls s) ->
  (forall be, okb b be -> S be \in unitmx) -> inverts argsort (fun o => inv_n o k.+1) s b S.
Proof.
case: s => [t|????|t|t|???|?|?|???|????|??] hs // _ hu.
- have ht := num_mx_inv (or_introl erefl) hs; have [z e hz] := t_inv_ok ht hu; rewrite /inverts /=.
  by apply: (ans_eq e); apply: ans_ret; split=> //; exact: mx_num.
- have ht := num_mx_inv (or_intror (or_introl erefl)) hs; have [z e hz] := t_inv_ok ht hu; rewrite /inverts /=.
  by apply: (ans_eq e); apply: ans_ret; rewrite (mk_dense_mx hz); split=> //; exact: mx_dense.
- have [ht e] := diag_mx_inv hs; have nz be i : okb b be -> (i < n)%N -> vx t be i != 0.
    by move=> hb; move: i; apply/dmx_unit; rewrite -e ?hu.
  have [u eu hu'] := diag_inv_ok ht nz; rewrite /inverts /=.
  apply: ans_ext (_ : forall o, ret (Diag u) = _) _ => //; apply: ans_ret; split=> //.
  apply: mx_ext (mx_diag hu') _ => be hb; rewrite e // dmx_inv // => i hi; exact: nz.
Qed.

Lemma inv_main (a : mat) k n : wf a -> invertible a -> mrows a = n -> (mdepth a < k)%N ->
  (forall be, okb (mbatch a) be -> mxof n n a be \in unitmx) /\
  inverts argsort (fun o => inv_n o k) a (mbatch a) (mxof n n a).
Proof.
elim: a k n => [t|d b r c|t|t|t r c|t|t|l IHl r IHr m IHm|d l IHl r IHr m IHm|l IHl r IHr] k n w h en; case: k => // k hk.
1,2,3: by case: h => sq hu; rewrite en in sq hu; split=> //; apply: inv_simple => //; exact: mx_wf.
- case: (h) => hm ss [_ rd] [_ ra].
  have [[wl wr wm kf /and4P[/eqP p1 /eqP p2 o1 o2]] /and4P[wd /eqP n1 /eqP n2 o3]] := w.
  have sq := invertible_sq hm; have en' : tcols d = n by [].
  set p := mrows m in p1; have p2' : mcols r = p by rewrite p2 -sq.
  have hk' : (mdepth m < k)%N by move: hk; rewrite /= ltnS gtn_max => /andP[].
  have [um im] := IHm k p wm hm erefl hk'.
  have hd : tvec d n (behead (sh d)) (vx d) by rewrite -en'; exact: tvec_wfv.
  have hl : is_mx l (mbatch l) (mxof n p l) by apply: mx_wf => //; rewrite n1.
  have hr : is_mx r (mbatch r) (mxof n p r) by apply: mx_wf => //; rewrite n2.
  pose u := mbatch (Wb d l r m).
  have [ud [ul [ur um']]] : bto (behead (sh d)) u /\ bto (mbatch l) u /\ bto (mbatch r) u /\ bto (mbatch m) u.
    have := bto_refl u; rewrite (Wbb _ w) => /and4P[]; by split.
  have nz be i : okb (behead (sh d)) be -> (i < n)%N -> vx d be i != 0.
    move=> hb; move: i; apply/dmx_unit; have := rd be hb; by rewrite /= en' mxofE dmxE.
  have E be : okb u be -> mxof n n (Wb d l r m) be = dmx n (vx d be) + mxof n p l be *m mxof p p m be *m (mxof n p r be)^T.
    by move=> hb; exact: mxof_wb.
  have uW be : okb (mbatch (Wb d l r m)) be -> mxof n n (Wb d l r m) be \in unitmx by move=> hb; rewrite -en; apply: ra.
  split=> //.
  have bsu : bto u (bct (mbatch m) (bct (bct (mbatch r) (behead (sh d))) (mbatch l))).
    by rewrite (@bs_eq u) // bto_refl.
  have uW' be : okb (bct (mbatch m) (bct (bct (mbatch r) (behead (sh d))) (mbatch l))) be ->
     dmx n (vx d be) + mxof n p l be *m mxof p p m be *m (mxof n p r be)^T \in unitmx.
    by move=> /(okb_mono bsu) hb; rewrite -E // uW.
  have H := @woodbury_inv_ok _ _ perm (fun o => inv_n o k) d l r m n p _ _ _ _ u _ _ _ _ hd hl hr ud ul ur um' kf nz um im ss uW'.
  apply: ans_conseq (H _) _ => [s hs ks ts|c [hc kc tc]].
    have k0 : (0 < k)%N by apply: leq_trans hk'.
    case: k hk' im H k0 {hk} => // k _ _ _ _; apply: inv_simple => // be hb; rewrite wb_unit ?uW' //.
      apply/dmx_unit => i hi; apply: nz => //; apply: okb_mono hb.
      exact: bto_trans ud bsu.
    by apply: um; apply: okb_mono hb; apply: bto_trans um' bsu.
  split=> //; apply: mx_ext hc _ => be hb; by rewrite E.
- case: (h) => hl hr; case: (w) => wl wr o.
  have [hk1 hk2] : (mdepth l < k)%N /\ (mdepth r < k)%N by move: hk; rewrite /= ltnS gtn_max => /andP[].
  have [ul il] := IHl k _ wl hl erefl hk1; have [ur ir] := IHr k _ wr hr erefl hk2.
  have E be : okb (mbatch (Kron l r)) be -> mxof n n (Kron l r) be =
    (let e := en in match e in _ = x return 'M[F]_x with erefl => kmx (mxof (mrows l) (mrows l) l be) (mxof (mrows r) (mrows r) r be) end).
    by move=> hb; subst n; apply: mxof_kron => //; apply/esym; apply: invertible_sq.
  subst n; split=> [be hb|].
    rewrite E //= ; move: hb; rewrite okb_bct // => /andP[b1 b2]; apply: kmx_unit; [exact: ul|exact: ur].
  apply: ans_bind il _ => x [hx kx tx]; apply: ans_bind ir _ => y [hy ky ty]; apply: ans_ret; split=> //.
  apply: mx_ext (mx_kron hx hy o) _ => be hb; rewrite E //=; move: hb; rewrite okb_bct // => /andP[b1 b2].
  by rewrite kmx_inv ?ul ?ur.
Qed.
End PropsInv.
