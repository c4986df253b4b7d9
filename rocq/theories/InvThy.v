(** * Inverses (proof support for C25, C26) *)
From mathcomp Require Import all_ssreflect all_algebra.
From Verif Require Import Outcome Monad Shape Tensor Mat Dispatch Ops Spec ShapeThy TensorThy TensorThy2 MatThy OpsOk MulOk MmOk OpsMain Term Calm Api Bridge Ans PropsMm Types PropsStruct Ops2 PropsSum PropsExpr.
From Verif Require Import Backend SpecLA LinAlg MxThy ClsThy Solve.
Set Implicit Arguments. Unset Strict Implicit. Unset Printing Implicit Defensive.
Import GRing.Theory Num.Theory.
Local Open Scope ring_scope.

Section Pure.
Variable F : rcfType.
(** ** Diagonal matrices *)
Definition dmx n (g : nat -> F) : 'M[F]_n := diag_mx (\row_i g i).
Lemma dmxE n (g : nat -> F) : dmx n g = gmx n n (fun i j => if i == j then g i else 0).
Proof. by apply/matrixP => i j; rewrite !mxE -val_eqE; case: eqP; rewrite ?mulr1n ?mulr0n. Qed.
Lemma dmx_ext n (g h : nat -> F) : (forall i, (i < n)%N -> g i = h i) -> dmx n g = dmx n h.
Proof. by move=> e; rewrite /dmx; congr diag_mx; apply/rowP => i; rewrite !mxE e. Qed.
Lemma dmx_mul n (g h : nat -> F) : dmx n g *m dmx n h = dmx n (fun i => g i * h i).
Proof. by rewrite /dmx mulmx_diag; congr diag_mx; apply/rowP => i; rewrite !mxE. Qed.
Lemma dmx1 n : dmx n (fun _ => 1) = 1%:M :> 'M[F]_n.
Proof. by rewrite -diag_const_mx /dmx; congr diag_mx; apply/rowP => i; rewrite !mxE. Qed.
Lemma dmx_det n (g : nat -> F) : \det (dmx n g) = \prod_(i < n) g i.
Proof. by rewrite /dmx det_diag; apply: eq_bigr => i _; rewrite !mxE. Qed.
Lemma dmx_unit n (g : nat -> F) : (forall i, (i < n)%N -> g i != 0) <-> dmx n g \in unitmx.
Proof.
rewrite unitmxE dmx_det unitfE; split=> [h|/prodf_neq0 h i hi]; last exact: (h (Ordinal hi)).
by apply/prodf_neq0 => i _; apply: h.
Qed.
Lemma invmx_uniq n (A B : 'M[F]_n) : A *m B = 1%:M -> invmx A = B.
Proof. by move=> h; have [u _] := mulmx1_unit h; rewrite -[B](mulKmx u) h mulmx1. Qed.
Lemma dmx_inv n (g : nat -> F) : (forall i, (i < n)%N -> g i != 0) -> invmx (dmx n g) = dmx n (fun i => (g i)^-1).
Proof.
by move=> h; apply: invmx_uniq; rewrite dmx_mul -dmx1; apply: dmx_ext => i hi; rewrite mulfV // h.
Qed.
Lemma dmx_sym n (g : nat -> F) : (dmx n g)^T = dmx n g. Proof. exact: tr_diag_mx. Qed.

(** ** Kronecker products *)
Definition kmx n1 m1 n2 m2 (A : 'M[F]_(n1, m1)) (B : 'M[F]_(n2, m2)) : 'M[F]_(n1 * n2, m1 * m2) :=
  gmx (n1 * n2) (m1 * m2) (fun i j => mget A (i %/ n2) (j %/ m2) * mget B (i %% n2) (j %% m2)).
Lemma mget_mul n p m (A : 'M[F]_(n, p)) (B : 'M[F]_(p, m)) i j : (i < n)%N -> (j < m)%N ->
  mget (A *m B) i j = sumf p (fun k => mget A i k * mget B k j).
Proof. by move=> hi hj; rewrite -{1}(gmx_mget A) -{1}(gmx_mget B) -gmx_mul mget_gmx. Qed.
Lemma mget_tr n m (A : 'M[F]_(n, m)) i j : (i < m)%N -> (j < n)%N -> mget A^T i j = mget A j i.
Proof. by move=> hi hj; rewrite -{1}(gmx_mget A) -gmx_tr mget_gmx. Qed.
Lemma dm_lt n1 n2 i : (i < n1 * n2)%N -> (i %/ n2 < n1)%N && (i %% n2 < n2)%N.
Proof. by case: n2 => [|n2] h; [rewrite muln0 in h|rewrite ltn_divLR // h ltn_mod]. Qed.
Lemma kmx_mul n1 p1 m1 n2 p2 m2 (A : 'M[F]_(n1, p1)) (B : 'M[F]_(p1, m1)) (C : 'M[F]_(n2, p2)) (D : 'M[F]_(p2, m2)) :
  kmx A C *m kmx B D = kmx (A *m B) (C *m D).
Proof.
rewrite /kmx -gmx_mul; apply: eq_gmx => i j /dm_lt/andP[h1 h2] /dm_lt/andP[h3 h4].
rewrite !mget_mul // sumf_sumf_mul.
rewrite (sumf_prod_dm p1 p2 (fun x y => (mget A (i %/ n2) x * mget C (i %% n2) y) * (mget B x (j %/ m2) * mget D y (j %% m2)))).
by apply: eq_sumf => x _; apply: eq_sumf => y _; rewrite mulrACA.
Qed.
Lemma mget1 n i j : (i < n)%N -> (j < n)%N -> mget (1%:M : 'M[F]_n) i j = (i == j)%:R.
Proof. by move=> hi hj; rewrite (mgetE _ hi hj) !mxE. Qed.
Lemma kmx1 n1 n2 : kmx (1%:M : 'M[F]_n1) (1%:M : 'M[F]_n2) = 1%:M.
Proof.
rewrite /kmx -[1%:M in RHS]gmx_mget; apply: eq_gmx => i j hi hj; rewrite (mget1 hi hj).
case/dm_lt/andP: hi (hi) => h1 h2 hi; case/dm_lt/andP: hj (hj) => h3 h4 hj; rewrite !mget1 // -natrM mulnb; congr (nat_of_bool _)%:R.
apply/andP/eqP => [[/eqP e1 /eqP e2]|->]; last by rewrite !eqxx.
by rewrite (divn_eq i n2) e1 e2 -divn_eq.
Qed.
Lemma kmx_unit n1 n2 (A : 'M[F]_n1) (B : 'M[F]_n2) : A \in unitmx -> B \in unitmx -> kmx A B \in unitmx.
Proof.
by move=> u v; have [] := @mulmx1_unit _ _ (kmx A B) (kmx (invmx A) (invmx B)); rewrite // kmx_mul !mulmxV // kmx1.
Qed.
Lemma kmx_inv n1 n2 (A : 'M[F]_n1) (B : 'M[F]_n2) : A \in unitmx -> B \in unitmx -> invmx (kmx A B) = kmx (invmx A) (invmx B).
Proof. by move=> u v; apply: invmx_uniq; rewrite kmx_mul !mulmxV // kmx1. Qed.
Lemma kmx_tr n1 m1 n2 m2 (A : 'M[F]_(n1, m1)) (B : 'M[F]_(n2, m2)) : (kmx A B)^T = kmx A^T B^T.
Proof.
rewrite /kmx -gmx_tr; apply: eq_gmx => i j /dm_lt/andP[h1 h2] /dm_lt/andP[h3 h4]; by rewrite !mget_tr.
Qed.
End Pure.

(** The classes which the Schur complement [inv(m) + r^T inv(d) l] may have. *)
Definition second_ty F (l r : mat F) : seq ty :=
  flatten [seq mmt t (cls l) | t <- mmt (trt (cls r) true) TDiag] ++
  flatten [seq mmt (trt (cls r) true) t | t <- mmt TDiag (cls l)].
Definition schur_ty F (l r m : mat F) : seq ty := flatten [seq addt (cls m) t | t <- second_ty l r].
Definition simple_ty (t : ty) : bool := ty_eqb t TDense || ty_eqb t TDiag.
(** It is dense or diagonal. *)
Definition schur_simple F (l r m : mat F) : bool := all simple_ty (schur_ty l r m).

Section InvThy.
Variable F : rcfType.
Notation tensor := (tensor F).
Notation mat := (mat F).
Variable argsort : seq F -> seq nat.
Hypothesis perm : argsort_ok argsort.
Notation answers := (answers argsort).
Notation run n := (ops_n argsort n).

Lemma ty_in_flatten A (f : A -> seq ty) s t : has (fun u => ty_in t (f u)) s = ty_in t (flatten [seq f u | u <- s]).
Proof. by elim: s => //= u s ->; rewrite /ty_in has_cat. Qed.

Lemma ty_in_fl A (f : ty -> seq A) (P : pred A) s t : ty_in t s -> has P (f t) -> has P (flatten [seq f u | u <- s]).
Proof. by elim: s => //= v s IH /orP[/tyP<-|h1] h2; rewrite has_cat ?h2 // IH ?orbT. Qed.
Lemma mx_diag (t : tensor) n b g : tvec t n b g -> is_mx (Diag t) b (fun be => dmx n (g be)).
Proof. by move=> h; apply: mx_ext (res_mx (res_diag h)) _ => be hb; rewrite dmxE. Qed.
Lemma diag_mx_inv (t : tensor) n b (X : seq nat -> 'M[F]_n) : is_mx (Diag t) b X ->
  tvec t n b (vx t) /\ forall be, okb b be -> X be = dmx n (vx t be).
Proof.
case=> /= w [e1 e2] e3 h; have ht := tvec_wfv w; rewrite e1 e3 in ht; split=> // be hb; by rewrite -h // dmxE.
Qed.
Lemma diag_inv_ok (t : tensor) n b g : tvec t n b g -> (forall be i, okb b be -> (i < n)%N -> g be i != 0) ->
  exists2 u, diag_inv t = ret (Diag u) & tvec u n b (fun be i => (g be i)^-1).
Proof.
move=> h nz; have hs : tsca (t_scalar weak (1 : F)) [::] (fun _ => 1) by [].
have [u e hu] := calm_hoare (cm_map2 _ _ _) (tvec_map2_sl (fun x y => x / y) hs h (bcok0s _)).
have hu' : tvec u n b (fun be i => (g be i)^-1) by move: hu; rewrite bct0s => hu; apply: tvec_ext hu _ => be i _ _; rewrite mul1r.
exists u => //; by rewrite /diag_inv /t_div e bind_ret (mk_diag_tvec hu').
Qed.

(** What an inversion routine has to do. *)
Definition inverts (inv : ops F -> mat -> outcome mat) (a : mat) n b (X : seq nat -> 'M[F]_n) : Prop :=
  answers (fun o => inv o a) (fun c => [/\ is_mx c b (fun be => invmx (X be)), kfree a -> kfree c & cls c = cls a]).

Section Wb.
Variable inv : ops F -> mat -> outcome mat.
Variables (d : tensor) (l r m : mat) (n p : nat) (bd bl br bm u : shape).
Variables (g : seq nat -> nat -> F) (L R : seq nat -> 'M[F]_(n, p)) (M : seq nat -> 'M[F]_p).
Hypotheses (hd : tvec d n bd g) (hl : is_mx l bl L) (hr : is_mx r br R).
Hypotheses (ud : bto bd u) (ul : bto bl u) (ur : bto br u) (um : bto bm u).
Hypothesis kf : [&& kfree l, kfree r & kfree m].
Hypothesis nz : forall be i, okb bd be -> (i < n)%N -> g be i != 0.
Hypothesis uM : forall be, okb bm be -> M be \in unitmx.
Hypothesis him : inverts inv m bm M.
Let D be := dmx n (g be).
Let bs := bct bm (bct (bct br bd) bl).
Let S be := wb_S (D be) (L be) (R be) (M be).
Lemma bs_ub : bto bs u. Proof. by rewrite /bs !bto_bct_ub. Qed.
Lemma bs_ok be : okb bs be = [&& okb bm be, okb br be, okb bd be & okb bl be].
Proof.
rewrite /bs okb_bct; last by apply: (@bcok_ub u); rewrite ?bto_bct_ub.
rewrite okb_bct; last by apply: (@bcok_ub u); rewrite ?bto_bct_ub.
rewrite okb_bct; last by apply: (@bcok_ub u).
by rewrite -!andbA.
Qed.
Lemma schur_val : answers (fun o => schur_with o (inv o) d l r m) (fun s => [/\ is_mx s bs S, kfree s & ty_in (cls s) (schur_ty l r m)]).
Proof.
have [di e hdi] := diag_inv_ok hd nz; have hDi := mx_diag hdi; case/and3P: kf => kl kr km.
have b1 : bcok br bd by apply: (@bcok_ub u).
have b2 : bcok (bct br bd) bl by apply: (@bcok_ub u); rewrite ?bto_bct_ub.
have b3 : bcok bm (bct (bct br bd) bl) by apply: (@bcok_ub u); rewrite ?bto_bct_ub.
apply: (ans_eq e); apply: ans_bind (ans_mm3_mx perm hr hDi hl b1 b2 isT) _ => z [hz kz tz].
apply: ans_bind him _ => mi [hmi kmi tmi].
apply: ans_conseq (ans_add_mx perm hmi hz b3) _ => s [hs ks ts]; split; [|by apply: ks; rewrite ?kmi|].
  apply: mx_ext hs _ => be; rewrite -/bs bs_ok => /and4P[_ _ ob _]; rewrite /S /wb_S /D; congr (_ + _ *m _ *m _).
  by rewrite dmx_inv // => i hi; apply: nz.
rewrite /schur_ty -tmi; apply: ty_in_fl ts.
by rewrite /second_ty /ty_in has_cat -!/(ty_in _ _) -!ty_in_flatten.
Qed.
Hypothesis sty : schur_simple l r m.
Lemma schur_ok : answers (fun o => schur_with o (inv o) d l r m) (fun s => [/\ is_mx s bs S, kfree s & simple_ty (cls s)]).
Proof. by apply: ans_conseq schur_val _ => s [h1 h2 h3]; split=> //; apply: (ty_inP sty). Qed.
(** [simple]: the inversion routine works for the Schur complement. *)
Hypothesis uW : forall be, okb bs be -> D be + L be *m M be *m (R be)^T \in unitmx.
Hypothesis hisimple : forall s, is_mx s bs S -> kfree s -> simple_ty (cls s) -> inverts inv s bs S.
Lemma woodbury_inv_ok : answers (fun o => woodbury_inv o (inv o) d l r m) (fun c =>
  [/\ is_mx c (bct bd (bct (bct bl br) bm)) (fun be => invmx (D be + L be *m M be *m (R be)^T)), kfree c & cls c = TWb]).
Proof.
have [di e hdi] := diag_inv_ok hd nz; have hDi := mx_diag hdi; case/and3P: kf => kl kr km.
have b1 : bcok bd bl by apply: (@bcok_ub u).
have b2 : bcok bd br by apply: (@bcok_ub u).
apply: (ans_eq e).
apply: ans_bind (ans_mm_mx perm hDi hl b1 (mm_side_kfree _ _ _)) _ => // x [hx kx _].
apply: ans_bind (ans_mm_mx perm hDi hr b2 (mm_side_kfree _ _ _)) _ => // y [hy ky _].
apply: ans_bind schur_ok _ => s [hs ks ts].
apply: ans_bind (hisimple hs ks ts) _ => si [hsi ksi _].
have kf' : [&& kfree x, kfree y & kfree si] by rewrite kx ?ky ?ksi.
case/and3P: kf' => kx' ky' ksi'.
have H := mk_lowrank_res (mx_res hx) (mx_res hy) (mx_res hsi) kx' ky' ksi' (u := u).
apply: ans_bindc (cm_mk_lowrank _ _ _) (H _ _ _) _; rewrite ?bto_bct_ub ?bs_ub // => c [hc [kc ec]]; subst c.
have wc : wf (LR x y si) by case: hc.
apply: ans_ext (_ : forall o, (do b' <- negative (LR x y si); o_add o (Diag di) b') = _) _ => //.
apply: ans_bindc (cm_negative _) (negative_ok wc) _ => b' [hb' kb' tb'].
have {}hb' : is_mx b' (bct (bct (bct bd bl) (bct bd br)) bs)
   (fun be => - (invmx (D be) *m L be *m invmx (S be) *m ((R be)^T *m invmx (D be)))).
  case: hc => _ [e1 e2] e3 e4; rewrite e1 e2 e3 in hb'.
  apply: mx_ext (res_mx hb') _ => be hb; rewrite gmx_opp; congr (- _).
  have : [&& okb bd be, okb bl be, okb br be & okb bs be].
    move: hb; rewrite okb_bct; last by apply: (@bcok_ub u); rewrite ?bto_bct_ub ?bs_ub.
    rewrite okb_bct; last by apply: (@bcok_ub u); rewrite ?bto_bct_ub.
    by rewrite (okb_bct _ b1) (okb_bct _ b2) => /andP[/andP[/andP[-> ->] /andP[_ ->]] ->].
  case/and4P=> o1 o2 o3 o4.
  rewrite (eq_gmx (fun i j hi hj => e4 be i j hb hi hj)) gmx_lr !gmx_mget.
  rewrite /D dmx_inv; last by move=> i hi; apply: nz.
  by rewrite trmx_mul dmx_sym.
apply: ans_conseq (ans_add_mx perm hDi hb' _) _ => [|c [hc' kc' tc]].
  by apply: (@bcok_ub u); rewrite ?bto_bct_ub ?bs_ub.
split; last 1 first.
- have cb : cls b' = TLR by clear -tb'; case: b' tb'.
  by move: tc; rewrite cb; case: (cls c).
- apply: mx_cast hc' _ _ => [|be].
    apply: bto_ext => v; rewrite /bs.
    have q s1 s2 : bto s1 u -> bto s2 u -> bto (bct s1 s2) v = bto s1 v && bto s2 v.
      by move=> h1 h2; apply: bto_bct; apply: (@bcok_ub u).
    by rewrite !q ?bto_bct_ub //; do 4 case: (bto _ v).
  rewrite okb_bct; last by apply: (@bcok_ub u); rewrite ?bto_bct_ub ?bs_ub.
  rewrite okb_bct; last by apply: (@bcok_ub u); rewrite ?bto_bct_ub ?bs_ub.
  case/and3P=> o1 _ o2; have uw := uW o2.
  have uDi : dmx n (g be) \in unitmx by apply/dmx_unit => i hi; apply: nz.
  rewrite wb_invE //; last by apply: uM; move: o2; rewrite bs_ok => /and4P[].
  by rewrite /D -dmx_inv // => i hi; apply: nz.
- by apply: kc' => //; rewrite kb'.
Qed.
End Wb.
End InvThy.
