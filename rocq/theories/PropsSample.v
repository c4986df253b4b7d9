(** * C32: sampling *)
From mathcomp Require Import all_ssreflect all_algebra.
From Verif Require Import Outcome Monad Shape Tensor Mat Dispatch Ops Spec ShapeThy TensorThy TensorThy2 MatThy OpsOk MulOk DenseOk MmOk OpsMain Term Calm Api Bridge Samples Inhabited Ans PropsMm Types PropsStruct Ops2 PropsSum PropsLift PropsExpr Exact.
From Verif Require Import Backend SpecLA LinAlg MxThy ClsThy Solve InvThy PropsInv SolveThy CholThy PdThy PropsLA PropsChol PropsIqf.
Set Implicit Arguments. Unset Strict Implicit. Unset Printing Implicit Defensive.
Import Order.TTheory GRing.Theory Num.Theory.
Local Open Scope ring_scope.

(** ** Specification *)
Section Spec.
Variable F : rcfType.
Notation mat := (mat F).
Notation tensor := (tensor F).
Variable state : Type.
Variable randn : state -> dtype -> shape -> state * tensor.
(** The generator returns arrays of the requested shape. *)
Definition randn_ok : Prop := forall st d s, sh (randn st d s).2 = s.
(** The matrix of noise at batch index [be]. *)
Definition noise n m (z : tensor) (be : seq nat) : 'M[F]_(n, m) := \matrix_(i, j) mx z be i j.
(** One draw: [x = L z], where [L L^T] is the covariance [a] and [z] is one block of noise, drawn in state [st]. *)
Definition one_draw (st : state) (a : mat) (num : nat) (res : state * mat) : Prop :=
  exists w, exists L : seq nat -> 'M[F]_(mrows a, w),
    let d := randn st (float_of (mdtype a)) [:: num, w & mbatch a] in
    [/\ res.1 = d.1, (forall be, okb (mbatch a) be -> L be *m (L be)^T = mxof (mrows a) (mrows a) a be) &
        is_mx res.2 (mbatch a) (fun be => L be *m noise w num d.2 be)].
(** Two draws: the second starts in the state which the first left; the covariances of the parts add up. *)
Definition two_draws (st : state) (a : mat) (p q : mat) (num : nat) (res : state * mat) : Prop :=
  exists w, exists v, exists L : seq nat -> 'M[F]_(mrows a, w), exists K : seq nat -> 'M[F]_(mrows a, v),
    let d1 := randn st (float_of (mdtype p)) [:: num, w & mbatch p] in
    let d2 := randn d1.1 (float_of (mdtype q)) [:: num, v & mbatch q] in
    [/\ res.1 = d2.1,
        (forall be, okb (mbatch a) be -> L be *m (L be)^T + K be *m (K be)^T = mxof (mrows a) (mrows a) a be) &
        is_mx res.2 (mbatch a) (fun be => L be *m noise w num d1.2 be + K be *m noise v num d2.2 be)].
(** The objects which can be sampled from: those with a Cholesky factor (C27); a Woodbury matrix is split. *)
Definition samplable (a : mat) : Prop :=
  if a is Wb d l r m then cholable (Diag d) /\ cholable (LR l r m) else cholable a.
End Spec.

Section PropsSample.
Variable F : rcfType.
Notation tensor := (tensor F).
Notation mat := (mat F).
Variable argsort : seq F -> seq nat.
Hypothesis perm : argsort_ok argsort.
Notation answers := (answers argsort).
Variable state : Type.
Variable randn : state -> dtype -> shape -> state * tensor.
Hypothesis rok : randn_ok randn.
Implicit Types a : mat.

Lemma noise_mx st d n m (b : shape) : posn [:: m, n & b] ->
  is_mx (Nm (randn st d [:: m, n & b]).2) b (noise n m (randn st d [:: m, n & b]).2).
Proof.
move=> p; apply: mx_num; have e := rok st d [:: m, n & b]; split=> //.
by move=> be i j hb hi hj; rewrite (mgetE _ hi hj) mxE.
Qed.
Definition draw_n st a num n (res : state * mat) : Prop :=
  exists w, exists L : seq nat -> 'M[F]_(n, w),
    let d := randn st (float_of (mdtype a)) [:: num, w & mbatch a] in
    [/\ res.1 = d.1, (forall be, okb (mbatch a) be -> L be *m (L be)^T = mxof n n a be) &
        is_mx res.2 (mbatch a) (fun be => L be *m noise w num d.2 be)].
Lemma sample_gen_ok st a num n : mrows a = n -> wf a -> cholable a -> (0 < num)%N ->
  answers (fun o => sample_gen o randn st a num) (draw_n st a num n).
Proof.
move=> <-; move=> wa ca hn; apply: ans_bind (cholesky_gen perm wa ca) _ => c [w [L [hL gL _ _]]].
have [wc [c1 c2] c3 c4] := hL; have [p1 p2 p3] := mx_pos hL.
have e1 : shape_batch a = ret (mbatch a) by rewrite shape_batchE.
have e2 : shape_matrix c = ret (mrows c, mcols c) by rewrite shape_matrixE.
apply: (ans_eq e1); apply: (ans_eq e2); rewrite c2.
have hz : is_mx (Nm (randn st (float_of (mdtype a)) [:: num, w & mbatch a]).2) (mbatch a) (noise w num (randn st (float_of (mdtype a)) [:: num, w & mbatch a]).2).
  by apply: noise_mx; rewrite !posn_cons hn p2.
rewrite /=; case E: (randn st (float_of (mdtype a)) [:: num, w & mbatch a]) => [st' z]; rewrite E /= in hz.
have sd : mm_side c (Nm z) false false by clear; case: c.
apply: ans_bind (ans_mm_mx perm hL hz (bcokss _) sd) _ => x [hx _ _]; apply: ans_ret; exists w, L; rewrite E /=; split=> //.
by rewrite bctss in hx.
Qed.

(** B.sample(state, a, num), [a] not a Woodbury matrix. *)
Theorem C32_sample st a num : wf a -> samplable a -> (0 < num)%N -> ~~ iswb a ->
  answers (fun o => sample o randn st a num) (one_draw randn st a num).
Proof.
move=> wa sa hn nb; have ca : cholable a by clear -sa nb; case: a sa nb.
by apply: ans_ext (sample_gen_ok st erefl wa ca hn) => o; clear -nb; case: a nb.
Qed.
(** A Woodbury matrix: two draws, from the diagonal part and from the low-rank part. *)
Theorem C32_sample_woodbury st d (l r m : mat) num : wf (Wb d l r m) -> samplable (Wb d l r m) -> (0 < num)%N ->
  answers (fun o => sample o randn st (Wb d l r m) num) (two_draws randn st (Wb d l r m) (Diag d) (LR l r m) num).
Proof.
move=> w [cd cl] hn; have [gd gl ogl ea sa] := wb_split w erefl; set n := mrows _ in gd gl sa.
have [wl [e1 _] _ _] := gl; have [wd [e0 _] _ _] := gd.
apply: ans_bind (sample_gen_ok st e0 wd cd hn) _ => -[st1 x] [w1 [L [s1 gL hx]]].
apply: ans_bind (sample_gen_ok st1 e1 wl cl hn) _ => -[st2 y] [w2 [K [s2 gK hy]]].
cbn [fst] in s1, s2; cbn [snd] in hx, hy; rewrite s1 in s2 hy.
apply: ans_bind (ans_add_mx perm hx hy ogl) _ => z [hz _ _]; apply: ans_ret.
exists w1, w2, L, K; split=> //.
move=> be; rewrite ea okb_bct // => /andP[b1 b2]; by rewrite (gL be b1) (gK be b2) -sa.
Qed.

(** Without Woodbury matrices the call returns, unconditionally. *)
Lemma xh_sample n st a num : nw a -> xe (sample (ops_n argsort n) randn st a num).
Proof.
move=> na; have -> : sample (ops_n argsort n) randn st a num = sample_gen (ops_n argsort n) randn st a num by clear -na; case: a na.
apply: xh_bind (xh_chol argsort n na) _ => c hc; apply: xe_bind => [|b]; first exact: xe_sb.
apply: xe_bind => [|[? w]]; first exact: xe_sm.
case: (randn _ _ _) => st' z; by apply: xh_bind (xk_mm (xk_n argsort n) _ _ hc (_ : nw (Nm z))) _ => // x hx; split.
Qed.
Theorem C32_sample_exact st a num : wf a -> nw a -> samplable a -> (0 < num)%N ->
  returns argsort (fun o => sample o randn st a num) (one_draw randn st a num).
Proof.
move=> wa na sa hn; apply: ans_returns; first by move=> n; exact: xh_sample.
by apply: C32_sample => //; clear -na; case: a na.
Qed.
End PropsSample.

(** ** Non-vacuity: a counter as state; noise which depends on the state and the position. *)
Section Examples.
Variable F : rcfType.
Definition e_randn (st : nat) (d : dtype) (s : shape) : nat * tensor F := (st.+1, Tensor d s (fun idx => (st + ravel s idx)%:R)).
Example C32_ex : randn_ok e_randn /\ wf (e_wb F) /\ samplable (e_wb F) /\ samplable (Kron (e_wb F) (e_const F)) /\ ~~ iswb (Kron (e_wb F) (e_const F)).
Proof.
split=> //; split=> //; split; last by split=> //; case: (C27_ex F) => _ [].
split; last by split=> //; exact: e_m_pd.
by move=> be i hb hi /=; rewrite eqxx; exact: ler01.
Qed.
End Examples.
Print Assumptions C32_sample. Print Assumptions C32_sample_woodbury. Print Assumptions C32_sample_exact.
