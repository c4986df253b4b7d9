(** * Objects as elements of the matrix algebra (proof support) *)
From mathcomp Require Import all_ssreflect all_algebra.
From Verif Require Import Outcome Monad Shape Tensor Mat Dispatch Ops Spec ShapeThy TensorThy TensorThy2 MatThy OpsOk OpsMain Term Calm Api Bridge Ans.
From Verif Require Import Backend SpecLA LinAlg.
Set Implicit Arguments. Unset Strict Implicit. Unset Printing Implicit Defensive.
Import GRing.Theory Num.Theory.
Local Open Scope ring_scope.

Section MxThy.
Variable F : rcfType.
Notation tensor := (tensor F).
Notation mat := (mat F).

(** ** Matrices and functions of two natural numbers *)
Lemma mgetE n m (A : 'M[F]_(n, m)) i j (hi : (i < n)%N) (hj : (j < m)%N) : mget A i j = A (Ordinal hi) (Ordinal hj).
Proof. by rewrite /mget !insubT. Qed.
Lemma mget_ord n m (A : 'M[F]_(n, m)) (i : 'I_n) (j : 'I_m) : mget A i j = A i j.
Proof. by rewrite (mgetE A (ltn_ord i) (ltn_ord j)); congr (A _ _); apply: val_inj. Qed.
Lemma mget_gmx n m (g : nat -> nat -> F) i j : (i < n)%N -> (j < m)%N -> mget (gmx n m g) i j = g i j.
Proof. by move=> hi hj; rewrite (mgetE _ hi hj) mxE. Qed.
Lemma gmx_mget n m (A : 'M[F]_(n, m)) : gmx n m (mget A) = A.
Proof. by apply/matrixP => i j; rewrite mxE mget_ord. Qed.
Lemma eq_gmx n m (f g : nat -> nat -> F) : (forall i j, (i < n)%N -> (j < m)%N -> f i j = g i j) -> gmx n m f = gmx n m g.
Proof. by move=> h; apply/matrixP => i j; rewrite !mxE h. Qed.
Lemma gmx_eq n m (f g : nat -> nat -> F) i j : gmx n m f = gmx n m g -> (i < n)%N -> (j < m)%N -> f i j = g i j.
Proof. by move=> h hi hj; have := congr1 (fun A => mget A i j) h; rewrite !mget_gmx. Qed.
Lemma gmx_mul n p m (f g : nat -> nat -> F) :
  gmx n m (fun i j => sumf p (fun k => f i k * g k j)) = gmx n p f *m gmx p m g.
Proof.
apply/matrixP => i j; rewrite !mxE sumfE big_mkord; by apply: eq_bigr => k _; rewrite !mxE.
Qed.
Lemma gmx_add n m (f g : nat -> nat -> F) : gmx n m (fun i j => f i j + g i j) = gmx n m f + gmx n m g.
Proof. by apply/matrixP => i j; rewrite !mxE. Qed.
Lemma gmx_opp n m (f : nat -> nat -> F) : gmx n m (fun i j => - f i j) = - gmx n m f.
Proof. by apply/matrixP => i j; rewrite !mxE. Qed.
Lemma gmx_tr n m (f : nat -> nat -> F) : gmx n m (fun i j => f j i) = (gmx m n f)^T.
Proof. by apply/matrixP => i j; rewrite !mxE. Qed.
Lemma gmx_lr n p q m (f g h : seq nat -> nat -> nat -> F) be :
  gmx n m (lrf f g h p q be) = gmx n p (f be) *m gmx p q (h be) *m (gmx m q (g be))^T.
Proof.
rewrite -gmx_tr -mulmxA -gmx_mul -gmx_mul; apply: eq_gmx => i j _ _; rewrite /lrf; apply: eq_sumf => k _.
by rewrite sumf_mull; apply: eq_sumf => l _; rewrite mulrA.
Qed.

(** ** Described objects *)
Lemma mxofE n m (a : mat) be : mxof n m a be = gmx n m (ent a be). Proof. by []. Qed.
Lemma res_mx c n m b (f : seq nat -> nat -> nat -> F) : is_res c n m b f -> is_mx c b (fun be => gmx n m (f be)).
Proof. by case=> w d e h; split=> // be hb; apply: eq_gmx => i j hi hj; apply: h. Qed.
Lemma mx_res c n m b (X : seq nat -> 'M[F]_(n, m)) : is_mx c b X -> is_res c n m b (fun be => mget (X be)).
Proof.
case=> w d e h; split=> // be i j hb hi hj; by rewrite -h // mget_gmx.
Qed.
Lemma mx_ext c n m b (X Y : seq nat -> 'M[F]_(n, m)) : is_mx c b X -> (forall be, okb b be -> X be = Y be) -> is_mx c b Y.
Proof. by case=> w d e h H; split=> // be hb; rewrite h // H. Qed.
Lemma mx_cast c n m b b' (X Y : seq nat -> 'M[F]_(n, m)) : is_mx c b X -> b = b' -> (forall be, okb b be -> X be = Y be) -> is_mx c b' Y.
Proof. by move=> h <-; apply: mx_ext. Qed.
Lemma mx_wf (a : mat) n m : wf a -> mrows a = n -> mcols a = m -> is_mx a (mbatch a) (mxof n m a).
Proof. by move=> w h1 h2; split. Qed.
Lemma mx_ok c n m b (X : seq nat -> 'M[F]_(n, m)) : is_mx c b X -> wf c. Proof. by case. Qed.
Lemma mx_pos c n m b (X : seq nat -> 'M[F]_(n, m)) : is_mx c b X -> [/\ (0 < n)%N, (0 < m)%N & posn b].
Proof. by case=> w [h1 h2] h3 _; rewrite -h1 -h2 -h3 mrows_gt0 ?mcols_gt0 ?mbatch_pos. Qed.

(** Arrays. *)
Definition tmx (t : tensor) n m (b : shape) (X : seq nat -> 'M[F]_(n, m)) : Prop := tmat t n m b (fun be => mget (X be)).
Lemma tmat_mx t n m b (g : seq nat -> nat -> nat -> F) : tmat t n m b g -> tmx t b (fun be => gmx n m (g be)).
Proof. by move=> h; apply: tmat_ext h _ => be i j hb hi hj; rewrite mget_gmx. Qed.
Lemma tmx_ext t n m b (X Y : seq nat -> 'M[F]_(n, m)) : tmx t b X -> (forall be, okb b be -> X be = Y be) -> tmx t b Y.
Proof. by move=> h H; apply: tmat_ext h _ => be i j hb _ _; rewrite H. Qed.
Lemma mx_num t n m b (X : seq nat -> 'M[F]_(n, m)) : tmx t b X -> is_mx (Nm t) b X.
Proof. by move=> h; apply: mx_ext (res_mx (res_num h)) _ => be _; rewrite gmx_mget. Qed.
Lemma mx_dense t n m b (X : seq nat -> 'M[F]_(n, m)) : tmx t b X -> is_mx (Dense t) b X.
Proof. by move=> h; apply: mx_ext (res_mx (res_dense h)) _ => be _; rewrite gmx_mget. Qed.
Lemma mk_dense_mx t n m b (X : seq nat -> 'M[F]_(n, m)) : tmx t b X -> mk_dense t = Dense t.
Proof. exact: mk_dense_tmat. Qed.

(** ** Backend calls on arrays *)
Lemma allidxI s (f : seq nat -> bool) : (forall idx, inb s idx -> f idx) -> allidx s f.
Proof.
elim: s f => [|d s IH] f h /=; first exact: h.
by apply/allP => i; rewrite mem_iota /= => hi; apply: IH => idx hb; apply: h; rewrite /= hi.
Qed.
Lemma tmx_gmx t n m b (X : seq nat -> 'M[F]_(n, m)) be : tmx t b X -> okb b be -> gmx n m (mx t be) = X be.
Proof. by case=> _ _ e hb; apply/matrixP => i j; rewrite mxE e // mget_ord. Qed.
Lemma t_square_ok (ok : forall n, 'M[F]_n -> bool) (f : forall n, 'M[F]_n -> 'M[F]_n) t n b (X : seq nat -> 'M[F]_n) : tmx t b X ->
  (forall be, okb b be -> ok n (X be)) ->
  exists2 z, t_square ok f t = ret z & tmx z b (fun be => f n (X be)).
Proof.
move=> h hok; case: (h) => s p e; rewrite /t_square s eqxx /=.
have -> : allidx b (fun be => ok n (gmx n n (mx t be))).
  by apply: allidxI => be hb; rewrite (tmx_gmx h) ?hok ?okb_inb.
eexists; first by []; split=> // be i j hb hi hj.
rewrite {1}/mx /= drop0 (tmx_gmx h) ?okb_clamp ?bto_refl //.
congr (mget (f n _) i j); rewrite -(tmx_gmx h hb) -(tmx_gmx h (be := clamp b be)) ?okb_clamp ?bto_refl //.
apply: eq_gmx => i' j' _ _; apply: mx_clamp; by rewrite /tbatch s /= drop0 bto_refl.
Qed.
Lemma t_inv_ok t n b (X : seq nat -> 'M[F]_n) : tmx t b X -> (forall be, okb b be -> X be \in unitmx) ->
  exists2 z, t_inv t = ret z & tmx z b (fun be => invmx (X be)).
Proof. exact: t_square_ok. Qed.
Lemma t_chol_ok t n b (X : seq nat -> 'M[F]_n) : tmx t b X -> (forall be, okb b be -> chol_ok (X be)) ->
  exists2 z, t_chol t = ret z & tmx z b (fun be => chol_f (X be)).
Proof. exact: t_square_ok. Qed.
Definition selmx n (sel : nat -> nat -> bool) (A : 'M[F]_n) : 'M[F]_n := \matrix_(i, j) (if sel i j then A i j else 0).
Lemma t_solve_sel_ok sel x y n m bx by' (X : seq nat -> 'M[F]_n) (Y : seq nat -> 'M[F]_(n, m)) :
  tmx x bx X -> tmx y by' Y -> bcok bx by' ->
  (forall be, okb (bct bx by') be -> selmx sel (X be) \in unitmx) ->
  exists2 z, t_solve_sel sel x y = ret z & tmx z (bct bx by') (fun be => invmx (selmx sel (X be)) *m Y be).
Proof.
move=> hx hy ok hu; case: (hx) (hy) => s p e [s' p' e']; rewrite /t_solve_sel s s' !eqxx /= (bcsE ok).
have q be : okb (bct bx by') be -> gmx n n (fun i j => if sel i j then mx x be i j else 0) = selmx sel (X be).
  rewrite okb_bct // => /andP[o1 _]; rewrite -(tmx_gmx hx o1); apply/matrixP => i j; by rewrite !mxE.
have -> : allidx (bct bx by') (fun be => gmx n n (fun i j => if sel i j then mx x be i j else 0) \in unitmx).
  by apply: allidxI => be /okb_inb hb; rewrite q // hu.
eexists; first by []; split=> //.
  by case: (posn3 p) (posn3 p') => _ q1 q2 [q3 _ q5]; rewrite !posn_cons q1 q3 posn_bct.
move=> be i j hb hi hj; rewrite {1}/mx /= drop0; set be' := clamp _ _.
have hb' : okb (bct bx by') be' by rewrite /be' okb_clamp ?bto_refl.
rewrite q //; congr (mget (invmx _ *m _) i j).
- move: (hb) (hb'); rewrite !okb_bct // => /andP[o1 _] /andP[o1' _]; congr (selmx _ _).
  rewrite -(tmx_gmx hx o1) -(tmx_gmx hx o1'); apply: eq_gmx => i' j' _ _; apply: mx_clamp.
  by rewrite /tbatch s /= drop0 bct_ubl.
- move: (hb) (hb'); rewrite !okb_bct // => /andP[_ o1] /andP[_ o1'].
  rewrite -(tmx_gmx hy o1); apply: eq_gmx => i' j' _ _; apply: mx_clamp.
  by rewrite /tbatch s' /= drop0 bct_ubr.
Qed.
End MxThy.
