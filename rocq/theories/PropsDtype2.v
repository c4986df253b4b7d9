(** * C47: the data types of factorisations and of what is built on them *)
From mathcomp Require Import all_ssreflect all_algebra.
From Verif Require Import Outcome Monad Shape Tensor Mat Dispatch Ops Spec Ops2 Block Backend Solve Term Calm Types PropsMisc Samples Dtypes PropsDtype
  Warn Warn2 Warn3 PropsWarn PropsWarn2 PropsWarn3.
Set Implicit Arguments. Unset Strict Implicit. Unset Printing Implicit Defensive.
Import GRing.Theory.
Local Open Scope ring_scope.

Section Dtype.
Variable F : rcfType.
Notation tensor := (tensor F).
Notation mat := (mat F).
Variable argsort : seq F -> seq nat.
Notation run := (ops_n argsort).

(** ** Specification
    [cholesky] of a [Constant] divides by the NumPy scalar [sqrt(n)], which is a float64: in this case float64 has to be in
    the set.  [no_const a]: no factorisation of a [Constant] is reached from [a]. *)
Fixpoint no_const (a : mat) : bool :=
  match a with
  | Const _ _ _ => false
  | LR _ _ m => no_const m
  | Kron l r => no_const l && no_const r
  | _ => true
  end.
(** A matrix whose factors are plain, and whose middle factor is plain, diagonal or triangular, which is not [Constant]. *)
Definition plain_factors (a : mat) : bool := std a && (kd a != KConst).

Section Solve.
Variable S : dtype -> Prop.
Hypothesis cl : closed S.
Hypothesis fl : forall d, S d -> S (float_of d).
Variable n : nat.
Notation o := (run n).
Let ho : dops S o := d_run argsort cl n.
Local Notation good a := (S DFloat64 \/ is_true (no_const a)).
Local Notation std' a := (S DFloat64 \/ is_true (plain_factors a)).

Lemma d_square ok f (t : tensor) : dT S t -> dq (dT S) (t_square ok f t).
Proof. by move=> h; rewrite /t_square; case: (sh t) => [|? [|? ?]] //; case: ifP => // _; exact: fl. Qed.
Lemma d_chol a : good a -> dM S a -> dq (dM S) (cholesky o a).
Proof.
elim: a => [t|d b r c|t|t|t r c|t|t|l IHl r IHr m IHm|d l IHl r IHr m IHm|l IHl r IHr] g h; cbn [cholesky].
- by apply: dq_bind (d_square _ _ h) _.
- by apply: dq_bind (dqT _) _.
- by apply: dq_bind (dqT _) _ => _ _; apply: dq_bind (d_square _ _ h) _ => u hu; exact: d_mk_lt.
- by apply: dq_bind (dqT _) _ => _ _; apply: d_mk_diag; exact: h.
- apply: dq_bind (dqT _) _ => _ _; apply: (dq_bind (P := dT S)) => [|u hu]; last exact: d_mk_const.
  by apply: (d_div cl); [exact: h|case: g].
- by [].
- by [].
- case: h => h1 h2 h3; apply: dq_bind (dqT _) _ => _ _; apply: dq_bind (IHm g h3) _ => x hx.
  exact: (dp_matmul ho _ _ h1 hx).
- apply: dq_bind (dqT _) _ => _ _; apply: dq_bind (dp_dense ho h) _ => t ht.
  by apply: dq_bind (d_square _ _ ht) _ => u hu; exact: d_mk_lt.
- have [gl gr] : good l /\ good r by case: g => [|/= /andP[]]; auto.
  by case: h => h1 h2; apply: dq_bind (IHl gl h1) _ => x hx; apply: dq_bind (IHr gr h2) _.
Qed.
Lemma d_csolve k a b : dM S a -> dM S b -> dq (dM S) (cholesky_solve o k a b).
Proof.
have T c b' : dM S c -> dM S b' -> dq (dM S) (do x <- solve o k c (to_matrix b'); do c' <- transpose c; solve o k c' x).
  move=> hc hb'; apply: dq_bind (d_solve cl fl ho k hc (d_to_matrix hb')) _ => x hx.
  by apply: dq_bind (d_transposeM cl hc) _ => a' ha'; apply: d_solve.
elim: a b => [t|d b' r c|t|t|t r c|t|t|l IHl r IHr m IHm|d l IHl r IHr m IHm|l IHl r IHr] b h hb;
  cbn [cholesky_solve]; apply: dq_bind (dqT _) _ => -[] _; first [exact: T|done|idtac].
case: b hb => // l' r' [h1' h2']; case: h => h1 h2.
by apply: dq_bind (IHl _ h1 h1') _ => x hx; apply: dq_bind (IHr _ h2 h2') _.
Qed.
Lemma d_eye (a : mat) : dM S a -> dq (dM S) (eye_of a).
Proof.
move=> h; apply: dq_bind (dqT _) _ => _ _; apply: dq_bind (dqT _) _ => -[r c] _.
by apply: (d_fill_diag cl); exact: (dM_dtype cl h).
Qed.

(** ** Inverses of positive-definite matrices *)
Lemma std_good (a : mat) : S DFloat64 \/ is_true (plain_factors a) -> good a.
Proof.
case=> [|h]; [by left|right]; case/andP: h => + h2; case: a h2 => //= [l r m|l r] _.
- by move=> /and3P[_ _]; case: m.
- by case/andP; case: l => // ?; case: r.
Qed.
Lemma md_std (a : mat) : md a -> plain_factors a. Proof. by move=> h; rewrite /plain_factors std_md //; case: a h. Qed.
Lemma pl_std (a : mat) : pl a -> plain_factors a. Proof. by move/pl_md/md_std. Qed.
Lemma conv_std (a : mat) : std' a -> std' (to_matrix a).
Proof.
case=> [|h]; [by left|right]; case: a h => [t|? ? ? ?|?|?|? ? ?|?|?|? ? ?|? ? ? ?|? ?] h; try exact h.
by move: h => /andP[h1 h2]; rewrite /to_matrix conv_ns // /plain_factors /= ns_up.
Qed.
Lemma sil_dq A (P : A -> Prop) (Q : A -> Prop) m : sil m P -> dq Q m -> dq (fun x => P x /\ Q x) m.
Proof. by case: m => //= l x [_ h]. Qed.
Lemma d_pdinv k a : std' a -> dM S a -> dq (dM S) (pd_inv_n o k a).
Proof.
elim: k a => [//|k IH] a g h.
have G : dq (dM S) (let a := to_matrix a in do c <- cholesky o a; do e <- eye_of a; do t <- o_dense o e; cholesky_solve o k c (Nm t)).
  have hT := d_to_matrix h; apply: dq_bind (d_chol (std_good (conv_std g)) hT) _ => c hc.
  by apply: dq_bind (d_eye hT) _ => e he; apply: dq_bind (dp_dense ho he) _ => t ht; exact: d_csolve.
case: a g h G => [t|d b r c|t|t|t r c|t|t|l r m|d l r m|l r] g h G; cbn [pd_inv_n]; try exact: G.
- exact: d_diag_inv.
- case: h => hd hl hr hm.
  have gm : std' m by case: g => [|/andP[/and3P[_ _ h3] _]]; [by left|right; exact: md_std].
  rewrite /woodbury_inv; apply: dq_bind (d_diag_inv hd) _ => x hx; apply: dq_bind (dp_matmul ho _ _ hx hl) _ => y hy.
  apply: dq_bind (dp_matmul ho _ _ hx hr) _ => z hz; apply: (dq_bind (P := fun s => std' s /\ dM S s)) => [|s [gs hs]].
    have D : dq (dM S) (schur_with o (pd_inv_n o k) d l r m).
      apply: dq_bind (d_diag_inv hd) _ => x' hx'; apply: dq_bind (d_mm3 ho _ _ _ hr hx' hl) _ => y' hy'.
      by apply: dq_bind (IH _ gm hm) _ => z' hz'; exact: dp_add ho _ _ hz' hy'.
    case: g => [g|/andP[g _]]; first by apply: dq_imp D _ => s; split=> //; left.
    by apply: dq_imp (sil_dq (s_pdschur argsort n k g) D) _ => s [/pl_std]; split=> //; right.
  apply: dq_bind (IH _ gs hs) _ => si hsi; apply: (dq_bind (P := dM S)) => [|lr hlr]; first by apply: d_mk_lowrank.
  exact: d_subtract.
- have [gl gr] : std' l /\ std' r.
    by case: g => [|/andP[/andP[h1 h2] _]]; [by split; left|split; right; exact: pl_std].
  by case: h => h1 h2; apply: dq_bind (IH _ gl h1) _ => x hx; apply: dq_bind (IH _ gr h2) _.
Qed.
Lemma d_pdschur k a : std' a -> dM S a -> dq (dM S) (pd_schur_n o k a).
Proof.
case: a => // d l r m g [hd hl hr hm].
have gm : std' m by case: g => [|/andP[/and3P[_ _ h3] _]]; [by left|right; exact: md_std].
rewrite /pd_schur_n /schur_with.
apply: dq_bind (d_diag_inv hd) _ => x' hx'; apply: dq_bind (d_mm3 ho _ _ _ hr hx' hl) _ => y' hy'.
by apply: dq_bind (d_pdinv k gm hm) _ => z' hz'; exact: dp_add ho _ _ hz' hy'.
Qed.
Lemma gs_pdschur k a : std' a -> dM S a -> dq (fun s => std' s /\ dM S s) (pd_schur_n o k a).
Proof.
move=> g h; have D := d_pdschur k g h; case: g => [g|/andP[g _]]; first by apply: dq_imp D _ => s; split=> //; left.
by apply: dq_imp (sil_dq (s_pdschur argsort n k g) D) _ => s [/pl_std]; split=> //; right.
Qed.
Lemma gs_chol a : std' a -> kd a != KKron -> dM S a -> dq (fun c => std' c /\ dM S c) (cholesky o a).
Proof.
move=> g nk h; have D := d_chol (std_good g) h; case: g => [g|/andP[g nc]]; first by apply: dq_imp D _ => s; split=> //; left.
have := w_chol argsort n g; case: (cholesky o a) D => //= l c hc [_ /(_ nk) h1 h2]; split=> //; right.
by rewrite /plain_factors h1 /=; move: nc h2; case: a {h g nk} => //; case: c {h1 hc}.
Qed.

(** ** Log-determinants, quadratic forms, roots and samples *)
Lemma d_logdet lg k a : std' a -> dM S a -> dq (dT S) (logdet_n o lg k a).
Proof.
elim: k a => [//|k IH] a g h.
have L t : dT S t -> dq (dT S) (t_sum_pos (t_log lg t) 0) by move=> ht; apply: d_sum_pos; exact: fl.
have D b : dM S b -> dq (dT S) (logdet_diag o lg b) by move=> hb; apply: dq_bind (dp_diag ho hb) _ => t ht; exact: L.
have G : kd a != KKron -> dq (dT S) (do c <- cholesky o a; do t <- logdet_n o lg k c; ret (t_scale 2%:R t)).
  by move=> nk; apply: dq_bind (gs_chol g nk h) _ => c [g' hc]; apply: dq_bind (IH _ g' hc) _.
case: a g h G => [t|d b r c|t|t|t r c|t|t|l r m|d l r m|l r] g h G; cbn [logdet_n]; try exact (D _ h); try exact (G isT).
- apply: dq_bind (d_square _ _ h) _ => u hu; apply: dq_bind (d_diag_extract hu) _ => v hv.
  by apply: dq_bind (L _ hv) _.
- have gm : std' m by case: g => [|/andP[/and3P[_ _ h3] _]]; [by left|right; exact: md_std].
  have gd : std' (wb_diag d) by right.
  case: (h) => hd hl hr hm; apply: dq_bind (IH _ gd hd) _ => x hx; apply: dq_bind (IH _ gm hm) _ => y hy.
  apply: dq_bind (d_add cl hx hy) _ => xy hxy; apply: dq_bind (gs_pdschur k g h) _ => s [gs hs].
  by apply: dq_bind (IH _ gs hs) _ => z hz; exact: d_add.
- have [gl gr] : std' l /\ std' r.
    by case: g => [|/andP[/andP[h1 h2] _]]; [by split; left|split; right; exact: pl_std].
  case: h => h1 h2; do 2![apply: dq_bind (dqT _) _ => _ _]; do 2![apply: dq_bind (dqT _) _ => -[? ?] _].
  by apply: dq_bind (IH _ gl h1) _ => x hx; apply: dq_bind (IH _ gr h2) _ => y hy; exact: d_add.
Qed.
Lemma d_parts k a b c same : good a -> dM S a -> dM S b -> dM S c ->
  dq (fun p => dM S p.1 /\ dM S p.2) (iqf_parts o k a b c same).
Proof.
move=> g ha hb hc; apply: dq_bind (d_chol g ha) _ => x hx; apply: dq_bind (d_solve cl fl ho k hx hb) _ => y hy.
by apply: (dq_bind (P := dM S)) => [|z hz]; [case: same => //; exact: d_solve|apply: dq_ret].
Qed.
Lemma d_iqf k a b c same : std' a -> dM S a -> dM S b -> dM S c -> dq (dM S) (iqf o k a b c same).
Proof.
move=> g ha hb hc.
have G : dq (dM S) (do ' (cb, cc) <- iqf_parts o k a b c same; o_matmul o cb cc true false).
  by apply: dq_bind (d_parts k same (std_good g) ha hb hc) _ => -[x y] [h1 h2]; exact: (dp_matmul ho _ _ h1 h2).
case: a g ha G => [t|? ? ? ?|t|t|t r q|t|t|l r m|d l r m|l r] g ha G; try exact G.
by rewrite /iqf; apply: dq_bind (d_pdinv k g ha) _ => ai hai; apply: d_mm3.
Qed.
Lemma d_iqf_diag k a b c same : std' a -> dM S a -> dM S b -> dM S c -> dq (dT S) (iqf_diag o k a b c same).
Proof.
move=> g ha hb hc.
have G : dq (dT S) (do ' (cb, cc) <- iqf_parts o k a b c same; matmul_diag o cb cc true false).
  by apply: dq_bind (d_parts k same (std_good g) ha hb hc) _ => -[x y] [h1 h2]; apply: d_matmul_diag.
case: a g ha G => [t|? ? ? ?|t|t|t r q|t|t|l r m|d l r m|l r] g ha G; try exact G.
rewrite /iqf_diag; apply: dq_bind (d_pdinv k g ha) _ => ai hai; apply: dq_bind (dp_matmul ho _ _ hai hc) _ => x hx.
by apply: d_matmul_diag.
Qed.
Lemma d_trmm a b : dM S a -> dM S b -> dq (dT S) (trace_mm o a b).
Proof. by move=> ha hb; apply: dq_bind (dp_matmul ho _ _ ha hb) _ => x hx; apply: d_trace. Qed.
Lemma d_ratio k a b : good a -> std' b -> dM S a -> dM S b -> dq (dT S) (ratio o k a b).
Proof.
move=> ga g ha hb.
have G : dq (dT S) (do chol <- cholesky o a; do t <- iqf_diag2 o k b chol; t_sum_pos t 0).
  apply: dq_bind (d_chol ga ha) _ => c hc; apply: dq_bind (d_iqf_diag k true g hb hc hc) _ => t ht; exact: d_sum_pos.
case: b g hb G => [t|? ? ? ?|t|t|t r q|t|t|l r m|d l r m|l r] g hb G; try exact G.
cbn [ratio]; apply: dq_bind (d_pdinv k g hb) _ => bi hbi {G}.
case: bi hbi => // d' l' r' m' hbi; case: (hbi) => hd' hl' hr' hm'.
have K : dq (dT S) (do x <- trace_mm o a (wb_diag d'); do y <- trace_mm o a (wb_lr l' r' m'); Tensor.t_add x y).
  have h1 : dM S (wb_diag d') by [].
  have h2 : dM S (wb_lr l' r' m') by [].
  by apply: dq_bind (d_trmm ha h1) _ => x hx; apply: dq_bind (d_trmm ha h2) _ => y hy; exact: d_add.
case: a ga ha K => [t|? ? ? ?|t|t|t u q|t|t|u v w|d1 l1 r1 m1|u v] ga ha K; try exact K.
case: (ha) => hd hl hr hm.
have e1 : dM S (wb_diag d1) by []. have e2 : dM S (wb_lr l1 r1 m1) by [].
have e3 : dM S (wb_diag d') by []. have e4 : dM S (wb_lr l' r' m') by [].
apply: dq_bind (d_trmm e1 hbi) _ => x hx; apply: dq_bind (d_trmm e2 e3) _ => y hy.
by apply: dq_bind (d_add cl hx hy) _ => xy hxy; apply: dq_bind (d_trmm e2 e4) _ => z hz; exact: d_add.
Qed.
Lemma d_root svd a : good a -> dM S a -> dq (dM S) (root o svd a).
Proof.
elim: a => [t|d b r c|t|t|t r c|t|t|l IHl r IHr m IHm|d l IHl r IHr m IHm|l IHl r IHr] g h; cbn [root].
- by apply: dq_bind (dqT _) _ => _ _; apply: dq_bind (d_square _ _ h) _.
- by apply: dq_bind (dqT _) _.
- by apply: dq_bind (dqT _) _ => _ _; apply: dq_bind (d_square _ _ h) _ => u hu; apply: dq_ret; exact: d_uprank.
- by apply: dq_bind (dqT _) _ => _ _; exact: (d_chol (a := Diag t)).
- by apply: dq_bind (dqT _) _ => _ _; exact: (d_chol (a := Const t r c)).
- by [].
- by [].
- apply: dq_bind (dqT _) _ => _ _; apply: dq_bind (dp_dense ho h) _ => t ht.
  by apply: dq_bind (dqT _) _ => _ _; apply: dq_bind (d_square _ _ ht) _ => u hu; apply: dq_ret; exact: d_uprank.
- apply: dq_bind (dqT _) _ => _ _; apply: dq_bind (dp_dense ho h) _ => t ht.
  by apply: dq_bind (dqT _) _ => _ _; apply: dq_bind (d_square _ _ ht) _ => u hu; apply: dq_ret; exact: d_uprank.
- have [gl gr] : good l /\ good r by case: g => [|/= /andP[]]; auto.
  by case: h => h1 h2; apply: dq_bind (IHl gl h1) _ => x hx; apply: dq_bind (IHr gr h2) _.
Qed.
Section Sample.
Variables (state : Type) (randn : state -> dtype -> shape -> state * tensor).
Hypothesis hr : forall st d s, dt (randn st d s).2 = d.
Lemma d_sample_gen st a num : good a -> dM S a -> dq (fun p => dM S p.2) (sample_gen o randn st a num).
Proof.
move=> g h; apply: dq_bind (d_chol g h) _ => c hc; apply: dq_bind (dqT _) _ => b _; apply: dq_bind (dqT _) _ => -[? w] _.
have := hr st (float_of (mdtype a)) [:: num, w & b]; case: (randn _ _ _) => st' t /= e.
have ht : dM S (Nm t) by rewrite /= /dT e; apply: fl; exact: (dM_dtype cl h).
by apply: dq_bind (dp_matmul ho _ _ hc ht) _ => x hx; apply: dq_ret.
Qed.
Lemma d_sample st a num : good a -> (forall d l r m, a = Wb d l r m -> good m) -> dM S a ->
  dq (fun p => dM S p.2) (sample o randn st a num).
Proof.
move=> g; have G : dM S a -> dq (fun p => dM S p.2) (sample_gen o randn st a num) by exact: d_sample_gen.
case: a g G => [t|? ? ? ?|t|t|t u q|t|t|u v w|d l r m|u v] g G gm h; try exact (G h).
case: h {G} => hd hl hr' hm; cbn [sample].
apply: (dq_bind (P := fun p => dM S p.2)) => [|[st1 x] hx]; first by apply: d_sample_gen => //; right.
apply: (dq_bind (P := fun p => dM S p.2)) => [|[st2 y] hy]; first by apply: d_sample_gen => //; exact: gm erefl.
by apply: (dq_bind (P := dM S)) => [|z hz]; [exact: dp_add ho _ _ hx hy|apply: dq_ret].
Qed.
End Sample.
End Solve.

(** ** The theorems
    [S] is closed under promotion and contains the floating point type of each of its members.  Either float64 is in [S],
    or the matrix has no [Constant] to be factorised. *)
Theorem C47_cholesky S n svd a : closed S -> (forall d, S d -> S (float_of d)) -> arrays_in S a -> S DFloat64 \/ no_const a ->
  keeps S (cholesky (run n) a) /\ keeps S (root (run n) svd a).
Proof. by move=> cl fl /dM_in h g; split; apply: keepsP; [exact: d_chol|exact: d_root]. Qed.
Theorem C47_posdef S n k lg a b c same : closed S -> (forall d, S d -> S (float_of d)) ->
  arrays_in S a -> arrays_in S b -> arrays_in S c -> S DFloat64 \/ plain_factors a ->
  [/\ keeps S (pd_inv_n (run n) k a), keeps S (pd_schur_n (run n) k a) & keeps S (iqf (run n) k a b c same)] /\
  keeps_array S (iqf_diag (run n) k a b c same) /\ keeps_array S (logdet_n (run n) lg k a).
Proof.
move=> cl fl /dM_in ha /dM_in hb /dM_in hc g; split; split; try (apply: keepsP || apply: keeps_arrayP).
- exact: d_pdinv. - exact: d_pdschur. - exact: d_iqf. - exact: d_iqf_diag. - exact: d_logdet.
Qed.
Theorem C47_ratio S n k a b : closed S -> (forall d, S d -> S (float_of d)) -> arrays_in S a -> arrays_in S b ->
  S DFloat64 \/ no_const a -> S DFloat64 \/ plain_factors b -> keeps_array S (ratio (run n) k a b).
Proof. by move=> cl fl /dM_in ha /dM_in hb ga gb; apply: keeps_arrayP; exact: d_ratio. Qed.
Theorem C47_cholesky_solve S n k a b : closed S -> (forall d, S d -> S (float_of d)) -> arrays_in S a -> arrays_in S b ->
  keeps S (cholesky_solve (run n) k a b).
Proof. by move=> cl fl /dM_in ha /dM_in hb; apply: keepsP; exact: d_csolve. Qed.
(** Samples have the data type of the matrix, if the noise has the data type asked for. *)
Theorem C47_sample S n (state : Type) (randn : state -> dtype -> shape -> state * tensor) st st' a num l x :
  (forall q d s, dt (randn q d s).2 = d) -> closed S -> (forall d, S d -> S (float_of d)) -> arrays_in S a ->
  S DFloat64 \/ plain_factors a -> sample (run n) randn st a num = Ret l (st', x) -> arrays_in S x.
Proof.
move=> hr cl fl /dM_in ha g e; apply/dM_in.
have gm d u v m : a = Wb d u v m -> S DFloat64 \/ no_const m.
  by move=> ea; case: g; [left|rewrite ea => /andP[/and3P[_ _ h3] _]; right; case: m h3 {ea}].
have h : dq (fun p : state * mat => dM S p.2) (sample (run n) randn st a num).
  exact (d_sample cl fl n hr st num (std_good g) gm ha).
exact: (dq_inv h e).
Qed.
(** float32 Woodbury matrices have a float32 inverse, log-determinant and samples; the factor of a float32 [Constant] is
    float64. *)
Theorem C47_cholesky_constant n (t : tensor) r l c : dt t = DFloat32 -> cholesky (run n) (Const t r r) = Ret l c -> stored DFloat64 c.
Proof.
move=> ht e; suff : dq (stored DFloat64) (cholesky (run n) (Const t r r)) by move=> h; exact: dq_inv h e.
apply: dq_bind (dqT _) _ => _ _; apply: (dq_bind (P := fun u : tensor => dt u = DFloat64)) => [|u hu //].
by rewrite /t_div /t_map2 /= ht; case: (bc _ _).
Qed.
End Dtype.

Print Assumptions C47_cholesky. Print Assumptions C47_posdef. Print Assumptions C47_ratio. Print Assumptions C47_cholesky_solve.
Print Assumptions C47_sample. Print Assumptions C47_cholesky_constant.

(** ** The hypotheses can be met: a float32 Woodbury matrix, in a set without float64 *)
Section Examples.
Variable F : rcfType.
Definition e_wb2 : mat F := Wb (e_t F [:: 2]%N) (Dense (e_t F [:: 1; 2]%N)) (Dense (e_t F [:: 1; 2]%N)) (Diag (e_t F [:: 1]%N)).
Example C47_ex_posdef : let S := fun d => d = DFloat32 in
  [/\ wf e_wb2, closed S, (forall d, S d -> S (float_of d)), arrays_in S e_wb2 & plain_factors e_wb2 /\ no_const e_wb2].
Proof. by split=> //; [exact: closed_one|move=> d ->|move=> d /=; intuition]. Qed.
(** and its inverse exists. *)
Example C47_ex_pd_inv argsort : (exists n k l c, pd_inv_n (ops_n argsort n) k (Diag (e_t F [:: 2]%N)) = Ret l c).
Proof. by exists 1%N, 1%N; do 2!eexists; vm_compute. Qed.
End Examples.
