(** * C48: warnings of indexing, of diagonals of products, of ratios and of samples *)
From mathcomp Require Import all_ssreflect all_algebra.
From Verif Require Import Outcome Monad Shape Tensor Mat Dispatch Ops Spec LookThy Term Calm Types Ops2 Backend Solve Objects Samples Warn Warn2 Warn3 PropsWarn PropsWarn2 PropsWarn3.
Set Implicit Arguments. Unset Strict Implicit. Unset Printing Implicit Defensive.
Import GRing.Theory.
Local Open Scope ring_scope.

Section Props.
Variable F : rcfType.
Notation tensor := (tensor F).
Notation mat := (mat F).
Variable argsort : seq F -> seq nat.
Notation run n := (ops_n argsort n).
Implicit Types (a b c : mat) (n : nat) (l : log).
Local Notation plP := (fun c : mat => is_true (pl c)).

(** ** Indexing and [isnan] convert the matrix *)
Theorem C48_getitem n index a l t : std a -> (forall u l' v, index u = Ret l' v -> lw l' = false) ->
  m_getitem (run n) index a = Ret l t -> lw l = structured a.
Proof.
move=> h hi /(wconv (P := fun _ => True) h)[] // u _.
by case E: (index u) => [l' v|//]; rewrite /sil /= (hi _ _ _ E).
Qed.
Theorem C48_isnan n nan a l t : std a -> isnan_op (run n) nan a = Ret l t -> lw l = structured a.
Proof. by move=> h /(wconv (P := fun _ => True) h)[] // u _; apply: sil_ret. Qed.

(** ** Low-rank matrices with structured factors: the conversion of the factors warns, whatever else happens *)
Lemma lw_warn A (b : bool) (k : unit -> outcome A) l (d : A) : (do u <- warn_if b; k u) = Ret l d -> b -> lw l.
Proof. by rewrite /warn_if /bind; case: (k tt) => // l' c' [<- _] ->. Qed.
Theorem C48_diag_lowrank n a1 a2 a3 l t : o_diag (run n) (LR a1 a2 a3) = Ret l t -> structured a1 || structured a2 -> lw l.
Proof. by case: n => [|n] //; cbn [o_diag ops_n ops_step diag_step]; exact: lw_warn. Qed.
Theorem C48_multiply_lowrank n a1 a2 a3 b1 b2 b3 l c : o_mul (run n) (LR a1 a2 a3) (LR b1 b2 b3) = Ret l c ->
  [|| structured a1, structured a2, structured b1 | structured b2] -> lw l.
Proof.
case: n => [|n] //; cbn [o_mul ops_n ops_step]; rewrite /mul_step /to_matrix [ty_of_matrix _]/= [ty_of_matrix _]/= mul_selE [selof _ _ _]/= bind_ret /mul_body /mul_lr_lr.
by case: (assert_shapes_compatible _ _) => // l0 [] h; move: h; rewrite {1}/bind; case E: (bind _ _) => [l1 c1|//] [<- _] hs; rewrite /= (lw_warn E hs) orbT.
Qed.
(** Without structured factors the diagonal is silent: [C48_reads_silent]. *)
Example C48_diag_lowrank_ex : let a := Diag (t_ones DInt [:: 2%N]) : mat in let z := LR a (Dense (t_ones DInt [:: 2%N; 3%N])) a in wf z /\ structured a.
Proof. by []. Qed.

(** ** Diagonals of products: the warning is that of the elementwise product, but low-rank matrices are multiplied as
    matrices *)
Definition diagw (x y : kind) : bool :=
  match x, y with
  | KLR _, KLR _ => false
  | KNum, KNum => false
  | _, _ => has (fun p => p.2) (mulk (kmat x) (kmat y))
  end.
Lemma s_trt a x : std a -> sil (tr a x) (fun c => std c && (kd c == trk x (kd a))).
Proof. by case: x => h; [exact: s_trM|apply: sil_ret; rewrite /= h eqxx]. Qed.
Lemma nzc_tr a x : std a -> nzc a -> sil (tr a x) (fun c => nzc c).
Proof.
case: x; last by move=> _ h; apply: sil_ret.
move=> hs h; rewrite /tr; case E: (kd a == KConst); last first.
  apply: (sil_conseq (P := fun c => kd c = trk true (kd a))); last by move=> c e; have : kd c != KConst by [rewrite e; move: E; clear; case: (kd a)]; case: c {e}.
  by apply: sil_conseq (s_trM hs) _ => c /andP[_ /eqP].
case: a h E {hs} => // t r c h _; cbn [transpose mk_const]; case E: (sh t) => [|x s]; first exact: sil_ret.
apply: sil_bind (sil_calm (cm_eb _)) _ => b' _; apply: sil_bind (s_bto _ _) _ => [|u hu]; first by rewrite /ns E.
by apply: sil_ret; rewrite /nzc /nzs [ns _]hu.
Qed.
Lemma sil_and A (m : outcome A) (P Q : A -> Prop) : sil m P -> sil m Q -> sil m (fun x => P x /\ Q x).
Proof. by case: m => //= l x [h1 h2] [_ h3]. Qed.
Definition islr (k : kind) : bool := if k is KLR _ then true else false.
Lemma mulk_diagw x y k w : (k, w) \in bin mulk x y -> ~~ (islr x && islr y) -> w = diagw x y.
Proof.
rewrite /bin => h hn; suff : all (fun p => p.2 == diagw x y) (bin mulk x y) by move/allP => /(_ (k, w) h)/eqP.
by move: hn; clear; case: x => [| | | | | | |[]|[]|]; case: y => [| | | | | | |[]|[]|].
Qed.
Lemma w_mmd n a b ta tb w : std a -> std b -> nzc a -> nzc b ->
  W w (matmul_diag (run n) a b ta tb) (fun w' _ => w' = w || diagw (trk (~~ ta) (kd a)) (trk tb (kd b))).
Proof.
move=> ha hb na nb; have I := inv_n argsort n.
have trl t k : islr (trk t k) = islr k by case: t; case: k.
case E: (islr (kd a) && islr (kd b)); last first.
  have -> : matmul_diag (run n) a b ta tb = (do a' <- tr a (~~ ta); do b' <- tr b tb; do c <- o_mul (run n) a' b'; o_sumax (run n) c false).
    by move: E; clear; case: a => [?|? ? ? ?|?|?|? ? ?|?|?|? ? ?|? ? ? ?|? ?] //; case: b.
  apply: W_sil (sil_and (s_trt (~~ ta) ha) (nzc_tr (~~ ta) ha na)) _ => a' [/andP[ha' /eqP ka] na'].
  apply: W_sil (sil_and (s_trt tb hb) (nzc_tr tb hb nb)) _ => b' [/andP[hb' /eqP kb] nb'].
  apply: W_bindS (v_mul I ha' hb' na' nb') _ => w1 c /andP[hc]; rewrite ka kb => /mulk_diagw -> //; last by rewrite !trl E.
  by apply: W_conseq (silW _ (v_sumax I false hc)) _ => w' ? [->].
have -> : matmul_diag (run n) a b ta tb = (do c <- o_matmul (run n) a b ta tb; o_diag (run n) c).
  by move: E; clear; case: a => [?|? ? ? ?|?|?|? ? ?|?|?|? ? ?|? ? ? ?|? ?] //; case: b.
apply: W_bindS (v_matmul I ta tb ha hb) _ => w1 c /andP[hc hk].
have [-> ->] : w1 = false /\ diagw (trk (~~ ta) (kd a)) (trk tb (kd b)) = false.
  move: E hk; clear; case: (kd a) => // s1; case: (kd b) => // s2 _.
  by case: ta; case: tb; rewrite /bin /= !inE => /orP[] /eqP[_ ->].
by apply: W_conseq (silW _ (v_diag I hc)) _ => w' ? [->].
Qed.
Theorem C48_matmul_diag n a b ta tb l t : std a -> std b -> nonzero_const a -> nonzero_const b ->
  matmul_diag (run n) a b ta tb = Ret l t -> lw l = diagw (trk (~~ ta) (kd a)) (trk tb (kd b)).
Proof.
move=> ha hb na nb e.
have z (x : mat) : std x -> nonzero_const x -> nzc x by case: x.
by have := w_mmd n ta tb false ha hb (z _ ha na) (z _ hb nb); rewrite e.
Qed.

(** ** Diagonals of quadratic forms with plain arrays never warn *)
Lemma s_mmdpl n a b ta tb : pl a -> pl b -> sil (matmul_diag (run n) a b ta tb) (fun _ => True).
Proof.
move=> ha hb; apply: rets_conseq (w_mmd n ta tb false (std_pl ha) (std_pl hb) _ _) _; try by case: a ha; try case: b hb.
move=> l t /= ->; split=> //; by case: a ha => // ? _; case: b hb => // ? _; case: ta; case: tb.
Qed.
Lemma s_iqfd n k a b c same : std a -> (if kd a is (KNum | KDense | KDiag | KWb _) then true else false) -> pl b -> pl c ->
  sil (iqf_diag (run n) k a b c same) (fun _ => True).
Proof.
move=> ha ka hb hc; have I := inv_n argsort n.
have N : ~~ iswb (kd a) -> sil (do ' (cb, cc) <- iqf_parts (run n) k a b c same; matmul_diag (run n) cb cc true false) (fun _ => True).
  move=> nw; apply: (sil_bind (P := fun p => pl p.1 && pl p.2)) => [|[x y] /andP[h1 h2]]; last exact: s_mmdpl.
  apply: (sil_bind (P := fun q => std q /\ kd q \in [:: KNum; KDiag; KLT])) => [|q [hq kq]].
    apply: rets_conseq (w_chol argsort n ha) _ => l' c' [e1 e2 e3]; split; first by move: e1; rewrite /= => ->.
    split; first by apply: e2; move: ka; case: (kd a).
    by move: ka e3 nw; clear; case: a => // [t|t|t] _; case: c'.
  apply: sil_bind (s_solvepl argsort n k kq hq hb) _ => x hx; apply: (sil_bind (P := plP)) => [|y hy]; last by apply: sil_ret; rewrite /= hx.
  by case: same; [exact: sil_ret|exact: s_solvepl].
case: a ha ka N => // [t|t|t|d x y m] ha _ N; try exact (N isT).
rewrite /iqf_diag; apply: sil_bind (s_pdinv argsort n k ha) _ => ai [_ _ /(_ isT)[h1 h2]].
apply: (sil_bind (P := plP)) => [|z hz]; last exact: s_mmdpl.
by apply: sil_pl (v_matmul I false false h1 (std_pl hc)) _; rewrite h2; move: hc; clear; case: c.
Qed.
Theorem C48_iqf_diag n k a b c same l t : std a -> (if kd a is (KNum | KDense | KDiag | KWb _) then true else false) ->
  pl b -> pl c -> iqf_diag (run n) k a b c same = Ret l t -> lw l = false.
Proof. by move=> ha ka hb hc; exact: silret (s_iqfd n k same ha ka hb hc). Qed.

(** ** Ratios against a Woodbury matrix warn only if the first matrix is a Kronecker product *)
Lemma w_trmm n a b S w : std a -> std b -> bin mmk (kd a) (kd b) = S -> all (fun p => p.2 == w) S ->
  W false (trace_mm (run n) a b) (fun w' _ => w' = w).
Proof.
move=> ha hb hS /allP H; have I := inv_n argsort n; rewrite /trace_mm.
apply: W_bindS (v_matmul I false false ha hb) _ => w1 c /andP[hc]; rewrite /trk hS => /H /eqP /= ->.
apply: W_bind (silW _ (v_diag I hc)) _ => w' ? [-> _].
by apply: W_conseq (silW _ (sil_calm (cm_sumpos _ _))) _ => w2 ? [->].
Qed.
Theorem C48_ratio_woodbury n k a (d : tensor) (x y m : mat) l t : std a -> std (Wb d x y m) ->
  ratio (run n) k a (Wb d x y m) = Ret l t -> lw l = (kd a == KKron).
Proof.
move=> ha hb e; suff : W false (ratio (run n) k a (Wb d x y m)) (fun w _ => w = (kd a == KKron)) by rewrite e.
cbn [ratio]; apply: W_sil (s_pdinv argsort n k hb) _ => bi [_ _ /(_ isT)[h1 h2]] {e}.
case: bi h1 h2 => // d' x' y' m' h1 [h2].
have sD (u : tensor) : std (wb_diag u) by [].
have sL : std (wb_lr x' y' m') by exact: h1.
have mp w (s u : tensor) : W w (Tensor.t_add s u) (fun w' _ => w' = w).
  by apply: W_conseq (silW w (sil_calm (cm_map2 _ _ _))) _ => w' ? [->].
have K : ~~ iswb (kd a) -> W false (do u <- trace_mm (run n) a (wb_diag d'); do v <- trace_mm (run n) a (wb_lr x' y' m'); Tensor.t_add u v) (fun w _ => w = (kd a == KKron)).
  move=> nw; apply: W_bind (w_trmm (w := kd a == KKron) n ha (sD d') erefl _) _ => [|w1 u ->].
    by move: nw; clear; case: a => // *; case: (structured _).
  have : W false (trace_mm (run n) a (wb_lr x' y' m')) (fun w _ => w = false).
    apply: (w_trmm n ha sL erefl); move: nw; clear; case: a => // *; rewrite /=; case: (structured m'); do ?case: (structured _); by [].
  by move=> H; apply: W_bind (W_or (w := kd a == KKron) H (Q := fun w _ => w = (kd a == KKron)) _) _ => [w2 v ->|w2 v ->]; [rewrite orbF|exact: mp].
case: a ha K => [t'|? ? ? ?|t'|t'|t' ? ?|t'|t'|u v q|d1 x1 y1 m1|u v] ha K; try exact (K isT).
have sL1 : std (wb_lr x1 y1 m1) by exact: ha.
apply: W_bind (w_trmm (w := false) n (sD d1) h1 erefl _) _ => [|w1 u ->]; first by [].
apply: W_bind (w_trmm (w := false) n sL1 (sD d') erefl _) _ => [|w2 v ->]; first by [].
apply: W_bind (mp false _ _) _ => w3 uv ->.
apply: W_bind (w_trmm (w := false) n sL1 sL erefl _) _ => [|w4 z ->]; last exact: mp.
by rewrite /=; case: (structured m1); case: (structured m').
Qed.

(** The ratio of two dense matrices warns: the triangular factor of the first one is made dense.  That of two arrays does not. *)
Theorem C48_ratio_dense n k (t u : tensor) l r : ns t -> ns u ->
  (ratio (run n) k (Dense t) (Dense u) = Ret l r -> lw l) /\ (ratio (run n) k (Nm t) (Nm u) = Ret l r -> lw l = false).
Proof.
move=> ht hu; split; last first.
  apply: (@silret _ _ (fun _ => True)); cbn [ratio].
  apply: (sil_bind (P := plP)) => [|c hc]; first by apply: sil_bind (s_chol _) _ => v hv; apply: sil_ret.
  by apply: sil_bind (s_iqfd n k true (a := Nm u) hu isT hc hc) _ => v _; exact: sil_calm (cm_sumpos _ _).
move=> e; suff : W false (ratio (run n) k (Dense t) (Dense u)) (fun w _ => w) by rewrite e.
have mono A (m : outcome A) : W true m (fun w _ => w) by case: m.
cbn [ratio]; apply: (W_sil (P := fun c => exists2 v, c = LT v & ns v)) => [|? [v -> hv]].
  apply: sil_bind (sil_calm (cm_as _)) _ => _ _; apply: sil_bind (s_chol _) _ => v hv.
  by apply: sil_conseq (s_lt v) _ => c [t' -> h]; exists t' => //; exact: h.
rewrite /iqf_diag2 /iqf_diag /iqf_parts.
apply: (W_bind (P := fun w _ => w)) => [|w ? h]; last by rewrite h; exact: mono.
apply: (W_bind (P := fun w _ => w)) => [|w [? ?] h]; last by rewrite h; exact: mono.
apply: (W_sil (P := fun c => exists2 v, c = LT v & ns v)) => [|? [v' -> hv']].
  apply: sil_bind (sil_calm (cm_as _)) _ => _ _; apply: sil_bind (s_chol _) _ => v' hv'.
  by apply: sil_conseq (s_lt v') _ => c [t' -> h]; exists t' => //; exact: h.
apply: (W_bind (P := fun w _ => w)) => [|w ? h]; last by rewrite h; exact: mono.
rewrite -[solve _ _ _ _]/(solve_m (run n) k (LT v') (LT v)); apply: W_conseq (w_solve_m argsort n k (a := LT v') (b := LT v) isT isT hv' hv) _.
by move=> w c /andP[_]; rewrite inE => /eqP[_ ->].
Qed.

(** ** Samples never warn *)
Section Sample.
Variables (state : Type) (randn : state -> dtype -> shape -> state * tensor).
Hypothesis hr : forall st d s, sh (randn st d s).2 = s.
Lemma s_sample_gen n st a num : std a -> ~~ iswb (kd a) -> kd a != KKron ->
  sil (sample_gen (run n) randn st a num) (fun p => kd a \in [:: KDiag; KNum; KDense; KLT; KUT] \/ islr (kd a) -> pl p.2).
Proof.
move=> h nw nk; have I := inv_n argsort n.
apply: (sil_bind (P := fun c => std c /\ cholk a c)) => [|c [hc kc]].
  by apply: rets_conseq (w_chol argsort n h) _ => l c [e1 /(_ nk) e2 e3]; split=> //; move: e1; rewrite /= => ->.
apply: sil_bind (sil_calm (cm_sb _)) _ => b _; apply: sil_bind (sil_calm (cm_sm _)) _ => -[? w] _.
have := hr st (float_of (mdtype a)) [:: num, w & b]; case: (randn _ _ _) => st' t /= e.
have ht : std (Nm t) by rewrite /= /ns e.
apply: (sil_bind (P := fun x => kd a \in [:: KDiag; KNum; KDense; KLT; KUT] \/ islr (kd a) -> pl x)) => [|x hx]; last exact: sil_ret.
apply: rets_conseq (v_matmul I false false hc ht) _ => l x /andP[hx hk].
have : (~~ lw l) && ((kd a \in [:: KDiag; KNum; KDense; KLT; KUT]) || islr (kd a) ==> ~~ skind (kd x)).
  suff /allP /(_ _ hk) : all (fun p => ~~ p.2 && ((kd a \in [:: KDiag; KNum; KDense; KLT; KUT]) || islr (kd a) ==> ~~ skind p.1)) (bin mmk (trk false (kd c)) (trk false (kd (Nm t)))) by [].
  by move: kc nw nk; clear; case: a => [t'|? ? ? ?|t'|t'|t' ? ?|t'|t'|? ? ?|? ? ? ?|? ?]; case: c.
case/andP=> h1 h2; split=> // h3; have {}h3 : (kd a \in [:: KDiag; KNum; KDense; KLT; KUT]) || islr (kd a) by case: h3 => ->; rewrite ?orbT.
by move: h2 hx; rewrite h3 /=; clear; case: x.
Qed.
Theorem C48_sample n st a num l r : std a -> kd a != KKron -> sample (run n) randn st a num = Ret l r -> lw l = false.
Proof.
move=> h nk; apply: (@silret _ _ (fun _ => True)).
have G : ~~ iswb (kd a) -> sil (sample_gen (run n) randn st a num) (fun _ => True).
  by move=> nw; apply: sil_conseq (s_sample_gen n st num h nw nk) _.
case: a h nk G => [t'|? ? ? ?|t'|t'|t' ? ?|t'|t'|u v q|d1 x1 y1 m1|u v] h nk G; try exact (G isT).
cbn [sample]; apply: sil_bind (s_sample_gen n st num (a := wb_diag d1) isT isT isT) _ => -[st1 x] hx.
apply: sil_bind (s_sample_gen n st1 num (a := wb_lr x1 y1 m1) h isT isT) _ => -[st2 y] hy.
have px : pl x by apply: hx; left.
have py : pl y by apply: hy; right.
apply: (sil_bind (P := fun _ => True)) => [|z _]; last exact: sil_ret.
by apply: sil_conseq (s_addmp argsort n (pl_md px) py) _.
Qed.
End Sample.
End Props.

Print Assumptions C48_diag_lowrank. Print Assumptions C48_multiply_lowrank. Print Assumptions C48_getitem. Print Assumptions C48_isnan. Print Assumptions C48_matmul_diag. Print Assumptions C48_iqf_diag.
Print Assumptions C48_ratio_woodbury. Print Assumptions C48_ratio_dense. Print Assumptions C48_sample.

(** The hypotheses are met. *)
Example C48_ex_more (F : rcfType) : [/\ std (w_wb F) && (kd (w_wb F) != KKron), nonzero_const (w_wb F) & nonzero_const (w_lr F)]
  /\ diagw KLT (KWb false) = false /\ diagw (KLR true) KDense = true.
Proof. by []. Qed.
