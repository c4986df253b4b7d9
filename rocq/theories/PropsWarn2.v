(** * C48: warnings of take, submatrix, sums over batch axes, division, kron and block matrices *)
From mathcomp Require Import all_ssreflect all_algebra.
From Verif Require Import Outcome Monad Shape Tensor Mat Dispatch Ops Spec LookThy Term Calm Types Ops2 Block Samples Warn Warn2 Warn3 PropsWarn.
Set Implicit Arguments. Unset Strict Implicit. Unset Printing Implicit Defensive.
Import GRing.Theory.
Local Open Scope ring_scope.

Section Props.
Variable F : rcfType.
Notation tensor := (tensor F).
Notation mat := (mat F).
Variable argsort : seq F -> seq nat.
Notation run n := (ops_n argsort n).
Implicit Types (a b c : mat) (n : nat) (l : log).
Local Notation kW k w := (fun w' (c : mat) => kd c = k /\ w' = w).

Lemma kWret (m : outcome mat) k w l c : W false m (kW k w) -> m = Ret l c -> kd c = k /\ lw l = w.
Proof. by move=> h e; move: h; rewrite e. Qed.
Lemma kWsil (m : outcome mat) k w P : sil m P -> (forall c, P c -> kd c = k) -> W w m (kW k w).
Proof. by move=> h H; apply: W_conseq (silW w h) _ => w' c [-> /H]. Qed.
Lemma s_req (b : bool) e : sil (require b e) (fun _ => True). Proof. by rewrite /require; case: b. Qed.
Lemma kConst (t : tensor) s w : W w (mk_const t s) (kW KConst w).
Proof. by apply: kWsil (s_const _ _) _ => c [? [? [? ->]]]. Qed.
Lemma kDiag (t : tensor) w : W w (mk_diag t) (kW KDiag w).
Proof. by apply: kWsil (s_diag _) _ => c [? ->]. Qed.
Lemma kLT (t : tensor) w : W w (mk_lt t) (kW KLT w).
Proof. by apply: kWsil (s_lt _) _ => c [? ->]. Qed.
Lemma kUT (t : tensor) w : W w (mk_ut t) (kW KUT w).
Proof. by apply: kWsil (s_ut _) _ => c [? ->]. Qed.
Lemma kLR (x y m : mat) w : W w (mk_lowrank x (Some y) (Some m)) (kW (KLR (structured m)) w).
Proof. by apply: kWsil (s_lowrank _ _ _) _ => c ->. Qed.

(** ** take along the rows or the columns *)
Lemma s_take_pl n k a x ax : pl a -> sil (take_n (run n) k a x ax) (fun c => pl c).
Proof.
case: k => // k; case: a => // t h; cbn [take_n take_step].
all: apply: sil_bind (sil_calm (cm_rank _)) _ => r _; apply: sil_bind (sil_calm (cm_axis _ _)) _ => p _.
  by apply: sil_bind (s_takep _ _ _) _ => u hu; apply: sil_ret; exact: hu.
apply: sil_warn => //; apply: sil_bind (v_dense (inv_n argsort n) (a := Dense t) h) _ => u hu.
by apply: sil_bind (s_takep _ _ _) _ => v _; apply: sil_ret; exact: ns_up.
Qed.
(** The position, from the end, which an axis denotes in a matrix of the given rank. *)
Definition takek (k : kind) : kind * bool :=
  match k with
  | KDiag | KWb _ | KKron => (KDense, true)
  | KLT | KUT => (KDense, false)
  | _ => (k, false)
  end.
Lemma w_takegen n a x p w : std a -> W w (take_gen (run n) a x p) (kW KDense (w || structured a)).
Proof.
move=> h; apply: W_warn; apply: W_sil (v_dense (inv_n argsort n) h) _ => t ht.
by apply: W_sil (sil_calm (cm_takepos _ _ _)) _ => u _; apply: W_ret.
Qed.
Lemma s_axis r ax : (ax == ax1) || (ax == ax2) -> sil (resolve_axis r ax) (fun p => (p < 2)%N /\ Negz p = ax).
Proof. by case/orP=> /eqP ->; rewrite /resolve_axis /ax1 /ax2; case: ifP => // _; apply: sil_ret. Qed.
Lemma w_take n k a x ax : (ax == ax1) || (ax == ax2) -> std a ->
  W false (take_n (run n) k a x ax) (fun w c => (kd c, w) = takek (kd a) /\ std c).
Proof.
move=> hax; elim: k a => [//|k IH] a h; have I := inv_n argsort n.
rewrite -[take_n _ _]/(take_step (run n) (take_n (run n) k)) /take_step.
apply: W_sil (sil_calm (cm_rank _)) _ => r _; apply: W_sil (s_axis _ hax) _ => p [p2 ep].
have G b w : std b -> W w (take_gen (run n) b x p) (fun w' c => (kd c, w') = (KDense, w || structured b) /\ std c).
  move=> hb; apply: W_warn; apply: W_sil (v_dense I hb) _ => t ht.
  by apply: W_sil (sil_calm (cm_takepos _ _ _)) _ => u _; apply: W_ret; rewrite /= ns_up.
case: a h => [t|d b rr cc|t|t|t rr cc|t|t|y z m|d y z m|y z] h; rewrite ?p2.
- by apply: W_sil (s_takep _ _ _) _ => u hu; apply: W_ret; split=> //; exact: hu.
- by apply: W_conseq (silW _ (s_zero _ _ _)) _ => w c [-> [? [? [? [? ->]]]]].
- exact: G.
- exact: G.
- case: ifP => [_|n1]; last (case: ifP => [_|n0]; last by case: p p2 n1 n0 {ep G} => [|[|]]).
    by apply: W_conseq (silW _ (s_const _ _)) _ => w c [-> [? [? [? ->]]]].
  by apply: W_conseq (silW _ (s_const _ _)) _ => w c [-> [? [? [? ->]]]].
- by apply: W_sil (sil_calm (cm_takepos _ _ _)) _ => u _; apply: W_ret; rewrite /= ns_up.
- by apply: W_sil (sil_calm (cm_takepos _ _ _)) _ => u _; apply: W_ret; rewrite /= ns_up.
- have /and3P[h1 h2 h3] := h; case: ifP => [_|n1]; last (case: ifP => [_|n0]; last by case: p p2 n1 n0 {ep G} => [|[|]]).
    apply: W_sil (s_take_pl _ _ _ _ h1) _ => y' hy; apply: W_conseq (silW _ (s_lowrank _ _ _)) _ => w c [-> ->].
    by rewrite /= hy h2 h3.
  apply: W_sil (s_take_pl _ _ _ _ h2) _ => z' hz; apply: W_conseq (silW _ (s_lowrank _ _ _)) _ => w c [-> ->].
  by rewrite /= h1 hz h3.
- rewrite ep; apply: W_bind (IH (Diag d) isT) _ => w1 c1 [[e1 e2] s1]; rewrite e2.
  apply: (W_bind (P := fun w c => w = true /\ (kd c = KLR (structured m) /\ std c))) => [|w2 c2 [-> [e3 s2]]].
    by apply: W_or (IH (LR y z m) h) _ => w c [[-> ->]].
  by apply: W_or (v_add I s1 s2) _ => w c /andP[h1]; rewrite e1 e3 inE => /eqP[-> _].
- exact: G.
Qed.
(** [take] along the rows or the columns: [Constant], [Zero] and low-rank matrices are kept, the others become dense: with
    a warning for diagonal, Woodbury and Kronecker matrices, without one for triangular matrices. *)
Theorem C48_take n a x ax l c : (ax == ax1) || (ax == ax2) -> std a ->
  take_op (run n) a x ax = Ret l c -> (kd c, lw l) = takek (kd a).
Proof. by move=> hax h e; have := w_take n (depth a) x hax h; rewrite -/(take_op _ _ _ _) e => -[]. Qed.

(** ** submatrix: only Kronecker products lose their structure *)
Theorem C48_submatrix n a x l c : std a -> submatrix (run n) a x = Ret l c ->
  if kd a is KKron then kd c = KDense /\ lw l = true else kd c = kd a /\ lw l = false.
Proof.
move=> h; have I := inv_n argsort n.
have sm (t : tensor) : calm (t_submatrix t x) by apply: calm_bind => [|?]; exact: cm_take.
have sl (y z m : mat) : std (LR y z m) -> sil (submatrix_lr (run n) y z m x) (fun c => exists y' z', c = LR y' z' m).
  case/and3P=> h1 h2 h3; apply: sil_bind (s_take_pl _ _ _ _ h1) _ => y' _; apply: sil_bind (s_take_pl _ _ _ _ h2) _ => z' _.
  by apply: sil_conseq (s_lowrank _ _ _) _ => ? ->; exists y', z'.
case: a h => [t|d b rr cc|t|t|t rr cc|t|t|y z m|d y z m|y z] h; cbn [submatrix kd]; apply: kWret.
- by apply: W_sil (sil_calm (sm t)) _ => u _; apply: W_ret.
- exact: W_ret.
- by apply: W_warn; apply: W_sil (v_dense I (a := Dense t) h) _ => v _; apply: W_sil (sil_calm (sm _)) _ => u _; apply: W_ret.
- by apply: W_sil (sil_calm (cm_take _ _ _)) _ => u _; exact: kDiag.
- exact: kConst.
- by apply: W_sil (sil_calm (sm t)) _ => u _; exact: kLT.
- by apply: W_sil (sil_calm (sm t)) _ => u _; exact: kUT.
- by apply: kWsil (sl _ _ _ h) _ => ? [? [? ->]].
- apply: W_sil (sil_calm (cm_take _ _ _)) _ => u _; apply: W_sil (s_diag _) _ => ? [d' ->].
  by apply: W_sil (sl y z m h) _ => ? [y' [z' ->]]; apply: kWsil (s_woodbury _ _ _ _) _ => ? ->.
- by apply: W_warn; apply: W_sil (v_dense I (a := Kron y z) h) _ => v _; apply: W_sil (sil_calm (sm _)) _ => u _; apply: W_ret.
Qed.

(** ** Sums over a batch axis convert low-rank, Woodbury and Kronecker matrices, with a warning *)
Theorem C48_sum_batch n a p l c : std a -> (1 < p)%N -> sum_pos (run n) a p = Ret l c ->
  lw l = (if kd a is (KLR _ | KWb _ | KKron) then true else false).
Proof.
move=> h; case: p => [|[|p]] // _ e; have I := inv_n argsort n.
suff : W false (sum_pos (run n) a p.+2) (fun w _ => w = (if kd a is (KLR _ | KWb _ | KKron) then true else false)) by rewrite e.
have mono A (m : outcome A) : W true m (fun w _ => w = true) by case: m.
have sp (t : tensor) q : sil (t_sum_pos t q) (fun _ => True) by exact: sil_calm (cm_sumpos _ _).
case: a h {e} => [t|d b rr cc|t|t|t rr cc|t|t|y z m|d y z m|y z] h; cbn [sum_pos kd].
- by apply: W_sil (sp _ _) _ => u _; apply: W_ret.
- exact: W_ret.
- by apply: W_sil (sp _ _) _ => u _; apply: W_ret.
- by apply: W_sil (sp _ _) _ => u _; apply: W_conseq (kDiag _ _) _ => ? ? [].
- by apply: W_sil (sp _ _) _ => u _; apply: W_conseq (kConst _ _ _) _ => ? ? [].
- by apply: W_sil (sp _ _) _ => u _; apply: W_ret.
- by apply: W_sil (sp _ _) _ => u _; apply: W_ret.
- by apply: W_warn; exact: mono.
- apply: W_sil (sil_calm (cm_align_batch _)) _ => xs _; case: xs => [|x1 [|x2 [|? ?]]] //; first by case: x1.
    by case: x1 => // d'; apply: W_sil (sp _ _) _ => u _; apply: W_sil (sil_calm (cm_mk_diag _)) _ => ? _; apply: W_warn; exact: mono.
  by case: x1.
- by apply: W_warn; exact: mono.
Qed.
(** The other sums never warn. *)
Theorem C48_sum_silent n a l c : std a ->
  (forall p, (p < 2)%N -> sum_pos (run n) a p = Ret l c -> lw l = false) /\ (sum_op (run n) a None = Ret l c -> lw l = false).
Proof.
move=> h; have I := inv_n argsort n; split=> [[|[|//]] _|]; apply: (@silret _ _ (fun _ => True)).
- by apply: sil_bind (v_sumax I true h) _.
- by apply: sil_bind (v_sumax I false h) _.
- by apply: sil_bind (v_sumall I h) _.
Qed.

(** ** Division: by a nonzero [Constant] or number like the product; otherwise dense, with a warning exactly if an operand is
    structured *)
Lemma divC n a b : ismat a || ismat b -> divide (run n) a b =
  (do i <- lookup div_table (ty_of_matrix (to_matrix a)) (ty_of_matrix (to_matrix b)); div_body (run n) i (to_matrix a) (to_matrix b)).
Proof.
by case: a => [?|*|*|*|*|*|*|*|*|*]; [case: b => [? h|*|*|*|*|*|*|*|*|*]; [discriminate h|..]|..] => *.
Qed.
Theorem C48_divide n a b l c : usual a -> usual b -> nonzero_const a -> nonzero_const b -> ismat a || ismat b ->
  divide (run n) a b = Ret l c ->
  if kind_of b is KConst then (kd c, lw l) \in mulk (kind_of a) KConst
  else kd c = KDense /\ lw l = structured (to_matrix a) || structured (to_matrix b).
Proof.
move=> ha hb na nb hm; rewrite divC //; have I := inv_n argsort n.
rewrite /usual /nonzero_const /kind_of in ha hb na nb *; move: (ismT a) (ismT b).
move: (to_matrix a) (to_matrix b) ha hb na nb => x y ha hb na nb mx my.
have G : (do _ <- warn_if (structured x || structured y); do s <- o_dense (run n) x; do t <- o_dense (run n) y; do z <- t_div s t; ret (mk_dense z)) = Ret l c ->
   kd c = KDense /\ lw l = structured x || structured y.
  apply: kWret; apply: W_warn; apply: W_sil (v_dense I ha) _ => s _; apply: W_sil (v_dense I hb) _ => t _.
  by apply: W_sil (sil_calm (cm_map2 _ _ _)) _ => z _; apply: W_ret.
have L T : lookup div_table T TConst = ret VConst by case: T.
have L' T T' : T' <> TConst -> lookup div_table T T' = ret VGen by case: T; case: T'.
case: y hb nb my G => [t|d b' rr cc|t|t|t rr cc|t|t|y z m|d y z m|y z] hb nb my G; [discriminate my|..]; cbn [kd ty_of_matrix]; last 1 first.
all: try (rewrite L' // bind_ret; exact G).
rewrite L bind_ret /div_body; apply: Wret.
rewrite -[shape_of _]/(ret [:: cc, rr & sh t]) bind_ret.
apply: (W_sil (P := fun c' => exists t' r' k', c' = Const t' r' k' /\ nzs t')) => [|c' [t' [r' [k' [-> h]]]]].
  have N : nzs (t_map (fun x0 : F => 1 / x0) t) by move: nb; rewrite /= /nzs /= mul1r invr_eq0.
  rewrite /mk_const; case Et: (sh t) => [|d s]; first by apply: sil_ret; exists (t_map (fun x0 : F => 1 / x0) t), rr, cc.
  apply: sil_bind (sil_calm (cm_eb _)) _ => s' _; apply: sil_bind (s_bto s' _) _ => [|u hu]; first by rewrite /ns /= Et.
  by apply: sil_ret; exists u, rr, cc; split=> //; rewrite /nzs [ns u]hu.
have := v_mul I ha (b := Const t' r' k') isT na h; rewrite binE ?kmatE //.
Qed.

(** ** kron never warns *)
Theorem C48_kron n a b l c : kron_n n a b = Ret l c -> lw l = false.
Proof.
apply: (@silret _ _ (fun _ => True)); elim: n a b => [//|n IH] a b.
have K (x y : mat) : sil (kron_body (kron_n n) x y) (fun _ => True).
  rewrite /kron_body; have ps (u v : mat) : calm (product_shape u v) by apply: calm_bind => [|[? ?]]; [exact: cm_sm|apply: calm_bind => [|[? ?]] //; exact: cm_sm].
  apply: (sil_bind (P := fun _ => True)) => [|i _]; first by case: (ty_of_matrix x); case: (ty_of_matrix y).
  case: i.
  - apply: sil_bind (sil_calm (cm_sbb _)) _ => s _; apply: sil_bind (sil_calm (ps _ _)) _ => -[? ?] _; apply: sil_calm; exact: cm_mk_zero.
  - exact: IH.
  - exact: sil_ret.
  - case: x => // ? ? ?; case: y => // ? ? ?; apply: sil_bind (sil_calm (cm_map2 _ _ _)) _ => s _.
    by apply: sil_bind (sil_calm (ps _ _)) _ => -[? ?] _; exact: sil_calm (cm_mk_const _ _).
case: a => [t|*|*|*|*|*|*|*|*|*]; try exact (K _ _).
case: b => [u|*|*|*|*|*|*|*|*|*]; try exact (K _ _).
by apply: sil_bind (sil_calm (cm_k2 _ _)) _.
Qed.

(** ** Block matrices: several blocks warn exactly if the result is dense; it is [Zero], diagonal or dense *)
Definition good a : bool := std a || ~~ ismat a.
Lemma s_bbg a s : good a -> sil (broadcast_batch_to a s) (fun c => std c).
Proof.
case/orP=> h; first by apply: sil_conseq (s_bbM s h) _ => c /andP[].
by case: a h => // t _; apply: sil_bind (s_bbto t s) _ => u hu; apply: sil_ret.
Qed.
Lemma s_mapM A B (f : A -> outcome B) (p : pred A) (q : pred B) s : (forall x, p x -> sil (f x) q) -> all p s ->
  sil (mapM f s) (fun r => all q r).
Proof.
move=> h; elim: s => //= x s IH /andP[h1 h2]; apply: sil_bind (h x h1) _ => y hy.
by apply: sil_bind (IH h2) _ => ys hys; apply: sil_ret; rewrite /= hy.
Qed.
Lemma s_abr (rows : seq (seq mat)) : all (all good) rows -> sil (align_batch_rows rows) (fun r => all (all (@std F)) r).
Proof.
move=> h; apply: sil_bind (sil_calm (cm_sbb _)) _ => s _; apply: s_mapM h => row; apply: s_mapM => x hx; exact: s_bbg.
Qed.
Lemma s_rows a : sil (rows_of a) (fun _ => True). Proof. by apply: sil_bind (sil_calm (cm_sm a)) _ => -[]. Qed.
Lemma s_cols a : sil (cols_of a) (fun _ => True). Proof. by apply: sil_bind (sil_calm (cm_sm a)) _ => -[]. Qed.
Lemma s_az (rows : seq (seq mat)) : sil (attempt_zero rows) (fun z => if z is Some c then kd c = KZero else True).
Proof.
rewrite /attempt_zero; case: ifP => // _; case: rows => [|[|x row] rows] //.
apply: sil_bind (sil_calm (cm_sbb _)) _ => b _; apply: (sil_bind (P := fun _ => True)) => [|hs _].
  by apply: (@sil_mapM _ _ _ _ (fun _ => True)) => -[|y r] //; exact: s_rows.
apply: (sil_bind (P := fun _ => True)) => [|ws _]; last exact: sil_ret.
by apply: (@sil_mapM _ _ _ _ (fun _ => True)) => y; exact: s_cols.
Qed.
Lemma s_crow r k (row : seq mat) : sil (check_row r k row) (fun _ => True).
Proof.
elim: row k => [|x row IH] k //=; apply: sil_bind (sil_calm (cm_sm x)) _ => -[h w] _; case: ifP => _; [exact: IH|exact: sil_ret].
Qed.
Lemma s_crows r (rows : seq (seq mat)) : sil (check_rows r rows) (fun _ => True).
Proof.
elim: rows r => [|x rows IH] r //=; apply: sil_bind (s_crow _ _ _) _ => k _; case: k; [exact: IH|exact: sil_ret].
Qed.
Lemma g_diagb r (rows : seq (seq mat)) : all (all (@std F)) rows -> all good (diag_blocks r rows).
Proof.
elim: rows r => [//|row rows IH] r /= /andP[h1 h2]; rewrite IH // andbT.
case: (ltnP r (size row)) => hr; last by rewrite nth_default.
by rewrite /good (all_nthP _ h1).
Qed.
Lemma s_ad n (rows : seq (seq mat)) : all (all good) rows ->
  sil (attempt_diagonal (run n) rows) (fun z => if z is Some c then kd c = KDiag else True).
Proof.
move=> h; apply: sil_bind (s_abr h) _ => rows' h'; case: ifP => // _; apply: sil_bind (s_crows _ _) _ => k _; case: k => //.
apply: sil_bind (sil_calm (cm_sbb _)) _ => b _.
apply: (sil_bind (s_mapM (q := @std F) _ (g_diagb 0 h'))) => [x hx|ds hds]; first exact: s_bbg.
apply: (sil_bind (s_mapM (q := predT) _ hds)) => [x hx|ts _]; first by apply: sil_conseq (v_diag (inv_n argsort n) hx) _.
apply: (sil_bind (P := fun _ => True)) => [|t _]; first by apply: sil_bind (sil_calm (cm_axis _ _)) _ => p _; exact: sil_calm (cm_concat _ _).
by apply: sil_bind (s_diag _) _ => ? [? ->]; apply: sil_ret.
Qed.
Lemma s_tconcat (ts : seq tensor) ax : sil (t_concat ts ax) (fun _ => True).
Proof. by apply: sil_bind (sil_calm (cm_axis _ _)) _ => p _; exact: sil_calm (cm_concat _ _). Qed.
Theorem C48_block n (rows : seq (seq mat)) l c : all (all good) rows -> (if rows is [:: [:: _]] then false else true) ->
  block (run n) rows = Ret l c -> lw l = (kd c == KDense) /\ kd c \in [:: KZero; KDiag; KDense].
Proof.
move=> h hs e; suff : W false (block (run n) rows) (fun w c => w = (kd c == KDense) /\ kd c \in [:: KZero; KDiag; KDense]) by rewrite e.
have -> : block (run n) rows = (do z <- attempt_zero rows; if z is Some c then ret c else
      do d <- attempt_diagonal (run n) rows; if d is Some c then ret c else
        do _ <- warn_if true; do rows' <- align_batch_rows rows; do ts <- mapM (mapM (o_dense (run n))) rows';
        do t <- t_concat2d ts; ret (mk_dense t)).
  by move: hs; clear; case: rows => [|[|x [|y row]] [|r rows]].
apply: W_sil (s_az _) _ => -[z|] hz; first by apply: W_ret; rewrite hz.
apply: W_sil (s_ad n h) _ => -[z'|] hz'; first by apply: W_ret; rewrite hz'.
apply: W_warn; apply: W_sil (s_abr h) _ => rows' h'.
apply: (W_sil (P := fun _ => True)) => [|ts _].
  apply: sil_conseq (s_mapM (q := predT) _ h') _ => // row hr; apply: sil_conseq (s_mapM (q := predT) _ hr) _ => // x hx.
  by apply: sil_conseq (v_dense (inv_n argsort n) hx) _.
apply: (W_sil (P := fun _ => True)) => [|t _]; last by apply: W_ret.
apply: (sil_bind (P := fun _ => True)) => [|rs _]; last exact: s_tconcat.
by apply: (@sil_mapM _ _ _ _ (fun _ => True)) => row; exact: s_tconcat.
Qed.
(** [block_diag] of at least two blocks, not all numeric. *)
Lemma s_bdrows d s tc k (es : seq (tensor * (nat * nat))) : sil (bd_rows d s tc k es) (fun _ => True).
Proof.
elim: es k => [|[e [h w]] es IH] k //=; apply: sil_bind (s_tconcat _ _) _ => row _; by apply: sil_bind (IH _) _.
Qed.
Lemma s_bd (ts : seq tensor) : sil (t_block_diag ts) (fun _ => True).
Proof.
apply: (sil_bind (P := fun _ => True)) => [|es _].
  apply: sil_bind (sil_calm (cm_align_batch _)) _ => xs _.
  by move: (pmap _ _) => us; case: us => [|u [|? ?]] //; rewrite /t_iter; case: (rev (sh u)).
apply: (sil_bind (P := fun _ => True)) => [|shp _]; first by apply: (@sil_mapM _ _ _ _ (fun _ => True)) => y; exact: sil_calm (cm_sm _).
case: es => // e0 es; apply: sil_bind (sil_calm (cm_sb _)) _ => b _; apply: sil_bind (s_bdrows _ _ _ _ _) _ => rs _; exact: s_tconcat.
Qed.
Theorem C48_block_diag n (bs : seq mat) l c : all good bs -> (1 < size bs)%N -> ~~ all (@Block.isnum F) bs ->
  block_diag (run n) bs = Ret l c -> lw l = (kd c == KDense) /\ kd c \in [:: KZero; KDiag; KDense].
Proof.
move=> h hs hn e; suff : W false (block_diag (run n) bs) (fun w c => w = (kd c == KDense) /\ kd c \in [:: KZero; KDiag; KDense]) by rewrite e.
rewrite /block_diag (negbTE hn); case: bs hs h {e hn} => [//|x [//|y bs]] _; move: [:: x, y & bs] => xs h {x y bs}.
apply: (W_sil (P := fun z => if z is Some c then kd c = KZero else True)) => [|[z|] hz]; last 2 first.
- by apply: W_ret; rewrite hz.
- apply: (W_sil (P := fun z => if z is Some c then kd c = KDiag else True)) => [|[z'|] hz']; last 2 first.
  + by apply: W_ret; rewrite hz'.
  + apply: W_warn; apply: (W_sil (P := fun _ => True)) => [|ts _].
      apply: sil_conseq (s_mapM (q := predT) _ h) _ => // x hx.
      case/orP: hx => hx; first by apply: sil_conseq (v_dense (inv_n argsort n) hx) _.
      by case: x hx => // t _; case: n.
    by apply: W_sil (s_bd _) _ => t _; apply: W_ret.
  + rewrite /bd_attempt_diagonal; case: ifP => // hd.
    have K : sil (align_batch xs) (fun r => all (@std F) r).
      by apply: sil_bind (sil_calm (cm_sbb _)) _ => s _; apply: s_mapM h => x; exact: s_bbg.
    apply: sil_bind K _ => ys hys.
    apply: (sil_bind (s_mapM (q := predT) _ hys)) => [x hx|ts _]; first by apply: sil_conseq (v_diag (inv_n argsort n) hx) _.
    by apply: sil_bind (s_tconcat _ _) _ => t _; apply: sil_bind (s_diag _) _ => ? [? ->]; apply: sil_ret.
- rewrite /bd_attempt_zero; case: ifP => // hd; case: xs {h hd} => // x xs.
  apply: sil_bind (sil_calm (cm_sbb _)) _ => b _; apply: (sil_bind (P := fun _ => True)) => [|? _].
    by apply: (@sil_mapM _ _ _ _ (fun _ => True)) => y; exact: s_rows.
  apply: (sil_bind (P := fun _ => True)) => [|ws _]; last exact: sil_ret.
  by apply: (@sil_mapM _ _ _ _ (fun _ => True)) => y; exact: s_cols.
Qed.
End Props.

Print Assumptions C48_take. Print Assumptions C48_submatrix. Print Assumptions C48_sum_batch. Print Assumptions C48_sum_silent.
Print Assumptions C48_divide. Print Assumptions C48_kron. Print Assumptions C48_block. Print Assumptions C48_block_diag.
