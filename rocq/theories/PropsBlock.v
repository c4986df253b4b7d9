(** * C24: block and block-diagonal matrices *)
From mathcomp Require Import all_ssreflect all_algebra zify.
From Verif Require Import Outcome Monad Shape Tensor Mat Dispatch Ops Ops2 Block Spec ShapeThy TensorThy TensorThy2 MatThy OpsOk DenseOk AddOk OpsMain Term Calm Api Bridge Ans SumThy PropsSum PropsStruct BlockThy.
From Verif Require Import Samples Types.
Set Implicit Arguments. Unset Strict Implicit. Unset Printing Implicit Defensive.
Import GRing.Theory Num.Theory.
Local Open Scope ring_scope.

Section PropsBlock.
Variable F : rcfType.
Notation tensor := (tensor F).
Notation mat := (mat F).
Variable argsort : seq F -> seq nat.
Hypothesis perm : argsort_ok argsort.
Notation answers := (answers argsort).
Implicit Types (rows : seq (seq mat)) (blocks : seq mat).
Notation nm0 := (Nm (t_scalar DInt 0) : mat).
Notation t0 := (t_scalar DInt 0 : tensor).

(** ** Specification *)
(** Block [(p, q)] of a grid. *)
Definition blk rows (p q : nat) : mat := nth nm0 (nth [::] rows p) q.
(** The blocks form a grid with row heights [hs] and column widths [ws]. *)
Definition grid rows (hs ws : seq nat) : Prop :=
  [/\ (0 < size hs)%N /\ (0 < size ws)%N, size rows = size hs,
      forall p, (p < size hs)%N -> size (nth [::] rows p) = size ws &
      forall p q, (p < size hs)%N -> (q < size ws)%N ->
        [/\ wf (blk rows p q), mrows (blk rows p q) = nth 0%N hs p & mcols (blk rows p q) = nth 0%N ws q]].
(** Entry [(i, j)] of the assembled matrix. *)
Definition grid_ent rows (hs ws : seq nat) (be : seq nat) (i j : nat) : F :=
  ent (blk rows (loc hs i).1 (loc ws j).1) be (loc hs i).2 (loc ws j).2.
(** Entry [(i, j)] of the block-diagonal matrix. *)
Definition bd_ent blocks (be : seq nat) (i j : nat) : F :=
  let p := loc (map (@mrows F) blocks) i in let q := loc (map (@mcols F) blocks) j in
  if p.1 == q.1 then ent (nth nm0 blocks p.1) be p.2 q.2 else 0.

(** A diagonal grid: as many rows as columns, zeros off the diagonal, square diagonal or zero matrices on it. *)
Definition diagonal_grid rows (hs ws : seq nat) : Prop := size hs = size ws /\
  forall p q, (p < size hs)%N -> (q < size ws)%N ->
    if p == q then (isdiag (blk rows p q) || iszero (blk rows p q)) && (nth 0%N hs p == nth 0%N ws q) else iszero (blk rows p q).

(** ** Lists of well-formed matrices *)
Lemma sumn_pos (s : seq nat) : (0 < size s)%N -> (forall k, (k < size s)%N -> (0 < nth 0%N s k)%N) -> (0 < sumn s)%N.
Proof. by case: s => // x s _ h; have := h 0%N isT; rewrite /=; lia. Qed.
Lemma sbb_ok blocks b : (0 < size blocks)%N -> (forall k, (k < size blocks)%N -> wf (nth nm0 blocks k)) ->
  bcall b (map (@mbatch F) blocks) -> shape_batch_broadcast blocks = ret b /\ posn b.
Proof.
move=> n0 w h; rewrite /shape_batch_broadcast (mapM_ret_nth (g := @mbatch F) (x0 := nm0)) => [|k /w]; last exact: shape_batchE.
rewrite bind_ret; split; first by apply: eab_all => //; rewrite size_map.
apply: bcall_pos h _; rewrite ?size_map // all_map; apply/(all_nthP nm0) => k /w; exact: mbatch_pos.
Qed.
Lemma le_b blocks b k : bcall b (map (@mbatch F) blocks) -> (k < size blocks)%N -> bto (mbatch (nth nm0 blocks k)) b.
Proof. by move=> /bcall_le; rewrite all_map => /(all_nthP nm0) h /h. Qed.
Fixpoint crow (r c : nat) (row : seq mat) : bool :=
  if row is x :: row' then
    (if r == c then (isdiag x || iszero x) && (mrows x == mcols x) else iszero x) && crow r c.+1 row'
  else true.
Fixpoint crows (r : nat) rows : bool := if rows is row :: rows' then crow r 0 row && crows r.+1 rows' else true.
Lemma check_rowE r c row : (forall k, (k < size row)%N -> wf (nth nm0 row k)) -> check_row r c row = ret (crow r c row).
Proof.
elim: row c => //= x row IH c h; rewrite shape_matrixE ?bind_ret; last exact: (h 0%N isT).
rewrite IH => [|k hk]; last exact: (h k.+1 hk).
by case: (if r == c then _ else _).
Qed.
Lemma check_rowsE r rows : (forall p, (p < size rows)%N -> forall k, (k < size (nth [::] rows p))%N -> wf (nth nm0 (nth [::] rows p) k)) ->
  check_rows r rows = ret (crows r rows).
Proof.
elim: rows r => //= row rows IH r h; rewrite check_rowE ?bind_ret; last exact: (h 0%N isT).
by rewrite IH => [|p hp]; [case: (crow _ _ _)|exact: (h p.+1 hp)].
Qed.
Lemma crowP r c row q : crow r c row -> (q < size row)%N ->
  if r == (c + q)%N then (isdiag (nth nm0 row q) || iszero (nth nm0 row q)) && (mrows (nth nm0 row q) == mcols (nth nm0 row q))
  else iszero (nth nm0 row q).
Proof.
elim: row c q => //= x row IH c [|q] /andP[h1 h2] hq; first by rewrite addn0.
by rewrite addnS -addSn; apply: IH.
Qed.
Lemma crowsP r rows p q : crows r rows -> (p < size rows)%N -> (q < size (nth [::] rows p))%N ->
  if (r + p)%N == q then (isdiag (blk rows p q) || iszero (blk rows p q)) && (mrows (blk rows p q) == mcols (blk rows p q))
  else iszero (blk rows p q).
Proof.
elim: rows r p => //= row rows IH r [|p] /andP[h1 h2] hp hq; first by rewrite addn0; exact: (crowP h1).
by rewrite addnS -addSn; apply: IH.
Qed.
Lemma crow_of r c row : (forall q, (q < size row)%N ->
  if r == (c + q)%N then (isdiag (nth nm0 row q) || iszero (nth nm0 row q)) && (mrows (nth nm0 row q) == mcols (nth nm0 row q))
  else iszero (nth nm0 row q)) -> crow r c row.
Proof.
elim: row c => //= x row IH c h; have := h 0%N isT; rewrite addn0 /= => ->; apply: IH => q hq.
by have := h q.+1 hq; rewrite addnS -addSn.
Qed.
Lemma crows_of r rows : (forall p q, (p < size rows)%N -> (q < size (nth [::] rows p))%N ->
  if (r + p)%N == q then (isdiag (blk rows p q) || iszero (blk rows p q)) && (mrows (blk rows p q) == mcols (blk rows p q))
  else iszero (blk rows p q)) -> crows r rows.
Proof.
elim: rows r => //= row rows IH r h; apply/andP; split.
  by apply: crow_of => q hq; have := h 0%N q isT hq; rewrite addn0 add0n.
by apply: IH => p q hp hq; have := h p.+1 q hp hq; rewrite addnS -addSn.
Qed.
Lemma size_diag_blocks r rows : size (diag_blocks r rows) = size rows.
Proof. by elim: rows r => //= x rows IH r; rewrite IH. Qed.
Lemma nth_diag_blocks r rows p : (p < size rows)%N -> nth nm0 (diag_blocks r rows) p = blk rows p (r + p).
Proof. by elim: rows r p => //= x rows IH r [|p] h /=; [rewrite addn0|rewrite IH // addSnnS]. Qed.

Lemma grid_wf rows hs ws (g : grid rows hs ws) : forall k, (k < size (flatten rows))%N -> wf (nth nm0 (flatten rows) k).
Proof.
case: g => _ e1 e2 e3.
have : forall p, (p < size rows)%N -> forall q, (q < size (nth [::] rows p))%N -> wf (nth nm0 (nth [::] rows p) q).
  by rewrite e1 => p hp q; rewrite e2 // => hq; case: (e3 p q hp hq).
elim: (rows) => [|r rs IH] h k //=; rewrite size_cat nth_cat => hk'; case: (ltnP k (size r)) => hk.
  exact (h 0%N isT k hk).
by apply: IH; [move=> p hp; exact: (h p.+1 hp)|lia].
Qed.
Lemma grid_sz rows hs ws (g : grid rows hs ws) : (0 < size (flatten rows))%N.
Proof. by case: g => -[h1 h2] e1 e2 _; have := e2 0%N h1; case: (rows) e1 => [|r rs]; rewrite /= ?size_cat; lia. Qed.
Section Grid.
Variables (rows : seq (seq mat)) (hs ws : seq nat) (b : shape).
Hypothesis g : grid rows hs ws.
Hypothesis hb : bcall b (map (@mbatch F) (flatten rows)).
Let nz : (0 < size hs)%N /\ (0 < size ws)%N. Proof. by case: g. Qed.
Lemma grid_sbb : shape_batch_broadcast (flatten rows) = ret b /\ posn b.
Proof. exact: sbb_ok (grid_sz g) (grid_wf g) hb. Qed.
Lemma grid_le p q : (p < size hs)%N -> (q < size ws)%N -> bto (mbatch (blk rows p q)) b.
Proof.
case: g => _ e1 e2 _ hp hq; have := bcall_le hb; rewrite all_map all_flatten.
move/(all_nthP [::])/(_ p); rewrite e1 => /(_ hp)/(all_nthP nm0)/(_ q); rewrite e2 //; exact.
Qed.
(** The grid after broadcasting. *)
Definition aligned_grid rows' : Prop :=
  [/\ size rows' = size hs, forall p, (p < size hs)%N -> size (nth [::] rows' p) = size ws &
      forall p q, (p < size hs)%N -> (q < size ws)%N ->
        is_res (blk rows' p q) (nth 0%N hs p) (nth 0%N ws q) b (ent (blk rows p q)) /\ tag (blk rows' p q) = tag (blk rows p q)].
Lemma align_rows : exists2 rows', align_batch_rows rows = ret rows' & aligned_grid rows'.
Proof.
have [e pb] := grid_sbb; case: (g) => _ e1 e2 e3; rewrite /align_batch_rows e bind_ret.
have [p|p hp|rows' -> [s h]] := @mapM_calm_hoare _ _ [::] [::] (mapM (fun x => broadcast_batch_to x b))
   (fun p row' => size row' = size ws /\ forall q, (q < size ws)%N ->
      is_res (nth nm0 row' q) (nth 0%N hs p) (nth 0%N ws q) b (ent (blk rows p q)) /\ tag (nth nm0 row' q) = tag (blk rows p q)) rows.
- by apply: calm_mapM => x; exact: cm_bb.
- rewrite e1 in hp; apply: hoare_conseq (@hoare_mapM _ _ nm0 nm0 _ (fun q x' => is_res x' (nth 0%N hs p) (nth 0%N ws q) b (ent (blk rows p q)) /\ tag x' = tag (blk rows p q)) _ _) _ => [q|xs []].
    rewrite e2 // => hq; have [w m1 m2] := e3 p q hp hq.
    by apply: hoare_conseq (broadcast_batch_ok w pb (grid_le hp hq)) _ => x' [hx _ tx]; rewrite -m1 -m2.
  by rewrite e2 // => s1 s2.
exists rows' => //; rewrite e1 in s h; split=> // [p hp|p q hp hq]; [by case: (h p hp)|by case: (h p hp) => _; apply].
Qed.
Lemma aligned_is rows' : aligned_grid rows' ->
  grid rows' hs ws /\ bcall b (map (@mbatch F) (flatten rows')).
Proof.
case=> e1 e2 e3; split.
  by split=> // p q hp hq; case: (e3 p q hp hq) => -[w [m1 m2] _ _] _.
apply: bcall_same; rewrite ?size_map ?all_map.
  by case: nz => h1 h2; have := e2 0%N h1; case: (rows') e1 => [|r rs]; rewrite /= ?size_cat; lia.
rewrite all_flatten; apply/(all_nthP [::]) => p; rewrite e1 => hp; apply/(all_nthP nm0) => q; rewrite e2 // => hq.
by case: (e3 p q hp hq) => -[_ _ /= -> _] _.
Qed.
Lemma grid_pos : posn [:: sumn ws, sumn hs & b].
Proof.
case: (g) => -[h1 h2] _ _ e3; have [_ pb] := grid_sbb; rewrite !posn_cons pb andbT; apply/andP; split; apply: sumn_pos => // k hk.
  by have [w _ <-] := e3 0%N k h1 hk; exact: mcols_gt0.
by have [w <- _] := e3 k 0%N hk h2; exact: mrows_gt0.
Qed.

(** ** The shortcut for zeros *)
Lemma zero_ok : exists2 z, attempt_zero rows = ret z & if z is Some c then
  [/\ is_res c (sumn hs) (sumn ws) b (grid_ent rows hs ws), tag c = 1%N & all (all (@iszero F)) rows] else ~~ all (all (@iszero F)) rows.
Proof.
rewrite /attempt_zero; case: ifP => [hz|hz]; last by exists None; rewrite ?hz.
have [e pb] := grid_sbb; have gp := grid_pos; case: (g) => -[h1 h2] e1 e2 e3.
case E: rows e1 e2 e3 => [|[|x row] rs] e1 e2 e3.
- by rewrite -e1 in h1.
- by have := e2 0%N h1 => /= e'; rewrite -e' in h2.
rewrite -E e bind_ret (@mapM_eq _ _ [::] 0%N _ _ hs); last first.
- move=> p; rewrite E e1 => hp; have := e2 p hp; have := e3 p 0%N hp h2; rewrite /blk.
  by case: (nth [::] _ p) => [|y ys] [w r _] s; [rewrite -s in h2|rewrite /rows_of shape_matrixE // bind_ret r].
- by rewrite E.
rewrite bind_ret (@mapM_eq _ _ nm0 0%N _ _ ws); last first.
- move=> q; have /= -> := e2 0%N h1; move=> hq; have [w _ c] := e3 0%N q h1 hq.
  by rewrite /cols_of shape_matrixE // bind_ret -c.
- by have /= -> := e2 0%N h1.
rewrite bind_ret; eexists; first by []; split=> //; split=> //= be i j hbe hi hj.
have [l1 l2] := loc_lt hi; have [l3 l4] := loc_lt hj.
rewrite /grid_ent; move/(all_nthP [::]): hz => /(_ (loc hs i).1); rewrite E e1 => /(_ l1)/(all_nthP nm0)/(_ (loc ws j).1).
by rewrite e2 // => /(_ l3); rewrite -/(blk _ _ _); case: (blk _ _ _).
Qed.

(** ** The shortcut for diagonal grids *)
Lemma diagonal_ok : answers (fun o => attempt_diagonal o rows) (fun z => if z is Some c then
  is_res c (sumn hs) (sumn ws) b (grid_ent rows hs ws) /\ tag c = 3%N else ~ diagonal_grid rows hs ws).
Proof.
have [rows' e ag] := align_rows; apply: (ans_eq e); case: (ag) => e1 e2 e3; have [g' hb'] := aligned_is ag.
have tg p q : (p < size hs)%N -> (q < size ws)%N -> isdiag (blk rows' p q) = isdiag (blk rows p q) /\ iszero (blk rows' p q) = iszero (blk rows p q).
  by move=> hp hq; have [_] := e3 p q hp hq; case: (blk rows' p q); case: (blk rows p q).
case Esq: (all _ rows'); last first.
  apply: ans_ret => -[eq _]; move/negP: Esq; apply; apply/(all_nthP [::]) => p; rewrite e1 => hp; by rewrite e2 // eq.
move/(all_nthP [::]): Esq => sq.
have sz : size ws = size hs by case: nz => h1 _; rewrite -(e2 0%N h1) -e1; apply/eqP/sq; rewrite e1.
have wf' p q : (p < size hs)%N -> (q < size ws)%N -> wf (blk rows' p q) by move=> hp hq; case: (e3 p q hp hq) => -[].
have Ec : check_rows 0 rows' = ret (crows 0 rows') by apply: check_rowsE => p; rewrite e1 => hp k; rewrite e2 // => hk; exact: wf'.
apply: (ans_eq Ec).
case k: (crows _ _); last first.
  apply: ans_ret => -[eq hd]; move/negP: k; apply; apply: crows_of => p q; rewrite add0n e1 => hp; rewrite e2 // => hq.
  have [i1 i2] := tg p q hp hq; rewrite i1 i2; case: (e3 p q hp hq) => -[_ [-> ->] _ _] _.
  have := hd p q hp hq; case: (eqVneq p q) => [<-|_] //; by case/andP=> -> /eqP->.
have C p q : (p < size hs)%N -> (q < size ws)%N -> if p == q then (isdiag (blk rows' p q) || iszero (blk rows' p q)) && (nth 0%N hs p == nth 0%N ws q)
  else iszero (blk rows' p q).
  move=> hp hq; have := crowsP (p := p) (q := q) k; rewrite add0n e1 e2 // => /(_ hp hq).
  by case: (e3 p q hp hq) => -[_ [-> ->] _ _] _.
have hw : hs = ws.
  by apply: (@eq_from_nth _ 0%N) => // p hp; have := C p p hp; rewrite sz eqxx => /(_ hp)/andP[_ /eqP].
have [E pb] : shape_batch_broadcast (flatten rows') = ret b /\ posn b.
  by apply: sbb_ok hb'; [exact: grid_sz g'|exact: grid_wf g'].
apply: (ans_eq E).
have D p : (p < size hs)%N -> is_res (blk rows' p p) (nth 0%N ws p) (nth 0%N ws p) b (ent (blk rows p p)) by
  move=> hp; have hp' : (p < size ws)%N by [rewrite sz]; case: (e3 p p hp hp'); rewrite hw.
have G p : (p < size hs)%N -> dgok (blk rows' p p).
  by move=> hp; have := C p p hp; rewrite sz eqxx => /(_ hp)/andP[]; case: (blk _ _ _).
have [x|p|ds Ed [sd hd]] := @mapM_calm_hoare _ _ nm0 nm0 (fun x => broadcast_batch_to x b)
   (fun p x => is_res x (nth 0%N ws p) (nth 0%N ws p) b (ent (blk rows p p)) /\ dgok x) (diag_blocks 0 rows').
- exact: cm_bb.
- rewrite size_diag_blocks e1 => hp; rewrite nth_diag_blocks ?e1 // add0n; have [w [m1 m2] mb me] := D p hp.
  apply: hoare_conseq (hoare_and (broadcast_batch_dgok w pb _) (broadcast_batch_ok w pb _)) _; rewrite ?mb ?bto_refl // => x' [dx [hx _ _]].
  by rewrite m1 m2 in hx; split; [exact: res_ext hx me|rewrite dx; exact: G].
apply: (ans_eq Ed); rewrite size_diag_blocks e1 in sd hd.
apply: ans_bind (@ans_mapM _ _ _ _ nm0 t0 (fun o => o_diag o) (fun p t => tvec t (nth 0%N ws p) b (fun be i => ent (blk rows p p) be i i)) ds _) _.
  by rewrite sd => p hp; have [h1 h2] := hd p hp; apply: ans_conseq (ans_diag_res perm h1 h2) _ => t; rewrite minnn.
move=> ts [st ht]; rewrite sd -sz in st ht.
have [z Ez hz] := tvec_concat (proj2 nz) st ht.
apply: (ans_eq Ez); apply: (ans_eq (mk_diag_tvec hz)); apply: ans_ret; split=> //; rewrite hw; apply: res_ext (res_diag hz) _ => be i j hbe hi hj; rewrite /grid_ent -hw; rewrite -hw in hi hj.
have [l1 l2] := loc_lt hi; have [l3 l4] := loc_lt hj.
have [hij|hij] := eqVneq i j; first by rewrite hij.
case: (eqVneq (loc hs i).1 (loc hs j).1) => hl.
  have hp : ((loc hs i).2 != (loc hs j).2).
    by apply: contraNneq hij => h2; apply/eqP/(@loc_inj hs); case: (loc hs i) (loc hs j) hl h2 => ? ? [? ?] /= -> ->.
  rewrite -hl; have [_ _ _ <-] := D _ l1; rewrite -?hw //; last by rewrite hl.
  have := C _ _ l1; rewrite sz => /(_ _ l1); rewrite eqxx => /andP[+ _].
  by case: (blk _ _ _) => //= t _; rewrite (negbTE hp).
have l3' : ((loc hs j).1 < size ws)%N by rewrite sz.
have [[_ _ _ me] _] := e3 _ _ l1 l3'; rewrite -me -?hw //.
by have := C _ _ l1 l3'; rewrite (negbTE hl); case: (blk _ _ _).
Qed.

(** ** Concatenation of the dense blocks *)
Lemma concat2d_ok : answers (fun o => do rows' <- align_batch_rows rows; do ts <- mapM (mapM (o_dense o)) rows';
    do t <- t_concat2d ts; ret (mk_dense t)) (fun c => is_res c (sumn hs) (sumn ws) b (grid_ent rows hs ws) /\ tag c = 2%N).
Proof.
have [rows' e ag] := align_rows; apply: (ans_eq e); case: (ag) => e1 e2 e3; case: (g) => -[n1 n2] _ _ _.
apply: ans_bind (@ans_mapM _ _ _ _ [::] [::] (fun o => mapM (o_dense o)) (fun p ts => size ts = size ws /\ forall q, (q < size ws)%N ->
     tmat (nth t0 ts q) (nth 0%N hs p) (nth 0%N ws q) b (ent (blk rows p q))) rows' _) _.
  rewrite e1 => p hp; apply: ans_conseq (@ans_mapM _ _ _ _ nm0 t0 (fun o => o_dense o) (fun q t => tmat t (nth 0%N hs p) (nth 0%N ws q) b (ent (blk rows p q))) _ _) _.
    by rewrite e2 // => q hq; have [h1 _] := e3 p q hp hq; exact: ans_dense_res.
  by move=> ts; rewrite e2.
move=> tss; rewrite e1 => -[s1 s2].
have [row|p|zs Ez [sz hz]] := @mapM_calm_hoare _ _ [::] t0 (fun row : seq tensor => t_concat row ax1)
   (fun p z => tm0 z (nth 0%N hs p) (sumn ws) b (fun be i j => ent (blk rows p (loc ws j).1) be i (loc ws j).2)) tss.
- by apply: calm_bind => [|?]; [exact: cm_axis|exact: cm_concat].
- rewrite s1 => hp; have [s3 s4] := s2 p hp.
  have [z -> hz] := tm0_concat1 n2 s3 (fun q hq => tmat_tm0 (s4 q hq)).
  by apply: hoare_ret.
rewrite s1 in sz hz; have [z E hzz] := tm0_concat2 n1 sz hz.
have T : tmat z (sumn hs) (sumn ws) b (grid_ent rows hs ws) by apply: tm0_tmat hzz grid_pos.
apply: (ans_eq (a := z)); first by rewrite /t_concat2d Ez bind_ret.
by apply: ans_ret; split; [exact: res_mk_dense|rewrite (mk_dense_tmat T)].
Qed.
End Grid.

(** ** C24: block *)
Definition single rows : bool := if rows is [:: [:: _]] then true else false.
Definition block_rest (o : ops F) rows : outcome mat :=
  do z <- attempt_zero rows;
  if z is Some c then ret c
  else do d <- attempt_diagonal o rows;
    if d is Some c then ret c
    else do _ <- warn_if true; do rows' <- align_batch_rows rows; do ts <- mapM (mapM (o_dense o)) rows';
         do t <- t_concat2d ts; ret (mk_dense t).
Lemma blockE o rows : ~~ single rows -> block o rows = block_rest o rows.
Proof. by case: rows => [|[|x [|y row]] [|r rs]]. Qed.
Lemma block_ok rows hs ws b : grid rows hs ws -> bcall b (map (@mbatch F) (flatten rows)) ->
  answers (fun o => block o rows) (fun c => is_res c (sumn hs) (sumn ws) b (grid_ent rows hs ws) /\
    (~~ single rows -> if all (all (@iszero F)) rows then tag c = 1%N else
       tag c = 3%N \/ tag c = 2%N /\ ~ diagonal_grid rows hs ws)).
Proof.
move=> g hb; case sg: (single rows).
  case: rows sg g hb => [|[|x [|y row]] [|r rs]] //= _ [[n1 n2] e1 e2 e3] hb.
  apply: ans_ret; split=> //; have := e2 0%N n1; case: hs e1 n1 e2 e3 => [|h [|? ?]] //= _ _ e2 e3.
  case: ws n2 e2 e3 => [|w [|? ?]] // _ e2 e3 _; have [wx /= eh ew] := e3 0%N 0%N isT isT; subst h w.
  have -> : b = mbatch x by apply: bto_ext => v; rewrite hb /= andbT.
  rewrite /= !addn0 /blk /=; apply: res_ext (res_wf wx) _ => be i j _ hi hj.
  by rewrite /grid_ent /= hi hj.
have [z Ez hz] := zero_ok g hb.
apply: (ans_ext (f := fun o => block_rest o rows)) => [o|]; first by rewrite blockE ?sg.
apply: (ans_eq Ez); case: z Ez hz => [c|] Ez; first by case=> h1 h2 h3; apply: ans_ret; rewrite h3.
move=> /negbTE->; apply: ans_bind (diagonal_ok g hb) _ => -[c|]; first by case=> h1 h2; apply: ans_ret; split=> // _; left.
move=> nd; apply: ans_warn; apply: ans_conseq (concat2d_ok g hb) _ => c [h1 h2]; split=> // _; by right.
Qed.
Lemma tag_diag (c : mat) : tag c = 3%N -> ty_of c = Some TDiag. Proof. by case: c. Qed.
Lemma tag_dense (c : mat) : tag c = 2%N -> ty_of c = Some TDense. Proof. by case: c. Qed.
(** [block] returns the matrix of the grid, whatever the types of the blocks. *)
Theorem C24_block rows hs ws b : grid rows hs ws -> bcall b (map (@mbatch F) (flatten rows)) ->
  answers (fun o => block o rows) (fun c => is_res c (sumn hs) (sumn ws) b (grid_ent rows hs ws)).
Proof. by move=> g hb; apply: ans_conseq (block_ok g hb) _ => c []. Qed.
(** The structure is preserved: all zeros give a [Zero], a diagonal grid a [Diagonal], everything else a [Dense]. *)
Theorem C24_block_class rows hs ws b : grid rows hs ws -> bcall b (map (@mbatch F) (flatten rows)) -> ~~ single rows ->
  answers (fun o => block o rows) (fun c =>
    if all (all (@iszero F)) rows then ty_of c = Some TZero
    else ty_of c = Some TDiag \/ ty_of c = Some TDense /\ ~ diagonal_grid rows hs ws).
Proof.
move=> g hb sg; apply: ans_conseq (block_ok g hb) _ => c [_ /(_ sg)]; case: ifP => _; first by case: c.
by case=> [|[h1 h2]]; [left|right; split=> //]; [apply: tag_diag|apply: tag_dense].
Qed.

(** ** C24: block_diag *)
Lemma bd_rows_ok d b tc built (es : seq tensor) (hs ws : seq nat) (gs : nat -> seq nat -> nat -> nat -> F) :
  size es = size hs -> size ws = size hs -> (built + sumn ws)%N = tc ->
  (forall k, (k < size hs)%N -> tm0 (nth t0 es k) (nth 0%N hs k) (nth 0%N ws k) b (gs k)) ->
  exists2 zs, bd_rows d b tc built (zip es (zip hs ws)) = ret zs & size zs = size hs /\ forall k, (k < size hs)%N ->
    tm0 (nth t0 zs k) (nth 0%N hs k) tc b (fun be i j =>
      if (built + sumn (take k ws) <= j < built + sumn (take k.+1 ws))%N then gs k be i (j - (built + sumn (take k ws)))%N else 0).
Proof.
elim: es hs ws built gs => [|e es IH] [|h hs] [|w ws] built gs //=; first by exists [::].
move=> [s1] [s2] tcE H.
have [|z Ez hz] := @tm0_concat1 _ [:: t_zeros d [:: built, h & b]; e; t_zeros d [:: tc - built - w, h & b]%N]
  [:: built; w; tc - built - w]%N h b (fun k => nth (fun _ _ _ => 0) [:: (fun _ _ _ => 0); gs 0%N] k) isT erefl.
  by move=> [|[|[|k]]] //= _; exact: (H 0%N isT).
have tcE' : (built + w + sumn ws)%N = tc by rewrite -addnA.
have [zs Es [ss hs']] := IH hs ws (built + w)%N (fun k => gs k.+1) s1 s2 tcE' (fun k hk => H k.+1 hk).
exists (z :: zs); first by rewrite Ez bind_ret Es bind_ret.
split=> [|[|k] hk]; rewrite /= ?ss //.
  have -> : tc = (built + (w + (tc - built - w + 0)))%N by lia.
  apply: tm0_ext hz _ => be i j _ _ hj /=; rewrite take0 addn0 addn0.
  case: (ltnP j built) => h1 /=; first by [].
  have -> : (j - built < w)%N = (j < built + w)%N by lia.
  case: (ltnP j (built + w)) => h2 //=.
  by case: (ltnP (j - built - w) (tc - built - w)).
by apply: tm0_ext (hs' k hk) _ => be i j _ _ _; rewrite !addnA.
Qed.
Lemma t_bd_ok (ts : seq tensor) (hs ws : seq nat) (bs : seq shape) b (gs : nat -> seq nat -> nat -> nat -> F) :
  (1 < size hs)%N -> size ts = size hs -> size ws = size hs -> size bs = size hs -> bcall b bs ->
  (forall k, (k < size hs)%N -> tmat (nth t0 ts k) (nth 0%N hs k) (nth 0%N ws k) (nth [::] bs k) (gs k)) ->
  exists2 z, t_block_diag ts = ret z & tmat z (sumn hs) (sumn ws) b (fun be i j =>
    if (loc hs i).1 == (loc ws j).1 then gs (loc hs i).1 be (loc hs i).2 (loc ws j).2 else 0).
Proof.
move=> n1 s1 s2 s3 hb H; have n0 : (0 < size hs)%N by lia.
have R k : (k < size hs)%N -> is_res (Nm (nth t0 ts k)) (nth 0%N hs k) (nth 0%N ws k) (nth [::] bs k) (gs k).
  by move=> hk; exact: res_num (H k hk).
have N k : (k < size hs)%N -> nth nm0 (map (@Nm F) ts) k = Nm (nth t0 ts k) by move=> hk; rewrite (nth_map t0) // s1.
have hb' : bcall b (map (@mbatch F) (map (@Nm F) ts)).
  have -> : map (@mbatch F) (map (@Nm F) ts) = bs; last by [].
  apply: (@eq_from_nth _ [::]); rewrite !size_map ?s1 // => k hk; rewrite (nth_map nm0) ?size_map ?s1 // N //.
  by case: (R k hk).
have [Eb pb] : shape_batch_broadcast (map (@Nm F) ts) = ret b /\ posn b.
  apply: sbb_ok => //; rewrite size_map s1 // => k hk; rewrite N //; by case: (R k hk).
have [x|k|xs Ex [sx hx]] := @mapM_calm_hoare _ _ nm0 nm0 (fun x => broadcast_batch_to x b)
   (fun k x => is_res x (nth 0%N hs k) (nth 0%N ws k) b (gs k) /\ tag x = 0%N) (map (@Nm F) ts).
- exact: cm_bb.
- rewrite size_map s1 => hk; rewrite N //; have [w [m1 m2] mb me] := R k hk.
  have hle : bto (mbatch (Nm (nth t0 ts k))) b by rewrite -N //; apply: le_b hb' _; rewrite size_map s1.
  apply: hoare_conseq (broadcast_batch_ok w pb hle) _ => x [h1 _ h2]; split=> //.
  move: h1; rewrite m1 m2 => h1; apply: res_ext h1 _ => be i j hbe; apply: me.
  by rewrite -mb; exact: okb_mono hle hbe.
rewrite size_map s1 in sx hx.
pose es := pmap (fun x : mat => if x is Nm u then Some u else None) xs.
have [se he] : size es = size hs /\ forall k, (k < size hs)%N -> nth nm0 xs k = Nm (nth t0 es k).
  rewrite /es; elim: (xs) (hs) sx (fun k hk => proj2 (hx k hk)) => [|x xs' IH] [|h hs'] //= [e] hh.
  have := hh 0%N isT; case: x {hh} (fun k hk => hh k.+1 hk) => //= u hh _.
  by have [<- h2] := IH hs' e hh; split=> // -[|k] //= hk; exact: h2.
have A : aligned ts = ret es.
  rewrite /aligned /align_batch Eb bind_ret Ex bind_ret -/es; case: (es) se => [|u [|v us]] // e.
  by rewrite -e in n1.
have he' k : (k < size hs)%N -> is_res (Nm (nth t0 es k)) (nth 0%N hs k) (nth 0%N ws k) b (gs k).
  by move=> hk; rewrite -he //; case: (hx k hk).
rewrite /t_block_diag A bind_ret (@mapM_eq _ _ t0 (0,0)%N _ _ (zip hs ws)); last 2 first.
- by rewrite size_zip s2 minnn.
- move=> k; rewrite se => hk; have [w [m1 m2] _ _] := he' k hk; rewrite shape_matrixE // m1 m2.
  by rewrite nth_zip.
rewrite bind_ret; case Ees: es => [|e0 es']; first by rewrite Ees /= in se; rewrite -se in n0.
rewrite -Ees shape_batchE; last by have := he' 0%N n0; rewrite Ees => -[].
have -> : mbatch (Nm e0) = b by have := he' 0%N n0; rewrite Ees => -[].
have -> : sumn (map snd (zip hs ws)) = sumn ws by rewrite -/(unzip2 _) unzip2_zip // s2.
rewrite bind_ret; have [|zs -> [sz hz]] := @bd_rows_ok (dt e0) b (sumn ws) 0 es hs ws gs se s2 erefl.
  move=> k hk; have h := he' k hk; have hw : wf (Nm (nth t0 es k)) by case: h.
  have ht := tmat_num hw (or_introl erefl); case: h => _ [m1 m2] mb me; rewrite m1 m2 mb in ht.
  by apply: tmat_tm0; exact: tmat_ext ht me.
rewrite bind_ret; have [z -> hzz] := tm0_concat2 n0 sz hz; exists z => //.
apply: tm0_tmat; last first.
  rewrite !posn_cons pb andbT; apply/andP; split; apply: sumn_pos; rewrite ?s2 // => k hk.
    by case: (H k hk) => _; rewrite !posn_cons => /and3P[].
  by case: (H k hk) => _; rewrite !posn_cons => /and3P[].
apply: tm0_ext hzz _ => be i j _ hi hj; rewrite !add0n; set p := (loc hs i).1.
have [l1 l2] := loc_lt hi; have [l3 l4] := loc_lt hj.
have -> : (sumn (take p ws) <= j < sumn (take p.+1 ws))%N = (p == (loc ws j).1).
  rewrite leqNgt -!loc_pre ?s2 //; last exact: ltnW.
  by rewrite -leqNgt ltnS eqn_leq andbC.
case: eqP => // e; rewrite e; congr (gs _ _ _ _); rewrite {1}(loc_eq ws j); lia.
Qed.

Lemma bd_attempt_zeroE blocks : (0 < size blocks)%N -> all (@iszero F) blocks -> bd_attempt_zero blocks =
  do b <- shape_batch_broadcast blocks; do hs <- mapM (@rows_of F) blocks; do ws <- mapM (@cols_of F) blocks;
  ret (Some (Zero (mdtype (nth nm0 blocks 0)) b (sumn hs) (sumn ws))).
Proof. by rewrite /bd_attempt_zero; case: blocks => [|x bs] // _ ->. Qed.
Definition bd_rest (o : ops F) blocks : outcome mat :=
  do z <- bd_attempt_zero blocks;
  if z is Some c then ret c
  else do d <- bd_attempt_diagonal o blocks;
    if d is Some c then ret c
    else do _ <- warn_if true; do ts <- mapM (o_dense o) blocks; do t <- t_block_diag ts; ret (mk_dense t).
Lemma block_diagE o blocks : (1 < size blocks)%N -> all (@isnum F) blocks = false -> block_diag o blocks = bd_rest o blocks.
Proof. by rewrite /block_diag => + ->; case: blocks => [|x [|y bs]]. Qed.
Section BlockDiag.
Variables (blocks : seq mat) (b : shape).
Hypothesis n1 : (1 < size blocks)%N.
Hypothesis ws : forall k, (k < size blocks)%N -> wf (nth nm0 blocks k).
Hypothesis hb : bcall b (map (@mbatch F) blocks).
Let hs := map (@mrows F) blocks.
Let cs := map (@mcols F) blocks.
Let n0 : (0 < size blocks)%N. Proof. exact: ltnW. Qed.
Lemma bd_posn : posn [:: sumn cs, sumn hs & b].
Proof.
have [_ pb] := sbb_ok n0 ws hb; rewrite !posn_cons pb andbT; apply/andP; split; apply: sumn_pos; rewrite size_map // => k hk;
  rewrite (nth_map nm0) //; [exact: mcols_gt0 (ws hk)|exact: mrows_gt0 (ws hk)].
Qed.
Lemma bd_dense ts : size ts = size blocks ->
  (forall k, (k < size blocks)%N -> tmat (nth t0 ts k) (mrows (nth nm0 blocks k)) (mcols (nth nm0 blocks k)) (mbatch (nth nm0 blocks k)) (ent (nth nm0 blocks k))) ->
  exists2 z, t_block_diag ts = ret z & tmat z (sumn hs) (sumn cs) b (bd_ent blocks).
Proof.
move=> st ht; apply: (@t_bd_ok ts hs cs (map (@mbatch F) blocks) b (fun k => ent (nth nm0 blocks k))); rewrite ?size_map //.
by move=> k hk; rewrite !(nth_map nm0) //; exact: ht.
Qed.
Lemma bd_nums : all (@isnum F) blocks -> let us := pmap (fun x : mat => if x is Nm u then Some u else None) blocks in
  size us = size blocks /\ forall k, (k < size blocks)%N -> nth nm0 blocks k = Nm (nth t0 us k).
Proof.
rewrite /=; elim: (blocks) => //= x bs IH /andP[]; case: x => //= u _ /IH[-> h]; split=> // -[|k] //= hk; exact: h.
Qed.
Lemma bd_zero_ok : all (@iszero F) blocks -> exists2 c, bd_attempt_zero blocks = ret (Some c) &
  is_res c (sumn hs) (sumn cs) b (bd_ent blocks) /\ tag c = 1%N.
Proof.
move=> hz; rewrite bd_attempt_zeroE //; have [e pb] := sbb_ok n0 ws hb; rewrite e bind_ret.
rewrite (mapM_ret_nth (g := @mrows F) (x0 := nm0)) => [|k hk]; last by rewrite /rows_of shape_matrixE ?bind_ret //; exact: ws.
rewrite bind_ret (mapM_ret_nth (g := @mcols F) (x0 := nm0)) => [|k hk]; last by rewrite /cols_of shape_matrixE ?bind_ret //; exact: ws.
rewrite bind_ret; eexists; first by []; split=> //; split=> //=; first exact: bd_posn.
move=> be i j hbe hi hj; rewrite /bd_ent; case: ifP => // _.
have [+ _] := loc_lt hi; rewrite size_map => l1.
by move/(all_nthP nm0): hz => /(_ _ l1); case: (nth _ _ _).
Qed.
Lemma bd_diag_ok : all (@isdiag F) blocks -> answers (fun o => bd_attempt_diagonal o blocks) (fun z => exists2 c, z = Some c &
  is_res c (sumn hs) (sumn cs) b (bd_ent blocks) /\ tag c = 3%N).
Proof.
move=> hd; rewrite /bd_attempt_diagonal hd; have [e pb] := sbb_ok n0 ws hb.
have D k : (k < size blocks)%N -> isdiag (nth nm0 blocks k) by move/(all_nthP nm0): hd => /(_ k).
have [x|k hk|xs Ex [sx hx]] := @mapM_calm_hoare _ _ nm0 nm0 (fun x => broadcast_batch_to x b)
   (fun k x => is_res x (mrows (nth nm0 blocks k)) (mcols (nth nm0 blocks k)) b (ent (nth nm0 blocks k)) /\ dgok x) blocks.
- exact: cm_bb.
- have hle := le_b hb hk; apply: hoare_conseq (hoare_and (broadcast_batch_dgok (ws hk) pb hle) (broadcast_batch_ok (ws hk) pb hle)) _.
  by move=> x [dx [h1 _ _]]; split=> //; rewrite dx; have := D k hk; case: (nth _ _ _).
have sq k : (k < size blocks)%N -> mrows (nth nm0 blocks k) = mcols (nth nm0 blocks k).
  by move=> hk; have := D k hk; case: (nth _ _ _).
have hcs : hs = cs.
  apply: (@eq_from_nth _ 0%N); rewrite ?size_map // => k hk; rewrite !(nth_map nm0) //; exact: sq.
have Ea : align_batch blocks = ret xs by rewrite /align_batch e bind_ret.
apply: (ans_eq Ea).
apply: ans_bind (@ans_mapM _ _ _ _ nm0 t0 (fun o => o_diag o) (fun k t => tvec t (nth 0%N hs k) b (fun be i => ent (nth nm0 blocks k) be i i)) xs _) _.
  rewrite sx => k hk; have [h1 h2] := hx k hk; rewrite -(sq k hk) in h1; apply: ans_conseq (ans_diag_res perm h1 h2) _ => t.
  by rewrite minnn (nth_map nm0).
move=> ts [st ht]; rewrite sx in st ht; have sh' : size hs = size blocks by rewrite size_map.
rewrite -sh' in st ht; have n0' : (0 < size hs)%N by rewrite sh'.
have [z Ez hz] := tvec_concat n0' st ht.
apply: (ans_eq Ez); apply: (ans_eq (mk_diag_tvec hz)); apply: ans_ret; eexists; first by []; split=> //; rewrite -hcs.
apply: res_ext (res_diag hz) _ => be i j hbe hi hj; rewrite /bd_ent -/hs -/cs -hcs.
have [l1 l2] := loc_lt hi; have [l3 l4] := loc_lt hj; rewrite sh' in l1 l3.
have [->|hij] := eqVneq i j; first by rewrite eqxx.
case: eqP => // hl; have hp : ((loc hs i).2 != (loc hs j).2).
  by apply: contraNneq hij => h2; apply/eqP/(@loc_inj hs); case: (loc hs i) (loc hs j) hl h2 => ? ? [? ?] /= -> ->.
by have := D _ l1; case: (nth _ _ _) => //= t _; rewrite (negbTE hp).
Qed.
Lemma block_diag_ok : answers (fun o => block_diag o blocks) (fun c => is_res c (sumn hs) (sumn cs) b (bd_ent blocks) /\ tag c = if all (@isnum F) blocks then 0%N else if all (@iszero F) blocks then 1%N else if all (@isdiag F) blocks then 3%N else 2%N).
Proof.
rewrite /block_diag; case En: (all _ blocks).
  have [su hu] := bd_nums En; move: su hu; set us := pmap _ _ => su hu.
  have [|z Ez hz] := bd_dense su.
    by move=> k hk; have w := ws hk; rewrite hu // in w *; exact: tmat_num w (or_introl erefl).
  apply: (ans_eq Ez); apply: ans_ret; split=> //; exact: res_num.
apply: (ans_ext (f := fun o => bd_rest o blocks)) => [o|]; first by rewrite -block_diagE // /block_diag En.
case Ez: (all (@iszero F) blocks).
  by have [c E hc] := bd_zero_ok Ez; apply: (ans_eq E); apply: ans_ret.
have E : bd_attempt_zero blocks = ret None by rewrite /bd_attempt_zero Ez.
apply: (ans_eq E); case Ed: (all (@isdiag F) blocks).
  by apply: ans_bind (bd_diag_ok Ed) _ => _ [c -> hc]; apply: ans_ret.
have E2 : answers (fun o => bd_attempt_diagonal o blocks) (fun z => z = None) by rewrite /bd_attempt_diagonal Ed; apply: ans_ret.
apply: (ans_bind E2).
move=> _ ->; apply: ans_warn.
apply: ans_bind (@ans_mapM _ _ _ _ nm0 t0 (fun o => o_dense o) (fun k t => tmat t (mrows (nth nm0 blocks k)) (mcols (nth nm0 blocks k)) (mbatch (nth nm0 blocks k)) (ent (nth nm0 blocks k))) blocks _) _.
  by move=> k hk; exact: ans_dense_res (res_wf (ws hk)).
move=> ts [st ht]; have [z E' hz] := bd_dense st ht; apply: (ans_eq E'); apply: ans_ret.
by split; [exact: res_mk_dense|rewrite (mk_dense_tmat hz)].
Qed.
(** [block_diag] of at least two blocks is the block-diagonal matrix. *)
Theorem C24_block_diag : answers (fun o => block_diag o blocks) (fun c => is_res c (sumn hs) (sumn cs) b (bd_ent blocks)).
Proof. by apply: ans_conseq block_diag_ok _ => c []. Qed.
(** Numeric arrays stay numeric, zeros give a [Zero], diagonals a [Diagonal], everything else a [Dense]. *)
Theorem C24_block_diag_class : answers (fun o => block_diag o blocks) (fun c =>
  ty_of c = if all (@isnum F) blocks then None else Some (if all (@iszero F) blocks then TZero
                  else if all (@isdiag F) blocks then TDiag else TDense)).
Proof.
apply: ans_conseq block_diag_ok _ => c [_].
by case: (all _ _); [|case: (all _ _); [|case: (all _ _)]]; case: c.
Qed.
End BlockDiag.
(** A single block which is not numeric is returned unchanged. *)
Theorem C24_block_diag_single (a : mat) o : ty_of a <> None -> block_diag o [:: a] = ret a.
Proof. by case: a. Qed.
(** A single numeric array is NOT returned: [block_diag] of a rank-2 array raises, and a batch of matrices (here
    three of size two) is silently turned into one big block-diagonal matrix. *)
Theorem C24_block_diag_numeric_refuted o :
  (forall d r c f, (0 < r)%N -> (0 < c)%N -> exists l e, block_diag o [:: Nm (Tensor d [:: c; r] f)] = RaiseL l e) /\
  (exists l (z : tensor), block_diag o [:: Nm (s_lt_t F)] = Ret l (Nm z) /\ sh z = [:: 6; 6]%N).
Proof.
split=> [d r c f hr hc|]; last by eexists; eexists; split; first reflexivity.
set t := Tensor _ _ _; have w : wf (Nm t) by rewrite /= /wft -[sh _]/([:: c; r]) !posn_cons hr hc.
have [||Eb pb] := @sbb_ok [:: Nm t] [::] isT; first by case.
  by move=> v; case: v.
have [x Ex [[wx [r1 r2] r3 _] _ tx]] := calm_hoare (cm_bb (Nm t) [::]) (broadcast_batch_ok w pb (bto_refl _)).
case: x Ex wx r1 r2 r3 tx => // u Ex wu r1 r2 r3 _.
have A : aligned [:: t] = t_iter u by rewrite /aligned /align_batch Eb bind_ret -[mapM _ _]/(do y <- broadcast_batch_to (Nm t) [::]; do ys <- ret [::]; ret (y :: ys)) Ex !bind_ret.
rewrite /block_diag /= /t_block_diag A /t_iter.
have -> : sh u = [:: c; r].
  by move: wu r1 r2 r3; rewrite /= /wft /trank; case: u {Ex A} => ud us uf; rewrite -[sh _]/us; case: us => [|? [|? us]] //= _; rewrite /trows /tcols /= => -> ->; rewrite /tbatch /= drop0 => ->.
have H (x y v : tensor) : size (sh x) = 2%N -> size (sh y) = 1%N -> t_concat [:: x; y; v] ax1 = Raise ValueError.
  rewrite /t_concat /trank => s1 s2; rewrite s1 bind_ret /t_concat_pos /= eqxx.
  have /negbTE-> : upd (sh y) 0%N 0%N != upd (sh x) 0%N 0%N.
    by apply/eqP => E; move: s1 s2 E; case: (sh x) => [|? [|? []]] // _; case: (sh y) => [|? []].
  by rewrite /= andbF.
case: (r) hr => [|r'] // _; eexists; eexists.
rewrite -[seq.rev _]/[:: r'.+1; c] bind_ret -[mapM _ _]/(do y <- ret _; do ys <- mapM _ _; ret (y :: ys)) bind_ret.
rewrite (mapM_ret_nth (g := fun e : tensor => (trows (t_uprank e), tcols (t_uprank e))) (x0 := t0)) // !bind_ret.
by rewrite /= bind_ret H; first reflexivity.
Qed.
End PropsBlock.
Print Assumptions C24_block. Print Assumptions C24_block_class. Print Assumptions C24_block_diag.
Print Assumptions C24_block_diag_class. Print Assumptions C24_block_diag_single. Print Assumptions C24_block_diag_numeric_refuted.
(** The hypotheses can be met: a grid of a batch of triangular matrices, a zero, a low-rank matrix and a diagonal. *)
Example C24_ex_block (F : rcfType) : let rows := [:: [:: s_lt F; s_dense23 F]; [:: s_lr F; Zero DFloat64 [:: 1%N] 2 3]] in
  grid rows [:: 2; 2]%N [:: 2; 3]%N /\ bcall [:: 3%N] (map (@mbatch F) (flatten rows)).
Proof.
split; last by move=> [|[|[|[|[|x]]]] [|y v]]; rewrite /= ?andbT.
split=> // [[|[|?]]|[|[|?]] [|[|?]]] //= _ _; split=> //; exact: s_lt_wf.
Qed.
Example C24_ex_block_diag (F : rcfType) : let blocks := [:: s_lt F; s_dense23 F; s_kron F] in
  (forall k, (k < size blocks)%N -> wf (nth (Nm (t_scalar DInt 0)) blocks k)) /\ bcall [:: 3%N] (map (@mbatch F) blocks).
Proof.
split; last by move=> [|[|[|[|[|x]]]] [|y v]]; rewrite /= ?andbT.
by move=> [|[|[|?]]] //= _; [exact: s_lt_wf|exact: s_kron_wf].
Qed.
