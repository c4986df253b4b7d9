(** * C34: tiled blocks *)
From mathcomp Require Import all_ssreflect all_algebra zify.
From Verif Require Import Outcome Monad Shape Tensor Mat Dispatch Ops Ops2 Block Tiled Spec ShapeThy TensorThy TensorThy2 MatThy OpsOk DenseOk AddOk OpsMain Term Calm Api Bridge Ans SumThy PropsSum PropsArith PropsStruct PropsLift PropsTake BlockThy PropsBlock.
From Verif Require Import Samples Types.
Set Implicit Arguments. Unset Strict Implicit. Unset Printing Implicit Defensive.
Import GRing.Theory Num.Theory.
Local Open Scope ring_scope.

(** ** Lists *)
Lemma bto_nthP s v : bto s v <-> (size s <= size v)%N /\ forall q, (q < size s)%N -> nth 1%N s q = 1%N \/ nth 1%N s q = nth 1%N v q.
Proof.
elim: s v => [|d s IH] [|d' v] //=; try by split=> // -[].
split.
  case/andP=> h1 /IH [h2 h3]; split=> // -[|q] /= hq; last exact: h3.
  by case/orP: h1 => /eqP; auto.
case=> h1 h2; apply/andP; split; first by case: (h2 0%N isT) => /= ->; rewrite eqxx ?orbT.
by apply/IH; split=> // q hq; exact: (h2 q.+1 hq).
Qed.
Lemma nth_pad k s q : nth 1%N (pad_shape k s) q = nth 1%N s q.
Proof. by rewrite /pad_shape nth_cat nth_nseq; case: ltnP => // h; rewrite [RHS]nth_default //; case: ifP. Qed.
Lemma size_pad k s : (size s <= k)%N -> size (pad_shape k s) = k.
Proof. by rewrite /pad_shape size_cat size_nseq; lia. Qed.
Lemma nth_del T (x0 : T) s p q : nth x0 (del s p) q = nth x0 s (if (q < p)%N then q else q.+1).
Proof. by elim: s p q => [|y s IH] [|p] [|q] //=; rewrite ?nth_nil ?IH ?ltnS //; case: ifP. Qed.
Lemma size_del T (s : seq T) p : (p < size s)%N -> size (del s p) = (size s).-1.
Proof. by elim: s p => [|y s IH] [|p] //= h; rewrite IH //; case: s h {IH}. Qed.
Lemma ins_del T (x0 : T) s p : (p < size s)%N -> ins (del s p) p (nth x0 s p) = s.
Proof. by elim: s p => [|y s IH] [|p] //= h; [case: s {IH h}|rewrite IH]. Qed.
Lemma nth_upd T (x0 : T) s p x q : (p < size s)%N -> nth x0 (upd s p x) q = if q == p then x else nth x0 s q.
Proof. by elim: s p q => [|y s IH] [|p] [|q] //= h; rewrite IH. Qed.
Lemma inb_nthP s idx : inb s idx <-> size idx = size s /\ forall q, (q < size s)%N -> (nth 0%N idx q < nth 1%N s q)%N.
Proof.
elim: s idx => [|d s IH] [|i idx] /=; try by split=> // -[].
split.
  by case/andP=> h1 /IH [e h2]; split; [rewrite e|case=> [|q] hq //; exact: h2].
case=> -[e] h; apply/andP; split; first exact: (h 0%N).
by apply/IH; split=> // q; exact: (h q.+1).
Qed.
Lemma fold_same ss s : all (fun u => size u == size s) ss -> fold_shapes broadcast2 s ss = fold_shapes expand_and_broadcast2 s ss.
Proof.
elim: ss s => [|u ss IH] s //= /andP[/eqP e h].
have E : expand_and_broadcast2 s u = broadcast2 s u by rewrite /expand_and_broadcast2 e ltnn.
rewrite E broadcast2E //; case hb: (bc s u) => [v|] //; rewrite !bind_ret; apply: IH.
suff -> : size v = size s by [].
elim: s u v e hb {h E} => [|d s IHs] [|d' u] v //=; first by move=> _ [<-].
by case=> e; case: (Shape.bcd d d') => //= k; case hb: (bc s u) => [w|] //= [<-] /=; rewrite (IHs _ _ e hb).
Qed.
Lemma del_nthP T (x0 : T) s1 s2 p : size s1 = size s2 -> (forall q, (q < size s1)%N -> q != p -> nth x0 s1 q = nth x0 s2 q) -> del s1 p = del s2 p.
Proof.
move=> e h; have [hp|hp] := ltnP p (size s1); last first.
  have D (s : seq T) : (size s <= p)%N -> del s p = s by elim: s p {s1 s2 e h hp} => [|y s IH] [|p] //= hp; rewrite IH.
  by rewrite !D -?e //; apply: (@eq_from_nth _ x0) => // q hq; apply: h => //; lia.
apply: (@eq_from_nth _ x0) => [|q]; first by rewrite !size_del -?e.
rewrite size_del // !nth_del => hq; apply: h; case: ifP; lia.
Qed.
(** Positions in a list of repeated blocks. *)
Lemma loc_cat ds ds' i : loc (ds ++ ds') i =
  if (i < sumn ds)%N then loc ds i else (size ds + (loc ds' (i - sumn ds)).1, (loc ds' (i - sumn ds)).2)%N.
Proof.
elim: ds i => [|d ds IH] i /=; first by rewrite subn0; case: (loc _ _).
case: (ltnP i d) => h; first by rewrite ifT //; lia.
rewrite IH; have -> : (i - d < sumn ds)%N = (i < d + sumn ds)%N by lia.
by case: ifP => h' //=; rewrite subnDA.
Qed.
Lemma loc_nseq r d i : (i < r * d)%N -> loc (nseq r d) i = (i %/ d, i %% d)%N.
Proof.
elim: r i => [|r IH] i //= h; case: (ltnP i d) => hd; first by rewrite divn_small // modn_small.
have d0 : (0 < d)%N by case: d {IH} h hd => //; rewrite muln0.
rewrite IH /=; last by move: h; rewrite mulSn; lia.
have e : i = (i - d + d)%N by lia.
by congr pair; rewrite [in RHS]e ?modnDr // divnDr ?dvdnn // divnn d0 addn1.
Qed.

Section PropsTiled.
Variable F : rcfType.
Notation tensor := (tensor F).
Notation mat := (mat F).
Notation tiled := (tiled F).
Variable argsort : seq F -> seq nat.
Hypothesis perm : argsort_ok argsort.
Notation answers := (answers argsort).
Implicit Types (its : seq (mat * nat)) (a : tiled) (x y c : mat) (T : shape).
Notation nm0 := (Nm (t_scalar DInt 0) : mat).
Notation t0 := (t_scalar DInt 0 : tensor).
Notation it0 := (nm0, 0%N).

(** ** Specification *)
(** The blocks of a tiling, every block as often as it is repeated. *)
Definition copies its : seq mat := flatten [seq nseq q.2 q.1 | q <- its].
(** Length of the axis at position [q] (from the last one) of a block; blocks are padded with axes of length one. *)
Definition dim x (q : nat) : nat := nth 1%N (mshape x) q.
(** The blocks can be put together along the axis at position [p], into an array of shape [T]: the length along [p] is
    the sum of the lengths of all copies; along the other axis of the matrices all lengths are equal; along the
    remaining (batch) axes the blocks broadcast to [T]. *)
Definition tiles its (p : nat) T : Prop :=
  [/\ forall k, (k < size its)%N -> wf (nth it0 its k).1 /\ (0 < (nth it0 its k).2)%N,
      (forall k, (k < size its)%N -> (size (mshape (nth it0 its k).1) <= size T)%N) /\
      (exists2 k, (k < size its)%N & size (mshape (nth it0 its k).1) = size T),
      (p < size T)%N, nth 0%N T p = sumn [seq dim x p | x <- copies its] &
      forall q, (q < size T)%N -> q != p ->
        (forall k, (k < size its)%N -> dim (nth it0 its k).1 q = nth 0%N T q \/ ((2 <= q)%N /\ dim (nth it0 its k).1 q = 1%N)) /\
        (exists2 k, (k < size its)%N & dim (nth it0 its k).1 q = nth 0%N T q)].
(** The entry at [idx] of the tiled array: entry of the copy which position [p] of [idx] falls into, at the offset
    in that copy (the other axes are broadcast). *)
Definition tl_ent its (p : nat) (idx : seq nat) : F :=
  let l := loc [seq dim x p | x <- copies its] (nth 0%N idx p) in
  bat (den (nth nm0 (copies its) l.1)) (upd idx p l.2).
Definition tl_den its (p : nat) T : tensor := Tensor DFloat64 T (tl_ent its p).

(** ** Shape *)
Lemma sum_copies its p : sumn [seq dim x p | x <- copies its] = sumn [seq (q.2 * dim q.1 p)%N | q <- its].
Proof.
elim: its => [|[x r] its IH] //=; rewrite /copies /= map_cat sumn_cat -/(copies its) IH.
by rewrite map_nseq sumn_nseq mulnC.
Qed.
Lemma shape_map its : (forall k, (k < size its)%N -> wf (nth it0 its k).1) ->
  mapM (fun q : mat * nat => shape_of q.1) its = ret [seq mshape q.1 | q <- its].
Proof. by move=> w; apply: (mapM_ret_nth (x0 := it0)) => k /w; exact: shape_ofE. Qed.
Lemma rank_max its (n : nat) : (forall k, (k < size its)%N -> (size (mshape (nth it0 its k).1) <= n)%N) ->
  (exists2 k, (k < size its)%N & size (mshape (nth it0 its k).1) = n) ->
  foldr maxn 0%N (map size [seq mshape q.1 | q <- its]) = n.
Proof.
elim: its => [|q its IH] h [k hk e] //=; apply/eqP; rewrite eqn_leq geq_max (h 0%N isT) /=.
apply/andP; split.
  have {IH e hk} : forall k, (k < size its)%N -> (size (mshape (nth it0 its k).1) <= n)%N by move=> j hj; exact: (h j.+1 hj).
  by elim: its {h} => [|q' its IH] //= h; rewrite geq_max (h 0%N isT) IH // => j hj; exact: (h j.+1 hj).
case: k hk e => [|k] /= hk <-; first exact: leq_maxl.
apply: leq_trans (leq_maxr _ _).
elim: its k hk {h IH} => [|q' its IH] [|k] //= hk; first exact: leq_maxl.
by apply: leq_trans (leq_maxr _ _); apply: IH.
Qed.
Lemma tl_shape_ok its axis p T : tiles its p T -> resolve_axis (size T) axis = ret p -> tl_shape (Tiled its axis) = ret T.
Proof.
case=> w [h1 h2] hp hs hq ha; rewrite /tl_shape shape_map; last by move=> k /w[].
rewrite bind_ret (rank_max h1 h2) -[tl_items _]/its -[tl_axis _]/axis ha bind_ret.
set ss := [seq pad_shape _ _ | _ <- _]; set ds := [seq del s p | s <- ss].
have sz : size ds = size its by rewrite /ds /ss !size_map.
have n0 : (0 < size ds)%N by case: h2 => k; rewrite sz; case: (size its).
have sd k : (k < size its)%N -> size (nth [::] ds k) = (size T).-1.
  move=> hk; rewrite /ds /ss -!map_comp (nth_map it0) //.
  by rewrite -[LHS]/(size (del (pad_shape (size T) (mshape (nth it0 its k).1)) p)) size_del size_pad ?h1.
have nd k q : (k < size its)%N -> nth 1%N (nth [::] ds k) q = dim (nth it0 its k).1 (if (q < p)%N then q else q.+1).
  by move=> hk; rewrite /ds /ss -!map_comp (nth_map it0) //; rewrite -[nth _ _ k]/(nth it0 its k) [X in nth 1%N X]/comp nth_del nth_pad.
have szT : size (del T p) = (size T).-1 by rewrite size_del.
have B : bcall (del T p) ds.
  move=> v; apply/idP/(all_nthP [::]).
    move=> hv k; rewrite sz => hk; apply/bto_nthP; move/bto_nthP: hv => -[e h]; split; first by rewrite sd // -szT.
    rewrite sd // => q hq'; rewrite nd //; have := h q; rewrite szT => /(_ hq'); rewrite nth_del.
    set q' := if (q < p)%N then q else q.+1.
    have [] := hq q'; [by rewrite /q'; case: ifP; lia|by rewrite /q'; case: ifP; lia|].
    move=> /(_ k hk) h3 _; have -> : nth 1%N T q' = nth 0%N T q' by apply: set_nth_default; rewrite /q'; case: ifP; lia.
    by case: h3 => [->|[_ ->]]; auto.
  move=> hall; apply/bto_nthP; split.
    by case: h2 => k hk _; have := hall k; rewrite sz => /(_ hk)/bto_nthP[]; rewrite sd // szT.
  rewrite szT => q hq'; rewrite nth_del; set q' := if (q < p)%N then q else q.+1.
  have [||_ [k hk e]] := hq q'; [by rewrite /q'; case: ifP; lia|by rewrite /q'; case: ifP; lia|].
  have -> : nth 1%N T q' = nth 0%N T q' by apply: set_nth_default; rewrite /q'; case: ifP; lia.
  have := hall k; rewrite sz => /(_ hk)/bto_nthP[_]; rewrite sd // => /(_ q hq'); by rewrite nd // -/q' e.
have -> : broadcast ds = ret (del T p).
  rewrite -(eab_all n0 B) /broadcast /expand_and_broadcast; case: ds sz n0 sd {nd B} => // s ds sz _ sd.
  apply: fold_same; apply/(all_nthP [::]) => k hk; have := sd k.+1; have := sd 0%N; rewrite -sz /= ltnS => -> // -> //.
rewrite bind_ret; congr ret; rewrite -[RHS](@ins_del _ 0%N T p) // hs sum_copies; congr (ins _ _ (sumn _)).
rewrite /ss; elim: its h1 {w h2 hs hq ss ds sz n0 sd nd szT B} => [|q its IH] h1 //=.
rewrite IH => [|k hk]; last exact: (h1 k.+1 hk).
congr cons; rewrite -[dim q.1 p](nth_pad (size T)); congr (_ * _)%N.
by apply: set_nth_default; rewrite size_pad // (h1 0%N isT).
Qed.

(** ** One block *)
Lemma tile_wf y reps z : wf y -> t_tile (den y) reps = ret z -> posn reps ->
  answers (fun o => tile_op o y reps) (fun u => wf u /\ teq (arr u) z).
Proof.
move=> w hz pr; have [hs pz] : size reps = (size (mbatch y)).+2 /\ posn (sh z).
  move: hz; rewrite /t_tile /=; case: eqP => // e [<-]; split=> //=.
  apply/(all_nthP 1%N) => k; rewrite size_map size_zip e minnn => hk; rewrite (nth_map (1,1)%N) ?size_zip ?e ?minnn //.
  rewrite nth_zip ?e //= muln_gt0; apply/andP; split; [exact: (all_nthP 1%N (wf_posn w))|].
  by apply: (all_nthP 1%N pr); rewrite e.
apply: ans_conseq (ans_and _ (C23_tile perm w hz)) _ => [|c [h1 h2]]; last by split; [exact: h1|].
have gen : answers (fun o => do _ <- warn_if (structured y); do t <- o_dense o y; do u <- t_tile t reps; ret (mk_dense u)) (@wf F).
  apply: ans_warn; apply: ans_bind (ans_dense perm w) _ => t ht.
  have [u hu [su _]] := teq_tile (tmat_teq ht (den_tmat w)) hz; apply: (ans_eq hu); apply: ans_ret.
  have r2 : (2 <= trank u)%N.
    by move: hz; rewrite /trank su /t_tile /=; case: eqP => // e [<-] /=; rewrite size_map size_zip e minnn.
  by rewrite /mk_dense uprank2 //= /wft r2 su.
case: y w hz hs gen => [t|d b r c|t|t|t r c|t|t|l r m|d l r m|l r] w hz hs gen; try exact: gen.
- have ht := tmat_teq (tmat_num w (or_introl erefl)) (den_tmat w).
  have [u hu [su _]] := teq_tile ht hz; apply: (ans_eq hu); apply: ans_ret => /=; rewrite /wft su pz andbT.
  by move: hz; rewrite /trank su /t_tile /=; case: eqP => // e [<-] /=; rewrite size_map size_zip e minnn.
- move: hz pz => {gen}; rewrite /t_tile [sh _]/= hs eqxx => -[<-].
  case: reps hs pr => [|k1 [|k2 reps]] //= [hs] pr; rewrite hs addn2 eqxx bind_ret => pz; apply: ans_ret.
  by move: pz => /=; rewrite drop0.
- move: hz pz => {gen}; rewrite /t_tile [sh _]/= hs eqxx => -[<-].
  case: reps hs pr => [|k1 [|k2 reps]] //= [hs] pr; rewrite /tile_op /rank_of shape_ofE // !bind_ret /= hs eqxx bind_ret.
  rewrite /t_tile drop0 hs eqxx !bind_ret => pz; exact: ans_ret.
Qed.
(** The shape of a repeated block and its entries. *)
Definition rep_den x (rep p : nat) T : tensor :=
  Tensor DFloat64 (upd T p (dim x p * rep)%N) (fun idx => bat (den x) (upd idx p (nth 0%N idx p %% dim x p)%N)).
Lemma size_mshape x : size (mshape x) = (size (mbatch x)).+2. Proof. by []. Qed.
Lemma dim_pos x q : wf x -> (0 < dim x q)%N.
Proof.
move=> /wf_posn h; rewrite /dim; case: (ltnP q (size (mshape x))) => hq; last by rewrite nth_default.
exact: (all_nthP 1%N h).
Qed.
Lemma tiles_size2 its p T : tiles its p T -> (2 <= size T)%N.
Proof. by case=> _ [_ [k _ <-]]; rewrite size_mshape. Qed.
Lemma tiles_pos its p T k : tiles its p T -> (0 < k)%N -> posn (upd T p k).
Proof.
case=> w _ hp _ hq k0; apply/(all_nthP 0%N) => q; rewrite size_upd => hq'; rewrite nth_upd //.
by case: eqP => // /eqP ne; have [_ [j hj <-]] := hq q hq' ne; apply: dim_pos; case: (w j hj).
Qed.
Lemma block_shape its p T k (x := (nth it0 its k).1) : tiles its p T -> (k < size its)%N ->
  [/\ (if (p < 2)%N then drop 2 T else upd (drop 2 T) (p - 2) (nth 0%N (pad_shape (size (drop 2 T)) (mbatch x)) (p - 2)))
      = drop 2 (upd T p (dim x p)),
      bto (mbatch x) (drop 2 (upd T p (dim x p))) &
      [:: mcols x, mrows x & drop 2 (upd T p (dim x p))] = upd T p (dim x p)].
Proof.
move=> ht hk; have s2 := tiles_size2 ht; case: ht => w [h1 h2] hp hs hq.
have hx : (size (mbatch x) <= size (drop 2 T))%N by have := h1 k hk; rewrite -/x size_mshape size_drop; lia.
have D q : dim x q.+2 = nth 1%N (mbatch x) q by [].
split.
- case: ltnP => hp2; first by case: T p hp hp2 {s2 h1 h2 hs hq hx} => [|c [|r b]] [|[|p]].
  have -> : nth 0%N (pad_shape (size (drop 2 T)) (mbatch x)) (p - 2) = dim x p.
    rewrite (set_nth_default 1%N) ?nth_pad ?size_pad //; last by rewrite size_drop; lia.
    by rewrite -D; congr dim; lia.
  by case: T p hp hp2 {s2 h1 h2 hs hq hx} => [|c [|r b]] [|[|p]] //= _ _; rewrite subn2 /= !drop0.
- apply/bto_nthP; split; first by rewrite size_drop size_upd -size_drop.
  move=> q hq'; rewrite nth_drop nth_upd // -D.
  case: eqP => [e|/eqP ne]; first by right; rewrite -e.
  have q2 : (2 + q < size T)%N by move: hx; rewrite size_drop; lia.
  have [/(_ k hk) [h|[_ h]] _] := hq (2 + q)%N q2 ne; [right|by left].
  by rewrite (set_nth_default 0%N).
- have C : dim x 0 = mcols x by []. have R : dim x 1 = mrows x by [].
  have M q : (q < 2)%N -> q != p -> dim x q = nth 0%N T q.
    move=> q2 ne; have qT : (q < size T)%N by lia.
    by have [/(_ k hk) [//|[h _]] _] := hq q qT ne; lia.
  rewrite -C -R; case: T p hp s2 M {h1 h2 hs hq hx C R} => [|c [|r b]] [|[|p]] //= _ _ M; rewrite drop0.
  + by rewrite (M 1%N).
  + by rewrite (M 0%N).
  + by rewrite (M 1%N) ?(M 0%N).
Qed.
Lemma tl_block_ok its p T k : tiles its p T -> (k < size its)%N ->
  answers (fun o => tl_block o p (drop 2 T) (nth it0 its k))
    (fun u => wf u /\ teq (arr u) (rep_den (nth it0 its k).1 (nth it0 its k).2 p T)).
Proof.
move=> ht hk; have s2 := tiles_size2 ht; have [e1 e2 e3] := block_shape ht hk.
have [wx rep0] : wf (nth it0 its k).1 /\ (0 < (nth it0 its k).2)%N by case: ht => w _ _ _ _; exact: w.
have hp : (p < size T)%N by case: ht.
move: e1 e2 e3 wx rep0; set x := (nth it0 its k).1; set rep := (nth it0 its k).2 => e1 e2 e3 wx rep0.
set d := dim x p in e1 e2 e3 *; have d0 : (0 < d)%N by exact: dim_pos.
have pT : posn (drop 2 (upd T p d)).
  by have h := tiles_pos ht d0; rewrite -e3 in h; case: (posn3 h).
rewrite /tl_block -/x -/rep; apply: (ans_eq (shape_batchE wx)); rewrite e1.
apply: ans_bindc (bb_ok wx pT e2) _ => [|y [[wy [ry cy] by' ey] _ _ _]]; first exact: cm_bb.
have sy : mshape y = upd T p d by rewrite /mshape ry cy by'.
have szd : (size (drop 2 T)).+2 = size T by rewrite size_drop; lia.
rewrite szd; set reps := upd _ _ _; have sr : size reps = size T by rewrite size_upd size_nseq.
have nr q : nth 1%N reps q = if q == p then rep else 1%N.
  by rewrite /reps nth_upd ?size_nseq // nth_nseq; case: ifP => // _; case: ifP.
have pr : posn reps by apply/(all_nthP 1%N) => q hq; rewrite nr; case: ifP.
have hz : t_tile (den y) reps = ret (Tensor (mdtype y) (upd T p (d * rep)%N)
     (fun idx => tget (den y) [seq (p.1 %% p.2)%N | p <- zip idx (upd T p d)])).
  rewrite /t_tile [sh _]/= -/(mshape y) sy sr size_upd eqxx; congr ret; congr Tensor.
  apply: (@eq_from_nth _ 1%N); rewrite size_map size_zip sr !size_upd minnn // => q hq.
  rewrite (nth_map (1,1)%N) ?size_zip ?sr ?size_upd ?minnn // nth_zip ?sr ?size_upd //= nr !nth_upd //.
  by case: ifP => // _; rewrite muln1.
apply: ans_conseq (tile_wf wy hz pr) _ => u [wu hu]; split=> //; apply: teq_trans hu _.
split=> //= idx /inb_nthP []; rewrite size_upd => si hi.
have -> : [seq (p.1 %% p.2)%N | p <- zip idx (upd T p d)] = upd idx p (nth 0%N idx p %% d)%N.
  apply: (@eq_from_nth _ 0%N); rewrite size_map size_zip !size_upd si minnn // => q hq.
  rewrite (nth_map (0,1)%N) ?size_zip ?si ?size_upd ?minnn // nth_zip ?si ?size_upd //= !nth_upd ?si //.
  have := hi q hq; rewrite nth_upd //; case: eqP => [->|_] // h; exact: modn_small.
have : inb (mshape y) (upd idx p (nth 0%N idx p %% d)%N).
  rewrite sy; apply/inb_nthP; split=> [|q]; rewrite !size_upd // => hq; rewrite !nth_upd ?si //.
  by have := hi q hq; rewrite nth_upd //; case: eqP => // _; rewrite ltn_mod.
case: (upd idx p _) => [|j [|i be]] //=; first by rewrite andbF.
rewrite ry cy by' => /and3P[hj hi' hb]; rewrite ey ?okb_inb //; rewrite /bat /= !clid //.
by rewrite ent_clamp // bto_refl.
Qed.

(** ** All blocks *)
Lemma wf_arr (u : mat) : wf u -> teq (arr u) (den u).
Proof. by move=> w; exact: res_arr (res_wf w). Qed.
(** The result is a numeric array or a [Dense] matrix. *)
Definition plain c (z : tensor) : Prop := exists2 u, (c = Nm u \/ c = mk_dense u) & teq u z.
Lemma concat_op_plain (xs : seq mat) axis z : (forall k, (k < size xs)%N -> wf (nth nm0 xs k)) ->
  t_concat (map (@den F) xs) axis = ret z -> answers (fun o => concat_op o xs axis) (fun c => plain c z).
Proof.
move=> h hz; apply: ans_warn; apply: ans_bind (dens_ok perm h) _ => ts hts.
have [u hu tu] := teq_concat hts hz; apply: (ans_eq hu); apply: ans_ret; exists u => //; by right.
Qed.
Lemma concat_any_plain (us : seq mat) axis z : (forall k, (k < size us)%N -> wf (nth nm0 us k)) ->
  t_concat (map (@arr F) us) axis = ret z -> answers (fun o => concat_any o us axis) (fun c => plain c z).
Proof.
move=> w hz; rewrite /concat_any; case hn: (all (@isnum F) us).
  have E : nums us = map (@arr F) us.
    by elim: us hn {w hz} => [|u us IH] //= /andP[hu /IH <-]; case: u hu.
  by rewrite E; apply: (ans_eq hz); apply: ans_ret; exists z => //; left.
have hts : teqs (map (@den F) (map (@to_matrix F) us)) (map (@arr F) us).
  elim: us w {hz hn} => [|u us IH] w /=; first by split.
  apply/teqs_cons; split; last by apply: IH => k hk; exact: (w k.+1 hk).
  have wu : wf u := w 0%N isT; have [[w' [ra ca] ba ea] _ _ _ _] := to_matrix_ok (or_introl wu).
  apply: teq_trans (tmat_teq (den_tmat w') _) _; last exact: teq_sym (wf_arr wu).
  have := den_tmat wu; rewrite ra ca ba => -[h1 h2 h3]; split=> // be i j h4 h5 h6; rewrite h3 //; exact/esym/ea.
have [u hu tu] := teq_concat hts hz.
apply: ans_conseq (concat_op_plain _ hu) _ => [k|c [v hv tv]]; last by exists v => //; exact: teq_trans tv tu.
by rewrite size_map => hk; rewrite (nth_map nm0) //; case: (to_matrix_ok (or_introl (w k hk))) => -[].
Qed.
Lemma plain_wf c z : plain c z -> (2 <= trank z)%N -> posn (sh z) -> wf c /\ teq (arr c) z.
Proof.
case=> u hc hu r2 pz; have ru : (2 <= trank u)%N by rewrite /trank; case: hu => ->.
have wu : wft u by rewrite /wft ru; case: hu => ->.
case: hc => ->; first by split.
by split; [rewrite /mk_dense uprank2|exact: teq_trans (arr_mk_dense ru) hu].
Qed.
Lemma loc_copies_gen (f : mat -> nat) its i : (forall k, (k < size its)%N -> (0 < f (nth it0 its k).1)%N) ->
  (i < sumn [seq (f q.1 * q.2)%N | q <- its])%N ->
  let l := loc [seq (f q.1 * q.2)%N | q <- its] i in
  let l' := loc [seq f x | x <- copies its] i in
  [/\ nth nm0 (copies its) l'.1 = (nth it0 its l.1).1, l'.2 = (l.2 %% f (nth it0 its l.1).1)%N &
      loc [seq q.2 | q <- its] l'.1 = (l.1, l.2 %/ f (nth it0 its l.1).1)%N].
Proof.
elim: its i => [|[x r] its IH] i //= d0 hi; rewrite /copies /= -/(copies its) map_cat map_nseq loc_cat sumn_nseq.
case: ltnP => h /=.
  rewrite loc_nseq 1?mulnC //= nth_cat size_nseq; have := d0 0%N isT => /= dx.
  by rewrite ltn_divLR // mulnC h nth_nseq ltn_divLR // mulnC h.
rewrite size_nseq nth_cat size_nseq ltnNge leq_addr /= addKn.
have [||-> -> ->] := IH (i - f x * r)%N; [by move=> k hk; exact: (d0 k.+1 hk)|lia|by []].
Qed.
Lemma loc_copies its p i : (forall k, (k < size its)%N -> (0 < dim (nth it0 its k).1 p)%N) ->
  (i < sumn [seq (dim q.1 p * q.2)%N | q <- its])%N ->
  let l := loc [seq (dim q.1 p * q.2)%N | q <- its] i in
  let l' := loc [seq dim x p | x <- copies its] i in
  nth nm0 (copies its) l'.1 = (nth it0 its l.1).1 /\ l'.2 = (l.2 %% dim (nth it0 its l.1).1 p)%N.
Proof. by move=> h1 h2; have [] := @loc_copies_gen (dim^~ p) its i h1 h2. Qed.
Lemma concat_reps its p T : tiles its p T ->
  exists2 z, t_concat [seq rep_den q.1 q.2 p T | q <- its] (Negz p) = ret z & teq z (tl_den its p T).
Proof.
move=> ht; have [w [_ [k0 hk0 _]] hp hs hq] := ht; set zs := [seq rep_den _ _ _ _ | _ <- _].
have dz k : (k < size its)%N -> nth t0 zs k = rep_den (nth it0 its k).1 (nth it0 its k).2 p T by move=> hk; rewrite (nth_map it0).
have ez : exists z' zs', zs = z' :: zs' /\ sh z' = upd T p (nth 0%N (sh z') p).
  rewrite /zs; case: its hk0 {ht w hs hq zs dz} => // q its _; do 2 eexists; split; first by [].
  by rewrite /= nth_upd_eq.
have [z' [zs' [ezs sz']]] := ez.
rewrite /t_concat ezs /trank sz' size_upd axis_neg // bind_ret -ezs /t_concat_pos {1}ezs sz' size_upd hp.
have -> : all (fun u => upd (sh u) p 0%N == upd (upd T p (nth 0%N (sh z') p)) p 0%N) zs.
  by apply/(all_nthP t0) => k; rewrite size_map => hk; rewrite dz //= !upd_upd.
rewrite andTb; eexists; first by rewrite ezs; reflexivity.
rewrite -ezs; have -> : [seq nth 0%N (sh u) p | u <- zs] = [seq (dim q.1 p * q.2)%N | q <- its].
  by rewrite /zs -map_comp; apply: eq_map => q /=; rewrite nth_upd_eq.
have hsum : sumn [seq (dim q.1 p * q.2)%N | q <- its] = nth 0%N T p.
  by rewrite hs sum_copies; congr sumn; apply: eq_map => q; rewrite mulnC.
have eT : upd (upd T p (nth 0%N (sh z') p)) p (nth 0%N T p) = T by rewrite upd_upd upd_nth0.
split=> [|idx]; rewrite [sh _]/= hsum eT //.
move=> /inb_nthP[si hi]; have hpi := hi p hp; rewrite (set_nth_default 0%N) // -hsum in hpi.
rewrite [LHS]/= (@cat_getE _ zs [seq (dim q.1 p * q.2)%N | q <- its]) ?size_map ?si //; last first.
  by move=> k hk; rewrite dz //= nth_upd_eq // (nth_map it0).
have [l1 l2] := loc_lt hpi; rewrite size_map in l1.
have [|E1 E2] := @loc_copies its p (nth 0%N idx p) _ hpi.
  by move=> k /w[wk _]; exact: dim_pos.
by rewrite dz //= /tl_ent E1 E2 nth_upd_eq ?si // upd_upd.
Qed.
Lemma teqs_nth (xs ys : seq tensor) : size xs = size ys -> (forall k, (k < size xs)%N -> teq (nth t0 xs k) (nth t0 ys k)) -> teqs xs ys.
Proof.
elim: xs ys => [|x xs IH] [|y ys] //= [e] h.
by apply/teqs_cons; split; [exact: (h 0%N isT)|apply: IH => // k hk; exact: (h k.+1 hk)].
Qed.

(** The copy read at an index: one of the blocks, at a valid index. *)
Lemma tl_copy its p T idx : tiles its p T -> inb T idx ->
  let l := loc [seq dim x p | x <- copies its] (nth 0%N idx p) in
  exists k, let x := nth nm0 (copies its) l.1 in
  [/\ (k < size its)%N, x = (nth it0 its k).1, bto (mshape x) (upd T p (dim x p)) & inb (upd T p (dim x p)) (upd idx p l.2)].
Proof.
move=> ht /inb_nthP[si hi] l; have [w _ hp hs hq] := ht.
have hpi := hi p hp; rewrite (set_nth_default 0%N) // hs in hpi.
have hpi2 := hpi; rewrite sum_copies in hpi2.
have E : [seq (q.2 * dim q.1 p)%N | q <- its] = [seq (dim q.1 p * q.2)%N | q <- its] by apply: eq_map => q; rewrite mulnC.
rewrite E in hpi2; have [|E1 E2] := @loc_copies its p (nth 0%N idx p) _ hpi2.
  by move=> k /w[wk _]; exact: dim_pos.
have [l1 l2] := loc_lt hpi2; rewrite size_map in l1.
exists (loc [seq (dim q.1 p * q.2)%N | q <- its] (nth 0%N idx p)).1; rewrite -/l in E1 E2 *.
split=> //; rewrite E1; set k := (loc _ _).1.
  have [_ e2 e3] := block_shape ht l1; rewrite -e3 -/k /mshape.
  by rewrite /bto -/bto !eqxx !orbT.
apply/inb_nthP; split=> [|q]; rewrite !size_upd // => hq'; rewrite !nth_upd ?si //; case: eqP => [_|/eqP ne]; last exact: hi.
by rewrite E2 ltn_mod; apply: dim_pos; case: (w k l1).
Qed.

(** ** C34 *)
(** The shape functions return the shape of the tiled array. *)
Theorem C34_shape its axis p T : tiles its p T -> resolve_axis (size T) axis = ret p ->
  [/\ tl_shape (Tiled its axis) = ret T, tl_shape_matrix (Tiled its axis) = ret (nth 0%N T 1, nth 0%N T 0) &
      tl_shape_batch (Tiled its axis) = ret (drop 2 T)].
Proof. by move=> ht ha; rewrite /tl_shape_matrix /tl_shape_batch (tl_shape_ok ht ha). Qed.
Lemma tiles_posT its p T : tiles its p T -> posn T.
Proof.
move=> ht; have [w [_ [k hk _]] hp hs _] := ht; rewrite -(upd_nth0 hp); apply: tiles_pos ht _.
rewrite hs sum_copies; elim: its w k hk {hs} => [|q its IH] w k hk //=; have [wq rq] := w 0%N isT.
by rewrite addn_gt0 muln_gt0 rq dim_pos.
Qed.
Lemma tl_dense_plain its axis p T : tiles its p T -> resolve_axis (size T) axis = ret p ->
  answers (fun o => tl_dense o (Tiled its axis)) (fun c => plain c (tl_den its p T)).
Proof.
move=> ht ha; apply: (ans_eq (tl_shape_ok ht ha)); apply: (ans_eq ha).
apply: ans_bind (ans_mapM (x0 := it0) nm0 (fun k hk => tl_block_ok ht hk)) _ => us [sz hu].
have [z hz tz] := concat_reps ht.
have hts : teqs (map (@arr F) us) [seq rep_den q.1 q.2 p T | q <- its].
  apply: teqs_nth; rewrite !size_map // sz => k hk; rewrite (nth_map nm0) ?sz // (nth_map it0) //; by case: (hu k hk).
have [v hv tv] := teq_concat hts hz.
apply: ans_conseq (concat_any_plain _ hv) _ => [k|c [u hc tu]]; first by rewrite sz => /hu[].
by exists u => //; exact: teq_trans tu (teq_trans tv tz).
Qed.
Lemma tl_dense_wf its axis p T : tiles its p T -> resolve_axis (size T) axis = ret p ->
  answers (fun o => tl_dense o (Tiled its axis)) (fun c => wf c /\ teq (arr c) (tl_den its p T)).
Proof.
move=> ht ha; apply: ans_conseq (tl_dense_plain ht ha) _ => c h.
by apply: plain_wf h _ _; [exact: tiles_size2 ht|exact: tiles_posT ht].
Qed.
(** [dense] of the tiled blocks is the tiled array. *)
Theorem C34_dense its axis p T : tiles its p T -> resolve_axis (size T) axis = ret p ->
  answers (fun o => tl_dense o (Tiled its axis)) (fun c => teq (arr c) (tl_den its p T)).
Proof. by move=> ht ha; apply: ans_conseq (tl_dense_wf ht ha) _ => c []. Qed.

(** *** transpose *)
(** Swap the two axes of the matrices. *)
Definition swap2 (s : seq nat) : seq nat := if s is j :: i :: be then [:: i, j & be] else s.
Definition swp (q : nat) : nat := match q with 0 => 1 | 1 => 0 | _ => q end%N.
Definition tr_of x y : Prop := is_res y (mcols x) (mrows x) (mbatch x) (fun be i j => ent x be j i).
Lemma swap2K s : swap2 (swap2 s) = s. Proof. by case: s => [|? []]. Qed.
Lemma size_swap2 s : size (swap2 s) = size s. Proof. by case: s => [|? []]. Qed.
Lemma swpK : involutive swp. Proof. by case=> [|[]]. Qed.
Lemma nth_swap2 d s q : (2 <= size s)%N -> nth d (swap2 s) q = nth d s (swp q).
Proof. by case: s q => [|i [|j s]] // [|[|q]]. Qed.
Lemma swap2_upd s p v : (2 <= size s)%N -> swap2 (upd s p v) = upd (swap2 s) (swp p) v.
Proof. by case: s p => [|i [|j s]] // [|[|q]]. Qed.
Lemma tr_shape x y : tr_of x y -> mshape y = swap2 (mshape x).
Proof. by case=> _ [h1 h2] h3 _; rewrite /mshape h1 h2 h3. Qed.
Lemma tr_dim x y q : tr_of x y -> dim y q = dim x (swp q).
Proof. by move=> h; rewrite /dim (tr_shape h) nth_swap2. Qed.
Lemma tr_bat x y idx : wf x -> tr_of x y -> okb (mshape x) idx -> (2 <= size idx)%N -> bat (den y) (swap2 idx) = bat (den x) idx.
Proof.
move=> w h; case: idx => [|j [|i be]] //; rewrite /okb /= => /and3P[hj hi hb] _.
have s := tr_shape h; have [_ [r1 c1] b1 e1] := h.
rewrite /bat [sh _]s [swap2 _]/= [clamp _ _]/= [RHS]/= [LHS]/= e1 //.
exact: okb_inb.
Qed.
Definition tr_its (its its' : seq (mat * nat)) : Prop := size its' = size its /\
  forall k, (k < size its)%N -> tr_of (nth it0 its k).1 (nth it0 its' k).1 /\ (nth it0 its' k).2 = (nth it0 its k).2.
Lemma tr_copies its its' p : tr_its its its' -> [seq dim x (swp p) | x <- copies its'] = [seq dim x p | x <- copies its] /\
  forall k, (k < size (copies its))%N -> tr_of (nth nm0 (copies its) k) (nth nm0 (copies its') k).
Proof.
elim: its its' => [|[x r] its IH] [|[x' r'] its'] [] //= [e] h.
have [hx er] := h 0%N isT; rewrite /= in hx er; subst r'.
have [|IH1 IH2] := IH its'; first by split=> // k hk; exact: (h k.+1 hk).
rewrite /copies /= -!/(copies _) !map_cat !map_nseq IH1 (tr_dim _ hx) swpK; split=> // k.
rewrite size_cat !nth_cat !size_nseq => hk; case: ltnP => hr; first by rewrite !nth_nseq hr.
by apply: IH2; lia.
Qed.
Lemma tr_tiles its its' p T : tiles its p T -> tr_its its its' -> tiles its' (swp p) (swap2 T).
Proof.
move=> ht [e h]; have s2 := tiles_size2 ht; have [w [h1 [k2 hk2 h2]] hp hs hq] := ht.
have sq q : (q < size T)%N -> (swp q < size T)%N by case: q => [|[]] //=; lia.
have sz k : (k < size its)%N -> size (mshape (nth it0 its' k).1) = size (mshape (nth it0 its k).1).
  by move=> /h[/tr_shape -> _]; rewrite size_swap2.
split; rewrite ?size_swap2 ?e.
- by move=> k hk; have [[w' _ _ _] ->] := h k hk; case: (w k hk).
- split=> [k hk|]; first by rewrite sz ?h1.
  by exists k2; rewrite ?sz.
- exact: sq.
- by rewrite nth_swap2 // swpK hs; have [-> _] := tr_copies p (conj e h).
- move=> q hq' ne; rewrite nth_swap2 //.
  have ne' : swp q != p by apply: contra ne => /eqP <-; rewrite swpK.
  have [g1 [k hk g2]] := hq _ (sq _ hq') ne'; split.
    move=> j hj; have [hj' _] := h j hj; rewrite (tr_dim _ hj').
    by case: (g1 j hj) => [->|[g3 g4]]; [left|right; split=> //; case: q g3 {hq' ne ne' g1 g2 g4} => [|[]]].
  by exists k => //; have [hj' _] := h k hk; rewrite (tr_dim _ hj').
Qed.
Lemma tr_ent its its' p T idx : tiles its p T -> tr_its its its' -> inb T idx ->
  tl_ent its' (swp p) (swap2 idx) = tl_ent its p idx.
Proof.
move=> ht hr hi; have s2 := tiles_size2 ht; have si := inb_size hi; have [E1 E2] := tr_copies p hr.
have [k [hk ex hb hin]] := tl_copy ht hi.
rewrite /tl_ent E1 nth_swap2 ?si // swpK; move: ex hb hin; set l := loc _ _; set x := nth _ _ _ => ex hb hin.
have wx : wf x by rewrite ex; case: ht => /(_ k hk)[].
rewrite -swap2_upd ?si //; apply: tr_bat => //; last by rewrite size_upd si.
- apply: E2; have [w _ hp hs _] := ht; case/inb_nthP: hi => _ /(_ p hp); rewrite (set_nth_default 0%N) // hs => hi.
  by have [] := loc_lt hi; rewrite size_map.
- exact: okb_mono hb (okb_inb hin).
Qed.
Lemma transpose_ret x : wf x -> exists2 y, transpose x = ret y & tr_of x y.
Proof.
move=> w; have [y e [h _ _]] := calm_hoare (cm_transp x) (transpose_ok w); by exists y.
Qed.
Theorem C34_transpose its axis p T : tiles its p T -> resolve_axis (size T) axis = ret p ->
  exists2 a', tl_transpose (Tiled its axis) = ret a' &
    answers (fun o => tl_dense o a') (fun c => teq (arr c) (Tensor DFloat64 (swap2 T) (fun idx => tl_ent its p (swap2 idx)))).
Proof.
move=> ht ha; have s2 := tiles_size2 ht; rewrite /tl_transpose (tl_shape_ok ht ha) bind_ret -[tl_axis _]/axis ha bind_ret.
have [q|k hk|its' Ei [si hi]] := @mapM_calm_hoare _ _ it0 it0 (fun q : mat * nat => do x <- transpose q.1; ret (x, q.2))
   (fun k q => tr_of (nth it0 its k).1 q.1 /\ q.2 = (nth it0 its k).2) its.
- by apply: calm_bind => [|y]; [exact: cm_transp|].
- have [|y -> hy] := @transpose_ret (nth it0 its k).1; first by case: ht => /(_ k hk)[].
  by rewrite bind_ret; apply: hoare_ret.
have hr : tr_its its its' by split.
have ht' := tr_tiles ht hr; have [w' _ hp' _ _] := ht'; rewrite size_swap2 in hp'.
rewrite -[tl_items _]/its Ei bind_ret; set ax := (X in mk_tiled _ X).
have Eax : resolve_axis (size (swap2 T)) ax = ret (swp p).
  by rewrite size_swap2 -(axis_neg hp') /ax; case: p {ht ha hi hr ht' w' hp' ax} => [|[]].
exists (Tiled its' ax).
  rewrite /mk_tiled; case: its' {Ei hr Eax hi ht'} si w' => [|q its'] si w'.
    by case: ht => _ [_ [k]]; rewrite -si.
  rewrite (mapM_ret_nth (x0 := it0) (g := fun _ => tt)) ?bind_ret // => k hk.
  by have [wk _] := w' k hk; exact: assert_matrixE.
apply: ans_conseq (C34_dense ht' Eax) _ => c hc; apply: teq_trans hc _; split=> //= idx hb.
rewrite -{1}(swap2K idx); apply: tr_ent ht hr _.
apply/inb_nthP; case/inb_nthP: hb => h1 h2; rewrite !size_swap2 in h1 h2 *; split=> // q hq.
have := h2 (swp q); rewrite nth_swap2 // swpK nth_swap2 ?h1 //; apply; case: q hq => [|[]] //=; lia.
Qed.

(** *** cast and dtype *)
Definition cast_its (d : dtype) (its its' : seq (mat * nat)) : Prop := size its' = size its /\
  forall k, (k < size its)%N -> let x := (nth it0 its k).1 in
    [/\ is_res (nth it0 its' k).1 (mrows x) (mcols x) (mbatch x) (ent x), mdtype (nth it0 its' k).1 = d & (nth it0 its' k).2 = (nth it0 its k).2].
Lemma same_shape x y : is_res y (mrows x) (mcols x) (mbatch x) (ent x) -> mshape y = mshape x.
Proof. by case=> _ [h1 h2] h3 _; rewrite /mshape h1 h2 h3. Qed.
Lemma cast_copies d its its' p : cast_its d its its' -> [seq dim x p | x <- copies its'] = [seq dim x p | x <- copies its] /\
  forall k (x := nth nm0 (copies its) k), (k < size (copies its))%N -> is_res (nth nm0 (copies its') k) (mrows x) (mcols x) (mbatch x) (ent x).
Proof.
elim: its its' => [|[x r] its IH] [|[x' r'] its'] [] //= [e] h.
have [hx _ er] := h 0%N isT; rewrite /= in hx er; subst r'.
have [|IH1 IH2] := IH its'; first by split=> // k hk; exact: (h k.+1 hk).
rewrite /copies /= -!/(copies _) !map_cat !map_nseq IH1 /dim (same_shape hx); split=> // k.
rewrite size_cat !nth_cat !size_nseq => hk; case: ltnP => hr; first by rewrite !nth_nseq hr.
by apply: IH2; lia.
Qed.
Lemma cast_tiles d its its' p T : tiles its p T -> cast_its d its its' -> tiles its' p T.
Proof.
move=> ht [e h]; have [w [h1 [k2 hk2 h2]] hp hs hq] := ht.
have sz k : (k < size its)%N -> mshape (nth it0 its' k).1 = mshape (nth it0 its k).1 by move=> /h[/same_shape].
split; rewrite ?e //.
- by move=> k hk; have [[w' _ _ _] _ ->] := h k hk; case: (w k hk).
- split=> [k hk|]; first by rewrite sz ?h1.
  by exists k2; rewrite ?sz.
- by rewrite hs; have [-> _] := cast_copies p (conj e h).
- move=> q hq' ne; have [g1 [k hk g2]] := hq _ hq' ne; split.
    by move=> j hj; rewrite /dim sz //; exact: g1.
  by exists k => //; rewrite /dim sz.
Qed.
Theorem C34_cast d its axis p T : tiles its p T -> resolve_axis (size T) axis = ret p ->
  exists a', [/\ tl_cast d (Tiled its axis) = ret a', tl_dtype a' = d &
    answers (fun o => tl_dense o a') (fun c => teq (arr c) (tl_den its p T))].
Proof.
move=> ht ha; have [w _ hp hs _] := ht; rewrite /tl_cast -[tl_items _]/its -[tl_axis _]/axis.
have [q|k hk|its' Ei [si hi]] := @mapM_calm_hoare _ _ it0 it0 (fun q : mat * nat => do x <- cast d q.1; ret (x, q.2))
   (fun k q => let x := (nth it0 its k).1 in
    [/\ is_res q.1 (mrows x) (mcols x) (mbatch x) (ent x), mdtype q.1 = d & q.2 = (nth it0 its k).2]) its.
- by apply: calm_bind => [|y]; [exact: cm_cast|].
- have [wx _] := w k hk; apply: hoare_bind (cast_ok d wx) _ => y [h1 _ _ h2]; exact: hoare_ret.
have hr : cast_its d its its' by split.
have ht' := cast_tiles ht hr; have [w' _ _ _ _] := ht'; exists (Tiled its' axis); split.
- rewrite Ei bind_ret /mk_tiled; case: its' {Ei hr hi ht'} si w' => [|q its'] si w'.
    by case: ht => _ [_ [k]]; rewrite -si.
  rewrite (mapM_ret_nth (x0 := it0) (g := fun _ => tt)) ?bind_ret // => k hk.
  by have [wk _] := w' k hk; exact: assert_matrixE.
- have hd k : (k < size its')%N -> mdtype (nth it0 its' k).1 = d by rewrite si => /hi[].
  have : (0 < size its')%N by rewrite si; case: ht => _ [_ [k hk _]] _ _ _; exact: leq_trans hk.
  rewrite /tl_dtype /=; case: its' hd {Ei si hi hr ht' w'} => // q its' hd _; have /= -> := hd 0%N isT.
  have {hd} : forall k, (k < size its')%N -> mdtype (nth it0 its' k).1 = d by move=> k hk; exact: (hd k.+1 hk).
  elim: its' => [|q' its' IH] //= h; have /= -> := h 0%N isT; have -> : promote d d = d by case: (d).
  by apply: IH => k hk; exact: (h k.+1 hk).
- apply: ans_conseq (C34_dense ht' ha) _ => c hc; apply: teq_trans hc _; split=> //= idx hb.
  have [E1 E2] := cast_copies p hr; rewrite /tl_ent E1.
  have [k [hk ex hbt hin]] := tl_copy ht hb; move: ex hbt hin; set l := loc _ _ => ex hbt hin.
  have hl : (l.1 < size (copies its))%N.
    case/inb_nthP: hb => _ /(_ p hp); rewrite (set_nth_default 0%N) // hs => hi'.
    by have [] := loc_lt hi'; rewrite size_map.
  have hx := E2 _ hl; have sx := same_shape hx; case: hx => _ _ _ ex'.
  have := okb_mono hbt (okb_inb hin); rewrite /bat [sh _]sx [sh (den (nth _ (copies its) _))]/= -/(mshape _) /okb.
  by case: (upd idx p l.2) => [|j [|i be]] /= /and3P[hj hi' hb']; rewrite ex' ?okb_inb.
Qed.

(** *** concat *)
Lemma copies_cat its1 its2 : copies (its1 ++ its2) = copies its1 ++ copies its2.
Proof. by rewrite /copies map_cat flatten_cat. Qed.
Lemma tl_ent_cat its1 its2 p idx : (p < size idx)%N -> tl_ent (its1 ++ its2) p idx =
  let n := sumn [seq dim x p | x <- copies its1] in
  if (nth 0%N idx p < n)%N then tl_ent its1 p idx else tl_ent its2 p (upd idx p (nth 0%N idx p - n)%N).
Proof.
move=> hp; rewrite /tl_ent copies_cat map_cat loc_cat /=; case: ltnP => h /=.
  by rewrite nth_cat; have [h1 _] := loc_lt h; rewrite size_map in h1; rewrite h1.
by rewrite nth_cat size_map ltnNge leq_addr /= addKn nth_upd_eq // upd_upd.
Qed.
Lemma tl_cat_get (xs : seq (seq (mat * nat) * nat)) p T idx : (p < size T)%N -> inb T idx ->
  (forall k, (k < size xs)%N -> (nth ([::], 0%N) xs k).2 = sumn [seq dim x p | x <- copies (nth ([::], 0%N) xs k).1]) ->
  nth 0%N T p = sumn (map snd xs) ->
  cat_get [seq tl_den q.1 p (upd T p q.2) | q <- xs] p idx = tl_ent (flatten (map fst xs)) p idx.
Proof.
elim: xs T idx => [|q xs IH] T idx hp hi h.
  by move=> /= e; case/inb_nthP: hi => _ /(_ p hp); rewrite (set_nth_default 0%N) // e.
move=> hs; have si := inb_size hi; rewrite /= tl_ent_cat ?si // -(h 0%N isT) /= nth_upd_eq //.
case: ltnP => hq //.
have E : [seq tl_den q.1 p (upd T p q.2) | q <- xs] = [seq tl_den q.1 p (upd (upd T p (sumn (map snd xs))) p q.2) | q <- xs].
  by apply: eq_map => q'; rewrite upd_upd.
rewrite E; apply: IH; rewrite ?size_upd //; last by rewrite nth_upd_eq.
  case/inb_nthP: hi => _ hi; apply/inb_nthP; split=> [|r]; rewrite !size_upd // => hr; rewrite !nth_upd ?si //.
  case: eqP => [_|_]; last exact: hi.
  by have := hi p hp; rewrite (set_nth_default 0%N) // hs /=; lia.
by move=> k hk; exact: (h k.+1 hk).
Qed.
Lemma tiles_cat its1 its2 p T d1 d2 : (p < size T)%N -> tiles its1 p (upd T p d1) -> tiles its2 p (upd T p d2) ->
  tiles (its1 ++ its2) p (upd T p (d1 + d2)%N).
Proof.
move=> hp [w1 [l1 [k1 hk1 e1]] _ s1 q1] [w2 [l2 _] _ s2 q2]; rewrite !size_upd in l1 l2 e1 q1 q2.
have nP (P : mat * nat -> Prop) : (forall k, (k < size its1)%N -> P (nth it0 its1 k)) ->
    (forall k, (k < size its2)%N -> P (nth it0 its2 k)) -> forall k, (k < size (its1 ++ its2))%N -> P (nth it0 (its1 ++ its2) k).
  by move=> h1 h2 k; rewrite size_cat nth_cat; case: (ltnP k (size its1)) => [h3 _|h3 h4]; [exact: h1|apply: h2; lia].
have hk1' : (k1 < size (its1 ++ its2))%N by rewrite size_cat; lia.
split.
- exact: (nP (fun q => wf q.1 /\ (0 < q.2)%N)).
- rewrite size_upd; split; first exact: (nP (fun q => (size (mshape q.1) <= size T)%N)).
  by exists k1; rewrite // nth_cat hk1.
- by rewrite size_upd.
- by rewrite nth_upd_eq // copies_cat map_cat sumn_cat -s1 -s2 !nth_upd_eq.
- rewrite size_upd => q hq ne; have [f1 [j hj f2]] := q1 q hq ne; have [f3 _] := q2 q hq ne.
  have N d : nth 0%N (upd T p d) q = nth 0%N T q by rewrite nth_upd // (negbTE ne).
  rewrite !N in f1 f2 f3 *; split.
    exact: (nP (fun r => dim r.1 q = nth 0%N T q \/ (2 <= q)%N /\ dim r.1 q = 1%N)).
  by exists j; rewrite ?size_cat ?nth_cat ?hj //; lia.
Qed.
(** Concatenation along the common axis keeps the blocks (so there is no warning), and the result stands for the
    concatenation of the arrays. *)
Theorem C34_concat (xs : seq (tiled * nat)) axis p T : (0 < size xs)%N -> resolve_axis (size T) axis = ret p ->
  (p < size T)%N -> nth 0%N T p = sumn (map snd xs) ->
  (forall k (a := nth (Tiled [::] axis, 0%N) xs k), (k < size xs)%N -> tl_axis a.1 = axis /\ tiles (tl_items a.1) p (upd T p a.2)) ->
  exists2 a', (forall o, tl_concat o (map fst xs) axis = ret (inl a')) &
    answers (fun o => tl_dense o a') (fun c => exists2 z,
      t_concat [seq tl_den (tl_items a.1) p (upd T p a.2) | a <- xs] axis = ret z & teq (arr c) z).
Proof.
move=> n0 ha hp hs H; pose a0 : tiled * nat := (Tiled [::] axis, 0%N).
set its := flatten (map (@tl_items F) (map fst xs)).
have ht : tiles its p T.
  have -> : T = upd T p (sumn (map snd xs)) by rewrite -hs upd_nth0.
  rewrite /its; case: xs n0 H {hs its} => // x xs _ H; have [_ hx] := H 0%N isT; rewrite /= in hx.
  have {H} : forall k, (k < size xs)%N -> tiles (tl_items (nth a0 xs k).1) p (upd T p (nth a0 xs k).2).
    by move=> k hk; have [] := H k.+1 hk.
  elim: xs x hx => [|y xs IH] x hx H; first by rewrite /= cats0 addn0.
  have := IH y (H 0%N isT) (fun k hk => H k.+1 hk); rewrite /= => h; exact: tiles_cat.
exists (Tiled its axis).
  move=> o; rewrite /tl_concat; have -> : all (fun a : tiled => tl_axis a == axis) (map fst xs).
    rewrite all_map; apply/(all_nthP a0) => k hk /=; apply/eqP; by have [] := H k hk.
  have [w [_ [k hk _]] _ _ _] := ht; rewrite -/its /mk_tiled; case: its w hk {ht} => // q its w _.
  rewrite (mapM_ret_nth (x0 := it0) (g := fun _ => tt)) ?bind_ret // => j hj.
  by have [wk _] := w j hj; exact: assert_matrixE.
apply: ans_conseq (C34_dense ht ha) _ => c hc.
pose ys := [seq (tl_items a.1, a.2) | a <- xs].
have Ez : [seq tl_den (tl_items a.1) p (upd T p a.2) | a <- xs] = [seq tl_den q.1 p (upd T p q.2) | q <- ys] by rewrite /ys -map_comp.
have Es : map snd ys = map snd xs by rewrite /ys -map_comp.
rewrite Ez; have : (0 < size ys)%N by rewrite size_map.
case E: ys => [|y ys'] // _; rewrite [map _ _]/= /t_concat -[trank _]/(size (upd T p y.2)) size_upd ha bind_ret /t_concat_pos.
rewrite -[sh (tl_den _ _ _)]/(upd T p y.2) size_upd hp andTb [all _ _]/=.
rewrite !upd_upd eqxx /=; have -> : all (fun u => upd (sh u) p 0%N == upd T p 0%N) [seq tl_den q.1 p (upd T p q.2) | q <- ys'].
  by elim: (ys') => //= q l ->; rewrite upd_upd eqxx.
eexists; first by reflexivity.
apply: teq_trans hc _.
have Esum : (nth 0%N (upd T p y.2) p + sumn [seq nth 0%N (sh u) p | u <- [seq tl_den q.1 p (upd T p q.2) | q <- ys']])%N = nth 0%N T p.
  rewrite hs -Es E /= nth_upd_eq // -map_comp; congr (_ + sumn _)%N; by apply: eq_map => q /=; rewrite nth_upd_eq.
split=> [|idx hi]; first by rewrite /= Esum upd_nth0.
have -> : its = flatten (map fst ys) by rewrite /its /ys -!map_comp.
rewrite [LHS]/= -(@tl_cat_get ys p T idx hp hi) ?Es // ?E //.
rewrite -E /ys size_map => k hk; rewrite (nth_map a0) //=.
by have [_ [_ _ _]] := H k hk; rewrite nth_upd_eq.
Qed.
(** If the axes are different, the result is the [Dense] concatenation of the arrays (with a warning). *)
Theorem C34_concat_dense (xs : seq (tiled * (nat * shape))) axis z :
  (forall k (a := nth (Tiled [::] axis, (0%N, [::])) xs k), (k < size xs)%N ->
     tiles (tl_items a.1) a.2.1 a.2.2 /\ resolve_axis (size a.2.2) (tl_axis a.1) = ret a.2.1) ->
  ~~ all (fun a : tiled => tl_axis a == axis) (map fst xs) ->
  t_concat [seq tl_den (tl_items a.1) a.2.1 a.2.2 | a <- xs] axis = ret z -> (2 <= trank z)%N ->
  answers (fun o => tl_concat o (map fst xs) axis) (fun r => exists2 t, r = inr (mk_dense t) & teq t z).
Proof.
move=> H hn hz r2; rewrite /tl_concat (negbTE hn); pose a0 : tiled * (nat * shape) := (Tiled [::] axis, (0%N, [::])).
apply: ans_warn.
apply: (ans_bind (P := fun ds => size ds = size xs /\ forall k, (k < size xs)%N -> wf (nth nm0 ds k) /\
     teq (arr (nth nm0 ds k)) (tl_den (tl_items (nth a0 xs k).1) (nth a0 xs k).2.1 (nth a0 xs k).2.2))).
  have := @ans_mapM _ argsort _ _ (Tiled [::] axis) nm0 (fun o => tl_dense o) (fun k c => wf c /\ teq (arr c) (tl_den (tl_items (nth a0 xs k).1) (nth a0 xs k).2.1 (nth a0 xs k).2.2)) (map fst xs).
  rewrite size_map; apply=> k hk; rewrite (nth_map a0) //.
  have [h1 h2] := H k hk; move: (tl_dense_wf h1 h2); by case: (nth a0 xs k) => -[].
move=> ds [sz hd].
have hts : teqs (map (@arr F) ds) [seq tl_den (tl_items a.1) a.2.1 a.2.2 | a <- xs].
  apply: teqs_nth; rewrite !size_map // sz => k hk; rewrite (nth_map nm0) ?sz // (nth_map a0) //; by case: (hd k hk).
have [v hv tv] := teq_concat hts hz.
apply: ans_bind (concat_any_plain _ hv) _ => [k|c [u hc tu]]; first by rewrite sz => /hd[].
apply: ans_ret; exists u; last exact: teq_trans tu tv.
by case: hc => ->.
Qed.

(** *** block_diag *)
Lemma eye_wf d n : (0 < n)%N -> is_res (Nm (t_eye d n) : mat) n n [::] (fun _ i j => (i == j)%:R).
Proof.
move=> n0; split=> //=; first by rewrite /wft -[sh _]/([:: n; n]) !posn_cons n0.
by move=> be i j _ hi hj; rewrite /mx /=; case: eqP.
Qed.
Definition kron_of (q : mat * nat) y : Prop := is_res y (mrows q.1 * q.2) (mcols q.1 * q.2) (mbatch q.1)
  (fun be i j => (i %/ mrows q.1 == j %/ mcols q.1)%N%:R * ent q.1 be (i %% mrows q.1) (j %% mcols q.1)).
Lemma kron_eye (q : mat * nat) n : wf q.1 -> (0 < q.2)%N -> isnum q.1 ==> (mbatch q.1 == [::]) -> (2 <= n)%N ->
  exists2 y, kron_n n (Nm (t_eye (mdtype q.1) q.2)) q.1 = ret y & kron_of q y.
Proof.
case: q => x r /= w r0 hb n2; have [we [re ce] be ee] := eye_wf (mdtype x) r0.
have o : bcok (mbatch (Nm (t_eye (mdtype x) r) : mat)) (mbatch x) by rewrite be.
have sd : kron_side (Nm (t_eye (mdtype x) r)) x by case: x w hb {we re ce be ee o} => //= t w /eqP ->.
have [y ey] := kron_ok we w o sd n2; rewrite /kpost re ce be bct0s => hy; exists y => //.
have [c0 r0' _] := posn3 (wf_posn w).
rewrite /kron_of /= ![(_ * r)%N]mulnC; apply: res_ext hy _ => be' i j _ hi hj.
by rewrite ee ?ltn_divLR // okb_inb.
Qed.
Lemma kron_num n d (r : nat) x y : kron_n n.+2 (Nm (t_eye d r)) x = ret y -> ~~ isnum x -> ~~ isnum y.
Proof.
case: x => [t|dz b r' c|t|t|t r' c|t|t|l r' m|dg l r' m|l r'] // e _; try by case: e => <-.
have R : rets (kron_n n.+2 (Nm (t_eye d r)) (Zero dz b r' c)) (fun _ (z : mat) => ~~ isnum z).
  by rewrite /= /kron_body /= look_kron bind_ret; apply: rets_bindT => ? ?; apply: rets_bindT => ? [? ?]; apply: rets_ret.
by move: R; rewrite e.
Qed.
(** [block_diag] repeats every block along the diagonal.  It fails for a single numeric block (see
    [C24_block_diag_numeric_refuted]). *)
Theorem C34_block_diag its axis b n :
  (forall k, (k < size its)%N -> wf (nth it0 its k).1 /\ (0 < (nth it0 its k).2)%N) ->
  all (fun q : mat * nat => isnum q.1 ==> (mbatch q.1 == [::])) its ->
  (1 < size its)%N || ~~ isnum (head it0 its).1 ->
  bcall b [seq mbatch q.1 | q <- its] -> (2 <= n)%N ->
  answers (fun o => tl_block_diag o n (Tiled its axis)) (fun c =>
    is_res c (sumn (map (@mrows F) (copies its))) (sumn (map (@mcols F) (copies its))) b (bd_ent (copies its))).
Proof.
move=> w hn h1 hb n2; rewrite /tl_block_diag -[tl_items _]/its.
have hk : forall k, (k < size its)%N -> exists2 y, kron_n n (Nm (t_eye (mdtype (nth it0 its k).1) (nth it0 its k).2)) (nth it0 its k).1 = ret y & kron_of (nth it0 its k) y.
  by move=> k hk; have [w1 w2] := w k hk; apply: kron_eye => //; exact: (all_nthP it0 hn).
have [ys Ey [sy hy]] : exists2 ys, mapM (fun q : mat * nat => kron_n n (Nm (t_eye (mdtype q.1) q.2)) q.1) its = ret ys &
    size ys = size its /\ forall k, (k < size its)%N ->
      kron_n n (Nm (t_eye (mdtype (nth it0 its k).1) (nth it0 its k).2)) (nth it0 its k).1 = ret (nth nm0 ys k) /\ kron_of (nth it0 its k) (nth nm0 ys k).
  elim: its hk {w hn h1 hb} => [|q its IH] hk; first by exists [::].
  have [y e hy] := hk 0%N isT; have [ys Ey [sy hys]] := IH (fun k h => hk k.+1 h).
  exists (y :: ys); first by rewrite /= e bind_ret Ey bind_ret.
  by split=> [|[|k]] //=; rewrite ?sy //; exact: hys.
apply: (ans_eq Ey).
have p0 k : (k < size its)%N -> (0 < mrows (nth it0 its k).1)%N /\ (0 < mcols (nth it0 its k).1)%N.
  by move=> /w[/wf_posn/posn3[]].
have E1 : map (@mrows F) ys = [seq (mrows q.1 * q.2)%N | q <- its].
  apply: (@eq_from_nth _ 0%N); rewrite !size_map // => k hk'; rewrite (nth_map nm0) // (nth_map it0) -?sy //.
  by have [_ [_ [-> _] _ _]] := hy k (eq_ind _ (fun m => (k < m)%N) hk' _ sy).
have E2 : map (@mcols F) ys = [seq (mcols q.1 * q.2)%N | q <- its].
  apply: (@eq_from_nth _ 0%N); rewrite !size_map // => k hk'; rewrite (nth_map nm0) // (nth_map it0) -?sy //.
  by have [_ [_ [_ ->] _ _]] := hy k (eq_ind _ (fun m => (k < m)%N) hk' _ sy).
have E3 : map (@mbatch F) ys = [seq mbatch q.1 | q <- its].
  apply: (@eq_from_nth _ [::]); rewrite !size_map // => k hk'; rewrite (nth_map nm0) // (nth_map it0) -?sy //.
  by have [_ [_ _ -> _]] := hy k (eq_ind _ (fun m => (k < m)%N) hk' _ sy).
have sc (f : mat -> nat) : sumn (map f (copies its)) = sumn [seq (f q.1 * q.2)%N | q <- its].
  elim: (its) => [|[x r] l IH] //=; rewrite /copies /= map_cat sumn_cat -/(copies l) IH.
  by rewrite map_nseq sumn_nseq.
rewrite !sc.
have he be i j : okb b be -> (i < sumn [seq (mrows q.1 * q.2)%N | q <- its])%N -> (j < sumn [seq (mcols q.1 * q.2)%N | q <- its])%N ->
    bd_ent ys be i j = bd_ent (copies its) be i j.
  move=> ob hi hj; rewrite /bd_ent E1 E2 /=.
  have [|A1 A2 A3] := @loc_copies_gen (@mrows F) its i _ hi; first by move=> k /p0[].
  have [|B1 B2 B3] := @loc_copies_gen (@mcols F) its j _ hj; first by move=> k /p0[].
  have [l1 l2] := loc_lt hi; have [m1 m2] := loc_lt hj; rewrite size_map in l1; rewrite size_map in m1.
  rewrite (nth_map it0) // in l2; rewrite (nth_map it0) // in m2.
  have obk : okb (mbatch (nth it0 its (loc [seq (mrows q.1 * q.2)%N | q <- its] i).1).1) be.
    apply: okb_mono ob; have := bcall_le hb; rewrite all_map => /(all_nthP it0); exact.
  move: A1 A2 A3 B1 B2 B3 l1 l2 m1 m2 obk; set ki := loc [seq (mrows q.1 * q.2)%N | q <- its] i; set kj := loc [seq (mcols q.1 * q.2)%N | q <- its] j.
  set li := loc _ i; set lj := loc _ j => A1 A2 A3 B1 B2 B3 l1 l2 m1 m2 obk.
  rewrite A1 A2 B2.
  case: (ki.1 =P kj.1) => ek; last first.
    by case: eqP => // el; case: ek; move: A3; rewrite el B3 => -[].
  have [_ [_ _ _ ->]] := hy _ l1 => //; last by rewrite ek.
  case: (li.1 =P lj.1) => el.
    have : (ki.1, ki.2 %/ mrows (nth it0 its ki.1).1)%N = (kj.1, kj.2 %/ mcols (nth it0 its kj.1).1)%N by rewrite -A3 -B3 el.
    by case=> _; rewrite -ek => ->; rewrite eqxx mul1r.
  case: eqP => [e|_]; last by rewrite mul0r.
  by case: el; apply: (@loc_inj [seq q.2 | q <- its]); rewrite A3 B3 e ek.
have [n1|n1] := ltnP 1 (size its).
  have wy k : (k < size ys)%N -> wf (nth nm0 ys k) by rewrite sy => /hy[_ []].
  have n1' : (1 < size ys)%N by rewrite sy.
  have hb' : bcall b (map (@mbatch F) ys) by rewrite E3.
  apply: ans_conseq (C24_block_diag perm n1' wy hb') _ => c; rewrite E1 E2 => hc; exact: res_ext hc he.
rewrite ltnNge n1 /= in h1.
case: its w hn h1 hb hk Ey sy hy p0 E1 E2 E3 sc he n1 => [|q [|q' its]] // w hn h1 hb hk Ey sy hy p0 E1 E2 E3 sc he n1.
case: ys Ey sy hy E1 E2 E3 he => [|y [|y' ys]] // Ey _ hy E1 E2 E3 he.
have [ey hy0] := hy 0%N isT; rewrite /= in ey hy0 h1.
have ny : ~~ isnum y by case: (n) n2 ey => [|[|n']] // _ /kron_num; exact.
apply: (ans_ext (f := fun _ => ret y)) => [o|]; first by rewrite /block_diag /= (negbTE ny).
apply: ans_ret; have eb : b = mbatch q.1 by apply: bto_ext => v; rewrite hb /= andbT.
have [wy [ry cy] by' _] := hy0.
split=> //; [by rewrite /= !addn0|by rewrite eb|].
move=> be i j hbe hi hj; rewrite -he // /bd_ent /= ry cy.
by move: hi hj; rewrite /= !addn0 => -> ->.
Qed.

(** ** The constructor *)
(** There must be at least one block; a vector or a scalar as block is rejected.  The other constructors repeat every
    block once, or a single block [reps] times. *)
Definition low x : Prop := exists2 t, x = Nm t & (trank t < 2)%N.
Theorem C34_constructor its axis :
  [/\ mk_tiled ([::] : seq (mat * nat)) axis = Raise NotFoundLookup,
      (0 < size its)%N -> (forall k, (k < size its)%N -> wf (nth it0 its k).1) -> mk_tiled its axis = ret (Tiled its axis),
      (forall k, (k < size its)%N -> wf (nth it0 its k).1 \/ low (nth it0 its k).1) ->
        (exists2 k, (k < size its)%N & low (nth it0 its k).1) -> mk_tiled its axis = Raise AssertionError &
      (forall blocks : seq mat, (0 < size blocks)%N -> (forall k, (k < size blocks)%N -> wf (nth nm0 blocks k)) ->
         exists2 a, mk_tiled_blocks blocks axis = ret a & copies (tl_items a) = blocks /\ tl_axis a = axis) /\
      (forall x r, wf x -> exists2 a, mk_tiled_single x r axis = ret a & copies (tl_items a) = nseq r x /\ tl_axis a = axis)].
Proof.
have G its' : (0 < size its')%N -> (forall k, (k < size its')%N -> wf (nth it0 its' k).1) -> mk_tiled its' axis = ret (Tiled its' axis).
  move=> n0 w; rewrite /mk_tiled (mapM_ret_nth (x0 := it0) (g := fun _ => tt)) => [|k /w]; last exact: assert_matrixE.
  by case: its' n0 w.
split=> //; first exact: G.
  move=> h [k hk lk].
  have -> : mk_tiled its axis = do _ <- mapM (fun q : mat * nat => assert_matrix q.1) its; ret (Tiled its axis) by case: its hk {h lk}.
  have L x : low x -> assert_matrix x = Raise AssertionError.
    by case=> t -> h2; rewrite /assert_matrix /rank_of /= !bind_ret /trank in h2 *; rewrite /require leqNgt h2.
  suff -> : mapM (fun q : mat * nat => assert_matrix q.1) its = Raise AssertionError by [].
  elim: its k hk h lk => [|q its IH] [|k] //= hk h lk; first by rewrite L.
  case: (h 0%N isT) => /= h0; last by rewrite L.
  by rewrite assert_matrixE // bind_ret (IH k) // => j hj; exact: (h j.+1 hj).
split=> [blocks n0 w|x r w].
  exists (Tiled [seq (b, 1%N) | b <- blocks] axis); last first.
    by split=> //=; rewrite /copies -map_comp; elim: (blocks) => //= b l ->.
  by apply: G; rewrite size_map // => k hk; rewrite (nth_map nm0) //=; exact: w.
exists (Tiled [:: (x, r)] axis); last by split=> //=; rewrite /copies /= cats0.
by apply: G => // -[].
Qed.

(** ** What does not hold *)
(** [shape] broadcasts the axis of the matrices along which the blocks are not concatenated, but [dense] raises: blocks
    of shapes 2x1 and 3x2. *)
Theorem C34_shape_refuted (o : ops F) : let a := Tiled [:: (Nm (t_ones DFloat64 [:: 1; 2]%N), 1%N); (Nm (t_ones DFloat64 [:: 2; 3]%N), 1%N)] ax2 in
  tl_shape a = ret [:: 2; 5]%N /\ exists l, tl_dense o a = RaiseL l ValueError.
Proof. by split; [|eexists]; reflexivity. Qed.
(** [dense] returns a matrix object instead of an array if a block is one. *)
Theorem C34_dense_object_refuted : exists l t, tl_dense (ops_n argsort 2) (Tiled [:: (s_dense23 F, 2%N)] ax2) = Ret l (Dense t).
Proof. by do 2 eexists; reflexivity. Qed.
End PropsTiled.

Print Assumptions C34_shape. Print Assumptions C34_dense. Print Assumptions C34_transpose. Print Assumptions C34_cast.
Print Assumptions C34_concat. Print Assumptions C34_concat_dense. Print Assumptions C34_block_diag. Print Assumptions C34_constructor.

(** ** The hypotheses can be met *)
(** Two copies of a batch of three triangular matrices and a (broadcast) diagonal matrix, stacked; and the same blocks
    concatenated along the batch axis. *)
Section Ex.
Variable F : rcfType.
Let its := [:: (s_lt F, 2%N); (s_diag F, 1%N)].
Lemma ex_wf k : (k < 2)%N -> wf (nth (Nm (t_scalar DInt 0), 0%N) its k).1 /\ (0 < (nth (Nm (t_scalar DInt 0), 0%N) its k).2)%N.
Proof. by case: k => [|[|k]] // _; split=> //; exact: s_lt_wf. Qed.
Example C34_ex_rows : tiles its 1 [:: 2; 6; 3]%N /\ resolve_axis 3 ax2 = ret 1%N.
Proof.
split=> //; split=> //; first exact: ex_wf.
- by split=> [[|[|k]]|] //; exists 0%N.
- move=> [|[|[|q]]] // _ _; split; try (by exists 0%N); case=> [|[|k]] // _; first [by left|by right].
Qed.
Example C34_ex_batch : tiles its 2 [:: 2; 2; 7]%N /\ resolve_axis 3 (Posz 0) = ret 2%N.
Proof.
split=> //; split=> //; first exact: ex_wf.
- by split=> [[|[|k]]|] //; exists 0%N.
- move=> [|[|[|q]]] // _ _; split; try (by exists 0%N); case=> [|[|k]] // _; first [by left|by right].
Qed.
Example C34_ex_concat : let xs := [:: (Tiled its ax2, 6%N); (Tiled [:: (s_lt F, 1%N)] ax2, 2%N)] in
  nth 0%N [:: 2; 8; 3]%N 1 = sumn (map snd xs) /\
  forall k (a := nth (Tiled [::] ax2, 0%N) xs k), (k < size xs)%N -> tl_axis a.1 = ax2 /\ tiles (tl_items a.1) 1 (upd [:: 2; 8; 3]%N 1 a.2).
Proof.
split=> //; case=> [|[|k]] a // _; split=> //=; first by case: C34_ex_rows.
split=> //; first by case=> // _; split=> //; exact: s_lt_wf.
- by split=> [[|k]|] //; exists 0%N.
- move=> [|[|[|q]]] // _ _; split; try (by exists 0%N); case=> // _; by left.
Qed.
Example C34_ex_concat_dense : exists z, t_concat [seq tl_den (tl_items (a : tiled F * (nat * shape)).1) a.2.1 a.2.2 |
    a <- [:: (Tiled its ax2, (1, [:: 2; 6; 3])%N); (Tiled its ax2, (1, [:: 2; 6; 3])%N)]] ax1 = ret z /\ trank z = 3%N.
Proof. by eexists; split; reflexivity. Qed.
Example C34_ex_block_diag : [/\ all (fun q : mat F * nat => isnum q.1 ==> (mbatch q.1 == [::])) its, (1 < size its)%N &
  bcall [:: 3]%N [seq mbatch q.1 | q <- its]].
Proof. by split=> // v; rewrite /= !andbT. Qed.
End Ex.
