(** * C22: take and submatrix; the rest of C12 *)
From mathcomp Require Import all_ssreflect all_algebra zify.
From Verif Require Import Outcome Monad Shape Tensor Mat Dispatch Ops Ops2 Spec ShapeThy TensorThy TensorThy2 MatThy OpsOk DenseOk LookThy AddOk MulOk OpsMain Term Calm Api Bridge Ans SumThy Types PropsStruct PropsSum PropsLift.
From Verif Require Import Samples.
Set Implicit Arguments. Unset Strict Implicit. Unset Printing Implicit Defensive.
Import GRing.Theory Num.Theory.
Local Open Scope ring_scope.

Section PropsTake.
Variable F : rcfType.
Notation tensor := (tensor F).
Notation mat := (mat F).
Variable argsort : seq F -> seq nat.
Hypothesis perm : argsort_ok argsort.
Notation answers := (answers argsort).
Implicit Types (a c : mat) (t : tensor).

Lemma hoare_rets A (m : outcome A) (P Q : A -> Prop) : hoare m P -> rets m (fun _ z => Q z) -> hoare m (fun z => P z /\ Q z).
Proof. by case: m => [l x|l ex] //= h q e; split; [exact: h|]. Qed.
Lemma rets_lowrank l r m : rets (mk_lowrank l (Some r) (Some m)) (fun _ c => c = LR l r m).
Proof. rewrite /mk_lowrank; apply: rets_bindT => ? ?; apply: rets_bindT => ? [? ?]; do 2 apply: rets_bindT => ? ?.
by rewrite bind_ret; apply: rets_ret.
Qed.
Lemma bb_depth a B : rets (broadcast_batch_to a B) (fun _ c => depth c = depth a).
Proof.
elim: a => [t|d b r c|t|t|t r c|t|t|l IHl r IHr m IHm|d l IHl r IHr m IHm|l IHl r IHr] //=.
- by apply: rets_bindT => ? ?; apply: rets_ret.
- by apply: rets_bindT => ? ?; apply: rets_ret.
- by apply: rets_bindT => ? ?; apply: rets_conseq (rk_diag _) _ => ? [].
- by apply: rets_bindT => ? ?; apply: rets_ret.
- by apply: rets_bindT => ? ?; apply: rets_conseq (rk_lt _) _ => ? [].
- by apply: rets_bindT => ? ?; apply: rets_conseq (rk_ut _) _ => ? [].
- apply: rets_bind IHl _ => _ l' hl; apply: rets_bind IHr _ => _ r' hr; apply: rets_bind IHm _ => _ m' hm.
  by apply: rets_conseq (rets_lowrank _ _ _) _ => _ c -> /=; rewrite hl hr hm.
- apply: rets_bindT => ? ?; apply: rets_bind (rk_diag _) _ => _ d' hd.
  apply: rets_bind IHl _ => _ l' hl; apply: rets_bind IHr _ => _ r' hr; apply: rets_bind IHm _ => _ m' hm.
  apply: rets_bind (rets_lowrank _ _ _) _ => _ c ->; case: d' hd => // t' _.
  rewrite /mk_woodbury; apply: rets_bindT => ? ?; apply: rets_ret => /=; by rewrite hl hr hm.
- apply: rets_bind IHl _ => _ l' hl; apply: rets_bind IHr _ => _ r' hr.
  by apply: rets_ret => /=; rewrite hl hr.
Qed.
Definition bcd a (B : shape) c := [/\ is_res c (mrows a) (mcols a) B (ent a), kfree c = kfree a, tag c = tag a & depth c = depth a].
Lemma bb_ok a B : wf a -> posn B -> bto (mbatch a) B -> hoare (broadcast_batch_to a B) (bcd a B).
Proof. by move=> w p h; apply: hoare_conseq (hoare_rets (broadcast_batch_ok w p h) (bb_depth a B)) _ => c [[]]. Qed.
Lemma align2d l (r : mat) : wf l -> wf r -> bcok (mbatch l) (mbatch r) ->
  hoare (align_batch [:: l; r]) (fun xs => exists l' r', [/\ xs = [:: l'; r'],
     bcd l (bct (mbatch l) (mbatch r)) l' & bcd r (bct (mbatch l) (mbatch r)) r']).
Proof.
move=> wl wr o; rewrite /align_batch /shape_batch_broadcast /= !shape_batchE // !bind_ret.
have -> : expand_and_broadcast [:: mbatch l; mbatch r] = ret (bct (mbatch l) (mbatch r)) by apply: eab_two.
have pb := posn_bct (mbatch_pos wl) (mbatch_pos wr).
rewrite bind_ret; apply: (hoare_bind (bb_ok wl pb (bct_ubl o))) => l' hl.
rewrite bindA; apply: (hoare_bind (bb_ok wr pb (bct_ubr o))) => r' hr.
by rewrite !bind_ret; apply: hoare_ret; exists l', r'.
Qed.
Lemma align3d l (r : mat) m : wf (LR l r m) ->
  hoare (align_batch [:: l; m; r]) (fun xs => exists l' m' r', [/\ xs = [:: l'; m'; r'],
     bcd l (mbatch (LR l r m)) l', bcd m (mbatch (LR l r m)) m' & bcd r (mbatch (LR l r m)) r']).
Proof.
case=> wl wr wm _ /and4P[_ _ o1 o2].
have [u1 u2 u3] : [/\ bto (mbatch l) (mbatch (LR l r m)), bto (mbatch m) (mbatch (LR l r m)) & bto (mbatch r) (mbatch (LR l r m))].
  by have := bct_ubl o2; rewrite bto_bct // => /andP[]; split=> //; exact: bct_ubr.
have o3 : bcok (mbatch l) (mbatch m) by exact: bcok_ub u1 u2.
have o4 : bcok (bct (mbatch l) (mbatch m)) (mbatch r) by apply: (@bcok_ub (mbatch (LR l r m))) => //; rewrite bto_bct // u1.
rewrite /align_batch /shape_batch_broadcast /= !shape_batchE // !bind_ret.
have -> : expand_and_broadcast [:: mbatch l; mbatch m; mbatch r] = ret (mbatch (LR l r m)).
  rewrite (eab_three o3 o4) /=; congr ret; apply: bto_ext => u; rewrite !bto_bct //.
  by rewrite -!andbA; congr andb; rewrite andbC.
have pb : posn (mbatch (LR l r m)) by rewrite /= !posn_bct //; exact: mbatch_pos.
rewrite bind_ret; apply: (hoare_bind (bb_ok wl pb u1)) => l' hl.
rewrite bindA; apply: (hoare_bind (bb_ok wm pb u2)) => m' hm.
rewrite !bindA; apply: (hoare_bind (bb_ok wr pb u3)) => r' hr.
by rewrite !bind_ret; apply: hoare_ret; exists l', m', r'.
Qed.

(** ** Selecting entries *)
(** [ns] selects rows ([p = 1]), columns ([p = 0]) or batch elements of [a]. *)
Definition tk_post a (p : nat) (ns : seq nat) c : Prop :=
  match p with
  | 0 => is_res c (mrows a) (size ns) (mbatch a) (fun be i j => ent a be i (nth 0%N ns j))
  | 1 => is_res c (size ns) (mcols a) (mbatch a) (fun be i j => ent a be (nth 0%N ns i) j)
  | q.+2 => is_res c (mrows a) (mcols a) (upd (mbatch a) q (size ns)) (fun be i j => ent a (selb (mbatch a) q ns be) i j)
  end.
Definition tkt (t : tensor) (r k : nat) (b : shape) g (p : nat) (ns : seq nat) : Prop :=
  match p with
  | 0 => tmat t r (size ns) b (fun be i j => g be i (nth 0%N ns j))
  | 1 => tmat t (size ns) k b (fun be i j => g be (nth 0%N ns i) j)
  | q.+2 => tmat t r k (upd b q (size ns)) (fun be i j => g (selb b q ns be) i j)
  end.
Lemma take_num t r k b (g : seq nat -> nat -> nat -> F) p x ns : tmat t r k b g -> (p < (size b).+2)%N ->
  resolve_iom (nth 0%N [:: k, r & b] p) x = ret ns -> (0 < size ns)%N ->
  hoare (t_take_pos t x p) (fun z => tkt z r k b g p ns).
Proof.
move=> ht hp hx n0; have hl := resolve_iom_lt hx.
case: p hp hx hl => [|[|q]] hp hx hl; [exact (tmat_take0 ht hx n0 hl)|exact (tmat_take1 ht hx n0 hl)|exact (tmat_takeb ht hp hx n0 hl)].
Qed.
Lemma count_iom_size d x ns : resolve_iom d x = ret ns -> count_iom x = size ns.
Proof.
case: x => [l|m] /=.
- elim: l ns => [|i l IH] ns /=; first by case=> <-.
  case E1: (resolve_index d i) => [lg n|//]; case E2: (mapM _ l) => [lg2 ns2|//] /=.
  have : calm (mapM (resolve_index d) l).
    by apply: calm_mapM => -[] k; rewrite /resolve_index; case: ifP.
  by rewrite E2 /= => e; rewrite e in E2; rewrite /ret /= => -[_ _ <-] /=; rewrite (IH ns2).
- case: eqP => // _ [<-]; rewrite /mask_positions size_map size_filter.
  elim: m {d} 0%N => //= b m IH k; by rewrite (IH k.+1).
Qed.
Lemma axis_pos k p : (p < k)%N -> resolve_axis k (Posz (k - p.+1)) = ret p.
Proof. move=> h; rewrite /resolve_axis; have -> : (k - p.+1 < k)%N by lia. by congr ret; lia. Qed.
Lemma axis_neg k p : (p < k)%N -> resolve_axis k (Negz p) = ret p.
Proof. by move=> h; rewrite /resolve_axis h. Qed.
(** The factor of a low-rank matrix from which rows are taken is not a batch of numeric arrays:
    [B.take] of a numeric array takes along axis 0 by default. *)
Definition numok a : bool := if a is Nm _ then mbatch a == [::] else true.
Fixpoint tk_row a : bool :=
  match a with LR l _ _ | Wb _ l _ _ => numok l && tk_row l | _ => true end.
Definition tk_col a : bool :=
  match a with LR _ r _ | Wb _ _ r _ => numok r && tk_row r | _ => true end.
Definition tk_side a (p : nat) : bool := match p with 0 => tk_col a | 1 => tk_row a | _ => true end.
Lemma axis_default a : wf a -> numok a -> resolve_axis (size (mshape a)) (default_axis a) = ret 1%N.
Proof. by case: a => //= t w /eqP ->. Qed.
Lemma tk_res a' a p ns c : mrows a' = mrows a -> mcols a' = mcols a -> mbatch a' = mbatch a -> (p < (size (mbatch a)).+2)%N ->
  all (fun n => n < nth 0%N (mshape a) p)%N ns ->
  (forall be i j, okb (mbatch a) be -> (i < mrows a)%N -> (j < mcols a)%N -> ent a' be i j = ent a be i j) ->
  tk_post a' p ns c -> tk_post a p ns c.
Proof.
move=> e1 e2 e3 hp hn e4; have L k : (k < size ns)%N -> (nth 0%N ns k < nth 0%N (mshape a) p)%N.
  by move=> hk; move/allP: hn; apply; apply: mem_nth.
case: p hp hn L => [|[|q]] hp hn L; rewrite /tk_post ?e1 ?e2 ?e3 => h; apply: res_ext h _ => be i j hb hi hj; apply: e4 => //; try exact: L.
by apply: okb_inb; exact: inb_selb.
Qed.
Definition takes n := forall a x axis p ns, wf a -> (depth a <= n)%N ->
  resolve_axis (size (mshape a)) axis = ret p -> resolve_iom (nth 0%N (mshape a) p) x = ret ns -> (0 < size ns)%N ->
  tk_side a p -> answers (fun o => take_n o n a x axis) (fun c => tk_post a p ns c /\ (kfree a -> kfree c)).
Lemma take_bcd n l b l' x q ns k : takes n -> bcd l b l' -> (depth l <= n)%N -> k = (size b).+2 -> (q < size b)%N ->
  resolve_iom (nth 0%N b q) x = ret ns -> (0 < size ns)%N ->
  answers (fun o => take_n o n l' x (Posz (k - q.+3))) (fun c =>
    is_res c (mrows l) (mcols l) (upd b q (size ns)) (fun be i j => ent l (selb b q ns be) i j) /\ (kfree l -> kfree c)).
Proof.
move=> IH [[w [e1 e2] e3 e4] kf _ hd] h1 -> hq hx n0; have hn := resolve_iom_lt hx.
rewrite -e3 in hx hq *; rewrite -hd in h1; rewrite -e1 -e2 -kf.
have hr : resolve_axis (size (mshape l')) (Posz ((size (mbatch l')).+2 - q.+3)) = ret q.+2 by rewrite axis_pos.
apply: ans_conseq (IH l' x _ q.+2 ns w h1 hr hx n0 isT) _ => c [h k']; split=> //.
apply: res_ext h _ => be i j hb hi hj; apply: e4; rewrite -?e1 -?e2 // -e3; apply: okb_inb; apply: inb_selb hb => //; by rewrite e3.
Qed.
Lemma take_ok n a x axis p ns : wf a -> (depth a <= n)%N ->
  resolve_axis (size (mshape a)) axis = ret p -> resolve_iom (nth 0%N (mshape a) p) x = ret ns -> (0 < size ns)%N ->
  tk_side a p -> answers (fun o => take_n o n a x axis) (fun c => tk_post a p ns c /\ (kfree a -> kfree c)).
Proof.
elim: n a x axis p ns => [|n IH] a x axis p ns w hd hp hx n0 sd; first by case: a hd {w hp hx sd}.
have hp' : (p < (size (mbatch a)).+2)%N.
  by move: hp; rewrite /resolve_axis /mshape /=; case: axis => k; case: ifP => // h []; lia.
have hl := resolve_iom_lt hx.
have hr : rank_of a = ret (size (mshape a)) by rewrite /rank_of shape_ofE // bind_ret.
apply: ans_ext (_ : forall o, take_step o (take_n o n) a x axis = _) _ => //.
rewrite /take_step; apply: (ans_eq hr); apply: (ans_eq hp).
have num t : a = Nm t \/ a = Dense t \/ a = LT t \/ a = UT t -> hoare (t_take_pos t x p) (fun z => tkt z (mrows a) (mcols a) (mbatch a) (ent a) p ns).
  by move=> h; apply: take_num (tmat_num w h) hp' hx n0.
have tkd u : tkt u (mrows a) (mcols a) (mbatch a) (ent a) p ns -> tk_post a p ns (mk_dense u).
  by case: (p) => [|[|q]]; exact: res_mk_dense.
have gen : answers (fun o => take_gen o a x p) (fun c => tk_post a p ns c /\ (kfree a -> kfree c)).
  apply: ans_warn; apply: ans_bind (ans_dense perm w) _ => t ht.
  apply: ans_bindc (cm_takepos _ _ _) (take_num ht hp' hx n0) _ => u hu.
  by apply: ans_ret; split; [exact: tkd|].
case: a w hd hp hx sd hp' hl hr num tkd gen => [t|d b r k|t|t|t r k|t|t|l r m|d l r m|l r] w hd hp hx sd hp' hl hr num tkd gen.
- apply: ans_bindc (cm_takepos _ _ _) (num t (or_introl erefl)) _ => u hu; apply: ans_ret; split=> //.
  by move: hu; case: (p) => [|[|q]]; exact: res_num.
- rewrite (count_iom_size hx); have [k0 r0 b0] := posn3 (w : posn [:: k, r & b]).
  case: p hp hx sd hp' hl num tkd gen => [|[|q]] hp hx sd hp' hl num tkd gen; apply: ans_ret; split=> //; split=> //=.
  + by rewrite !posn_cons r0 n0.
  + by rewrite !posn_cons k0 n0.
  + by rewrite !posn_cons k0 r0 posn_upd.
- exact: gen.
- case: p hp hx sd hp' hl num tkd gen => [|[|q]] hp hx sd hp' hl num tkd gen; try exact: gen.
  have ht := tvec_wfv (w : wfv t).
  have E : t_take t x (Posz (size (mshape (Diag t : mat)) - q.+3)) = t_take_pos t x q.+1.
    rewrite /t_take; have -> : (size (mshape (Diag t : mat)) - q.+3 = trank t - q.+2)%N.
      by case: (ht) => e _ _; rewrite /trank e /= size_behead e.
    rewrite axis_pos ?bind_ret //; case: (ht) => e _ _; rewrite /trank e /=; move: hp'; rewrite /= size_behead e /=; lia.
  apply: ans_ext (_ : forall o, (do u <- t_take_pos t x q.+1; mk_diag u) = _) _; first by move=> o; rewrite E.
  apply: ans_bindc (cm_takepos _ _ _) (tvec_takeb ht _ hx n0 hl) _ => [|u hu]; first exact: hp'.
  apply: ans_calm; first exact: cm_mk_diag.
  by rewrite (mk_diag_tvec hu); apply: hoare_ret; split=> //; exact: res_diag hu.
- have [p0 p1 p2] := posn3 (w : posn [:: k, r & sh t]).
  rewrite (count_iom_size hx).
  case: p hp hx sd hp' hl num tkd gen => [|[|q]] hp hx sd hp' hl num tkd gen /=.
  + by apply: ans_ret; split=> //; exact (res_const (tsca_posn p2) p1 n0).
  + by apply: ans_ret; split=> //; exact (res_const (tsca_posn p2) n0 p0).
  have E : t_take t x (Posz (size (mshape (Const t r k : mat)) - q.+3)) = t_take_pos t x q.
    rewrite /t_take; have -> : (size (mshape (Const t r k : mat)) - q.+3 = trank t - q.+1)%N by rewrite /trank /=; lia.
    by rewrite axis_pos ?bind_ret.
  apply: ans_ext (_ : forall o, (do u <- t_take_pos t x q; mk_const u [:: k; r]) = _) _; first by move=> o; rewrite E.
  apply: ans_bindc (cm_takepos _ _ _) (tsca_takeb (tsca_posn p2) _ hx n0 hl) _ => [|u hu]; first exact: hp'.
  by apply: ans_ret; split=> //; exact (res_const hu p1 p0).
- apply: ans_bindc (cm_takepos _ _ _) (num t (or_intror (or_intror (or_introl erefl)))) _ => u hu.
  case: p hp hx sd hp' hl num tkd gen hu => [|[|q]] hp hx sd hp' hl num tkd gen hu;
    try by apply: ans_ret; split=> //; exact: tkd.
  apply: ans_calm; first exact: cm_mk_lt.
  rewrite (mk_lt_tmat hu); apply: hoare_ret; split=> //; apply: res_lt hu _ => be i j hb hi hj hij.
  by case: w => _; apply=> //; apply: okb_inb; exact: inb_selb.
- apply: ans_bindc (cm_takepos _ _ _) (num t (or_intror (or_intror (or_intror erefl)))) _ => u hu.
  case: p hp hx sd hp' hl num tkd gen hu => [|[|q]] hp hx sd hp' hl num tkd gen hu;
    try by apply: ans_ret; split=> //; exact: tkd.
  apply: ans_calm; first exact: cm_mk_ut.
  rewrite (mk_ut_tmat hu); apply: hoare_ret; split=> //; apply: res_ut hu _ => be i j hb hi hj hij.
  by case: w => _; apply=> //; apply: okb_inb; exact: inb_selb.
- case: (w) => wl wr wm /and3P[kl kr km] /and4P[/eqP e1 /eqP e2 o1 o2].
  have {hd} /and3P[dl dr dm] : [&& depth l <= n, depth r <= n & depth m <= n]%N by move: hd; rewrite /= ltnS !geq_max.
  have [u1 u2 u3] : [/\ bto (mbatch l) (mbatch (LR l r m)), bto (mbatch m) (mbatch (LR l r m)) & bto (mbatch r) (mbatch (LR l r m))].
    by have := bct_ubl o2; rewrite bto_bct // => /andP[]; split=> //; exact: bct_ubr.
  have hm := res_wf wm; rewrite -e1 -e2 in hm.
  case: p hp hx sd hp' hl num tkd gen => [|[|q]] hp hx sd hp' hl num tkd gen /=.
  + case/andP: sd => s1 s2.
    apply: ans_bind (IH r x _ 1%N ns wr dr (axis_default wr s1) hx n0 s2) _ => r' [hr' kr'].
    apply: ans_calm; first exact: cm_mk_lowrank.
    by apply: hoare_conseq (mk_lowrank_res (res_wf wl) hr' hm kl (kr' kr) km u1 u3 u2) _ => c [h [k _]].
  + case/andP: sd => s1 s2.
    apply: ans_bind (IH l x _ 1%N ns wl dl (axis_default wl s1) hx n0 s2) _ => l' [hl' kl'].
    apply: ans_calm; first exact: cm_mk_lowrank.
    by apply: hoare_conseq (mk_lowrank_res hl' (res_wf wr) hm (kl' kl) kr km u1 u3 u2) _ => c [h [k _]].
  apply: ans_bindc (cm_align_batch _) (align3d w) _ => xs [l' [m' [r' [-> hl' hm' hr']]]] /=.
  apply: ans_bind (take_bcd IH hl' dl erefl hp' hx n0) _ => l2 [hl2 kl2].
  apply: ans_bind (take_bcd IH hr' dr erefl hp' hx n0) _ => r2 [hr2 kr2].
  apply: ans_bind (take_bcd IH hm' dm erefl hp' hx n0) _ => m2 [hm2 km2].
  rewrite -e1 -e2 in hm2; apply: ans_calm; first exact: cm_mk_lowrank.
  apply: hoare_conseq (mk_lowrank_res hl2 hr2 hm2 (kl2 kl) (kr2 kr) (km2 km) (bto_refl _) (bto_refl _) (bto_refl _)) _ => c [h [k _]].
  by split=> //; apply: res_cast h _ _ => //; rewrite !bctss.
- have wd := wf_wb_d w; have wl := wf_wb_lr w.
  have o : bcok (mbatch (Diag d : mat)) (mbatch (LR l r m)) by case: w => _ /and4P[].
  have [rl rr] : mrows l = tcols d /\ mrows r = tcols d by case: (w) => _ /and4P[_ /eqP ? /eqP ? _].
  have [dd dl] : (depth (Diag d : mat) <= n)%N /\ (depth (LR l r m) <= n)%N by move: hd; rewrite /=; lia.
  have kl : kfree (LR l r m) by case: w => -[].
  case: p hp hx sd hp' hl num tkd gen => [|[|q]] hp hx sd hp' hl num tkd gen /=.
  + have hx1 : resolve_iom (nth 0%N (mshape (Diag d : mat)) 0) x = ret ns by [].
    have hx2 : resolve_iom (nth 0%N (mshape (LR l r m)) 0) x = ret ns by rewrite /= rr.
    apply: ans_bind (IH (Diag d) x (Negz 0) 0%N ns wd dd erefl hx1 n0 isT) _ => x1 [h1 k1].
    apply: ans_bind (IH (LR l r m) x (Negz 0) 0%N ns wl dl erefl hx2 n0 sd) _ => x2 [h2 k2].
    rewrite /tk_post /= rl in h1 h2.
    apply: ans_conseq (ans_add_rese perm h1 h2 o) _ => z [hz kz]; split; last by move=> _; apply: kz; [exact: k1|exact: k2].
    exact: hz.
  + have hx1 : resolve_iom (nth 0%N (mshape (Diag d : mat)) 1) x = ret ns by [].
    have hx2 : resolve_iom (nth 0%N (mshape (LR l r m)) 1) x = ret ns by rewrite /= rl.
    apply: ans_bind (IH (Diag d) x (Negz 1) 1%N ns wd dd erefl hx1 n0 isT) _ => x1 [h1 k1].
    apply: ans_bind (IH (LR l r m) x (Negz 1) 1%N ns wl dl erefl hx2 n0 sd) _ => x2 [h2 k2].
    rewrite /tk_post /= rr in h1 h2.
    apply: ans_conseq (ans_add_rese perm h1 h2 o) _ => z [hz kz]; split; last by move=> _; apply: kz; [exact: k1|exact: k2].
    exact: hz.
  apply: ans_bindc (cm_align_batch _) (align2d wd wl o) _ => xs [x1 [x2 [-> h1 h2]]] /=.
  apply: ans_bind (take_bcd IH h1 dd erefl hp' hx n0) _ => y1 [g1 k1].
  apply: ans_bind (take_bcd IH h2 dl erefl hp' hx n0) _ => y2 [g2 k2].
  rewrite /= rl rr in g2.
  apply: ans_conseq (ans_add_rese perm g1 g2 (bcokss _)) _ => z [hz kz]; split; last by move=> _; apply: kz; [exact: k1|exact: k2].
  by apply: res_cast hz (bctss _) _.
- case: p hp hx sd hp' hl num tkd gen => [|[|q]] hp hx sd hp' hl num tkd gen; try exact: gen.
  case: (w) => wl wr o.
  have [dl dr] : (depth l <= n)%N /\ (depth r <= n)%N by move: hd; rewrite /=; lia.
  apply: ans_bindc (cm_align_batch _) (align2d wl wr o) _ => xs [x1 [x2 [-> h1 h2]]] /=.
  apply: ans_bind (take_bcd IH h1 dl erefl hp' hx n0) _ => y1 [[w1 [r1 c1] b1 g1] _].
  apply: ans_bind (take_bcd IH h2 dr erefl hp' hx n0) _ => y2 [[w2 [r2 c2] b2 g2] _].
  apply: ans_ret; split=> //; split; rewrite /= ?r1 ?r2 ?c1 ?c2 ?b1 ?b2 ?bctss ?bcokss //.
  move=> be i j hb hi hj; have [p1 p2 _] := posn3 (wf_posn wr).
  by rewrite g1 ?g2 ?ltn_mod ?ltn_divLR.
Qed.

(** ** C22, C12: take *)
Lemma take_op_ok a x (axis : int) p ns : wf a -> resolve_axis (size (mshape a)) axis = ret p ->
  resolve_iom (nth 0%N (mshape a) p) x = ret ns -> (0 < size ns)%N -> tk_side a p ->
  answers (fun o => take_op o a x axis) (fun c => tk_post a p ns c /\ (kfree a -> kfree c)).
Proof. by move=> w hp hx n0 sd; exact: take_ok. Qed.
(** [take] on any valid axis, with indices (also negative ones) or a mask which select something. *)
Theorem C22_take a x (axis : int) p ns : wf a -> resolve_axis (size (mshape a)) axis = ret p ->
  resolve_iom (nth 0%N (mshape a) p) x = ret ns -> (0 < size ns)%N -> tk_side a p ->
  answers (fun o => take_op o a x axis) (fun c => is_value (t_take (den a) x axis) (arr c)).
Proof.
move=> w hp hx n0 sd; have hp' : (p < (size (mbatch a)).+2)%N.
  by move: hp; rewrite /resolve_axis /mshape /=; case: axis => k; case: ifP => // h []; lia.
apply: ans_conseq (take_op_ok w hp hx n0 sd) _ => c [hc _].
have H := take_num (den_tmat w) hp' hx n0.
have E : t_take (den a) x axis = t_take_pos (den a) x p by rewrite /t_take /trank hp bind_ret.
by rewrite E; case: p hp hx sd hp' hc H E => [|[|q]] hp hx sd hp' hc H E; exact: value_arr (cm_takepos _ _ _) H hc.
Qed.
Theorem C12_take a x (axis : int) p ns : wf a -> resolve_axis (size (mshape a)) axis = ret p ->
  resolve_iom (nth 0%N (mshape a) p) x = ret ns -> (0 < size ns)%N -> tk_side a p ->
  answers (fun o => take_op o a x axis) (@tri_ok F).
Proof.
move=> w hp hx n0 sd; apply: ans_conseq (take_op_ok w hp hx n0 sd) _ => c [hc _]; apply: wf_tri.
by case: p hp hx sd hc => [|[|q]] hp hx sd [].
Qed.

(** ** submatrix *)
(** A diagonal needs different indices, a triangular matrix increasing ones. *)
Definition sub_side a (ns : seq nat) : bool :=
  match a with
  | Diag _ => uniq ns
  | LT _ | UT _ => sorted ltn ns
  | LR l r _ => tk_row l && tk_row r
  | Wb _ l r _ => [&& uniq ns, tk_row l & tk_row r]
  | _ => true
  end.
Lemma mask_sorted (m : seq bool) : sorted ltn (mask_positions m).
Proof.
have -> : mask_positions m = mask m (iota 0 (size m)).
  rewrite /mask_positions; elim: m 0%N => //= b m IH k; rewrite -(IH k.+1); by case: b.
by apply: sorted_mask; [exact: ltn_trans|exact: iota_ltn_sorted].
Qed.
Lemma tmat_sub t n b g x ns : tmat t n n b g -> resolve_iom n x = ret ns -> (0 < size ns)%N ->
  hoare (t_submatrix t x) (fun z => tmat z (size ns) (size ns) b (fun be i j => g be (nth 0%N ns i) (nth 0%N ns j))).
Proof.
move=> ht hx n0; have hn := resolve_iom_lt hx; rewrite /t_submatrix /t_take.
have -> : resolve_axis (trank t) ax2 = ret 1%N by case: ht => e _ _; rewrite /trank e.
rewrite bind_ret; apply: hoare_bind (tmat_take1 ht hx n0 hn) _ => u hu.
have -> : resolve_axis (trank u) ax1 = ret 0%N by case: hu => e _ _; rewrite /trank e.
by rewrite bind_ret; exact: (tmat_take0 hu hx n0 hn).
Qed.
Lemma tvec_take t n b g x ns : tvec t n b g -> resolve_iom n x = ret ns -> (0 < size ns)%N ->
  hoare (t_take t x ax1) (fun z => tvec z (size ns) b (fun be i => g be (nth 0%N ns i))).
Proof.
move=> ht hx n0; have hn := resolve_iom_lt hx; case: (ht) => e _ _; rewrite /t_take.
have -> : resolve_axis (trank t) ax1 = ret 0%N by rewrite /trank e.
by rewrite bind_ret /t_take_pos e /= hx bind_ret; apply: hoare_ret; exact (tvec_take_nat0 ht n0 hn).
Qed.
Lemma cm_sub t x : calm (t_submatrix t x).
Proof. by apply: calm_bind => [|?]; exact: cm_take. Qed.
Lemma sub_ok a x ns : wf a -> mrows a = mcols a -> resolve_iom (mrows a) x = ret ns -> (0 < size ns)%N -> sub_side a ns ->
  answers (fun o => submatrix o a x) (fun c => is_res c (size ns) (size ns) (mbatch a)
    (fun be i j => ent a be (nth 0%N ns i) (nth 0%N ns j)) /\ (tag c = if a is Kron _ _ then 2%N else tag a)).
Proof.
move=> w sq hx n0 sd; have hn := resolve_iom_lt hx.
have nlt i : (i < size ns)%N -> (nth 0%N ns i < mrows a)%N by move=> hi; move/allP: hn; apply; exact: mem_nth.
have num t : a = Nm t \/ a = Dense t \/ a = LT t \/ a = UT t ->
  hoare (t_submatrix t x) (fun z => tmat z (size ns) (size ns) (mbatch a) (fun be i j => ent a be (nth 0%N ns i) (nth 0%N ns j))).
  by move=> h; have ht := tmat_num w h; rewrite -sq in ht; exact: tmat_sub ht hx n0.
have gen : answers (fun o => do _ <- warn_if (structured a); do t <- o_dense o a; do u <- t_submatrix t x; ret (mk_dense u))
  (fun c => is_res c (size ns) (size ns) (mbatch a) (fun be i j => ent a be (nth 0%N ns i) (nth 0%N ns j)) /\ tag c = 2%N).
  apply: ans_warn; apply: ans_bind (ans_dense perm w) _ => t; rewrite -sq => ht.
  apply: ans_bindc (cm_sub _ _) (tmat_sub ht hx n0) _ => u hu; apply: ans_ret; split; first exact: res_mk_dense.
  by rewrite (mk_dense_tmat hu).
have inc i j : sorted ltn ns -> (i < size ns)%N -> (j < size ns)%N -> (i < j)%N -> (nth 0%N ns i < nth 0%N ns j)%N.
  by move=> h hi hj hij; exact: (sorted_ltn_nth ltn_trans 0%N h).
have lrs l r m : wf (LR l r m) -> mrows l = mrows a -> mrows r = mrows a -> tk_row l -> tk_row r ->
    answers (fun o => submatrix_lr o l r m x) (fun c => (exists l' r' m', c = LR l' r' m') /\ kfree c /\
      is_res c (size ns) (size ns) (mbatch (LR l r m)) (fun be i j => ent (LR l r m) be (nth 0%N ns i) (nth 0%N ns j))).
  move=> w' e1 e2 s1 s2; case: (w') => wl wr wm /and3P[kl kr km] /and4P[/eqP e3 /eqP e4 o1 o2].
  have [u1 u2 u3] : [/\ bto (mbatch l) (mbatch (LR l r m)), bto (mbatch m) (mbatch (LR l r m)) & bto (mbatch r) (mbatch (LR l r m))].
    by have := bct_ubl o2; rewrite bto_bct // => /andP[]; split=> //; exact: bct_ubr.
  have hm := res_wf wm; rewrite -e3 -e4 in hm.
  have A (y : mat) : wf y -> resolve_axis (size (mshape y)) ax2 = ret 1%N by [].
  have hx1 : resolve_iom (nth 0%N (mshape l) 1) x = ret ns by rewrite /= e1.
  have hx2 : resolve_iom (nth 0%N (mshape r) 1) x = ret ns by rewrite /= e2.
  apply: ans_bind (take_op_ok wl (A l wl) hx1 n0 s1) _ => l' [hl' kl'].
  apply: ans_bind (take_op_ok wr (A r wr) hx2 n0 s2) _ => r' [hr' kr'].
  apply: ans_calm; first exact: cm_mk_lowrank.
  apply: hoare_conseq (mk_lowrank_res hl' hr' hm (kl' kl) (kr' kr) km u1 u3 u2) _ => c [h [k e]].
  by split; [exists l', r', m|split].
case: a w sq hx sd hn nlt num gen lrs => [t|d b r k|t|t|t r k|t|t|l r m|d l r m|l r] w sq hx sd hn nlt num gen lrs; try exact: gen.
- apply: ans_bindc (cm_sub _ _) (num t (or_introl erefl)) _ => u hu; apply: ans_ret; split=> //; exact: res_num.
- rewrite /submatrix (count_iom_size hx); apply: ans_ret; split=> //; split=> //.
  by have [_ _ b0] := posn3 (w : posn [:: k, r & b]); rewrite /= !posn_cons n0.
- have ht := tvec_wfv (w : wfv t).
  apply: ans_bindc (cm_take _ _ _) (tvec_take ht hx n0) _ => u hu; apply: ans_calm; first exact: cm_mk_diag.
  rewrite (mk_diag_tvec hu); apply: hoare_ret; split=> //; apply: res_ext (res_diag hu) _ => be i j hb hi hj /=.
  by rewrite nth_uniq.
- have [p0 p1 p2] := posn3 (w : posn [:: k, r & sh t]); rewrite /submatrix (count_iom_size hx).
  have pn : posn [:: size ns, size ns & sh t] by rewrite !posn_cons n0.
  apply: ans_calm; first exact: cm_mk_const.
  by apply: hoare_conseq (mk_const_ok (tsca_posn p2) pn (bto_refl _)) _ => c [h _ tg].
- apply: ans_bindc (cm_sub _ _) (num t (or_intror (or_intror (or_introl erefl)))) _ => u hu.
  apply: ans_calm; first exact: cm_mk_lt.
  rewrite (mk_lt_tmat hu); apply: hoare_ret; split=> //; apply: res_lt hu _ => be i j hb hi hj hij.
  by case: w => _; apply=> //; [exact: nlt|rewrite [tcols t](esym sq); exact: nlt|exact: inc].
- apply: ans_bindc (cm_sub _ _) (num t (or_intror (or_intror (or_intror erefl)))) _ => u hu.
  apply: ans_calm; first exact: cm_mk_ut.
  rewrite (mk_ut_tmat hu); apply: hoare_ret; split=> //; apply: res_ut hu _ => be i j hb hi hj hij.
  by case: w => _; apply=> //; [exact: nlt|rewrite [tcols t](esym sq); exact: nlt|exact: inc].
- case/andP: sd => s1 s2; apply: ans_conseq (lrs l r m w erefl (esym sq) s1 s2) _ => c [[l' [r' [m' ->]]] [_ h]].
  by split.
- case/and3P: sd => un s1 s2; have wd := wf_wb_d w; have wl := wf_wb_lr w.
  have o : bcok (mbatch (Diag d : mat)) (mbatch (LR l r m)) by case: w => _ /and4P[].
  have [rl rr] : mrows l = tcols d /\ mrows r = tcols d by case: (w) => _ /and4P[_ /eqP ? /eqP ? _].
  have hx1 : resolve_iom (tcols d) x = ret ns by [].
  apply: ans_bindc (cm_take _ _ _) (tvec_take (tvec_wfv (wd : wfv d)) hx1 n0) _ => u hu.
  apply: ans_eq (mk_diag_tvec hu) _.
  apply: ans_bind (lrs l r m wl rl rr s1 s2) _ => c [[l' [r' [m' ->]]] [kc hc]].
  have [E h] := mk_woodbury_res hu hc o; apply: ans_ext (_ : forall o, ret (Wb u l' r' m') = _) _; first by move=> ?; rewrite E.
  apply: ans_ret; split=> //; apply: res_ext h _ => be i j hb hi hj /=.
  by rewrite nth_uniq.
Qed.
Theorem C22_submatrix a x ns : wf a -> mrows a = mcols a -> resolve_iom (mrows a) x = ret ns -> (0 < size ns)%N -> sub_side a ns ->
  answers (fun o => submatrix o a x) (fun c => is_value (t_submatrix (den a) x) (arr c)).
Proof.
move=> w sq hx n0 sd; apply: ans_conseq (sub_ok w sq hx n0 sd) _ => c [hc _].
have ht := den_tmat w; rewrite -sq in ht; exact: value_arr (cm_sub _ _) (tmat_sub ht hx n0) hc.
Qed.
(** The class is kept, except that Kronecker products become dense. *)
Theorem C22_submatrix_class a x ns : wf a -> mrows a = mcols a -> resolve_iom (mrows a) x = ret ns -> (0 < size ns)%N -> sub_side a ns ->
  answers (fun o => submatrix o a x) (fun c => ty_of c = match ty_of a with Some TKron => Some TDense | y => y end).
Proof.
move=> w sq hx n0 sd; apply: ans_conseq (sub_ok w sq hx n0 sd) _ => c [_ h].
by case: a w sq hx sd h => [t|d b r k|t|t|t r k|t|t|l r m|d l r m|l r] w sq hx sd; case: c.
Qed.
Theorem C12_submatrix a x ns : wf a -> mrows a = mcols a -> resolve_iom (mrows a) x = ret ns -> (0 < size ns)%N -> sub_side a ns ->
  answers (fun o => submatrix o a x) (@tri_ok F).
Proof. by move=> w sq hx n0 sd; apply: ans_conseq (sub_ok w sq hx n0 sd) _ => c [[/wf_tri]]. Qed.
(** Masks always meet the conditions on the indices. *)
Theorem C22_mask (m : seq bool) d ns : resolve_iom d (Mask m) = ret ns -> sorted ltn ns /\ uniq ns.
Proof.
rewrite /=; case: eqP => // _ [<-]; have h := mask_sorted m; split=> //.
by apply: sorted_uniq h; [exact: ltn_trans|exact: ltnn].
Qed.
End PropsTake.
Print Assumptions C22_take. Print Assumptions C22_submatrix. Print Assumptions C22_submatrix_class. Print Assumptions C22_mask.
Print Assumptions C12_take. Print Assumptions C12_submatrix.
(** The hypotheses can be met: rows of a Woodbury matrix (with a negative index), a batch element of a Kronecker product,
    a submatrix of a batch of triangular matrices. *)
Example C22_ex (F : rcfType) : [/\ wf (s_wb F), resolve_axis (size (mshape (s_wb F))) ax2 = ret 1%N,
  resolve_iom (nth 0%N (mshape (s_wb F)) 1) (Idx [:: Negz 0; Posz 1]) = ret [:: 1; 1]%N & tk_side (s_wb F) 1].
Proof. by []. Qed.
Example C22_ex_batch (F : rcfType) : [/\ wf (s_kron F), resolve_axis (size (mshape (s_kron F))) (Posz 0) = ret 2%N,
  resolve_iom (nth 0%N (mshape (s_kron F)) 2) (Mask [:: true; false; true]) = ret [:: 0; 2]%N & tk_side (s_kron F) 2].
Proof. by split; [exact: s_kron_wf| | |]. Qed.
Example C22_ex_sub (F : rcfType) : [/\ wf (s_lt F), mrows (s_lt F) = mcols (s_lt F),
  resolve_iom (mrows (s_lt F)) (Mask [:: true; true]) = ret [:: 0; 1]%N & sub_side (s_lt F) [:: 0; 1]%N].
Proof. by split; [exact: s_lt_wf| | |]. Qed.
