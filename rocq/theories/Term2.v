(** * Termination of the core operations: the method bodies (proof support) *)
From mathcomp Require Import all_ssreflect all_algebra.
From mathcomp Require Import zify.
From Verif Require Import Outcome Monad Shape Tensor Mat Dispatch LookThy Ops Spec MatThy AddOk Term.
Set Implicit Arguments. Unset Strict Implicit. Unset Printing Implicit Defensive.
Import GRing.Theory.
Local Open Scope nat_scope.
Local Arguments expand_and_broadcast : simpl never.
Local Arguments broadcast : simpl never.

(** Ranks: how often a call with this weight can be passed on unchanged. *)
Definition rk_add (x y : ty) : nat :=
  match selof add_rows x y with
  | Ret _ ARev => 3 | Ret _ AConstDiag | Ret _ ALRConst => 2 | _ => 1 end.
Definition rk_mul (x y : ty) : nat :=
  match selof mul_rows x y with Ret _ MRev => 5 | _ => 4 end.
Definition tri (x : ty) : nat := match x with TLT | TUT => 3 | _ => 0 end.
Definition rk_mm (x y : ty) (ta tb : bool) : nat :=
  6 + tri x + tri y + (ta || tb) +
  match x, y with TDense, TKron => 2 | TConst, TLR | TLR, TConst => 1 | _, _ => 0 end.
Lemma rk_add_b x y : 0 < rk_add x y <= 3. Proof. by case: x; case: y. Qed.
Lemma rk_mul_b x y : 3 < rk_mul x y <= 5. Proof. by case: x; case: y. Qed.
Lemma rk_mm_b x y ta tb : 5 < rk_mm x y ta tb <= 15. Proof. by case: x; case: y; case: ta; case: tb. Qed.

Lemma rk_add_rev x y : selof add_rows x y = ret ARev -> rk_add y x < rk_add x y.
Proof. by case: x; case: y. Qed.
Lemma rk_mul_rev x y : selof mul_rows x y = ret MRev -> rk_mul y x < rk_mul x y.
Proof. by case: x; case: y. Qed.

(** Bound on the weight of a sum. *)
Definition amax (x y : nat) : nat := if (x <= 1) && (y <= 1) then 1 else (maxn x y).+1.
Lemma amax_ge x y : 0 < amax x y. Proof. by rewrite /amax; case: ifP. Qed.

Lemma amaxl (x y : nat) : x <= amax x y. Proof. by rewrite /amax; case: ifP; lia. Qed.
Lemma amaxr (x y : nat) : y <= amax x y. Proof. by rewrite /amax; case: ifP; lia. Qed.
Lemma amaxSl (x y : nat) : 1 < x -> x < amax x y. Proof. by rewrite /amax; case: ifP; lia. Qed.
Lemma amaxSr (x y : nat) : 1 < y -> y < amax x y. Proof. by rewrite /amax; case: ifP; lia. Qed.
Lemma amx (u u' v w : nat) : u <= v.+1 -> u' <= v.+1 -> 1 < v -> amax u u' <= amax v.+1 w.
Proof. move=> h1 h2 h3; rewrite /amax; case: ifP => _; case: ifP; lia. Qed.
Lemma fac3 a b c : 0 < a -> 0 < b -> 0 < c -> [/\ a <= a * b * c, b <= a * b * c & c <= a * b * c].
Proof.
by move=> *; split; [rewrite -mulnA leq_pmulr ?muln_gt0 //|rewrite mulnAC leq_pmull ?muln_gt0 //|rewrite leq_pmull ?muln_gt0 //]; apply/andP.
Qed.
Section Term.
Variable F : rcfType.
Notation tensor := (tensor F).
Notation mat := (mat F).
Implicit Types (a b l m : mat) (t x y : tensor).
Notation ty1 a := (ty_of_matrix (to_matrix a)).

Definition fu_add a b := 16 * (wt a + wt b) + rk_add (ty1 a) (ty1 b).
Definition fu_mul a b := 16 * (wt a * wt b) + rk_mul (ty1 a) (ty1 b).
Definition fu_mm a b ta tb := 16 * (wt a * wt b) + rk_mm (ty1 a) (ty1 b) ta tb.
Definition fu_1 a := 16 * wt a + 1.

Record tm (n : nat) (self : ops F) : Prop := Tm {
  tk_dense : forall a, gd a -> fu_1 a <= n -> thoare (o_dense self a) (fun t => ns t);
  tk_add : forall a b, gdo a -> gdo b -> gd a || gd b -> fu_add a b <= n ->
    thoare (o_add self a b) (fun c => [/\ gd c, wt c <= amax (wt a) (wt b) & tag a = 7 -> tag b = 7 -> wt c <= 2]);
  tk_mul : forall a b, gdo a -> gdo b -> gd a || gd b -> fu_mul a b <= n ->
    thoare (o_mul self a b) (fun c => gd c /\ wt c <= wt a * wt b);
  tk_mm : forall a b ta tb, gd a -> gd b -> fu_mm a b ta tb <= n ->
    thoare (o_matmul self a b ta tb) (fun c => gd c /\ wt c <= wt a * wt b);
  tk_sumax : forall a ax, gd a -> fu_1 a <= n -> nrec (o_sumax self a ax);
  tk_sumall : forall a, gd a -> fu_1 a <= n -> nrec (o_sumall self a);
  tk_diag : forall a, gd a -> fu_1 a <= n -> nrec (o_diag self a) }.

Section Bodies.
Variables (argsort : seq F -> seq nat) (self : ops F) (n W : nat).
Hypothesis ok : tm n self.
Hypothesis hW : 16 * W <= n.

(** Calls with strictly smaller weight. *)
Lemma s_dense a : gd a -> wt a < W -> thoare (o_dense self a) (fun t => ns t).
Proof. move=> g h; apply: (tk_dense ok) => //; rewrite /fu_1; lia. Qed.
Lemma s_diag a : gd a -> wt a < W -> nrec (o_diag self a).
Proof. move=> g h; apply: (tk_diag ok) => //; rewrite /fu_1; lia. Qed.
Lemma s_sumax a ax : gd a -> wt a < W -> nrec (o_sumax self a ax).
Proof. move=> g h; apply: (tk_sumax ok) => //; rewrite /fu_1; lia. Qed.
Lemma s_add a b : gd a -> gd b -> wt a + wt b < W ->
  thoare (o_add self a b) (fun c => [/\ gd c, wt c <= amax (wt a) (wt b) & tag a = 7 -> tag b = 7 -> wt c <= 2]).
Proof.
move=> ga gb h; apply: (tk_add ok); rewrite ?gd_gdo ?ga ?gb // /fu_add.
have := rk_add_b (ty1 a) (ty1 b); lia.
Qed.
Lemma s_mul a b : gdo a -> gd b -> wt a * wt b < W ->
  thoare (o_mul self a b) (fun c => gd c /\ wt c <= wt a * wt b).
Proof.
move=> ga gb h; apply: (tk_mul ok) => //; rewrite ?(gd_gdo gb) ?gb ?orbT // /fu_mul.
have := rk_mul_b (ty1 a) (ty1 b); lia.
Qed.
Lemma s_mm a b ta tb : gd a -> gd b -> wt a * wt b < W ->
  thoare (o_matmul self a b ta tb) (fun c => gd c /\ wt c <= wt a * wt b).
Proof.
move=> ga gb h; apply: (tk_mm ok) => //; rewrite /fu_mm.
have := rk_mm_b (ty1 a) (ty1 b) ta tb; lia.
Qed.
Lemma s_mm3 a b c ta tb tc : gd a -> gd b -> gd c -> wt a * wt b * wt c < W ->
  thoare (mm3 self a b c ta tb tc) (fun z => gd z /\ wt z <= wt a * wt b * wt c).
Proof.
move=> ga gb gc h; rewrite /mm3.
have [pa [pb pc]] := (wt_gt0 a, (wt_gt0 b, wt_gt0 c)).
apply: nr_bind => [|sa]; first exact: nr_sm.
apply: nr_bind => [|sb]; first exact: nr_sm.
apply: nr_bind => [|sc]; first exact: nr_sm.
case: (if ta then _ else _) => ar ac; case: (if tb then _ else _) => br bc; case: (if tc then _ else _) => _ cc.
case: ifP => _.
  have h1 : wt a * wt b < W by apply: leq_ltn_trans h; rewrite leq_pmulr.
  apply: th_bind (s_mm ta tb ga gb h1) _ => ab [gab wab].
  have h2 : wt ab * wt c < W by apply: leq_ltn_trans h; rewrite leq_mul2r wab orbT.
  apply: th_conseq (s_mm false tc gab gc h2) _ => z [gz wz]; split=> //.
  by apply: leq_trans wz _; rewrite leq_mul2r wab orbT.
have h1 : wt b * wt c < W by apply: leq_ltn_trans h; rewrite -mulnA leq_pmull.
apply: th_bind (s_mm tb tc gb gc h1) _ => bc' [gbc wbc].
have h2 : wt a * wt bc' < W by apply: leq_ltn_trans h; rewrite -mulnA leq_mul2l wbc orbT.
apply: th_conseq (s_mm ta false ga gbc h2) _ => z [gz wz]; split=> //.
by apply: leq_trans wz _; rewrite -mulnA leq_mul2l wbc orbT.
Qed.
Lemma lr_w2 l (r : mat) m : 1 < wt (LR l r m). Proof. by rewrite /= ltnS !muln_gt0 !wt_gt0. Qed.
Lemma lr_weights l (r : mat) m : [/\ 0 < wt l, 0 < wt r & 0 < wt m]. Proof. by rewrite !wt_gt0. Qed.

Lemma th_dense_step a : gd a -> wt a <= W -> thoare (dense_step self a) (fun t => ns t).
Proof.
case: a => [t|d b r c|t|t|t r c|t|t|l r m|d l r m|l r] //=.
- by move=> _ _; apply: th_dc.
- move=> _ _; apply: th_conseq (th_map2 _ _ _) _ => z; apply; by rewrite /= orbT.
- case/and3P=> gl gr gm h; have [pl pr pm] := lr_weights l r m.
  have h' : wt l * wt m * wt r < W by rewrite mulnAC.
  apply: th_bind (s_mm3 _ _ _ gl gm gr h') _ => x [gx wx]; apply: s_dense => //.
  exact: leq_ltn_trans wx h'.
- case/and4P=> nd gl gr gm h; have gL : gd (LR l r m) by rewrite /= gl gr gm.
  apply: th_bind (s_dense (a := wb_diag d) nd _) _ => [|x nx]; first by rewrite /=; lia.
  apply: th_bind (s_dense (a := wb_lr l r m) gL h) _ => y ny.
  by apply: th_conseq (th_map2 _ _ _) _ => z; apply; rewrite nx.
- case/andP=> gl gr h; apply: th_bind (th_align_batch gl gr) _ => lr [g1 w1 g2 w2].
  apply: th_bind (s_dense g1 _) _ => [|x nx]; first by have := wt_gt0 r; lia.
  apply: th_bind (s_dense g2 _) _ => [|y ny]; first by have := wt_gt0 l; lia.
  exact: th_k2.
Qed.
Lemma nr_diag_step a : gd a -> wt a <= W -> nrec (diag_step self a).
Proof.
have nl (a' : mat) : nrec (diag_len a') by apply: nr_bind => [|[? ?]] //; apply: nr_sm.
case: a => [t|d b r c|t|t|t r c|t|t|l r m|d l r m|l r] //=.
- by move=> *; apply: nr_dx.
- by move=> *; apply: nr_dx.
- by move=> *; apply: nr_bind => // ?; apply: th_nr (th_map2 _ _ _).
- by move=> *; apply: nr_dx.
- by move=> *; apply: nr_dx.
- case/and3P=> gl gr gm h; have [pl pr pm] := lr_weights l r m.
  have h' : wt l * wt m < W by apply: leq_ltn_trans h; rewrite mulnAC leq_pmulr.
  have h2 : wt r < W by apply: leq_ltn_trans h; rewrite mulnAC leq_pmull // muln_gt0 pl.
  apply: nr_bind => // _; apply: nr_bind => // k.
  apply: th_bind (s_mm _ _ gl gm h') _ => x [gx wx].
  apply: th_bind (s_dense gx _) _ => [|u nu]; first by apply: leq_ltn_trans wx h'.
  apply: th_bind (s_dense gr h2) _ => v nv.
  by apply: nr_bind => [|z]; [apply: th_nr (th_map2 _ _ _)|apply: nr_sumpos].
- case/and4P=> nd gl gr gm h; have gL : gd (LR l r m) by rewrite /= gl gr gm.
  apply: nr_bind => [|x]; first by apply: s_diag => //=; lia.
  apply: nr_bind => [|y]; first exact: s_diag.
  exact: th_nr (th_map2 _ _ _).
- case/andP=> gl gr h; apply: th_bind (th_align_batch gl gr) _ => lr [g1 w1 g2 w2].
  apply: nr_bind => [|x]; first by apply: s_diag => //; have := wt_gt0 r; lia.
  apply: nr_bind => [|y]; first by apply: s_diag => //; have := wt_gt0 l; lia.
  exact: nr_k1.
Qed.
Lemma ns_expand2 t : ns (t_expand2 t). Proof. by rewrite ns_size /= size_ins. Qed.
Lemma nr_sumax_step a ax : gd a -> wt a <= W -> nrec (sumax_step self a ax).
Proof.
have np t : nrec (t_sum_ax t ax) by apply: nr_sumpos.
case: a => [t|d b r c|t|t|t r c|t|t|l r m|d l r m|l r] //= g h.
- exact: th_nr (th_map2 _ _ _).
- case/and3P: g => gl gr gm; have [pl pr pm] := lr_weights l r m.
  have h1 : wt l * wt m < W by apply: leq_ltn_trans h; rewrite mulnAC leq_pmulr.
  have h2 : wt r * wt m < W by apply: leq_ltn_trans h; rewrite -mulnA leq_pmull.
  have h3 : wt r < W by apply: leq_ltn_trans h2; rewrite leq_pmulr.
  have h4 : wt l < W by apply: leq_ltn_trans h1; rewrite leq_pmulr.
  case: ax {np} => //.
    apply: th_bind (s_mm _ _ gl gm h1) _ => x [gx wx].
    apply: nr_bind => [|s]; first exact: s_sumax.
    have w1 : wt x < W by apply: leq_ltn_trans wx h1.
    apply: (@th_bind _ _ _ _ (fun c => gd c /\ wt c <= wt x * 1)).
      apply: th_conseq (tk_mul ok (gd_gdo gx) _ _ _) _ => [|||c].
      + by apply: gd_gdo; rewrite /= ns_expand2.
      + by rewrite gx.
      + rewrite /fu_mul [wt (Nm _)]/= ns_expand2 muln1; have := rk_mul_b (ty1 x) (ty1 (Nm (t_expand2 s))); lia.
      + by rewrite /= ns_expand2.
    by move=> y [gy wy]; apply: s_sumax => //; lia.
  apply: nr_bind => [|s]; first exact: s_sumax.
  apply: th_bind (s_mm _ _ gr gm h2) _ => x [gx wx].
  have w1 : wt x < W by apply: leq_ltn_trans wx h2.
  have gs : gdo (Nm (t_expand2 s)) by apply: gd_gdo; rewrite /= ns_expand2.
  have ws : wt (Nm (t_expand2 s)) = 1 by rewrite /= ns_expand2.
  apply: th_bind (s_mul gs gx _) _ => [|y]; first by rewrite ws mul1n.
  by rewrite ws mul1n => -[gy wy]; apply: s_sumax => //; lia.
- case/and4P: g => nd gl gr gm; have gL : gd (LR l r m) by rewrite /= gl gr gm.
  apply: nr_bind => [|x]; first by apply: s_sumax => //=; lia.
  apply: nr_bind => [|y]; first exact: s_sumax.
  exact: th_nr (th_map2 _ _ _).
- case/andP: g => gl gr; have := (wt_gt0 l, wt_gt0 r) => -[pl pr].
  apply: nr_bind => [|x]; first by apply: s_sumax => //; lia.
  apply: nr_bind => [|y]; first by apply: s_sumax => //; lia.
  apply: nr_bind => [|z]; first exact: th_nr (th_map2 _ _ _).
  apply: nr_bind => [|?]; first exact: nr_sb (Kron l r).
  apply: nr_bind => [|[? ?]]; first exact: nr_sm (Kron l r).
  by apply: nr_bind => [|?] //; apply: th_nr (th_resolve_dims _ _).
Qed.
Lemma nr_sumall_step a : gd a -> wt a <= W -> nrec (sumall_step self a).
Proof.
case: a => [t|d b r c|t|t|t r c|t|t|l r m|d l r m|l r] //= g h.
- case/and3P: g => gl gr gm; have [pl pr pm] := lr_weights l r m.
  have h1 : wt l * wt m < W by apply: leq_ltn_trans h; rewrite mulnAC leq_pmulr.
  have h2 : wt r < W by apply: leq_ltn_trans h; rewrite mulnAC leq_pmull // muln_gt0 pl.
  apply: th_bind (s_mm _ _ gl gm h1) _ => x [gx wx].
  apply: nr_bind => [|?]; first by apply: s_sumax => //; lia.
  apply: nr_bind => [|?]; first exact: s_sumax.
  by apply: nr_bind => [|?] //; apply: th_nr (th_map2 _ _ _).
- case/and4P: g => nd gl gr gm; have gL : gd (LR l r m) by rewrite /= gl gr gm.
  apply: nr_bind => [|x]; first by apply: s_sumax => //=; lia.
  apply: nr_bind => [|?]; first exact: nr_sumpos.
  apply: nr_bind => [|y]; first exact: s_sumax.
  apply: nr_bind => [|?]; first exact: nr_sumpos.
  by apply: nr_bind => [|?] //; apply: th_nr (th_map2 _ _ _).
- case/andP: g => gl gr; have := (wt_gt0 l, wt_gt0 r) => -[pl pr].
  apply: nr_bind => [|x]; first by apply: s_sumax => //; lia.
  apply: nr_bind => [|?]; first exact: nr_sumpos.
  apply: nr_bind => [|y]; first by apply: s_sumax => //; lia.
  apply: nr_bind => [|?]; first exact: nr_sumpos.
  by apply: nr_bind => [|?] //; apply: th_nr (th_map2 _ _ _).
Qed.

(** Weight at most [W]: dense is called at the same weight. *)
Hypothesis hW1 : 16 * W + 1 <= n.
Lemma e_dense a : gd a -> wt a <= W -> thoare (o_dense self a) (fun t => ns t).
Proof. move=> g h; apply: (tk_dense ok) => //; rewrite /fu_1; lia. Qed.

Lemma th_broadcast_to a s : gd a -> wt a <= W -> tag a != 0 -> thoare (broadcast_to_step self a s) (fun c => gd c /\ wt c <= wt a).
Proof.
move=> g h tg; rewrite /broadcast_to_step; apply: nr_bind => [|sa]; first exact: nr_sh.
case: ifP => _ //.
have gen : thoare (if take 2 sa == take 2 s then broadcast_batch_to a (drop 2 s)
  else do _ <- warn_if (structured a); do t <- o_dense self a; do u <- t_broadcast_to t s; ret (mk_dense u)) (fun c => gd c /\ wt c <= wt a).
  case: ifP => _; first exact: th_bb.
  apply: nr_bind => // _; apply: th_bind (e_dense g h) _ => t nt.
  apply: nr_bind => [|u]; first exact: th_nr (th_bto _ _).
  by apply: th_ret; have [? ?] := gd_dense u; split=> //; have := wt_gt0 a; lia.
case: a g h tg gen => [t|d b r c|t|t|t r c|t|t|l r m|d l r m|l r] // *.
  by apply: nr_bind => [|?]; [apply: nr_eb|apply: th_mk_zero].
by apply: nr_bind => [|?]; [apply: nr_eb|apply: th_mk_const].
Qed.

(** ** add *)
Definition pa a b (c : mat) : Prop := gd c /\ wt c <= amax (wt a) (wt b).
Lemma pa1 a b (c : mat) : gd c /\ wt c <= 1 -> pa a b c.
Proof. by case=> h1 h2; split=> //; apply: leq_trans h2 (amax_ge _ _). Qed.
Lemma paC a b c : pa b a c -> pa a b c.
Proof. by rewrite /pa /amax andbC maxnC. Qed.

Lemma th_concat_num a z p : gd a -> wt a <= W -> thoare (concat_num self a z p) (fun c => gd c /\ wt c <= 1).
Proof.
move=> g h.
have gen : thoare (do _ <- warn_if (structured a); do t <- o_dense self a; do u <- t_concat_pos [:: t; z] p; ret (mk_dense u)) (fun c => gd c /\ wt c <= 1).
  apply: nr_bind => // _; apply: th_bind (e_dense g h) _ => t nt.
  by apply: nr_bind => [|u]; [apply: th_nr (th_concat _ _)|apply: th_ret; apply: gd_dense].
case: a g h gen => // t *; apply: th_bind (th_concat _ _) _ => u nu; apply: th_ret; by rewrite /= nu.
Qed.
Lemma th_pad_col a : gd a -> wt a <= W -> thoare (pad_zero_col self a) (fun c => gd c /\ wt c <= 1).
Proof.
move=> g h; apply: nr_bind => [|?]; first exact: nr_sb.
by apply: nr_bind => [|?]; [apply: nr_sh|apply: th_concat_num].
Qed.
Lemma th_pad_row a : gd a -> wt a <= W -> thoare (pad_zero_row self a) (fun c => gd c /\ wt c <= 1).
Proof.
move=> g h; apply: nr_bind => [|?]; first exact: nr_sb.
by apply: nr_bind => [|?]; [apply: nr_sh|apply: th_concat_num].
Qed.
Lemma th_take_num a (l' : seq int) p : gd a -> wt a <= W -> thoare (take_num self a l' p) (fun c => gd c /\ wt c <= 1).
Proof.
move=> g h.
have gen : thoare (do _ <- warn_if (structured a); do t <- o_dense self a; do u <- t_take_pos t (Idx l') p; ret (mk_dense u)) (fun c => gd c /\ wt c <= 1).
  apply: nr_bind => // _; apply: th_bind (e_dense g h) _ => t nt.
  by apply: nr_bind => [|u]; [apply: th_nr (th_takepos _ _ _)|apply: th_ret; apply: gd_dense].
case: a g h gen => // t *; apply: th_bind (th_takepos _ _ _) _ => u nu; apply: th_ret; by rewrite /= nu.
Qed.
Lemma nr_align_loop k eq same (na nb : seq F) sa sb : (forall i j, nrec (eq i j)) -> size sa + size sb <= k ->
  nrec (align_loop k eq same na nb sa sb).
Proof.
move=> he; elim: k sa sb => [|k IH] [|i sa] [|j sb] //= h.
apply: nr_bind => // e; case: e.
  by apply: nr_bind => // _; apply: nr_bind => // ; apply: IH; lia.
by case: ifP => _; (apply: nr_bind => //; apply: IH => /=; lia).
Qed.
Lemma nr_getitem a : gd a -> wt a <= W -> nrec (getitem_dense self a).
Proof. by move=> g h; apply: nr_bind => // _; apply: th_nr (e_dense g h). Qed.
Lemma nr_align a b : gd a -> gd b -> wt a <= W -> wt b <= W -> nrec (align argsort self a b).
Proof.
move=> ga gb ha hb; rewrite /align; apply: nr_bind => [|ta]; first exact: nr_getitem.
apply: nr_bind => [|a0]; first exact: nr_first.
apply: nr_bind => [|tb]; first exact: nr_getitem.
apply: nr_bind => [|b0]; first exact: nr_first.
apply: nr_align_loop => // i j; apply: nr_bind => // ; exact: th_nr (th_map2 _ _ _).
Qed.
Lemma th_add_lr la ra ma lb rb mb : gd (LR la ra ma) -> gd (LR lb rb mb) ->
  wt (LR la ra ma) + wt (LR lb rb mb) <= W.+1 ->
  thoare (add_lr_lr argsort self la ra ma lb rb mb) (fun c => gd c /\ wt c <= 2).
Proof.
move=> /and3P[gla gra gma] /and3P[glb grb gmb] h.
have [p1 p2 p3] := lr_weights la ra ma; have [p4 p5 p6] := lr_weights lb rb mb.
have [h1 h2 h3] : [/\ wt la <= W, wt ra <= W & wt ma <= W].
  by move: h; rewrite /= => h; have [q1 q2 q3] := fac3 p1 p2 p3; clear -h q1 q2 q3; split; lia.
have [h4 h5 h6] : [/\ wt lb <= W, wt rb <= W & wt mb <= W].
  by move: h; rewrite /= => h; have [q1 q2 q3] := fac3 p4 p5 p6; clear -h q1 q2 q3; split; lia.
have h7 : 2 < W by move: h; rewrite /= => h; have [q1 q2 q3] := fac3 p1 p2 p3; have [q4 q5 q6] := fac3 p4 p5 p6; clear -h q1 q2 q3 p1 q4 p4; lia.
have one (x : mat) : wt x <= 1 -> wt x <= W by clear -h7; lia.
have add1 (x y : mat) : gd x /\ wt x <= 1 -> gd y /\ wt y <= 1 -> thoare (o_add self x y) (fun c => gd c /\ wt c <= 1).
  move=> [gx wx] [gy wy]; have hh : wt x + wt y < W by clear -h7 wx wy; lia.
  apply: th_conseq (s_add gx gy hh) _.
  by move=> c []; rewrite /amax wx wy.
have pt (x : mat) u : gd x -> wt x <= W -> thoare (do z <- pad_zero_col self x; take_num self z u 0) (fun c => gd c /\ wt c <= 1).
  by move=> gx wx; apply: th_bind (th_pad_col gx wx) _ => z [gz wz]; apply: th_take_num => //; apply: one.
have pt2 (x : mat) u v : gd x -> wt x <= W -> thoare (do z <- pad_zero_both self x; do y <- take_num self z u 1; take_num self y v 0) (fun c => gd c /\ wt c <= 1).
  move=> gx wx; apply: (@th_bind _ _ _ _ (fun c => gd c /\ wt c <= 1)).
    by apply: th_bind (th_pad_row gx wx) _ => z [gz wz]; apply: th_pad_col => //; apply: one.
  move=> z [gz wz]; apply: th_bind (th_take_num _ _ gz (one _ wz)) _ => y [gy wy].
  by apply: th_take_num => //; apply: one.
rewrite /add_lr_lr; apply: nr_bind => [|_]; first exact: nr_ac.
apply: nr_bind => [|pl]; first exact: nr_align.
apply: nr_bind => [|pr]; first exact: nr_align.
apply: th_bind (pt _ _ gla h1) _ => al gal; apply: th_bind (pt _ _ glb h4) _ => bl gbl.
apply: th_bind (add1 _ _ gal gbl) _ => jl [gjl wjl].
apply: th_bind (pt _ _ gra h2) _ => ar gar; apply: th_bind (pt _ _ grb h5) _ => br gbr.
apply: th_bind (add1 _ _ gar gbr) _ => jr [gjr wjr].
apply: th_bind (pt2 _ _ _ gma h3) _ => am gam; apply: th_bind (pt2 _ _ _ gmb h6) _ => bm gbm.
apply: th_bind (add1 _ _ gam gbm) _ => jm [gjm wjm].
apply: th_bind (th_mk_lowrank _ _ _) _ => lr ->.
apply: th_bind (e_dense gjm (one _ wjm)) _ => t nt; apply: nr_bind => // _.
case: ifP => _; last by apply: th_ret; rewrite /= gjl gjr gjm; split=> //; move: (wt jl) (wt jr) (wt jm) wjl wjr wjm => [|[|?]] [|[|?]] [|[|?]].
apply: nr_bind => [|s]; first exact: nr_sh.
refine (th_conseq (@th_mk_zero F _ _) _) => c [g w]; split; [exact: g|exact: leq_trans w _].
Qed.

End Bodies.

Definition pick (b : bool) (P Q : Prop) : Prop := if b then P else Q.
Section Add.
Variables (argsort : seq F -> seq nat) (self : ops F) (n : nat).
Hypothesis ok : tm n self.
Lemma th_add_mat a b : gd a -> gd b -> tag a != 0 -> tag b != 0 -> 
  16 * (wt a + wt b) + rk_add (ty_of_matrix a) (ty_of_matrix b) <= n.+1 ->
  thoare (do i <- lookup add_table (ty_of_matrix a) (ty_of_matrix b); add_body argsort self i a b)
    (fun c => [/\ gd c, wt c <= amax (wt a) (wt b) & tag a = 7 -> tag b = 7 -> wt c <= 2]).
Proof.
move=> ga gb ta tb h; rewrite add_selE.
suff : thoare (do i <- selof add_rows (ty_of_matrix a) (ty_of_matrix b); add_body argsort self i a b)
    (fun c => gd c /\ wt c <= if (tag a == 7) && (tag b == 7) then 2 else amax (wt a) (wt b)).
  move=> h'; apply: th_conseq h' _ => c [gc wc]; split=> // [|e1 e2]; last by rewrite e1 e2 in wc.
  apply: leq_trans wc _; case: ifP => // /andP[/eqP e _]; apply: leq_trans (amaxl _ _).
  by case: (a) e => // *; apply: lr_w2.
set ub := if _ then _ else _.
have pa' c : (tag a == 7) && (tag b == 7) = false -> pa a b c -> gd c /\ wt c <= ub.
  by rewrite /ub => ->.
suff : pick ((tag a == 7) && (tag b == 7)) (thoare (add_body argsort self ALR a b) (fun c => gd c /\ wt c <= 2))
   (thoare (do i <- selof add_rows (ty_of_matrix a) (ty_of_matrix b); add_body argsort self i a b) (pa a b)).
  rewrite /pick; case: ifP => [/andP[/eqP e1 /eqP e2]|e] hh; last by apply: th_conseq hh _ => c; apply: pa'.
  by rewrite /ub e1 e2; move: hh; case: (a) e1 => // ? ? ? _; case: (b) e2 => // ? ? ? _; look.
clear pa' ub.
have rk := rk_add_b (ty_of_matrix a) (ty_of_matrix b).
have [pa_ pb_] := (wt_gt0 a, wt_gt0 b).
have hW : 16 * (wt a + wt b) <= n by lia.
have eW (x : nat) : x <= wt a \/ x <= wt b -> 16 * x + 1 <= n by move: pa_ pb_ hW; clear; lia.
have eW' (x : nat) : x <= wt a \/ x <= wt b -> 16 * x <= n by move: pa_ pb_ hW; clear; lia.
have dA : thoare (o_dense self a) (fun t => ns t) by apply: (s_dense ok hW) => //; lia.
have dB : thoare (o_dense self b) (fun t => ns t) by apply: (s_dense ok hW) => //; lia.
have d1 x y : thoare (do z <- t_add x y; ret (mk_dense z)) (pa a b).
  by apply: nr_bind => [|?]; [apply: th_nr (th_map2 _ _ _)|apply: th_ret; apply: pa1; apply: gd_dense].
have zR : thoare (do _ <- assert_shapes_compatible a b; do s <- shape_broadcast2 a b; broadcast_to_step self a s) (pa a b).
  apply: nr_bind => [|_]; first exact: nr_ac. apply: nr_bind => [|s]; first exact: nr_sb2.
  have o : wt a <= wt a \/ wt a <= wt b := or_introl (leqnn (wt a)).
  apply: th_conseq (th_broadcast_to ok (eW' _ o) (eW _ o) s ga (leqnn _) ta) _.
  by move=> c [gc wc]; split=> //; apply: leq_trans wc (amaxl _ _).
have zL : thoare (do _ <- assert_shapes_compatible a b; do s <- shape_broadcast2 a b; broadcast_to_step self b s) (pa a b).
  apply: nr_bind => [|_]; first exact: nr_ac. apply: nr_bind => [|s]; first exact: nr_sb2.
  have o : wt b <= wt a \/ wt b <= wt b := or_intror (leqnn (wt b)).
  apply: th_conseq (th_broadcast_to ok (eW' _ o) (eW _ o) s gb (leqnn _) tb) _.
  by move=> c [gc wc]; split=> //; apply: leq_trans wc (amaxr _ _).
have gen : thoare (add_body argsort self AGen a b) (pa a b).
  apply: nr_bind => // _; apply: nr_bind => [|?]; first exact: th_nr dA.
  by apply: nr_bind => [|?]; [exact: th_nr dB|].
have rev : selof add_rows (ty_of_matrix a) (ty_of_matrix b) = ret ARev ->
    thoare (add_body argsort self ARev a b) (pa a b).
  move=> /rk_add_rev h'; have {}h' : 16 * (wt b + wt a) + rk_add (ty_of_matrix b) (ty_of_matrix a) <= n by move: h h'; clear; lia.
  have ha' : to_matrix a = a by case: (a) ta.
  have hb' : to_matrix b = b by case: (b) tb.
  apply: th_conseq (tk_add ok (gd_gdo gb) (gd_gdo ga) _ _) _ => [||c [hc1 hc2 _]]; last by apply: paC.
    by rewrite ga orbT.
  by rewrite /fu_add ha' hb'.
have cg x r c : a = Const x r c -> thoare (add_body argsort self AConstGen a b) (pa a b).
  move=> ea; rewrite ea /=; apply: nr_bind => // _; apply: nr_bind => [|y]; first exact: th_nr dB.
  apply: nr_bind => [|z]; first exact: th_nr (th_map2 _ _ _).
  apply: nr_bind => [|s]; first exact: nr_sb2.
  by apply: nr_bind => [|u]; [exact: th_nr (th_bto _ _)|apply: th_ret; rewrite -ea; apply: pa1; apply: gd_dense].
have mkw x y k : (forall z, thoare (k z) (fun c => gd c /\ wt c <= 1)) -> thoare (do z <- t_add x y; k z) (pa a b).
  move=> hk; apply: nr_bind => [|z]; first exact: th_nr (th_map2 _ _ _).
  by apply: th_conseq (hk z) _ => c; apply: pa1.
case: a ga ta h rk hW pa_ eW eW' dA d1 zR zL gen rev cg mkw => [x|d br r c|x|x|x r c|x|x|la ra ma|d la ra ma|la ra] ga ta; [by []|..];
  (case: b gb tb pb_ dB => [y|d' b' r' c'|y|y|y r' c'|y|y|lb rb mb|d' lb rb mb|lb rb] gb tb pb_ dB h rk hW pa_ eW eW' dA d1 zR zL gen rev cg mkw; [by []|..]); 
  (lazymatch goal with |- pick ?b ?x ?y => let v := eval vm_compute in b in lazymatch v with true => change x | false => change y; look end end);
  lazymatch goal with |- thoare (add_body _ _ ?i _ _) _ => lazymatch i with
  | AZeroL => exact: zL | AZeroR => exact: zR | AGen => exact: gen | AConstGen => exact: (cg _ _ _ erefl)
  | ARev => exact: (rev erefl)
  | ADense => exact: d1 | AUTLT => exact: d1
  | ADiag => (apply: mkw => z; exact: th_mk_diag)
  | ALT => (apply: mkw => z; exact: th_mk_lt)
  | AUT => (apply: mkw => z; exact: th_mk_ut)
  | _ => idtac
  end | _ => idtac end.
all: clear d1 zR zL gen rev cg.
- by apply: th_conseq (th_mk_wb ga gb) _ => z [gz wz]; split=> //; apply: leq_trans wz _; apply: amaxSr; apply: lr_w2.
- (* AConstDiag *)
  apply: nr_bind => [|_]; first exact: nr_ac. apply: nr_bind => [|[r1 c1]]; first exact: nr_smb.
  apply: th_bind (th_const_lr _ _ _) _ => a' [ga' wa' ta'].
  apply: th_conseq (tk_add ok (gd_gdo ga') (gd_gdo gb) _ _) _ => [||z []]; first by rewrite ga'.
    by rewrite /fu_add wa'; case: (a') ta' => //= *; move: h; rewrite /rk_add /=; clear; lia.
  by rewrite wa'.
- (* AConst *)
  apply: nr_bind => [|_]; first exact: nr_ac. apply: nr_bind => [|z]; first exact: th_nr (th_map2 _ _ _).
  apply: nr_bind => [|s]; first exact: nr_sb2. by apply: th_conseq (th_mk_const _ _) _ => z' [g w]; split=> //; apply: leq_trans w _.
- by apply: nr_bind => [|y']; [exact: th_nr dB|apply: mkw => z; exact: th_mk_lt].
- by apply: nr_bind => [|y']; [exact: th_nr dB|apply: mkw => z; exact: th_mk_ut].
- by apply: th_conseq (th_mk_wb gb ga) _ => z [gz wz]; split=> //; apply: leq_trans wz _; apply: amaxSl; apply: lr_w2.
- (* ALRConst *)
  apply: nr_bind => [|[r1 c1]]; first exact: nr_smb.
  apply: th_bind (th_const_lr _ _ _) _ => b' [gb' wb' tb'].
  apply: th_conseq (tk_add ok (gd_gdo ga) (gd_gdo gb') _ _) _ => [||z []]; first by rewrite ga.
    by rewrite /fu_add wb'; case: (b') tb' => //= *; move: h; rewrite /rk_add /=; clear; lia.
  by rewrite wb'.
- have hW' : 16 * (wt (LR la ra ma) + wt (LR lb rb mb)).-1 + 1 <= n by move: hW pa_; clear; lia.
  by apply: (@th_add_lr argsort self n _ ok _ hW' _ _ _ _ _ _ ga gb); [move: hW'; clear; lia|exact: leqSpred].
all: have gL : gd (LR la ra ma) by case/andP: (ga).
all: have gD : gd (Diag d) by case/andP: (ga).
all: have wL := lr_w2 la ra ma; have eL : wt (Wb d la ra ma) = (wt (LR la ra ma)).+1 by [].
all: rewrite eL in h hW pa_; rewrite /pa eL.
- (* AWbDiag *)
  apply: th_bind (s_add ok hW gD gb _) _ => [|z [gz wz _]]; first by move: wL; clear; rewrite /=; lia.
  have {}wz : wt z <= 1 by apply: leq_trans wz _.
  apply: th_conseq (s_add ok hW gz gL _) _ => [|z' [gz' wz' _]]; first by move: wL wz; clear; rewrite /=; lia.
  by split=> //; apply: leq_trans wz' _; apply: amx => //; apply: leq_trans wz _.
- (* AWbLR Const *)
  have eC : wt (Const y r' c') = 2 by []; have eD : wt (Diag d) = 1 by []; rewrite eC in h hW *.
  apply: th_bind (s_add ok hW gL gb _) _ => [|z [gz wz _]]; first by rewrite eC; clear; lia.
  rewrite eC in wz; have {}wz : wt z <= (wt (LR la ra ma)).+1.
    by apply: leq_trans wz _; move: (wt (LR _ _ _)) wL; clear=> v wL; rewrite /amax; case: ifP; lia.
  apply: th_conseq (s_add ok hW gD gz _) _ => [|z' [gz' wz' _]].
    by rewrite eD; move: wL wz; clear; lia.
  by split=> //; apply: leq_trans wz' _; apply: amx.
- (* AWbLR LR *)
  have wL' := lr_w2 lb rb mb.
  apply: th_bind (s_add ok hW gL gb _) _ => [|z [gz _ /(_ erefl erefl) wz]]; first by move: wL; clear; lia.
  apply: th_conseq (s_add ok hW gD gz _) _ => [|z' [gz' wz' _]].
    by move: wL wL' wz; clear; rewrite [wt (Diag _)]/=; lia.
  by split=> //; apply: leq_trans wz' _; apply: amx => //; apply: leq_trans wz _; apply: leqW.
- (* AWb *)
  have gL' : gd (LR lb rb mb) by case/andP: (gb).
  have gD' : gd (Diag d') by case/andP: (gb).
  have wL' := lr_w2 lb rb mb; have eL' : wt (Wb d' lb rb mb) = (wt (LR lb rb mb)).+1 by [].
  rewrite eL' in h hW *.
  apply: th_bind (s_add ok hW gD gD' _) _ => [|z [gz wz _]]; first by move: wL; clear; rewrite [wt (Diag _)]/= [wt (Diag d')]/=; lia.
  have {}wz : wt z <= 1 by apply: leq_trans wz _.
  apply: th_bind (s_add ok hW gL gL' _) _ => [|z1 [gz1 _ /(_ erefl erefl) wz1]]; first by clear; lia.
  apply: th_conseq (s_add ok hW gz gz1 _) _ => [|z' [gz' wz' _]]; first by move: wL wL' wz wz1; clear; lia.
  by split=> //; apply: leq_trans wz' _; apply: amx => //; [apply: leq_trans wz _|apply: leq_trans wz1 _; apply: leqW].
Qed.
End Add.
End Term.
