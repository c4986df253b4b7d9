(** * Termination: multiply, matmul, and the bound (proof support) *)
From mathcomp Require Import all_ssreflect all_algebra.
From mathcomp Require Import zify.
From Verif Require Import Outcome Monad Shape Tensor Mat Dispatch LookThy Ops Spec MatThy AddOk Term Term2.
Set Implicit Arguments. Unset Strict Implicit. Unset Printing Implicit Defensive.
Import GRing.Theory.
Local Open Scope nat_scope.
Local Arguments expand_and_broadcast : simpl never.
Local Arguments broadcast : simpl never.

Lemma ltmulS x b : 0 < b -> b < x.+2 * b. Proof. nia. Qed.
Lemma ltmulS2 x b : 0 < b -> x * b < x.+1 * b. Proof. nia. Qed.

Lemma wb_aux1 L b z z' r n : z <= b -> z' <= L * b -> 16 * (L.+1 * b) + 3 <= n -> 0 < r <= 3 -> 16 * (z + z') + r <= n.
Proof. by rewrite [L.+1 * b]mulSn; move: (L * b) => k; lia. Qed.
Lemma wb_aux2 L b z z' c : z <= b -> z' <= L * b -> 0 < b -> 1 < L -> c <= amax z z' -> c <= L.+1 * b.
Proof.
move=> h1 h2 h3 h4 h5; apply: leq_trans h5 _; have : b <= L * b by rewrite leq_pmull //; apply: leq_trans h4.
by rewrite [L.+1 * b]mulSn; move: (L * b) h1 h2 h3 => k; clear; rewrite /amax; case: ifP; lia.
Qed.
Section Term.
Variable F : rcfType.
Notation tensor := (tensor F).
Notation mat := (mat F).
Implicit Types (a b l m : mat) (t x y : tensor).
Notation ty1 a := (ty_of_matrix (to_matrix a)).

Section Mul.
Variables (self : ops F) (n : nat).
Hypothesis ok : tm n self.

Lemma th_mul_lr W la ra ma lb rb mb : 16 * W <= n -> gd (LR la ra ma) -> gd (LR lb rb mb) ->
  wt (LR la ra ma) <= W -> wt (LR lb rb mb) <= W ->
  thoare (mul_lr_lr self la ra ma lb rb mb) (fun c => gd c /\ wt c <= 2).
Proof.
move=> hW /and3P[gla gra gma] /and3P[glb grb gmb] h h'.
have [p1 p2 p3] := lr_weights la ra ma; have [p4 p5 p6] := lr_weights lb rb mb.
have [h1 h2 h3] : [/\ wt la < W, wt ra < W & wt ma < W].
  by move: h; rewrite /= => h; have [q1 q2 q3] := fac3 p1 p2 p3; clear -h q1 q2 q3; split; lia.
have [h4 h5 h6] : [/\ wt lb < W, wt rb < W & wt mb < W].
  by move: h'; rewrite /= => h'; have [q1 q2 q3] := fac3 p4 p5 p6; clear -h' q1 q2 q3; split; lia.
have mm x y : nrec (t_mul x y) by apply: th_nr (th_map2 _ _ _).
rewrite /mul_lr_lr; apply: nr_bind => [|_]; first exact: nr_ac. apply: nr_bind => // _.
do 6 (apply: nr_bind => [|?]; [by apply: th_nr; apply: (s_dense ok hW)|]).
apply: nr_bind => [|s]; first exact: nr_sbb.
do 6 (apply: nr_bind => [|?]; [by apply: th_nr; apply: th_bbto|]).
do 4 (apply: nr_bind => [|?]; [exact: nr_unstack|]).
do 2 (apply: nr_bind => [|?]; [by apply: nr_bind => [|?]; [exact: nr_unstack|apply: nr_mapM => ?; exact: nr_unstack]|]).
apply: (@th_bind _ _ _ _ (fun z => ns z)) => [|sl hsl].
  by apply: nr_bind => [|?]; [apply: nr_mapM|exact: th_stack].
apply: (@th_bind _ _ _ _ (fun z => ns z)) => [|sr hsr].
  by apply: nr_bind => [|?]; [apply: nr_mapM|exact: th_stack].
apply: (@th_bind _ _ _ _ (fun z => ns z)) => [|sm hsm].
  apply: nr_bind => [|?]; last exact: th_stack.
  by apply: nr_mapM => ?; apply: nr_bind => [|?]; [apply: nr_mapM|apply: th_nr; apply: th_stack].
refine (th_conseq (th_mk_lowrank _ _ _) _) => c ->; split; first by apply/and3P.
by cbn [wt]; rewrite hsl hsr hsm.
Qed.

Definition pm a b (c : mat) : Prop := gd c /\ wt c <= wt a * wt b.
Lemma pm1 a b (c : mat) : gd c /\ wt c <= 1 -> pm a b c.
Proof. by case=> h1 h2; split=> //; apply: leq_trans h2 _; rewrite muln_gt0 !wt_gt0. Qed.
Lemma pmC a b c : pm b a c -> pm a b c. Proof. by rewrite /pm mulnC. Qed.

Lemma th_mul_mat a b : gd a -> gd b -> tag a != 0 -> tag b != 0 ->
  16 * (wt a * wt b) + rk_mul (ty_of_matrix a) (ty_of_matrix b) <= n.+1 ->
  thoare (do i <- lookup mul_table (ty_of_matrix a) (ty_of_matrix b); mul_body self i a b) (pm a b).
Proof.
move=> ga gb ta tb h; rewrite mul_selE.
have rk := rk_mul_b (ty_of_matrix a) (ty_of_matrix b).
have [pa_ pb_] := (wt_gt0 a, wt_gt0 b).
have [la_ lb_] : wt a <= wt a * wt b /\ wt b <= wt a * wt b by rewrite leq_pmulr // leq_pmull.
have hW : 16 * (wt a * wt b) <= n by move: h rk; clear; lia.
have hW3 : 16 * (wt a * wt b) + 3 <= n by move: h rk; clear; lia.
have eW (x : nat) : x <= wt a * wt b -> 16 * x + 1 <= n by move: hW3; clear; lia.
have eW' (x : nat) : x <= wt a * wt b -> 16 * x <= n by move: hW3; clear; lia.
have dA : thoare (o_dense self a) (fun t => ns t) by apply: (tk_dense ok) => //; rewrite /fu_1; apply: eW.
have dB : thoare (o_dense self b) (fun t => ns t) by apply: (tk_dense ok) => //; rewrite /fu_1; apply: eW.
have gA : nrec (o_diag self a) by apply: (tk_diag ok) => //; rewrite /fu_1; apply: eW.
have gB : nrec (o_diag self b) by apply: (tk_diag ok) => //; rewrite /fu_1; apply: eW.
have d1 x y : thoare (do z <- t_mul x y; ret (mk_dense z)) (pm a b).
  by apply: nr_bind => [|?]; [apply: th_nr (th_map2 _ _ _)|apply: th_ret; apply: pm1; apply: gd_dense].
have zR : thoare (do _ <- assert_shapes_compatible a b; do s <- shape_broadcast2 a b; broadcast_to_step self b s) (pm a b).
  apply: nr_bind => [|_]; first exact: nr_ac. apply: nr_bind => [|s]; first exact: nr_sb2.
  apply: th_conseq (th_broadcast_to ok (eW' _ lb_) (eW _ lb_) s gb (leqnn _) tb) _.
  by move=> c [gc wc]; split=> //; apply: leq_trans wc _.
have zL : thoare (do _ <- assert_shapes_compatible a b; do s <- shape_broadcast2 a b; broadcast_to_step self a s) (pm a b).
  apply: nr_bind => [|_]; first exact: nr_ac. apply: nr_bind => [|s]; first exact: nr_sb2.
  apply: th_conseq (th_broadcast_to ok (eW' _ la_) (eW _ la_) s ga (leqnn _) ta) _.
  by move=> c [gc wc]; split=> //; apply: leq_trans wc _.
have gen : thoare (mul_body self MGen a b) (pm a b).
  apply: nr_bind => // _; apply: nr_bind => [|?]; first exact: th_nr dA.
  by apply: nr_bind => [|?]; [exact: th_nr dB|].
have rev : selof mul_rows (ty_of_matrix a) (ty_of_matrix b) = ret MRev ->
    thoare (mul_body self MRev a b) (pm a b).
  move=> /rk_mul_rev h'; have {}h' : 16 * (wt b * wt a) + rk_mul (ty_of_matrix b) (ty_of_matrix a) <= n.
    by rewrite mulnC; move: h h'; clear; lia.
  have ha' : to_matrix a = a by case: (a) ta.
  have hb' : to_matrix b = b by case: (b) tb.
  apply: th_conseq (tk_mul ok (gd_gdo gb) (gd_gdo ga) _ _) _ => [||c hc]; last by apply: pmC.
    by rewrite ga orbT.
  by rewrite /fu_mul ha' hb'.
have cg x r c : a = Const x r c -> thoare (mul_body self MConstGen a b) (pm a b).
  move=> ea; rewrite ea /= -ea; apply: nr_bind => [|_]; first exact: nr_ac.
  apply: nr_bind => // _; apply: nr_bind => [|y]; first exact: th_nr dB.
  apply: nr_bind => [|z]; first exact: th_nr (th_map2 _ _ _).
  apply: nr_bind => [|s]; first exact: nr_sb2.
  by apply: nr_bind => [|u]; [exact: th_nr (th_bto _ _)|apply: th_ret; apply: pm1; apply: gd_dense].
have mkw x y k : (forall z, thoare (k z) (fun c => gd c /\ wt c <= 1)) -> thoare (do z <- t_mul x y; k z) (pm a b).
  move=> hk; apply: nr_bind => [|z]; first exact: th_nr (th_map2 _ _ _).
  by apply: th_conseq (hk z) _ => c; apply: pm1.
have dg x : a = Diag x -> thoare (mul_body self MDiagGen a b) (pm a b).
  move=> ea; rewrite ea /= -ea; apply: nr_bind => [|_]; first exact: nr_ac.
  apply: nr_bind => [|[rr cc]]; first exact: nr_sm.
  apply: nr_bind => [|y]; last by apply: mkw => z; apply: th_mk_diag.
  case: ifP => _; first by apply: nr_bind => [|?]; [exact: th_nr dB|exact: nr_sq2].
  by case: ifP => _; first by apply: nr_bind => [|?]; [exact: th_nr dB|exact: nr_sq1].
have wg d l (r : mat) m : a = Wb d l r m -> thoare (mul_body self MWbGen a b) (pm a b).
  move=> ea; have eL : wt a = (wt (LR l r m)).+1 by rewrite ea.
  have [gD gL] : gd (Diag d) /\ gd (LR l r m) by move: ga; rewrite ea => /andP[].
  have wL := lr_w2 l r m; rewrite ea /=.
  rewrite eL in hW hW3; apply: th_bind (s_mul ok hW (gd_gdo gD) gb _) _ => [|z [gz wz]].
    by rewrite mul1n; move: (wt (LR l r m)) (wt b) wL pb_; clear => u v; nia.
  apply: th_bind (s_mul ok hW (gd_gdo gL) gb _) _ => [|z' [gz' wz']].
    by apply: ltmulS2.
  rewrite mul1n in wz; apply: th_conseq (tk_add ok (gd_gdo gz) (gd_gdo gz') _ _) _ => [||c [gc wc _]].
  - by rewrite gz.
  - exact: (wb_aux1 wz wz' hW3 (rk_add_b _ _)).
  - by rewrite -ea; split=> //; rewrite eL; exact: (wb_aux2 wz wz' pb_ wL wc).
have two c : gd c /\ wt c <= 2 -> 1 < wt a -> pm a b c.
  by case=> g w h2; split=> //; apply: leq_trans w _; rewrite (leq_trans h2) // leq_pmulr.
case: a ga ta h rk pa_ la_ lb_ hW hW3 eW eW' dA gA d1 zR zL gen rev cg mkw dg wg two => [x|d br r c|x|x|x r c|x|x|la ra ma|d la ra ma|la ra] ga ta; [by []|..];
  (case: b gb tb pb_ dB gB => [y|d' b' r' c'|y|y|y r' c'|y|y|lb rb mb|d' lb rb mb|lb rb] gb tb pb_ dB gB h rk pa_ la_ lb_ hW hW3 eW eW' dA gA d1 zR zL gen rev cg mkw dg wg two; [by []|..]); look;
  lazymatch goal with |- thoare (mul_body _ ?i _ _) _ => lazymatch i with
  | MZeroL => exact: zL | MZeroR => exact: zR | MGen => exact: gen | MConstGen => exact: (cg _ _ _ erefl)
  | MRev => exact: (rev erefl) | MDiagGen => exact: (dg _ erefl) | MWbGen => exact: (wg _ _ _ _ erefl)
  | MDense => exact: d1
  | MDiag => (apply: mkw => z; exact: th_mk_diag)
  | MLT => (apply: mkw => z; exact: th_mk_lt) | MLTConst => (apply: mkw => z; exact: th_mk_lt)
  | MUT => (apply: mkw => z; exact: th_mk_ut) | MUTConst => (apply: mkw => z; exact: th_mk_ut)
  | MLTGen => (apply: nr_bind => [|y']; [exact: th_nr dB|apply: mkw => z; exact: th_mk_lt])
  | MUTGen => (apply: nr_bind => [|y']; [exact: th_nr dB|apply: mkw => z; exact: th_mk_ut])
  | MUTLT => (apply: nr_bind => [|?]; [exact: gA|apply: nr_bind => [|?]; [exact: gB|apply: mkw => z; exact: th_mk_diag]])
  | _ => idtac
  end end.
all: clear d1 zR zL gen rev cg dg wg.
- (* MConstDiag *) apply: nr_bind => [|_]; [exact: nr_ac|apply: mkw => z; exact: th_mk_diag].
- (* MConst *) apply: nr_bind => [|_]; first exact: nr_ac. apply: nr_bind => [|z]; first exact: th_nr (th_map2 _ _ _).
  apply: nr_bind => [|s]; first exact: nr_sb2. by apply: th_conseq (th_mk_const _ _) _ => z' h'; apply: two.
- (* MConstLR *) apply: nr_bind => [|_]; first exact: nr_ac.
  have [p1 p2 p3] := lr_weights lb rb mb; have [q1 q2 q3] := fac3 p1 p2 p3.
  case/and3P: gb => glb grb gmb.
  have gN : gdo (Nm (t_expand11_is x)) by rewrite /gdo /= /t_expand11_is /ns; case E: (sh x); rewrite ?E ?eqxx.
  have wN : wt (Nm (t_expand11_is x)) <= 2 by rewrite /=; case: (ns _).
  apply: th_bind (s_mul ok hW gN gmb _) _ => [|z [gz wz]].
    by rewrite [wt (LR _ _ _)]/= [wt (Const _ _ _)]/=; apply: leq_ltn_trans (_ : 2 * wt mb < _); [rewrite leq_mul2r wN orbT|rewrite ltn_pmul2l // ltnS].
  apply: th_conseq (th_mk_lowrank _ _ _) _ => c' ->; split; first by apply/and3P.
  rewrite [wt (LR _ _ _)]/= [wt (Const _ _ _)]/= [X in _ <= 2 * X]/= mulnS; apply: (leq_trans (n := (wt lb * wt rb * (2 * wt mb)).+1)).
    by rewrite ltnS leq_mul2l (leq_trans wz) ?orbT // leq_mul2r wN orbT.
  by rewrite mulnCA addSn ltnS.
- (* MConstKron *) apply: nr_bind => [|_]; first exact: nr_ac.
  case/andP: gb => glb grb.
  have gN : gdo (Nm (t_expand11_is x)) by rewrite /gdo /= /t_expand11_is /ns; case E: (sh x); rewrite ?E ?eqxx.
  have wN : wt (Nm (t_expand11_is x)) <= 2 by rewrite /=; case: (ns _).
  have wN2 : wt (Nm (t_expand11_is x)) * wt lb <= 2 * wt lb by rewrite leq_mul2r wN orbT.
  apply: th_bind (s_mul ok hW gN glb _) _ => [|z [gz wz]].
    by apply: leq_ltn_trans wN2 _; rewrite [wt (Kron _ _)]/= [wt (Const _ _ _)]/=; clear; lia.
  apply: th_ret; split; first by rewrite /= gz.
  have {}wz := leq_trans wz wN2; rewrite [wt (Kron _ _)]/= [wt (Const _ _ _)]/= [X in _ <= 2 * X]/=.
  by move: wz; move: (wt z) (wt lb) (wt rb); clear; lia.
- (* MLR *)
  have [w1 w2] := (lr_w2 la ra ma, lr_w2 lb rb mb).
  by apply: th_conseq (th_mul_lr hW ga gb la_ lb_) _ => z hz; apply: two.
- (* MKron *)
  case/andP: ga => gla gra; case/andP: gb => glb grb.
  do 4 (apply: nr_bind => [|?]; [exact: nr_sm|]). apply: nr_bind => [|_]; first exact: nr_require.
  have [k1 k2] : wt la * wt lb < wt (Kron la ra) * wt (Kron lb rb) /\ wt ra * wt rb < wt (Kron la ra) * wt (Kron lb rb).
    by rewrite /=; move: (wt la) (wt lb) (wt ra) (wt rb); clear => u v w z; split; nia.
  apply: th_bind (s_mul ok hW (gd_gdo gla) glb k1) _ => z [gz wz].
  apply: th_bind (s_mul ok hW (gd_gdo gra) grb k2) _ => z' [gz' wz'].
  apply: th_ret; split; first by rewrite /= gz.
  move: wz wz'; rewrite /=; move: (wt la) (wt lb) (wt ra) (wt rb) (wt z) (wt z'); clear => u v w z1 a1 a2; nia.
Qed.
End Mul.
End Term.
