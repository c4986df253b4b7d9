(** * Sums without approximate comparison (proof support) *)
From mathcomp Require Import all_ssreflect all_algebra.
From Verif Require Import Outcome Monad Shape Tensor Mat Dispatch LookThy Ops Spec MatThy AddOk Term5 Exact.
Set Implicit Arguments. Unset Strict Implicit. Unset Printing Implicit Defensive.
Import GRing.Theory.
Section Mats.
Variable F : rcfType.
Notation tensor := (tensor F).
Notation mat := (mat F).
Implicit Types (a b l m : mat) (t x y : tensor).
Variable argsort : seq F -> seq nat.

Lemma xe_bb1 a s : nw1 a -> xe (broadcast_batch_to a s).
Proof.
case: a; try by move=> *; apply: xh_xe (xh_bb _ _).
move=> d l r m /and3P[h1 h2 h3] /=; apply: xe_bind => [|u]; first exact: xe_bto.
apply: xe_bind => [|?]; first exact: xh_xe (xh_mk_diag _).
do 3 (apply: xe_bind => [|?]; first exact: xh_xe (xh_bb _ _)).
by apply: xe_bind => [|?]; [exact: xh_xe (xh_mk_lowrank' _ _ _)|exact: xe_mk_wb].
Qed.

Definition p3 a b (c : mat) : Prop := (tag a == 3) && (tag b == 3) -> tag c = 3.
Theorem xe_add n a b : addx a b -> xh (o_add (ops_n argsort n) a b) (p3 a b).
Proof.
elim: n a b => [|n IH] a b hx; first by [].
have [[x [y [-> ->]]]|tt] := or_tag a b; first by apply: xe_bind => [|?] //; exact: xe_map2.
rewrite [o_add _ _ _]/= (add_stepE _ _ tt).
have [ha hb] := (to_matrix_tag a, to_matrix_tag b); have hx' := addx_tm hx.
have e3 c : tag c == 3 -> tag (to_matrix c) == 3 by case: c.
suff : xh (do i <- lookup add_table (ty_of_matrix (to_matrix a)) (ty_of_matrix (to_matrix b));
       add_body argsort (ops_n argsort n) i (to_matrix a) (to_matrix b)) (p3 (to_matrix a) (to_matrix b)).
  by move=> h; apply: xh_conseq h _ => c hc /andP[/e3 h1 /e3 h2]; apply: hc; rewrite h1.
move: (to_matrix a) (to_matrix b) ha hb hx' => {e3 hx tt}a' b' {a b}; move: a' b' => a b ha hb hx.
have [h1 h2 h3] := and3P hx; set o := ops_n argsort n; rewrite add_selE.
have P (m : outcome mat) : xe m -> (tag a == 3) && (tag b == 3) = false -> xh m (p3 a b).
  by move=> h f; apply: xh_conseq h _ => c _; rewrite /p3 f.
have dA := xe_dense argsort n h1; have dB := xe_dense argsort n h2.
have bto c s : nw1 c -> xe (broadcast_to_step o c s).
  move=> hc; rewrite /broadcast_to_step; apply: xe_bind => [|sa]; first exact: xe_sh. case: ifP => // _.
  have H : xe (if take 2 sa == take 2 s then broadcast_batch_to c (drop 2 s)
      else do _ <- warn_if (structured c); do t <- o_dense o c; do u <- t_broadcast_to t s; ret (mk_dense u)).
    case: ifP => _; first exact: xe_bb1.
    apply: xe_bind => // _; apply: xe_bind => [|t]; first exact: xe_dense.
    by apply: xe_bind => [|u]; first exact: xe_bto.
  case: c hc H => [t|d b' r c|t|t|t r c|t|t|l r m|d l r m|l r] hc H //.
  - by apply: xe_bind => [|?]; first exact: xe_bto.
  - by apply: xe_bind => [|?]; [exact: xe_eb|apply: xh_xe; exact: xh_mk_zero].
  - by apply: xe_bind => [|?]; [exact: xe_eb|apply: xh_xe; exact: xh_mk_const].
have zR c : nw1 c -> xe (do _ <- assert_shapes_compatible a b; do s <- shape_broadcast2 a b; broadcast_to_step o c s).
  by move=> hc; apply: xe_bind => [|_]; [exact: xe_ac|apply: xe_bind => [|s]; [exact: xe_sb2|exact: bto]].
have gen : xe (add_body argsort o AGen a b).
  apply: xe_bind => // _; apply: xe_bind => [|x]; first exact: dA. apply: xe_bind => [|y]; first exact: dB.
  by apply: xe_bind => [|z]; first exact: xe_map2.
have rev : xe (add_body argsort o ARev a b) by apply: xh_xe (IH b a (addxC hx)).
have cg x r c : a = Const x r c -> xe (add_body argsort o AConstGen a b).
  move=> ea; rewrite ea /= -ea; apply: xe_bind => // _; apply: xe_bind => [|y]; first exact: dB.
  apply: xe_bind => [|z]; first exact: xe_map2. apply: xe_bind => [|s]; first exact: xe_sb2.
  by apply: xe_bind => [|u]; first exact: xe_bto.
have tm (x y : tensor) (k : tensor -> outcome mat) : (forall z, xe (k z)) -> xe (do z <- t_add x y; k z).
  by move=> hk; apply: xe_bind => [|z]; first exact: xe_map2.
case: a ha hx h1 h3 dA P rev gen zR cg => [x|d br r c|x|x|x r c|x|x|la ra ma|d la ra ma|la ra] ha; [by []|..];
 (case: b hb h2 dB => [y|d' b' r' c'|y|y|y r' c'|y|y|lb rb mb|d' lb rb mb|lb rb] hb h2 dB hx h1 h3 dA P rev gen zR cg; [by []|..]); try (by move: h3); look;
 lazymatch goal with |- xh (add_body _ _ ?i _ _) _ => lazymatch i with
 | AZeroR => (apply: P => //; exact: zR) | AZeroL => (apply: P => //; exact: zR) | AGen => exact: P
 | ARev => exact: P | AConstGen => (apply: P => //; exact: (cg _ _ _ erefl))
 | ADense => (apply: P => //; exact: tm) | AUTLT => (apply: P => //; exact: tm)
 | ALT => (apply: P => //; apply: tm => z; exact: xh_xe (xh_mk_lt _)) | AUT => (apply: P => //; apply: tm => z; exact: xh_xe (xh_mk_ut _))
 | ALRDiag => (apply: P => //; exact: xe_mk_wb) | ADiagLR => (apply: P => //; exact: xe_mk_wb)
 | _ => idtac end end.
- apply: xh_bind (xe_map2 _ _ _) _ => z _; rewrite /mk_diag; apply: xe_bind => [|_]; first exact: xe_require. by apply: xh_ret.
- apply: P => //; apply: xe_bind => [|_]; first exact: xe_ac. apply: xe_bind => [|[r' c']]; first exact: xe_smb.
  apply: xh_bind (xh_const_lr _ _ _) _ => x0 [h e]; case: x0 h e => // l0 r0 m0 h _; apply: xh_xe; apply: (IH (LR l0 r0 m0) (Diag y)).
  by rewrite /addx; apply/and3P; split.
- apply: P => //; apply: xe_bind => [|_]; first exact: xe_ac. apply: xe_bind => [|z]; first exact: xe_map2.
  apply: xe_bind => [|s]; first exact: xe_sb2. apply: xh_xe; exact: xh_mk_const.
- apply: P => //; apply: xe_bind => [|z]; first exact: dB. apply: xe_bind => [|u]; first exact: xe_map2. apply: xh_xe; exact: xh_mk_lt.
- apply: P => //; apply: xe_bind => [|z]; first exact: dB. apply: xe_bind => [|u]; first exact: xe_map2. apply: xh_xe; exact: xh_mk_ut.
- apply: P => //. have hd : addx (wb_diag d) (Diag y) by [].
  apply: xh_bind (IH _ _ hd) _ => z hz; have {}hz : tag z = 3 by apply: hz.
  case: z hz => //= z _; apply: xh_xe; apply: (IH (Diag z) (wb_lr la ra ma)).
  by rewrite /addx; apply/and3P; split.
Qed.
End Mats.
