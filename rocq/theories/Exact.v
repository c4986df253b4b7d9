(** * When no approximate comparison happens (proof support)

    The approximate column matching is only reached through the sum of two
    low-rank matrices.  So on operands without Woodbury matrices, [dense],
    [multiply], [matmul], [sum] and [diag] never reach it, and [add] only if
    one operand is low-rank and the other low-rank or constant. *)
From mathcomp Require Import all_ssreflect all_algebra.
From Verif Require Import Outcome Monad Shape Tensor Mat Dispatch LookThy Ops Spec MatThy AddOk Term5.
Set Implicit Arguments. Unset Strict Implicit. Unset Printing Implicit Defensive.
Import GRing.Theory.

Definition logof A (m : outcome A) : log := match m with Ret l _ => l | RaiseL l _ => l end.
Definition xh A (m : outcome A) (P : A -> Prop) : Prop :=
  exact (logof m) /\ match m with Ret _ a => P a | RaiseL _ _ => True end.
Notation xe m := (xh m (fun _ => True)).

Section Rules.
Variables A B : Type.
Lemma xh_ret (a : A) (P : A -> Prop) : P a -> xh (ret a) P. Proof. by []. Qed.
Lemma xh_conseq (m : outcome A) (P Q : A -> Prop) : xh m P -> (forall a, P a -> Q a) -> xh m Q.
Proof. by case: m => [l a|l e] //= [h1 h2] k; split=> //; apply: k. Qed.
Lemma xh_bind (m : outcome A) (f : A -> outcome B) (P : A -> Prop) (Q : B -> Prop) :
  xh m P -> (forall a, P a -> xh (f a) Q) -> xh (bind m f) Q.
Proof.
case: m => [l a|l e] //= [h1 h2] k; rewrite /bind; case: (k a h2); rewrite /xh.
by case: (f a) => [l' b|l' e] /= h3 h4; rewrite exact_join; split=> //; apply/andP.
Qed.
Lemma xe_bind (m : outcome A) (f : A -> outcome B) (Q : B -> Prop) :
  xe m -> (forall a, xh (f a) Q) -> xh (bind m f) Q.
Proof. by move=> h k; apply: xh_bind h _ => a _. Qed.
Lemma xh_xe (m : outcome A) (P : A -> Prop) : xh m P -> xe m.
Proof. by move=> h; apply: xh_conseq h _. Qed.
End Rules.
Lemma xe_mapM A B (f : A -> outcome B) s : (forall x, xe (f x)) -> xe (mapM f s).
Proof. by move=> h; elim: s => //= x s IH; apply: xe_bind => // y; apply: xe_bind. Qed.

Ltac xe1 := first
  [ assumption | done
  | apply: xe_bind; [|move=> ?]
  | match goal with |- context [match ?x with _ => _ end] => case: x => * end
  | match goal with |- context [if ?x then _ else _] => case: x => * end ].
Ltac xx := repeat xe1.

Lemma xe_require b e : xe (require b e). Proof. by rewrite /require; case: b. Qed.
Lemma xe_bdim d d' : xe (broadcast_dim d d'). Proof. by rewrite /broadcast_dim; xx. Qed.
Lemma xe_bc2 s s' : xe (broadcast2 s s').
Proof. rewrite /broadcast2; case: ifP => // _; apply: xe_mapM => p; exact: xe_bdim. Qed.
Lemma xe_eb2 s s' : xe (expand_and_broadcast2 s s').
Proof. by rewrite /expand_and_broadcast2; case: ifP => _; [|case: ifP => _]; apply: xe_bc2. Qed.
Lemma xe_fold op s ss : (forall s s', xe (op s s')) -> xe (fold_shapes op s ss).
Proof. by move=> h; elim: ss s => //= s' ss IH s; apply: xe_bind. Qed.
Lemma xe_eb ss : xe (expand_and_broadcast ss).
Proof. by case: ss => //= s ss; apply: xe_fold; apply: xe_eb2. Qed.
Lemma xe_bcs ss : xe (broadcast ss).
Proof. by case: ss => //= s ss; apply: xe_fold; apply: xe_bc2. Qed.
Lemma xe_compat s s' : xe (assert_compatible s s').
Proof.
rewrite /assert_compatible; apply: xe_bind => [|b]; last exact: xe_require.
by rewrite /compatible; have := xe_eb2 s s'; case: (expand_and_broadcast2 s s') => // l [] // .
Qed.

Local Arguments expand_and_broadcast : simpl never.
Local Arguments broadcast : simpl never.
Section Mats.
Variable F : rcfType.
Notation tensor := (tensor F).
Notation mat := (mat F).
Implicit Types (a b l m : mat) (t x y : tensor).

(** No Woodbury matrix occurs in the object. *)
Fixpoint nw (a : mat) : bool :=
  match a with
  | Wb _ _ _ _ => false
  | LR l r m => [&& nw l, nw r & nw m]
  | Kron l r => nw l && nw r
  | _ => true
  end.

Lemma xe_map2 f x y : xe (t_map2 f x y). Proof. by rewrite /t_map2; xx. Qed.
Lemma xe_bto t s : xe (t_broadcast_to t s). Proof. by rewrite /t_broadcast_to; xx. Qed.
Lemma xe_transpose t : xe (t_transpose t). Proof. by rewrite /t_transpose; xx. Qed.
Lemma xe_matmul x y ta tb : xe (t_matmul x y ta tb).
Proof.
rewrite /t_matmul; apply: xe_bind => [|x']; first by rewrite /t_tr; case: ta => //; apply: xe_transpose.
apply: xe_bind => [|y']; first by rewrite /t_tr; case: tb => //; apply: xe_transpose.
by rewrite /t_matmul_nn; xx.
Qed.
Lemma xe_sumpos t p : xe (t_sum_pos t p). Proof. by rewrite /t_sum_pos; xx. Qed.
Lemma xe_resolve d (x : iom) : xe (resolve_iom d x).
Proof. case: x => l /=; [apply: xe_mapM => -[] n /=; by case: ifP|by case: ifP]. Qed.
Lemma xe_takepos t (x : iom) p : xe (t_take_pos t x p).
Proof. by rewrite /t_take_pos; case: ifP => // h; apply: xe_bind => [|l]; first exact: xe_resolve. Qed.
Lemma xe_concat (ts : seq tensor) p : xe (t_concat_pos ts p). Proof. by rewrite /t_concat_pos; xx. Qed.
Lemma xe_reshape t ds : xe (t_reshape t ds).
Proof. by apply: xe_bind => //; rewrite /resolve_dims; do 2 case: ifP => // _. Qed.
Lemma xe_stack (ts : seq tensor) p : xe (t_stack ts p). Proof. by rewrite /t_stack; xx. Qed.
Lemma xe_unstack t p : xe (t_unstack t p). Proof. by rewrite /t_unstack; xx. Qed.
Lemma xe_first t : xe (t_first t). Proof. by rewrite /t_first; xx. Qed.
Lemma xe_get00 t : xe (t_get00 t). Proof. by rewrite /t_get00; xx. Qed.
Lemma xe_dx t : xe (t_diag_extract t). Proof. by rewrite /t_diag_extract; xx. Qed.
Lemma xe_dc t : xe (t_diag_construct t). Proof. by rewrite /t_diag_construct; xx. Qed.
Lemma xe_k1 x y : xe (t_kron1 x y). Proof. by rewrite /t_kron1; xx. Qed.
Lemma xe_k2 x y : xe (t_kron2 x y). Proof. by rewrite /t_kron2; xx. Qed.
Lemma xe_sq1 t : xe (t_squeeze1 t). Proof. by rewrite /t_squeeze1; case: (sh t) => [|[|[|n]] s]. Qed.
Lemma xe_sq2 t : xe (t_squeeze2 t). Proof. by rewrite /t_squeeze2; case: (sh t) => [|c [|[|[|n]] s]]. Qed.
Lemma xe_bbto t s : xe (t_broadcast_batch_to t s).
Proof. by rewrite /t_broadcast_batch_to; case E: (sh t) => [|c [|r b]] //; apply: xe_bto. Qed.
Lemma xe_sb a : xe (shape_batch a).
Proof. elim: a => //= *; repeat first [assumption|exact: xe_eb|apply: xe_bind => [|?]]. Qed.
Lemma xe_sm a : xe (shape_matrix a).
Proof.
elim: a => //= *; try by repeat (apply: xe_bind => //= -[? ?]).
by apply: xe_bind => //= -[? ?]; apply: xe_bind => //= -[? ?]; apply: xe_bind => //= ; apply: xe_bcs.
Qed.
Lemma xe_sh a : xe (shape_of a).
Proof.
have h : xe (do b <- shape_batch a; do ' (r, c) <- shape_matrix a; ret [:: c, r & b]).
  by apply: xe_bind => [|?]; [apply: xe_sb|apply: xe_bind => [|[? ?]]; [apply: xe_sm|]].
by case: a h.
Qed.
Lemma xe_rank a : xe (rank_of a). Proof. by apply: xe_bind => //; apply: xe_sh. Qed.
Lemma xe_am a : xe (assert_matrix a).
Proof. by apply: xe_bind => [|?]; [apply: xe_rank|apply: xe_require]. Qed.
Lemma xe_sb2 a b : xe (shape_broadcast2 a b).
Proof. by apply: xe_bind => [|?]; [apply: xe_sh|apply: xe_bind => [|?]; [apply: xe_sh|apply: xe_eb]]. Qed.
Lemma xe_sbb (xs : seq mat) : xe (shape_batch_broadcast xs).
Proof. by apply: xe_bind => [|?]; [apply: xe_mapM; apply: xe_sb|apply: xe_eb]. Qed.
Lemma xe_smb a b : xe (shape_matrix_broadcast2 a b).
Proof.
apply: xe_bind => [|[? ?]]; first exact: xe_sm.
apply: xe_bind => [|[? ?]]; first exact: xe_sm.
by apply: xe_bind => [|?] //; apply: xe_eb.
Qed.
Lemma xe_ac a b : xe (assert_shapes_compatible a b).
Proof. by apply: xe_bind => [|?]; [apply: xe_sh|apply: xe_bind => [|?]; [apply: xe_sh|apply: xe_compat]]. Qed.
Lemma xe_smt a (t : bool) : xe (shape_matrix_tr a t).
Proof. by apply: xe_bind => [|[? ?]] //; apply: xe_sm. Qed.
Lemma xe_comp a b ta tb : xe (assert_composable a b ta tb).
Proof. by apply: xe_bind => [|?]; [exact: xe_smt|apply: xe_bind => [|?]; [exact: xe_smt|exact: xe_require]]. Qed.
Lemma xe_dlen a : xe (diag_len a). Proof. by apply: xe_bind => [|[? ?]] //; apply: xe_sm. Qed.
Lemma xe_warn (b : bool) : xe (warn_if b). Proof. by []. Qed.

Lemma xh_mk_diag t : xh (mk_diag t) nw. Proof. by apply: xe_bind => [|_]; [exact: xe_require|]. Qed.
Lemma xh_mk_lt t : xh (mk_lt t) nw. Proof. by apply: xe_bind => [|_]; [exact: xe_require|]. Qed.
Lemma xh_mk_ut t : xh (mk_ut t) nw. Proof. by apply: xe_bind => [|_]; [exact: xe_require|]. Qed.
Lemma xh_mk_const t s : xh (mk_const t s) nw.
Proof.
case: s => [|c [|r [|? ?]]] //=; apply: xe_bind => [|?]; first exact: xe_eb.
by apply: xe_bind => [|?] //; apply: xe_bto.
Qed.
Lemma xh_mk_zero d s : xh (@mk_zero F d s) nw. Proof. by case: s => [|? [|? ?]]. Qed.
Lemma xh_fill_diag t n : xh (fill_diag t n) nw.
Proof. by apply: xe_bind => [|?]; [apply: xe_map2|apply: xh_mk_diag]. Qed.
Lemma xh_mk_lowrank' l (r : mat) m : xh (mk_lowrank l (Some r) (Some m)) (fun c => c = LR l r m).
Proof.
rewrite /mk_lowrank; apply: xe_bind => [|?]; first exact: xe_am.
apply: xe_bind => [|[? ?]]; first exact: xe_sm.
apply: xe_bind => [|?].
  by apply: xe_bind => [|?]; [apply: xe_am|apply: xe_bind => [|[? ?]]; [apply: xe_sm|apply: xe_require]].
apply: xe_bind => [|?]; last by [].
apply: xe_bind => [|?]; [apply: xe_am|apply: xe_bind => [|[? ?]]; [apply: xe_sm|]].
by apply: xe_bind => [|[? ?]]; [apply: xe_sm|apply: xe_require].
Qed.
Lemma xh_mk_lowrank l (r : mat) m : nw l -> nw r -> nw m -> xh (mk_lowrank l (Some r) (Some m)) nw.
Proof. by move=> *; apply: xh_conseq (xh_mk_lowrank' _ _ _) _ => c ->; apply/and3P. Qed.
Lemma xh_mk_lowrank1 l m : xh (mk_lowrank l None (Some m)) (fun c => c = LR l l m).
Proof.
rewrite /mk_lowrank; apply: xe_bind => [|?]; first exact: xe_am.
apply: xe_bind => [|[? ?]]; first exact: xe_sm.
apply: xe_bind => [|?]; last by [].
by apply: xe_bind => [|?]; [apply: xe_am|apply: xe_bind => [|[? ?]]; [apply: xe_sm|apply: xe_require]].
Qed.
Lemma xh_const_lr t r c : xh (const_to_lowrank t r c) (fun x : mat => nw x /\ tag x = 7).
Proof.
rewrite /const_to_lowrank; apply: xh_bind (xh_fill_diag _ _) _ => m gm.
by case: ifP => _; [apply: xh_conseq (xh_mk_lowrank1 _ _) _|apply: xh_conseq (xh_mk_lowrank' _ _ _) _] => x ->; rewrite /= gm.
Qed.
Lemma xe_mk_wb (d lr : mat) : xe (mk_woodbury d lr).
Proof. by case: d => // ?; case: lr => // *; apply: xe_bind => [|?] //; apply: xe_ac. Qed.

Lemma xh_transp a : nw a -> xh (transpose a) nw.
Proof.
elim: a => //=.
- by move=> t h; apply: xe_bind => [|?] //; exact: xe_transpose.
- by move=> t h; apply: xe_bind => [|?] //; exact: xe_transpose.
- by move=> t r c _; have := xh_mk_const t [:: r, c & sh t].
- by move=> t h; apply: xe_bind => [|?]; [exact: xe_transpose|exact: xh_mk_ut].
- by move=> t h; apply: xe_bind => [|?]; [exact: xe_transpose|exact: xh_mk_lt].
- move=> l _ r _ m hm /and3P[gl gr /hm {}hm]; apply: xh_bind hm _ => m' gm; exact: xh_mk_lowrank.
- move=> l hl r hr /andP[/hl {}hl /hr {}hr]; apply: xh_bind hl _ => l' gl.
  by apply: xh_bind hr _ => r' gr; apply: xh_ret; apply/andP.
Qed.
Lemma xh_bb a s : nw a -> xh (broadcast_batch_to a s) nw.
Proof.
elim: a => //=.
- by move=> t h; apply: xe_bind => [|?] //; exact: xe_bbto.
- by move=> t h; apply: xe_bind => [|?] //; exact: xe_bbto.
- by move=> t h; apply: xe_bind => [|u]; [apply: xe_bto|apply: xh_mk_diag].
- by move=> t r c _; apply: xe_bind => [|u]; [apply: xe_bto|].
- by move=> t h; apply: xe_bind => [|u]; [apply: xe_bbto|apply: xh_mk_lt].
- by move=> t h; apply: xe_bind => [|u]; [apply: xe_bbto|apply: xh_mk_ut].
- move=> l hl r hr m hm /and3P[/hl {}hl /hr {}hr /hm {}hm].
  apply: xh_bind hl _ => l' gl; apply: xh_bind hr _ => r' gr; apply: xh_bind hm _ => m' gm.
  exact: xh_mk_lowrank.
- move=> l hl r hr /andP[/hl {}hl /hr {}hr]; apply: xh_bind hl _ => l' gl.
  by apply: xh_bind hr _ => r' gr; apply: xh_ret; apply/andP.
Qed.
Lemma xh_align_batch l (r : mat) : nw l -> nw r -> xh (align_batch [:: l; r]) (fun lr => nw (nth l lr 0) /\ nw (nth r lr 1)).
Proof.
move=> gl gr; apply: xe_bind => [|s]; first exact: xe_sbb.
rewrite /=; apply: xh_bind (xh_bb s gl) _ => l' gl'; rewrite !bindA.
apply: xh_bind (xh_bb s gr) _ => r' gr'; rewrite !bind_ret; exact: xh_ret.
Qed.

(** ** The operations *)
Record xk (self : ops F) : Prop := Xk {
  xk_dense : forall a, nw a -> xe (o_dense self a);
  xk_mul : forall a b, nw a -> nw b -> xh (o_mul self a b) nw;
  xk_mm : forall a b ta tb, nw a -> nw b -> xh (o_matmul self a b ta tb) nw;
  xk_sumax : forall a ax, nw a -> xe (o_sumax self a ax);
  xk_sumall : forall a, nw a -> xe (o_sumall self a);
  xk_diag : forall a, nw a -> xe (o_diag self a) }.

Lemma nwLR l (r : mat) m : nw (LR l r m) -> [/\ nw l, nw r & nw m]. Proof. by case/and3P. Qed.
Lemma nwKron l (r : mat) : nw (Kron l r) -> nw l /\ nw r. Proof. by case/andP. Qed.
Section Step.
Variable self : ops F.
Hypothesis ok : xk self.

Ltac prim := first [ exact: xe_warn | exact: xe_ac | exact: xe_sb2 | exact: xe_map2 | exact: xe_sm | exact: xe_comp | exact: xe_smt | exact: xe_sbb
  | exact: xe_matmul | exact: xe_sb | exact: xe_sh | exact: xe_am | exact: xe_bto | exact: xe_require | exact: xe_dlen | exact: xe_eb | exact: xe_smb
  | exact: xe_get00 | exact: xe_sumpos | exact: xe_reshape | exact: xe_transpose | exact: xe_dc | exact: xe_dx | exact: xe_k1 | exact: xe_k2
  | exact: xe_sq1 | exact: xe_sq2 | exact: xe_bbto | exact: xe_unstack | exact: xe_stack
  | exact: (xk_dense ok) | exact: (xk_sumax ok) | exact: (xk_diag ok) | exact: (xk_sumall ok) ].
Ltac nws := repeat match goal with
  | h : is_true (nw (LR ?l ?r ?m)) |- _ => lazymatch goal with
      | h1 : is_true (nw l), h2 : is_true (nw r), h3 : is_true (nw m) |- _ => fail
      | _ => case: (nwLR h) => ? ? ? end
  | h : is_true (nw (Kron ?l ?r)) |- _ => lazymatch goal with
      | h1 : is_true (nw l), h2 : is_true (nw r) |- _ => fail
      | _ => case: (nwKron h) => ? ? end
  | h : _ /\ _ |- _ => case: h => ? ?
  end.
Ltac xs := repeat first
  [ exact: xh_ret | exact: xh_mk_zero | exact: xh_bb | apply: xh_ret; done
  | exact: xh_mk_diag | exact: xh_mk_lt | exact: xh_mk_ut | exact: xh_mk_const | exact: xh_fill_diag
  | apply: xh_mk_lowrank; done
  | prim
  | match goal with
  | |- xh (bind (o_mul _ _ _) _) _ => refine (xh_bind (xk_mul ok _ _) _) => [||? ?]
  | |- xh (bind (o_matmul _ _ _ _ _) _) _ => refine (xh_bind (xk_mm ok _ _ _ _) _) => [||? ?]
  | |- xh (bind (transpose _) _) _ => refine (xh_bind (xh_transp _) _) => [|? ?]
  | |- xh (bind (const_to_lowrank _ _ _) _) _ => refine (xh_bind (xh_const_lr _ _ _) _) => ? [? ?]
  | |- xh (bind (align_batch [:: _; _]) _) _ => refine (xh_bind (xh_align_batch _ _) _) => [||? [? ?]]
  | |- xh (bind (fill_diag _ _) _) _ => refine (xh_bind (xh_fill_diag _ _) _) => ? ?
  | |- xh (bind (tr _ _) _) _ => refine (xh_bind (P := nw) _ _) => [|? ?]
  | |- xh (bind _ (fun x => let '(_, _) := x in _)) _ => apply: xe_bind => [|[? ?]]
  | |- xh (bind _ _) _ => apply: xe_bind => [|?]
  | |- xh (tr _ ?t) _ => rewrite /tr; case: t
  | |- xh (transpose _) _ => apply: xh_transp
  | |- xh (o_mul _ _ _) _ => apply: (xk_mul ok)
  | |- xh (o_matmul _ _ _ _ _) _ => apply: (xk_mm ok)
  | |- xh (if ?b then _ else _) _ => case: b
  | |- xh (match ?x with _ => _ end) _ => destruct x; nws
  | |- is_true (nw (Kron _ _)) => apply/andP; split
  | |- is_true (nw (LR _ _ _)) => apply/and3P; split
  end | done ].

Lemma xh_mm3 a b (c : mat) ta tb tc : nw a -> nw b -> nw c -> xh (mm3 self a b c ta tb tc) nw.
Proof.
move=> ha hb hc; rewrite /mm3; do 3 (apply: xe_bind => [|?]; first exact: xe_sm).
case: (if ta then _ else _) => ar ac; case: (if tb then _ else _) => br bc; case: (if tc then _ else _) => _ cc.
xs.
Qed.
Lemma xe_dense_step a : nw a -> xe (dense_step self a).
Proof.
case: a => // [t _|t r c _|l r m /and3P[h1 h2 h3]|l r /andP[h1 h2]]; rewrite /dense_step.
- exact: xe_dc.
- exact: xe_map2.
- by apply: xh_bind (xh_mm3 _ _ _ h1 h3 h2) _ => x hx; apply: (xk_dense ok).
- xs.
Qed.
Lemma xh_mklt a : nw a -> xh (mk_lt_mat self a) nw. Proof. move=> h; rewrite /mk_lt_mat; xs. Qed.
Lemma xh_mkut a : nw a -> xh (mk_ut_mat self a) nw. Proof. move=> h; rewrite /mk_ut_mat; xs. Qed.
Lemma xh_bto a s : nw a -> xh (broadcast_to_step self a s) nw.
Proof. move=> h; rewrite /broadcast_to_step; xs. Qed.
Lemma xe_git a : nw a -> xe (getitem_dense self a). Proof. move=> h; rewrite /getitem_dense; xs. Qed.
Lemma xe_rs a ds : nw a -> xe (reshape_mat self a ds). Proof. move=> h; rewrite /reshape_mat; xs. Qed.
Lemma xe_rr a i j : nw a -> xe (reshape_rows self a i j).
Proof. move=> h; rewrite /reshape_rows; xs; exact: xe_rs. Qed.
Lemma xe_rc a i j : nw a -> xe (reshape_cols self a i j).
Proof. move=> h; rewrite /reshape_cols; xs; exact: xe_rs. Qed.
Lemma xe_kia a b : nw a -> nw b -> xe (kron_id_a_b self a b).
Proof. move=> h1 h2; rewrite /kron_id_a_b; xs; exact: xe_rc. Qed.
Lemma xe_kai a b : nw a -> nw b -> xe (kron_a_id_b self a b).
Proof. move=> h1 h2; rewrite /kron_a_id_b; xs; exact: xe_rr. Qed.
Lemma nw_conv t : nw (convert_num t). Proof. by rewrite /convert_num; case: (sh t) => //; case: ifP. Qed.
Lemma nw_tm a : nw a -> nw (to_matrix a). Proof. by case: a => //= t _; exact: nw_conv. Qed.
Lemma xe_mullr (la ra ma lb rb mb : mat) : nw la -> nw ra -> nw ma -> nw lb -> nw rb -> nw mb ->
  xh (mul_lr_lr self la ra ma lb rb mb) nw.
Proof.
move=> *; rewrite /mul_lr_lr; xs.
all: by repeat first [apply: xe_mapM => ? | exact: xe_map2 | exact: xe_unstack | exact: xe_stack | apply: xe_bind => [|?]].
Qed.
Ltac ext := first [exact: xh_mm3 | exact: xh_mklt | exact: xh_mkut | exact: xh_bto | exact: xe_git | exact: xe_kia | exact: xe_kai | exact: xe_mullr | exact: nw_conv].
Lemma xh_mul_body i a b : nw a -> nw b -> xh (mul_body self i a b) nw.
Proof. move=> ha hb; case: i; rewrite /mul_body; xs; try ext; apply: xh_ret; by apply/andP. Qed.
Lemma xh_plr a b ta tb : nw a -> nw b -> xh (mm_body self PLR a b ta tb) nw.
Proof.
case: a => // la ra ma ha; case: b => // lb rb mb hb; rewrite /mm_body.
apply: xe_bind => [|_]; first exact: xe_comp.
have ht c (t : bool) : nw c -> xh (tr c t) nw by case: t => // h; exact: xh_transp.
apply: xh_bind (ht _ _ ha) _ => a' ha'; apply: xh_bind (ht _ _ hb) _ => b' hb'.
case: a' ha' => // l1 r1 m1 /and3P[h1 h2 h3]; case: b' hb' => // l2 r2 m2 /and3P[h4 h5 h6].
apply: xh_bind (xk_mm ok _ _ h2 h4) _ => x hx; apply: xh_bind (xh_mm3 _ _ _ h3 hx h6) _ => y hy.
apply: xe_bind => [|s]; first exact: xe_sm.
apply: (xh_bind (P := nw)) => [|z hz]; last exact: xh_mk_lowrank.
case: ifP => _; last by [].
apply: xe_bind => [|?]; first exact: xe_git. by apply: xe_bind => [|?]; [exact: xe_get00|exact: xh_mk_diag].
Qed.
Lemma xh_mm_body i a b ta tb : nw a -> nw b -> xh (mm_body self i a b ta tb) nw.
Proof.
move=> ha hb; case: i; try exact: xh_plr; rewrite /mm_body; xs; try ext; apply: xh_ret; first [exact: nw_conv|by apply/andP].
Qed.
Lemma xh_mul_step a b : nw a -> nw b -> xh (mul_step self a b) nw.
Proof.
move=> ha hb; have [[x [y [-> ->]]]|tt] := or_tag a b; first by apply: xe_bind => [|?] //; exact: xe_map2.
rewrite (mul_stepE _ tt); apply: xe_bind => [|i]; last by apply: xh_mul_body; exact: nw_tm.
by rewrite mul_selE; case: (ty_of_matrix _); case: (ty_of_matrix _).
Qed.
Lemma xh_mm_step a b ta tb : nw a -> nw b -> xh (matmul_step self a b ta tb) nw.
Proof.
move=> ha hb; have [[x [y [-> ->]]]|tt] := or_tag a b; first by apply: xe_bind => [|?] //; exact: xe_matmul.
rewrite (mm_stepE _ _ _ tt); apply: xe_bind => [|i]; last by apply: xh_mm_body; exact: nw_tm.
by rewrite mm_selE; case: (ty_of_matrix _); case: (ty_of_matrix _).
Qed.
Lemma xe_sumax_step a ax : nw a -> xe (sumax_step self a ax).
Proof. case: a => * //; rewrite /sumax_step /t_sum_ax; nws; xs. Qed.
Lemma xe_sumall_step a : nw a -> xe (sumall_step self a).
Proof. case: a => * //; rewrite /sumall_step; nws; xs. Qed.
Lemma xe_diag_step a : nw a -> xe (diag_step self a).
Proof. case: a => * //; rewrite /diag_step; nws; xs. Qed.
End Step.

Variable argsort : seq F -> seq nat.
Theorem xk_n n : xk (ops_n argsort n).
Proof.
elim: n => [|n ok] /=; first by split.
split=> /=; [exact: xe_dense_step|exact: xh_mul_step|exact: xh_mm_step|exact: xe_sumax_step|exact: xe_sumall_step|exact: xe_diag_step].
Qed.

(** Woodbury matrices whose factors contain none. *)
Definition nw1 (a : mat) : bool := match a with Wb _ l r m => nw (LR l r m) | _ => nw a end.
Lemma nw_nw1 a : nw a -> nw1 a. Proof. by case: a. Qed.

Section Wb.
Variable n : nat.
Let o := ops_n argsort n.
Lemma xe_dense a : nw1 a -> xe (o_dense o a).
Proof.
rewrite /o; case: n => // k; have ok := xk_n k.
case: a; try (by move=> *; apply: (xe_dense_step ok)).
move=> d l r m h; rewrite /= /wb_diag; apply: xe_bind => [|x]; first exact: (xk_dense ok).
by apply: xe_bind => [|y]; [exact: (xk_dense ok)|exact: xe_map2].
Qed.
Lemma xe_sumax a ax : nw1 a -> xe (o_sumax o a ax).
Proof.
rewrite /o; case: n => // k; have ok := xk_n k.
case: a; try (by move=> *; apply: (xe_sumax_step ok)).
move=> d l r m h; rewrite /= /wb_diag; apply: xe_bind => [|x]; first exact: (xk_sumax ok).
by apply: xe_bind => [|y]; [exact: (xk_sumax ok)|exact: xe_map2].
Qed.
Lemma xe_sumall a : nw1 a -> xe (o_sumall o a).
Proof.
rewrite /o; case: n => // k; have ok := xk_n k.
case: a; try (by move=> *; apply: (xe_sumall_step ok)).
move=> d l r m h; rewrite /= /wb_diag; apply: xe_bind => [|x]; first exact: (xk_sumax ok).
apply: xe_bind => [|x']; first exact: xe_sumpos.
apply: xe_bind => [|y]; first exact: (xk_sumax ok).
apply: xe_bind => [|y']; first exact: xe_sumpos. by apply: xe_bind => [|?]; first exact: xe_map2.
Qed.
Lemma xe_diag a : nw1 a -> xe (o_diag o a).
Proof.
rewrite /o; case: n => // k; have ok := xk_n k.
case: a; try (by move=> *; apply: (xe_diag_step ok)).
move=> d l r m h; rewrite /= /wb_diag; apply: xe_bind => [|x]; first exact: (xk_diag ok).
by apply: xe_bind => [|y]; [exact: (xk_diag ok)|exact: xe_map2].
Qed.
End Wb.

(** Sums which cannot reach the approximate comparison: not both operands are
    low-rank, Woodbury or constant, unless both are constant. *)
Definition lrc (a : mat) : bool := match to_matrix a with LR _ _ _ | Wb _ _ _ _ | Const _ _ _ => true | _ => false end.
Definition islr (a : mat) : bool := match a with LR _ _ _ | Wb _ _ _ _ => true | _ => false end.
Definition addx (a b : mat) : bool := [&& nw1 a, nw1 b & ~~ [&& lrc a, lrc b & islr a || islr b]].

Lemma addxC a b : addx a b -> addx b a.
Proof. by case/and3P=> h1 h2 h3; apply/and3P; split=> //; rewrite andbCA orbC. Qed.
Lemma nw1_tm a : nw1 a -> nw1 (to_matrix a).
Proof. by case: a => // t _; rewrite /= /convert_num; case: (sh t) => //; case: ifP. Qed.
Lemma tm_idem a : to_matrix (to_matrix a) = to_matrix a.
Proof. by case: a => //= t; rewrite /convert_num; case: (sh t) => //; case: ifP. Qed.
Lemma addx_tm a b : addx a b -> addx (to_matrix a) (to_matrix b).
Proof.
case/and3P=> h1 h2 h3; apply/and3P; split; rewrite ?nw1_tm // /lrc !tm_idem.
have e c : islr (to_matrix c) = islr c by case: c => //= t; rewrite /convert_num; case: (sh t) => //; case: ifP.
by rewrite !e.
Qed.

End Mats.
