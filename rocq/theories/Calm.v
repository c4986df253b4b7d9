(** * Calls which neither warn, nor compare approximately, nor recurse (proof support) *)
From mathcomp Require Import all_ssreflect all_algebra.
From Verif Require Import Outcome Monad Shape Tensor Mat Ops Spec MatThy.
Set Implicit Arguments. Unset Strict Implicit. Unset Printing Implicit Defensive.
Import GRing.Theory.

Definition calm A (m : outcome A) : Prop :=
  match m with Ret l _ => l = log0 | RaiseL l e => l = log0 /\ e <> RecursionError end.
Lemma calm_bind A B (m : outcome A) (f : A -> outcome B) : calm m -> (forall a, calm (f a)) -> calm (bind m f).
Proof. by case: m => [l a /= -> k|l e []] //; rewrite /bind; move: (k a); case: (f a) => [l' b ->|l' e [-> ]]. Qed.
Lemma calm_mapM A B (f : A -> outcome B) s : (forall x, calm (f x)) -> calm (mapM f s).
Proof. by move=> h; elim: s => //= x s IH; apply: calm_bind => // y; apply: calm_bind. Qed.
Lemma calm_hoare A (m : outcome A) (P : A -> Prop) : calm m -> hoare m P -> exists2 z, m = ret z & P z.
Proof. case: m => [l a /= -> h|l e /= [-> ne] h]; first by exists a => //; apply: h. by case: ne; apply: h. Qed.

Ltac cm1 := first
  [ assumption | by [] | exact: calm_mapM
  | apply: calm_bind; [|move=> ?]
  | match goal with |- context [match ?x with _ => _ end] => case: x => * end
  | match goal with |- context [if ?x then _ else _] => case: x => * end ].
Ltac cm := repeat cm1.

Lemma cm_require b e : e <> RecursionError -> calm (require b e). Proof. by rewrite /require; case: b. Qed.
Lemma cm_bdim d d' : calm (broadcast_dim d d'). Proof. by rewrite /broadcast_dim; cm. Qed.
Lemma cm_bc2 s s' : calm (broadcast2 s s').
Proof. rewrite /broadcast2; case: ifP => // _; apply: calm_mapM => p; exact: cm_bdim. Qed.
Lemma cm_eb2 s s' : calm (expand_and_broadcast2 s s').
Proof. by rewrite /expand_and_broadcast2; case: ifP => _; [|case: ifP => _]; apply: cm_bc2. Qed.
Lemma cm_fold op s ss : (forall s s', calm (op s s')) -> calm (fold_shapes op s ss).
Proof. by move=> h; elim: ss s => //= s' ss IH s; apply: calm_bind. Qed.
Lemma cm_eb ss : calm (expand_and_broadcast ss).
Proof. by case: ss => //= s ss; apply: cm_fold; apply: cm_eb2. Qed.
Lemma cm_bcs ss : calm (broadcast ss).
Proof. by case: ss => //= s ss; apply: cm_fold; apply: cm_bc2. Qed.
Lemma cm_compat s s' : calm (assert_compatible s s').
Proof.
rewrite /assert_compatible; apply: calm_bind => [|b]; last exact: cm_require.
by rewrite /compatible; have := cm_eb2 s s'; case: (expand_and_broadcast2 s s') => // l [] // [] // .
Qed.
Local Arguments expand_and_broadcast : simpl never.
Local Arguments broadcast : simpl never.
Section Mats.
Variable F : rcfType.
Notation tensor := (tensor F).
Notation mat := (mat F).
Implicit Types (a b l m : mat) (t x y : tensor).
Lemma cm_map2 f x y : calm (t_map2 f x y). Proof. by rewrite /t_map2; cm. Qed.
Lemma cm_bto t s : calm (t_broadcast_to t s). Proof. by rewrite /t_broadcast_to; cm. Qed.
Lemma cm_transpose t : calm (t_transpose t). Proof. by rewrite /t_transpose; cm. Qed.
Lemma cm_matmul x y ta tb : calm (t_matmul x y ta tb).
Proof.
rewrite /t_matmul; apply: calm_bind => [|x']; first by rewrite /t_tr; case: ta => //; apply: cm_transpose.
apply: calm_bind => [|y']; first by rewrite /t_tr; case: tb => //; apply: cm_transpose.
by rewrite /t_matmul_nn; cm.
Qed.
Lemma cm_sumpos t p : calm (t_sum_pos t p). Proof. by rewrite /t_sum_pos; cm. Qed.
Lemma cm_axis r ax : calm (resolve_axis r ax). Proof. by rewrite /resolve_axis; cm. Qed.
Lemma cm_sum t ax : calm (t_sum t ax).
Proof. by case: ax => //= ax; apply: calm_bind => [|p]; [exact: cm_axis|exact: cm_sumpos]. Qed.
Lemma cm_resolve d (x : iom) : calm (resolve_iom d x).
Proof. case: x => l /=; [apply: calm_mapM => -[] n /=; by case: ifP|by case: ifP]. Qed.
Lemma cm_takepos t (x : iom) p : calm (t_take_pos t x p).
Proof. by rewrite /t_take_pos; case: ifP => // h; apply: calm_bind => [|l]; first exact: cm_resolve. Qed.
Lemma cm_take t (x : iom) ax : calm (t_take t x ax).
Proof. by apply: calm_bind => [|p]; [exact: cm_axis|exact: cm_takepos]. Qed.
Lemma cm_concat (ts : seq tensor) p : calm (t_concat_pos ts p). Proof. by rewrite /t_concat_pos; cm. Qed.
Lemma cm_reshape t ds : calm (t_reshape t ds).
Proof. by apply: calm_bind => //; rewrite /resolve_dims; do 2 case: ifP => // _. Qed.
Lemma cm_stack (ts : seq tensor) p : calm (t_stack ts p). Proof. by rewrite /t_stack; cm. Qed.
Lemma cm_unstack t p : calm (t_unstack t p). Proof. by rewrite /t_unstack; cm. Qed.
Lemma cm_first t : calm (t_first t). Proof. by rewrite /t_first; cm. Qed.
Lemma cm_get00 t : calm (t_get00 t). Proof. by rewrite /t_get00; cm. Qed.
Lemma cm_dx t : calm (t_diag_extract t). Proof. by rewrite /t_diag_extract; cm. Qed.
Lemma cm_dc t : calm (t_diag_construct t). Proof. by rewrite /t_diag_construct; cm. Qed.
Lemma cm_k1 x y : calm (t_kron1 x y). Proof. by rewrite /t_kron1; cm. Qed.
Lemma cm_k2 x y : calm (t_kron2 x y). Proof. by rewrite /t_kron2; cm. Qed.
Lemma cm_tile t s : calm (t_tile t s). Proof. by rewrite /t_tile; cm. Qed.
Lemma cm_sq1 t : calm (t_squeeze1 t). Proof. by rewrite /t_squeeze1; case: (sh t) => [|[|[|n]] s]. Qed.
Lemma cm_sq2 t : calm (t_squeeze2 t). Proof. by rewrite /t_squeeze2; case: (sh t) => [|c [|[|[|n]] s]]. Qed.
Lemma cm_bbto t s : calm (t_broadcast_batch_to t s).
Proof. by rewrite /t_broadcast_batch_to; case E: (sh t) => [|c [|r b]] //; apply: cm_bto. Qed.
Lemma cm_sb a : calm (shape_batch a).
Proof. elim: a => //= *; repeat first [assumption|exact: cm_eb|apply: calm_bind => [|?]]. Qed.
Lemma cm_sm a : calm (shape_matrix a).
Proof.
elim: a => //= *; try by repeat (apply: calm_bind => //= -[? ?]).
by apply: calm_bind => //= -[? ?]; apply: calm_bind => //= -[? ?]; apply: calm_bind => //= ; apply: cm_bcs.
Qed.
Lemma cm_sh a : calm (shape_of a).
Proof.
have h : calm (do b <- shape_batch a; do ' (r, c) <- shape_matrix a; ret [:: c, r & b]).
  by apply: calm_bind => [|?]; [apply: cm_sb|apply: calm_bind => [|[? ?]]; [apply: cm_sm|]].
by case: a h.
Qed.
Lemma cm_rank a : calm (rank_of a). Proof. by apply: calm_bind => //; apply: cm_sh. Qed.
Lemma cm_am a : calm (assert_matrix a).
Proof. by apply: calm_bind => [|?]; [apply: cm_rank|apply: cm_require]. Qed.
Lemma cm_as a : calm (assert_square a).
Proof. by apply: calm_bind => [|?]; [apply: cm_am|apply: calm_bind => [|[? ?]]; [apply: cm_sm|apply: cm_require]]. Qed.
Lemma cm_sb2 a b : calm (shape_broadcast2 a b).
Proof. by apply: calm_bind => [|?]; [apply: cm_sh|apply: calm_bind => [|?]; [apply: cm_sh|apply: cm_eb]]. Qed.
Lemma cm_sbb (xs : seq mat) : calm (shape_batch_broadcast xs).
Proof. by apply: calm_bind => [|?]; [apply: calm_mapM; apply: cm_sb|apply: cm_eb]. Qed.
Lemma cm_smb a b : calm (shape_matrix_broadcast2 a b).
Proof.
apply: calm_bind => [|[? ?]]; first exact: cm_sm.
apply: calm_bind => [|[? ?]]; first exact: cm_sm.
by apply: calm_bind => [|?] //; apply: cm_eb.
Qed.
Lemma cm_ac a b : calm (assert_shapes_compatible a b).
Proof. by apply: calm_bind => [|?]; [apply: cm_sh|apply: calm_bind => [|?]; [apply: cm_sh|apply: cm_compat]]. Qed.
Lemma cm_smt a (t : bool) : calm (shape_matrix_tr a t).
Proof. by apply: calm_bind => [|[? ?]] //; apply: cm_sm. Qed.
Lemma cm_comp a b ta tb : calm (assert_composable a b ta tb).
Proof. by apply: calm_bind => [|?]; [exact: cm_smt|apply: calm_bind => [|?]; [exact: cm_smt|exact: cm_require]]. Qed.
Lemma cm_dlen a : calm (diag_len a). Proof. by apply: calm_bind => [|[? ?]] //; apply: cm_sm. Qed.
Lemma cm_mk_diag t : calm (mk_diag t). Proof. by apply: calm_bind => [|_]; [exact: cm_require|]. Qed.
Lemma cm_mk_lt t : calm (mk_lt t). Proof. by apply: calm_bind => [|_]; [exact: cm_require|]. Qed.
Lemma cm_mk_ut t : calm (mk_ut t). Proof. by apply: calm_bind => [|_]; [exact: cm_require|]. Qed.
Lemma cm_mk_const t s : calm (mk_const t s).
Proof.
case: s => [|c [|r [|? ?]]] //=; apply: calm_bind => [|?]; first exact: cm_eb.
by apply: calm_bind => [|?] //; apply: cm_bto.
Qed.
Lemma cm_mk_zero d s : calm (@mk_zero F d s). Proof. by case: s => [|? [|? ?]]. Qed.
Lemma cm_fill_diag t n : calm (fill_diag t n).
Proof. by apply: calm_bind => [|?]; [apply: cm_map2|apply: cm_mk_diag]. Qed.
Lemma cm_mk_lowrank l (r m : option mat) : calm (mk_lowrank l r m).
Proof.
rewrite /mk_lowrank; apply: calm_bind => [|?]; first exact: cm_am.
apply: calm_bind => [|[? ?]]; first exact: cm_sm.
apply: calm_bind => [|?].
  case: m => // m; by apply: calm_bind => [|?]; [apply: cm_am|apply: calm_bind => [|[? ?]]; [apply: cm_sm|apply: cm_require]].
apply: calm_bind => [|?].
  case: r => // r; apply: calm_bind => [|?]; [apply: cm_am|apply: calm_bind => [|[? ?]]; [apply: cm_sm|]].
  by case: m => [m|]; [apply: calm_bind => [|[? ?]]; [apply: cm_sm|apply: cm_require]|apply: cm_require].
by apply: calm_bind => [|?] //; case: m => [m|] //; exact: cm_fill_diag.
Qed.
Lemma cm_const_lr t r c : calm (const_to_lowrank t r c).
Proof. by apply: calm_bind => [|?]; [exact: cm_fill_diag|case: ifP => _; exact: cm_mk_lowrank]. Qed.
Lemma cm_mk_wb (d lr : mat) : calm (mk_woodbury d lr).
Proof. by case: d => // ?; case: lr => // *; apply: calm_bind => [|?] //; apply: cm_ac. Qed.
Local Arguments mk_const : simpl never.
Lemma cm_transp a : calm (transpose a).
Proof. elim: a => //= *; repeat first [assumption|by []|exact: cm_transpose|exact: cm_mk_const|exact: cm_mk_ut|exact: cm_mk_lt
  |exact: cm_mk_lowrank|exact: (@cm_mk_wb (Diag _))|apply: calm_bind => [|?]]. Qed.
Lemma cm_negative a : calm (negative a).
Proof. elim: a => //= *; repeat first [assumption|by []|exact: cm_mk_diag|exact: cm_mk_const|exact: cm_mk_ut|exact: cm_mk_lt
  |exact: cm_mk_lowrank|exact: cm_mk_wb|apply: calm_bind => [|?]]. Qed.
Lemma cm_cast d a : calm (cast d a).
Proof. elim: a => //= *; repeat first [assumption|by []|exact: cm_mk_diag|exact: cm_mk_const|exact: cm_mk_ut|exact: cm_mk_lt
  |exact: cm_mk_lowrank|exact: cm_mk_wb|apply: calm_bind => [|?]]. Qed.
Lemma cm_bb a s : calm (broadcast_batch_to a s).
Proof. elim: a => //= *; repeat first [assumption|by []|exact: cm_bbto|exact: cm_bto|exact: cm_mk_diag|exact: cm_mk_const|exact: cm_mk_ut|exact: cm_mk_lt
  |exact: cm_mk_lowrank|exact: cm_mk_wb|apply: calm_bind => [|?]]. Qed.
Lemma cm_align_batch (xs : seq mat) : calm (align_batch xs).
Proof. by apply: calm_bind => [|s]; [exact: cm_sbb|apply: calm_mapM => x; exact: cm_bb]. Qed.
Lemma cm_tr a (t : bool) : calm (tr a t). Proof. by case: t => //=; exact: cm_transp. Qed.
End Mats.
