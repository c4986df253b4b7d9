(** * Exceptions of the derived operations and of the linear algebra: proof support for C50 *)
From mathcomp Require Import all_ssreflect all_algebra.
From Verif Require Import Outcome Monad Shape Tensor Mat Dispatch Ops LookThy Ops2 Block Backend Solve Tiled Objects Errs.
Set Implicit Arguments. Unset Strict Implicit. Unset Printing Implicit Defensive.
Import GRing.Theory Num.Theory.
Local Open Scope ring_scope.

Section Ops2.
Variable F : rcfType.
Notation tensor := (tensor F).
Notation mat := (mat F).
Variable S : exn -> bool.
Hypothesis HS : forall e, shape_error e -> S e.
Notation ok m := (E S m (fun=> True)).
Variable o : ops F.
Hypothesis Ho : eops S o.
Let od := eo_dense Ho.
Let om := eo_mm Ho.
Let oa := eo_add Ho.
Let ou := eo_mul Ho.
Let ox := eo_sx Ho.
Let os := eo_sa Ho.
Let og := eo_dg Ho.
Hint Resolve HS e_bd e_b2 e_eab2 e_eab e_broadcast e_compat e_axis e_iom e_map2 e_add e_mul e_sub e_div e_bto e_trt
  e_mm e_sump e_sum_ax e_takep e_take e_catp e_reshape e_sq1 e_sq2 e_dc e_de e_k2 e_k1 e_first e_get e_unst e_stack
  e_tile e_bbt e_sb e_sm e_so e_am e_as e_sb2 e_sbb e_smb e_asc e_diag e_lt e_ut e_zero e_const e_fd e_lr e_c2l'
  e_tr' e_bb e_neg e_cast e_ab e_zeros e_ones e_eye : errs.
Hint Resolve od om oa ou ox os og s_mm3 s_tr' s_gd : errs.
Ltac t0 := repeat first [exact: I | exact: (E_raise HS) | exact: (E_req HS) | assumption | solve [eauto 2 with errs] | apply: E_ok; [|move=> ?]
  | match goal with |- E _ (if _ then _ else _) _ => case: ifP => _ | |- E _ (match ?x with _ => _ end) _ => case: x => * end ].
Lemma d_sub a b : ok (subtract o a b). Proof. by rewrite /subtract; t0. Qed.
(** [align_batch] of two matrices keeps the class of a diagonal first one. *)
Lemma d_bbD (t : tensor) b : E S (broadcast_batch_to (Diag t) b) (@isD F).
Proof. by cbn [broadcast_batch_to]; apply: E_ok => [|u]; [t0|exact: e_diagD]. Qed.
Lemma d_ab2 (t : tensor) b : E S (align_batch [:: Diag t; b]) (fun xs => exists u c, xs = [:: Diag u; c]).
Proof.
rewrite /align_batch; apply: E_ok => [|s]; first by t0.
cbn [mapM]; apply: (E_bind (d_bbD _ _)) => x [u ->]; apply: (@E_bind _ _ _ _ _ (fun ys => exists c, ys = [:: c])) => [|ys [c ->]].
  by apply: E_ok => [|c]; [t0|exists c].
by exists u, c.
Qed.
Lemma d_sp a p : ok (sum_pos o a p).
Proof.
case: p => [|[|q]]; cbn [sum_pos]; try by t0.
case: a => *; try by t0.
by apply: (E_bind (d_ab2 _ _)) => xs [u [c ->]]; t0.
Qed.
Hint Resolve d_sp : errs.
Lemma d_rank (a : mat) : ok (rank_of a). Proof. by rewrite /rank_of; t0. Qed.
Hint Resolve d_rank : errs.
Lemma d_sum a ax : ok (sum_op o a ax). Proof. by rewrite /sum_op; t0. Qed.
Lemma d_trace a : ok (trace o a). Proof. by rewrite /trace; t0. Qed.
Hint Resolve d_sum d_trace d_sub : errs.
(** Looking up a binary operation: neither ambiguous nor stuck, and found by [key]. *)
Lemma div_fits (a b : mat) : exists2 i, lookup div_table (ty_of_matrix a) (ty_of_matrix b) = ret i & i = VGen \/ ty_of_matrix b = TConst.
Proof. by case: (ty_of_matrix a); case: (ty_of_matrix b); eexists; try reflexivity; auto. Qed.
Lemma tyC (b : mat) : ty_of_matrix b = TConst -> exists t r c, b = Const t r c.
Proof. by case: b => // t r c _; exists t, r, c. Qed.
Lemma tyK (b : mat) : ty_of_matrix b = TKron -> exists l r, b = Kron l r.
Proof. by case: b => // l r _; exists l, r. Qed.
Lemma tyL (b : mat) : ty_of_matrix b = TLT -> exists t, b = LT t.
Proof. by case: b => // t _; exists t. Qed.
Lemma tyU (b : mat) : ty_of_matrix b = TUT -> exists t, b = UT t.
Proof. by case: b => // t _; exists t. Qed.
Lemma d_div a b : ok (divide o a b).
Proof.
have key a' b' : ok (do i <- lookup div_table (ty_of_matrix a') (ty_of_matrix b'); div_body o i a' b').
  have [i -> h] := div_fits a' b'; rewrite bind_ret; case: h => [->|/tyC[t [r [c ->]]]]; first by rewrite /div_body; t0.
  by case: i; rewrite /div_body; t0.
by rewrite /divide; case: a => *; try exact: key; case: b => *; try exact: key; t0.
Qed.
Hint Resolve d_div : errs.
Lemma d_mean a ax : ok (mean_op o a ax). Proof. by rewrite /mean_op; t0. Qed.
Lemma d_ew f a : ok (elementwise o f a).
Proof. by elim: a => *; cbn [elementwise]; t0. Qed.
Lemma d_mmd a b s t : ok (matmul_diag o a b s t).
Proof. by rewrite /matmul_diag; case: a => *; try (by t0); case: b => *; t0. Qed.
Lemma d_ps (a b : mat) : ok (product_shape a b). Proof. by rewrite /product_shape; t0. Qed.
Hint Resolve d_ew d_mmd d_ps d_mean : errs.
Lemma kron_fits (a b : mat) : exists2 i, lookup kron_table (ty_of_matrix a) (ty_of_matrix b) = ret i & i <> KConst \/ ty_of_matrix a = TConst /\ ty_of_matrix b = TConst.
Proof. by case: (ty_of_matrix a); case: (ty_of_matrix b); eexists; try reflexivity; first [by left|by right]. Qed.
Lemma d_kb rec (a b : mat) : (forall x y, ok (rec x y)) -> ok (kron_body rec a b).
Proof.
move=> h; rewrite /kron_body; have [i -> k] := kron_fits a b; rewrite bind_ret.
case: i k => k; try by t0.
by case: k => [//|[/tyC[x [? [? ->]]] /tyC[y [? [? ->]]]]]; t0.
Qed.
Lemma d_kron n (a b : mat) : ok (kron_n n a b).
Proof.
elim: n a b => [|n IH] a b; first exact: (E_raise HS).
by cbn [kron_n]; case: a => *; try (exact: d_kb); case: b => *; try (exact: d_kb); t0.
Qed.
Lemma d_tile a r : ok (tile_op o a r). Proof. by rewrite /tile_op; t0. Qed.
Lemma d_tcat (ts : seq tensor) ax : ok (t_concat ts ax). Proof. by rewrite /t_concat; t0. Qed.
Hint Resolve d_tcat d_tile d_kron : errs.
Lemma d_mapd xs : ok (mapM (o_dense o) xs). Proof. exact: E_mapM. Qed.
Hint Resolve d_mapd : errs.
Lemma d_concat xs ax : ok (concat_op o xs ax). Proof. by rewrite /concat_op; t0. Qed.
Lemma d_reshape a ds : ok (reshape_op o a ds). Proof. by rewrite /reshape_op; t0. Qed.
Lemma d_tsq (t : tensor) : ok (t_squeeze t). Proof. by rewrite /t_squeeze; t0. Qed.
Hint Resolve d_tsq : errs.
Lemma d_squeeze a : ok (squeeze_op o a). Proof. by rewrite /squeeze_op; t0. Qed.
Lemma d_tg a x p : ok (take_gen o a x p). Proof. by rewrite /take_gen; t0. Qed.
Hint Resolve d_tg : errs.
Lemma d_ts rec a x ax : (forall b y z, ok (rec b y z)) -> ok (take_step o rec a x ax).
Proof. by move=> h; rewrite /take_step; t0. Qed.
Lemma d_tn n a x ax : ok (take_n o n a x ax).
Proof. by elim: n a x ax => [|n IH] a x ax; [exact: (E_raise HS)|exact: d_ts]. Qed.
Lemma d_take a x ax : ok (take_op o a x ax). Proof. exact: d_tn. Qed.
Lemma d_tsub (t : tensor) x : ok (t_submatrix t x). Proof. by rewrite /t_submatrix; t0. Qed.
Hint Resolve d_take d_tsub d_concat d_reshape d_squeeze : errs.
Lemma d_slrL l r m x : E S (submatrix_lr o l r m x) (@isL F).
Proof. by rewrite /submatrix_lr; do 2!(apply: E_ok => [|?]; first by t0); exact: e_lrL. Qed.
Lemma d_slr l r m x : ok (submatrix_lr o l r m x). Proof. exact: E_weak (d_slrL l r m x). Qed.
Hint Resolve d_slr : errs.
Lemma d_submatrix a x : ok (submatrix o a x).
Proof.
case: a => *; cbn [submatrix]; try by t0.
apply: E_ok => [|u]; first by t0.
apply: (E_bind (e_diagD HS _)) => d hd; apply: (E_bind (d_slrL _ _ _ _)) => l hl; exact: E_weak (e_wb HS hd hl).
Qed.
(** ** Blocks *)
Lemma d_rows (a : mat) : ok (rows_of a). Proof. by rewrite /rows_of; t0. Qed.
Lemma d_cols (a : mat) : ok (cols_of a). Proof. by rewrite /cols_of; t0. Qed.
Hint Resolve d_rows d_cols : errs.
Lemma d_abr (rows : seq (seq mat)) : ok (align_batch_rows rows).
Proof. by rewrite /align_batch_rows; apply: E_ok => [|b]; [t0|apply: E_mapM => r; apply: E_mapM => a; t0]. Qed.
Lemma d_mr (xs : seq mat) : ok (mapM (@rows_of F) xs). Proof. by apply: E_mapM => a; t0. Qed.
Lemma d_mc (xs : seq mat) : ok (mapM (@cols_of F) xs). Proof. by apply: E_mapM => a; t0. Qed.
Hint Resolve d_abr d_mr d_mc : errs.
Lemma d_az (rows : seq (seq mat)) : ok (attempt_zero rows).
Proof.
rewrite /attempt_zero; case: ifP => _ //; case: rows => [|[|x row] rows]; try exact: (E_raise HS).
apply: E_ok => [|b]; first by t0.
by apply: E_ok => [|h]; [apply: E_mapM => -[|y r]; t0|apply: E_ok => [|w] //; exact: d_mc].
Qed.
Lemma d_cr r c (row : seq mat) : ok (check_row r c row).
Proof. by elim: row c => [|x row IH] c //; cbn [check_row]; apply: E_ok => [|[h w]]; [t0|case: ifP => _ //; exact: IH]. Qed.
Lemma d_crs r (rows : seq (seq mat)) : ok (check_rows r rows).
Proof. by elim: rows r => [|x row IH] r //; cbn [check_rows]; apply: E_ok => [|k]; [exact: d_cr|case: k => //; exact: IH]. Qed.
Lemma d_mbb (xs : seq mat) b : ok (mapM (fun x => broadcast_batch_to x b) xs). Proof. by apply: E_mapM => a; t0. Qed.
Lemma d_mdg (xs : seq mat) : ok (mapM (o_diag o) xs). Proof. exact: E_mapM. Qed.
Hint Resolve d_az d_crs d_mbb d_mdg : errs.
Lemma d_ad rows : ok (attempt_diagonal o rows). Proof. by rewrite /attempt_diagonal; t0. Qed.
Lemma d_c2 (rows : seq (seq tensor)) : ok (t_concat2d rows).
Proof. by rewrite /t_concat2d; apply: E_ok => [|rs]; [apply: E_mapM => r|]; t0. Qed.
Lemma d_mmd2 (rows : seq (seq mat)) : ok (mapM (mapM (o_dense o)) rows). Proof. by apply: E_mapM => r; t0. Qed.
Hint Resolve d_ad d_c2 d_mmd2 : errs.
Lemma d_block rows : ok (block o rows).
Proof. by rewrite /block; t0. Qed.
Lemma d_iter (t : tensor) : ok (t_iter t). Proof. by rewrite /t_iter; t0. Qed.
Hint Resolve d_iter : errs.
Lemma d_al (ts : seq tensor) : ok (aligned ts). Proof. by rewrite /aligned; t0. Qed.
Lemma d_bdr d b tc bu (es : seq (tensor * (nat * nat))) : ok (bd_rows d b tc bu es).
Proof. by elim: es bu => [|[e [h w]] es IH] bu //; cbn [bd_rows]; apply: E_ok => [|r]; [t0|apply: E_ok => [|rs] //; exact: IH]. Qed.
Lemma d_msm (ts : seq tensor) : ok (mapM (fun e => shape_matrix (Nm e)) ts). Proof. by apply: E_mapM => a; t0. Qed.
Hint Resolve d_al d_bdr d_msm : errs.
Lemma d_tbd (ts : seq tensor) : ok (t_block_diag ts). Proof. by rewrite /t_block_diag; t0. Qed.
Lemma d_bz (xs : seq mat) : ok (bd_attempt_zero xs). Proof. by rewrite /bd_attempt_zero; t0. Qed.
Lemma d_bdd xs : ok (bd_attempt_diagonal o xs). Proof. by rewrite /bd_attempt_diagonal; t0. Qed.
Hint Resolve d_tbd d_bz d_bdd : errs.
Lemma d_bd xs : ok (block_diag o xs). Proof. by rewrite /block_diag; t0. Qed.
End Ops2.

(** ** Linear algebra *)
Definition linalg_error (e : exn) : bool := if e is LinAlgError then true else shape_error e.
Definition linalg_lookup_error (e : exn) : bool := if e is NotFoundLookup then true else linalg_error e.
Section LA.
Variable F : rcfType.
Notation tensor := (tensor F).
Notation mat := (mat F).
Variable S : exn -> bool.
Hypothesis HL : forall e, linalg_error e -> S e.
Let HS : forall e, shape_error e -> S e. Proof. by move=> e h; apply: HL; case: e h. Qed.
Notation ok m := (E S m (fun=> True)).
Variable argsort : seq F -> seq nat.
Variable n : nat.
Notation o := (ops_n argsort n).
Let Ho : eops S o := eops_n HS argsort n.
Let od := eo_dense Ho.
Let om := eo_mm Ho.
Let oa := eo_add Ho.
Let ou := eo_mul Ho.
Let ox := eo_sx Ho.
Let os := eo_sa Ho.
Let og := eo_dg Ho.
Hint Resolve HS e_bd e_b2 e_eab2 e_eab e_broadcast e_compat e_axis e_iom e_map2 e_add e_mul e_sub e_div e_bto e_trt
  e_mm e_sump e_sum_ax e_takep e_take e_catp e_reshape e_sq1 e_sq2 e_dc e_de e_k2 e_k1 e_first e_get e_unst e_stack
  e_tile e_bbt e_sb e_sm e_so e_am e_as e_sb2 e_sbb e_smb e_asc e_diag e_lt e_ut e_zero e_const e_fd e_lr e_c2l'
  e_tr' e_bb e_neg e_cast e_ab e_zeros e_ones e_eye : errs.
Hint Resolve od om oa ou ox os og s_mm3 s_tr' s_gd d_sub d_trace d_mmd : errs.
Ltac t0 := repeat first [exact: I | exact: (E_raise HS) | exact: (@HL LinAlgError isT) | exact: (E_req HS) | assumption | solve [eauto 2 with errs] | apply: E_ok; [|move=> ?]
  | match goal with |- E _ (if _ then _ else _) _ => case: ifP => _ | |- E _ (match ?x with _ => _ end) _ => case: x => * end ].
Lemma l_sq p f (t : tensor) : ok (t_square p f t). Proof. by rewrite /t_square; t0. Qed.
Lemma l_inv (t : tensor) : ok (t_inv t). Proof. exact: l_sq. Qed.
Lemma l_chol (t : tensor) : ok (t_chol t). Proof. exact: l_sq. Qed.
Lemma l_sel p (s t : tensor) : ok (t_solve_sel p s t). Proof. by rewrite /t_solve_sel; t0. Qed.
Lemma l_solve (s t : tensor) : ok (t_solve s t). Proof. exact: l_sel. Qed.
Lemma l_tsolve (s t : tensor) b : ok (t_trisolve s t b). Proof. exact: l_sel. Qed.
Lemma l_root svd (t : tensor) : ok (t_root svd t). Proof. exact: l_sq. Qed.
Hint Resolve l_inv l_chol l_solve l_tsolve l_root : errs.
Lemma l_logdet log (t : tensor) : ok (t_logdet log t). Proof. by rewrite /t_logdet; t0. Qed.
Lemma l_diD (t : tensor) : E S (diag_inv t) (@isD F). Proof. by rewrite /diag_inv; apply: E_ok => [|u]; [t0|exact: e_diagD]. Qed.
Lemma l_di (t : tensor) : ok (diag_inv t). Proof. exact: E_weak (l_diD t). Qed.
Hint Resolve l_logdet l_di : errs.
(** Adding a diagonal and a low-rank matrix; subtracting the latter. *)
Lemma l_add_wb (t : tensor) l r m : E S (o_add o (Diag t) (LR l r m)) (fun c => exists d l r m, c = Wb d l r m).
Proof.
case: n => [|k]; first exact: (E_raise HS).
cbn [ops_n ops_step o_add]; rewrite /add_step /to_matrix [ty_of_matrix _]/= [ty_of_matrix _]/= add_selE [selof _ _ _]/= bind_ret /add_body.
by apply: e_wb => //; [exists t|exists l, r, m].
Qed.
Lemma l_negL l r m : E S (negative (LR l r m : mat)) (@isL F).
Proof. by cbn [negative]; apply: E_ok => [|m']; [t0|exact: e_lrL]. Qed.
Lemma l_sub_wb (a b : mat) : isD a -> isL b -> E S (subtract o a b) (fun c => exists d l r m, c = Wb d l r m).
Proof.
move=> [t ->] [l [r [m ->]]]; rewrite /subtract /to_matrix.
by apply: (E_bind (l_negL _ _ _)) => _ [l' [r' [m' ->]]]; exact: l_add_wb.
Qed.
(** Cholesky factors and roots: classes without a method are triangular. *)
Fixpoint chol_class (a : mat) : bool :=
  match a with LT _ | UT _ => false | LR _ _ m => chol_class m | Kron l r => chol_class l && chol_class r | _ => true end.
Lemma l_cholesky a : chol_class a -> ok (cholesky o a).
Proof.
elim: a => [t|d b r c|t|t|t r c|t|t|l _ r _ m IHm|d l _ r _ m _|l IHl r IHr] //; cbn [cholesky chol_class].
1-5: by move=> _; t0.
- by move=> h; apply: E_ok => [|_]; [t0|apply: E_ok => [|x]; [exact: IHm|exact: om]].
- by move=> _; t0.
- by move=> /andP[hl hr]; apply: E_ok => [|x]; [exact: IHl|apply: E_ok => // ; exact: IHr].
Qed.
Fixpoint root_class (a : mat) : bool :=
  match a with LT _ | UT _ => false | Kron l r => root_class l && root_class r | _ => true end.
Lemma l_rootm svd a : root_class a -> ok (root o svd a).
Proof.
elim: a => [t|d b r c|t|t|t r c|t|t|l _ r _ m _|d l _ r _ m _|l IHl r IHr] //; cbn [root root_class].
- by move=> _; t0.
- by move=> _; t0.
- by move=> _; t0.
- by move=> _; apply: E_ok => [|_]; [t0|exact: l_cholesky].
- by move=> _; apply: E_ok => [|_]; [t0|exact: l_cholesky].
- by move=> _; t0.
- by move=> _; t0.
- by move=> /andP[hl hr]; apply: E_ok => [|x]; [exact: IHl|apply: E_ok => // ; exact: IHr].
Qed.
(** Inverses with methods: everything but the Woodbury matrices. *)
Fixpoint inv_class (a : mat) : bool :=
  match a with Nm _ | Dense _ | Diag _ => true | Kron l r => inv_class l && inv_class r | _ => false end.
Lemma l_invc k a : inv_class a -> ok (inv_n o k a).
Proof.
elim: k a => [|k IH] a; first by move=> _; exact: (E_raise HS).
case: a => [t|d b r c|t|t|t r c|t|t|l r m|d l r m|l r] //; cbn [inv_n inv_class]; try by move=> _; t0.
by move=> /andP[hl hr]; apply: E_ok => [|x]; [exact: IH|apply: E_ok => //; exact: IH].
Qed.
Lemma solve_fits (a b : mat) : exists2 i, lookup solve_table (ty_of_matrix a) (ty_of_matrix b) = ret i &
  match i with
  | SLT => exists t, a = LT t
  | SUT => exists t, a = UT t
  | SDiag => exists t, a = Diag t
  | SWb => exists d l r m, a = Wb d l r m
  | _ => True
  end.
Proof.
case: a => [t|d b' r c|t|t|t r c|t|t|l r m|d l r m|l r]; case: (ty_of_matrix b); eexists; try reflexivity; try exact: I;
  first [by exists t | by exists d, l, r, m].
Qed.
Definition not_wb (a : mat) : bool := if a is Wb _ _ _ _ then false else true.
Lemma l_solve_wb k a b : not_wb a \/ (forall a', ok (inv_n o k a')) -> ok (solve o k a b).
Proof.
move=> h.
have key a' b' : not_wb a' \/ (forall a', ok (inv_n o k a')) -> ok (solve_m o k a' b').
  move=> h'; rewrite /solve_m; have [i -> hi] := solve_fits a' b'; rewrite bind_ret.
  case: i hi => hi; rewrite /solve_body.
  - by [].
  - by t0.
  - by case: hi => t ->; apply: E_ok => [|x]; [exact: l_invc|exact: om].
  - by case: hi => t ->; t0.
  - by case: hi => t ->; t0.
  - apply: E_ok => [|x]; last exact: om.
    by case: h' => [|h']; [case: hi => d [l [r [m ->]]]|exact: h'].
have nwt (x : mat) : not_wb x -> not_wb (to_matrix x).
  by case: x => // t _; rewrite /to_matrix /convert_num; case: (sh t) => // ; case: ifP.
have h2 : not_wb (to_matrix a) \/ (forall a', ok (inv_n o k a')) by case: h => h; [left; exact: nwt|right].
by rewrite /solve; case: a h h2 => *; try exact: key; case: b => *; try exact: key; t0.
Qed.
End LA.

(** With a failed lookup allowed, for all classes. *)
Section LA2.
Variable F : rcfType.
Notation tensor := (tensor F).
Notation mat := (mat F).
Notation S := linalg_lookup_error.
Lemma HL2 : forall e, linalg_error e -> S e. Proof. by case. Qed.
Let HS : forall e, shape_error e -> S e. Proof. by case. Qed.
Notation ok m := (E S m (fun=> True)).
Variable argsort : seq F -> seq nat.
Variable n : nat.
Notation o := (ops_n argsort n).
Let Ho : eops S o := eops_n HS argsort n.
Let od := eo_dense Ho.
Let om := eo_mm Ho.
Let oa := eo_add Ho.
Let ou := eo_mul Ho.
Let ox := eo_sx Ho.
Let os := eo_sa Ho.
Let og := eo_dg Ho.
Let HL := HL2.
Hint Resolve HS HL e_bd e_b2 e_eab2 e_eab e_broadcast e_compat e_axis e_iom e_map2 e_add e_mul e_sub e_div e_bto e_trt
  e_mm e_sump e_sum_ax e_takep e_take e_catp e_reshape e_sq1 e_sq2 e_dc e_de e_k2 e_k1 e_first e_get e_unst e_stack
  e_tile e_bbt e_sb e_sm e_so e_am e_as e_sb2 e_sbb e_smb e_asc e_diag e_lt e_ut e_zero e_const e_fd e_lr e_c2l'
  e_tr' e_bb e_neg e_cast e_ab e_zeros e_ones e_eye : errs.
Hint Resolve od om oa ou ox os og s_mm3 s_tr' s_gd d_sub d_trace d_mmd l_inv l_chol l_solve l_tsolve l_root l_logdet l_di : errs.
Ltac t0 := repeat first [exact: I | exact: (E_raise HS) | exact: (E_req HS) | assumption | solve [eauto 2 with errs] | apply: E_ok; [|move=> ?]
  | match goal with |- E _ (if _ then _ else _) _ => case: ifP => _ | |- E _ (match ?x with _ => _ end) _ => case: x => * end ].
Lemma n_schur inv d l r (m : mat) : (forall a, ok (inv a)) -> ok (schur_with o inv d l r m).
Proof. by move=> h; rewrite /schur_with; t0. Qed.
Lemma n_wbinv inv d l r (m : mat) : (forall a, ok (inv a)) -> E S (woodbury_inv o inv d l r m) (fun c => exists d l r m, c = Wb d l r m).
Proof.
move=> h; rewrite /woodbury_inv; apply: (E_bind (l_diD HL _)) => di hd.
do 2!(apply: E_ok => [|?]; first by t0).
apply: E_ok => [|s]; first exact: n_schur.
apply: E_ok => [|si]; first exact: h.
by apply: (E_bind (e_lrL HS _ _ _)) => lr hl; exact: l_sub_wb.
Qed.
Lemma n_inv k a : ok (inv_n o k a).
Proof.
elim: k a => [|k IH] a //; case: a => [t|d b r c|t|t|t r c|t|t|l r m|d l r m|l r] //; cbn [inv_n]; try by t0.
Qed.
Hint Resolve n_inv : errs.
Lemma n_schurn k a : ok (schur_n o k a). Proof. by rewrite /schur_n; case: a => *; try (by []); apply: n_schur => ?; t0. Qed.
Lemma n_cholesky a : ok (cholesky o a).
Proof. by elim: a => *; cbn [cholesky]; t0. Qed.
Lemma n_solve k a b : ok (solve o k a b). Proof. by apply: l_solve_wb => //; right=> ?; exact: n_inv. Qed.
Hint Resolve n_cholesky n_solve : errs.
Lemma ts_fits (a b : mat) : ok (lookup tsolve_table (ty_of_matrix a) (ty_of_matrix b)).
Proof. by case: (ty_of_matrix a); case: (ty_of_matrix b). Qed.
Lemma n_tsolve k a b l : ok (triangular_solve o k a b l).
Proof.
have key a' b' : ok (do i <- lookup tsolve_table (ty_of_matrix a') (ty_of_matrix b'); solve o k a' b') by apply: E_ok => [|i]; [exact: ts_fits|exact: n_solve].
by rewrite /triangular_solve; case: a => *; try exact: key; case: b => *; try exact: key; t0.
Qed.
Lemma cs_fits (a b : mat) : E S (lookup csolve_table (ty_of_matrix a) (ty_of_matrix b)) (fun i => i = CTri \/ ty_of_matrix a = TKron /\ ty_of_matrix b = TKron).
Proof. by case: (ty_of_matrix a); case: (ty_of_matrix b) => //=; first [by left|by right]. Qed.
Lemma n_csolve k a b : ok (cholesky_solve o k a b).
Proof.
elim: a b => [t|d b' r c|t|t|t r c|t|t|l IHl r IHr m IHm|d l IHl r IHr m IHm|l IHl r IHr] b; cbn [cholesky_solve].
all: apply: (E_bind (cs_fits _ _)) => i [->|[ha hb]]; try (by t0); try discriminate ha.
have [l' [r' eb]] := tyK hb.
have -> : b = Kron l' r' by case: b hb eb => // t _; rewrite /to_matrix /convert_num; case: (sh t) => // ; case: ifP.
by case: i; t0.
Qed.
Hint Resolve n_csolve : errs.
Lemma n_pdinv k a : ok (pd_inv_n o k a).
Proof.
elim: k a => [|k IH] a //; case: a => [t|d b r c|t|t|t r c|t|t|l r m|d l r m|l r]; cbn [pd_inv_n]; try by t0.
Qed.
Hint Resolve n_pdinv : errs.
Lemma n_pdschur k a : ok (pd_schur_n o k a). Proof. by rewrite /pd_schur_n; case: a => *; try (by []); apply: n_schur => ?; t0. Qed.
Hint Resolve n_pdschur : errs.
Lemma n_ld log a : ok (logdet_diag o log a). Proof. by rewrite /logdet_diag; t0. Qed.
Hint Resolve n_ld : errs.
Lemma n_logdet log k a : ok (logdet_n o log k a).
Proof. by elim: k a => [|k IH] a //; case: a => *; cbn [logdet_n]; t0. Qed.
Lemma n_ip k a b c s : ok (iqf_parts o k a b c s).
Proof. by rewrite /iqf_parts; t0. Qed.
Hint Resolve n_ip : errs.
Lemma n_iqf k a b c s : ok (iqf o k a b c s). Proof. by rewrite /iqf; case: a => *; t0. Qed.
Lemma n_iqfd k a b c s : ok (iqf_diag o k a b c s). Proof. by rewrite /iqf_diag; case: a => *; t0. Qed.
Lemma n_tmm (a b : mat) : ok (trace_mm o a b). Proof. by rewrite /trace_mm; t0. Qed.
Hint Resolve n_tmm n_iqfd : errs.
Lemma n_ratio k a b : ok (ratio o k a b).
Proof.
rewrite /ratio /iqf_diag2; case: b => [t|d b r c|t|t|t r c|t|t|l r m|d l r m|l r]; try by t0.
apply: (@E_bind _ _ _ _ _ (fun c => exists d l r m, c = Wb d l r m)) => [|bi [d' [l' [r' [m' ->]]]]].
  by case: k => [|k] //; exact: n_wbinv (n_pdinv k).
by t0.
Qed.
Lemma n_root svd a : ok (root o svd a).
Proof. by elim: a => *; cbn [root]; t0. Qed.
Lemma n_sg (state : Type) randn (st : state) a num : ok (sample_gen o randn st a num).
Proof. by rewrite /sample_gen; t0. Qed.
Hint Resolve n_sg : errs.
Lemma n_sample (state : Type) randn (st : state) a num : ok (sample o randn st a num).
Proof. by rewrite /sample; case: a => *; t0. Qed.
End LA2.
