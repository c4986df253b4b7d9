(** * Which exceptions a call can raise: proof support for C50 *)
From mathcomp Require Import all_ssreflect all_algebra.
From Verif Require Import Outcome Monad Shape Tensor Mat Dispatch Ops LookThy.
Set Implicit Arguments. Unset Strict Implicit. Unset Printing Implicit Defensive.
Import GRing.Theory Num.Theory.
Local Open Scope ring_scope.

(** Every exception of the outcome is in [S], every value satisfies [Q]. *)
Definition E (S : exn -> bool) A (m : outcome A) (Q : A -> Prop) : Prop :=
  match m with RaiseL _ e => S e | Ret _ a => Q a end.
(** Errors about shapes and indices, and the limit of the recursion. *)
Definition shape_error (e : exn) : bool :=
  match e with AssertionError | RuntimeError | ValueError | IndexError | RecursionError => true | _ => false end.

Section E.
Variable S : exn -> bool.
Hypothesis HS : forall e, shape_error e -> S e.
Notation ok m := (E S m (fun=> True)).
Lemma E_bind A B (m : outcome A) (f : A -> outcome B) (P : A -> Prop) (Q : B -> Prop) : E S m P -> (forall a, P a -> E S (f a) Q) -> E S (bind m f) Q.
Proof. by rewrite /bind; case: m => [l a|l e] h1 h2 //; have := h2 _ h1; case: (f a). Qed.
Lemma E_ok A B (m : outcome A) (f : A -> outcome B) (Q : B -> Prop) : ok m -> (forall a, E S (f a) Q) -> E S (bind m f) Q.
Proof. by move=> h1 h2; apply: (E_bind h1). Qed.
Lemma E_ret A (a : A) (Q : A -> Prop) : Q a -> E S (ret a) Q. Proof. by []. Qed.
Lemma E_conseq (A : Type) (m : outcome A) (P Q : A -> Prop) : E S m P -> (forall a, P a -> Q a) -> E S m Q.
Proof. by case: m => //= l a h k; exact: k. Qed.
Lemma E_weak (A : Type) (m : outcome A) (P : A -> Prop) : E S m P -> ok m. Proof. by case: m. Qed.
Lemma E_req b e : shape_error e -> ok (require b e).
Proof. by move=> h; rewrite /require; case: b => //; exact: HS. Qed.
Lemma E_warn A b (f : unit -> outcome A) (Q : A -> Prop) : E S (f tt) Q -> E S (do _ <- warn_if b; f tt) Q.
Proof. by move=> h; apply: (@E_ok unit) => // -[]. Qed.
Lemma E_mapM A B (f : A -> outcome B) s : (forall a, ok (f a)) -> ok (mapM f s).
Proof. by move=> h; elim: s => //= a s IH; apply: E_ok => // b; apply: E_ok. Qed.
Lemma E_mapM_in A B (f : A -> outcome B) (s : seq A) (P : A -> Prop) : (forall a, P a -> ok (f a)) ->
  foldr (fun a R => P a /\ R) True s -> ok (mapM f s).
Proof. by move=> h; elim: s => //= a s IH [ha hs]; apply: E_ok => [|b]; [exact: h|apply: E_ok => //; exact: IH]. Qed.
Lemma E_raise A e (Q : A -> Prop) : shape_error e -> E S (Raise e) Q. Proof. exact: HS. Qed.
Lemma E_fold op r ss : (forall a b, ok (op a b)) -> ok (fold_shapes op r ss).
Proof. by move=> h; elim: ss r => //= s ss IH r; apply: E_ok. Qed.
End E.

Create HintDb errs.

Section Core.
Variable F : rcfType.
Notation tensor := (tensor F).
Notation mat := (mat F).
Variable S : exn -> bool.
Hypothesis HS : forall e, shape_error e -> S e.
Notation ok m := (E S m (fun=> True)).
Hint Resolve HS : errs.
Lemma e_raise A e : shape_error e -> E S (Raise e : outcome A) (fun=> True). Proof. exact: HS. Qed.

Lemma e_bd a b : ok (broadcast_dim a b). Proof. by rewrite /broadcast_dim; case: ifP => _ //; exact: HS. Qed.
Lemma e_b2 s t : ok (broadcast2 s t).
Proof. by rewrite /broadcast2; case: ifP => _; [exact: HS|apply: E_mapM => p; exact: e_bd]. Qed.
Lemma e_eab2 s t : ok (expand_and_broadcast2 s t).
Proof. by rewrite /expand_and_broadcast2; do 2?[case: ifP => _]; exact: e_b2. Qed.
Lemma e_eab ss : ok (expand_and_broadcast ss).
Proof. by case: ss => [|s ss]; [exact: HS|apply: E_fold => a b; exact: e_eab2]. Qed.
Lemma e_broadcast ss : ok (broadcast ss).
Proof. by case: ss => [|s ss]; [exact: HS|apply: E_fold => a b; exact: e_b2]. Qed.
Lemma e_compat s t : ok (assert_compatible s t).
Proof.
rewrite /assert_compatible; apply: E_ok => [|b]; last exact: E_req.
by rewrite /compatible; have := e_eab2 s t; case: expand_and_broadcast2 => // l [].
Qed.
Hint Resolve e_bd e_b2 e_eab2 e_eab e_broadcast e_compat : errs.
Ltac t0 := repeat first [exact: I | exact: (E_raise HS) | exact: (E_req HS) | assumption | solve [eauto 2 with errs] | apply: E_ok; [|move=> ?]
  | match goal with |- E _ (if _ then _ else _) _ => case: ifP => _ | |- E _ (match ?x with _ => _ end) _ => case: x => * end ].
Lemma e_axis k ax : ok (resolve_axis k ax). Proof. by case: ax => n /=; t0. Qed.
Lemma e_iom d x : ok (resolve_iom d x).
Proof. by case: x => [l|m] /=; [apply: E_mapM => -[] n /=; t0|t0]. Qed.
Hint Resolve e_axis e_iom : errs.
Lemma e_map2 f (s t : tensor) : ok (t_map2 f s t). Proof. by rewrite /t_map2; t0. Qed.
Lemma e_add (s t : tensor) : ok (t_add s t). Proof. exact: e_map2. Qed.
Lemma e_mul (s t : tensor) : ok (t_mul s t). Proof. exact: e_map2. Qed.
Lemma e_sub (s t : tensor) : ok (t_sub s t). Proof. exact: e_map2. Qed.
Lemma e_div (s t : tensor) : ok (t_div s t). Proof. exact: e_map2. Qed.
Lemma e_bto (t : tensor) s : ok (t_broadcast_to t s). Proof. by rewrite /t_broadcast_to; t0. Qed.
Lemma e_trt (t : tensor) : ok (t_transpose t). Proof. by rewrite /t_transpose; t0. Qed.
Hint Resolve e_add e_mul e_sub e_div e_bto e_trt : errs.
Lemma e_mm (s t : tensor) a b : ok (t_matmul s t a b). Proof. by rewrite /t_matmul /t_tr /t_matmul_nn; t0. Qed.
Lemma e_sump (t : tensor) p : ok (t_sum_pos t p). Proof. by rewrite /t_sum_pos; t0. Qed.
Lemma e_sum_ax (t : tensor) p : ok (t_sum_ax t p). Proof. exact: e_sump. Qed.
Lemma e_takep (t : tensor) x p : ok (t_take_pos t x p). Proof. by rewrite /t_take_pos; t0. Qed.
Lemma e_take (t : tensor) x ax : ok (t_take t x ax). Proof. by rewrite /t_take; t0; exact: e_takep. Qed.
Lemma e_catp (ts : seq tensor) p : ok (t_concat_pos ts p). Proof. by rewrite /t_concat_pos; t0. Qed.
Lemma e_reshape (t : tensor) ds : ok (t_reshape t ds). Proof. by rewrite /t_reshape /resolve_dims; t0. Qed.
Lemma e_sq1 (t : tensor) : ok (t_squeeze1 t). Proof. by rewrite /t_squeeze1; t0. Qed.
Lemma e_sq2 (t : tensor) : ok (t_squeeze2 t). Proof. by rewrite /t_squeeze2; t0. Qed.
Lemma e_dc (t : tensor) : ok (t_diag_construct t). Proof. by rewrite /t_diag_construct; t0. Qed.
Lemma e_de (t : tensor) : ok (t_diag_extract t). Proof. by rewrite /t_diag_extract; t0. Qed.
Lemma e_k2 (s t : tensor) : ok (t_kron2 s t). Proof. by rewrite /t_kron2; t0. Qed.
Lemma e_k1 (s t : tensor) : ok (t_kron1 s t). Proof. by rewrite /t_kron1; t0. Qed.
Lemma e_first (t : tensor) : ok (t_first t). Proof. by rewrite /t_first; t0. Qed.
Lemma e_get (t : tensor) : ok (t_get00 t). Proof. by rewrite /t_get00; t0. Qed.
Lemma e_unst (t : tensor) p : ok (t_unstack t p). Proof. by rewrite /t_unstack; t0. Qed.
Lemma e_stack (ts : seq tensor) p : ok (t_stack ts p). Proof. by rewrite /t_stack; t0. Qed.
Lemma e_tile (t : tensor) p : ok (t_tile t p). Proof. by rewrite /t_tile; t0. Qed.
Lemma e_bbt (t : tensor) b : ok (t_broadcast_batch_to t b). Proof. by rewrite /t_broadcast_batch_to; t0. Qed.
Hint Resolve e_mm e_sump e_sum_ax e_takep e_take e_catp e_reshape e_sq1 e_sq2 e_dc e_de e_k2 e_k1 e_first e_get e_unst e_stack
  e_tile e_bbt : errs.
Lemma e_sb (a : mat) : ok (shape_batch a). Proof. by elim: a => *; cbn [shape_batch]; t0. Qed.
Lemma e_sm (a : mat) : ok (shape_matrix a). Proof. by elim: a => *; cbn [shape_matrix]; t0. Qed.
Hint Resolve e_sb e_sm : errs.
Lemma e_so (a : mat) : ok (shape_of a). Proof. by case: a => * ; rewrite /shape_of; t0. Qed.
Hint Resolve e_so : errs.
Lemma e_am (a : mat) : ok (assert_matrix a). Proof. by rewrite /assert_matrix /rank_of; t0. Qed.
Hint Resolve e_am : errs.
Lemma e_as (a : mat) : ok (assert_square a). Proof. by rewrite /assert_square; t0. Qed.
Lemma e_sb2 (a b : mat) : ok (shape_broadcast2 a b). Proof. by rewrite /shape_broadcast2; t0. Qed.
Lemma e_sbb (xs : seq mat) : ok (shape_batch_broadcast xs).
Proof. by rewrite /shape_batch_broadcast; apply: E_ok => [|?]; [apply: E_mapM => a; exact: e_sb|exact: e_eab]. Qed.
Lemma e_smb (a b : mat) : ok (shape_matrix_broadcast2 a b). Proof. by rewrite /shape_matrix_broadcast2; t0. Qed.
Lemma e_asc (a b : mat) : ok (assert_shapes_compatible a b). Proof. by rewrite /assert_shapes_compatible; t0. Qed.
Hint Resolve e_as e_sb2 e_sbb e_smb e_asc : errs.
(** Constructors, with the class of the result. *)
Definition isD (a : mat) : Prop := exists t, a = Diag t.
Definition isL (a : mat) : Prop := exists l r m, a = LR l r m.
Lemma e_diagD (t : tensor) : E S (mk_diag t) isD. Proof. by rewrite /mk_diag; apply: E_ok => [|?]; [exact: E_req|exists t]. Qed.
Lemma e_diag (t : tensor) : ok (mk_diag t). Proof. exact: E_weak (e_diagD t). Qed.
Lemma e_lt (t : tensor) : ok (mk_lt t). Proof. by rewrite /mk_lt; t0. Qed.
Lemma e_ut (t : tensor) : ok (mk_ut t). Proof. by rewrite /mk_ut; t0. Qed.
Lemma e_zero d s : ok (mk_zero d s : outcome mat). Proof. by case: s => [|? [|? ?]] /=; t0. Qed.
Lemma e_const (t : tensor) s : ok (mk_const t s). Proof. by case: s => [|? [|? [|? ?]]] /=; t0. Qed.
Hint Resolve e_diag e_lt e_ut e_zero e_const : errs.
Lemma e_fd (t : tensor) n : ok (fill_diag t n). Proof. by rewrite /fill_diag; t0. Qed.
Hint Resolve e_fd : errs.
Lemma e_lrL l r m : E S (@mk_lowrank F l r m) isL.
Proof.
rewrite /mk_lowrank; apply: E_ok => [|_]; first by t0.
apply: E_ok => [|[_ lc]]; first by t0.
apply: E_ok => [|_]; first by case: m => [m|]; t0.
apply: E_ok => [|_]; first by case: r => [r|]; case: m => [m|]; t0.
by apply: E_ok => [|m']; [case: m => [m|]; t0|do 3 eexists; reflexivity].
Qed.
Lemma e_lr l r m : ok (@mk_lowrank F l r m). Proof. exact: E_weak (e_lrL l r m). Qed.
Lemma e_wb (d l : mat) : isD d -> isL l -> E S (mk_woodbury d l) (fun c => exists d l r m, c = Wb d l r m).
Proof. by case=> t -> [l' [r [m ->]]] /=; apply: E_ok => [|_]; [t0|do 4 eexists; reflexivity]. Qed.
Hint Resolve e_lr : errs.
Lemma e_c2l (t : tensor) r c : E S (const_to_lowrank t r c) isL.
Proof. by rewrite /const_to_lowrank; apply: E_ok => [|m]; [t0|case: ifP => _; exact: e_lrL]. Qed.
Lemma e_c2l' (t : tensor) r c : ok (const_to_lowrank t r c). Proof. exact: E_weak (e_c2l t r c). Qed.
(** Same class, for the classes whose attributes are read afterwards. *)
Definition keeps (a c : mat) : Prop :=
  match a with
  | Const _ _ _ => exists t r k, c = Const t r k
  | LR _ _ _ => isL c
  | Kron _ _ => exists l r, c = Kron l r
  | Diag _ => isD c
  | _ => True
  end.
Lemma e_tr (a : mat) : E S (transpose a) (keeps a).
Proof.
elim: a => [t|d b r c|t|t|t r c|t|t|l IHl r IHr m IHm|d l IHl r IHr m IHm|l IHl r IHr]; cbn [transpose keeps].
- by t0.
- by [].
- by t0.
- by exists t.
- rewrite /mk_const; case: (sh t) => [|x s]; first by do 3 eexists.
  apply: E_ok => [|b]; first by t0.
  by apply: E_ok => [|u]; [t0|do 3 eexists].
- by t0.
- by t0.
- by apply: (E_bind IHm) => m' _; exact: e_lrL.
- apply: (E_bind IHm) => m' _; apply: (E_bind (e_lrL _ _ _)) => lr h.
  by apply: E_weak (e_wb _ h); exists d.
- by apply: (E_bind IHl) => l' _; apply: (E_bind IHr) => r' _; do 2 eexists.
Qed.
Lemma e_tr' (a : mat) : ok (transpose a). Proof. exact: E_weak (e_tr a). Qed.
Lemma e_bb (a : mat) b : ok (broadcast_batch_to a b).
Proof.
elim: a => [t|d b' r c|t|t|t r c|t|t|l IHl r IHr m IHm|d l IHl r IHr m IHm|l IHl r IHr]; cbn [broadcast_batch_to]; try by t0.
apply: E_ok => [|u]; first by t0.
apply: (E_bind (e_diagD u)) => d' hd; apply: E_ok => // l'; apply: E_ok => // r'; apply: E_ok => // m'.
by apply: (E_bind (e_lrL _ _ _)) => lr h; exact: E_weak (e_wb hd h).
Qed.
Lemma e_neg (a : mat) : ok (negative a).
Proof.
elim: a => [t|d b' r c|t|t|t r c|t|t|l IHl r IHr m IHm|d l IHl r IHr m IHm|l IHl r IHr]; cbn [negative]; try by t0.
apply: (E_bind (e_diagD _)) => d' hd; apply: E_ok => // m'.
by apply: (E_bind (e_lrL _ _ _)) => lr h; exact: E_weak (e_wb hd h).
Qed.
Lemma e_cast d (a : mat) : ok (cast d a).
Proof.
elim: a => [t|d' b' r c|t|t|t r c|t|t|l IHl r IHr m IHm|dg l IHl r IHr m IHm|l IHl r IHr]; cbn [cast]; try by t0.
apply: (E_bind (e_diagD _)) => d' hd; apply: E_ok => // l'; apply: E_ok => // r'; apply: E_ok => // m'.
by apply: (E_bind (e_lrL _ _ _)) => lr h; exact: E_weak (e_wb hd h).
Qed.
Hint Resolve e_c2l' e_tr' e_bb e_neg e_cast : errs.
Lemma e_ab (xs : seq mat) : ok (align_batch xs).
Proof. by rewrite /align_batch; apply: E_ok => [|b]; [t0|apply: E_mapM => a; exact: e_bb]. Qed.
Lemma e_zeros (a : mat) : ok (zeros_of a). Proof. by rewrite /zeros_of; t0. Qed.
Lemma e_ones (a : mat) : ok (ones_of a). Proof. by rewrite /ones_of; t0. Qed.
Lemma e_eye (a : mat) : ok (eye_of a). Proof. by rewrite /eye_of; t0. Qed.
Hint Resolve e_ab e_zeros e_ones e_eye : errs.
End Core.

(** ** One level of the recursion *)
Section Step.
Variable F : rcfType.
Notation tensor := (tensor F).
Notation mat := (mat F).
Variable S : exn -> bool.
Hypothesis HS : forall e, shape_error e -> S e.
Variable argsort : seq F -> seq nat.
Notation ok m := (E S m (fun=> True)).
Record eops (o : ops F) : Prop := EOps {
  eo_dense : forall a, ok (o_dense o a);
  eo_mm : forall a b ta tb, ok (o_matmul o a b ta tb);
  eo_add : forall a b, ok (o_add o a b);
  eo_mul : forall a b, ok (o_mul o a b);
  eo_sx : forall a p, ok (o_sumax o a p);
  eo_sa : forall a, ok (o_sumall o a);
  eo_dg : forall a, ok (o_diag o a) }.
Variable o : ops F.
Hypothesis Ho : eops o.
Let od := eo_dense Ho.
Let om := eo_mm Ho.
Let oa := eo_add Ho.
Let ou := eo_mul Ho.
Let ox := eo_sx Ho.
Let os := eo_sa Ho.
Let og := eo_dg Ho.
Hint Resolve HS e_bd e_b2 e_eab2 e_eab e_broadcast e_compat e_axis e_iom e_map2 e_add e_mul e_sub e_div e_bto e_trt
  e_mm e_sump e_sum_ax e_takep e_take e_catp e_reshape e_sq1 e_sq2 e_dc e_de e_k2 e_k1 e_first e_get e_unst e_stack
  e_tile e_bbt e_sb e_sm e_so e_am e_as e_sb2 e_sbb e_smb e_asc e_diag e_lt e_ut e_zero e_const e_fd e_lr e_c2l'
  e_tr' e_bb e_neg e_cast e_ab e_zeros e_ones e_eye : errs.
Hint Resolve od om oa ou ox os og : errs.
Ltac t0 := repeat first [exact: I | exact: (E_raise HS) | exact: (E_req HS) | assumption | solve [eauto 2 with errs] | apply: E_ok; [|move=> ?]
  | match goal with |- E _ (if _ then _ else _) _ => case: ifP => _ | |- E _ (match ?x with _ => _ end) _ => case: x => * end ].
Lemma s_mm3 a b c ta tb tc : ok (mm3 o a b c ta tb tc). Proof. by rewrite /mm3; t0. Qed.
Lemma s_tcd (t : tensor) r c : ok (t_const_dense t r c). Proof. by rewrite /t_const_dense; t0. Qed.
Hint Resolve s_mm3 s_tcd : errs.
Lemma s_dense a : ok (dense_step o a). Proof. by case: a => *; cbn [dense_step]; t0. Qed.
Lemma s_ltm a : ok (mk_lt_mat o a). Proof. by rewrite /mk_lt_mat; t0. Qed.
Lemma s_utm a : ok (mk_ut_mat o a). Proof. by rewrite /mk_ut_mat; t0. Qed.
Lemma s_bts a s : ok (broadcast_to_step o a s). Proof. by rewrite /broadcast_to_step; t0. Qed.
Lemma s_gd a : ok (getitem_dense o a). Proof. by rewrite /getitem_dense; t0. Qed.
Lemma s_cn a z p : ok (concat_num o a z p). Proof. by rewrite /concat_num; t0. Qed.
Hint Resolve s_ltm s_utm s_bts s_gd s_cn : errs.
Lemma s_pr a : ok (pad_zero_row o a). Proof. by rewrite /pad_zero_row; t0. Qed.
Lemma s_pc a : ok (pad_zero_col o a). Proof. by rewrite /pad_zero_col; t0. Qed.
Hint Resolve s_pr s_pc : errs.
Lemma s_pb a : ok (pad_zero_both o a). Proof. by rewrite /pad_zero_both; t0. Qed.
Lemma s_tn a l p : ok (take_num o a l p). Proof. by rewrite /take_num; t0. Qed.
Hint Resolve s_pb s_tn : errs.
Lemma s_ce (a b : tensor) i j : ok (col_equal a b i j). Proof. by rewrite /col_equal; t0. Qed.
Lemma s_loop k eq same na nb sa sb : (forall i j, ok (eq i j)) -> ok (@align_loop F k eq same na nb sa sb).
Proof.
move=> he; elim: k sa sb => [|k IH] [|i sa] [|j sb] //; first exact: (E_raise HS).
by cbn [align_loop]; apply: E_ok => [|e] //; case: e; [|case: ifP => _]; t0; exact: IH.
Qed.
Lemma s_align a b : ok (align argsort o a b).
Proof. by rewrite /align; t0; apply: s_loop => i j; exact: s_ce. Qed.
Hint Resolve s_align : errs.
Lemma s_alr la ra ma lb rb mb : ok (add_lr_lr argsort o la ra ma lb rb mb).
Proof. by rewrite /add_lr_lr; t0. Qed.
Hint Resolve s_alr : errs.

(** The classes for which a method body does not end in the last line of its [match]. *)
Definition add_fits (i : add_id) (x y : ty) : bool :=
  match i, x, y with
  | (AZeroR | AZeroL | AGen | ARev), _, _ => true
  | ADense, TDense, TDense | ADiag, TDiag, TDiag | AConst, TConst, TConst | AConstGen, TConst, _ | AConstDiag, TConst, TDiag
  | ALT, TLT, TLT | ALTDiag, TLT, TDiag | AUT, TUT, TUT | AUTLT, TUT, TLT | AUTDiag, TUT, TDiag | ALR, TLR, TLR
  | ALRConst, TLR, TConst | ALRDiag, TLR, TDiag | ADiagLR, TDiag, TLR | AWb, TWb, TWb | AWbDiag, TWb, TDiag | AWbLR, TWb, _ => true
  | _, _, _ => false
  end.
Lemma add_fitsP x y : exists2 i, selof add_rows x y = ret i & add_fits i x y.
Proof. by case: x; case: y; eexists; try reflexivity. Qed.
Definition nn (a : mat) : bool := if a is Nm _ then false else true.
Lemma nn_to a : nn (to_matrix a).
Proof. by case: a => // t; rewrite /to_matrix /convert_num; case: (sh t) => [|? ?] //; case: ifP. Qed.
Lemma isNm a : (exists t, a = Nm t) \/ nn a.
Proof. by case: a => [t|*|*|*|*|*|*|*|*|*]; [left; exists t|right..]. Qed.
Lemma s_addb i a b : nn a -> nn b -> add_fits i (ty_of_matrix a) (ty_of_matrix b) -> ok (add_body argsort o i a b).
Proof.
case: i => ha hb h; try by [rewrite /add_body; t0].
all: case: a ha h => [?|? ? ? ?|?|?|? ? ?|?|?|? ? ?|? ? ? ?|? ?] ha h; try discriminate ha; try discriminate h; case: b hb h => [?|? ? ? ?|?|?|? ? ?|?|?|? ? ?|? ? ? ?|? ?] hb h; try discriminate hb; try discriminate h; cbn [add_body]; try by t0.
Qed.
Lemma add_stepL a b : nn a -> add_step argsort o a b = do i <- lookup add_table (ty_of_matrix (to_matrix a)) (ty_of_matrix (to_matrix b)); add_body argsort o i (to_matrix a) (to_matrix b).
Proof. by case: a. Qed.
Lemma add_stepR a b : nn b -> add_step argsort o a b = do i <- lookup add_table (ty_of_matrix (to_matrix a)) (ty_of_matrix (to_matrix b)); add_body argsort o i (to_matrix a) (to_matrix b).
Proof. by case: b => //; case: a. Qed.
Lemma s_add a b : ok (add_step argsort o a b).
Proof.
case: (isNm a) => [[t ->]|ea]; first case: (isNm b) => [[u ->]|eb].
- by rewrite /add_step; t0.
- rewrite (add_stepR (Nm t) eb) add_selE; case: (add_fitsP (ty_of_matrix (to_matrix (Nm t))) (ty_of_matrix (to_matrix b))) => i -> h; rewrite bind_ret.
  by apply: s_addb h; exact: nn_to.
- rewrite (add_stepL b ea) add_selE; case: (add_fitsP (ty_of_matrix (to_matrix a)) (ty_of_matrix (to_matrix b))) => i -> h; rewrite bind_ret.
  by apply: s_addb h; exact: nn_to.
Qed.

Definition mul_fits (i : mul_id) (x y : ty) : bool :=
  match i, x, y with
  | (MZeroR | MZeroL | MGen | MRev), _, _ => true
  | MDense, TDense, TDense | MDiag, TDiag, TDiag | MDiagGen, TDiag, _ | MConst, TConst, TConst | MConstGen, TConst, _
  | MConstDiag, TConst, TDiag | MLT, TLT, TLT | MLTGen, TLT, _ | MLTConst, TLT, TConst | MUT, TUT, TUT | MUTLT, TUT, TLT
  | MUTGen, TUT, _ | MUTConst, TUT, TConst | MLR, TLR, TLR | MConstLR, TConst, TLR | MWbGen, TWb, _ | MKron, TKron, TKron
  | MConstKron, TConst, TKron => true
  | _, _, _ => false
  end.
Lemma mul_fitsP x y : exists2 i, selof mul_rows x y = ret i & mul_fits i x y.
Proof. by case: x; case: y; eexists; try reflexivity. Qed.
Lemma s_mapM2 (xs : seq (tensor * tensor)) : ok (mapM (fun p => t_mul p.1 p.2) xs).
Proof. by apply: E_mapM => p; t0. Qed.
Lemma s_mlr la ra ma lb rb mb : ok (mul_lr_lr o la ra ma lb rb mb).
Proof.
have un (t : seq tensor) : ok (mapM (fun x => t_unstack x 0) t) by apply: E_mapM => p; t0.
have mm (l : seq (seq tensor * seq tensor)) : ok (mapM (fun p => do ys <- mapM (fun q => t_mul q.1 q.2) [seq (x, y) | x <- p.1, y <- p.2]; t_stack ys 0) l).
  by apply: E_mapM => p; apply: E_ok => *; [exact: s_mapM2|t0].
by rewrite /mul_lr_lr; repeat first [exact: un | exact: mm | exact: s_mapM2 | solve [eauto 2 with errs] | apply: E_ok => *].
Qed.
Hint Resolve s_mlr : errs.
Lemma s_mulb i a b : nn a -> nn b -> mul_fits i (ty_of_matrix a) (ty_of_matrix b) -> ok (mul_body o i a b).
Proof.
case: i => ha hb h; try by [rewrite /mul_body; t0].
all: case: a ha h => [?|? ? ? ?|?|?|? ? ?|?|?|? ? ?|? ? ? ?|? ?] ha h; try discriminate ha; try discriminate h; try (by cbn [mul_body]; t0); case: b hb h => [?|? ? ? ?|?|?|? ? ?|?|?|? ? ?|? ? ? ?|? ?] hb h; try discriminate hb; try discriminate h; cbn [mul_body]; try by t0.
Qed.
Lemma mul_stepL a b : nn a -> mul_step o a b = do i <- lookup mul_table (ty_of_matrix (to_matrix a)) (ty_of_matrix (to_matrix b)); mul_body o i (to_matrix a) (to_matrix b).
Proof. by case: a. Qed.
Lemma mul_stepR a b : nn b -> mul_step o a b = do i <- lookup mul_table (ty_of_matrix (to_matrix a)) (ty_of_matrix (to_matrix b)); mul_body o i (to_matrix a) (to_matrix b).
Proof. by case: b => //; case: a. Qed.
Lemma s_mul a b : ok (mul_step o a b).
Proof.
case: (isNm a) => [[t ->]|ea]; first case: (isNm b) => [[u ->]|eb].
- by rewrite /mul_step; t0.
- rewrite (mul_stepR (Nm t) eb) mul_selE; case: (mul_fitsP (ty_of_matrix (to_matrix (Nm t))) (ty_of_matrix (to_matrix b))) => i -> h; rewrite bind_ret.
  by apply: s_mulb h; exact: nn_to.
- rewrite (mul_stepL b ea) mul_selE; case: (mul_fitsP (ty_of_matrix (to_matrix a)) (ty_of_matrix (to_matrix b))) => i -> h; rewrite bind_ret.
  by apply: s_mulb h; exact: nn_to.
Qed.

Definition mm_fits (i : mm_id) (x y : ty) : bool :=
  match i, x, y with
  | (PLTGen | PGenLT), _, _ => true
  | PZeroR, _, TZero | PZeroL, TZero, _ | PDense, TDense, TDense | PDiag, TDiag, TDiag | PDiagGen, TDiag, _ | PGenDiag, _, TDiag
  | PConst, TConst, TConst | PConstGen, TConst, _ | PGenConst, _, TConst | PLT, TLT, TLT | PLTDiag, TLT, TDiag | PDiagLT, TDiag, TLT
  | PUT, TUT, TUT | PUTDiag, TUT, TDiag | PDiagUT, TDiag, TUT | PLR, TLR, TLR | PLRGen, TLR, _ | PGenLR, _, TLR
  | PLRConst, TLR, TConst | PConstLR, TConst, TLR | PWbGen, TWb, _ | PGenWb, _, TWb | PKron, TKron, TKron | PKronGen, TKron, _
  | PGenKron, _, TKron | PKronDiag, TKron, TDiag | PDiagKron, TDiag, TKron => true
  | _, _, _ => false
  end.
Definition ntl (x : ty) : bool := if x is TTiled then false else true.
Lemma ntl_ty (a : mat) : ntl (ty_of_matrix a). Proof. by case: a. Qed.
Lemma mm_fitsP x y : ntl x -> ntl y -> exists2 i, selof mm_rows x y = ret i & mm_fits i x y.
Proof. by case: x => // _; case: y => // _; eexists; try reflexivity. Qed.
Lemma s_tr (a : mat) t : E S (tr a t) (keeps a).
Proof. by rewrite /tr; case: t; [exact: e_tr|case: a => [?|? ? ? ?|?|u|u r c|?|?|l r m|? ? ? ?|l r]; try exact: I; rewrite /ret /E /keeps; [exists u|exists u, r, c|exists l, r, m|exists l, r]]. Qed.
Lemma s_tr' (a : mat) t : ok (tr a t). Proof. exact: E_weak (s_tr a t). Qed.
Lemma s_smt (a : mat) t : ok (shape_matrix_tr a t). Proof. by rewrite /shape_matrix_tr; t0. Qed.
Hint Resolve s_tr' s_smt : errs.
Lemma s_ac (a b : mat) s t : ok (assert_composable a b s t). Proof. by rewrite /assert_composable; t0. Qed.
Lemma s_rm a ds : ok (reshape_mat o a ds). Proof. by rewrite /reshape_mat; t0. Qed.
Hint Resolve s_ac s_rm : errs.
Lemma s_rc a i j : ok (reshape_cols o a i j). Proof. by rewrite /reshape_cols; t0. Qed.
Lemma s_rr a i j : ok (reshape_rows o a i j). Proof. by rewrite /reshape_rows; t0. Qed.
Hint Resolve s_rc s_rr : errs.
Lemma s_kab a b : ok (kron_id_a_b o a b). Proof. by rewrite /kron_id_a_b; t0. Qed.
Lemma s_kba a b : ok (kron_a_id_b o a b). Proof. by rewrite /kron_a_id_b; t0. Qed.
Hint Resolve s_kab s_kba : errs.
Lemma s_mmb i a b ta tb : nn a -> nn b -> mm_fits i (ty_of_matrix a) (ty_of_matrix b) -> ok (mm_body o i a b ta tb).
Proof.
case: i => ha hb h; try by [rewrite /mm_body; t0].
all: try (case: a ha h => [?|? ? ? ?|?|?|? ? ?|?|?|? ? ?|? ? ? ?|? ?] ha h; try discriminate ha; try discriminate h; [idtac]).
all: try (case: b hb h => [?|? ? ? ?|?|?|? ? ?|?|?|? ? ?|? ? ? ?|? ?] hb h; try discriminate hb; try discriminate h; [idtac]).
all: cbn [mm_body]; try by t0.
- apply: E_ok => [|_]; first by t0.
  apply: (E_bind (s_tr _ _)) => a' [x [r [c ->]]]; apply: (E_bind (s_tr _ _)) => b' [y [r' [c' ->]]]; by t0.
- apply: E_ok => [|_]; first by t0.
  by apply: (E_bind (s_tr _ _)) => a' [x [r [c ->]]]; t0.
- apply: E_ok => [|_]; first by t0.
  by apply: E_ok => [|a']; [t0|apply: (E_bind (s_tr _ _)) => b' [x [r [c ->]]]; t0].
- apply: E_ok => [|_]; first by t0.
  by apply: (E_bind (s_tr _ _)) => a' [x [r [c ->]]]; apply: (E_bind (s_tr _ _)) => b' [y [r' [c' ->]]]; t0.
- apply: E_ok => [|_]; first by t0.
  by apply: (E_bind (s_tr _ _)) => a' [x [r [c ->]]]; t0.
- apply: E_ok => [|_]; first by t0.
  by apply: E_ok => [|a']; [t0|apply: (E_bind (s_tr _ _)) => b' [x [r [c ->]]]; t0].
- apply: E_ok => [|_]; first by t0.
  by apply: (E_bind (s_tr _ _)) => a' [l [r ->]]; t0.
Qed.
Lemma mm_stepL a b s t : nn a -> matmul_step o a b s t = do i <- lookup mm_table (ty_of_matrix (to_matrix a)) (ty_of_matrix (to_matrix b)); mm_body o i (to_matrix a) (to_matrix b) s t.
Proof. by case: a. Qed.
Lemma mm_stepR a b s t : nn b -> matmul_step o a b s t = do i <- lookup mm_table (ty_of_matrix (to_matrix a)) (ty_of_matrix (to_matrix b)); mm_body o i (to_matrix a) (to_matrix b) s t.
Proof. by case: b => //; case: a. Qed.
Lemma s_mm a b s t : ok (matmul_step o a b s t).
Proof.
case: (isNm a) => [[x ->]|ea]; first case: (isNm b) => [[y ->]|eb].
- by rewrite /matmul_step; t0.
- rewrite (mm_stepR (Nm x) s t eb) mm_selE; case: (mm_fitsP (ntl_ty (to_matrix (Nm x))) (ntl_ty (to_matrix b))) => i -> h; rewrite bind_ret.
  by apply: s_mmb h; exact: nn_to.
- rewrite (mm_stepL b s t ea) mm_selE; case: (mm_fitsP (ntl_ty (to_matrix a)) (ntl_ty (to_matrix b))) => i -> h; rewrite bind_ret.
  by apply: s_mmb h; exact: nn_to.
Qed.
Lemma s_sx a p : ok (sumax_step o a p).
Proof. by case: a => *; cbn [sumax_step]; t0. Qed.
Lemma s_sa a : ok (sumall_step o a).
Proof. by case: a => *; cbn [sumall_step]; t0. Qed.
Lemma s_dl (a : mat) : ok (diag_len a). Proof. by rewrite /diag_len; t0. Qed.
Hint Resolve s_dl : errs.
Lemma s_dg a : ok (diag_step o a).
Proof. by case: a => *; cbn [diag_step]; t0. Qed.
End Step.

Lemma eops_n (F : rcfType) (S : exn -> bool) (HS : forall e, shape_error e -> S e) (argsort : seq F -> seq nat) n :
  eops S (ops_n argsort n).
Proof.
elim: n => [|n IH]; first by split=> *; exact: (E_raise HS).
split=> *; [exact: s_dense|exact: s_mm|exact: s_add|exact: s_mul|exact: s_sx|exact: s_sa|exact: s_dg].
Qed.
