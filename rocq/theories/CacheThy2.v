(** * Congruence of the operations built on the core operations (proof support for C33) *)
From mathcomp Require Import all_ssreflect all_algebra.
From Verif Require Import Outcome Shape Tensor Mat Dispatch Ops Ops2 Block Backend Solve Cache CacheThy.
Set Implicit Arguments. Unset Strict Implicit. Unset Printing Implicit Defensive.
Import GRing.Theory Num.Theory.
Local Open Scope ring_scope.
Local Opaque lookup.
Local Arguments bind : simpl never.
Local Arguments ev : simpl never.
Local Arguments warn_if : simpl never.
Local Arguments mk_const : simpl never.
Local Arguments solve_c : simpl never.

Lemma eq_bind A B (m m' : outcome A) (k k' : A -> outcome B) : m = m' -> (forall a, k a = k' a) -> bind m k = bind m' k'.
Proof. by move=> -> e; case: m' => // l a; rewrite /bind e. Qed.
Lemma ev_mapM A B (f : A -> outcome B) (f' : nat -> A -> outcome B) xs :
  (forall a, ev (f a) (fun n => f' n a)) -> ev (mapM f xs) (fun n => mapM (f' n) xs).
Proof.
move=> H; elim: xs => [|x xs IH]; first exact (ev_const _).
by apply: ev_bind (H x) _ => y; apply: ev_bind IH _ => ys; exact (ev_const _).
Qed.

Section Bodies.
Variable F : rcfType.
Notation tensor := (tensor F).
Notation mat := (mat F).
Variables (o : ops F) (g : nat -> ops F).
Hypothesis h : evo o g.

Ltac evs0 ext := repeat first
  [ match goal with |- ev ?m (fun _ => ?m) => exact (ev_const m) end
  | match goal with
    | |- ev (o_dense _ _) _ => exact: (ev_dense h)
    | |- ev (o_matmul _ _ _ _ _) _ => exact: (ev_mm h)
    | |- ev (o_add _ _ _) _ => exact: (ev_add h)
    | |- ev (o_mul _ _ _) _ => exact: (ev_mul h)
    | |- ev (o_sumax _ _ _) _ => exact: (ev_sumax h)
    | |- ev (o_sumall _ _) _ => exact: (ev_sumall h)
    | |- ev (o_diag _ _) _ => exact: (ev_diag h)
    | |- ev (mm3 _ _ _ _ _ _ _) _ => exact: (ev_mm3 h)
    | |- ev (mapM (o_dense _) _) _ => apply: ev_mapM => ?
    | |- ev (mapM (o_diag _) _) _ => apply: ev_mapM => ?
    | |- ev (mapM (mapM _) _) _ => apply: ev_mapM => ?
    | |- ev (bind _ (fun x => let '(_, _) := x in _)) _ => apply: ev_bind => [|[? ?]]
    | |- ev (bind _ _) _ => apply: ev_bind => [|?]
    | |- ev (let x := ?b in _) _ => cbv zeta
    end
  | ext
  | match goal with
    | |- ev (if ?b then _ else _) _ => destruct b
    | |- ev (match ?x with _ => _ end) _ => destruct x
    end ].
Ltac evs := evs0 fail.

Lemma ev_subtract a b : ev (subtract o a b) (fun n => subtract (g n) a b).
Proof. by rewrite /subtract; case: a => *; case: b => *; evs. Qed.
Lemma ev_sum_pos a p : ev (sum_pos o a p) (fun n => sum_pos (g n) a p).
Proof. by case: p => [|[|p]]; case: a => *; rewrite /sum_pos; evs. Qed.
Lemma ev_sum_op a ax : ev (sum_op o a ax) (fun n => sum_op (g n) a ax).
Proof. by case: ax => *; rewrite /sum_op; evs0 ltac:(simple apply ev_sum_pos). Qed.
Lemma ev_trace a : ev (trace o a) (fun n => trace (g n) a). Proof. by rewrite /trace; evs. Qed.
Lemma ev_div_body i a b : ev (div_body o i a b) (fun n => div_body (g n) i a b).
Proof. by case: i; rewrite /div_body; case: b => *; evs. Qed.
Lemma ev_divide a b : ev (divide o a b) (fun n => divide (g n) a b).
Proof.
have H a' b' : ev (bind (lookup div_table (ty_of_matrix a') (ty_of_matrix b')) (fun i => div_body o i a' b'))
  (fun n => bind (lookup div_table (ty_of_matrix a') (ty_of_matrix b')) (fun i => div_body (g n) i a' b')).
  by apply (@ev_bind _ _ _ _ (fun _ => _) (fun n i => _) (ev_const _)) => i; simple apply ev_div_body.
rewrite /divide; destruct a, b; cbv zeta; first [simple apply H|exact (ev_const _)].
Qed.
Lemma ev_mean a ax : ev (mean_op o a ax) (fun n => mean_op (g n) a ax).
Proof.
rewrite /mean_op; apply: ev_bind => [|s]; first exact (ev_const _).
apply: ev_bind => [|c]; first exact (ev_const _).
by apply: ev_bind => [|x]; [exact: ev_sum_op|exact: ev_divide].
Qed.
Lemma ev_elementwise f a : ev (elementwise o f a) (fun n => elementwise (g n) f a).
Proof. elim: a => [t|d b0 r c|t|t|t r c|t|t|l IHl r IHr m IHm|d l IHl r IHr m IHm|l IHl r IHr] /=; evs0 ltac:(first [simple apply IHl|simple apply IHr]). Qed.
Lemma ev_matmul_diag a b ta tb : ev (matmul_diag o a b ta tb) (fun n => matmul_diag (g n) a b ta tb).
Proof. by rewrite /matmul_diag; case: a => *; case: b => *; evs. Qed.
Lemma ev_tile a r : ev (tile_op o a r) (fun n => tile_op (g n) a r).
Proof. by case: a => *; rewrite /tile_op; evs. Qed.
Lemma ev_concat xs ax : ev (concat_op o xs ax) (fun n => concat_op (g n) xs ax).
Proof. by rewrite /concat_op; evs. Qed.
Lemma ev_reshape a ds : ev (reshape_op o a ds) (fun n => reshape_op (g n) a ds).
Proof. by rewrite /reshape_op; evs. Qed.
Lemma ev_squeeze a : ev (squeeze_op o a) (fun n => squeeze_op (g n) a).
Proof. by rewrite /squeeze_op; evs. Qed.
Lemma ev_take_gen a x p : ev (take_gen o a x p) (fun n => take_gen (g n) a x p).
Proof. by rewrite /take_gen; evs. Qed.
Lemma ev_take_n k a x ax : ev (take_n o k a x ax) (fun n => take_n (g n) k a x ax).
Proof.
elim: k a x ax => [|k IH] a x ax; first exact (ev_const _).
rewrite /= /take_step; case: a => *; evs0 ltac:(first [simple apply IH|simple apply ev_take_gen]).
Qed.
Lemma ev_take a x ax : ev (take_op o a x ax) (fun n => take_op (g n) a x ax).
Proof. exact: ev_take_n. Qed.
Lemma ev_submatrix a x : ev (submatrix o a x) (fun n => submatrix (g n) a x).
Proof. by case: a => *; rewrite /submatrix /submatrix_lr; evs0 ltac:(simple apply ev_take). Qed.
Lemma ev_block rows : ev (block o rows) (fun n => block (g n) rows).
Proof. by rewrite /block /attempt_diagonal; evs. Qed.
Lemma ev_block_diag xs : ev (block_diag o xs) (fun n => block_diag (g n) xs).
Proof. by rewrite /block_diag /bd_attempt_diagonal; evs. Qed.

(** ** The bodies of Cache.v *)
Section Params.
Variables (chol inv sch pds pdi : mat -> outcome mat) (chol' inv' sch' pds' pdi' : nat -> mat -> outcome mat).
Hypothesis Hc : forall a, ev (chol a) (fun n => chol' n a).
Hypothesis Hi : forall a, ev (inv a) (fun n => inv' n a).
Hypothesis Hs : forall a, ev (sch a) (fun n => sch' n a).
Hypothesis Hp : forall a, ev (pds a) (fun n => pds' n a).
Hypothesis Hq : forall a, ev (pdi a) (fun n => pdi' n a).
Lemma ev_schur_with d l r m : ev (schur_with o inv d l r m) (fun n => schur_with (g n) (inv' n) d l r m).
Proof. by rewrite /schur_with; evs0 ltac:(simple apply Hi). Qed.
Lemma ev_schur_body a : ev (schur_body o inv a) (fun n => schur_body (g n) (inv' n) a).
Proof. by case: a => *; rewrite /schur_body; evs0 ltac:(simple apply ev_schur_with). Qed.
Lemma ev_wi d l r m s s' : ev s s' -> ev (woodbury_inv_body o s inv d l r m) (fun n => woodbury_inv_body (g n) (s' n) (inv' n) d l r m).
Proof. by move=> H; rewrite /woodbury_inv_body; evs0 ltac:(first [simple apply H|simple apply Hi|simple apply ev_subtract]). Qed.
Lemma ev_inv_body a : ev (inv_body o sch inv a) (fun n => inv_body (g n) (sch' n) (inv' n) a).
Proof. by case: a => *; rewrite /inv_body; evs0 ltac:(first [apply: ev_wi; simple apply Hs|simple apply Hi]). Qed.
Lemma ev_solve_body i a b : ev (solve_body_c o inv i a b) (fun n => solve_body_c (g n) (inv' n) i a b).
Proof. by case: i; rewrite /solve_body_c; case: a => *; evs0 ltac:(simple apply Hi). Qed.
Lemma ev_solve_m a b : ev (solve_m_c o inv a b) (fun n => solve_m_c (g n) (inv' n) a b).
Proof. by rewrite /solve_m_c; apply (@ev_bind _ _ _ _ (fun _ => _) (fun n i => _) (ev_const _)) => i; simple apply ev_solve_body. Qed.
Lemma ev_solve a b : ev (solve_c o inv a b) (fun n => solve_c (g n) (inv' n) a b).
Proof. by rewrite /solve_c; destruct a, b; first [simple apply ev_solve_m|exact (ev_const _)]. Qed.
Lemma ev_csolve a b : ev (cholesky_solve_c o inv a b) (fun n => cholesky_solve_c (g n) (inv' n) a b).
Proof.
elim: a b => [t|d b0 r c|t|t|t r c|t|t|l IHl r IHr m IHm|d l IHl r IHr m IHm|l IHl r IHr] b /=;
  (apply (@ev_bind _ _ _ _ (fun _ => _) (fun n i => _) (ev_const _)) => i); case: i; evs0 ltac:(first [simple apply ev_solve|simple apply IHl|simple apply IHr]).
Qed.
Lemma ev_pd_inv_body a : ev (pd_inv_body o chol inv pds pdi a) (fun n => pd_inv_body (g n) (chol' n) (inv' n) (pds' n) (pdi' n) a).
Proof.
by case: a => *; rewrite /pd_inv_body; evs0 ltac:(first [simple apply Hc|simple apply Hq|simple apply ev_csolve|idtac]); rewrite /woodbury_inv_body; evs0 ltac:(first [simple apply Hp|simple apply Hq|simple apply ev_subtract]).
Qed.
Lemma ev_logdet_body log lg lg' a : (forall a, ev (lg a) (fun n => lg' n a)) ->
  ev (logdet_body o log chol pds lg a) (fun n => logdet_body (g n) log (chol' n) (pds' n) (lg' n) a).
Proof.
by move=> H; case: a => *; rewrite /logdet_body /logdet_diag; evs0 ltac:(first [simple apply H|simple apply Hc|simple apply Hp]).
Qed.
End Params.
End Bodies.
