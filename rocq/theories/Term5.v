(** * Termination: tying the knot, independence of the fuel (proof support) *)
From mathcomp Require Import all_ssreflect all_algebra.
From mathcomp Require Import zify.
From Verif Require Import Outcome Monad Shape Tensor Mat Dispatch LookThy Ops Spec MatThy AddOk Term Term2 Term3 Term4.
Set Implicit Arguments. Unset Strict Implicit. Unset Printing Implicit Defensive.
Import GRing.Theory.
Local Open Scope nat_scope.

(** [ole m m']: [m] ran out of fuel or is the same outcome as [m']. *)
Definition ole A (m m' : outcome A) : Prop := (exists l, m = RaiseL l RecursionError) \/ m = m'.
Lemma ole_refl A (m : outcome A) : ole m m. Proof. by right. Qed.
Lemma ole_bind A B (m m' : outcome A) (f f' : A -> outcome B) : ole m m' -> (forall x, ole (f x) (f' x)) -> ole (bind m f) (bind m' f').
Proof.
case=> [[l ->]|->] h; first by left; exists l.
case: m' => [l a|l e]; last by right.
by rewrite /bind; case: (h a) => [[l' ->]|->]; [left; exists (ljoin l l')|right].
Qed.

Section Term.
Variable F : rcfType.
Notation tensor := (tensor F).
Notation mat := (mat F).
Implicit Types (a b l m : mat) (t x y : tensor).
Notation ty1 a := (ty_of_matrix (to_matrix a)).

Lemma amax_mono (x y x' y' : nat) : x <= x' -> y <= y' -> amax x y <= amax x' y'.
Proof. by rewrite /amax => h1 h2; do 2 case: ifP; lia. Qed.
Lemma to_matrix_tag a : tag (to_matrix a) != 0.
Proof. by case: a => //= t; rewrite /convert_num; case: (sh t) => //; case: ifP. Qed.
Lemma tag_to_matrix a : tag a != 0 -> to_matrix a = a. Proof. by case: a. Qed.

Lemma or_tag a b : (exists x y, a = Nm x /\ b = Nm y) \/ (tag a != 0 \/ tag b != 0).
Proof. by case: a => [x|? ? ? ?|?|?|? ? ?|?|?|? ? ?|? ? ? ?|? ?]; case: b => [y|? ? ? ?|?|?|? ? ?|?|?|? ? ?|? ? ? ?|? ?]; auto; left; exists x, y. Qed.
Section StepE.
Variables (argsort : seq F -> seq nat) (self : ops F).
Lemma add_stepE a b : tag a != 0 \/ tag b != 0 -> add_step argsort self a b = do i <- lookup add_table (ty1 a) (ty1 b); add_body argsort self i (to_matrix a) (to_matrix b).
Proof.
case: a => [?|? ? ? ?|?|?|? ? ?|?|?|? ? ?|? ? ? ?|? ?] tt; [|reflexivity..].
by case: b tt => [?|? ? ? ?|?|?|? ? ?|?|?|? ? ?|? ? ? ?|? ?] tt; [|reflexivity..]; case: tt.
Qed.
Lemma mul_stepE a b : tag a != 0 \/ tag b != 0 -> mul_step self a b = do i <- lookup mul_table (ty1 a) (ty1 b); mul_body self i (to_matrix a) (to_matrix b).
Proof.
case: a => [?|? ? ? ?|?|?|? ? ?|?|?|? ? ?|? ? ? ?|? ?] tt; [|reflexivity..].
by case: b tt => [?|? ? ? ?|?|?|? ? ?|?|?|? ? ?|? ? ? ?|? ?] tt; [|reflexivity..]; case: tt.
Qed.
Lemma mm_stepE a b ta tb : tag a != 0 \/ tag b != 0 -> matmul_step self a b ta tb = do i <- lookup mm_table (ty1 a) (ty1 b); mm_body self i (to_matrix a) (to_matrix b) ta tb.
Proof.
case: a => [?|? ? ? ?|?|?|? ? ?|?|?|? ? ?|? ? ? ?|? ?] tt; [|reflexivity..].
by case: b tt => [?|? ? ? ?|?|?|? ? ?|?|?|? ? ?|? ? ? ?|? ?] tt; [|reflexivity..]; case: tt.
Qed.
End StepE.
Section Step.
Variables (argsort : seq F -> seq nat) (self : ops F) (n : nat).
Hypothesis ok : tm n self.

Lemma th_add_step a b : gdo a -> gdo b -> gd a || gd b -> fu_add a b <= n.+1 ->
    thoare (add_step argsort self a b) (fun c => [/\ gd c, wt c <= amax (wt a) (wt b) & tag a = 7 -> tag b = 7 -> wt c <= 2]).
Proof.
move=> ga gb g h; have [gA wA] := to_matrix_gd ga; have [gB wB] := to_matrix_gd gb.
have H : thoare (do i <- lookup add_table (ty1 a) (ty1 b); add_body argsort self i (to_matrix a) (to_matrix b))
   (fun c => [/\ gd c, wt c <= amax (wt a) (wt b) & tag a = 7 -> tag b = 7 -> wt c <= 2]).
  apply: th_conseq (th_add_mat (n := n) argsort ok gA gB (to_matrix_tag a) (to_matrix_tag b) _) _.
    by move: h wA wB; rewrite /fu_add; move: (rk_add _ _) => k; clear; lia.
  move=> c [gc wc hc]; split=> // [|e1 e2]; first by apply: leq_trans wc (amax_mono _ _).
  by apply: hc; rewrite tag_to_matrix ?e1 ?e2.
have [[x [y [ea eb]]]|tt] := or_tag a b; last by rewrite (add_stepE argsort self tt).
subst a b; clear H.
apply: th_bind (th_map2 _ _ _) _ => z nz; apply: th_ret; have {}nz : ns z by apply: nz.
by split=> //=; rewrite nz amax_ge.
Qed.
Lemma th_mul_step a b : gdo a -> gdo b -> gd a || gd b -> fu_mul a b <= n.+1 ->
    thoare (mul_step self a b) (fun c => gd c /\ wt c <= wt a * wt b).
Proof.
move=> ga gb g h; have [gA wA] := to_matrix_gd ga; have [gB wB] := to_matrix_gd gb.
have H : thoare (do i <- lookup mul_table (ty1 a) (ty1 b); mul_body self i (to_matrix a) (to_matrix b))
   (fun c => gd c /\ wt c <= wt a * wt b).
  have w := leq_mul wA wB.
  have h' : 16 * (wt (to_matrix a) * wt (to_matrix b)) + rk_mul (ty1 a) (ty1 b) <= n.+1.
    by move: h w; rewrite /fu_mul; move: (rk_mul (ty1 a) (ty1 b)) (wt a * wt b) (wt (to_matrix a) * _) => k ? ?; clear; lia.
  have H := th_mul_mat ok gA gB (to_matrix_tag a) (to_matrix_tag b) h'.
  clear h h'; refine (th_conseq H _) => c [gc wc]; split; [exact: gc|exact: leq_trans wc w].
have [[x [y [ea eb]]]|tt] := or_tag a b; last by rewrite (mul_stepE self tt).
subst a b; clear H.
apply: th_bind (th_map2 _ _ _) _ => z nz; apply: th_ret; have {}nz : ns z by apply: nz.
by split=> //; rewrite {1}/wt nz muln_gt0 !wt_gt0.
Qed.
Lemma th_mm_step a b ta tb : gd a -> gd b -> fu_mm a b ta tb <= n.+1 ->
    thoare (matmul_step self a b ta tb) (fun c => gd c /\ wt c <= wt a * wt b).
Proof.
move=> ga gb h; have [gA wA] := to_matrix_gd (gd_gdo ga); have [gB wB] := to_matrix_gd (gd_gdo gb).
have H : thoare (do i <- lookup mm_table (ty1 a) (ty1 b); mm_body self i (to_matrix a) (to_matrix b) ta tb)
   (fun c => gd c /\ wt c <= wt a * wt b).
  have w := leq_mul wA wB.
  have h' : 16 * (wt (to_matrix a) * wt (to_matrix b)) + rk_mm (ty1 a) (ty1 b) ta tb <= n.+1.
    by move: h w; rewrite /fu_mm; move: (rk_mm (ty1 a) (ty1 b) ta tb) (wt a * wt b) (wt (to_matrix a) * _) => k ? ?; clear; lia.
  have H := th_mm_mat ok gA gB (to_matrix_tag a) (to_matrix_tag b) h'.
  clear h h'; refine (th_conseq H _) => c [gc wc]; split; [exact: gc|exact: leq_trans wc w].
have [[x [y [ea eb]]]|tt] := or_tag a b; last by rewrite (mm_stepE self ta tb tt).
subst a b; clear H.
apply: th_bind (th_matmul _ _ _ _) _ => z nz; apply: th_ret.
by split=> //; rewrite {1}/wt nz muln_gt0 !wt_gt0.
Qed.
Lemma tm_step : tm n.+1 (ops_step argsort self).
Proof.
have e a : fu_1 a <= n.+1 -> 16 * wt a <= n by rewrite /fu_1; lia.
split=> /=.
- by move=> a g /e h; apply: (th_dense_step ok h).
- exact: th_add_step.
- exact: th_mul_step.
- exact: th_mm_step.
- by move=> a ax g /e h; apply: (nr_sumax_step ok h).
- by move=> a g /e h; apply: (nr_sumall_step ok h).
- by move=> a g /e h; apply: (nr_diag_step ok h).
Qed.
End Step.

Theorem tm_n argsort n : tm n (ops_n (F := F) argsort n).
Proof.
elim: n => [|n IH] /=; last exact: tm_step.
by split=> *; exfalso; repeat match goal with h : is_true (_ <= 0) |- _ => move: h end; rewrite /fu_1 /fu_add /fu_mul /fu_mm;
   repeat match goal with
   | |- context [rk_add ?x ?y] => have := rk_add_b x y; move: (rk_add x y)
   | |- context [rk_mul ?x ?y] => have := rk_mul_b x y; move: (rk_mul x y)
   | |- context [rk_mm ?x ?y ?u ?v] => have := rk_mm_b x y u v; move: (rk_mm x y u v) end; clear; lia.
Qed.

(** ** Monotonicity in the fuel *)
Record ople (s s' : ops F) : Prop := Ople {
  le_dense : forall a, ole (o_dense s a) (o_dense s' a);
  le_add : forall a b, ole (o_add s a b) (o_add s' a b);
  le_mul : forall a b, ole (o_mul s a b) (o_mul s' a b);
  le_mm : forall a b ta tb, ole (o_matmul s a b ta tb) (o_matmul s' a b ta tb);
  le_sumax : forall a ax, ole (o_sumax s a ax) (o_sumax s' a ax);
  le_sumall : forall a, ole (o_sumall s a) (o_sumall s' a);
  le_diag : forall a, ole (o_diag s a) (o_diag s' a) }.

Section Mono.
Variables (argsort : seq F -> seq nat) (s s' : ops F).
Hypothesis le : ople s s'.
Ltac ol0 := first [exact: ole_refl | exact: (le_dense le) | exact: (le_add le) | exact: (le_mul le) | exact: (le_mm le) | exact: (le_sumax le) | exact: (le_sumall le) | exact: (le_diag le)].
Ltac ol := repeat first [ol0 | match goal with
  | |- ole (bind _ _) (bind _ _) => apply: ole_bind => [|?]
  | |- ole (let '(_, _) := ?x in _) _ => case: x => ? ?
  | |- ole (if ?b then _ else _) _ => case: b
  | |- ole (match ?x with _ => _ end) _ => destruct x
  end].
Lemma ole_mm3 a b (c : mat) ta tb tc : ole (mm3 s a b c ta tb tc) (mm3 s' a b c ta tb tc).
Proof. rewrite /mm3; ol. Qed.
Lemma ole_dense_step a : ole (dense_step s a) (dense_step s' a).
Proof. case: a => *; rewrite /dense_step; ol; exact: ole_mm3. Qed.
Lemma ole_mklt a : ole (mk_lt_mat s a) (mk_lt_mat s' a). Proof. rewrite /mk_lt_mat; ol. Qed.
Lemma ole_mkut a : ole (mk_ut_mat s a) (mk_ut_mat s' a). Proof. rewrite /mk_ut_mat; ol. Qed.
Lemma ole_bto a sh : ole (broadcast_to_step s a sh) (broadcast_to_step s' a sh).
Proof. rewrite /broadcast_to_step; ol. Qed.
Lemma ole_git a : ole (getitem_dense s a) (getitem_dense s' a). Proof. rewrite /getitem_dense; ol. Qed.
Lemma ole_rs a ds : ole (reshape_mat s a ds) (reshape_mat s' a ds). Proof. rewrite /reshape_mat; ol. Qed.
Lemma ole_rr a i j : ole (reshape_rows s a i j) (reshape_rows s' a i j). Proof. rewrite /reshape_rows; ol; exact: ole_rs. Qed.
Lemma ole_rc a i j : ole (reshape_cols s a i j) (reshape_cols s' a i j). Proof. rewrite /reshape_cols; ol; exact: ole_rs. Qed.
Lemma ole_kia a b : ole (kron_id_a_b s a b) (kron_id_a_b s' a b). Proof. rewrite /kron_id_a_b; ol; exact: ole_rc. Qed.
Lemma ole_kai a b : ole (kron_a_id_b s a b) (kron_a_id_b s' a b). Proof. rewrite /kron_a_id_b; ol; exact: ole_rr. Qed.
Ltac ol1 := first [exact: ole_mm3 | exact: ole_mklt | exact: ole_mkut | exact: ole_bto | exact: ole_git | exact: ole_rs | exact: ole_rr | exact: ole_rc | exact: ole_kia | exact: ole_kai].
Lemma ole_align a b : ole (align argsort s a b) (align argsort s' a b).
Proof. rewrite /align; ol; ol1. Qed.
Lemma ole_concat a z p : ole (concat_num s a z p) (concat_num s' a z p). Proof. rewrite /concat_num; ol. Qed.
Lemma ole_take a (l : seq int) p : ole (take_num s a l p) (take_num s' a l p). Proof. rewrite /take_num; ol; ol1. Qed.
Lemma ole_padc a : ole (pad_zero_col s a) (pad_zero_col s' a). Proof. rewrite /pad_zero_col; ol; exact: ole_concat. Qed.
Lemma ole_padr a : ole (pad_zero_row s a) (pad_zero_row s' a). Proof. rewrite /pad_zero_row; ol; exact: ole_concat. Qed.
Lemma ole_padb a : ole (pad_zero_both s a) (pad_zero_both s' a). Proof. rewrite /pad_zero_both; ol; first [exact: ole_padc|exact: ole_padr]. Qed.
Ltac ol2 := first [ol1 | exact: ole_align|exact: ole_take|exact: ole_padc|exact: ole_padr|exact: ole_padb|exact: ole_concat].
Lemma ole_add_body i a b : ole (add_body argsort s i a b) (add_body argsort s' i a b).
Proof. case: i; rewrite /add_body /add_lr_lr; ol; ol2. Qed.
Lemma ole_mul_body i a b : ole (mul_body s i a b) (mul_body s' i a b).
Proof. case: i; rewrite /mul_body /mul_lr_lr; ol; ol2. Qed.
Lemma ole_mm_body i a b ta tb : ole (mm_body s i a b ta tb) (mm_body s' i a b ta tb).
Proof. case: i; rewrite /mm_body; ol; ol2. Qed.
Lemma ople_step : ople (ops_step argsort s) (ops_step argsort s').
Proof.
split=> /=.
- exact: ole_dense_step.
- move=> a b; have [[x [y [-> ->]]]|tt] := or_tag a b; first exact: ole_refl.
  by rewrite !(add_stepE _ _ tt); apply: ole_bind => [|i]; [exact: ole_refl|exact: ole_add_body].
- move=> a b; have [[x [y [-> ->]]]|tt] := or_tag a b; first exact: ole_refl.
  by rewrite !(mul_stepE _ tt); apply: ole_bind => [|i]; [exact: ole_refl|exact: ole_mul_body].
- move=> a b ta tb; have [[x [y [-> ->]]]|tt] := or_tag a b; first exact: ole_refl.
  by rewrite !(mm_stepE _ _ _ tt); apply: ole_bind => [|i]; [exact: ole_refl|exact: ole_mm_body].
- move=> a ax; case: a => *; rewrite /sumax_step; ol; ol2.
- move=> a; case: a => *; rewrite /sumall_step; ol; ol2.
- move=> a; case: a => *; rewrite /diag_step; ol; ol2.
Qed.
End Mono.

Lemma ople_n argsort n k : ople (ops_n (F := F) argsort n) (ops_n argsort (n + k)).
Proof.
elim: n => [|n IH]; last by apply: ople_step.
by split=> *; left; exists log0.
Qed.

(** An outcome which is not a RecursionError does not change with more fuel. *)
Lemma ole_stable A (m m' : outcome A) : ole m m' -> nrec m -> m' = m.
Proof. by case=> [[l ->]|->]. Qed.
End Term.
