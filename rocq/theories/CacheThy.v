(** * Evaluation up to recursion depth and logs (proof support for C33)

    [ev m f]: whatever [m] gives (other than running out of fuel), the family [f] gives from some depth on; the logs
    (warnings) may differ. *)
From mathcomp Require Import all_ssreflect all_algebra.
From Verif Require Import Outcome Shape Tensor Mat Dispatch Ops Ops2 Block Backend Solve.
Set Implicit Arguments. Unset Strict Implicit. Unset Printing Implicit Defensive.
Import GRing.Theory Num.Theory.
Local Open Scope ring_scope.
Local Opaque lookup.

Definition ev A (m : outcome A) (f : nat -> outcome A) : Prop :=
  match m with
  | Ret _ a => exists n0, forall n, (n0 <= n)%N -> exists l, f n = Ret l a
  | RaiseL _ e => e = RecursionError \/ exists n0, forall n, (n0 <= n)%N -> exists l, f n = RaiseL l e
  end.
Lemma ev_const A (m : outcome A) : ev m (fun _ => m).
Proof. by case: m => [l a|l e]; [exists 0%N => n _; exists l|right; exists 0%N => n _; exists l]. Qed.
Lemma ev_bind A B (m : outcome A) (k : A -> outcome B) (f : nat -> outcome A) (g : nat -> A -> outcome B) :
  ev m f -> (forall a, ev (k a) (fun n => g n a)) -> ev (bind m k) (fun n => bind (f n) (g n)).
Proof.
case: m => [l a|l e] /= h H.
  case: h => n1 h1; have := H a; case: (k a) => [l' b|l' e] /=.
    case=> n2 h2; exists (maxn n1 n2) => n; rewrite geq_max => /andP[/h1[x ->] /h2[y E]]; by rewrite /= E; eexists.
  case=> [->|[n2 h2]]; [by left|right].
  exists (maxn n1 n2) => n; rewrite geq_max => /andP[/h1[x ->] /h2[y E]]; by rewrite /= E; eexists.
by case: h => [->|[n1 h1]]; [left|right; exists n1 => n /h1[x ->]; eexists].
Qed.
Lemma ev_shift A (m : outcome A) (f : nat -> outcome A) : ev m (fun n => f n.+1) -> ev m f.
Proof.
case: m => [l a|l e] /=.
  by case=> n0 h; exists n0.+1 => -[//|n] /h.
by case=> [->|[n0 h]]; [left|right; exists n0.+1 => -[//|n] /h].
Qed.

Section Bodies.
Variable F : rcfType.
Notation tensor := (tensor F).
Notation mat := (mat F).
(** The operations [o] agree with the family [g]. *)
Record evo (o : ops F) (g : nat -> ops F) : Prop := Evo {
  ev_dense : forall a, ev (o_dense o a) (fun n => o_dense (g n) a);
  ev_mm : forall a b ta tb, ev (o_matmul o a b ta tb) (fun n => o_matmul (g n) a b ta tb);
  ev_add : forall a b, ev (o_add o a b) (fun n => o_add (g n) a b);
  ev_mul : forall a b, ev (o_mul o a b) (fun n => o_mul (g n) a b);
  ev_sumax : forall a ax, ev (o_sumax o a ax) (fun n => o_sumax (g n) a ax);
  ev_sumall : forall a, ev (o_sumall o a) (fun n => o_sumall (g n) a);
  ev_diag : forall a, ev (o_diag o a) (fun n => o_diag (g n) a) }.
Variables (o : ops F) (g : nat -> ops F).
Hypothesis h : evo o g.
Variable argsort : seq F -> seq nat.

Ltac evs0 ext := repeat first
  [ match goal with |- ev ?m (fun _ => ?m) => exact (ev_const m) end
  | match goal with
    | |- ev (o_dense _ _) _ => exact: (ev_dense h)
    | |- ev (o_matmul _ _ _ _ _) _ => exact: (ev_mm h)
    | |- ev (o_add _ _ _) _ => exact: (ev_add h)
    | |- ev (o_mul _ _ _) _ => exact: (ev_mul h)
    | |- ev (o_sumax _ _ _) _ => exact: (ev_sumax h)
    | |- ev (o_sumall _ _) _ => exact: (ev_sumall h)
    | |- ev (o_diag _ _) _ => exact: (ev_diag h)
    | |- ev (bind _ (fun x => let '(_, _) := x in _)) _ => apply: ev_bind => [|[? ?]]
    | |- ev (bind _ _) _ => apply: ev_bind => [|?]
    | |- ev (let x := ?b in _) _ => cbv zeta
    end
  | ext
  | match goal with
    | |- ev (if ?b then _ else _) _ => destruct b
    | |- ev (match ?x with _ => _ end) _ => destruct x
    end ].
Ltac evs := evs0 fail.
Lemma ev_mm3 a b c ta tb tc : ev (mm3 o a b c ta tb tc) (fun n => mm3 (g n) a b c ta tb tc).
Proof. by rewrite /mm3; evs. Qed.
Lemma ev_dense_step a : ev (dense_step o a) (fun n => dense_step (g n) a).
Proof. by case: a => *; rewrite /dense_step; evs0 ltac:(simple apply ev_mm3). Qed.
Lemma ev_bts a s : ev (broadcast_to_step o a s) (fun n => broadcast_to_step (g n) a s).
Proof. by rewrite /broadcast_to_step; evs. Qed.
Lemma ev_gi a : ev (getitem_dense o a) (fun n => getitem_dense (g n) a).
Proof. by rewrite /getitem_dense; evs. Qed.
Lemma ev_cn a z p : ev (concat_num o a z p) (fun n => concat_num (g n) a z p).
Proof. by rewrite /concat_num; evs. Qed.
Lemma ev_pc a : ev (pad_zero_col o a) (fun n => pad_zero_col (g n) a).
Proof. by rewrite /pad_zero_col; evs0 ltac:(simple apply ev_cn). Qed.
Lemma ev_pb a : ev (pad_zero_both o a) (fun n => pad_zero_both (g n) a).
Proof. by rewrite /pad_zero_both /pad_zero_row; evs0 ltac:(first [simple apply ev_cn|simple apply ev_pc]). Qed.
Lemma ev_tn a l p : ev (take_num o a l p) (fun n => take_num (g n) a l p).
Proof. by rewrite /take_num; evs. Qed.
Lemma ev_align a b : ev (align argsort o a b) (fun n => align argsort (g n) a b).
Proof. by rewrite /align; evs0 ltac:(simple apply ev_gi). Qed.
Lemma ev_add_lr la ra ma lb rb mb : ev (add_lr_lr argsort o la ra ma lb rb mb) (fun n => add_lr_lr argsort (g n) la ra ma lb rb mb).
Proof. by rewrite /add_lr_lr; evs0 ltac:(first [simple apply ev_align|simple apply ev_pc|simple apply ev_pb|simple apply ev_tn]). Qed.
Lemma ev_add_body i a b : ev (add_body argsort o i a b) (fun n => add_body argsort (g n) i a b).
Proof. by case: i; rewrite /add_body; evs0 ltac:(first [simple apply ev_add_lr|simple apply ev_bts]). Qed.
Lemma ev_add_step a b : ev (add_step argsort o a b) (fun n => add_step argsort (g n) a b).
Proof.
have H a' b' : ev (bind (lookup add_table (ty_of_matrix a') (ty_of_matrix b')) (fun i => add_body argsort o i a' b'))
  (fun n => bind (lookup add_table (ty_of_matrix a') (ty_of_matrix b')) (fun i => add_body argsort (g n) i a' b')).
  by apply (@ev_bind _ _ _ _ (fun _ => _) (fun n i => _) (ev_const _)) => i; simple apply ev_add_body.
rewrite /add_step; destruct a, b; cbv zeta; first [simple apply H|exact (ev_const _)].
Qed.
Lemma ev_mul_lr la ra ma lb rb mb : ev (mul_lr_lr o la ra ma lb rb mb) (fun n => mul_lr_lr (g n) la ra ma lb rb mb).
Proof. by rewrite /mul_lr_lr; evs. Qed.
Lemma ev_mul_body i a b : ev (mul_body o i a b) (fun n => mul_body (g n) i a b).
Proof. by case: i; rewrite /mul_body; evs0 ltac:(first [simple apply ev_mul_lr|simple apply ev_bts]). Qed.
Lemma ev_mul_step a b : ev (mul_step o a b) (fun n => mul_step (g n) a b).
Proof.
have H a' b' : ev (bind (lookup mul_table (ty_of_matrix a') (ty_of_matrix b')) (fun i => mul_body o i a' b'))
  (fun n => bind (lookup mul_table (ty_of_matrix a') (ty_of_matrix b')) (fun i => mul_body (g n) i a' b')).
  by apply (@ev_bind _ _ _ _ (fun _ => _) (fun n i => _) (ev_const _)) => i; simple apply ev_mul_body.
rewrite /mul_step; destruct a, b; cbv zeta; first [simple apply H|exact (ev_const _)].
Qed.
Lemma ev_mklt a : ev (mk_lt_mat o a) (fun n => mk_lt_mat (g n) a). Proof. by rewrite /mk_lt_mat; evs. Qed.
Lemma ev_mkut a : ev (mk_ut_mat o a) (fun n => mk_ut_mat (g n) a). Proof. by rewrite /mk_ut_mat; evs. Qed.
Lemma ev_rs a ds : ev (reshape_mat o a ds) (fun n => reshape_mat (g n) a ds). Proof. by rewrite /reshape_mat; evs. Qed.
Lemma ev_rc a i j : ev (reshape_cols o a i j) (fun n => reshape_cols (g n) a i j).
Proof. by rewrite /reshape_cols; evs0 ltac:(simple apply ev_rs). Qed.
Lemma ev_rr a i j : ev (reshape_rows o a i j) (fun n => reshape_rows (g n) a i j).
Proof. by rewrite /reshape_rows; evs0 ltac:(simple apply ev_rs). Qed.
Lemma ev_kia a b : ev (kron_id_a_b o a b) (fun n => kron_id_a_b (g n) a b).
Proof. by rewrite /kron_id_a_b; evs0 ltac:(simple apply ev_rc). Qed.
Lemma ev_kai a b : ev (kron_a_id_b o a b) (fun n => kron_a_id_b (g n) a b).
Proof. by rewrite /kron_a_id_b; evs0 ltac:(simple apply ev_rr). Qed.
Lemma ev_mm_body i a b ta tb : ev (mm_body o i a b ta tb) (fun n => mm_body (g n) i a b ta tb).
Proof.
by case: i; rewrite /mm_body; evs0 ltac:(first [simple apply ev_mm3|simple apply ev_mklt|simple apply ev_mkut|simple apply ev_kia|simple apply ev_kai|simple apply ev_gi]).
Qed.
Lemma ev_mm_step a b ta tb : ev (matmul_step o a b ta tb) (fun n => matmul_step (g n) a b ta tb).
Proof.
have H a' b' : ev (bind (lookup mm_table (ty_of_matrix a') (ty_of_matrix b')) (fun i => mm_body o i a' b' ta tb))
  (fun n => bind (lookup mm_table (ty_of_matrix a') (ty_of_matrix b')) (fun i => mm_body (g n) i a' b' ta tb)).
  by apply (@ev_bind _ _ _ _ (fun _ => _) (fun n i => _) (ev_const _)) => i; simple apply ev_mm_body.
rewrite /matmul_step; destruct a, b; cbv zeta; first [simple apply H|exact (ev_const _)].
Qed.
Lemma ev_sumax_step a ax : ev (sumax_step o a ax) (fun n => sumax_step (g n) a ax).
Proof. by case: a => *; rewrite /sumax_step; evs. Qed.
Lemma ev_sumall_step a : ev (sumall_step o a) (fun n => sumall_step (g n) a).
Proof. by case: a => *; rewrite /sumall_step; evs. Qed.
Lemma ev_diag_step a : ev (diag_step o a) (fun n => diag_step (g n) a).
Proof. by case: a => *; rewrite /diag_step; evs. Qed.
End Bodies.
