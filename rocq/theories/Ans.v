(** * Calls on described operands (proof support) *)
From mathcomp Require Import all_ssreflect all_algebra.
From Verif Require Import Outcome Monad Shape Tensor Mat Dispatch Ops Spec ShapeThy TensorThy MatThy OpsOk OpsMain Term Calm Api Bridge.
Set Implicit Arguments. Unset Strict Implicit. Unset Printing Implicit Defensive.
Import GRing.Theory.
Local Open Scope ring_scope.

Section Ans.
Variable F : rcfType.
Notation tensor := (tensor F).
Notation mat := (mat F).
Variable argsort : seq F -> seq nat.
Hypothesis perm : argsort_ok argsort.
Notation answers := (answers argsort).
Implicit Types x y z : mat.

Lemma calm_nrec A (m : outcome A) : calm m -> nrec m.
Proof. by case: m => [l a|l e] //= [_]; case: e. Qed.
(** A computation which does not depend on the recursion. *)
Lemma ans_calm A (m : outcome A) (P : A -> Prop) : calm m -> hoare m P -> answers (fun _ => m) P.
Proof. by move=> h1 h2; apply: ans_pure => //; apply: calm_nrec. Qed.
Lemma ans_bindc A B (m : outcome A) (k : A -> ops F -> outcome B) (P : A -> Prop) (Q : B -> Prop) :
  calm m -> hoare m P -> (forall c, P c -> answers (k c) Q) -> answers (fun o => do c <- m; k c o) Q.
Proof. by move=> h1 h2; apply: ans_bind (ans_calm h1 h2). Qed.
Lemma ans_eq A B (m : outcome A) (a : A) (k : A -> ops F -> outcome B) (Q : B -> Prop) :
  m = ret a -> answers (k a) Q -> answers (fun o => do c <- m; k c o) Q.
Proof. by move=> -> h; apply: ans_ext h => o; rewrite bind_ret. Qed.
Lemma ans_warn B b (k : unit -> ops F -> outcome B) (Q : B -> Prop) :
  answers (k tt) Q -> answers (fun o => do c <- warn_if b; k c o) Q.
Proof. by move=> h; apply: (ans_bind (P := fun _ => True)) => [|[]] //; apply: ans_pure. Qed.
Lemma ans_and A (f : ops F -> outcome A) (P Q : A -> Prop) : answers f P -> answers f Q -> answers f (fun c => P c /\ Q c).
Proof.
case=> [[l [c [[n0 h] x p]]]|h] [|h2]; [|by right|by right|by right].
case=> l' [c' [[n1 h'] x' q]]; left; exists l, c; split=> //; first by exists n0.
have := h (maxn n0 n1) (leq_maxl _ _); rewrite (h' _ (leq_maxr _ _)) => -[_ e]; split=> //; by rewrite -e.
Qed.

Lemma ans_dense_res x r c b f : is_res x r c b f -> answers (fun o => o_dense o x) (fun t => tmat t r c b f).
Proof.
case=> w [hr hc] hb e; apply: ans_conseq (ans_dense perm w) _ => t; rewrite hr hc hb => h.
by apply: tmat_ext h _ => *; apply: e.
Qed.
Lemma ans_add_res x y rx cx bx fx ry cy by' fy :
  is_res x rx cx bx fx -> is_res y ry cy by' fy -> bcnok rx ry -> bcnok cx cy -> bcok bx by' -> add_side x y ->
  answers (fun o => o_add o x y) (fun z => is_res z (bcn rx ry) (bcn cx cy) (bct bx by')
    (fun be i j => fx be (cl rx i) (cl cx j) + fy be (cl ry i) (cl cy j)) /\ (kfree x -> kfree y -> kfree z)).
Proof.
move=> hx hy h1 h2 h3 sd.
have wx : wf x by case: hx. have wy : wf y by case: hy.
apply: ans_conseq (ans_add perm (or_introl wx) (or_introl wy) (or_introl wx) (res_shapes hx hy h1 h2 h3) sd) _ => z [hz k].
by split=> //; exact: (res2_res hx hy h1 h2 h3 hz).
Qed.
Lemma ans_add_rese x y r c bx fx by' fy :
  is_res x r c bx fx -> is_res y r c by' fy -> bcok bx by' ->
  answers (fun o => o_add o x y) (fun z => is_res z r c (bct bx by')
    (fun be i j => fx be i j + fy be i j) /\ (kfree x -> kfree y -> kfree z)).
Proof.
move=> hx hy h3; have sd : add_side x y.
  by apply: add_side_same; case: hx hy => _ [e1 e2] _ _ [_ [e3 e4] _ _]; rewrite /samesh e1 e2 e3 e4 !eqxx.
apply: ans_conseq (ans_add_res hx hy (bcnokn r) (bcnokn c) h3 sd) _ => z [hz k]; split=> //.
by move: hz; rewrite !bcnn => hz; apply: res_ext hz _ => be i j hb hi hj; rewrite !clid.
Qed.
Lemma ans_mul_res x y rx cx bx fx ry cy by' fy :
  is_res x rx cx bx fx -> is_res y ry cy by' fy -> bcnok rx ry -> bcnok cx cy -> bcok bx by' -> mul_side x y ->
  answers (fun o => o_mul o x y) (fun z => is_res z (bcn rx ry) (bcn cx cy) (bct bx by')
    (fun be i j => fx be (cl rx i) (cl cx j) * fy be (cl ry i) (cl cy j)) /\ (kfree x -> kfree y -> kfree z)).
Proof.
move=> hx hy h1 h2 h3 sd.
have wx : wf x by case: hx. have wy : wf y by case: hy.
apply: ans_conseq (ans_mul perm (or_introl wx) (or_introl wy) (or_introl wx) (res_shapes hx hy h1 h2 h3) sd) _ => z [hz k].
by split=> //; exact: (res2_res hx hy h1 h2 h3 hz).
Qed.
Lemma ans_mul_rese x y r c bx fx by' fy :
  is_res x r c bx fx -> is_res y r c by' fy -> bcok bx by' -> mul_side x y ->
  answers (fun o => o_mul o x y) (fun z => is_res z r c (bct bx by')
    (fun be i j => fx be i j * fy be i j) /\ (kfree x -> kfree y -> kfree z)).
Proof.
move=> hx hy h3 sd.
apply: ans_conseq (ans_mul_res hx hy (bcnokn r) (bcnokn c) h3 sd) _ => z [hz k]; split=> //.
by move: hz; rewrite !bcnn => hz; apply: res_ext hz _ => be i j hb hi hj; rewrite !clid.
Qed.
Lemma ans_mm_res x y (ta tb : bool) rx cx bx fx ry cy by' fy :
  is_res x rx cx bx fx -> is_res y ry cy by' fy ->
  (if ta then rx else cx) = (if tb then cy else ry) -> bcok bx by' -> mm_side x y ta tb ->
  answers (fun o => o_matmul o x y ta tb) (fun z =>
    is_res z (if ta then cx else rx) (if tb then ry else cy) (bct bx by')
      (fun be i j => sumf (if ta then rx else cx) (fun p =>
         (if ta then fx be p i else fx be i p) * (if tb then fy be j p else fy be p j)))
    /\ (kfree x || kfree y -> kfree z)).
Proof.
case=> wx [hrx hcx] hbx ex [wy [hry hcy] hby ey] hk okb side.
apply: ans_conseq (ans_mm perm wx wy _ _ side) _.
- by rewrite /mcolst /mrowst hrx hcx hry hcy.
- by rewrite hbx hby.
move=> z [hz k]; split=> //; move: hz; rewrite /resm /mcolst /mrowst hrx hcx hry hcy hbx hby => hz.
apply: res_ext hz _ => be i j; rewrite okb_bct // => /andP[o1 o2] hi hj; apply: eq_sumf => p hp.
rewrite /entt; congr (_ * _).
  by case: (ta) hi hp => hi hp; rewrite ex.
by move: hp; rewrite hk; case: (tb) hj => hj hp; rewrite ey.
Qed.
Lemma ans_sum1_res x r c b f : is_res x r c b f ->
  answers (fun o => o_sumax o x true) (fun t => tvec t r b (fun be i => sumf c (fun j => f be i j))).
Proof.
case=> w [hr hc] hb e; apply: ans_conseq (ans_sum1 perm w) _ => t; rewrite hr hc hb => h.
by apply: tvec_ext h _ => be i hbe hi; apply: eq_sumf => j hj; apply: e.
Qed.
Lemma ans_sum2_res x r c b f : is_res x r c b f ->
  answers (fun o => o_sumax o x false) (fun t => tvec t c b (fun be j => sumf r (fun i => f be i j))).
Proof.
case=> w [hr hc] hb e; apply: ans_conseq (ans_sum2 perm w) _ => t; rewrite hr hc hb => h.
by apply: tvec_ext h _ => be i hbe hi; apply: eq_sumf => j hj; apply: e.
Qed.
Lemma ans_diag_res x r c b f : is_res x r c b f -> dgok x ->
  answers (fun o => o_diag o x) (fun t => tvec t (minn r c) b (fun be i => f be i i)).
Proof.
case=> w [hr hc] hb e d; apply: ans_conseq (ans_diag perm w d) _ => t; rewrite hr hc hb => h.
by apply: tvec_ext h _ => be i hbe; rewrite leq_min => /andP[h1 h2]; apply: e.
Qed.
End Ans.
