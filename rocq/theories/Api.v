(** * What a call of the library does

    The model ties the recursion of the methods with fuel ([ops_n], Ops.v);
    the fuel plays the role of the interpreter's recursion limit.  A call is a
    function of the record of core operations.  The definitions of this file
    are used to state the properties. *)
From mathcomp Require Import all_ssreflect all_algebra.
From Verif Require Import Outcome Monad Shape Tensor Mat Dispatch Ops Spec TensorThy MatThy OpsOk OpsMain.
From Verif Require Import Term Term2 Term5 Exact Exact2.
Set Implicit Arguments. Unset Strict Implicit. Unset Printing Implicit Defensive.

Section Api.
Variable F : rcfType.
Notation mat := (mat F).
Notation tensor := (tensor F).
Variable argsort : seq F -> seq nat.
Notation run n := (ops_n argsort n).

(** With every sufficiently large recursion limit the call has outcome [r]. *)
Definition settles A (f : ops F -> outcome A) (r : outcome A) : Prop :=
  exists n0, forall n, n0 <= n -> f (run n) = r.
(** With every sufficiently large recursion limit, an approximate comparison of
    the call (align.py:28-29, add.py:192) identified different values. *)
Definition inexact A (f : ops F -> outcome A) : Prop :=
  exists n0, forall n, n0 <= n -> ~~ exact (logof (f (run n))).
(** The call returns a value with property [P], unless an approximate
    comparison inside it was inexact.  In particular it does not raise. *)
Definition answers A (f : ops F -> outcome A) (P : A -> Prop) : Prop :=
  (exists l c, [/\ settles f (Ret l c), exact l & P c]) \/ inexact f.
(** The call returns a value with property [P], unconditionally. *)
Definition returns A (f : ops F -> outcome A) (P : A -> Prop) : Prop :=
  exists l c, settles f (Ret l c) /\ P c.
(** The call raises an exception, other than by infinite recursion. *)
Definition raises A (f : ops F -> outcome A) : Prop :=
  exists l e, settles f (RaiseL l e) /\ e <> RecursionError.

(** What the theorems assume of [B.argsort]. *)
Definition argsort_ok : Prop := forall s, perm_eq (argsort s) (iota 0 (size s)).

(** [t] is the array which the numeric computation [m] returns. *)
Definition is_value (m : outcome tensor) (t : tensor) : Prop := exists2 z, m = ret z & teq t z.

(** ** Composition *)
Lemma ans_conseq A (f : ops F -> outcome A) (P Q : A -> Prop) :
  answers f P -> (forall c, P c -> Q c) -> answers f Q.
Proof. by case=> [[l [c [h e p]]]|h] H; [left; exists l, c; split=> //; exact: H|right]. Qed.
Lemma ans_ret A (a : A) (P : A -> Prop) : P a -> answers (fun _ => ret a) P.
Proof. by move=> h; left; exists log0, a; split=> //; exists 0. Qed.
Lemma ans_ext A (f g : ops F -> outcome A) (P : A -> Prop) : (forall o, f o = g o) -> answers f P -> answers g P.
Proof.
move=> e [[l [c [[n0 h] x p]]]|[n0 h]]; [left; exists l, c; split=> //; exists n0|right; exists n0] => n hn;
by rewrite -e; apply: h.
Qed.
Lemma ans_bind A B (f : ops F -> outcome A) (k : A -> ops F -> outcome B) (P : A -> Prop) (Q : B -> Prop) :
  answers f P -> (forall c, P c -> answers (k c) Q) -> answers (fun o => do c <- f o; k c o) Q.
Proof.
case=> [[l [c [[n0 h] x p]]]|[n0 h]] H; last first.
  right; exists n0 => n hn; move: (h n hn); rewrite /bind; case: (f _) => [l a|l e] //= hx.
  by case: (k a _) => [l' b|l' e'] /=; move: hx; rewrite /exact /= !negbK => ->.
case: (H c p) => [[l' [d [[n1 h'] x' q]]]|[n1 h']].
  left; exists (ljoin l l'), d; split=> //.
    exists (maxn n0 n1) => n; rewrite geq_max => /andP[h0 h1]; by rewrite /bind (h _ h0) (h' _ h1).
  by move: x x'; rewrite /exact /= negb_or => -> ->.
right; exists (maxn n0 n1) => n; rewrite geq_max => /andP[h0 h1]; rewrite /bind (h _ h0).
move: (h' _ h1); case: (k c _) => [l2 b|l2 e2] /=; rewrite /exact /= !negbK => ->; exact: orbT.
Qed.
(** Calls which do not depend on the core operations. *)
Lemma ans_pure A (m : outcome A) (P : A -> Prop) : hoare m P -> nrec m -> answers (fun _ => m) P.
Proof.
case: m => [l a|l e]; rewrite /hoare /= => h r; case x: (exact l).
- by left; exists l, a; split; [exists 0| |exact: h].
- by right; exists 0 => n _ /=; rewrite x.
- by move: r; rewrite (h x).
- by right; exists 0 => n _ /=; rewrite x.
Qed.
Lemma ret_conseq A (f : ops F -> outcome A) (P Q : A -> Prop) :
  returns f P -> (forall c, P c -> Q c) -> returns f Q.
Proof. by case=> l [c [h p]] H; exists l, c; split=> //; exact: H. Qed.
Lemma ret_bind A B (f : ops F -> outcome A) (k : A -> ops F -> outcome B) (P : A -> Prop) (Q : B -> Prop) :
  returns f P -> (forall c, P c -> returns (k c) Q) -> returns (fun o => do c <- f o; k c o) Q.
Proof.
case=> l [c [[n0 h] p]] H; case: (H c p) => l' [d [[n1 h'] q]]; exists (ljoin l l'), d; split=> //.
by exists (maxn n0 n1) => n; rewrite geq_max => /andP[h0 h1]; rewrite /bind (h _ h0) (h' _ h1).
Qed.
(** A call which never compares approximately. *)
Lemma ans_returns A (f : ops F -> outcome A) (P : A -> Prop) :
  (forall n, xe (f (run n))) -> answers f P -> returns f P.
Proof.
move=> hx [[l [c [h x p]]]|[n0 h]]; first by exists l, c.
by have := h n0 (leqnn _); have := hx n0; rewrite /xh => -[->].
Qed.
Lemma answers_fact A (f : ops F -> outcome A) (P Q : A -> Prop) :
  answers f P -> (forall n l c, f (run n) = Ret l c -> Q c) -> answers f (fun c => P c /\ Q c).
Proof.
case=> [[l [c [[n0 h] x p]]]|h] H; last by right.
by left; exists l, c; split; [exists n0|by []|split; [|exact: (H _ _ _ (h n0 (leqnn _)))]].
Qed.

(** ** The core operations *)
Lemma settle_core A (f : ops F -> outcome A) n0 :
  (forall n k, ole (f (run n)) (f (run (n + k)))) -> nrec (f (run n0)) -> settles f (f (run n0)).
Proof.
move=> hm hr; exists n0 => n hn; rewrite -(subnKC hn); exact: ole_stable (hm _ _) hr.
Qed.
Lemma ans_core A (f : ops F -> outcome A) (P : A -> Prop) n0 :
  (forall n, hoare (f (run n)) P) -> (forall n k, ole (f (run n)) (f (run (n + k)))) ->
  nrec (f (run n0)) -> answers f P.
Proof.
move=> hh hm hr; have := settle_core hm hr; have := hh n0; move: hr.
case: (f (run n0)) => [l a|l e] /= hr h hs; case x: (exact l).
- by left; exists l, a; split=> //; apply: h.
- by right; case: hs => n1 hs; exists n1 => n hn; rewrite hs //= x.
- by move: hr; rewrite (h x).
- by right; case: hs => n1 hs; exists n1 => n hn; rewrite hs //= x.
Qed.

Section Core.
Hypothesis perm : argsort_ok.
Let ok n : ops_ok (run n) := ops_ok_n perm n.
Let le n k : ople (run n) (run (n + k)) := ople_n argsort n k.
Implicit Types a b : mat.
Lemma thnrec A (m : outcome A) P : thoare m P -> nrec m. Proof. by case: m. Qed.
Lemma wfo_gdo a : wfo a -> gdo a. Proof. by case=> [/wf_gd h|h]; rewrite /gdo h ?orbT. Qed.

Lemma ans_dense a : wf a -> answers (fun o => o_dense o a) (fun t => tmat t (mrows a) (mcols a) (mbatch a) (ent a)).
Proof.
move=> w; apply: (@ans_core _ _ _ (fu_1 a)) => [n|n k|]; first exact (ok_dense (ok n) w).
  exact (le_dense (le n k) _).
exact (thnrec (tk_dense (tm_n argsort _) (wf_gd w) (leqnn _))).
Qed.
Lemma wf_gd2 a b : wf a \/ wf b -> gd a || gd b.
Proof. by case=> /wf_gd ->; rewrite ?orbT. Qed.
Lemma ans_add a b : wfo a -> wfo b -> wf a \/ wf b -> shapes_ok a b -> add_side a b ->
  answers (fun o => o_add o a b) (fun c => res2 +%R a b c /\ (kfree a -> kfree b -> kfree c)).
Proof.
move=> w1 w2 w3 s1 s2; apply: (@ans_core _ _ _ (fu_add a b)) => [n|n k|]; first exact (ok_add (ok n) w1 w2 w3 s1 s2).
  exact (le_add (le n k) _ _).
exact (thnrec (tk_add (tm_n argsort _) (wfo_gdo w1) (wfo_gdo w2) (wf_gd2 w3) (leqnn _))).
Qed.
Lemma ans_mul a b : wfo a -> wfo b -> wf a \/ wf b -> shapes_ok a b -> mul_side a b ->
  answers (fun o => o_mul o a b) (fun c => res2 *%R a b c /\ (kfree a -> kfree b -> kfree c)).
Proof.
move=> w1 w2 w3 s1 s2; apply: (@ans_core _ _ _ (fu_mul a b)) => [n|n k|]; first exact (ok_mul (ok n) w1 w2 w3 s1 s2).
  exact (le_mul (le n k) _ _).
exact (thnrec (tk_mul (tm_n argsort _) (wfo_gdo w1) (wfo_gdo w2) (wf_gd2 w3) (leqnn _))).
Qed.
Lemma ans_mm a b (ta tb : bool) : wf a -> wf b -> mcolst a ta = mrowst b tb ->
  bcok (mbatch a) (mbatch b) -> mm_side a b ta tb ->
  answers (fun o => o_matmul o a b ta tb) (fun c => resm a b ta tb c /\ (kfree a || kfree b -> kfree c)).
Proof.
move=> w1 w2 s1 s2 s3; apply: (@ans_core _ _ _ (fu_mm a b ta tb)) => [n|n k|]; first exact (ok_mm (ok n) w1 w2 s1 s2 s3).
  exact (le_mm (le n k) _ _ _ _).
exact (thnrec (tk_mm (tm_n argsort _) (wf_gd w1) (wf_gd w2) (leqnn _))).
Qed.
Lemma ans_sum1 a : wf a -> answers (fun o => o_sumax o a true)
  (fun t => tvec t (mrows a) (mbatch a) (fun be i => sumf (mcols a) (ent a be i))).
Proof.
move=> w; apply: (@ans_core _ _ _ (fu_1 a)) => [n|n k|]; first by have [] := ok_sumax (ok n) w.
  exact (le_sumax (le n k) _ _).
exact: (tk_sumax (tm_n argsort _) _ (wf_gd w) (leqnn _)).
Qed.
Lemma ans_sum2 a : wf a -> answers (fun o => o_sumax o a false)
  (fun t => tvec t (mcols a) (mbatch a) (fun be j => sumf (mrows a) (fun i => ent a be i j))).
Proof.
move=> w; apply: (@ans_core _ _ _ (fu_1 a)) => [n|n k|]; first by have [] := ok_sumax (ok n) w.
  exact (le_sumax (le n k) _ _).
exact: (tk_sumax (tm_n argsort _) _ (wf_gd w) (leqnn _)).
Qed.
Lemma ans_sumall a : wf a -> answers (fun o => o_sumall o a) (fun t => sh t = [::] /\
    tget t [::] = sumall (mbatch a) (fun be => sumf (mrows a) (fun i => sumf (mcols a) (fun j => ent a be i j)))).
Proof.
move=> w; apply: (@ans_core _ _ _ (fu_1 a)) => [n|n k|]; first exact (ok_sumall (ok n) w).
  exact (le_sumall (le n k) _).
exact: (tk_sumall (tm_n argsort _) (wf_gd w) (leqnn _)).
Qed.
Lemma ans_diag a : wf a -> dgok a -> answers (fun o => o_diag o a)
  (fun t => tvec t (minn (mrows a) (mcols a)) (mbatch a) (fun be i => ent a be i i)).
Proof.
move=> w h; apply: (@ans_core _ _ _ (fu_1 a)) => [n|n k|]; first exact (ok_diag (ok n) w h).
  exact (le_diag (le n k) _).
exact: (tk_diag (tm_n argsort _) (wf_gd w) (leqnn _)).
Qed.
End Core.
End Api.
