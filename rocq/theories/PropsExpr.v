(** * C39, C41: whole expressions, algebraic laws *)
From mathcomp Require Import all_ssreflect all_algebra zify.
From Verif Require Import Outcome Monad Shape Tensor Mat Dispatch Ops Ops2 Spec ShapeThy TensorThy TensorThy2 MatThy OpsOk DenseOk LookThy AddOk MulOk MmOk OpsMain Term Calm Api Bridge Ans SumThy PropsSum PropsArith PropsLift.
From Verif Require Import Samples.
Set Implicit Arguments. Unset Strict Implicit. Unset Printing Implicit Defensive.
Import GRing.Theory Num.Theory.
Local Open Scope ring_scope.

Section PropsExpr.
Variable F : rcfType.
Notation tensor := (tensor F).
Notation mat := (mat F).

(** Expressions over matrix objects: [a + b], [a - b], [a * b], [matmul(a, b, tr_a, tr_b)], [a.T], [-a], [x * a]. *)
Inductive expr : Type :=
| Leaf of mat
| EAdd of expr & expr
| ESub of expr & expr
| EMul of expr & expr
| EMM of bool & bool & expr & expr
| ET of expr
| ENeg of expr
| EScale of dtype & F & expr.

(** What Python does: evaluate the arguments from left to right, call the operation of the library
    (matrix.py:26-76 maps the operators to [B.add], [B.subtract], [B.multiply], [B.matmul], [B.transpose], [B.negative]). *)
Fixpoint eval (o : ops F) (e : expr) : outcome mat :=
  match e with
  | Leaf a => ret a
  | EAdd x y => do a <- eval o x; do b <- eval o y; o_add o a b
  | ESub x y => do a <- eval o x; do b <- eval o y; subtract o a b
  | EMul x y => do a <- eval o x; do b <- eval o y; o_mul o a b
  | EMM ta tb x y => do a <- eval o x; do b <- eval o y; o_matmul o a b ta tb
  | ET x => do a <- eval o x; transpose a
  | ENeg x => do a <- eval o x; negative a
  | EScale d v x => do a <- eval o x; o_mul o (Nm (t_scalar d v)) a
  end.
(** The same expression on plain arrays. *)
Fixpoint deval (e : expr) : outcome tensor :=
  match e with
  | Leaf a => ret (den a)
  | EAdd x y => do a <- deval x; do b <- deval y; t_add a b
  | ESub x y => do a <- deval x; do b <- deval y; t_sub a b
  | EMul x y => do a <- deval x; do b <- deval y; t_mul a b
  | EMM ta tb x y => do a <- deval x; do b <- deval y; t_matmul a b ta tb
  | ET x => do a <- deval x; t_transpose a
  | ENeg x => do a <- deval x; ret (t_map -%R a)
  | EScale d v x => do a <- deval x; ret (t_map (fun y => v * y) a)
  end.

(** All leaves are well-formed. *)
Fixpoint ewf (e : expr) : Prop :=
  match e with
  | Leaf a => wf a
  | EAdd x y | ESub x y | EMul x y | EMM _ _ x y => ewf x /\ ewf y
  | ET x | ENeg x | EScale _ _ x => ewf x
  end.
(** Rows, columns and batch shape of an expression. *)
Fixpoint erows (e : expr) : nat :=
  match e with
  | Leaf a => mrows a
  | EAdd x _ | ESub x _ | EMul x _ => erows x
  | EMM ta _ x _ => if ta then ecols x else erows x
  | ET x => ecols x
  | ENeg x | EScale _ _ x => erows x
  end
with ecols (e : expr) : nat :=
  match e with
  | Leaf a => mcols a
  | EAdd x _ | ESub x _ | EMul x _ => ecols x
  | EMM _ tb _ y => if tb then erows y else ecols y
  | ET x => erows x
  | ENeg x | EScale _ _ x => ecols x
  end.
Fixpoint ebatch (e : expr) : shape :=
  match e with
  | Leaf a => mbatch a
  | EAdd x y | ESub x y | EMul x y | EMM _ _ x y => bct (ebatch x) (ebatch y)
  | ET x | ENeg x | EScale _ _ x => ebatch x
  end.
(** The shapes of all intermediate results match. *)
Fixpoint fits (e : expr) : bool :=
  match e with
  | Leaf _ => true
  | EAdd x y | ESub x y | EMul x y =>
      [&& fits x, fits y, erows x == erows y, ecols x == ecols y & bcok (ebatch x) (ebatch y)]
  | EMM ta tb x y =>
      [&& fits x, fits y, (if ta then erows x else ecols x) == (if tb then ecols y else erows y) & bcok (ebatch x) (ebatch y)]
  | ET x | ENeg x | EScale _ _ x => fits x
  end.
(** Restrictions on [*] and [@] forced by the code: no Kronecker products in products (except one operand of [@]; the code
    raises if their factors do not match pairwise), and no elementwise products of rectangular triangular matrices. *)
Fixpoint nokron (e : expr) : bool :=
  match e with
  | Leaf a => kfree a
  | EAdd x y | ESub x y | EMul x y => nokron x && nokron y
  | EMM _ _ x y => nokron x || nokron y
  | ET x | ENeg x | EScale _ _ x => nokron x
  end.
Definition nottri (e : expr) : bool := if e is Leaf a then ~~ istri a else false.
Fixpoint safe (e : expr) : bool :=
  match e with
  | Leaf _ => true
  | EAdd x y | ESub x y => safe x && safe y
  | EMul x y => [&& safe x, safe y, nokron x, nokron y & [|| erows x == ecols x, nottri x | nottri y]]
  | EMM _ _ x y => [&& safe x, safe y & nokron x || nokron y]
  | ET x | ENeg x | EScale _ _ x => safe x
  end.
(** Entries of the matrix an expression stands for. *)
Fixpoint sem (e : expr) (be : seq nat) (i j : nat) : F :=
  match e with
  | Leaf a => ent a be i j
  | EAdd x y => sem x be i j + sem y be i j
  | ESub x y => sem x be i j - sem y be i j
  | EMul x y => sem x be i j * sem y be i j
  | EMM ta tb x y => sumf (if ta then erows x else ecols x) (fun p =>
         (if ta then sem x be p i else sem x be i p) * (if tb then sem y be j p else sem y be p j))
  | ET x => sem x be j i
  | ENeg x => - sem x be i j
  | EScale _ v x => v * sem x be i j
  end.

Variable argsort : seq F -> seq nat.
Hypothesis perm : argsort_ok argsort.
Notation answers := (answers argsort).

Lemma ans_sub_res (a b : mat) r c ba fa bb fb : is_res a r c ba fa -> is_res b r c bb fb -> bcok ba bb ->
  answers (fun o => subtract o a b) (fun z => is_res z r c (bct ba bb) (fun be i j => fa be i j - fb be i j) /\
    (kfree a -> kfree b -> kfree z)).
Proof.
move=> ha hb o; have wa := res_kwf ha; have wb := res_kwf hb.
have [[ta tb]|tt] : (tag a = 0%N /\ tag b = 0%N) \/ (tag a != 0%N \/ tag b != 0%N).
  by case: (tag a); case: (tag b); auto.
- have so := res_shapes ha hb (bcnokn r) (bcnokn c) o.
  have [x ea] := tag0 ta; have [y eb] := tag0 tb; subst a b.
  apply: ans_calm; first by apply: calm_bind => //; exact: cm_map2.
  apply: hoare_conseq (num2_ok (fun x y => x - y) (or_introl wa) (or_introl wb) (or_introl wa) so) _ => z [hz k]; split=> //.
  have := (res2_res ha hb (bcnokn r) (bcnokn c) o hz); rewrite !bcnn => h.
  by apply: res_ext h _ => be i j _ hi hj; rewrite !clid.
- have E o' : subtract o' a b = do b' <- negative (to_matrix b); o_add o' (to_matrix a) b'.
    by case: a tt {ha wa} => [x|? ? ? ?|x|x|x ? ?|x|x|? ? ?|? ? ? ?|? ?];
       case: b {hb wb} => [y|? ? ? ?|y|y|y ? ?|y|y|? ? ?|? ? ? ?|? ?] // [].
  apply: ans_ext (fun o' => esym (E o')) _.
  have [ra ka _ _ _] := to_matrix_ok (or_introl wa); have [rb kb _ _ _] := to_matrix_ok (or_introl wb).
  have {}ra : is_res (to_matrix a) r c ba fa.
    case: ha ra => _ [e1 e2] e3 e4; rewrite e1 e2 e3 => h; exact: res_ext h e4.
  have {}rb : is_res (to_matrix b) r c bb fb.
    case: hb rb => _ [e1 e2] e3 e4; rewrite e1 e2 e3 => h; exact: res_ext h e4.
  have wb' : wf (to_matrix b) by case: rb.
  apply: ans_bindc (cm_negative _) (negative_ok wb') _ => b' [hb' kb' tb'].
  have {}hb' : is_res b' r c bb (fun be i j => - fb be i j).
    case: rb => _ [e1 e2] e3 e4; rewrite e1 e2 e3 in hb'.
    by apply: res_ext hb' _ => be i j h1 h2 h3; rewrite e4.
  apply: ans_conseq (ans_add_rese perm ra hb' o) _ => z [hz k]; split=> // k1 k2; apply: k.
    by rewrite ka.
  by rewrite kb' kb.
Qed.
Lemma ans_scale_res (a : mat) d v r c b f : is_res a r c b f ->
  answers (fun o => o_mul o (Nm (t_scalar d v)) a) (fun z => is_res z r c b (fun be i j => v * f be i j) /\ (kfree a -> kfree z)).
Proof.
move=> h; have w := res_kwf h; have [_ s2] := scal_shapes a d v; have [_ m2] := andP (scal_mul a d v).
apply: ans_conseq (ans_mul perm (scal_wfo d v) (or_introl w) (or_intror w) s2 m2) _ => z [hz k].
split=> [|ka]; last exact: k.
case: h hz => _ [e1 e2] e3 e4; rewrite /res2 /= !bc1n bct0s e1 e2 e3 => hz; apply: res_ext hz _ => be i j hb hi hj.
by rewrite {2}/entb e1 e2 !clid // e4.
Qed.

(** Structured evaluation: the result is well-formed and has the entries of the expression. *)
Lemma eval_ok e : ewf e -> fits e -> safe e ->
  answers (eval ^~ e) (fun c => [/\ is_res c (erows e) (ecols e) (ebatch e) (sem e), nokron e -> kfree c & nottri e -> ~~ istri c]).
Proof.
elim: e => [a|x IHx y IHy|x IHx y IHy|x IHx y IHy|ta tb x IHx y IHy|x IHx|x IHx|d v x IHx] /=.
- by move=> w _ _; apply: ans_ret; split=> //; exact: res_wf.
- move=> [w1 w2] /and5P[f1 f2 /eqP e1 /eqP e2 o] /andP[s1 s2].
  apply: ans_bind (IHx w1 f1 s1) _ => a [ha ka _]; apply: ans_bind (IHy w2 f2 s2) _ => b [hb kb _].
  rewrite -e1 -e2 in hb; apply: ans_conseq (ans_add_rese perm ha hb o) _ => z [hz k].
  by split=> // /andP[/ka k1 /kb k2]; apply: k.
- move=> [w1 w2] /and5P[f1 f2 /eqP e1 /eqP e2 o] /andP[s1 s2].
  apply: ans_bind (IHx w1 f1 s1) _ => a [ha ka _]; apply: ans_bind (IHy w2 f2 s2) _ => b [hb kb _].
  rewrite -e1 -e2 in hb; apply: ans_conseq (ans_sub_res ha hb o) _ => z [hz k].
  by split=> // /andP[/ka k1 /kb k2]; apply: k.
- move=> [w1 w2] /and5P[f1 f2 /eqP e1 /eqP e2 o] /and5P[s1 s2 k1 k2 sq].
  apply: ans_bind (IHx w1 f1 s1) _ => a [ha ka ta]; apply: ans_bind (IHy w2 f2 s2) _ => b [hb kb tb].
  rewrite -e1 -e2 in hb; have sd : mul_side a b.
    have [[_ [r1 c1] _ _] [_ [r2 c2] _ _]] := (ha, hb).
    apply: mul_side_same; rewrite /samesh ?r1 ?c1 ?r2 ?c2 ?eqxx ?ka ?kb //.
    by case/or3P: sq => [->|/ta/negbTE->|/tb/negbTE->]; rewrite ?orbT ?andbF.
  apply: ans_conseq (ans_mul_rese perm ha hb o sd) _ => z [hz k]; split=> // _; apply: k; [exact: ka|exact: kb].
- move=> [w1 w2] /and4P[f1 f2 /eqP e o] /and3P[s1 s2 kk].
  apply: ans_bind (IHx w1 f1 s1) _ => a [ha ka _]; apply: ans_bind (IHy w2 f2 s2) _ => b [hb kb _].
  have kab : kfree a || kfree b by case/orP: kk => [/ka->|/kb->]; rewrite ?orbT.
  apply: ans_conseq (ans_mm_res perm ha hb e o (mm_side_kfree _ _ kab)) _ => z [hz k]; split=> // _; exact: k.
- move=> w f s; apply: ans_bind (IHx w f s) _ => a [ha ka _]; have wa := res_kwf ha.
  apply: ans_calm; first exact: cm_transp.
  apply: hoare_conseq (transpose_ok wa) _ => z [hz k _]; case: ha => _ [e1 e2] e3 e4.
  rewrite e1 e2 e3 in hz; split=> // [|/ka]; last by rewrite k.
  by apply: res_ext hz _ => be i j hb hi hj; rewrite e4.
- move=> w f s; apply: ans_bind (IHx w f s) _ => a [ha ka _]; have wa := res_kwf ha.
  apply: ans_calm; first exact: cm_negative.
  apply: hoare_conseq (negative_ok wa) _ => z [hz k _]; case: ha => _ [e1 e2] e3 e4.
  rewrite e1 e2 e3 in hz; split=> // [|/ka]; last by rewrite k.
  by apply: res_ext hz _ => be i j hb hi hj; rewrite e4.
- move=> w f s; apply: ans_bind (IHx w f s) _ => a [ha ka _].
  by apply: ans_conseq (ans_scale_res d v ha) _ => z [hz k]; split=> // /ka.
Qed.
(** Dense evaluation. *)
Lemma deval_ok e : ewf e -> fits e -> exists2 t, deval e = ret t & tmat t (erows e) (ecols e) (ebatch e) (sem e).
Proof.
have C A (m : outcome A) (P : A -> Prop) : calm m -> hoare m P -> exists2 t, m = ret t & P t := @calm_hoare A m P.
elim: e => [a|x IHx y IHy|x IHx y IHy|x IHx y IHy|ta tb x IHx y IHy|x IHx|x IHx|d v x IHx] /=.
- by move=> w _; exists (den a) => //; exact: den_tmat.
- move=> [w1 w2] /and5P[f1 f2 /eqP e1 /eqP e2 o]; have [s -> hs] := IHx w1 f1; have [t -> ht] := IHy w2 f2.
  by rewrite !bind_ret; rewrite -e1 -e2 in ht; exact: C (cm_map2 _ _ _) (tmat_map2e _ hs ht o).
- move=> [w1 w2] /and5P[f1 f2 /eqP e1 /eqP e2 o]; have [s -> hs] := IHx w1 f1; have [t -> ht] := IHy w2 f2.
  by rewrite !bind_ret; rewrite -e1 -e2 in ht; exact: C (cm_map2 _ _ _) (tmat_map2e _ hs ht o).
- move=> [w1 w2] /and5P[f1 f2 /eqP e1 /eqP e2 o]; have [s -> hs] := IHx w1 f1; have [t -> ht] := IHy w2 f2.
  by rewrite !bind_ret; rewrite -e1 -e2 in ht; exact: C (cm_map2 _ _ _) (tmat_map2e _ hs ht o).
- move=> [w1 w2] /and4P[f1 f2 /eqP e o]; have [s -> hs] := IHx w1 f1; have [t -> ht] := IHy w2 f2.
  by rewrite !bind_ret; exact: C (cm_matmul _ _ _ _) (tmat_matmul hs ht o e).
- move=> w f; have [s -> hs] := IHx w f; rewrite bind_ret; exact: C (cm_transpose _) (tmat_transpose hs).
- move=> w f; have [s -> hs] := IHx w f; rewrite bind_ret; eexists; [by []|exact: tmat_map].
- move=> w f; have [s -> hs] := IHx w f; rewrite bind_ret; eexists; [by []|exact: (tmat_map (fun y => v * y) hs)].
Qed.

(** C39: any expression evaluates like its dense version. *)
Theorem C39_expression e : ewf e -> fits e -> safe e ->
  answers (eval ^~ e) (fun c => wf c /\ is_value (deval e) (den c)).
Proof.
move=> w f s; apply: ans_conseq (eval_ok w f s) _ => c [hc _ _]; split; first by case: hc.
have [t -> ht] := deval_ok w f; exists t => //; exact: tmat_teq (res_tmat hc) ht.
Qed.
(** Also after densifying the result. *)
Theorem C39_expression_dense e : ewf e -> fits e -> safe e ->
  answers (fun o => do c <- eval o e; o_dense o c) (is_value (deval e)).
Proof.
move=> w f s; apply: ans_bind (eval_ok w f s) _ => c [hc _ _]; apply: ans_conseq (ans_dense_res perm hc) _ => t h.
have [u -> hu] := deval_ok w f; exists u => //; exact: tmat_teq h hu.
Qed.

(** ** C41 *)
(** The two expressions evaluate to matrices with the same shape and entries. *)
Definition same (e1 e2 : expr) : Prop :=
  answers (fun o => do x <- eval o e1; do y <- eval o e2; ret (x, y)) (fun p => teq (den p.1) (den p.2)).
Lemma same_of e1 e2 : ewf e1 -> fits e1 -> safe e1 -> ewf e2 -> fits e2 -> safe e2 ->
  erows e1 = erows e2 -> ecols e1 = ecols e2 -> ebatch e1 = ebatch e2 ->
  (forall be i j, okb (ebatch e1) be -> (i < erows e1)%N -> (j < ecols e1)%N -> sem e1 be i j = sem e2 be i j) -> same e1 e2.
Proof.
move=> w1 f1 s1 w2 f2 s2 hr hc hb h; apply: ans_bind (eval_ok w1 f1 s1) _ => x [hx _ _].
apply: ans_bind (eval_ok w2 f2 s2) _ => y [hy _ _]; apply: ans_ret.
rewrite -hr -hc -hb in hy; apply: tmat_teq (res_tmat hx) _.
by apply: tmat_ext (res_tmat hy) _ => be i j ? ? ?; rewrite h.
Qed.
Lemma bcA (x y z : shape) : bcok x y -> bcok (bct x y) z ->
  [/\ bcok y z, bcok x (bct y z), bcok x z, bct (bct x y) z = bct x (bct y z) & bcok (bct x y) (bct x z) /\ bct (bct x y) (bct x z) = bct x (bct y z)].
Proof.
move=> o1 /[dup] o2 /bcokP[u]; rewrite bto_bct // => /andP[u1 u2] u3.
have o3 := bcok_ub u2 u3; have o4 := bcok_ub u1 u3; have o5 : bcok x (bct y z) by apply: (@bcok_ub u); rewrite ?bto_bct // u2.
have o6 : bcok (bct x y) (bct x z) by apply: (@bcok_ub u); rewrite bto_bct // u1.
split=> //; [|split=> //]; apply: bto_ext => v; rewrite !bto_bct //; first by rewrite andbA.
by case: (bto x v); case: (bto y v).
Qed.
Implicit Types x y z : expr.
Theorem C41_add_comm x y : ewf x -> ewf y -> fits (EAdd x y) -> safe (EAdd x y) -> same (EAdd x y) (EAdd y x).
Proof.
move=> w1 w2 /[dup] f /= /and5P[f1 f2 /eqP e1 /eqP e2 o] /[dup] s /andP[s1 s2]; apply: same_of => //=; rewrite ?f1 ?f2 ?s1 ?s2 ?e1 ?e2 ?eqxx 1?bcokC //.
- exact: bctC.
- by move=> be i j _ _ _; rewrite addrC.
Qed.
Theorem C41_add_assoc x y z : ewf x -> ewf y -> ewf z -> fits (EAdd (EAdd x y) z) -> safe (EAdd (EAdd x y) z) ->
  same (EAdd (EAdd x y) z) (EAdd x (EAdd y z)).
Proof.
move=> w1 w2 w3 /[dup] f /= /and5P[/and5P[f1 f2 /eqP e1 /eqP e2 o] f3 /eqP e3 /eqP e4 o']; have [o1 o2 _ E _] := bcA o o'.
move=> /[dup] s /andP[/andP[s1 s2] s3]; apply: same_of => //=; rewrite ?f1 ?f2 ?f3 ?s1 ?s2 ?s3 -?e1 -?e2 -?e3 -?e4 ?eqxx ?o1 //=.
by move=> be i j _ _ _; rewrite addrA.
Qed.
Theorem C41_mul_comm x y : ewf x -> ewf y -> fits (EMul x y) -> safe (EMul x y) -> same (EMul x y) (EMul y x).
Proof.
move=> w1 w2 /[dup] f /= /and5P[f1 f2 /eqP e1 /eqP e2 o] /[dup] s /and5P[s1 s2 k1 k2 k3].
apply: same_of => //=; rewrite ?f1 ?f2 ?s1 ?s2 ?k1 ?k2 -?e1 -?e2 ?eqxx 1?bcokC //=.
- by rewrite (orbC (nottri y)).
- exact: bctC.
- by move=> be i j _ _ _; rewrite mulrC.
Qed.
Theorem C41_mul_assoc x y z : ewf x -> ewf y -> ewf z -> fits (EMul (EMul x y) z) -> safe (EMul (EMul x y) z) -> safe (EMul x (EMul y z)) ->
  same (EMul (EMul x y) z) (EMul x (EMul y z)).
Proof.
move=> w1 w2 w3 /[dup] f /= /and5P[/and5P[f1 f2 /eqP e1 /eqP e2 o] f3 /eqP e3 /eqP e4 o']; have [o1 o2 _ E _] := bcA o o'.
move=> s s'; apply: same_of => //=; rewrite ?f1 ?f2 ?f3 -?e1 -?e2 -?e3 -?e4 ?eqxx ?o1 //=.
by move=> be i j _ _ _; rewrite mulrA.
Qed.
Theorem C41_mul_add x y z : ewf x -> ewf y -> ewf z -> fits (EAdd (EMul x y) (EMul x z)) ->
  safe (EMul x (EAdd y z)) -> safe (EAdd (EMul x y) (EMul x z)) -> same (EMul x (EAdd y z)) (EAdd (EMul x y) (EMul x z)).
Proof.
move=> w1 w2 w3 /[dup] f /= /and5P[/and5P[f1 f2 /eqP e1 /eqP e2 o] /and5P[_ f3 /eqP e3 /eqP e4 o'] _ _ ob].
have o'' : bcok (bct (ebatch x) (ebatch y)) (ebatch z).
  by case/bcokP: ob => u; rewrite !bto_bct // => /andP[u1 u2] /andP[_ u3]; apply: (@bcok_ub u); rewrite ?bto_bct ?u1.
have [o1 o2 _ _ [_ E]] := bcA o o''.
move=> s s'; apply: same_of => //=; rewrite ?f1 ?f2 ?f3 -?e1 -?e2 -?e3 -?e4 ?eqxx ?o1 //=.
by move=> be i j _ _ _; rewrite mulrDr.
Qed.
Theorem C41_mm_assoc x y z (ta tb tc : bool) : ewf x -> ewf y -> ewf z -> fits (EMM false tc (EMM ta tb x y) z) ->
  safe (EMM false tc (EMM ta tb x y) z) -> safe (EMM ta false x (EMM tb tc y z)) ->
  same (EMM false tc (EMM ta tb x y) z) (EMM ta false x (EMM tb tc y z)).
Proof.
move=> w1 w2 w3 /[dup] f /= /and4P[/and4P[f1 f2 /eqP e1 o] f3 /eqP e2 o'] s s'; have [o1 o2 _ E _] := bcA o o'.
have e2' : (if tb then erows y else ecols y) = (if tc then ecols z else erows z) by rewrite e2.
apply: same_of => //=; rewrite ?f1 ?f2 ?f3 ?e2' ?o1 ?o2 ?e1 ?eqxx //.
move=> be i j _ _ _; rewrite -e1 /=.
under eq_sumf do rewrite sumf_mulr.
rewrite sumf_exch; apply: eq_sumf => p _; case: (ta); rewrite sumf_mull; apply: eq_sumf => q _; by rewrite mulrA.
Qed.
Theorem C41_mm_add x y z (ta tb : bool) : ewf x -> ewf y -> ewf z -> fits (EMM ta tb x (EAdd y z)) ->
  safe (EMM ta tb x (EAdd y z)) -> safe (EAdd (EMM ta tb x y) (EMM ta tb x z)) ->
  same (EMM ta tb x (EAdd y z)) (EAdd (EMM ta tb x y) (EMM ta tb x z)).
Proof.
move=> w1 w2 w3 /[dup] f /= /and4P[f1 /and5P[f2 f3 /eqP e1 /eqP e2 o] /eqP e3 o'] s s'.
have o3 : bcok (ebatch x) (ebatch y) by case/bcokP: o' => u u1; rewrite bto_bct // => /andP[u2 u3]; exact: bcok_ub u1 u2.
have o4 : bcok (bct (ebatch x) (ebatch y)) (ebatch z).
  by case/bcokP: o' => u u1; rewrite bto_bct // => /andP[u2 u3]; apply: (@bcok_ub u); rewrite ?bto_bct ?u1.
have [_ _ o5 _ [o6 E]] := bcA o3 o4.
apply: same_of => //=; rewrite ?f1 ?f2 ?f3 ?e3 -?e1 -?e2 ?eqxx ?o3 ?o5 //=.
by move=> be i j _ _ _; rewrite -sumf_add; apply: eq_sumf => p _; rewrite -mulrDr; case: (tb).
Qed.
Theorem C41_add_mm x y z (ta tb : bool) : ewf x -> ewf y -> ewf z -> fits (EMM ta tb (EAdd x y) z) ->
  safe (EMM ta tb (EAdd x y) z) -> safe (EAdd (EMM ta tb x z) (EMM ta tb y z)) ->
  same (EMM ta tb (EAdd x y) z) (EAdd (EMM ta tb x z) (EMM ta tb y z)).
Proof.
move=> w1 w2 w3 /[dup] f /= /and4P[/and5P[f1 f2 /eqP e1 /eqP e2 o] f3 /eqP e3 o'] s s'.
have [o3 _ o4 E [_ _]] := bcA o o'.
have o6 : bcok (bct (ebatch x) (ebatch z)) (bct (ebatch y) (ebatch z)).
  case/bcokP: o' => u; rewrite bto_bct // => /andP[u1 u2] u3; apply: (@bcok_ub u); by rewrite bto_bct ?u1 ?u2.
apply: same_of => //=; rewrite ?f1 ?f2 ?f3 -?e1 -?e2 ?e3 ?eqxx ?o3 ?o4 //=.
- by apply: bto_ext => u; rewrite !bto_bct //; case: (bto _ u); case: (bto (ebatch y) u); rewrite ?andbF ?andbb.
- move=> be i j _ _ _; rewrite -sumf_add; apply: eq_sumf => p _; rewrite -mulrDl; by case: (ta).
Qed.
Theorem C41_mm_transpose x y (ta tb : bool) : ewf x -> ewf y -> fits (EMM ta tb x y) -> safe (EMM ta tb x y) ->
  same (ET (EMM ta tb x y)) (EMM (~~ tb) (~~ ta) y x).
Proof.
move=> w1 w2 /[dup] f /= /and4P[f1 f2 /eqP e1 o] /[dup] s /and3P[s1 s2 k].
apply: same_of => //=; rewrite ?f1 ?f2 ?s1 ?s2 1?orbC // ?if_neg ?e1 ?eqxx 1?bcokC //; first exact: bctC.
move=> be i j _ _ _; rewrite ?if_neg; apply: eq_sumf => p _; rewrite mulrC; by case: (ta); case: (tb).
Qed.
Theorem C41_transpose x : ewf x -> fits x -> safe x -> same (ET (ET x)) x.
Proof. by move=> w f s; apply: same_of. Qed.
Theorem C41_transpose_add x y : ewf x -> ewf y -> fits (EAdd x y) -> safe (EAdd x y) -> same (ET (EAdd x y)) (EAdd (ET x) (ET y)).
Proof. by move=> w1 w2 /[dup] f /= /and5P[f1 f2 e1 e2 o] s; apply: same_of => //=; rewrite f1 f2 e1 e2 o. Qed.
Theorem C41_sub x y : ewf x -> ewf y -> fits (ESub x y) -> safe (ESub x y) -> same (ESub x y) (EAdd x (ENeg y)).
Proof. by move=> w1 w2 /[dup] f /= /and5P[f1 f2 e1 e2 o] s; apply: same_of => //=; rewrite f1 f2 e1 e2 o. Qed.
Theorem C41_sub_self x : ewf x -> fits x -> safe x -> same (ESub x x) (EScale DInt 0 x).
Proof.
by move=> w f s; apply: same_of => //=; rewrite ?f ?s ?eqxx ?bcokss ?bctss //= => be i j _ _ _; rewrite subrr mul0r.
Qed.
Theorem C41_scale_add d v x y : ewf x -> ewf y -> fits (EAdd x y) -> safe (EAdd x y) ->
  same (EScale d v (EAdd x y)) (EAdd (EScale d v x) (EScale d v y)).
Proof. by move=> w1 w2 f s; apply: same_of => //= be i j _ _ _; rewrite mulrDr. Qed.
End PropsExpr.
Print Assumptions C39_expression. Print Assumptions C39_expression_dense.
Print Assumptions C41_add_comm. Print Assumptions C41_add_assoc. Print Assumptions C41_mul_comm. Print Assumptions C41_mul_assoc.
Print Assumptions C41_mul_add. Print Assumptions C41_mm_assoc. Print Assumptions C41_mm_add. Print Assumptions C41_add_mm.
Print Assumptions C41_mm_transpose. Print Assumptions C41_transpose. Print Assumptions C41_transpose_add. Print Assumptions C41_sub.
Print Assumptions C41_sub_self. Print Assumptions C41_scale_add.

(** The hypotheses can be met: (L * W + 3 W)^T @ (W - D) with a batch of triangular matrices L, a Woodbury matrix W, a diagonal D. *)
Example C39_ex (F : rcfType) : let e := EMM true false (EAdd (EMul (Leaf (s_lt F)) (Leaf (s_wb F))) (EScale DInt 3%:R (Leaf (s_wb F))))
    (ESub (Leaf (s_wb F)) (Leaf (s_wb F))) in [/\ ewf e, fits e & safe e].
Proof. by split=> //=; split=> //; split=> //; split=> //; exact: s_lt_wf. Qed.
(** With a Kronecker product in a matrix product. *)
Example C41_ex (F : rcfType) : let e := EMM false true (EAdd (Leaf (s_kron F)) (Leaf (s_kron F))) (Leaf (s_dense4 F)) in
  [/\ ewf e, fits e & safe e].
Proof. by split=> //; split=> //; split; exact: s_kron_wf. Qed.
