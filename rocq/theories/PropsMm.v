(** * C06, C35: three-factor products; termination

    See the header of PropsCore.v for how to read the statements. *)
From mathcomp Require Import all_ssreflect all_algebra.
From Verif Require Import Outcome Monad Shape Tensor Mat Dispatch Ops Spec ShapeThy TensorThy MatThy OpsOk OpsMain LookThy Term Term2 Term5 Exact Exact2 Calm Api Bridge Ans.
From Verif Require Import Samples.
Set Implicit Arguments. Unset Strict Implicit. Unset Printing Implicit Defensive.
Import GRing.Theory.
Local Open Scope ring_scope.

Section Mm.
Variable F : rcfType.
Notation tensor := (tensor F).
Notation mat := (mat F).
Variable argsort : seq F -> seq nat.
Hypothesis perm : argsort_ok argsort.
Notation run n := (ops_n argsort n).
Notation answers := (answers argsort).
Notation returns := (returns argsort).
Implicit Types a b c d : mat.

(** ** Products of Kronecker products are Kronecker products (proof support) *)
Fixpoint kres a b (ta tb : bool) c {struct a} : Prop :=
  resm a b ta tb c /\
  match a, b with
  | Kron la ra, Kron lb rb => exists l r, [/\ c = Kron l r, kres la lb ta tb l & kres ra rb ta tb r]
  | _, _ => kfree c
  end.
Lemma kres_resm a b ta tb c : kres a b ta tb c -> resm a b ta tb c.
Proof. by case: a => >; case. Qed.
Lemma wf_kfree a : wf a -> kfree a = ~~ (if a is Kron _ _ then true else false).
Proof. by case: a => //= [l r m []|d l r m [[]]]. Qed.
Lemma comp_res a b (ta tb : bool) : wf a -> wf b -> mcolst a ta == mrowst b tb -> assert_composable a b ta tb = ret tt.
Proof.
move=> wa wb h; rewrite /assert_composable /shape_matrix_tr !shape_matrixE // !bind_ret /require.
by move: h; rewrite /mcolst /mrowst; case: ta; case: tb => /= ->.
Qed.
Lemma mm_kres n a b (ta tb : bool) : wf a -> wf b -> mcolst a ta = mrowst b tb ->
  bcok (mbatch a) (mbatch b) -> mm_side a b ta tb -> hoare (o_matmul (run n) a b ta tb) (kres a b ta tb).
Proof.
elim: a n b => [t|dd bb r c|t|t|t r c|t|t|l IHl r IHr m IHm|dd l IHl r IHr m IHm|l IHl r IHr] n b wa wb e o sd.
10: { case: b wb e o sd => [t'|? ? ? ?|t'|t'|? ? ?|t'|t'|? ? ?|? ? ? ?|lb rb] wb e o sd.
10: { have h1 := ok_mm (ops_ok_n perm n) wa wb e o sd.
  suff h2 : hoare (o_matmul (run n) (Kron l r) (Kron lb rb) ta tb)
     (fun c => exists x y, [/\ c = Kron x y, kres l lb ta tb x & kres r rb ta tb y]).
    by apply: hoare_conseq (hoare_and h1 h2) _ => c [[p _] q].
  case: n {h1} => [|n]; first exact: hoare_raise.
  change (o_matmul (run n.+1)) with (matmul_step (run n)).
  rewrite /matmul_step /to_matrix /ty_of_matrix mm_selE [selof _ _ _]/= bind_ret /mm_body.
  case/and4P: sd => s1 s2 s3 s4; case: wa wb => wl wr ho [wlb wrb ho'].
  have [o1 o2] : bcok (mbatch l) (mbatch lb) /\ bcok (mbatch r) (mbatch rb).
    case/bcokP: o => u; rewrite /= !bto_bct // => /andP[u1 u2] /andP[u3 u4].
    by split; [exact: bcok_ub u1 u3|exact: bcok_ub u2 u4].
  rewrite comp_res // bind_ret comp_res // bind_ret.
  apply: (hoare_bind (IHl n lb wl wlb (eqP s1) o1 s3)) => x hx.
  apply: (hoare_bind (IHr n rb wr wrb (eqP s2) o2 s4)) => y hy.
  by apply: hoare_ret; exists x, y. }
all: by apply: hoare_conseq (ok_mm (ops_ok_n perm n) wa wb e o sd) _ => z [hz k]; split=> //; apply: k; rewrite (wf_kfree wb) ?orbT. }
all: by apply: hoare_conseq (ok_mm (ops_ok_n perm n) wa wb e o sd) _ => z [hz k]; split=> //; apply: k; rewrite (wf_kfree wa).
Qed.
Lemma ans_mmk a b (ta tb : bool) : wf a -> wf b -> mcolst a ta = mrowst b tb ->
  bcok (mbatch a) (mbatch b) -> mm_side a b ta tb -> answers (fun o => o_matmul o a b ta tb) (kres a b ta tb).
Proof.
move=> w1 w2 s1 s2 s3; apply: (@ans_core _ _ _ _ _ (fu_mm a b ta tb)) => [n|n k|]; first exact: mm_kres.
  exact (le_mm (ople_n argsort n k) _ _ _ _).
exact (thnrec (tk_mm (tm_n argsort _) (wf_gd w1) (wf_gd w2) (leqnn _))).
Qed.
Lemma kres_side a b c d (ta tb td : bool) : kres a b ta tb c -> mm_side b d tb td -> mm_side c d false td.
Proof.
elim: a b c d => [t|dd bb r' c'|t|t|t r' c'|t|t|l IHl r IHr m IHm|dd l IHl r IHr m IHm|l IHl r IHr] b c d;
  try by case=> _ k _; apply: mm_side_kfree; rewrite k.
case: b => [?|? ? ? ?|?|?|? ? ?|?|?|? ? ?|? ? ? ?|lb rb]; try by case=> _ k _; apply: mm_side_kfree; rewrite k.
case=> _ [x [y [-> hx hy]]]; case: d => // ld rd; case/and4P=> h1 h2 h3 h4; apply/and4P.
have [_ [_ e1] _ _] := kres_resm hx; have [_ [_ e2] _ _] := kres_resm hy.
have i3 := IHl _ _ _ hx h3; have i4 := IHr _ _ _ hy h4.
have i1 : mcols x == mrowst ld td by rewrite e1.
by have i2 : mcols y == mrowst rd td by rewrite e2.
Qed.
Lemma kres_side' a b c d (ta tb tc : bool) : kres b c tb tc d -> mm_side a b ta tb -> mm_side a d ta false.
Proof.
elim: b a c d => [t|dd bb r' c'|t|t|t r' c'|t|t|l IHl r IHr m IHm|dd l IHl r IHr m IHm|l IHl r IHr] a c d;
  try by case=> _ k _; apply: mm_side_kfree; rewrite k orbT.
case: c => [?|? ? ? ?|?|?|? ? ?|?|?|? ? ?|? ? ? ?|lc rc]; try by case=> _ k _; apply: mm_side_kfree; rewrite k orbT.
case=> _ [x [y [-> hx hy]]]; case: a => // la ra; case/and4P=> h1 h2 h3 h4; apply/and4P.
have [_ [e1 _] _ _] := kres_resm hx; have [_ [e2 _] _ _] := kres_resm hy.
have i3 := IHl _ _ _ hx h3; have i4 := IHr _ _ _ hy h4.
have i1 : mcolst la ta == mrows x by rewrite e1.
by have i2 : mcolst ra ta == mrows y by rewrite e2.
Qed.

(** ** C06 *)
Definition num3 (x y z : tensor) (tx ty tz : bool) : outcome tensor :=
  do xy <- t_matmul x y tx ty; t_matmul xy z false tz.
Lemma mm3_res a b c (ta tb tc : bool) : wf a -> wf b -> wf c ->
  mcolst a ta = mrowst b tb -> mcolst b tb = mrowst c tc ->
  bcok (mbatch a) (mbatch b) -> bcok (bct (mbatch a) (mbatch b)) (mbatch c) ->
  mm_side a b ta tb -> mm_side b c tb tc ->
  answers (fun o => mm3 o a b c ta tb tc) (fun d =>
    is_res d (mrowst a ta) (mcolst c tc) (bct (bct (mbatch a) (mbatch b)) (mbatch c))
     (fun be i j => sumf (mcolst b tb) (fun q => sumf (mcolst a ta) (fun p => entt a ta be i p * entt b tb be p q) * entt c tc be q j))).
Proof.
move=> wa wb wc e1 e2 o1 o2 s1 s2.
apply: ans_ext (_ : forall o, (let '(ar, ac) := (mrowst a ta, mcolst a ta) in let '(br, bc) := (mrowst b tb, mcolst b tb) in
  let '(_, cc) := (mrowst c tc, mcolst c tc) in
  if (ar * ac * bc + ar * bc * cc <= br * bc * cc + ar * br * cc)%N then
    do ab <- o_matmul o a b ta tb; o_matmul o ab c false tc
  else do bc <- o_matmul o b c tb tc; o_matmul o a bc ta false) = _) _.
  move=> o; rewrite /mm3 !shape_matrixE // !bind_ret /mrowst /mcolst; by case: (ta); case: (tb); case: (tc).
rewrite /=; set cnd := (_ <= _)%N; case: cnd.
  apply: ans_bind (ans_mmk wa wb e1 o1 s1) _ => x hx; have hr := kres_resm hx.
  have wc' := res_wf wc.
  apply: ans_conseq (ans_mm_res (tb := tc) perm (ta := false) hr wc' e2 o2 (kres_side hx s2)) _ => d [hd _].
  apply: res_ext hd _ => be i j hb hi hj; rewrite /= -/(mcolst c tc); apply: eq_sumf => q hq.
  by rewrite /entt; case: (tc).
have [o3 o4] : bcok (mbatch b) (mbatch c) /\ bcok (mbatch a) (bct (mbatch b) (mbatch c)).
  case/bcokP: o2 => u; rewrite bto_bct // => /andP[u1 u2] u3; have o3 := bcok_ub u2 u3; split=> //.
  by apply: (@bcok_ub u) => //; rewrite bto_bct // u2.
apply: ans_bind (ans_mmk wb wc e2 o3 s2) _ => x hx; have hr := kres_resm hx.
apply: ans_conseq (ans_mm_res (ta := ta) (tb := false) perm (res_wf wa) hr e1 o4 (kres_side' hx s1)) _ => d [hd _].
apply: res_cast hd _ _ => [|be i j hb hi hj].
  by apply: bto_ext => u; rewrite !bto_bct // andbA.
rewrite -/(mcolst a ta) (eq_sumf (g := fun p => sumf (mcolst b tb) (fun q => entt a ta be i p * (entt b tb be p q * entt c tc be q j)))).
  by rewrite sumf_exch; apply: eq_sumf => q _; rewrite sumf_mulr; apply: eq_sumf => p _; rewrite mulrA.
by move=> p hp; rewrite -sumf_mull /entt; case: (ta).
Qed.
Lemma num3_ok a b c (ta tb tc : bool) : wf a -> wf b -> wf c ->
  mcolst a ta = mrowst b tb -> mcolst b tb = mrowst c tc ->
  bcok (mbatch a) (mbatch b) -> bcok (bct (mbatch a) (mbatch b)) (mbatch c) ->
  hoare (num3 (den a) (den b) (den c) ta tb tc) (fun z =>
    tmat z (mrowst a ta) (mcolst c tc) (bct (bct (mbatch a) (mbatch b)) (mbatch c))
     (fun be i j => sumf (mcolst b tb) (fun q => sumf (mcolst a ta) (fun p => entt a ta be i p * entt b tb be p q) * entt c tc be q j))).
Proof.
move=> wa wb wc e1 e2 o1 o2.
apply: (hoare_bind (tmat_matmul (den_tmat wa) (den_tmat wb) o1 e1)) => x hx.
exact: (@tmat_matmul _ x (den c) false tc _ _ _ _ _ _ _ _ hx (den_tmat wc) o2 e2).
Qed.
Theorem C06_matmul3 a b c (ta tb tc : bool) : wf a -> wf b -> wf c ->
  mcolst a ta = mrowst b tb -> mcolst b tb = mrowst c tc ->
  bcok (mbatch a) (mbatch b) -> bcok (bct (mbatch a) (mbatch b)) (mbatch c) ->
  mm_side a b ta tb -> mm_side b c tb tc ->
  answers (fun o => mm3 o a b c ta tb tc)
    (fun d => wf d /\ is_value (num3 (den a) (den b) (den c) ta tb tc) (den d)).
Proof.
move=> wa wb wc e1 e2 o1 o2 s1 s2; apply: ans_conseq (mm3_res wa wb wc e1 e2 o1 o2 s1 s2) _ => d hd.
split; first by case: hd.
apply: value_tmat (num3_ok wa wb wc e1 e2 o1 o2) (res_tmat hd).
by apply: calm_bind => [|?]; apply: cm_matmul.
Qed.
(** Both associations give the same matrix. *)
Theorem C06_associative a b c (ta tb tc : bool) : wf a -> wf b -> wf c ->
  mcolst a ta = mrowst b tb -> mcolst b tb = mrowst c tc ->
  bcok (mbatch a) (mbatch b) -> bcok (bct (mbatch a) (mbatch b)) (mbatch c) ->
  mm_side a b ta tb -> mm_side b c tb tc ->
  answers (fun o => do ab <- o_matmul o a b ta tb; do x <- o_matmul o ab c false tc;
                    do bc <- o_matmul o b c tb tc; do y <- o_matmul o a bc ta false; ret (x, y))
    (fun p => teq (den p.1) (den p.2)).
Proof.
move=> wa wb wc e1 e2 o1 o2 s1 s2.
have [o3 o4] : bcok (mbatch b) (mbatch c) /\ bcok (mbatch a) (bct (mbatch b) (mbatch c)).
  case/bcokP: o2 => u; rewrite bto_bct // => /andP[u1 u2] u3; have o3 := bcok_ub u2 u3; split=> //.
  by apply: (@bcok_ub u) => //; rewrite bto_bct // u2.
apply: ans_bind (ans_mmk wa wb e1 o1 s1) _ => ab hab; have hr := kres_resm hab.
apply: ans_bind (ans_mm_res (tb := tc) perm (ta := false) hr (res_wf wc) e2 o2 (kres_side hab s2)) _ => x [hx _].
apply: ans_bind (ans_mmk wb wc e2 o3 s2) _ => bc hbc; have hr' := kres_resm hbc.
apply: ans_bind (ans_mm_res (ta := ta) (tb := false) perm (res_wf wa) hr' e1 o4 (kres_side' hbc s1)) _ => y [hy _].
apply: ans_ret => /=; apply: tmat_teq (res_tmat hx) (res_tmat _); apply: res_cast hy _ _ => [|be i j hb hi hj].
  by apply: bto_ext => u; rewrite !bto_bct // andbA.
rewrite /= -/(mcolst a ta) (eq_sumf (g := fun p => sumf (mcolst b tb) (fun q => entt a ta be i p * (entt b tb be p q * entt c tc be q j)))).
  rewrite sumf_exch; apply: eq_sumf => q _; rewrite sumf_mulr -[if tc then _ else _]/(entt c tc be q j).
  by apply: eq_sumf => p _; rewrite mulrA.
by move=> p hp; rewrite -sumf_mull /entt; case: (ta).
Qed.

(** ** C35: every call of a core operation ends *)
(** With every sufficiently large recursion limit the call has the same
    outcome, and that is not the error of exceeding the limit. *)
Definition ends A (f : ops F -> outcome A) : Prop :=
  exists l, (exists c : A, settles argsort f (Ret l c)) \/ (exists e, settles argsort f (RaiseL l e) /\ e <> RecursionError).
Lemma ends_core A (f : ops F -> outcome A) n0 :
  (forall n k, ole (f (run n)) (f (run (n + k)))) -> nrec (f (run n0)) -> ends f.
Proof.
move=> hm hr; have := settle_core hm hr; move: hr; case: (f (run n0)) => [l c|l e] /= hr hs; exists l.
  by left; exists c.
by right; exists e; split=> // E; move: hr; rewrite E.
Qed.
(** [gd a] (Term.v): the numeric data in [a] are not scalars.  Shapes need not
    match and triangular types need not be triangular. *)
Theorem C35_terminates a b (ta tb ax : bool) : gd a -> gd b ->
  [/\ ends (fun o => o_dense o a), ends (fun o => o_add o a b), ends (fun o => o_mul o a b),
      ends (fun o => o_matmul o a b ta tb) &
  [/\ ends (fun o => o_sumax o a ax), ends (fun o => o_sumall o a) & ends (fun o => o_diag o a)]].
Proof.
move=> ga gb; have le n k := ople_n argsort n k.
have gab : gd a || gd b by rewrite ga.
split; [| | | |split].
- apply: (@ends_core _ _ (fu_1 a)) => [n k|]; [exact (le_dense (le n k) _)|exact (thnrec (tk_dense (tm_n argsort _) ga (leqnn _)))].
- apply: (@ends_core _ _ (fu_add a b)) => [n k|]; [exact (le_add (le n k) _ _)|].
  exact (thnrec (tk_add (tm_n argsort _) (gd_gdo ga) (gd_gdo gb) gab (leqnn _))).
- apply: (@ends_core _ _ (fu_mul a b)) => [n k|]; [exact (le_mul (le n k) _ _)|].
  exact (thnrec (tk_mul (tm_n argsort _) (gd_gdo ga) (gd_gdo gb) gab (leqnn _))).
- apply: (@ends_core _ _ (fu_mm a b ta tb)) => [n k|]; [exact (le_mm (le n k) _ _ _ _)|].
  exact (thnrec (tk_mm (tm_n argsort _) ga gb (leqnn _))).
- apply: (@ends_core _ _ (fu_1 a)) => [n k|]; [exact (le_sumax (le n k) _ _)|exact: (tk_sumax (tm_n argsort _) _ ga (leqnn _))].
- apply: (@ends_core _ _ (fu_1 a)) => [n k|]; [exact (le_sumall (le n k) _)|exact: (tk_sumall (tm_n argsort _) ga (leqnn _))].
- apply: (@ends_core _ _ (fu_1 a)) => [n k|]; [exact (le_diag (le n k) _)|exact: (tk_diag (tm_n argsort _) ga (leqnn _))].
Qed.
Theorem C35_terminates_wf a b (ta tb ax : bool) : wf a -> wf b ->
  [/\ ends (fun o => o_dense o a), ends (fun o => o_add o a b), ends (fun o => o_mul o a b),
      ends (fun o => o_matmul o a b ta tb) &
  [/\ ends (fun o => o_sumax o a ax), ends (fun o => o_sumall o a) & ends (fun o => o_diag o a)]].
Proof. by move=> wa wb; apply: C35_terminates; apply: wf_gd. Qed.
End Mm.

Print Assumptions C06_matmul3. Print Assumptions C06_associative.
Print Assumptions C35_terminates. Print Assumptions C35_terminates_wf.

(** The hypotheses can be met. *)
Example C06_ex (F : rcfType) :
  let a := s_kron F in [/\ wf a, mcolst a true = mrowst a false, mm_side a a true false & mm_side a a false false].
Proof. by split=> //; exact: s_kron_wf. Qed.
Example C35_ex (F : rcfType) : gd (s_wb F) && gd (s_kron F).
Proof. by []. Qed.
