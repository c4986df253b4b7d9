(** * Classes and matrix values of results (proof support) *)
From mathcomp Require Import all_ssreflect all_algebra.
From Verif Require Import Outcome Monad Shape Tensor Mat Dispatch Ops Spec ShapeThy TensorThy TensorThy2 MatThy OpsOk MulOk MmOk OpsMain Term Calm Api Bridge Ans PropsMm Types PropsStruct Ops2 PropsSum PropsExpr.
From Verif Require Import Backend SpecLA LinAlg MxThy.
Set Implicit Arguments. Unset Strict Implicit. Unset Printing Implicit Defensive.
Import GRing.Theory Num.Theory.
Local Open Scope ring_scope.

(** The class as which an operand takes part in a method call. *)
Definition cls F (a : mat F) : ty := if a is Nm _ then TDense else ty_of_matrix a.

Section ClsThy.
Variable F : rcfType.
Notation tensor := (tensor F).
Notation mat := (mat F).
Variable argsort : seq F -> seq nat.
Hypothesis perm : argsort_ok argsort.
Notation answers := (answers argsort).
Notation run n := (ops_n argsort n).

Lemma cls_ismat (a : mat) : ismat a -> cls a = ty_of_matrix a. Proof. by case: a. Qed.
Lemma wf_ns (t : tensor) : wf (Nm t) -> ns t.
Proof. by rewrite /= /wft /trank /ns; case: (sh t). Qed.
Definition nmd (a : mat) : mat := if a is Nm t then mk_dense t else a.
Lemma nmd_ismat a : ismat (nmd a). Proof. by case: a. Qed.
Lemma nmd_cls a : ty_of_matrix (nmd a) = cls a. Proof. by case: a. Qed.
Lemma nmd_nl a : nl a -> nl (nmd a). Proof. by case: a. Qed.
Definition nn (a b : mat) : bool := ~~ ismat a && ~~ ismat b.
Lemma mm_nmd n a b ta tb : wf a -> wf b -> ~~ nn a b -> o_matmul (run n) a b ta tb = o_matmul (run n) (nmd a) (nmd b) ta tb.
Proof.
move=> wa wb; rewrite /nn negb_and !negbK; case: a wa => [x|????|?|?|???|?|?|???|????|??] wa;
 case: b wb => [y|????|?|?|???|?|?|???|????|??] wb //= _; first [by rewrite mmNl // wf_ns|by rewrite mmNr // wf_ns].
Qed.
Lemma mm_cls n a b ta tb : wf a -> wf b ->
  rets (o_matmul (run n) a b ta tb) (fun _ c => ty_in (cls c) (mmt (trt (cls a) ta) (trt (cls b) tb))).
Proof.
move=> wa wb; case e: (nn a b).
  case: a wa e => //= x wa; case: b wb => //= y wb _; case: n => // n.
  by rewrite /= /matmul_step; apply: rets_bindT => ? ?; apply: rets_ret.
rewrite mm_nmd ?e //.
apply: rets_conseq (SP argsort n ta tb (nmd_ismat a) (nmd_ismat b) (nmd_nl (wf_nl wa)) (nmd_nl (wf_nl wb))) _ => l c.
by rewrite !nmd_cls => -[h1 [h2 _]]; rewrite cls_ismat.
Qed.
Lemma add_nmd n a b : wf a -> wf b -> ~~ nn a b -> o_add (run n) a b = o_add (run n) (nmd a) (nmd b).
Proof.
move=> wa wb; rewrite /nn negb_and !negbK; case: n => // n; case: a wa => [x|????|?|?|???|?|?|???|????|??] wa;
 case: b wb => [y|????|?|?|???|?|?|???|????|??] wb //= _; by rewrite /add_step /= conv_ns // wf_ns.
Qed.
Lemma add_cls n a b : wf a -> wf b ->
  rets (o_add (run n) a b) (fun _ c => ty_in (cls c) (addt (cls a) (cls b))).
Proof.
move=> wa wb; case e: (nn a b).
  case: a wa e => //= x wa; case: b wb => //= y wb _; case: n => // n.
  by rewrite /= /add_step; apply: rets_bindT => ? ?; apply: rets_ret.
rewrite add_nmd ?e //.
apply: rets_conseq (SA argsort n (nmd_ismat a) (nmd_ismat b)) _ => l c.
by rewrite !nmd_cls => -[h1 [h2 _]]; rewrite cls_ismat.
Qed.
Lemma ans_rets A (f : ops F -> outcome A) (P Q : A -> Prop) :
  answers f P -> (forall n, rets (f (run n)) (fun _ c => Q c)) -> answers f (fun c => P c /\ Q c).
Proof. by move=> h H; apply: answers_fact h _ => n l c e; move: (H n); rewrite e. Qed.

(** ** Products, sums *)
Lemma ans_mm_mx x y n p m bx by' (X : seq nat -> 'M[F]_(n, p)) (Y : seq nat -> 'M[F]_(p, m)) :
  is_mx x bx X -> is_mx y by' Y -> bcok bx by' -> mm_side x y false false ->
  answers (fun o => o_matmul o x y false false) (fun z =>
    [/\ is_mx z (bct bx by') (fun be => X be *m Y be), kfree x || kfree y -> kfree z & ty_in (cls z) (mmt (cls x) (cls y))]).
Proof.
move=> hx hy ok sd; have [w1 w2] := (mx_ok hx, mx_ok hy).
apply: ans_conseq (ans_rets (ans_mm_res perm (mx_res hx) (mx_res hy) (ta := false) (tb := false) erefl ok sd)
  (fun k => mm_cls k false false w1 w2)) _ => z [[hz k] t]; split=> //; last by case: (cls x) t; case: (cls y).
by apply: mx_ext (res_mx hz) _ => be hb; rewrite gmx_mul !gmx_mget.
Qed.
Lemma ans_mm_mx_tn x y n p m bx by' (X : seq nat -> 'M[F]_(p, n)) (Y : seq nat -> 'M[F]_(p, m)) :
  is_mx x bx X -> is_mx y by' Y -> bcok bx by' -> mm_side x y true false ->
  answers (fun o => o_matmul o x y true false) (fun z =>
    [/\ is_mx z (bct bx by') (fun be => (X be)^T *m Y be), kfree x || kfree y -> kfree z & ty_in (cls z) (mmt (trt (cls x) true) (cls y))]).
Proof.
move=> hx hy ok sd; have [w1 w2] := (mx_ok hx, mx_ok hy).
apply: ans_conseq (ans_rets (ans_mm_res perm (mx_res hx) (mx_res hy) (ta := true) (tb := false) erefl ok sd)
  (fun k => mm_cls k true false w1 w2)) _ => z [[hz k] t]; split=> //; last by case: (cls x) t; case: (cls y).
by apply: mx_ext (res_mx hz) _ => be hb; rewrite gmx_mul gmx_tr !gmx_mget.
Qed.
Lemma ans_add_mx x y n m bx by' (X Y : seq nat -> 'M[F]_(n, m)) :
  is_mx x bx X -> is_mx y by' Y -> bcok bx by' ->
  answers (fun o => o_add o x y) (fun z =>
    [/\ is_mx z (bct bx by') (fun be => X be + Y be), kfree x -> kfree y -> kfree z & ty_in (cls z) (addt (cls x) (cls y))]).
Proof.
move=> hx hy ok; have [w1 w2] := (mx_ok hx, mx_ok hy).
apply: ans_conseq (ans_rets (ans_add_rese perm (mx_res hx) (mx_res hy) ok) (fun k => add_cls k w1 w2)) _ => z [[hz k] t]; split=> //.
by apply: mx_ext (res_mx hz) _ => be hb; rewrite gmx_add !gmx_mget.
Qed.
(** [mm r^T d l] in either order. *)
Lemma ans_mm3_mx r d l n p q br bd bl (R : seq nat -> 'M[F]_(n, q)) (D : seq nat -> 'M[F]_n) (L : seq nat -> 'M[F]_(n, p)) :
  is_mx r br R -> is_mx d bd D -> is_mx l bl L -> bcok br bd -> bcok (bct br bd) bl -> kfree d ->
  answers (fun o => mm3 o r d l true false false) (fun z =>
    [/\ is_mx z (bct (bct br bd) bl) (fun be => (R be)^T *m D be *m L be), kfree z &
    (has (fun t => ty_in (cls z) (mmt t (cls l))) (mmt (trt (cls r) true) (cls d)) ||
     has (fun t => ty_in (cls z) (mmt (trt (cls r) true) t)) (mmt (cls d) (cls l)))]).
Proof.
move=> hr hd hl o1 o2 kd; have [[w1 w2] w3] := (mx_ok hr, mx_ok hd, mx_ok hl).
have hs t t' s : ty_in t s -> ty_in t' (mmt t (cls l)) -> has (fun t => ty_in t' (mmt t (cls l))) s.
  elim: s => //= u s IH /orP[/tyP<- ->//|h1 h2]; by rewrite IH ?orbT.
have hs' t t' s : ty_in t s -> ty_in t' (mmt (trt (cls r) true) t) -> has (fun t => ty_in t' (mmt (trt (cls r) true) t)) s.
  elim: s => //= u s IH /orP[/tyP<- ->//|h1 h2]; by rewrite IH ?orbT.
apply: ans_ext (_ : forall o, (if (mcols r * mrows r * mcols d + mcols r * mcols d * mcols l <= mrows d * mcols d * mcols l + mcols r * mrows d * mcols l)%N then
    do ab <- o_matmul o r d true false; o_matmul o ab l false false
  else do bc <- o_matmul o d l false false; o_matmul o r bc true false) = _) _.
  by move=> o; rewrite /mm3 !shape_matrixE // !bind_ret.
set cnd := (_ <= _)%N; case: cnd.
  apply: ans_bind (ans_mm_mx_tn hr hd o1 (mm_side_kfree _ _ _)) _ => [|x [hx kx tx]]; first by rewrite kd orbT.
  apply: ans_conseq (ans_mm_mx hx hl o2 (mm_side_kfree _ _ _)) _ => [|z [hz kz tz]].
    by rewrite kx ?kd ?orbT.
  split=> //; first by rewrite kz // kx // kd orbT.
  by rewrite (hs _ _ _ tx tz).
have [o3 o4] : bcok bd bl /\ bcok br (bct bd bl).
  case/bcokP: o2 => u; rewrite bto_bct // => /andP[u1 u2] u3; have o3 := bcok_ub u2 u3; split=> //.
  by apply: (@bcok_ub u) => //; rewrite bto_bct // u2.
apply: ans_bind (ans_mm_mx hd hl o3 (mm_side_kfree _ _ _)) _ => [|x [hx kx tx]]; first by rewrite kd.
apply: ans_conseq (ans_mm_mx_tn hr hx o4 (mm_side_kfree _ _ _)) _ => [|z [hz kz tz]].
  by rewrite kx ?kd ?orbT.
split; last by rewrite (hs' _ _ _ tx tz) orbT.
  apply: mx_cast hz _ _ => [|be _]; last by rewrite mulmxA.
  by apply: bto_ext => u; rewrite !bto_bct // andbA.
by rewrite kz // kx ?kd ?orbT.
Qed.
End ClsThy.
