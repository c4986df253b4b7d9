(** * The core operations are correct at every recursion depth (proof support) *)
From mathcomp Require Import all_ssreflect all_algebra.
From Verif Require Import Outcome Monad Shape Tensor Mat Dispatch LookThy Ops Spec ShapeThy TensorThy MatThy OpsOk DenseOk AddOk LrAddOk MulOk MmOk MmLrOk.
Set Implicit Arguments. Unset Strict Implicit. Unset Printing Implicit Defensive.
Import GRing.Theory.
Local Open Scope ring_scope.

Section OpsMain.
Variable F : rcfType.
Notation tensor := (tensor F).
Notation mat := (mat F).

Lemma resm_to_matrix (a b : mat) ta tb c : wf a -> wf b ->
  mcolst a ta = mrowst b tb -> bcok (mbatch a) (mbatch b) ->
  resm (to_matrix a) (to_matrix b) ta tb c -> resm a b ta tb c.
Proof.
move=> wa wb e o; have [[wA [ra ca] ba ea] _ _ _ _] := to_matrix_ok (or_introl wa).
have [[wB [rb cb] bb eb] _ _ _ _] := to_matrix_ok (or_introl wb).
rewrite /resm /mcolst /mrowst ra ca ba rb cb bb => h; apply: res_ext h _ => be i j.
rewrite okb_bct // => /andP[o1 o2] hi hj; apply: eq_sumf => p hp; rewrite /entt; congr (_ * _).
  by case: (ta) hi hp => hi hp; rewrite ea.
by move: hp; rewrite -/(mcolst a ta) e /mrowst; case: (tb) hj => hj hp; rewrite eb.
Qed.
Lemma mm_side_to_matrix (a b : mat) ta tb : mm_side a b ta tb -> wf a -> wf b ->
  mm_side (to_matrix a) (to_matrix b) ta tb.
Proof.
case: a => [x|? ? ? ?|?|?|? ? ?|?|?|? ? ?|? ? ? ?|? ?]; case: b => [y|? ? ? ?|?|?|? ? ?|?|?|? ? ?|? ? ? ?|? ?] sd wa wb; try exact: sd;
  rewrite /to_matrix /convert_num.
all: by repeat case: (sh _) => [|? ?]; repeat case: (_ == 0).
Qed.

Theorem mm_ok self (a b : mat) ta tb : ops_ok self -> wf a -> wf b -> mcolst a ta = mrowst b tb ->
  bcok (mbatch a) (mbatch b) -> mm_side a b ta tb ->
  hoare (matmul_step self a b ta tb) (fun c => resm a b ta tb c /\ (kfree a || kfree b -> kfree c)).
Proof.
move=> ok wa wb e o sd.
have [[ta' tb']|tt] : (tag a = 0%N /\ tag b = 0%N) \/ (tag a != 0%N \/ tag b != 0%N).
  by case: (tag a); case: (tag b); auto.
- have [x ea] := tag0 ta'; have [y eb] := tag0 tb'; subst a b.
  have hx := tmat_num wa (or_introl erefl); have hy := tmat_num wb (or_introl erefl).
  apply: (hoare_bind (tmat_matmul hx hy o e)) => z hz; apply: hoare_ret; split=> //.
  by apply: res_num; apply: tmat_ext hz _.
have [ha ka na _ _] := to_matrix_ok (or_introl wa); have [hb kb nb _ _] := to_matrix_ok (or_introl wb).
have E : matmul_step self a b ta tb = do i <- lookup mm_table (ty_of_matrix (to_matrix a)) (ty_of_matrix (to_matrix b)); mm_body self i (to_matrix a) (to_matrix b) ta tb.
  case: a tt {wa e o sd ha ka na} => [?|? ? ? ?|?|?|? ? ?|?|?|? ? ?|? ? ? ?|? ?] tt; [|reflexivity..].
  case: b tt {wb hb kb nb} => [?|? ? ? ?|?|?|? ? ?|?|?|? ? ?|? ? ? ?|? ?] tt; [|reflexivity..]; by case: tt.
have wA : wf (to_matrix a) by case: ha. have wB : wf (to_matrix b) by case: hb.
have e' : mcolst (to_matrix a) ta = mrowst (to_matrix b) tb.
  by case: ha hb => _ [h1 h2] _ _ [_ [h3 h4] _ _]; rewrite /mcolst /mrowst h1 h2 h3 h4.
have o' : bcok (mbatch (to_matrix a)) (mbatch (to_matrix b)).
  by case: ha hb => _ _ -> _ [_ _ -> _].
have sd' := mm_side_to_matrix sd wa wb.
have H := mm_mat_ok ok wA wB na nb e' o' sd'; rewrite -E in H.
refine (hoare_conseq H _) => c [hc kc].
by split; [apply: resm_to_matrix|rewrite -ka -kb].
Qed.

Variable argsort : seq F -> seq nat.
Hypothesis argsort_perm : forall s, perm_eq (argsort s) (iota 0 (size s)).

Theorem ops_ok_n n : ops_ok (ops_n argsort n).
Proof.
elim: n => [|n ok]; first by split.
split=> /=.
- move=> a wa; exact: dense_ok.
- move=> a b wa wb w so sd; apply: add_ok => //.
  by move=> la ra ma lb rb mb w1 w2 s; apply: add_lr_lr_ok.
- move=> a b wa wb w so sd; exact: mul_ok.
- move=> a b ta tb wa wb e o sd; exact: mm_ok.
- move=> a wa; exact: sumax_ok.
- move=> a wa; exact: sumall_ok.
- move=> a wa d; exact: diag_ok.
Qed.
End OpsMain.
