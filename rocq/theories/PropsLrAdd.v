(** * C19: the sum of two low-rank matrices is low-rank, with shared columns *)
From mathcomp Require Import all_ssreflect all_algebra.
From Verif Require Import Outcome Monad Shape Tensor Mat Dispatch Ops Spec ShapeThy TensorThy TensorThy2 MatThy OpsOk DenseOk LookThy AddOk LrAddOk OpsMain MulLrOk Term Term2 Term5 Exact Exact2 Calm Api Bridge PropsAlign Samples Inhabited.
Set Implicit Arguments. Unset Strict Implicit. Unset Printing Implicit Defensive.
Import GRing.Theory.
Local Open Scope ring_scope.

Section LrAdd.
Variable F : rcfType.
Notation mat := (mat F).
Variable argsort : seq F -> seq nat.
Hypothesis perm : argsort_ok argsort.
Notation answers := (answers argsort).

(** [c] is low-rank with factors whose widths satisfy [P], [Q], or zero. *)
Definition lr_widths (P Q : nat -> Prop) (c : mat) : Prop :=
  match c with Zero _ _ _ _ => True | LR l r m => P (mcols l) /\ Q (mcols r) | _ => False end.

Section Self.
Variable self : ops F.
Hypothesis ok : ops_ok self.
Lemma its_le (its : seq item) n1 n2 : perm_eq (pmap fst its) (iota 0 n1) -> perm_eq (pmap snd its) (iota 0 n2) ->
  all (fun it : item => isSome it.1 || isSome it.2) its -> (size its <= n1 + n2)%N.
Proof.
move=> h1 h2 h3; have [] := vj_size (@al_of_valid n1 n2 (fun _ _ => True) its h1 h2 h3 (fun _ _ _ => I)).
by move=> _ _ _; rewrite /= size_map.
Qed.
Lemma add_lr_widths (P Q : nat -> Prop) la ra ma lb rb mb : wf (LR la ra ma) -> wf (LR lb rb mb) ->
  shapes_ok (LR la ra ma) (LR lb rb mb) ->
  hoare (align argsort self la lb) (fun x => P (size (al_a x))) ->
  hoare (align argsort self ra rb) (fun x => Q (size (al_a x))) ->
  hoare (add_lr_lr argsort self la ra ma lb rb mb) (lr_widths P Q).
Proof.
move=> wA wB so HP HQ; rewrite /add_lr_lr assert_shapesE // bind_ret.
have [[wla wra wma] [kla kra kma] [e1 e2] [b1 b2 b3]] := lr_facts wA.
have [[wlb wrb wmb] [klb krb kmb] [e3 e4] [b4 b5 b6]] := lr_facts wB.
case/and3P: (so) => o1 o2 o3.
set u := bct (mbatch (LR la ra ma)) (mbatch (LR lb rb mb)).
have uA : bto (mbatch (LR la ra ma)) u := bct_ubl o3.
have uB : bto (mbatch (LR lb rb mb)) u := bct_ubr o3.
move: (b1) (b2) (b3) (b4) (b5) (b6) => /bto_trans/(_ uA) c1 /bto_trans/(_ uA) c2 /bto_trans/(_ uA) c3 
  /bto_trans/(_ uB) c4 /bto_trans/(_ uB) c5 /bto_trans/(_ uB) c6.
have q1 : bcok (mbatch la) (mbatch lb) by okt u.
have q2 : bcok (mbatch ra) (mbatch rb) by okt u.
have q3 : bcok (mbatch ma) (mbatch mb) by okt u.
apply: (hoare_bind (hoare_and (align_ok perm ok wla wlb o1 q1) HP)) => _ [[its [-> h1 h2 h3 h4]] p1].
apply: (hoare_bind (hoare_and (align_ok perm ok wra wrb o2 q2) HQ)) => _ [[its' [-> h1' h2' h3' h4']] p2].
rewrite /= size_map in p1; rewrite /= size_map in p2.
apply: (join_side_ok ok wla wlb o1 q1 h1 h2) => jl hjl kjl.
apply: (join_side_ok ok wra wrb o2 q2 h1' h2') => jr hjr kjr.
have n0 := its_size h1 (mcols_gt0 wla); have n0' := its_size h1' (mcols_gt0 wra).
have -> : al_a (al_of its) = map oint (map fst its) by rewrite /= -map_comp.
have -> : al_a (al_of its') = map oint (map fst its') by rewrite /= -map_comp.
have -> : al_b (al_of its) = map oint (map snd its) by rewrite /= -map_comp.
have -> : al_b (al_of its') = map oint (map snd its') by rewrite /= -map_comp.
have i1 := its_bound h1; have i2 := its_bound h2; have i1' := its_bound h1'; have i2' := its_bound h2'.
rewrite e1 in i1; rewrite e2 in i1'; rewrite e3 in i2; rewrite e4 in i2'.
apply: (hoare_bind (pad_take2_ok ok wma _ _ i1 i1')); rewrite ?size_map // => am [ham nam].
apply: (hoare_bind (pad_take2_ok ok wmb _ _ i2 i2')); rewrite ?size_map // => bm [hbm nbm].
rewrite ?size_map in ham; rewrite ?size_map in hbm.
apply: (hoare_bind (add_rese ok ham hbm q3)) => jm [hjm kjm].
have {}kjm : kfree jm by apply: kjm; apply: numlike_kfree.
have v1 : bto (bct (mbatch la) (mbatch lb)) u by rewrite bto_bct // c1.
have v2 : bto (bct (mbatch ra) (mbatch rb)) u by rewrite bto_bct // c2.
have v3 : bto (bct (mbatch ma) (mbatch mb)) u by rewrite bto_bct // c3.
apply: (hoare_bind (mk_lowrank_res hjl hjr hjm kjl kjr kjm v1 v2 v3)) => lr [hlr [klr E]]; subst lr.
apply: (hoare_bind (dense_res ok hjm)) => t ht.
apply: hoare_mark => hz; case: ifP hz => iz' hz; last first.
  apply: hoare_ret; case: hjl hjr => _ [_ c1'] _ _ [_ [_ c2'] _ _] /=; by rewrite c1' c2'.
rewrite /zeros_of shape_ofE; last by case: hlr.
by rewrite bind_ret /mk_zero; apply: hoare_ret.
Qed.
End Self.

Lemma o_add_LR n la ra ma lb rb mb : o_add (ops_n argsort n.+1) (LR la ra ma) (LR lb rb mb) =
  add_lr_lr argsort (ops_n argsort n) la ra ma lb rb mb.
Proof. by rewrite /= /add_step /= add_selE /= bind_ret. Qed.

Lemma ans_lr_widths (P Q : nat -> Prop) (la ra ma lb rb mb : mat) : wf (LR la ra ma) -> wf (LR lb rb mb) ->
  bcok (mshape (LR la ra ma)) (mshape (LR lb rb mb)) ->
  (forall n, hoare (align argsort (ops_n argsort n) la lb) (fun x => P (size (al_a x)))) ->
  (forall n, hoare (align argsort (ops_n argsort n) ra rb) (fun x => Q (size (al_a x)))) ->
  answers (fun o => o_add o (LR la ra ma) (LR lb rb mb)) (fun c =>
    [/\ wf c, is_value (t_add (den (LR la ra ma)) (den (LR lb rb mb))) (den c) & lr_widths P Q c]).
Proof.
rewrite -shapes_bcok => wA wB so HP HQ.
set A := LR la ra ma; set B := LR lb rb mb.
have HH n : hoare (o_add (ops_n argsort n) A B) (fun c => res2 +%R A B c /\ lr_widths P Q c).
  case: n => [|n]; first exact: hoare_raise.
  rewrite /A /B o_add_LR; have okn := ops_ok_n perm n.
  apply: hoare_conseq (hoare_and (add_lr_lr_ok perm okn wA wB so) (add_lr_widths okn wA wB so (HP n) (HQ n))) _.
  by move=> c [[]].
have T : answers (fun o => o_add o A B) (fun c => res2 +%R A B c /\ lr_widths P Q c).
  apply: (@ans_core _ _ _ _ _ (fu_add A B)) => // [n k|].
    exact (le_add (ople_n argsort n k) _ _).
  exact (thnrec (tk_add (tm_n argsort _) (wfo_gdo (or_introl wA)) (wfo_gdo (or_introl wB)) (wf_gd2 (or_introl wA)) (leqnn _))).
apply: ans_conseq T _ => c [h1 h2]; split=> //; first by case: h1.
exact: value_map2 (or_introl wA) (or_introl wB) so h1.
Qed.

(** The sum is returned as a [LowRank] whose factors are at most as wide as those of both operands together, or
    as a [Zero]. *)
Theorem C19_add_lowrank (la ra ma lb rb mb : mat) : wf (LR la ra ma) -> wf (LR lb rb mb) ->
  bcok (mshape (LR la ra ma)) (mshape (LR lb rb mb)) ->
  answers (fun o => o_add o (LR la ra ma) (LR lb rb mb)) (fun c =>
    [/\ wf c, is_value (t_add (den (LR la ra ma)) (den (LR lb rb mb))) (den c) &
        lr_widths (fun w => w <= mcols la + mcols lb)%N (fun w => w <= mcols ra + mcols rb)%N c]).
Proof.
move=> wA wB so; apply: ans_lr_widths => // n; have okn := ops_ok_n perm n.
- have [[wla wra wma] _ _ [b1 b2 b3]] := lr_facts wA; have [[wlb wrb wmb] _ _ [b4 b5 b6]] := lr_facts wB.
  move: so; rewrite -shapes_bcok => /and3P[o1 o2 o3].
  have q1 : bcok (mbatch la) (mbatch lb).
    apply: (@bcok_ub (bct (mbatch (LR la ra ma)) (mbatch (LR lb rb mb)))); [exact: bto_trans b1 (bct_ubl o3)|exact: bto_trans b4 (bct_ubr o3)].
  apply: hoare_conseq (align_ok perm okn wla wlb o1 q1) _ => _ [its [-> h1 h2 h3 h4]].
  by rewrite /= size_map its_le.
- have [[wla wra wma] _ _ [b1 b2 b3]] := lr_facts wA; have [[wlb wrb wmb] _ _ [b4 b5 b6]] := lr_facts wB.
  move: so; rewrite -shapes_bcok => /and3P[o1 o2 o3].
  have q1 : bcok (mbatch ra) (mbatch rb).
    apply: (@bcok_ub (bct (mbatch (LR la ra ma)) (mbatch (LR lb rb mb)))); [exact: bto_trans b2 (bct_ubl o3)|exact: bto_trans b5 (bct_ubr o3)].
  apply: hoare_conseq (align_ok perm okn wra wrb o2 q1) _ => _ [its [-> h1 h2 h3 h4]].
  by rewrite /= size_map its_le.
Qed.

(** Two matrices with the same outer factors (their first batch elements agree) give a sum of the same width:
    every column is shared. *)
Definition same_first (a b : mat) : Prop :=
  [/\ mrows a = mrows b, mcols a = mcols b &
      forall i j, (i < mrows a)%N -> (j < mcols a)%N -> ent a (first_be a) i j = ent b (first_be b) i j].
Theorem C19_shared_columns (la ra ma lb rb mb : mat) : wf (LR la ra ma) -> wf (LR lb rb mb) ->
  bcok (mshape (LR la ra ma)) (mshape (LR lb rb mb)) -> same_first la lb -> same_first ra rb ->
  answers (fun o => o_add o (LR la ra ma) (LR lb rb mb)) (fun c =>
    [/\ wf c, is_value (t_add (den (LR la ra ma)) (den (LR lb rb mb))) (den c) &
        lr_widths (fun w => w = mcols la) (fun w => w = mcols ra) c]).
Proof.
move=> wA wB so [r1 c1 h1] [r2 c2 h2].
have [[wla wra wma] _ _ _] := lr_facts wA; have [[wlb wrb wmb] _ _ _] := lr_facts wB.
by apply: ans_lr_widths => // n; apply: align_self_ok => //; exact: ops_ok_n.
Qed.
End LrAdd.

(** ** The hypotheses can be met *)
Section Examples.
Variable F : rcfType.
Import Num.Theory Order.POrderTheory Order.TotalTheory.
(** Columns (1, 0), (0, 2) and (0, 2), (3, 0): columns 1 and 0 agree. *)
Definition al_ex (f : nat -> nat -> int) : mat F := Dense (Tensor DFloat64 [:: 2; 2]%N
  (fun idx => if idx is [:: j; i] then (f i j)%:~R else 0)).
Definition al_exa := al_ex (fun i j => if (i, j) == (0%N, 0%N) then 1 else if (i, j) == (1%N, 1%N) then 2%:Z else 0).
Definition al_exb := al_ex (fun i j => if (i, j) == (1%N, 0%N) then 2%:Z else if (i, j) == (0%N, 1%N) then 3%:Z else 0).
Lemma big2 (f : nat -> F) : \sum_(r < 2) f r = f 0%N + f 1%N.
Proof. by rewrite !big_ord_recl big_ord0 addr0. Qed.
Lemma exn f j : norm2 (al_ex f) j = (f 0%N j ^+ 2 + f 1%N j ^+ 2)%:~R.
Proof. by rewrite /norm2 (big2 (fun r => ent (al_ex f) (first_be (al_ex f)) r j ^+ 2)) rmorphD !rmorphX. Qed.
Lemma exc f g i j : close_cols (al_ex f) (al_ex g) i j -> (f 0%N i - g 0%N j) ^+ 2 + (f 1%N i - g 1%N j) ^+ 2 = 0.
Proof.
rewrite /close_cols (big2 (fun r => (ent (al_ex f) (first_be (al_ex f)) (cl 2 r) i - ent (al_ex g) (first_be (al_ex g)) (cl 2 r) j) ^+ 2)).
rewrite [X in X / _](_ : _ = ((f 0%N i - g 0%N j) ^+ 2 + (f 1%N i - g 1%N j) ^+ 2)%:~R); last by rewrite rmorphD !rmorphX !rmorphB.
set z := _ + _; have : 0 <= z by rewrite addr_ge0 // exprn_even_ge0.
case: z => // -[|n] // _; rewrite ltr_pdivr_mulr ?ltr0n // => h; exfalso; move: h; apply/negP; rewrite -leNgt.
apply: le_trans (_ : 1 <= _); last by rewrite -[1]/(1%:R) -pmulrn ler_nat.
rewrite mulrC ler_pdivr_mulr ?exprn_gt0 ?ltr0n // mul1r -natrX ler_nat.
exact (leq_trans (isT : (2 <= 10 ^ 1)%N) (@leq_pexp2l 10 1 10 isT isT)).
Qed.
Example C18_complete_ex : [/\ argsort_sorts (@an_argsort F), wf al_exa, wf al_exb,
  forall i i', (i < 2)%N -> (i' < 2)%N -> norm2 al_exa i = norm2 al_exa i' -> i = i' &
  [/\ forall i i', (i < 2)%N -> (i' < 2)%N -> norm2 al_exb i = norm2 al_exb i' -> i = i',
      (forall i j, (i < 2)%N -> (j < 2)%N -> close_cols al_exa al_exb i j -> norm2 al_exa i = norm2 al_exb j) &
      close_cols al_exa al_exb 1 0]].
Proof.
have I (x y : int) : x%:~R = y%:~R :> F -> x = y by apply: intr_inj.
split=> //; [ |by move=> [|[|?]] [|[|?]] //; rewrite !exn => _ _ h; have := I _ _ h| ].
  move=> s; rewrite /an_argsort sorted_map.
  by apply: sort_sorted => x y; exact: le_total.
split=> //; [by move=> [|[|?]] [|[|?]] //; rewrite !exn => _ _ h; have := I _ _ h| |].
  by move=> [|[|?]] [|[|?]] // _ _ /exc h; first [by move: h; vm_compute|rewrite !exn].
rewrite /close_cols (big2 (fun r => (ent al_exa (first_be al_exa) (cl 2 r) 1 - ent al_exb (first_be al_exb) (cl 2 r) 0) ^+ 2)).
by rewrite /= subrr /al_exa /al_exb /= /mx /= !subrr expr0n /= addr0 mul0r invr_gt0 exprn_gt0 // ltr0n.
Qed.

Example C19_ex : [/\ wf (s_lr F), nw1 (s_lr F), bcok (mshape (s_lr F)) (mshape (s_lr F)) &
  same_first (Const (t_scalar DFloat64 3%:R : tensor F) 2 1) (Const (t_scalar DInt 3%:R) 2 1)].
Proof. by []. Qed.
End Examples.
Print Assumptions C19_add_lowrank.
Print Assumptions C19_shared_columns.
