(** * C11, C12, C14: structure of results and warnings

    [ty_of c = Some x]: [c] is an object of class [x].  The tables [addt],
    [mult], [mmt] (Types.v, top of the file) list the possible classes of a
    result for given classes of the operands; [lw l]: a [ToDenseWarning] was
    emitted during the call with log [l]. *)
From mathcomp Require Import all_ssreflect all_algebra.
From Verif Require Import Outcome Monad Shape Tensor Mat Dispatch Ops Spec LookThy ShapeThy TensorThy MatThy OpsOk Term Exact Calm Api Bridge Types.
From Verif Require Import Samples PropsCore.
Set Implicit Arguments. Unset Strict Implicit. Unset Printing Implicit Defensive.
Import GRing.Theory.
Local Open Scope ring_scope.

Section Struct.
Variable F : rcfType.
Notation tensor := (tensor F).
Notation mat := (mat F).
Variable argsort : seq F -> seq nat.
Hypothesis perm : argsort_ok argsort.
Notation answers := (answers argsort).
Notation run n := (ops_n argsort n).
Implicit Types a b c : mat.

(** The class of [c] is one of [s]. *)
Definition of_class c (s : seq ty) : Prop := exists2 x, ty_of c = Some x & ty_in x s.

Lemma classE c s : ismat c -> ty_in (ty_of_matrix c) s -> of_class c s.
Proof. by case: c => // *; eexists; try reflexivity. Qed.
Lemma tyE c x : ty_of c = Some x -> ismat c /\ ty_of_matrix c = x.
Proof. by case: c => // *; split=> //; match goal with h : _ = Some _ |- _ => by case: h end. Qed.
Lemma istyE c x : isty c x -> ty_of c = Some x.
Proof. by case/andP; case: c => // *; match goal with h : is_true (ty_eqb _ _) |- _ => by move/tyP: h => <- end. Qed.
Lemma tyeq x : ty_eqb x x. Proof. by case: x. Qed.
Lemma strE a : ty_of a <> None -> structured a = sty (ty_of_matrix a).
Proof. by case: a. Qed.

(** ** C11 *)
(** Whatever the operands contain: if the call returns, then the result has
    a class of the table. *)
Theorem C11_add_class n l a b c x y : ty_of a = Some x -> ty_of b = Some y ->
  o_add (run n) a b = Ret l c -> of_class c (addt x y).
Proof.
case/tyE=> ma <- /tyE[mb <-] e; have := SA argsort n ma mb; rewrite e => -[h1 [h2 _]]; exact: classE.
Qed.
Theorem C11_multiply_class n l a b c x y : ty_of a = Some x -> ty_of b = Some y ->
  o_mul (run n) a b = Ret l c -> ty_of c = Some (mult x y).
Proof.
case/tyE=> ma <- /tyE[mb <-] e; have := SM argsort n ma mb; by rewrite e => -[/istyE].
Qed.
(** Matrix products (the tables are for the transposed operands; [nl]: the
    data of a triangular operand has rank at least one). *)
Theorem C11_matmul_class n l a b c x y (ta tb : bool) : ty_of a = Some x -> ty_of b = Some y -> nl a -> nl b ->
  o_matmul (run n) a b ta tb = Ret l c -> of_class c (mmt (trt x ta) (trt y tb)).
Proof.
case/tyE=> ma <- /tyE[mb <-] na nb e; have := SP argsort n ta tb ma mb na nb; rewrite e => -[h1 [h2 _]]; exact: classE.
Qed.
Lemma wf_nl a : wf a -> nl a.
Proof. by case: a => //= t [/andP[h _] _]; move: h; rewrite /trank /ns; case: (sh t). Qed.

(** With C03-C05: the class and the value. *)
Theorem C11_add a b x y : wf a -> wf b -> ty_of a = Some x -> ty_of b = Some y ->
  bcok (mshape a) (mshape b) -> add_side a b ->
  answers (fun o => o_add o a b) (fun c =>
    (wf c /\ is_value (t_add (den a) (den b)) (den c)) /\ of_class c (addt x y)).
Proof.
move=> wa wb ea eb s1 s2; apply: answers_fact (C03_add perm (or_introl wa) (or_introl wb) (or_introl wa) s1 s2) _ => n l c.
exact: C11_add_class.
Qed.
Theorem C11_multiply a b x y : wf a -> wf b -> ty_of a = Some x -> ty_of b = Some y ->
  bcok (mshape a) (mshape b) -> mul_side a b ->
  answers (fun o => o_mul o a b) (fun c =>
    (wf c /\ is_value (t_mul (den a) (den b)) (den c)) /\ ty_of c = Some (mult x y)).
Proof.
move=> wa wb ea eb s1 s2; apply: answers_fact (C04_multiply perm (or_introl wa) (or_introl wb) (or_introl wa) s1 s2) _ => n l c.
exact: C11_multiply_class.
Qed.
Theorem C11_matmul a b x y (ta tb : bool) : wf a -> wf b -> ty_of a = Some x -> ty_of b = Some y ->
  mcolst a ta = mrowst b tb -> bcok (mbatch a) (mbatch b) -> mm_side a b ta tb ->
  answers (fun o => o_matmul o a b ta tb) (fun c =>
    (wf c /\ is_value (t_matmul (den a) (den b) ta tb) (den c)) /\ of_class c (mmt (trt x ta) (trt y tb))).
Proof.
move=> wa wb ea eb s1 s2 s3; apply: answers_fact (C05_matmul perm wa wb s1 s2 s3) _ => n l c.
exact: (C11_matmul_class ea eb (wf_nl wa) (wf_nl wb)).
Qed.
(** Products of two lower (upper) triangular matrices with the same flag. *)
Theorem C11_matmul_triangular n l c (s t : tensor) f : ns s -> ns t ->
  (o_matmul (run n) (LT s) (LT t) f f = Ret l c -> ty_of c = Some (if f then TUT else TLT)) /\
  (o_matmul (run n) (UT s) (UT t) f f = Ret l c -> ty_of c = Some (if f then TLT else TUT)).
Proof.
move=> h1 h2; split=> e.
  have := SPlt argsort n f h1 h2; rewrite e => /istyE ->; by case: (f).
have := SPut argsort n f h1 h2; rewrite e => /istyE ->; by case: (f).
Qed.

(** The promises of the documentation, read off the tables. *)
Theorem C11_promises n l a b c : o_add (run n) a b = Ret l c ->
  [/\ ty_of a = Some TDiag -> ty_of b = Some TDiag -> ty_of c = Some TDiag,
      ty_of a = Some TConst -> ty_of b = Some TConst -> ty_of c = Some TConst,
      ty_of a = Some TLR -> ty_of b = Some TDiag -> ty_of c = Some TWb,
      ty_of a = Some TLR -> ty_of b = Some TLR -> ty_of c = Some TLR \/ ty_of c = Some TZero &
      [/\ ty_of a = Some TDiag -> ty_of b = Some TConst -> ty_of c = Some TWb,
          ty_of a = Some TLT -> ty_of b = Some TLT -> ty_of c = Some TLT,
          ty_of a = Some TUT -> ty_of b = Some TUT -> ty_of c = Some TUT,
          ty_of a = Some TLT -> ty_of b = Some TDiag -> ty_of c = Some TLT &
          ty_of a = Some TWb -> ty_of b = Some TDiag -> ty_of c = Some TWb]].
Proof.
move=> e; have h x y := fun h1 h2 => @C11_add_class n l a b c x y h1 h2 e.
by split; [..|split]; move=> h1 h2; have [z ->] := h _ _ h1 h2; case: z => // _; auto.
Qed.
Theorem C11_promises_multiply n l a b c : o_mul (run n) a b = Ret l c ->
  [/\ ty_of a = Some TZero -> ty_of b <> None -> ty_of c = Some TZero,
      ty_of a = Some TDiag -> ty_of b <> None -> ty_of b <> Some TZero -> ty_of c = Some TDiag,
      ty_of a = Some TLR -> ty_of b = Some TLR -> ty_of c = Some TLR,
      ty_of a = Some TKron -> ty_of b = Some TConst -> ty_of c = Some TKron &
      ty_of a = Some TConst -> ty_of b <> None -> ty_of c = ty_of b].
Proof.
move=> e; have h x y := fun h1 h2 => @C11_multiply_class n l a b c x y h1 h2 e.
have nt : ty_of b <> Some TTiled by case: (b).
split; first by case eb: (ty_of b) => [y|] // ea _; rewrite (h _ _ ea eb); move: nt; rewrite eb; case: y {eb} => // /(_ erefl).
- by case eb: (ty_of b) => [y|] // ea _ ne; rewrite (h _ _ ea eb); move: nt ne; rewrite eb; case: y {eb} => // [? /(_ erefl)|/(_ erefl)].
- by move=> h1 h2; rewrite (h _ _ h1 h2).
- by move=> h1 h2; rewrite (h _ _ h1 h2).
- by case eb: (ty_of b) => [y|] // ea _; rewrite (h _ _ ea eb); move: nt; rewrite eb; case: y {eb} => // /(_ erefl).
Qed.
Theorem C11_promises_matmul n l a b c : nl a -> nl b -> o_matmul (run n) a b false false = Ret l c ->
  [/\ ty_of a = Some TZero -> ty_of b <> None -> ty_of c = Some TZero,
      ty_of a = Some TDiag -> ty_of b = Some TDiag -> ty_of c = Some TDiag,
      ty_of a = Some TLR -> ty_of b <> None -> ty_of b <> Some TZero -> ty_of b <> Some TWb -> ty_of c = Some TLR,
      ty_of a = Some TKron -> ty_of b = Some TKron -> ty_of c = Some TKron &
      ty_of a = Some TDiag -> ty_of b = Some TLT -> ty_of c = Some TLT].
Proof.
move=> na nb e; have h x y := fun h1 h2 => @C11_matmul_class n l a b c x y false false h1 h2 na nb e.
have nt : ty_of b <> Some TTiled by case: (b).
split; first by case eb: (ty_of b) => [y|] // ea _; have [z -> hz] := h _ _ ea eb; move: nt hz; rewrite eb; case: y {eb} => //; case: z => // /(_ erefl).
- by move=> h1 h2; have [z ->] := h _ _ h1 h2; case: z.
- case eb: (ty_of b) => [y|] // ea _ n1 n2; have [z -> hz] := h _ _ ea eb.
  by move: nt n1 n2 hz; rewrite eb; clear; case: y; case: z => // h1 h2 h3 _; first [by case: h1|by case: h2|by case: h3].
- by move=> h1 h2; have [z ->] := h _ _ h1 h2; case: z.
- by move=> h1 h2; have [z ->] := h _ _ h1 h2; case: z.
Qed.

(** ** C12 *)
(** The triangular types of a result (and of its factors) are triangular. *)
Fixpoint tri_ok c : Prop :=
  match c with
  | LT t => lower t
  | UT t => upper t
  | LR l r m | Wb _ l r m => [/\ tri_ok l, tri_ok r & tri_ok m]
  | Kron l r => tri_ok l /\ tri_ok r
  | _ => True
  end.
Lemma wf_tri c : wf c -> tri_ok c.
Proof.
elim: c => //= [t|t|l IHl r IHr m IHm|d l IHl r IHr m IHm|l IHl r IHr]; try by case.
- by case=> h1 h2 h3 _ _; split; auto.
- by case=> -[h1 h2 h3 _ _] _; split; auto.
- by case=> h1 h2 _; split; auto.
Qed.
Theorem C12_add a b : wfo a -> wfo b -> wf a \/ wf b -> bcok (mshape a) (mshape b) -> add_side a b ->
  answers (fun o => o_add o a b) tri_ok.
Proof. by move=> h1 h2 h3 h4 h5; apply: ans_conseq (C03_add perm h1 h2 h3 h4 h5) _ => c [/wf_tri]. Qed.
Theorem C12_multiply a b : wfo a -> wfo b -> wf a \/ wf b -> bcok (mshape a) (mshape b) -> mul_side a b ->
  answers (fun o => o_mul o a b) tri_ok.
Proof. by move=> h1 h2 h3 h4 h5; apply: ans_conseq (C04_multiply perm h1 h2 h3 h4 h5) _ => c [/wf_tri]. Qed.
Theorem C12_matmul a b (ta tb : bool) : wf a -> wf b -> mcolst a ta = mrowst b tb ->
  bcok (mbatch a) (mbatch b) -> mm_side a b ta tb -> answers (fun o => o_matmul o a b ta tb) tri_ok.
Proof. by move=> h1 h2 h3 h4 h5; apply: ans_conseq (C05_matmul perm h1 h2 h3 h4 h5) _ => c [/wf_tri]. Qed.
Theorem C12_unary a : wf a ->
  [/\ exists2 c, transpose a = ret c & tri_ok c, exists2 c, negative a = ret c & tri_ok c,
      forall d, exists2 c, cast d a = ret c & tri_ok c &
      forall B, posn B -> bto (mbatch a) B -> exists2 c, broadcast_batch_to a B = ret c & tri_ok c].
Proof.
move=> w; split.
- by have [c e [/wf_tri h _ _]] := C07_transpose w; exists c.
- by have [c e [/wf_tri h _ _]] := C08_negative w; exists c.
- by move=> d; have [c -> [[/wf_tri h _ _ _] _ _ _]] := calm_hoare (cm_cast d a) (cast_ok d w); exists c.
- by move=> B p h; have [c -> [[/wf_tri h' _ _ _] _ _]] := calm_hoare (cm_bb a B) (broadcast_batch_ok w p h); exists c.
Qed.

(** ** C14 *)
(** Unstructured operands: dense matrices, and arrays of positive rank which
    meet a dense matrix.  No warning, whether the call returns or raises. *)
Definition plain a : bool := match a with Dense _ => true | Nm t => sh t != [::] | _ => false end.
Lemma nowarn_bind A B (m : outcome A) (k : A -> outcome B) : lw (logof m) = false -> (forall z, lw (logof (k z)) = false) ->
  lw (logof (bind m k)) = false.
Proof. by case: m => [l z|l e] //= h1 h2; rewrite /bind; case: (k z) (h2 z) => [l' d|l' e] /= ->; rewrite h1. Qed.
Lemma nowarn_calm A (m : outcome A) : calm m -> lw (logof m) = false.
Proof. by case: m => [l z|l e] //= => [|[]] ->. Qed.
Theorem C14_unstructured_silent n a b (ta tb : bool) : plain a -> plain b ->
  [/\ lw (logof (o_add (run n) a b)) = false, lw (logof (o_mul (run n) a b)) = false &
      lw (logof (o_matmul (run n) a b ta tb)) = false].
Proof.
case: n => [//|n] ha hb.
have cn (t : tensor) : sh t != [::] -> to_matrix (Nm t) = Dense (t_uprank t).
  by rewrite /to_matrix /convert_num; case: (sh t).
change (o_add (run n.+1)) with (add_step argsort (run n)); change (o_mul (run n.+1)) with (mul_step (run n)).
change (o_matmul (run n.+1)) with (matmul_step (run n)).
have K x (t u : tensor) : lw (logof (do z <- t_map2 x t u; ret (mk_dense z))) = false.
  by apply: nowarn_bind => [|?] //; apply: nowarn_calm; exact: cm_map2.
have K' x (t u : tensor) : lw (logof (do z <- t_map2 x t u; ret (Nm z))) = false.
  by apply: nowarn_bind => [|?] //; apply: nowarn_calm; exact: cm_map2.
have M (t u : tensor) : lw (logof (do z <- t_matmul t u ta tb; ret (mk_dense z))) = false.
  by apply: nowarn_bind => [|?] //; apply: nowarn_calm; exact: cm_matmul.
have M' (t u : tensor) : lw (logof (do z <- t_matmul t u ta tb; ret (Nm z))) = false.
  by apply: nowarn_bind => [|?] //; apply: nowarn_calm; exact: cm_matmul.
have D (a' b' : mat) (t u : tensor) : to_matrix a' = Dense t -> to_matrix b' = Dense u -> ismat a' || ismat b' ->
  [/\ lw (logof (add_step argsort (run n) a' b')) = false, lw (logof (mul_step (run n) a' b')) = false
    & lw (logof (matmul_step (run n) a' b' ta tb)) = false].
  move=> ea eb hm; rewrite /add_step /mul_step /matmul_step ea eb.
  rewrite [ty_of_matrix _]/= [ty_of_matrix _]/= add_selE mul_selE mm_selE [selof _ _ _]/= [selof mul_rows _ _]/= [selof mm_rows _ _]/= !bind_ret /add_body /mul_body /mm_body.
  by case: a' b' hm {ea eb} => [?|? ? ? ?|?|?|? ? ?|?|?|? ? ?|? ? ? ?|? ?]; case=> [?|? ? ? ?|?|?|? ? ?|?|?|? ? ?|? ? ? ?|? ?] hm;
    first [discriminate hm|split; [exact: K|exact: K|exact: M]].
by case: a ha => // t ha; case: b hb => // u hb; [split; [exact: K'|exact: K'|exact: M']|apply: D (cn _ ha) _ _|apply: D _ (cn _ hb) _|apply: D].
Qed.
(** If two structured matrices are combined and the result is dense, then the
    user was warned (except lower plus upper triangular, see
    [C14_lt_ut_silent]). *)
Theorem C14_add_warns n l a b c x y : ty_of a = Some x -> ty_of b = Some y ->
  structured a -> structured b -> ~~ ltut x y ->
  o_add (run n) a b = Ret l c -> ty_of c = Some TDense -> lw l.
Proof.
move=> ea eb; rewrite !strE; try (by rewrite ?ea ?eb); case/tyE: ea => ma <-; case/tyE: eb => mb <- h1 h2 h3 e ec.
by have := SA argsort n ma mb; rewrite e => -[_ [_]]; apply=> //; [case/tyE: ec => _ ->|rewrite h1 h2].
Qed.
Theorem C14_multiply_warns n l a b c x y : ty_of a = Some x -> ty_of b = Some y ->
  structured a && ~~ ty_eqb x TConst || structured b && ~~ ty_eqb y TConst ->
  o_mul (run n) a b = Ret l c -> ty_of c = Some TDense -> lw l.
Proof.
move=> ea eb; rewrite !strE; try (by rewrite ?ea ?eb); case/tyE: ea => ma <-; case/tyE: eb => mb <- h e ec.
have := SM argsort n ma mb; rewrite e => -[_]; apply=> //; first by case/tyE: ec => _ ->.
Qed.
Theorem C14_matmul_warns n l a b c x y (ta tb : bool) : ty_of a = Some x -> ty_of b = Some y -> nl a -> nl b ->
  structured a -> structured b ->
  o_matmul (run n) a b ta tb = Ret l c -> ty_of c = Some TDense -> lw l.
Proof.
move=> ea eb na nb; rewrite !strE; try (by rewrite ?ea ?eb); case/tyE: ea => ma _; case/tyE: eb => mb _ h1 h2 e ec.
have := SP argsort n ta tb ma mb na nb; rewrite e => -[_ [_]]; apply=> //; first by case/tyE: ec => _ ->.
by move: h1 h2; clear; case: (ty_of_matrix a); case: ta; case: (ty_of_matrix b); case: tb.
Qed.
(** Lower plus upper triangular is dense, without a warning. *)
Theorem C14_lt_ut_silent n (s t : tensor) l c : o_add (run n) (UT s) (LT t) = Ret l c ->
  ty_of c = Some TDense /\ lw l = false.
Proof.
case: n => [//|n]; change (o_add (run n.+1)) with (add_step argsort (run n)).
rewrite /add_step /to_matrix [ty_of_matrix _]/= [ty_of_matrix _]/= add_selE [selof _ _ _]/= bind_ret /add_body.
have h := nowarn_calm (cm_map2 +%R s t); rewrite /t_add; case: (t_map2 _ _ _) h => [l0 z|l0 e] //= h [<- <-].
by split=> //=; rewrite h.
Qed.
End Struct.

Print Assumptions C11_add_class. Print Assumptions C11_multiply_class. Print Assumptions C11_matmul_class.
Print Assumptions C11_add. Print Assumptions C11_multiply. Print Assumptions C11_matmul.
Print Assumptions C11_matmul_triangular. Print Assumptions C11_promises. Print Assumptions C11_promises_multiply.
Print Assumptions C11_promises_matmul.
Print Assumptions C12_add. Print Assumptions C12_multiply. Print Assumptions C12_matmul. Print Assumptions C12_unary.
Print Assumptions C14_unstructured_silent. Print Assumptions C14_add_warns. Print Assumptions C14_multiply_warns.
Print Assumptions C14_matmul_warns. Print Assumptions C14_lt_ut_silent.

Example C11_ex (F : rcfType) : wf (s_wb F) /\ wf (s_lr F) /\ ty_of (s_wb F) = Some TWb /\ ty_of (s_lr F) = Some TLR /\
  add_side (s_wb F) (s_lr F) /\ bcok (mshape (s_wb F)) (mshape (s_lr F)).
Proof. by []. Qed.
(** Dense results of structured operands do occur: lower triangular plus Kronecker. *)
Example C14_ex : addt TLT TKron = [:: TDense] /\ ~~ ltut TLT TKron. Proof. by []. Qed.
