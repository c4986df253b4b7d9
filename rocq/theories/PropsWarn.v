(** * C48: exactly which calls warn

    [lw l]: a [ToDenseWarning] was issued during the call.  C14 says that the
    user is warned whenever structure is lost; here: the possible pairs of the
    class of the result and of the presence of a warning, for given classes of
    the operands, so that there are no other warnings. *)
From mathcomp Require Import all_ssreflect all_algebra.
From Verif Require Import Outcome Monad Shape Tensor Mat Dispatch Ops Spec LookThy Term Calm Types Ops2 Samples Warn Warn2 Warn3.
Set Implicit Arguments. Unset Strict Implicit. Unset Printing Implicit Defensive.
Import GRing.Theory.
Local Open Scope ring_scope.

(** ** Specification
    [kd a] is the class of [a]; [KLR s], [KWb s]: low-rank or Woodbury, and [s]
    tells whether the middle factor is structured (neither numeric nor
    [Dense]).  A usual operand [a]: a number, an array or a matrix, where the
    factors of low-rank and Kronecker matrices are arrays or dense matrices and
    the middle factor is an array, or dense, diagonal or triangular.
    A numeric operand is read as the matrix to which it is converted.  The
    tables [addk], [mulk], [mmk] are in [Warn.v]. *)
Section Spec.
Variable F : rcfType.
Notation mat := (mat F).
Definition usual (a : mat) : bool := std (to_matrix a).
Definition kind_of (a : mat) : kind := kd (to_matrix a).
(** Not a [Constant] matrix filled with one scalar zero. *)
Definition nonzero_const (a : mat) : bool := nzc (to_matrix a).
(** Has a low-rank part. *)
Definition lowrankish (k : kind) : bool := match k with KLR _ | KWb _ | KConst => true | _ => false end.
(** Its low-rank part has a structured middle factor ([Constant]: the middle factor of its low-rank form is diagonal). *)
Definition smiddle (k : kind) : bool := match k with KLR s | KWb s => s | KConst => true | _ => false end.
End Spec.

Section Props.
Variable F : rcfType.
Notation tensor := (tensor F).
Notation mat := (mat F).
Variable argsort : seq F -> seq nat.
Notation run n := (ops_n argsort n).
Implicit Types (a b c : mat) (n : nat) (l : log).

Lemma Wret (m : outcome mat) S l c : W false m (inS S) -> m = Ret l c -> (kd c, lw l) \in S.
Proof. by move=> h e; move: h; rewrite e => /andP[]. Qed.
Lemma silret A (m : outcome A) P l (x : A) : sil m P -> m = Ret l x -> lw l = false.
Proof. by move=> h e; move: h; rewrite e => -[/negbTE]. Qed.
Lemma convM (t : tensor) : ismat (convert_num t).
Proof. by rewrite /convert_num; case: (sh t) => // *; case: ifP. Qed.
Lemma toM a : to_matrix (to_matrix a) = to_matrix a.
Proof. by case: a => //= t; rewrite /convert_num; case: (sh t) => // *; case: ifP. Qed.
Lemma ismatE a : ismat a -> to_matrix a = a. Proof. by case: a. Qed.
Lemma ismT a : ismat (to_matrix a). Proof. by case: a => // t; exact: convM. Qed.
Lemma addC n a b : ismat a || ismat b -> o_add (run n) a b = o_add (run n) (to_matrix a) (to_matrix b).
Proof.
case: n => [//|n]; have E x y : ismat x || ismat y -> o_add (run n.+1) x y =
    bind (lookup add_table (ty_of_matrix (to_matrix x)) (ty_of_matrix (to_matrix y))) (fun i => add_body argsort (run n) i (to_matrix x) (to_matrix y)).
  by case: x => [?|*|*|*|*|*|*|*|*|*]; [case: y => [? h|*|*|*|*|*|*|*|*|*]; [discriminate h|..]|..] => *.
by move=> h; rewrite E // E ?ismT // !toM.
Qed.
Lemma mulC n a b : ismat a || ismat b -> o_mul (run n) a b = o_mul (run n) (to_matrix a) (to_matrix b).
Proof.
case: n => [//|n]; have E x y : ismat x || ismat y -> o_mul (run n.+1) x y =
    bind (lookup mul_table (ty_of_matrix (to_matrix x)) (ty_of_matrix (to_matrix y))) (fun i => mul_body (run n) i (to_matrix x) (to_matrix y)).
  by case: x => [?|*|*|*|*|*|*|*|*|*]; [case: y => [? h|*|*|*|*|*|*|*|*|*]; [discriminate h|..]|..] => *.
by move=> h; rewrite E // E ?ismT // !toM.
Qed.
Lemma mmC n a b ta tb : ismat a || ismat b -> o_matmul (run n) a b ta tb = o_matmul (run n) (to_matrix a) (to_matrix b) ta tb.
Proof.
case: n => [//|n]; have E x y : ismat x || ismat y -> o_matmul (run n.+1) x y ta tb =
    bind (lookup mm_table (ty_of_matrix (to_matrix x)) (ty_of_matrix (to_matrix y))) (fun i => mm_body (run n) i (to_matrix x) (to_matrix y) ta tb).
  by case: x => [?|*|*|*|*|*|*|*|*|*]; [case: y => [? h|*|*|*|*|*|*|*|*|*]; [discriminate h|..]|..] => *.
by move=> h; rewrite E // E ?ismT // !toM.
Qed.
Lemma kmatE a : ismat a -> kd a != KNum. Proof. by case: a. Qed.
Lemma binE f x y : x != KNum -> y != KNum -> bin f x y = f x y. Proof. by rewrite /bin; case: x => //; case: y. Qed.
Lemma trkN t k : k != KNum -> trk t k != KNum. Proof. by case: t; case: k. Qed.

(** ** Sums, products, matrix products: the exact tables *)
Theorem C48_add n a b l c : usual a -> usual b -> ismat a || ismat b ->
  o_add (run n) a b = Ret l c -> (kd c, lw l) \in addk (kind_of a) (kind_of b).
Proof.
move=> ha hb hm e; rewrite addC // in e; have := v_add (inv_n argsort n) ha hb; rewrite binE ?kmatE ?ismT // => h; exact: Wret h e.
Qed.
Theorem C48_multiply n a b l c : usual a -> usual b -> nonzero_const a -> nonzero_const b -> ismat a || ismat b ->
  o_mul (run n) a b = Ret l c -> (kd c, lw l) \in mulk (kind_of a) (kind_of b).
Proof.
move=> ha hb na nb hm e; rewrite mulC // in e; have := v_mul (inv_n argsort n) ha hb na nb; rewrite binE ?kmatE ?ismT // => h; exact: Wret h e.
Qed.
Theorem C48_matmul n a b ta tb l c : usual a -> usual b -> ismat a || ismat b ->
  o_matmul (run n) a b ta tb = Ret l c -> (kd c, lw l) \in mmk (trk ta (kind_of a)) (trk tb (kind_of b)).
Proof.
move=> ha hb hm e; rewrite mmC // in e; have := v_matmul (inv_n argsort n) ta tb ha hb; rewrite binE ?trkN ?kmatE ?ismT // => h; exact: Wret h e.
Qed.
Lemma s_neg_md a : md a -> sil (negative a) (fun c => md c && (kd c == kd a)).
Proof.
case: a => // t h; cbn [negative].
- by apply: sil_ret; rewrite /= [ns _]h eqxx.
- by apply: sil_ret; rewrite /= ns_up eqxx.
- by apply: sil_conseq (s_diag _) _ => c [t' ->].
- by apply: sil_conseq (s_lt _) _ => c [t' -> /= ->].
- by apply: sil_conseq (s_ut _) _ => c [t' -> /= ->].
Qed.
Lemma s_neg a : std a -> sil (negative a) (fun c => std c && (kd c == kd a)).
Proof.
case E: (md a); first by move=> _; apply: sil_conseq (s_neg_md E) _ => // c /andP[h1 ->]; rewrite std_md.
move=> h; case: a E h => [t|d b r k|t|t|t r k|t|t|x y m|d x y m|x y] E h; cbn [negative]; try discriminate E; try by rewrite [md _]h in E.
- by apply: sil_ret.
- by apply: sil_conseq (s_const _ _) _ => c [? [? [? ->]]].
- case/and3P: h => h1 h2 h3; apply: sil_bind (s_neg_md h3) _ => m' /andP[h4 /eqP h5].
  apply: sil_conseq (s_lowrank _ _ _) _ => c ->; rewrite /= h1 h2 h4 /=.
  by have -> : structured m' = structured m by move: h5; clear; case: m'; case: m.
- case/and3P: h => h1 h2 h3; apply: sil_bind (s_diag _) _ => d' [u ->].
  apply: sil_bind (s_neg_md h3) _ => m' /andP[h4 /eqP h5]; apply: sil_bind (s_lowrank _ _ _) _ => lr ->.
  apply: sil_conseq (s_woodbury _ _ _ _) _ => c ->; rewrite /= h1 h2 h4 /=.
  by have -> : structured m' = structured m by move: h5; clear; case: m'; case: m.
- case/andP: h => h1 h2; apply: sil_bind (s_neg_md (pl_md h1)) _ => x' /andP[h3 /eqP h4]; apply: sil_ret.
  have h5 : pl x' by move: h1 h3 h4; clear; case: x => // ?; case: x'.
  by rewrite /= h5 h2.
Qed.
Theorem C48_subtract n a b l c : usual a -> usual b -> ismat a || ismat b ->
  subtract (run n) a b = Ret l c -> (kd c, lw l) \in addk (kind_of a) (kind_of b).
Proof.
move=> ha hb hm; have -> : subtract (run n) a b = (do b' <- negative (to_matrix b); o_add (run n) (to_matrix a) b').
  by move: hm; clear; case: a => [?|*|*|*|*|*|*|*|*|*]; [case: b => [? h|*|*|*|*|*|*|*|*|*]; [discriminate h|..]|..] => *.
apply: Wret; apply: W_sil (s_neg hb) _ => b' /andP[h1 /eqP h2]; have := v_add (inv_n argsort n) ha h1.
by rewrite h2 binE ?kmatE ?ismT.
Qed.

(** ** What the tables say *)
Ltac tab := let x := fresh in let y := fresh in move=> x y; destruct x; destruct y; repeat match goal with b : bool |- _ => destruct b end; vm_compute; try discriminate; try by [].
(** A sum warns only if both operands are structured, and then the result is dense, or both have a low-rank part and one of
    these has a structured middle factor. *)
Definition sum_warning (x y k : kind) : bool :=
  skind x && skind y && ((k == KDense) || lowrankish x && lowrankish y && (smiddle x || smiddle y)).
Lemma addkP x y k w : (k, w) \in addk x y -> w -> sum_warning x y k.
Proof.
case: w => //; have H : all (fun p => p.2 ==> sum_warning x y p.1) (addk x y).
  by move: x y; clear; tab.
by move/allP: H => H /H.
Qed.
Theorem C48_add_warning n a b l c : usual a -> usual b -> ismat a || ismat b ->
  o_add (run n) a b = Ret l c -> lw l -> sum_warning (kind_of a) (kind_of b) (kd c).
Proof. by move=> ha hb hm e; exact: addkP (C48_add ha hb hm e). Qed.
(** Conversely the sum of two low-rank matrices warns if a middle factor is structured. *)
Theorem C48_add_lowrank n (l1 r1 m1 l2 r2 m2 : mat) l c : usual (LR l1 r1 m1) -> usual (LR l2 r2 m2) ->
  o_add (run n) (LR l1 r1 m1) (LR l2 r2 m2) = Ret l c -> lw l = structured m1 || structured m2.
Proof. by move=> ha hb e; have := C48_add ha hb isT e; rewrite !inE => /orP[] /eqP[_ ->]. Qed.
(** Adding or multiplying (as matrices) an array or a dense matrix never warns. *)
Definition unstructured a : bool := kind_of a == KDense.
Theorem C48_dense_operand_add n a b l c : usual a -> usual b -> ismat a || ismat b -> unstructured a || unstructured b ->
  o_add (run n) a b = Ret l c -> lw l = false.
Proof.
move=> ha hb hm hu e; apply: negbTE; apply/negP => /(C48_add_warning ha hb hm e) /andP[/andP[]].
by rewrite /unstructured in hu; case/orP: hu => /eqP ->.
Qed.
Theorem C48_dense_operand_matmul n a b ta tb l c : usual a -> usual b -> ismat a || ismat b -> unstructured a || unstructured b ->
  o_matmul (run n) a b ta tb = Ret l c -> lw l = false.
Proof.
move=> ha hb hm hu e; have := C48_matmul ha hb hm e; move: hu; rewrite /unstructured; move: (kind_of a) (kind_of b) => x y.
have H : (x == KDense) || (y == KDense) -> all (fun p => p.2 == false) (mmk (trk ta x) (trk tb y)).
  by clear; case: ta; case: tb; case/orP=> /eqP ->; [case: y|case: x|case: y|case: x|case: y|case: x|case: y|case: x] => //; case.
by move=> /H /allP K /K /eqP.
Qed.
(** A product of entries warns exactly if the result is dense although an operand is structured, and no operand is [Constant]. *)
Theorem C48_multiply_warning n a b l c : usual a -> usual b -> nonzero_const a -> nonzero_const b -> ismat a || ismat b ->
  o_mul (run n) a b = Ret l c ->
  lw l = [&& kd c == KDense, skind (kind_of a) || skind (kind_of b), kind_of a != KConst & kind_of b != KConst].
Proof.
move=> ha hb na nb hm e; have := C48_multiply ha hb na nb hm e; move: (kind_of a) (kind_of b) => x y.
have H : all (fun p => p.2 == [&& p.1 == KDense, skind x || skind y, x != KConst & y != KConst]) (mulk x y).
  by move: x y; clear; tab.
by move/allP: H => H /H /eqP.
Qed.
(** A matrix product of structured operands without low-rank parts warns exactly if the result is dense. *)
Theorem C48_matmul_warning n a b ta tb l c : usual a -> usual b -> ismat a || ismat b ->
  ~~ lowrankish (kind_of a) -> ~~ lowrankish (kind_of b) ->
  o_matmul (run n) a b ta tb = Ret l c -> lw l = [&& kd c == KDense, skind (kind_of a) & skind (kind_of b)].
Proof.
move=> ha hb hm la lb e; have := C48_matmul ha hb hm e; move: (kind_of a) (kind_of b) la lb => x y la lb.
have H : all (fun p => p.2 == [&& p.1 == KDense, skind x & skind y]) (mmk (trk ta x) (trk tb y)).
  by move: x y la lb; clear; move: ta tb => u v; tab.
by move/allP: H => H /H /eqP.
Qed.
(** A matrix product in which one operand is low-rank or [Constant], and none is Woodbury, never warns. *)
Theorem C48_matmul_lowrank_silent n a b ta tb l c : usual a -> usual b -> ismat a || ismat b ->
  (if kind_of a is KWb _ then false else true) -> (if kind_of b is KWb _ then false else true) ->
  lowrankish (kind_of a) || lowrankish (kind_of b) ->
  o_matmul (run n) a b ta tb = Ret l c -> lw l = false.
Proof.
move=> ha hb hm na nb lo e; have := C48_matmul ha hb hm e; move: (kind_of a) (kind_of b) na nb lo => x y na nb lo.
have H : all (fun p => p.2 == false) (mmk (trk ta x) (trk tb y)).
  by move: x y na nb lo; clear; move: ta tb => u v; tab.
by move/allP: H => H /H /eqP.
Qed.

(** ** Functions which never warn *)
Theorem C48_reads_silent n a l t : std a ->
  [/\ o_dense (run n) a = Ret l t -> lw l = false, o_diag (run n) a = Ret l t -> lw l = false,
      o_sumall (run n) a = Ret l t -> lw l = false, (forall ax, o_sumax (run n) a ax = Ret l t -> lw l = false)
    & trace (run n) a = Ret l t -> lw l = false].
Proof.
move=> h; have I := inv_n argsort n; split.
- exact: silret (v_dense I h).
- exact: silret (v_diag I h).
- exact: silret (v_sumall I h).
- by move=> ax; exact: silret (v_sumax I ax h).
- apply: (@silret _ _ (fun _ => True)); apply: sil_bind (v_diag I h) _ => u _; exact: sil_calm (cm_sumpos _ _).
Qed.
Theorem C48_structural_silent a s l c : std a ->
  [/\ transpose a = Ret l c -> lw l = false /\ kd c = trk true (kd a), negative a = Ret l c -> lw l = false /\ kd c = kd a
    & broadcast_batch_to a s = Ret l c -> lw l = false /\ kd c = kd a].
Proof.
have R (m : outcome mat) k : sil m (fun c' => std c' && (kd c' == k)) -> m = Ret l c -> lw l = false /\ kd c = k.
  by move=> h1 e; move: h1; rewrite e => -[/negbTE -> /andP[_ /eqP]].
by move=> h; split; apply: R; [exact: s_trM|exact: s_neg|exact: s_bbM].
Qed.

(** ** Functions which warn exactly if they convert a structured operand *)
Lemma wconv A n a (k : tensor -> outcome A) (P : A -> Prop) l (c : A) : std a -> (forall t, nz t -> sil (k t) P) ->
  (do _ <- warn_if (structured a); do t <- o_dense (run n) a; k t) = Ret l c -> lw l = structured a /\ P c.
Proof.
move=> h hk e; have : W false (do _ <- warn_if (structured a); do t <- o_dense (run n) a; k t) (fun w (c : A) => w = structured a /\ P c).
  apply: W_warn; apply: W_sil (v_dense (inv_n argsort n) h) _ => t ht.
  by apply: W_conseq (silW _ (hk t ht)) _ => w c' [->].
by rewrite e.
Qed.
Theorem C48_reshape n a ds l t : std a -> reshape_op (run n) a ds = Ret l t -> lw l = structured a.
Proof. by move=> h /(wconv (P := fun _ => True) h)[] // *; exact: sil_calm (cm_reshape _ _). Qed.
Theorem C48_squeeze n a l t : std a -> squeeze_op (run n) a = Ret l t -> lw l = structured a.
Proof. by move=> h /(wconv (P := fun _ => True) h)[] // *; exact: sil_calm (cm_reshape _ _). Qed.
Lemma bret A (u : outcome tensor) (f : tensor -> A) : calm u -> sil (do x <- u; ret (f x)) (fun y : A => exists t, y = f t).
Proof. by move=> h; apply: sil_bind (sil_calm h) _ => x _; apply: sil_ret; exists x. Qed.
(** Tiling keeps [Zero] and [Constant]; otherwise it is dense. *)
Theorem C48_tile n a reps l c : std a -> tile_op (run n) a reps = Ret l c ->
  if kd a \in [:: KNum; KZero; KConst] then lw l = false /\ kd c = kd a else lw l = structured a /\ kd c = KDense.
Proof.
have R (m : outcome mat) k : sil m (fun c' => kd c' = k) -> m = Ret l c -> lw l = false /\ kd c = k.
  by move=> h1 e; move: h1; rewrite e => -[/negbTE ->].
have D : ismat a -> std a -> (do _ <- warn_if (structured a); do t <- o_dense (run n) a; do u <- t_tile t reps; ret (mk_dense u)) = Ret l c ->
    lw l = structured a /\ kd c = KDense.
  move=> _ h /(wconv (P := fun c => kd c = KDense) h)[] // t _; apply: sil_conseq (bret _ (cm_tile t reps)) _ => ? [? ->] //.
case: a D => [t|d b r k|t|t|t r k|t|t|x y m|d x y m|x y] D h; rewrite /tile_op; try exact (D isT h).
- by apply: R; apply: sil_bind (sil_calm (cm_tile _ _)) _ => u _.
- by apply: R; apply: (sil_bind (P := fun _ => True)) => [|_ _]; first by rewrite /require; case: ifP.
- apply: R; apply: sil_bind (sil_calm (cm_rank _)) _ => q _; apply: (sil_bind (P := fun _ => True)) => [|_ _]; first by rewrite /require; case: ifP.
  by apply: sil_bind (sil_calm (cm_tile _ _)) _ => u _; apply: sil_conseq (s_const _ _) _ => ? [? [? [? ->]]].
Qed.
(** [abs], [sqrt] and powers convert low-rank and Woodbury matrices only. *)
Theorem C48_elementwise n (f : F -> F) a l c : std a -> elementwise (run n) f a = Ret l c ->
  if kd a is (KLR _ | KWb _) then lw l /\ kd c = KDense else lw l = false /\ kd c = kd a.
Proof.
have R (m : outcome mat) k : sil m (fun c' => kd c' = k) -> m = Ret l c -> lw l = false /\ kd c = k.
  by move=> h1 e; move: h1; rewrite e => -[/negbTE ->].
have G x : std x -> (do _ <- warn_if (structured x); do t <- o_dense (run n) x; ret (mk_dense (t_map f t))) = Ret l c -> lw l = structured x /\ kd c = KDense.
  by move=> h /(wconv (P := fun c => kd c = KDense) h)[].
have P x : pl x -> sil (elementwise (run n) f x) (fun _ => True).
  by case: x => // t h; apply: sil_warn => //; apply: sil_bind (v_dense (inv_n argsort n) (a := Dense t) h) _.
case: a => [t|d b r k|t|t|t r k|t|t|x y m|d x y m|x y] h; cbn [elementwise].
- exact: R.
- exact: R.
- by move/(G _ h) => [-> ->].
- by apply: R; apply: sil_conseq (s_diag _) _ => ? [? ->].
- by apply: R; apply: sil_conseq (s_const _ _) _ => ? [? [? [? ->]]].
- by apply: R; apply: sil_conseq (s_lt _) _ => ? [? ->].
- by apply: R; apply: sil_conseq (s_ut _) _ => ? [? ->].
- by move/(G _ h) => [-> ->].
- by move/(G _ h) => [-> ->].
- by case/andP: h => h1 h2; apply: R; apply: sil_bind (P _ h1) _ => ? _; apply: sil_bind (P _ h2) _ => ? _.
Qed.
(** Concatenation. *)
Theorem C48_concat n (xs : seq mat) ax l c : all (@std F) xs -> concat_op (run n) xs ax = Ret l c ->
  lw l = has (@structured F) xs /\ kd c = KDense.
Proof.
move=> h e; suff : W false (concat_op (run n) xs ax) (fun w c => w = has (@structured F) xs /\ kd c = KDense) by rewrite e.
apply: W_warn; apply: (W_sil (P := fun _ => True)) => [|ts _].
  elim: xs h {e} => //= x xs IH /andP[h1 h2]; apply: sil_bind (v_dense (inv_n argsort n) h1) _ => y _.
  by apply: sil_bind (IH h2) _.
apply: (W_sil (P := fun _ => True)) => [|u _]; last by apply: W_ret.
by apply: sil_bind (sil_calm (cm_axis _ _)) _ => p _; exact: sil_calm (cm_concat _ _).
Qed.
End Props.

Print Assumptions C48_add. Print Assumptions C48_subtract. Print Assumptions C48_multiply. Print Assumptions C48_matmul.
Print Assumptions C48_add_warning. Print Assumptions C48_add_lowrank. Print Assumptions C48_dense_operand_add.
Print Assumptions C48_dense_operand_matmul. Print Assumptions C48_multiply_warning. Print Assumptions C48_matmul_warning.
Print Assumptions C48_matmul_lowrank_silent. Print Assumptions C48_reads_silent. Print Assumptions C48_structural_silent.
Print Assumptions C48_reshape. Print Assumptions C48_squeeze. Print Assumptions C48_tile. Print Assumptions C48_elementwise.
Print Assumptions C48_concat.

(** The hypotheses are met by matrices of several classes, and the tables are as one expects on examples. *)
Definition w_col (F : rcfType) : mat F := Dense (Tensor DFloat64 [:: 1; 2]%N (fun idx => (nth 0%N idx 1).+1%:R)).
Definition w_lr (F : rcfType) : mat F := LR (w_col F) (w_col F) (Diag (t_ones DFloat64 [:: 1]%N)).
Definition w_wb (F : rcfType) : mat F := Wb (Tensor DFloat32 [:: 2]%N (fun idx => (head 0%N idx).+1%:R)) (w_col F) (w_col F) (Diag (t_ones DFloat64 [:: 1]%N)).
Example C48_ex (F : rcfType) : usual (w_wb F) /\ usual (w_lr F) /\ nonzero_const (w_wb F) /\ ismat (w_wb F) /\ unstructured (w_col F) /\
  wf (w_wb F) /\ wf (w_lr F) /\
  addk KDiag (KLR false) = [:: (KWb false, false)] /\ mulk (KLR true) KKron = [:: (KDense, true)] /\
  mmk KDiag KKron = [:: (KDense, true)] /\ addk KDense KKron = [:: (KDense, false)].
Proof. by []. Qed.
