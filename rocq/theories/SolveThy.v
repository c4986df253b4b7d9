(** * Solves and Cholesky factors (proof support for C26 - C30) *)
From mathcomp Require Import all_ssreflect all_algebra.
From Verif Require Import Outcome Monad Shape Tensor Mat Dispatch Ops Spec ShapeThy TensorThy TensorThy2 MatThy OpsOk MulOk DenseOk MmOk OpsMain Term Calm Api Bridge Ans PropsMm Types PropsStruct Ops2 PropsSum PropsLift PropsExpr.
From Verif Require Import Backend SpecLA LinAlg MxThy ClsThy Solve InvThy PropsInv.
Set Implicit Arguments. Unset Strict Implicit. Unset Printing Implicit Defensive.
Import GRing.Theory Num.Theory.
Local Open Scope ring_scope.

Section SolveThy.
Variable F : rcfType.
Notation tensor := (tensor F).
Notation mat := (mat F).
Variable argsort : seq F -> seq nat.
Hypothesis perm : argsort_ok argsort.
Notation answers := (answers argsort).
Implicit Types a b c x y : mat.

Lemma assert_squareE a : wf a -> mrows a = mcols a -> assert_square a = ret tt.
Proof. by move=> w e; rewrite /assert_square assert_matrixE // shape_matrixE // !bind_ret e eqxx. Qed.
Lemma ans_dense_mx x n m (b : shape) (X : seq nat -> 'M[F]_(n, m)) : is_mx x b X -> answers (fun o => o_dense o x) (fun t => tmx t b X).
Proof. by move=> h; exact (ans_dense_res perm (mx_res h)). Qed.
Lemma to_matrix_mx x n m (b : shape) (X : seq nat -> 'M[F]_(n, m)) : is_mx x b X -> is_mx (to_matrix x) b X.
Proof.
move=> h; have w := mx_ok h; have [hr _ _ _ _] := to_matrix_ok (or_introl w); case: h => _ [e1 e2] e3 e4.
rewrite e1 e2 e3 in hr; apply: mx_ext (res_mx hr) _ => be hb; by rewrite -e4.
Qed.
Lemma to_matrix_kfree x : wf x -> kfree (to_matrix x) = kfree x.
Proof. by move=> w; have [_ ->] := to_matrix_ok (or_introl w). Qed.
Lemma to_matrix_ty x : wf x -> ty_of_matrix (to_matrix x) = cls x.
Proof. by case: x => //= t w; rewrite conv_ns // wf_ns. Qed.
Lemma to_matrix_cls x : wf x -> cls (to_matrix x) = cls x.
Proof. by case: x => //= t w; rewrite conv_ns // wf_ns. Qed.
Lemma align2_mx x y n m n' m' bx by' (X : seq nat -> 'M[F]_(n, m)) (Y : seq nat -> 'M[F]_(n', m')) :
  is_mx x bx X -> is_mx y by' Y -> bcok bx by' ->
  exists x' y', [/\ align_batch [:: x; y] = ret [:: x'; y'], is_mx x' (bct bx by') X & is_mx y' (bct bx by') Y].
Proof.
move=> hx hy; case: (hx) (hy) => wx [e1 e2] e3 e4 [wy [g1 g2] g3 g4] o.
have o' : bcok (mbatch x) (mbatch y) by rewrite e3 g3.
have [xs E [x' [y' [? h1 h2 _]]]] := calm_hoare (cm_align_batch _) (align_batch2_ok wx wy o'); subst xs.
rewrite e1 e2 g1 g2 e3 g3 in h1 h2; exists x', y'; split=> //.
  by apply: mx_ext (res_mx h1) _ => be; rewrite okb_bct // => /andP[b1 b2]; rewrite -e4.
by apply: mx_ext (res_mx h2) _ => be; rewrite okb_bct // => /andP[b1 b2]; rewrite -g4.
Qed.

(** ** solve *)
Lemma look_solve x y : wf x -> wf y -> ~~ nn x y -> lookup solve_table (ty_of_matrix (to_matrix x)) (ty_of_matrix (to_matrix y)) =
  ret (if cls y is TZero then SZero else match cls x with TDiag => SDiag | TLT => SLT | TUT => SUT | TWb => SWb | _ => SGen end).
Proof. by move=> wx wy _; rewrite !to_matrix_ty //; case: (cls x); case: (cls y). Qed.
Lemma selmx_id n (sel : nat -> nat -> bool) (X : 'M[F]_n) : (forall i j : 'I_n, ~~ sel i j -> X i j = 0) -> selmx sel X = X.
Proof. by move=> h; apply/matrixP => i j; rewrite mxE; case E: (sel i j) => //; rewrite h ?E. Qed.
Lemma lt_sel (t : tensor) n (b : shape) (X : seq nat -> 'M[F]_n) be : is_mx (LT t) b X -> okb b be ->
  selmx (fun i j => if true then (j <= i)%N else (i <= j)%N) (X be) = X be.
Proof.
case=> -[w lo] [e1 e2] e3 e4 hb; apply: selmx_id => i j; rewrite -ltnNge => h; rewrite -e4 // mxE.
by apply: lo; rewrite ?[tbatch t]e3 ?[trows t]e1 ?[tcols t]e2.
Qed.
Lemma ut_sel (t : tensor) n (b : shape) (X : seq nat -> 'M[F]_n) be : is_mx (UT t) b X -> okb b be ->
  selmx (fun i j => if false then (j <= i)%N else (i <= j)%N) (X be) = X be.
Proof.
case=> -[w lo] [e1 e2] e3 e4 hb; apply: selmx_id => i j; rewrite -ltnNge => h; rewrite -e4 // mxE.
by apply: lo; rewrite ?[tbatch t]e3 ?[trows t]e1 ?[tcols t]e2.
Qed.
(** The call ends in a dense solve. *)
Definition densely a b : bool := match cls a with TDiag | TWb => false | _ => if cls b is TZero then false else true end.
Definition iswb a : bool := if a is Wb _ _ _ _ then true else false.
(** Recursion that a solve needs: only the inverse of a Woodbury matrix recurses. *)
Definition sdepth a : nat := if iswb a then mdepth a else 0%N.
Lemma sdepth_le a k : (mdepth a < k)%N -> (sdepth a < k)%N.
Proof. by rewrite /sdepth; case: iswb => // h; apply: leq_ltn_trans h. Qed.
Lemma solve_main (a b : mat) n m k (ba bb : shape) (A : seq nat -> 'M[F]_n) (B : seq nat -> 'M[F]_(n, m)) :
  is_mx a ba A -> is_mx b bb B -> bcok ba bb -> (forall be, okb ba be -> A be \in unitmx) ->
  (iswb a -> invertible a) -> (sdepth a < k)%N -> (cls b = TZero -> bct ba bb = bb) ->
  answers (fun o => solve o k a b) (fun c => [/\ is_mx c (bct ba bb) (fun be => invmx (A be) *m B be), kfree c, istri c -> istri b & densely a b -> cls c = TDense]).
Proof.
move=> ha hb o uA wi hk hz; have [wa wb] := (mx_ok ha, mx_ok hb).
have uA' be : okb (bct ba bb) be -> A be \in unitmx by rewrite okb_bct // => /andP[h _]; exact: uA.
case en: (nn a b).
  case: a wa en ha {wi hk} => // x wa; case: b wb hb hz => // y wb hb _ _ ha.
  have hx := num_mx_inv (or_introl erefl) ha; have hy := num_mx_inv (or_introl erefl) hb.
  have [|z e h'] := t_solve_sel_ok (sel := fun _ _ => true) hx hy o; first by move=> be h'; rewrite selmx_id ?uA'.
  apply: (ans_eq e); apply: ans_ret; split=> //; apply: mx_num; apply: tmx_ext h' _ => be h'; by rewrite selmx_id.
have E op : solve op k a b = solve_m op k (to_matrix a) (to_matrix b).
  by case: a en {ha wi hk wa} => // ? ; case: b {hb wb hz}.
apply: ans_ext (fun op => esym (E op)) _; rewrite /solve_m (look_solve wa wb (negbT en)).
apply: ans_eq erefl _.
have [ha' hb'] := (to_matrix_mx ha, to_matrix_mx hb).
have [cz|cz] : cls b = TZero \/ cls b <> TZero by case: (cls b); first [by left|by right].
  rewrite cz /=; apply: ans_ret; split; last first.
  - by rewrite /densely cz; case: (cls a).
  - by case: b cz {hb wb hz en E hb'}.
  - by case: b cz {hb wb hz en E hb'}.
  rewrite hz //; apply: mx_ext hb' _ => be hbb.
  have -> : B be = 0; last by rewrite mulmx0.
  by case: b cz hb {wb hz en E} => // ? ? ? ? _ [_ _ _ <-] //; apply/matrixP => i j; rewrite !mxE.
have -> : (if cls b is TZero then SZero else match cls a with TDiag => SDiag | TLT => SLT | TUT => SUT | TWb => SWb | _ => SGen end) =
   match cls a with TDiag => SDiag | TLT => SLT | TUT => SUT | TWb => SWb | _ => SGen end by case: (cls b) cz.
have gen : answers (fun op => solve_body op k SGen (to_matrix a) (to_matrix b)) (fun c => [/\ is_mx c (bct ba bb) (fun be => invmx (A be) *m B be), kfree c, istri c -> istri b & densely a b -> cls c = TDense]).
  apply: ans_warn; have [x' [y' [e h1 h2]]] := align2_mx ha' hb' o; apply: (ans_eq e).
  apply: ans_bind (ans_dense_mx h1) _ => x hx; apply: ans_bind (ans_dense_mx h2) _ => y hy.
  have [|z e' h'] := t_solve_sel_ok (sel := fun _ _ => true) hx hy (bcokss _); first by move=> be; rewrite bctss => h'; rewrite selmx_id ?uA'.
  apply: (ans_eq e'); apply: ans_ret; split=> //; apply: mx_num; rewrite bctss in h'; apply: tmx_ext h' _ => be h'; by rewrite selmx_id.
have tri t s (lw : bool) : is_mx (Nm t) ba A -> (forall be, okb ba be -> selmx (fun i j => if lw then (j <= i)%N else (i <= j)%N) (A be) = A be) ->
  answers (fun op => do _ <- warn_if s; do ab <- align_batch [:: Nm t; to_matrix b];
      do x <- o_dense op (nth (to_matrix a) ab 0); do y <- o_dense op (nth (to_matrix b) ab 1);
      do u <- t_trisolve x y lw; ret (mk_dense u)) (fun c => [/\ is_mx c (bct ba bb) (fun be => invmx (A be) *m B be), kfree c, istri c -> istri b & densely a b -> cls c = TDense]).
  move=> ht hs; apply: ans_warn; have [x' [y' [e h1 h2]]] := align2_mx ht hb' o; apply: (ans_eq e).
  have hs' be : okb (bct ba bb) be -> selmx (fun i j => if lw then (j <= i)%N else (i <= j)%N) (A be) = A be.
    by rewrite okb_bct // => /andP[q _]; exact: hs.
  apply: ans_bind (ans_dense_mx h1) _ => x hx; apply: ans_bind (ans_dense_mx h2) _ => y hy.
  have [|z e' h'] := t_solve_sel_ok (sel := fun i j => if lw then (j <= i)%N else (i <= j)%N) hx hy (bcokss _).
    by move=> be; rewrite bctss => h'; rewrite hs' ?uA'.
  rewrite bctss in h'.
  have h2' : tmx z (bct ba bb) (fun be => invmx (A be) *m B be) by apply: tmx_ext h' _ => be q; rewrite hs'.
  by apply: (ans_eq e'); apply: ans_ret; rewrite (mk_dense_mx h2'); split=> //; exact: mx_dense.
have inv : (mdepth a < k)%N -> invertible a -> kfree a -> simple_ty (cls a) && ~~ ty_eqb (cls a) TDense || iswb a -> answers (fun op => do ai <- inv_n op k a; o_matmul op ai (to_matrix b) false false)
   (fun c => [/\ is_mx c (bct ba bb) (fun be => invmx (A be) *m B be), kfree c, istri c -> istri b & densely a b -> cls c = TDense]).
  move=> hk' ia ka hs; case: (ha) => _ [e1 e2] e3 e4; have [_ H] := inv_main perm wa ia e1 hk'.
  apply: ans_bind H _ => ai [hai kai tai]; rewrite e3 in hai.
  have kai' := kai ka.
  apply: ans_conseq (ans_mm_mx perm hai hb' o (mm_side_kfree _ _ _)) _ => [|c [hc kc tc]]; first by rewrite kai'.
  have {}tc : ty_in (cls c) (mmt (cls a) (cls b)) by move: tc; rewrite tai (to_matrix_cls wb).
  split; [|by apply: kc; rewrite kai'| |by move: hs; clear; rewrite /densely; case: (cls b); case: a].
  - apply: mx_ext hc _ => be; rewrite okb_bct // => /andP[b1 _]; by rewrite e4.
  - have q z : istri z = ty_eqb (cls z) TLT || ty_eqb (cls z) TUT by case: z.
    have ca : cls a = TDiag \/ cls a = TWb.
      by clear -ia hs; case: a ia hs => //=; auto.
    by rewrite !q; move: tc; case: ca => ->; clear; case: b; case: (cls c).
case: a ha wa wi hk en E ha' gen tri inv {uA'} => [t|d s r c|t|t|t r c|t|t|l r mm|d l r mm|l r] ha wa wi hk en E ha' gen tri inv; try exact: gen.
- apply: inv => //; case: ha => _ [e1 e2] e3 e4; split=> // be; rewrite e3 => hbe; have := uA be hbe; by rewrite -e4 // -e1.
- by apply: (@tri t _ true) => [|be hbe]; [apply: mx_num; apply: num_mx_inv ha; auto|exact: lt_sel ha hbe].
- by apply: (@tri t _ false) => [|be hbe]; [apply: mx_num; apply: num_mx_inv ha; auto|exact: ut_sel ha hbe].
- apply: inv => //; [exact: wi|by case: wa => -[_ _ _ h _] _].
Qed.
End SolveThy.
