(** * C48: warnings of the linear algebra functions *)
From mathcomp Require Import all_ssreflect all_algebra.
From Verif Require Import Outcome Monad Shape Tensor Mat Dispatch Ops Spec LookThy Term Calm Types Ops2 Backend Solve Samples Warn Warn2 Warn3 PropsWarn PropsWarn2.
Set Implicit Arguments. Unset Strict Implicit. Unset Printing Implicit Defensive.
Import GRing.Theory.
Local Open Scope ring_scope.

Section Props.
Variable F : rcfType.
Notation tensor := (tensor F).
Notation mat := (mat F).
Variable argsort : seq F -> seq nat.
Notation run n := (ops_n argsort n).
Implicit Types (a b c : mat) (n : nat) (l : log).
Local Notation plP := (fun c : mat => is_true (pl c)).

Lemma s_square ok f (t : tensor) : sil (t_square ok f t) (@nz F).
Proof. by rewrite /t_square; case: (sh t) => [|x [|y s]] //; case: ifP. Qed.
Lemma s_inv (t : tensor) : sil (t_inv t) (@nz F). Proof. exact: s_square. Qed.
Lemma s_chol (t : tensor) : sil (t_chol t) (@nz F). Proof. exact: s_square. Qed.
Lemma s_ssel sel (t u : tensor) : sil (t_solve_sel sel t u) (@nz F).
Proof.
rewrite /t_solve_sel; case: (sh t) => [|x [|y s]] //; case: (sh u) => [|x' [|y' s']] //; case: ifP => // _.
by case: (bc _ _) => // ?; case: ifP.
Qed.
Lemma s_dinv (t : tensor) : sil (diag_inv t) (fun c => exists u, c = Diag u).
Proof. by apply: sil_bind (sil_calm (cm_map2 _ _ _)) _ => u _; exact: s_diag. Qed.
Lemma W_silT A w (m : outcome A) P (Q : bool -> A -> Prop) : sil m P -> (forall x : A, P x -> Q w x) -> W w m Q.
Proof. by move=> h H; apply: W_conseq (silW w h) _ => w' x [-> /H]. Qed.

(** ** The Cholesky factor: only that of a Woodbury matrix is found by conversion, with a warning *)
Definition iswb (k : kind) : bool := if k is KWb _ then true else false.
Definition cholk (a : mat) (c : mat) : bool :=
  match a with
  | LR _ _ _ => pl c
  | Dense _ | Wb _ _ _ _ => kd c == KLT
  | _ => kd c == kd a
  end.
Lemma s_cholpl n a : pl a -> sil (cholesky (run n) a) (fun c => std c /\ cholk a c).
Proof.
case: a => // t h; cbn [cholesky].
- by apply: sil_bind (s_chol _) _ => u hu; apply: sil_ret.
- apply: sil_bind (sil_calm (cm_as _)) _ => _ _; apply: sil_bind (s_chol _) _ => u hu.
  by apply: sil_conseq (s_lt u) _ => c [t' -> /= ->].
Qed.
Lemma s_cholmd n a : md a -> sil (cholesky (run n) a) (fun c => md c).
Proof.
case E: (pl a) => h; first by apply: sil_conseq (s_cholpl n E) _ => c []; case: a E {h} => // t _; case: c.
case: a E h => // t E h; rewrite ?(negbTE (negbT E)) //; cbn [cholesky]; try by rewrite [pl _]h in E.
by apply: sil_bind (sil_calm (cm_as _)) _ => _ _; apply: sil_conseq (s_diag _) _ => c [t' ->].
Qed.
Lemma w_chol n a : std a -> W false (cholesky (run n) a) (fun w c => [/\ w = iswb (kd a), kd a != KKron -> std c & cholk a c]).
Proof.
move=> h; have I := inv_n argsort n.
have P x w : pl x -> W w (cholesky (run n) x) (fun w' c => w' = w /\ (std c /\ cholk x c)).
  by move=> hx; exact: silW (s_cholpl n hx).
case: a h => [t|d b r k|t|t|t r k|t|t|x y m|d x y m|x y] h.
- by apply: W_conseq (P (Nm t) false h) _ => w c [-> []].
- by apply: W_sil (sil_calm (cm_as _)) _ => _ _; apply: W_ret.
- by apply: W_conseq (P (Dense t) false h) _ => w c [-> []].
- by apply: W_sil (sil_calm (cm_as _)) _ => _ _; apply: W_silT (s_diag _) _ => c [? ->].
- apply: W_sil (sil_calm (cm_as _)) _ => _ _; apply: W_sil (sil_calm (cm_map2 _ _ _)) _ => u _.
  by apply: W_silT (s_const _ _) _ => c [? [? [? ->]]].
- by [].
- by [].
- have /and3P[h1 h2 h3] := h; cbn [cholesky]; apply: W_sil (sil_calm (cm_as _)) _ => _ _; apply: W_sil (s_cholmd n h3) _ => z hz.
  by apply: W_silT (s_mmpm I false false h1 hz) _ => c hc; split=> // _; exact: std_pl.
- cbn [cholesky]; rewrite /warn; apply: W_warn; apply: W_sil (v_dense I (a := Wb d x y m) h) _ => t _; apply: W_sil (s_chol _) _ => u _.
  by apply: W_silT (s_lt _) _ => c [t' -> ht].
- have /andP[h1 h2] := h; cbn [cholesky].
  by apply: W_sil (s_cholpl n h1) _ => c1 _; apply: W_sil (s_cholpl n h2) _ => c2 _; apply: W_ret.
Qed.
Theorem C48_cholesky n a l c : std a -> cholesky (run n) a = Ret l c -> lw l = iswb (kd a).
Proof. by move=> h e; have := w_chol n h; rewrite e => -[]. Qed.

(** ** Roots: those of low-rank and Woodbury matrices are found by conversion, with a warning *)
Theorem C48_root n svd a l c : std a -> root (run n) svd a = Ret l c ->
  lw l = (if kd a is (KLR _ | KWb _) then true else false).
Proof.
move=> h e; suff : W false (root (run n) svd a) (fun w _ => w = (if kd a is (KLR _ | KWb _) then true else false)) by rewrite e.
have mono A (m : outcome A) : W true m (fun w _ => w = true) by case: m.
have P x : pl x -> sil (root (run n) svd x) (fun _ => True).
  case: x => // t hx; cbn [root]; (apply: sil_bind (sil_calm (cm_as _)) _ => _ _; apply: (sil_bind (P := @nz F)) => [|? _]; [exact: s_square|exact: sil_ret]).
have C x : kd x \in [:: KDiag; KConst] -> std x -> sil (do _ <- assert_square x; cholesky (run n) x) (fun _ => True).
  move=> hk hx; apply: sil_bind (sil_calm (cm_as _)) _ => _ _.
  apply: rets_conseq (w_chol n hx) _ => l' c' [e1 _ _]; split=> //; move: e1 hk; rewrite /= => ->; by case: x {hx} => //.
case: a h {e} => [t|d b r k|t|t|t r k|t|t|x y m|d x y m|x y] h.
- by apply: W_silT (P (Nm t) h) _.
- by apply: W_sil (sil_calm (cm_as _)) _ => _ _; apply: W_ret.
- by apply: W_silT (P (Dense t) h) _.
- by apply: W_silT (C (Diag t) isT isT) _.
- by apply: W_silT (C (Const t r k) isT isT) _.
- by [].
- by [].
- by cbn [root]; rewrite /warn; apply: W_warn; exact: mono.
- by cbn [root]; rewrite /warn; apply: W_warn; exact: mono.
- case/andP: h => h1 h2; cbn [root]; apply: W_sil (P x h1) _ => ? _; apply: W_sil (P y h2) _ => ? _; exact: W_ret.
Qed.

(** ** Inverses and Schur complements never warn *)
Definition wmiddle (k : kind) : kind := if k is KWb _ then KWb false else k.
Lemma s_addmp n a b : md a -> pl b -> sil (o_add (run n) a b) plP.
Proof.
move=> ha hb; apply: sil_pl (v_add (inv_n argsort n) (std_md ha) (std_pl hb)) _; by case: a ha => //; case: b hb.
Qed.
Section Wb.
Variables (n : nat) (inv : mat -> outcome mat).
Hypothesis hm : forall m, md m -> sil (inv m) (fun c => md c).
Hypothesis hp : forall m, pl m -> sil (inv m) plP.
Lemma s_schur d x y m : pl x -> pl y -> md m -> sil (schur_with (run n) inv d x y m) plP.
Proof.
move=> h1 h2 h3; apply: sil_bind (s_dinv d) _ => ? [u ->]; apply: sil_bind (s_mm3 (inv_n argsort n) true false false h2 _ h1) _ => [//|z hz].
by apply: sil_bind (hm h3) _ => mi hmi; exact: s_addmp.
Qed.
Lemma s_wbinv d x y m : pl x -> pl y -> md m ->
  sil (woodbury_inv (run n) inv d x y m) (fun c => std c /\ kd c = KWb false).
Proof.
move=> h1 h2 h3; have I := inv_n argsort n; apply: sil_bind (s_dinv d) _ => ? [u ->].
apply: sil_bind (s_mmmp I false false _ h1) _ => [//|x' hx']; apply: sil_bind (s_mmmp I false false _ h2) _ => [//|y' hy'].
apply: sil_bind (s_schur d h1 h2 h3) _ => s hs; apply: sil_bind (hp hs) _ => si hsi.
apply: sil_bind (s_lowrank _ _ _) _ => ? ->.
apply: sil_bind (s_neg (a := LR x' y' si) _) _ => [|b' /andP[q1 /eqP q2]]; first by rewrite /= hx' hy' pl_md.
apply: rets_conseq (v_add I (a := Diag u) isT q1) _ => l c; rewrite q2 /= (pl_st hsi) /inS inE => /andP[h4 /eqP[h5 h6]].
by rewrite h6.
Qed.
End Wb.
Lemma s_invn n k a : std a -> sil (Solve.inv_n (run n) k a) (fun c => kd c = wmiddle (kd a) /\ (kd a != KKron -> std c)).
Proof.
elim: k a => [//|k IH] a h.
have hm m : md m -> sil (Solve.inv_n (run n) k m) (fun c => md c).
  by move=> hmd; apply: sil_conseq (IH m (std_md hmd)) _ => c [e h1]; move: e (h1); case: m hmd {h1} => // t _; case: c => //= ? _ h2; exact: h2.
have hp m : pl m -> sil (Solve.inv_n (run n) k m) plP.
  by move=> hpl; apply: sil_conseq (IH m (std_pl hpl)) _ => c [e h1]; move: e (h1); case: m hpl {h1} => // t _; case: c => //= ? _ h2; exact: h2.
case: a h => [t|d b r q|t|t|t r q|t|t|x y m|d x y m|x y] h; cbn [Solve.inv_n]; try by [].
- by apply: sil_bind (s_inv _) _ => u hu; apply: sil_ret.
- by apply: sil_bind (s_inv _) _ => u hu; apply: sil_ret; rewrite /= ns_up.
- by apply: sil_conseq (s_dinv _) _ => c [? ->].
- by case/and3P: h => h1 h2 h3; apply: sil_conseq (s_wbinv n hm hp d h1 h2 h3) _ => c [-> ->].
- case/andP: h => h1 h2; apply: sil_bind (hp x h1) _ => ? ?; apply: sil_bind (hp y h2) _ => ? ?; exact: sil_ret.
Qed.
Theorem C48_inv n k a l c : std a -> Solve.inv_n (run n) k a = Ret l c -> lw l = false /\ kd c = wmiddle (kd a).
Proof. by move=> h e; have := s_invn n k h; rewrite e => -[/negbTE -> []]. Qed.
Theorem C48_schur n k a l c : std a -> schur_n (run n) k a = Ret l c -> lw l = false /\ ~~ skind (kd c).
Proof.
move=> h e; suff : sil (schur_n (run n) k a) plP by rewrite e => -[/negbTE ->]; case: c {e}.
case: a h {e} => // d x y m /and3P[h1 h2 h3]; apply: s_schur => // q hq.
by apply: sil_conseq (s_invn n k (std_md hq)) _ => c' [e h4]; move: e (h4); case: q hq {h4} => // t _; case: c' => //= ? _ h5; exact: h5.
Qed.

(** ** Solving linear systems *)
Definition solvek (x y : kind) : seq (kind * bool) :=
  match x, y with
  | _, KZero => [:: (KZero, false)]
  | KDiag, _ => mmk KDiag y
  | KWb _, _ => mmk (KWb false) y
  | (KLT | KUT), _ => [:: (KDense, skind y)]
  | _, _ => [:: (KNum, skind x || skind y)]
  end.
Definition sel_solve (x y : ty) : solve_id :=
  match x, y with _, TZero => SZero | TDiag, _ => SDiag | TLT, _ => SLT | TUT, _ => SUT | TWb, _ => SWb | _, _ => SGen end.
Lemma look_s x y : lookup solve_table x y = ret (sel_solve x y). Proof. by case: x; case: y. Qed.
Lemma s_al2 (x y : mat) : std x -> std y -> sil (align_batch [:: x; y]) (fun s => exists u v : mat, [/\ s = [:: u; v], std u & std v]).
Proof.
move=> hl hr; apply: sil_bind (sil_calm (cm_sbb _)) _ => b _ /=.
apply: sil_bind (s_bbM b hl) _ => u /andP[hx _]; apply: (sil_bind (P := fun s => exists2 v, s = [:: v] & std v)) => [|s [v -> hy]].
  by apply: sil_bind (s_bbM b hr) _ => v /andP[hy _]; apply: sil_ret; exists v.
by apply: sil_ret; exists u, v.
Qed.
Lemma w_solve_m n k a b : ismat a -> ismat b -> std a -> std b ->
  W false (solve_m (run n) k a b) (inS (solvek (kd a) (kd b))).
Proof.
move=> ma mb ha hb; have I := inv_n argsort n; rewrite /solve_m look_s bind_ret.
have Gen : W false (do _ <- warn_if (structured a || structured b); do ab <- align_batch [:: a; b];
      do x <- o_dense (run n) (nth a ab 0); do y <- o_dense (run n) (nth b ab 1);
      do u <- t_solve x y; ret (Nm u)) (inS [:: (KNum, structured a || structured b)]).
  apply: W_warn; apply: W_sil (s_al2 ha hb) _ => s [u [v [-> hu hv]]].
  apply: W_sil (v_dense I hu) _ => ? _; apply: W_sil (v_dense I hv) _ => ? _; apply: W_sil (s_ssel _ _ _) _ => z hz.
  by apply: W_ret; rewrite /inS /= hz inE eqxx.
have Tri t lo : ns t -> W false (do _ <- warn_if (structured b); do ab <- align_batch [:: Nm t; b];
      do x <- o_dense (run n) (nth a ab 0); do y <- o_dense (run n) (nth b ab 1);
      do u <- t_trisolve x y lo; ret (mk_dense u)) (inS [:: (KDense, structured b)]).
  move=> ht; apply: W_warn; apply: W_sil (s_al2 (x := Nm t) ht hb) _ => s [u [v [-> hu hv]]].
  apply: W_sil (v_dense I hu) _ => ? _; apply: W_sil (v_dense I hv) _ => ? _; apply: W_sil (s_ssel _ _ _) _ => z hz.
  by apply: W_ret; rewrite /inS /= ns_up inE eqxx.
have Inv : kd a != KKron -> W false (do ai <- Solve.inv_n (run n) k a; o_matmul (run n) ai b false false) (inS (mmk (wmiddle (kd a)) (kd b))).
  move=> nk; apply: W_sil (s_invn n k ha) _ => ai [e1 /(_ nk) h1]; have := v_matmul I false false h1 hb; rewrite e1 /trk binE ?kmatE //.
  by move: (kmatE ma); case: (kd a).
have Z : kd b = KZero -> W false (ret b) (inS [:: (KZero, false)]) by move=> e; apply: W_ret; rewrite /inS hb e inE eqxx.
have B : kd b != KZero -> kd b != KNum -> sel_solve (ty_of_matrix a) (ty_of_matrix b) = sel_solve (ty_of_matrix a) TDense /\
    solvek (kd a) (kd b) = (match kd a with KDiag => mmk KDiag (kd b) | KWb _ => mmk (KWb false) (kd b)
        | KLT | KUT => [:: (KDense, structured b)] | _ => [:: (KNum, structured a || structured b)] end).
  by move: ma; clear; case: a => //; case: b.
have nb := kmatE mb; case: (kd b =P KZero) => [e|/eqP e].
  have [-> ->] : sel_solve (ty_of_matrix a) (ty_of_matrix b) = SZero /\ solvek (kd a) (kd b) = [:: (KZero, false)].
    by move: e ma; clear; case: b => //; case: a.
  exact: Z.
have [-> ->] := B e nb; case: a ma ha Gen Tri Inv {B} => [t|d s r q|t|t|t r q|t|t|x y m|d x y m|x y] ma ha Gen Tri Inv; [discriminate ma|..].
- exact: Gen.
- exact: Gen.
- exact (Inv isT).
- exact: Gen.
- exact: (Tri t true ha).
- exact: (Tri t false ha).
- exact: Gen.
- exact (Inv isT).
- exact: Gen.
Qed.
Theorem C48_solve n k a b l c : usual a -> usual b -> ismat a || ismat b ->
  solve (run n) k a b = Ret l c -> (kd c, lw l) \in solvek (kind_of a) (kind_of b).
Proof.
move=> ha hb hm; have -> : solve (run n) k a b = solve_m (run n) k (to_matrix a) (to_matrix b).
  by move: hm; clear; case: a => [?|*|*|*|*|*|*|*|*|*]; [case: b => [? h|*|*|*|*|*|*|*|*|*]; [discriminate h|..]|..] => *.
exact: Wret (w_solve_m n k (ismT a) (ismT b) ha hb).
Qed.
(** Solving with an array or a dense matrix, a diagonal, triangular or Woodbury matrix, and an array or dense right-hand side never warns. *)
Theorem C48_solve_silent n k a b l c : usual a -> usual b -> ismat a || ismat b ->
  (if kind_of a is (KDense | KDiag | KLT | KUT | KWb _) then true else false) -> unstructured b ->
  solve (run n) k a b = Ret l c -> lw l = false.
Proof.
move=> ha hb hm ka /eqP kb e; have := C48_solve ha hb hm e; rewrite kb; move: ka; case: (kind_of a) => // [| | | |s] _; rewrite !inE => /eqP[_ ->] //.
Qed.
Lemma look_ts x y : lookup tsolve_table x y = match x with TLT => ret TsLT | TUT => ret TsUT | _ => Raise NotFoundLookup end.
Proof. by case: x; case: y. Qed.
Theorem C48_triangular_solve n k a b lo l c : usual a -> usual b -> ismat a || ismat b ->
  triangular_solve (run n) k a b lo = Ret l c -> (kd c, lw l) \in solvek (kind_of a) (kind_of b) /\ kind_of a \in [:: KLT; KUT].
Proof.
move=> ha hb hm; have -> : triangular_solve (run n) k a b lo =
    (do i <- lookup tsolve_table (ty_of_matrix (to_matrix a)) (ty_of_matrix (to_matrix b)); solve (run n) k (to_matrix a) (to_matrix b)).
  by move: hm; clear; case: a => [?|*|*|*|*|*|*|*|*|*]; [case: b => [? h|*|*|*|*|*|*|*|*|*]; [discriminate h|..]|..] => *.
rewrite look_ts => e.
have [ty e'] : kd (to_matrix a) \in [:: KLT; KUT] /\ solve (run n) k (to_matrix a) (to_matrix b) = Ret l c.
  move: e; case E: (to_matrix a) => [?|? ? ? ?|?|?|? ? ?|?|?|? ? ?|? ? ? ?|? ?]; cbn [ty_of_matrix]; rewrite ?bind_ret; try by [].
split; last exact: ty.
have := @C48_solve n k (to_matrix a) (to_matrix b) l c; rewrite /usual /kind_of !toM; apply=> //; by rewrite ismT.
Qed.

(** ** Positive-definite inverses and log-determinants never warn *)
Lemma s_solvetri n k (a : mat) b : (kd a == KDiag) || (kd a == KLT) || (kd a == KUT) -> std a -> pl b -> sil (solve (run n) k a b) plP.
Proof.
move=> ha sa hb; have ma : ismat a by move: ha; case: a {sa}.
have mb := ismT b; have sb : std (to_matrix b) by case: b hb {mb} => // t ht; rewrite /to_matrix conv_ns //= ns_up.
have kb : kd (to_matrix b) = KDense by case: b hb {mb sb} => // t ht; rewrite /to_matrix conv_ns.
have -> : solve (run n) k a b = solve_m (run n) k a (to_matrix b) by move: ma; clear; case: a => [? h|*|*|*|*|*|*|*|*|*]; [discriminate h|..].
have := w_solve_m n k ma mb sa sb; rewrite kb => h; apply: sil_pl h _.
by case/orP: ha => [/orP[]|] /eqP ->.
Qed.
Lemma s_csolve n k c b : std c -> kd c != KKron -> pl b -> sil (cholesky_solve (run n) k c b) plP.
Proof.
move=> hc nk hb; case E: ((kd c == KDiag) || (kd c == KLT) || (kd c == KUT)); last first.
  by move: E nk {hc}; case: c => // *; rewrite /cholesky_solve; case: b {hb}.
have -> : cholesky_solve (run n) k c b = (do x <- solve (run n) k c (to_matrix b); do c' <- transpose c; solve (run n) k c' x).
  have L1 T : lookup csolve_table TDiag T = ret CTri by case: T.
  have L2 T : lookup csolve_table TLT T = ret CTri by case: T.
  have L3 T : lookup csolve_table TUT T = ret CTri by case: T.
  by move: E; clear -L1 L2 L3; case: c => // t _; cbn [cholesky_solve ty_of_matrix]; rewrite ?L1 ?L2 ?L3 bind_ret.
have pb : pl (to_matrix b) by case: b hb => // t ht; rewrite /to_matrix conv_ns //= ns_up.
apply: sil_bind (s_solvetri n k E hc pb) _ => x hx; apply: sil_bind (s_trM hc) _ => c' /andP[h1 /eqP h2].
by apply: s_solvetri => //; rewrite h2; move: E; clear; case: (kd c).
Qed.
Lemma s_pdinv n k a : std a -> sil (pd_inv_n (run n) k a) (fun c => [/\ pl a -> pl c, md a -> md c & iswb (kd a) -> std c /\ kd c = KWb false]).
Proof.
elim: k a => [//|k IH] a h; have I := inv_n argsort n.
have hm m : md m -> sil (pd_inv_n (run n) k m) (fun c => md c) by move=> q; apply: sil_conseq (IH m (std_md q)) _ => c [_ h1 _]; exact: h1.
have hp m : pl m -> sil (pd_inv_n (run n) k m) plP by move=> q; apply: sil_conseq (IH m (std_pl q)) _ => c [h1 _ _]; exact: h1.
have sT : std (to_matrix a) by case: a h => // t ht; rewrite /to_matrix conv_ns //= ns_up.
have G : kd (to_matrix a) != KKron -> iswb (kd a) = false ->
    sil (let a := to_matrix a in do c <- cholesky (run n) a; do e <- eye_of a; do t <- o_dense (run n) e; cholesky_solve (run n) k c (Nm t))
        (fun c => [/\ pl a -> pl c, md a -> md c & iswb (kd a) -> std c /\ kd c = KWb false]).
  move=> nk nw; rewrite /=.
  have C : sil (cholesky (run n) (to_matrix a)) (fun c => std c /\ kd c != KKron).
    apply: rets_conseq (w_chol n sT) _ => l c [e1 /(_ nk) e2 e3]; split.
      by move: e1; rewrite /= => ->; case: a nw {h sT e2 e3 nk} => // t _; rewrite /to_matrix /convert_num; case: (sh t) => // *; case: ifP.
    by split=> //; move: e3 nk; case: (to_matrix a) => //=; case: c {e1 e2}.
  apply: sil_bind C _ => c [hc kc]; apply: (sil_bind (P := fun e => exists u, e = Diag u)) => [|? [u ->]].
    apply: sil_bind (sil_calm (cm_as _)) _ => _ _; apply: sil_bind (sil_calm (cm_sm _)) _ => -[? ?] _; exact: s_fill.
  apply: sil_bind (v_dense I (a := Diag u) isT) _ => t ht.
  by apply: sil_conseq (s_csolve n k hc kc (b := Nm t) ht) _ => c' hc'; split=> // [_|]; [exact: pl_md|rewrite nw].
case: a h G {sT} => [t|d s r q|t|t|t r q|t|t|x y m|d x y m|x y] h G; cbn [pd_inv_n]; try exact: (G isT erefl).
- by apply: G => //; rewrite /to_matrix conv_ns.
- by apply: sil_conseq (s_dinv _) _ => c [? ->].
- by case/and3P: h => h1 h2 h3; apply: sil_conseq (s_wbinv n hm hp d h1 h2 h3) _ => c [h4 h5].
- by case/andP: h => h1 h2; apply: sil_bind (hp x h1) _ => ? ?; apply: sil_bind (hp y h2) _ => ? ?; exact: sil_ret.
Qed.
Theorem C48_pd_inv n k a l c : std a -> pd_inv_n (run n) k a = Ret l c -> lw l = false.
Proof. by move=> h; exact: silret (s_pdinv n k h). Qed.
Lemma s_pdschur n k a : std a -> sil (pd_schur_n (run n) k a) plP.
Proof.
case: a => // d x y m /and3P[h1 h2 h3]; apply: s_schur => // q hq.
by apply: sil_conseq (s_pdinv n k (std_md hq)) _ => c' [_ h4 _]; exact: h4.
Qed.
Lemma s_logdet n lg k a : std a -> sil (logdet_n (run n) lg k a) (fun _ => True).
Proof.
elim: k a => [//|k IH] a h; have I := inv_n argsort n.
have D x : std x -> sil (logdet_diag (run n) lg x) (fun _ => True).
  by move=> hx; apply: sil_bind (v_diag I hx) _ => t _; exact: sil_calm (cm_sumpos _ _).
have mp (s t : tensor) : sil (Tensor.t_add s t) (fun _ => True) by exact: sil_calm (cm_map2 _ _ _).
have G : ~~ iswb (kd a) -> kd a != KKron -> sil (do c <- cholesky (run n) a; do t <- logdet_n (run n) lg k c; ret (t_scale 2%:R t)) (fun _ => True).
  move=> nw nk; apply: (sil_bind (P := fun c => std c)) => [|c hc]; last by apply: sil_bind (IH c hc) _.
  apply: rets_conseq (w_chol n h) _ => l c [e1 /(_ nk) e2 e3]; split=> //; by move: e1; rewrite /= => ->.
case: a h G => [t|d s r q|t|t|t r q|t|t|x y m|d x y m|x y] h G; cbn [logdet_n]; try exact: (G isT isT); try exact: (D _ h).
- apply: sil_bind (s_chol _) _ => ? _; apply: sil_bind (sil_calm (cm_dx _)) _ => ? _; apply: sil_bind (sil_calm (cm_sumpos _ _)) _ => ? _; exact: sil_ret.
- have /and3P[h1 h2 h3] := h; apply: sil_bind (IH (Diag d) isT) _ => ? _; apply: sil_bind (IH m (std_md h3)) _ => ? _.
  apply: sil_bind (mp _ _) _ => ? _; apply: sil_bind (s_pdschur n k (a := Wb d x y m) h) _ => s hs.
  by apply: sil_bind (IH s (std_pl hs)) _ => ? _; exact: mp.
- case/andP: h => h1 h2; do 2![apply: sil_bind (sil_calm (cm_as _)) _ => _ _]; do 2![apply: sil_bind (sil_calm (cm_sm _)) _ => -[? ?] _].
  by apply: sil_bind (IH x (std_pl h1)) _ => ? _; apply: sil_bind (IH y (std_pl h2)) _ => ? _; exact: mp.
Qed.
Theorem C48_logdet n lg k a l t : std a -> logdet_n (run n) lg k a = Ret l t -> lw l = false.
Proof. by move=> h; exact: silret (s_logdet n lg k h). Qed.

(** ** Quadratic forms with plain arrays never warn, for a plain, diagonal or Woodbury matrix *)
Lemma s_solvepl n k c b : kd c \in [:: KNum; KDiag; KLT] -> std c -> pl b -> sil (solve (run n) k c b) plP.
Proof.
move=> hk hc hb; case E: (kd c == KNum); last by apply: s_solvetri => //; move: hk E; clear; case: c.
case: c E hk hc => // t _ _ ht; case: b hb => // u hu.
  by apply: sil_bind (s_ssel _ _ _) _ => z hz; apply: sil_ret.
rewrite -[solve _ _ _ _]/(solve_m (run n) k (to_matrix (Nm t)) (Dense u)) /to_matrix conv_ns //.
by apply: sil_pl (w_solve_m n k (a := mk_dense t) (b := Dense u) isT isT (ns_up _) hu) _.
Qed.
Theorem C48_iqf n k a b c same l r : std a -> (if kd a is (KNum | KDense | KDiag | KWb _) then true else false) -> pl b -> pl c ->
  iqf (run n) k a b c same = Ret l r -> lw l = false.
Proof.
move=> ha ka hb hc; have I := inv_n argsort n; apply: (@silret _ _ plP).
have N : ~~ iswb (kd a) -> sil (do ' (cb, cc) <- iqf_parts (run n) k a b c same; o_matmul (run n) cb cc true false) plP.
  move=> nw; apply: (sil_bind (P := fun p => pl p.1 && pl p.2)) => [|[x y] /andP[h1 h2]]; last exact: s_mmpl.
  apply: (sil_bind (P := fun q => std q /\ kd q \in [:: KNum; KDiag; KLT])) => [|q [hq kq]].
    apply: rets_conseq (w_chol n ha) _ => l' c' [e1 e2 e3]; split; first by move: e1; rewrite /= => ->.
    split; first by apply: e2; move: ka; case: (kd a).
    by move: ka e3 nw; clear; case: a => // [t|t|t] _; case: c'.
  apply: sil_bind (s_solvepl n k kq hq hb) _ => x hx; apply: (sil_bind (P := plP)) => [|y hy]; last by apply: sil_ret; rewrite /= hx.
  by case: same; [exact: sil_ret|exact: s_solvepl].
case: a ha ka N => // [t|t|t|d x y m] ha _ N; try exact (N isT).
rewrite /iqf; apply: sil_bind (s_pdinv n k ha) _ => ai [_ _ /(_ isT)[h1 h2]].
rewrite /mm3; do 3![apply: sil_bind (sil_calm (cm_sm _)) _ => -[? ?] _]; case: ifP => _.
  apply: (sil_bind (P := plP)) => [|z hz]; last exact: s_mmpl.
  by apply: sil_pl (v_matmul I true false (std_pl hb) h1) _; rewrite h2; move: hb; clear; case: b.
apply: (sil_bind (P := plP)) => [|z hz]; last exact: s_mmpl.
by apply: sil_pl (v_matmul I false false h1 (std_pl hc)) _; rewrite h2; move: hc; clear; case: c.
Qed.
End Props.

Print Assumptions C48_cholesky. Print Assumptions C48_root. Print Assumptions C48_inv. Print Assumptions C48_schur.
Print Assumptions C48_solve. Print Assumptions C48_solve_silent. Print Assumptions C48_triangular_solve.
Print Assumptions C48_pd_inv. Print Assumptions C48_logdet. Print Assumptions C48_iqf.

(** The hypotheses are met by matrices of all classes. *)
Example C48_ex_la (F : rcfType) : std (w_wb F) /\ std (w_lr F) /\ iswb (kd (w_wb F)) /\ pl (w_col F).
Proof. by []. Qed.
