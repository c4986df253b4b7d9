(** * C11, C42: products of a lower and an upper triangular matrix; [iqf_diag] of rectangular triangular matrices *)
From mathcomp Require Import all_ssreflect all_algebra.
From Verif Require Import Outcome Monad Shape Tensor Mat Dispatch Ops LookThy Spec ShapeThy TensorThy TensorThy2 MatThy OpsOk Term Exact Calm Api Bridge Types Samples PropsRaise PropsStruct PropsLimits Ops2 Term2 Term5 Exact2 LinAlg Solve.
Set Implicit Arguments. Unset Strict Implicit. Unset Printing Implicit Defensive.
Import GRing.Theory.
Local Open Scope ring_scope.

Section Tri.
Variable F : rcfType.
Notation mat := (mat F).
Notation tensor := (tensor F).
Variable argsort : seq F -> seq nat.
Notation returns := (returns argsort).
Notation run n := (ops_n argsort n).
Notation T := (@ty_of_matrix F).
Let le n k : ople (ops_n argsort n) (ops_n argsort (n + k)) := ople_n argsort n k.

Local Definition isd (l : log) (c : mat) := isty c TDense.
Lemma dd n (x y : tensor) ta tb : rets (o_matmul (run n) (mk_dense x) (mk_dense y) ta tb) isd.
Proof.
case: n => [//|n]; change (o_matmul (run n.+1)) with (matmul_step (run n)).
by rewrite /matmul_step /to_matrix [T _]/= [T _]/= mm_selE [selof _ _ _]/= bind_ret /mm_body; apply: rets_bindT => ? ?; apply: rets_ret.
Qed.
Lemma dt n (x y : tensor) (b : mat) ta tb : b = LT y \/ b = UT y -> ns y -> rets (o_matmul (run n) (mk_dense x) b ta tb) isd.
Proof.
move=> hb ny; case: n => [//|n]; change (o_matmul (run n.+1)) with (matmul_step (run n)).
have E : rets (mm_body (run n) PGenLT (mk_dense x) b ta tb) isd.
  rewrite /mm_body; apply: rets_bindT => ? ?; apply: rets_bind (rk_denselt argsort n hb ny) _ => ? z nz.
  by rewrite mmNr //; apply: rets_conseq (dd n _ _ _ _) _.
by case: hb E => -> E; rewrite /matmul_step /to_matrix [T _]/= [T _]/= mm_selE [selof _ _ _]/= bind_ret.
Qed.
Lemma td n (x y : tensor) (a : mat) ta tb : a = LT x \/ a = UT x -> ns x -> rets (o_matmul (run n) a (mk_dense y) ta tb) isd.
Proof.
move=> ha nx; case: n => [//|n]; change (o_matmul (run n.+1)) with (matmul_step (run n)).
have E : rets (mm_body (run n) PLTGen a (mk_dense y) ta tb) isd.
  rewrite /mm_body; apply: rets_bindT => ? ?; apply: rets_bind (rk_denselt argsort n ha nx) _ => ? z nz.
  by rewrite mmNl //; apply: rets_conseq (dd n _ _ _ _) _.
by case: ha E => -> E; rewrite /matmul_step /to_matrix [T _]/= [T _]/= mm_selE [selof _ _ _]/= bind_ret.
Qed.
Lemma tt n (x y : tensor) (a b : mat) ta tb : (a = LT x /\ b = UT y) \/ (a = UT x /\ b = LT y) -> ns x -> ns y ->
  rets (o_matmul (run n) a b ta tb) (fun l c => isty c TDense /\ lw l).
Proof.
move=> h nx ny; case: n => [//|n]; change (o_matmul (run n.+1)) with (matmul_step (run n)).
have ha : a = LT x \/ a = UT x by case: h => -[]; [left|right].
have hb : b = LT y \/ b = UT y by case: h => -[]; [right|left].
have mb : ismat b by case: hb => ->.
have ma : ismat a by case: ha => ->.
have sa : structured a by case: ha => ->.
have sb : structured b by case: hb => ->.
have E : rets (mm_body (run n) PLTGen a b ta tb) (fun l c => isty c TDense /\ lw l).
  rewrite /mm_body sb; apply: rets_warn; apply: rets_bind (rk_denselt argsort n ha nx) _ => ? z nz.
  by rewrite mmNl //; apply: rets_conseq (dt _ _ _ _ hb ny) _ => l c h'; split=> //; apply: lwl.
have E' : rets (mm_body (run n) PGenLT a b ta tb) (fun l c => isty c TDense /\ lw l).
  rewrite /mm_body sa; apply: rets_warn; apply: rets_bind (rk_denselt argsort n hb ny) _ => ? z nz.
  by rewrite mmNr //; apply: rets_conseq (td _ _ _ _ ha nx) _ => l c h'; split=> //; apply: lwl.
by case: h E E' => -[-> ->] E E'; rewrite /matmul_step /to_matrix [T _]/= [T _]/= mm_selE [selof _ _ _]/= bind_ret.
Qed.

(** A product of a lower and an upper triangular matrix is dense, with a warning, whatever the transposition flags ... *)
Theorem C11_matmul_mixed n (x y : tensor) (ta tb : bool) l (c : mat) : (2 <= size (sh x))%N -> (2 <= size (sh y))%N ->
  o_matmul (run n) (LT x) (UT y) ta tb = Ret l c \/ o_matmul (run n) (UT x) (LT y) ta tb = Ret l c ->
  ty_of c = Some TDense /\ lw l = true.
Proof.
have s2 (t : tensor) : (2 <= size (sh t))%N -> ns t by rewrite /ns; case: (sh t).
move=> /s2 nx /s2 ny [] e.
  have := @tt n x y (LT x) (UT y) ta tb (or_introl (conj erefl erefl)) nx ny; rewrite e => -[h ->]; split=> //; exact: istyE.
have := @tt n x y (UT x) (LT y) ta tb (or_intror (conj erefl erefl)) nx ny; rewrite e => -[h ->]; split=> //; exact: istyE.
Qed.
(** ... so that [matmul(a, b, tr_a=True)] and [matmul(a.T, b)] are of different classes. *)
Theorem C42_matmul_triangular (x y : tensor) : wf (LT x) -> wf (UT y) ->
  forall n l l' c c', o_matmul (run n) (LT x) (UT y) true false = Ret l c ->
    (do x' <- transpose (LT x); o_matmul (run n) x' (UT y) false false) = Ret l' c' ->
    [/\ ty_of c = Some TDense, lw l = true & ty_of c' = Some TUT].
Proof.
move=> [w1 _] [w2 _] n l l' c c' e e'; have t1 := proj1 (andP w1); have t2 := proj1 (andP w2).
have [-> ->] := C11_matmul_mixed t1 t2 (or_introl e); split=> //.
have s2 (t : tensor) : (2 <= size (sh t))%N -> ns t by rewrite /ns; case: (sh t).
have h : rets (do x' <- transpose (LT x); o_matmul (run n) x' (UT y) false false) (fun _ z => isty z TUT).
  apply: rets_bind (rk_trn true (isT : ismat (LT x)) (s2 _ t1)) _ => ? z [/andP[m1 /tyP e1] n1].
  by case: z m1 e1 n1 => // u _ _ nu; apply: rets_conseq (SPut argsort n false nu (s2 _ t2)) _.
by apply: istyE; move: h; rewrite e'.
Qed.
(** [iqf_diag] of rectangular triangular matrices: the diagonal of the 3x3 matrix [b^T a^-1 c] has three entries, two are returned. *)
Theorem C42_iqf_diag : let a : mat := Diag (ones F [:: 2]%N) in
  let b : mat := LT (Tensor DFloat64 [:: 3; 2]%N (fun idx => if idx is [:: j; i] then (if (i < j)%N then 0 else 1) else 0)) in let c := w_ut F in
  [/\ wf a, wf b, wf c, mshape b = [:: 3; 2]%N & mshape c = [:: 3; 2]%N] /\
      forall k, (0 < k)%N -> returns (fun o => iqf_diag o k a b c false) (fun t => sh t = [:: 2]%N).
Proof.
move=> a b c; split; last move=> k k0.
  by split=> //; split=> // be i j _ _ _ h; rewrite /mx /= h.
exists log0; case: k k0 => // k _; eexists; split.
  by exists 3%N => n; case: n => [|[|[|n]]] // _; vm_compute.
by vm_compute.
Qed.
End Tri.
(** ** The hypotheses can be met *)
Example C11_ex_mixed (F : rcfType) argsort : wf (s_lt F) /\ wf (UT (eye F 2)) /\ exists l (c : mat F), o_matmul (ops_n argsort 4) (s_lt F) (UT (eye F 2)) true false = Ret l c.
Proof. by split; [exact: s_lt_wf|split; [exact: eye_ut|do 2 eexists; vm_compute]]. Qed.
Print Assumptions C11_matmul_mixed. Print Assumptions C42_matmul_triangular. Print Assumptions C42_iqf_diag.
