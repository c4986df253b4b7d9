(** * C13, continued: the other binary operations, and what the chosen method is *)
From mathcomp Require Import all_ssreflect all_algebra.
From Verif Require Import Outcome Dispatch PropsDispatch Ops2 Solve.
Set Implicit Arguments. Unset Strict Implicit. Unset Printing Implicit Defensive.

(** matrix/ops/subtract.py:8-10 *)
Inductive sub_id := SubGen.
Definition sub_table : option (table sub_id) := Some [::] |> reg PAny PAny 0 SubGen.
(** matrix/ops/ratio.py: 8-20 (no annotations), 23-27, 30-38 *)
Inductive ratio_id := RGen | RWbR | RWb.
Definition ratio_table : option (table ratio_id) :=
  Some [::] |> reg PAny PAny 0 RGen |> reg PAny (PT TWb) 0 RWbR |> reg (PT TWb) (PT TWb) 0 RWb.
(** matrix/ops/iqf.py:8-47 and matrix/ops/iqf_diag.py: the first two arguments; the third has no annotation. *)
Inductive iqf_id := IGen | IWb.
Definition iqf_table : option (table iqf_id) :=
  Some [::] |> reg PAny PAny 0 IGen |> reg (PT TWb) PAny 0 IWb.

Theorem C13_kron_total a b : resolves kron_table a b.
Proof. by case: a; case: b; eexists; vm_compute; reflexivity. Qed.
Print Assumptions C13_kron_total.
Theorem C13_divide_total a b : resolves div_table a b.
Proof. by case: a; case: b; eexists; vm_compute; reflexivity. Qed.
Print Assumptions C13_divide_total.
Theorem C13_matmul_diag_total a b : resolves mmd_table a b.
Proof. by case: a; case: b; eexists; vm_compute; reflexivity. Qed.
Print Assumptions C13_matmul_diag_total.
Theorem C13_solve_total a b : resolves solve_table a b.
Proof. by case: a; case: b; eexists; vm_compute; reflexivity. Qed.
Print Assumptions C13_solve_total.
Theorem C13_subtract_total a b : resolves sub_table a b.
Proof. by case: a; case: b; eexists; vm_compute; reflexivity. Qed.
Print Assumptions C13_subtract_total.
Theorem C13_ratio_total a b : resolves ratio_table a b.
Proof. by case: a; case: b; eexists; vm_compute; reflexivity. Qed.
Print Assumptions C13_ratio_total.
Theorem C13_iqf_total a b : resolves iqf_table a b.
Proof. by case: a; case: b; eexists; vm_compute; reflexivity. Qed.
Print Assumptions C13_iqf_total.

(** The pairs with a [cholesky_solve] method: a factor which is diagonal or triangular, or two Kronecker
    products. *)
Definition csolve_has (a b : ty) : bool :=
  match a, b with
  | TDiag, _ | TLT, _ | TUT, _ | TKron, TKron => true
  | _, _ => false
  end.
Theorem C13_cholesky_solve a b :
  if csolve_has a b then resolves csolve_table a b else lookup csolve_table a b = Raise NotFoundLookup.
Proof. by case: a; case: b; first [eexists; vm_compute; reflexivity | vm_compute; reflexivity]. Qed.
Print Assumptions C13_cholesky_solve.

(** The types with a [triangular_solve] method: the triangular ones. *)
Definition tsolve_has (a : ty) : bool := match a with TLT | TUT => true | _ => false end.
Theorem C13_triangular_solve a b :
  if tsolve_has a then resolves tsolve_table a b else lookup tsolve_table a b = Raise NotFoundLookup.
Proof. by case: a; case: b; first [eexists; vm_compute; reflexivity | vm_compute; reflexivity]. Qed.
Print Assumptions C13_triangular_solve.

Example C13_ex2 : csolve_has TKron TKron /\ ~~ csolve_has TDense TDense /\ tsolve_has TUT /\ ~~ tsolve_has TDiag.
Proof. by []. Qed.

(** ** What "resolves" means, for any table

    A method accepts a call if the annotation of each argument is [AbstractMatrix] or the type of the
    argument; it beats another if its annotations are at least as narrow and the signatures differ. *)
Definition fits (p : pat) (t : ty) : Prop := p = PAny \/ p = PT t.
Definition accepts id (m : meth id) (a b : ty) : Prop := fits (m1 m) a /\ fits (m2 m) b.
Definition narrower (p q : pat) : Prop := q = PAny \/ p = q.
Definition beats id (m m' : meth id) : Prop :=
  [/\ narrower (m1 m) (m1 m'), narrower (m2 m) (m2 m') & ~ (m1 m = m1 m' /\ m2 m = m2 m')].
(** [m] is an accepting method which no accepting method beats. *)
Definition undominated id (tbl : table id) (a b : ty) (m : meth id) : Prop :=
  [/\ List.In m tbl, accepts m a b & forall m', List.In m' tbl -> accepts m' a b -> ~ beats m' m].

Lemma ty_eqbP a b : reflect (a = b) (ty_eqb a b).
Proof. by case: a; case: b; constructor. Qed.
Lemma pat_leP p q : reflect (narrower p q) (pat_le p q).
Proof.
case: q => [|b] /=; first by constructor; left.
case: p => [|a] /=; first by constructor; case.
by apply: (iffP (ty_eqbP a b)) => [->|[|[]]] //; right.
Qed.
Lemma pat_tleP t q : reflect (fits q t) (pat_le (PT t) q).
Proof. by apply: (iffP (pat_leP _ _)); case=> h; [left|right|left|right]. Qed.
Lemma sig_ltP id (m m' : meth id) : reflect (beats m m') (sig_lt m m').
Proof.
rewrite /sig_lt /sig_le; apply: (iffP idP).
  case/andP=> /andP[/pat_leP h1 /pat_leP h2] h3; split=> // -[e1 e2]; move: h3.
  by rewrite e1 e2; case: (m1 m') => [|t]; case: (m2 m') => [|t'] //=; do ?case: ty_eqbP.
case=> /pat_leP h1 /pat_leP h2 h3; rewrite h1 h2 /=; apply/negP => /andP[/pat_leP k1 /pat_leP k2]; apply: h3.
move/pat_leP: h1 => h1; move/pat_leP: h2 => h2.
by split; [case: h1 k1 => -> // [->|->] | case: h2 k2 => -> // [->|->]].
Qed.
Lemma In_filter T (p : pred T) s x : List.In x (filter p s) <-> List.In x s /\ p x.
Proof.
elim: s => [|y s IH] /=; first by split=> // -[].
case e: (p y) => /=; rewrite IH; split.
- by case=> [<-|[h k]]; [rewrite e; split=> //; left|split=> //; right].
- by case=> -[<-|h] k; [left|right].
- by case=> h k; split=> //; right.
- by case=> -[<-|h] k //; rewrite e in k.
Qed.
Lemma has_In T (p : pred T) s : reflect (exists2 x, List.In x s & p x) (has p s).
Proof.
elim: s => [|y s IH] /=; first by constructor=> -[].
case e: (p y) => /=; first by constructor; exists y => //; left.
apply: (iffP IH) => -[x h k]; exists x => //; [by right|].
by case: h k => [<-|//]; rewrite e.
Qed.
Lemma candP id (tbl : table id) a b m :
  List.In m (candidates tbl (PT a) (PT b)) <-> List.In m tbl /\ accepts m a b.
Proof.
rewrite /candidates In_filter; split=> -[h k]; split=> //; first by case/andP: k => /pat_tleP ? /pat_tleP.
by case: k => /pat_tleP -> /pat_tleP ->.
Qed.
Lemma undominatedP id (tbl : table id) a b m :
  List.In m (most_specific (candidates tbl (PT a) (PT b))) <-> undominated tbl a b m.
Proof.
rewrite /most_specific In_filter candP; split.
  case=> -[h k] /has_In n; split=> // m' h' k' /sig_ltP bt; apply: n; exists m' => //; by apply/candP.
case=> h k n; split=> //; apply/has_In => -[m' /candP[h' k'] /sig_ltP bt]; exact: (n m').
Qed.

Lemma maxprec_ge id (c : table id) m : List.In m c -> mprec m <= maxprec c.
Proof. by elim: c => //= x c IH [->|/IH h]; rewrite leq_max ?leqnn ?h ?orbT. Qed.

(** The method which is called is undominated, and if there are other undominated methods, they have a smaller
    precedence: in particular it is the only candidate. *)
Theorem C13_choice id (tbl : table id) a b i : resolve tbl a b = ret i ->
  exists m, [/\ mid m = i, undominated tbl a b m &
    forall m', undominated tbl a b m' -> m' = m \/ mprec m' < mprec m].
Proof.
rewrite /resolve /resolve_pat.
case e: (most_specific _) => [|m c] //.
have U m' : undominated tbl a b m' <-> List.In m' (m :: c) by rewrite -undominatedP e.
case: c e U => [|m2 c] e U.
  by case=> <-; exists m; split=> //; [apply/U; left | move=> m' /U[->|//]; left].
set cc := m :: _ in U *.
case ef: (filter _ _) => [|m0 [|? ?]] //= -[<-]; exists m0.
have h0 : List.In m0 cc /\ mprec m0 == maxprec cc by apply/(@In_filter _ (fun m => mprec m == maxprec cc)); rewrite ef; left.
split=> //; first by apply/U; case: h0.
move=> m' /U h'; case e': (mprec m' == maxprec cc); last first.
  by right; rewrite (eqP (proj2 h0)) ltn_neqAle e' maxprec_ge.
left; have : List.In m' [seq m <- cc | mprec m == maxprec cc] by apply/In_filter.
by rewrite ef => -[->|[]].
Qed.
Print Assumptions C13_choice.

(** If the call fails, no method accepts it, or two undominated methods share the largest precedence. *)
Theorem C13_no_choice id (tbl : table id) a b l e : resolve tbl a b = RaiseL l e ->
  (e = NotFoundLookup /\ forall m, ~ undominated tbl a b m) \/
  (e = AmbiguousLookup /\ exists m m', [/\ undominated tbl a b m, undominated tbl a b m', mprec m = mprec m' &
     forall m'', undominated tbl a b m'' -> mprec m'' <= mprec m]).
Proof.
rewrite /resolve /resolve_pat.
case e0: (most_specific _) => [|m c].
  by case=> _ <-; left; split=> // m /undominatedP; rewrite e0.
have U m' : undominated tbl a b m' <-> List.In m' (m :: c) by rewrite -undominatedP e0.
case: c e0 U => [|m2 c] e0 U //.
set cc := m :: _ in U *.
have X : exists m', List.In m' [seq m <- cc | mprec m == maxprec cc].
  have : exists2 m', List.In m' cc & mprec m' = maxprec cc.
    have: cc <> [::] by [].
    clear; elim: cc => // x [|y s] IH _; first by exists x; [left|rewrite /= maxn0].
    have [//|m' h k] := IH.
    case: (leqP (mprec x) (maxprec (y :: s))) => hx.
      by exists m'; [right|rewrite k; change (maxprec (x :: y :: s)) with (maxn (mprec x) (maxprec (y :: s))); rewrite (maxn_idPr hx)].
    by exists x; [left|change (maxprec (x :: y :: s)) with (maxn (mprec x) (maxprec (y :: s))); rewrite (maxn_idPl (ltnW hx))].
  by case=> m' h k; exists m'; apply/In_filter; rewrite k.
have Y m' : List.In m' [seq m <- cc | mprec m == maxprec cc] -> undominated tbl a b m' /\ mprec m' = maxprec cc.
  by move/In_filter=> [h /eqP k]; split=> //; apply/U.
case ef: (filter _ _) X Y => [|m0 [|m1 s]] X Y //=; first by case: X.
case=> _ <-; right; split=> //; exists m0, m1.
have [u0 p0] := Y m0 (or_introl erefl); have [u1 p1] := Y m1 (or_intror (or_introl erefl)).
by split=> //; [rewrite p0 p1|move=> m3 /U h; rewrite p0 maxprec_ge].
Qed.
Print Assumptions C13_no_choice.

(** For example, [Constant @ LowerTriangular]-like clashes are settled: both [(AbstractMatrix, Zero)] and
    [(Zero, AbstractMatrix)] accept two [Zero]s, and the later one has the larger precedence. *)
Example C13_choice_ex : exists t, add_table = Some t /\ resolve t TZero TZero = ret AZeroL.
Proof. by eexists; split; [reflexivity|vm_compute]. Qed.
