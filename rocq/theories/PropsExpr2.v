(** * C51: programs which mix all structure-building functions *)
From mathcomp Require Import all_ssreflect all_algebra zify.
From Verif Require Import Outcome Monad Shape Tensor Mat Dispatch Ops Ops2 Block Spec ShapeThy TensorThy TensorThy2 MatThy OpsOk DenseOk LookThy AddOk MulOk MmOk OpsMain Term Calm Api Bridge Ans SumThy PropsSum PropsArith PropsStruct PropsLift PropsTake BlockThy PropsBlock PropsMm PropsExpr.
From Verif Require Import Samples.
Set Implicit Arguments. Unset Strict Implicit. Unset Printing Implicit Defensive.
Import GRing.Theory Num.Theory.
Local Open Scope ring_scope.

Section Programs.
Variable F : rcfType.
Notation tensor := (tensor F).
Notation mat := (mat F).

(** Programs over matrix objects and arrays: [a + b], [a - b], [a * b], [matmul(a, b, tr_a, tr_b)], [a.T], [-a],
    [x * a], [a ** n], [abs(a)], [kron(a, b)], [take(a, x, axis)], [submatrix(a, x)], [broadcast_batch_to(a, *b)],
    [cast(d, a)], [block([a, b], [c, d])] and [block_diag(a, b)]. *)
Inductive prog : Type :=
| PLeaf of mat
| PAdd of prog & prog
| PSub of prog & prog
| PMul of prog & prog
| PMM of bool & bool & prog & prog
| PT of prog
| PNeg of prog
| PScale of dtype & F & prog
| PPow of nat & prog
| PAbs of prog
| PKron of prog & prog
| PTake of iom & int & prog
| PPart of iom & prog
| PBatch of shape & prog
| PCast of dtype & prog
| PBlock of prog & prog & prog & prog
| PDiags of prog & prog.

(** What Python does: evaluate the arguments from left to right, call the function of the library. *)
Fixpoint peval (n : nat) (o : ops F) (e : prog) : outcome mat :=
  match e with
  | PLeaf a => ret a
  | PAdd x y => do a <- peval n o x; do b <- peval n o y; o_add o a b
  | PSub x y => do a <- peval n o x; do b <- peval n o y; subtract o a b
  | PMul x y => do a <- peval n o x; do b <- peval n o y; o_mul o a b
  | PMM ta tb x y => do a <- peval n o x; do b <- peval n o y; o_matmul o a b ta tb
  | PT x => do a <- peval n o x; transpose a
  | PNeg x => do a <- peval n o x; negative a
  | PScale d v x => do a <- peval n o x; o_mul o (Nm (t_scalar d v)) a
  | PPow k x => do a <- peval n o x; power_op o k a
  | PAbs x => do a <- peval n o x; abs_op o a
  | PKron x y => do a <- peval n o x; do b <- peval n o y; kron_n n a b
  | PTake i ax x => do a <- peval n o x; take_op o a i ax
  | PPart i x => do a <- peval n o x; submatrix o a i
  | PBatch s x => do a <- peval n o x; broadcast_batch_to a s
  | PCast d x => do a <- peval n o x; cast d a
  | PBlock x y z w => do a <- peval n o x; do b <- peval n o y; do c <- peval n o z; do d <- peval n o w;
                      block o [:: [:: a; b]; [:: c; d]]
  | PDiags x y => do a <- peval n o x; do b <- peval n o y; block_diag o [:: a; b]
  end.

(** ** Specification *)
(** Position of an axis, counted from the last one, in an array of the given rank. *)
Definition axis_pos (rank : nat) (axis : int) : nat := match axis with Negz n => n | Posz n => (rank - n.+1)%N end.
Definition axis_ok (rank : nat) (axis : int) : bool := match axis with Negz n | Posz n => (n < rank)%N end.
(** The positions on an axis of length [d] which indices (possibly negative) or a mask select. *)
Definition positions (d : nat) (x : iom) : seq nat :=
  match x with
  | Idx l => [seq (match i with Posz n => n | Negz n => d - n.+1 end)%N | i : int <- l]
  | Mask m => [seq p <- iota 0 (size m) | nth false m p]
  end.
Definition valid (d : nat) (x : iom) : bool :=
  match x with
  | Idx l => (0 < size l)%N && all (fun i : int => match i with Posz n | Negz n => n < d end)%N l
  | Mask m => (size m == d) && has id m
  end.

(** Rows, columns and batch shape of the result. *)
Fixpoint dims (e : prog) : nat * nat * shape :=
  match e with
  | PLeaf a => (mrows a, mcols a, mbatch a)
  | PAdd x y | PSub x y | PMul x y => ((dims x).1, bct (dims x).2 (dims y).2)
  | PMM ta tb x y => (if ta then (dims x).1.2 else (dims x).1.1, if tb then (dims y).1.1 else (dims y).1.2, bct (dims x).2 (dims y).2)
  | PT x => ((dims x).1.2, (dims x).1.1, (dims x).2)
  | PNeg x | PScale _ _ x | PPow _ x | PAbs x | PCast _ x => dims x
  | PKron x y => ((dims x).1.1 * (dims y).1.1, (dims x).1.2 * (dims y).1.2, bct (dims x).2 (dims y).2)%N
  | PTake i ax x =>
      let '(r, c, b) := dims x in
      let p := axis_pos (size b).+2 ax in
      let n := size (positions (nth 0%N [:: c, r & b] p) i) in
      match p with 0 => (r, n, b) | 1 => (n, c, b) | q.+2 => (r, c, upd b q n) end
  | PPart i x => let n := size (positions (dims x).1.1 i) in (n, n, (dims x).2)
  | PBatch s x => ((dims x).1, s)
  | PBlock x y z w => ((dims x).1.1 + (dims z).1.1, (dims x).1.2 + (dims y).1.2,
      bct (bct (dims x).2 (dims y).2) (bct (dims z).2 (dims w).2))%N
  | PDiags x y => ((dims x).1.1 + (dims y).1.1, (dims x).1.2 + (dims y).1.2, bct (dims x).2 (dims y).2)%N
  end.
Notation rows e := (dims e).1.1.
Notation cols e := (dims e).1.2.
Notation batch e := (dims e).2.

(** Entries of the result. *)
Fixpoint psem (e : prog) (be : seq nat) (i j : nat) : F :=
  match e with
  | PLeaf a => ent a be i j
  | PAdd x y => psem x be i j + psem y be i j
  | PSub x y => psem x be i j - psem y be i j
  | PMul x y => psem x be i j * psem y be i j
  | PMM ta tb x y => sumf (if ta then rows x else cols x) (fun p =>
         (if ta then psem x be p i else psem x be i p) * (if tb then psem y be j p else psem y be p j))
  | PT x => psem x be j i
  | PNeg x => - psem x be i j
  | PScale _ v x => v * psem x be i j
  | PPow k x => psem x be i j ^+ k
  | PAbs x => `|psem x be i j|
  | PKron x y => psem x be (i %/ rows y)%N (j %/ cols y)%N * psem y be (i %% rows y)%N (j %% cols y)%N
  | PTake x ax e' =>
      let '(r, c, b) := dims e' in
      let p := axis_pos (size b).+2 ax in
      let ns := positions (nth 0%N [:: c, r & b] p) x in
      match p with
      | 0 => psem e' be i (nth 0%N ns j)
      | 1 => psem e' be (nth 0%N ns i) j
      | q.+2 => psem e' (selb b q ns be) i j
      end
  | PPart x e' => let ns := positions (rows e') x in psem e' be (nth 0%N ns i) (nth 0%N ns j)
  | PBatch _ x | PCast _ x => psem x be i j
  | PBlock x y z w =>
      if (i < rows x)%N then (if (j < cols x)%N then psem x be i j else psem y be i (j - cols x)%N)
      else (if (j < cols x)%N then psem z be (i - rows x)%N j else psem w be (i - rows x)%N (j - cols x)%N)
  | PDiags x y =>
      if (i < rows x)%N then (if (j < cols x)%N then psem x be i j else 0)
      else (if (j < cols x)%N then 0 else psem y be (i - rows x)%N (j - cols x)%N)
  end.

(** All leaves are well-formed. *)
Fixpoint pwf (e : prog) : Prop :=
  match e with
  | PLeaf a => wf a
  | PAdd x y | PSub x y | PMul x y | PMM _ _ x y | PKron x y | PDiags x y => pwf x /\ pwf y
  | PT x | PNeg x | PScale _ _ x | PPow _ x | PAbs x | PTake _ _ x | PPart _ x | PBatch _ x | PCast _ x => pwf x
  | PBlock x y z w => (pwf x /\ pwf y) /\ (pwf z /\ pwf w)
  end.
(** The shapes of all intermediate results match, indices are in range and select something. *)
Fixpoint pfits (e : prog) : bool :=
  match e with
  | PLeaf _ => true
  | PAdd x y | PSub x y | PMul x y =>
      [&& pfits x, pfits y, rows x == rows y, cols x == cols y & bcok (batch x) (batch y)]
  | PMM ta tb x y =>
      [&& pfits x, pfits y, (if ta then rows x else cols x) == (if tb then cols y else rows y) & bcok (batch x) (batch y)]
  | PT x | PNeg x | PScale _ _ x | PAbs x | PCast _ x => pfits x
  | PPow k x => pfits x && (0 < k)%N
  | PKron x y | PDiags x y => [&& pfits x, pfits y & bcok (batch x) (batch y)]
  | PTake i ax x => [&& pfits x, axis_ok (size (batch x)).+2 ax &
      valid (nth 0%N [:: cols x, rows x & batch x] (axis_pos (size (batch x)).+2 ax)) i]
  | PPart i x => [&& pfits x, rows x == cols x & valid (rows x) i]
  | PBatch s x => [&& pfits x, posn s & bto (batch x) s]
  | PBlock x y z w => [&& pfits x && pfits y, pfits z && pfits w,
      [&& rows x == rows y, rows z == rows w, cols x == cols z & cols y == cols w],
      bcok (batch x) (batch y) && bcok (batch z) (batch w) & bcok (bct (batch x) (batch y)) (bct (batch z) (batch w))]
  end.

(** Facts about results which can be read off a program: no Kronecker product, not triangular, and neither an array nor
    a [Zero]. *)
Fixpoint pnokron (e : prog) : bool :=
  match e with
  | PLeaf a => kfree a
  | PAdd x y | PSub x y | PMul x y => pnokron x && pnokron y
  | PMM _ _ x y => pnokron x || pnokron y
  | PT x | PNeg x | PScale _ _ x | PPow _ x | PAbs x | PTake _ _ x | PBatch _ x | PCast _ x => pnokron x
  | PKron _ _ => false
  | PPart _ _ | PBlock _ _ _ _ | PDiags _ _ => true
  end.
Fixpoint pnottri (e : prog) : bool :=
  match e with
  | PLeaf a => ~~ istri a
  | PT x | PNeg x | PPow _ x | PAbs x | PPart _ x | PBatch _ x | PCast _ x => pnottri x
  | PBlock _ _ _ _ | PDiags _ _ => true
  | _ => false
  end.
Fixpoint psolid (e : prog) : bool :=
  match e with
  | PLeaf (Nm _) | PLeaf (Zero _ _ _ _) => false
  | PLeaf _ => true
  | PT x | PNeg x | PPow _ x | PAbs x | PPart _ x | PBatch _ x | PCast _ x => psolid x
  | _ => false
  end.
(** Restrictions forced by the code: as for [C39_expression]; [kron] of two [Zero]s does not terminate (C23) and [kron] of two
    arrays needs equal batch shapes; [submatrix] of a triangular matrix needs increasing indices (C42), and
    rows of a batch of low-rank matrices with numeric factors cannot be taken (C42). *)
Fixpoint psafe (e : prog) : bool :=
  match e with
  | PLeaf _ => true
  | PAdd x y | PSub x y | PDiags x y => psafe x && psafe y
  | PMul x y => [&& psafe x, psafe y, pnokron x, pnokron y & [|| rows x == cols x, pnottri x | pnottri y]]
  | PMM _ _ x y => [&& psafe x, psafe y & pnokron x || pnokron y]
  | PT x | PNeg x | PScale _ _ x | PPow _ x | PAbs x | PBatch _ x | PCast _ x => psafe x
  | PKron x y => [&& psafe x, psafe y & psolid x || psolid y]
  | PTake _ ax x => psafe x && ((batch x == [::]) || (1 < axis_pos (size (batch x)).+2 ax)%N)
  | PPart i x => [&& psafe x, batch x == [::] & sorted ltn (positions (rows x) i)]
  | PBlock x y z w => (psafe x && psafe y) && (psafe z && psafe w)
  end.

(** ** Helper lemmas *)
Lemma axis_posE rank axis : axis_ok rank axis -> resolve_axis rank axis = ret (axis_pos rank axis) /\ (axis_pos rank axis < rank)%N.
Proof. by case: axis => n /= h; rewrite h; split=> //; lia. Qed.
Lemma maskE s (m : seq bool) : [seq p.1 | p <- zip (iota s (size m)) m & p.2] = [seq p <- iota s (size m) | nth false m (p - s)%N].
Proof.
elim: m s => [|x m IH] s //=; rewrite subnn /=.
have E : [seq p <- iota s.+1 (size m) | nth false m (p - s.+1)%N] = [seq p <- iota s.+1 (size m) | nth false (x :: m) (p - s)%N].
  by apply: eq_in_filter => p; rewrite mem_iota => /andP[h _]; rewrite -(subnSK h).
by case: x E => /= E; rewrite IH E.
Qed.
Lemma validE d x : valid d x -> resolve_iom d x = ret (positions d x) /\ (0 < size (positions d x))%N.
Proof.
case: x => [l|m] /=.
  case/andP=> n0 h; split; last by rewrite size_map.
  elim: l h {n0} => [|i l IH] //= /andP[h1 /IH ->]; rewrite /resolve_index; case: i h1 => k ->; by rewrite bind_ret bind_ret.
case/andP=> /eqP e /has_nthP-/(_ false)[k hk h]; rewrite e eqxx /mask_positions maskE e; split.
  by congr ret; apply: eq_filter => p; rewrite subn0.
rewrite size_filter -has_count; apply/hasP; exists k => //; by rewrite mem_iota -e.
Qed.
Lemma bct_nil (u v : shape) : bcok u v -> bct u v = [::] -> u = [::] /\ v = [::].
Proof. by move=> o e; have := bct_ubl o; have := bct_ubr o; rewrite e; case: u {o e}; case: v. Qed.
Lemma tk_nobatch (a : mat) : wf a -> mbatch a = [::] -> numok a && tk_row a && tk_col a.
Proof.
have N (x : mat) : wf x -> mbatch x = [::] -> numok x by case: x => //= t _ ->.
have R (x : mat) : wf x -> mbatch x = [::] -> tk_row x.
  elim: x => [t|d b r c|t|t|t r c|t|t|l IHl r _ m _|d l IHl r _ m _|l _ r _] //= w hb.
    case: (w) => wl _ _ _ /and4P[_ _ o1 o2]; have [h1 h2] := bct_nil o2 hb; have [h3 h4] := bct_nil o1 h1.
    by rewrite N // IHl.
  have wl := wf_wb_lr w; case: (wl) => wl' _ _ _ /and4P[_ _ o1 o2].
  have o : bcok (mbatch (Diag d : mat)) (mbatch (LR l r m)) by case: w => _ /and4P[].
  have [_ h0] := bct_nil o hb; have [h1 _] := bct_nil o2 h0; have [h3 _] := bct_nil o1 h1; by rewrite N // IHl.
move=> w hb; rewrite N // R //=; case: a w hb => //=.
  move=> l r m w hb; case: (w) => _ wr _ _ /and4P[_ _ o1 o2]; have [h1 h2] := bct_nil o2 hb; have [h3 h4] := bct_nil o1 h1.
  by rewrite N // R.
move=> d l r m w hb; have wl := wf_wb_lr w; case: (wl) => _ wr _ _ /and4P[_ _ o1 o2].
have o : bcok (mbatch (Diag d : mat)) (mbatch (LR l r m)) by case: w => _ /and4P[].
have [_ h0] := bct_nil o hb; have [h1 h2] := bct_nil o2 h0; have [h3 h4] := bct_nil o1 h1; by rewrite N // R.
Qed.
Lemma bcall2 (u v : shape) : bcok u v -> bcall (bct u v) [:: u; v].
Proof. by move=> o s; rewrite /= andbT bto_bct. Qed.
Lemma bcall4 (u v s t : shape) : bcok u v -> bcok s t -> bcok (bct u v) (bct s t) -> bcall (bct (bct u v) (bct s t)) [:: u; v; s; t].
Proof. by move=> o1 o2 o3 w; rewrite /= andbT !bto_bct // !andbA. Qed.
Lemma kmult_all (f : F -> F) (a : mat) : (forall x y, f (x * y) = f x * f y) -> kmult f a.
Proof. by move=> h; elim: a => //= l hl r hr; split=> // *. Qed.
Lemma tag_tri (c : mat) : (tag c != 5%N) && (tag c != 6%N) = ~~ istri c. Proof. by case: c. Qed.
Lemma tag_kron (c : mat) : wf c -> kfree c = (tag c != 9%N). Proof. by move/wf_kfree ->; case: c. Qed.
(** Neither an array nor a [Zero]. *)
Definition sol (c : mat) : bool := (tag c != 0%N) && (tag c != 1%N).
Definition facts (e : prog) (c : mat) : Prop := [/\ pnokron e -> kfree c, pnottri e -> ~~ istri c & psolid e -> sol c].

Variable argsort : seq F -> seq nat.
Hypothesis perm : argsort_ok argsort.
Notation answers := (answers argsort).

Lemma ans_block4 (a b c d : mat) r1 r2 c1 c2 b1 b2 b3 b4 f1 f2 f3 f4 :
  is_res a r1 c1 b1 f1 -> is_res b r1 c2 b2 f2 -> is_res c r2 c1 b3 f3 -> is_res d r2 c2 b4 f4 ->
  bcok b1 b2 -> bcok b3 b4 -> bcok (bct b1 b2) (bct b3 b4) ->
  answers (fun o => block o [:: [:: a; b]; [:: c; d]]) (fun z =>
    is_res z (r1 + r2) (c1 + c2) (bct (bct b1 b2) (bct b3 b4)) (fun be i j =>
      if (i < r1)%N then (if (j < c1)%N then f1 be i j else f2 be i (j - c1)%N)
      else (if (j < c1)%N then f3 be (i - r1)%N j else f4 be (i - r1)%N (j - c1)%N)) /\ (tag z < 4)%N).
Proof.
move=> [w1 [ra ca] e1 h1] [w2 [rb cb] e2 h2] [w3 [rc cc] e3 h3] [w4 [rd cd] e4 h4] o1 o2 o3.
have g : grid [:: [:: a; b]; [:: c; d]] [:: r1; r2] [:: c1; c2].
  by split=> //; [case=> [|[|p]]|case=> [|[|p]] [|[|q]]].
have hb : bcall (bct (bct b1 b2) (bct b3 b4)) (map (@mbatch F) (flatten [:: [:: a; b]; [:: c; d]])).
  by rewrite /= e1 e2 e3 e4; exact: bcall4.
have := bcall4 o1 o2 o3 => /bcall_le; rewrite /= andbT => /and4P[u1 u2 u3 u4].
apply: ans_conseq (block_ok perm g hb) _ => z [hz tz]; rewrite /= !addn0 in hz; split.
  apply: res_ext hz _ => be i j ob hi hj; rewrite /grid_ent /=.
  have [k1 k2 k3 k4] : [/\ okb b1 be, okb b2 be, okb b3 be & okb b4 be] by split; apply: okb_mono ob.
  case: (ltnP i r1) => hi'; case: (ltnP j c1) => hj' /=.
  - exact: h1.
  - by have e : (j - c1 < c2)%N; [clear - hj hj'; lia|rewrite e; apply: h2].
  - by have e : (i - r1 < r2)%N; [clear - hi hi'; lia|rewrite e; apply: h3].
  - by have [e e'] : (i - r1 < r2)%N /\ (j - c1 < c2)%N; [clear - hi hi' hj hj'; lia|rewrite e e'; apply: h4].
by move: (tz isT); case: ifP => _ => [->|[->|[-> _]]].
Qed.
Lemma ans_diags (a b : mat) r1 r2 c1 c2 b1 b2 f1 f2 :
  is_res a r1 c1 b1 f1 -> is_res b r2 c2 b2 f2 -> bcok b1 b2 ->
  answers (fun o => block_diag o [:: a; b]) (fun z =>
    is_res z (r1 + r2) (c1 + c2) (bct b1 b2) (fun be i j =>
      if (i < r1)%N then (if (j < c1)%N then f1 be i j else 0)
      else (if (j < c1)%N then 0 else f2 be (i - r1)%N (j - c1)%N)) /\ (tag z < 4)%N).
Proof.
move=> [w1 [ra ca] e1 h1] [w2 [rb cb] e2 h2] o.
have hw k : (k < size [:: a; b])%N -> wf (nth (Nm (t_scalar DInt 0)) [:: a; b] k) by case: k => [|[|k]].
have hb : bcall (bct b1 b2) (map (@mbatch F) [:: a; b]) by rewrite /= e1 e2; exact: bcall2.
apply: ans_conseq (block_diag_ok perm (isT : 1 < size [:: a; b])%N hw hb) _ => z [hz ->]; split; last by do ?case: ifP => _.
rewrite [sumn _]/= [X in is_res _ _ X]/= !addn0 ra rb ca cb in hz.
apply: res_ext hz _ => be i j ob hi hj; rewrite /bd_ent /= ra rb ca cb.
have [k1 k2] : okb b1 be /\ okb b2 be by split; apply: okb_mono ob; [exact: bct_ubl|exact: bct_ubr].
case: (ltnP i r1) => hi'; case: (ltnP j c1) => hj' /=.
- exact: h1.
- by [].
- by [].
- by have [e e'] : (i - r1 < r2)%N /\ (j - c1 < c2)%N; [clear - hi hi' hj hj'; lia|rewrite e e'; apply: h2].
Qed.
Lemma res_facts (e : prog) (a c : mat) r k b f : is_res c r k b f ->
  kfree c = kfree a -> tag c = tag a -> [/\ pnokron e -> kfree a, pnottri e -> ~~ istri a & psolid e -> sol a] -> facts e c.
Proof. by move=> h e1 e2 [h1 h2 h3]; split; rewrite ?e1 // -?tag_tri /sol e2 // tag_tri. Qed.

Lemma elt_facts (e : prog) (a c : mat) : wf a -> wf c -> (if a is (LR _ _ _ | Wb _ _ _ _) then tag c = 2%N else tag c = tag a) ->
  [/\ pnokron e -> kfree a, pnottri e -> ~~ istri a & psolid e -> sol a] -> facts e c.
Proof.
move=> wa wc tg [h1 h2 h3].
have [T|T] : tag c = tag a \/ tag c = 2%N by case: (a) tg; auto.
  by split; rewrite ?tag_kron // -?tag_tri /sol T // -?tag_kron // tag_tri.
by split; rewrite ?tag_kron // -?tag_tri /sol T.
Qed.

(** The result of a program: the matrix it stands for. *)
Lemma peval_ok n e : (2 <= n)%N -> pwf e -> pfits e -> psafe e ->
  answers (fun o => peval n o e) (fun c => is_res c (rows e) (cols e) (batch e) (psem e) /\ facts e c).
Proof.
move=> n2; elim: e => [a|x IHx y IHy|x IHx y IHy|x IHx y IHy|ta tb x IHx y IHy|x IHx|x IHx|d v x IHx|k x IHx|x IHx|x IHx y IHy
  |i ax x IHx|i x IHx|s x IHx|d x IHx|x IHx y IHy z IHz w IHw|x IHx y IHy] /=.
- move=> w _ _; apply: ans_ret; split; first exact: res_wf.
  by split=> //; case: a w.
- move=> [w1 w2] /and5P[f1 f2 /eqP e1 /eqP e2 o] /andP[s1 s2].
  apply: ans_bind (IHx w1 f1 s1) _ => a [ha [ka _ _]]; apply: ans_bind (IHy w2 f2 s2) _ => b [hb [kb _ _]].
  rewrite -e1 -e2 in hb; apply: ans_conseq (ans_add_rese perm ha hb o) _ => z [hz k].
  by split=> //; split=> // /andP[/ka k1 /kb k2]; apply: k.
- move=> [w1 w2] /and5P[f1 f2 /eqP e1 /eqP e2 o] /andP[s1 s2].
  apply: ans_bind (IHx w1 f1 s1) _ => a [ha [ka _ _]]; apply: ans_bind (IHy w2 f2 s2) _ => b [hb [kb _ _]].
  rewrite -e1 -e2 in hb; apply: ans_conseq (ans_sub_res perm ha hb o) _ => z [hz k].
  by split=> //; split=> // /andP[/ka k1 /kb k2]; apply: k.
- move=> [w1 w2] /and5P[f1 f2 /eqP e1 /eqP e2 o] /and5P[s1 s2 k1 k2 sq].
  apply: ans_bind (IHx w1 f1 s1) _ => a [ha [ka ta _]]; apply: ans_bind (IHy w2 f2 s2) _ => b [hb [kb tb _]].
  rewrite -e1 -e2 in hb; have sd : mul_side a b.
    have [[_ [r1 c1] _ _] [_ [r2 c2] _ _]] := (ha, hb).
    apply: mul_side_same; rewrite /samesh ?r1 ?c1 ?r2 ?c2 ?eqxx ?ka ?kb //.
    by case/or3P: sq => [->|/ta/negbTE->|/tb/negbTE->]; rewrite ?orbT ?andbF.
  apply: ans_conseq (ans_mul_rese perm ha hb o sd) _ => z [hz k]; split=> //; split=> // _; apply: k; [exact: ka|exact: kb].
- move=> [w1 w2] /and4P[f1 f2 /eqP e o] /and3P[s1 s2 kk].
  apply: ans_bind (IHx w1 f1 s1) _ => a [ha [ka _ _]]; apply: ans_bind (IHy w2 f2 s2) _ => b [hb [kb _ _]].
  have kab : kfree a || kfree b by case/orP: kk => [/ka->|/kb->]; rewrite ?orbT.
  apply: ans_conseq (ans_mm_res perm ha hb e o (mm_side_kfree _ _ kab)) _ => z [hz k]; split=> //; split=> // _; exact: k.
- move=> w f s; apply: ans_bind (IHx w f s) _ => a [ha [k1 k2 k3]]; have wa := res_kwf ha.
  apply: ans_calm; first exact: cm_transp.
  apply: hoare_conseq (transpose_ok wa) _ => z [hz k tg]; case: ha => _ [e1 e2] e3 e4.
  rewrite e1 e2 e3 in hz; split.
    by apply: res_ext hz _ => be i j hb hi hj; rewrite e4.
  split=> /=; first by move/k1; rewrite k.
    by move/k2; rewrite -!tag_tri tg; case: (tag a) => [|[|[|[|[|[|[|]]]]]]].
  by move/k3; rewrite /sol tg; case: (tag a) => [|[|[|[|[|[|[|]]]]]]].
- move=> w f s; apply: ans_bind (IHx w f s) _ => a [ha fa]; have wa := res_kwf ha.
  apply: ans_calm; first exact: cm_negative.
  apply: hoare_conseq (negative_ok wa) _ => z [hz k tg]; case: ha => _ [e1 e2] e3 e4.
  rewrite e1 e2 e3 in hz; split; last exact: res_facts hz k tg fa.
  by apply: res_ext hz _ => be i j hb hi hj; rewrite e4.
- move=> w f s; apply: ans_bind (IHx w f s) _ => a [ha [ka _ _]].
  by apply: ans_conseq (ans_scale_res perm d v ha) _ => z [hz k]; split=> //; split=> // /ka.
(* elementwise functions *)
- move=> w /andP[f k0] s; apply: ans_bind (IHx w f s) _ => a [ha [k1 k2 k3]]; have wa := res_kwf ha.
  have m : kmult (fun x => x ^+ k) a by apply: kmult_all => ? ?; rewrite exprMn.
  have z0 : (0 : F) ^+ k = 0 by rewrite expr0n; case: k k0 {m}.
  apply: ans_conseq (elementwise_ok perm wa z0 m) _ => z [hz tg]; case: (ha) => _ [e1 e2] e3 e4.
  rewrite e1 e2 e3 in hz; split; first by apply: res_ext hz _ => be i j hb hi hj; rewrite e4.
  exact: (elt_facts (e := x) wa (res_kwf hz) tg).
- move=> w f s; apply: ans_bind (IHx w f s) _ => a [ha [k1 k2 k3]]; have wa := res_kwf ha.
  have m : kmult (fun x => `|x|) a by apply: kmult_all => ? ?; rewrite normrM.
  apply: ans_conseq (elementwise_ok perm wa (normr0 _) m) _ => z [hz tg]; case: (ha) => _ [e1 e2] e3 e4.
  rewrite e1 e2 e3 in hz; split; first by apply: res_ext hz _ => be i j hb hi hj; rewrite e4.
  exact: (elt_facts (e := x) wa (res_kwf hz) tg).
(* kron *)
- move=> [w1 w2] /and3P[f1 f2 o] /and3P[s1 s2 ss].
  apply: ans_bind (IHx w1 f1 s1) _ => a [ha [_ _ sa]]; apply: ans_bind (IHy w2 f2 s2) _ => b [hb [_ _ sb]].
  have sd : kron_side a b by case/orP: ss => [/sa|/sb]; rewrite /sol /kron_side; case: (a); case: (b).
  have [wa [ra ca] ba ea] := ha; have [wb [rb cb] bb eb] := hb.
  have o' : bcok (mbatch a) (mbatch b) by rewrite ba bb.
  have [c -> hc] := kron_ok wa wb o' sd n2; apply: ans_ret; split; last by split.
  rewrite /kpost ra ca rb cb ba bb in hc; apply: res_ext hc _ => be i j ob hi hj.
  have [oa ob'] : okb (batch x) be /\ okb (batch y) be by split; apply: okb_mono ob; [exact: bct_ubl|exact: bct_ubr].
  have [p1 p2 _] := posn3 (wf_posn wb); rewrite rb cb in p1 p2.
  by rewrite ea ?eb ?ltn_mod ?ltn_divLR.
(* take *)
- move=> w /and3P[f ax0 v0] /andP[s sb]; apply: ans_bind (IHx w f s) _ => a [ha [ka _ _]].
  have [wa [ra ca] ba ea] := ha.
  move: ax0 v0 sb ea => /=; case: (dims x) ra ca ba {IHx ha ka} (ka) => -[r c] b /= ra ca ba ka ax0 v0 sb ea.
  have [hax hlt] := axis_posE ax0; have [hns n0] := validE v0.
  set p := axis_pos _ _ in hax hlt hns n0 v0 sb *; set ns := positions _ _ in hns n0 *.
  have E : mshape a = [:: c, r & b] by rewrite /mshape ra ca ba.
  have sd : tk_side a p.
    case/orP: sb => [/eqP b0|]; last by rewrite /tk_side; case: (p) => [|[]].
    by have := tk_nobatch wa; rewrite ba b0 => /(_ erefl)/andP[/andP[_ h1] h2]; rewrite /tk_side; case: (p) => [|[]].
  have hax' : resolve_axis (size (mshape a)) ax = ret p by rewrite E.
  have hns' : resolve_iom (nth 0%N (mshape a) p) i = ret ns by rewrite E.
  apply: ans_conseq (take_op_ok perm wa hax' hns' n0 sd) _ => z [hz kz]; split; last by split=> // /ka/kz.
  have hn := resolve_iom_lt hns'.
  have L k : (k < size ns)%N -> (nth 0%N ns k < nth 0%N (mshape a) p)%N by move=> hk; move/allP: hn; apply; apply: mem_nth.
  clear hax hns v0 sd sb hax' hns' hn n0 kz; clearbody ns; clearbody p.
  case: p hlt L hz => [|[|q]] hlt L; rewrite /tk_post ?ra ?ca ?ba => hz; apply: res_ext hz _ => be k j hb hk hj.
  + by apply: ea => //; have := L _ hj; rewrite E.
  + by apply: ea => //; have := L _ hk; rewrite E.
  + apply: ea => //; apply: okb_inb; apply: inb_selb hb => //.
    by apply/allP => v /(nthP 0%N)[u hu <-]; have := L _ hu; rewrite E.
(* submatrix *)
- move=> w /and3P[f /eqP sq v0] /and3P[s /eqP b0 srt]; apply: ans_bind (IHx w f s) _ => a [ha [ka ta sa]].
  have [wa [ra ca] ba ea] := ha.
  have [hns n0] := validE v0; move: hns n0 srt; rewrite /=; set ns := positions (rows x) i => hns n0 srt; clearbody ns; rewrite -ra in hns.
  have rc : mrows a = mcols a by rewrite ra ca sq.
  have un : uniq ns by apply: (sorted_uniq ltn_trans ltnn).
  have sd : sub_side a ns.
    have := tk_nobatch wa; rewrite ba b0 => /(_ erefl)/andP[/andP[_ h1] h2]; rewrite /sub_side.
    by case: (a) h1 h2 => //= [l r m|d l r m] /andP[_ ->] /andP[_ ->]; rewrite ?un.
  apply: ans_conseq (sub_ok perm wa rc hns n0 sd) _ => z [hz tg].
  rewrite ba in hz; have wz := res_kwf hz; split.
    have hn := resolve_iom_lt hns; have L k : (k < size ns)%N -> (nth 0%N ns k < mrows a)%N by move=> hk; move/allP: hn; apply; apply: mem_nth.
    by apply: res_ext hz _ => be k j hb hk hj; rewrite ea // ?ra -?sq -?ra L.
  have [T|[T _]] : tag z = tag a /\ tag a <> 9%N \/ tag z = 2%N /\ tag a = 9%N by case: (a) tg => *; (try by left; split); right; split.
    case: T => T T9; split=> /= [_|/ta|/sa]; rewrite ?tag_kron // -?tag_tri /sol T //.
    by apply/eqP.
  by split=> /= [_|_|_]; rewrite ?tag_kron // -?tag_tri /sol T.
- move=> w /and3P[f ps hb] s0; apply: ans_bind (IHx w f s0) _ => a [ha fa]; have wa := res_kwf ha.
  have [_ [ra ca] ba ea] := ha; rewrite -ba in hb; apply: ans_calm; first exact: cm_bb.
  apply: hoare_conseq (broadcast_batch_ok wa ps hb) _ => z [hz k tg].
  rewrite ra ca in hz; split; last exact: res_facts hz k tg fa.
  by apply: res_ext hz _ => be i j ob hi hj; rewrite ea // -ba; exact: okb_mono hb ob.
- move=> w f s0; apply: ans_bind (IHx w f s0) _ => a [ha fa]; have wa := res_kwf ha.
  have [_ [ra ca] ba ea] := ha; apply: ans_calm; first exact: cm_cast.
  apply: hoare_conseq (cast_ok d wa) _ => z [hz k tg _].
  rewrite ra ca ba in hz; split; last exact: res_facts hz k tg fa.
  by apply: res_ext hz _ => be i j ob hi hj; rewrite ea.
- move=> [[w1 w2] [w3 w4]] /and5P[/andP[f1 f2] /andP[f3 f4] /and4P[/eqP e1 /eqP e2 /eqP e3 /eqP e4] /andP[o1 o2] o3] /andP[/andP[s1 s2] /andP[s3 s4]].
  apply: ans_bind (IHx w1 f1 s1) _ => a [ha _]; apply: ans_bind (IHy w2 f2 s2) _ => b [hb _].
  apply: ans_bind (IHz w3 f3 s3) _ => c [hc _]; apply: ans_bind (IHw w4 f4 s4) _ => d [hd _].
  rewrite -e1 in hb; rewrite -e3 in hc; rewrite -e2 -e4 in hd.
  apply: ans_conseq (ans_block4 ha hb hc hd o1 o2 o3) _ => v [hv tg]; split=> //; have wv := res_kwf hv.
  split=> // _; [rewrite tag_kron //|rewrite -tag_tri]; by case: (tag v) tg => [|[|[|[|]]]].
- move=> [w1 w2] /and3P[f1 f2 o] /andP[s1 s2].
  apply: ans_bind (IHx w1 f1 s1) _ => a [ha _]; apply: ans_bind (IHy w2 f2 s2) _ => b [hb _].
  apply: ans_conseq (ans_diags ha hb o) _ => v [hv tg]; split=> //; have wv := res_kwf hv.
  split=> // _; [rewrite tag_kron //|rewrite -tag_tri]; by case: (tag v) tg => [|[|[|[|]]]].
Qed.

(** ** C51: any program evaluates like its dense version *)
(** All leaves are well-formed, the shapes match, and the restrictions are met. *)
Definition runs (e : prog) : Prop := [/\ pwf e, pfits e & psafe e].
Theorem C51_program n e : (2 <= n)%N -> runs e ->
  answers (fun o => peval n o e) (fun c =>
    [/\ wf c, mshape c = [:: cols e, rows e & batch e] &
      forall be i j, okb (batch e) be -> (i < rows e)%N -> (j < cols e)%N -> ent c be i j = psem e be i j]).
Proof.
move=> n2 [w f s]; apply: ans_conseq (peval_ok n2 w f s) _ => c [[wc [h1 h2] h3 h4] _]; split=> //.
by rewrite /mshape h1 h2 h3.
Qed.
(** Also after densifying the result. *)
Theorem C51_program_dense n e : (2 <= n)%N -> runs e ->
  answers (fun o => do c <- peval n o e; o_dense o c) (fun t =>
    sh t = [:: cols e, rows e & batch e] /\
    forall be i j, inb (batch e) be -> (i < rows e)%N -> (j < cols e)%N -> tget t [:: j, i & be] = psem e be i j).
Proof.
move=> n2 [w f s]; apply: ans_bind (peval_ok n2 w f s) _ => c [hc _].
apply: ans_conseq (ans_dense_res perm hc) _ => t h; case: (h) => e1 _ e2; split=> // be i j hb hi hj.
by rewrite -(e2 _ _ _ (okb_inb hb) hi hj) /mx e1 /= drop0 clamp_id.
Qed.
(** Results of programs are never wrongly typed: a triangular result is triangular. *)
Theorem C51_triangular n e : (2 <= n)%N -> runs e -> answers (fun o => peval n o e) (@tri_ok F).
Proof. by move=> n2 [w f s]; apply: ans_conseq (peval_ok n2 w f s) _ => c [hc _]; apply: wf_tri; exact: res_kwf hc. Qed.

(** ** Laws *)
Definition psame (n : nat) (x y : prog) : Prop :=
  answers (fun o => do a <- peval n o x; do b <- peval n o y; ret (a, b)) (fun p => teq (den p.1) (den p.2)).
Lemma psame_of n x y : (2 <= n)%N -> runs x -> runs y -> dims x = dims y ->
  (forall be i j, okb (batch x) be -> (i < rows x)%N -> (j < cols x)%N -> psem x be i j = psem y be i j) -> psame n x y.
Proof.
move=> n2 [w1 f1 s1] [w2 f2 s2] e h; apply: ans_bind (peval_ok n2 w1 f1 s1) _ => a [ha _].
apply: ans_bind (peval_ok n2 w2 f2 s2) _ => b [hb _]; apply: ans_ret.
rewrite -e in hb; apply: tmat_teq (res_tmat ha) _.
by apply: tmat_ext (res_tmat hb) _ => be i j ? ? ?; rewrite h.
Qed.
Lemma bct_pairs (a b c d : shape) : bcok a b -> bcok c d -> bcok (bct a b) (bct c d) ->
  [/\ bcok a c, bcok b d, bcok (bct a c) (bct b d) & bct (bct a b) (bct c d) = bct (bct a c) (bct b d)].
Proof.
move=> o1 o2 /[dup] o3 /bcokP[u]; rewrite !bto_bct // => /andP[u1 u2] /andP[u3 u4].
have o4 := bcok_ub u1 u3; have o5 := bcok_ub u2 u4.
have o6 : bcok (bct a c) (bct b d) by apply: (@bcok_ub u); rewrite bto_bct ?u1 ?u2.
by split=> //; apply: bto_ext => v; rewrite !bto_bct // andbACA.
Qed.

Variable n : nat.
Hypothesis n2 : (2 <= n)%N.
Implicit Types x y z w : prog.
(** [take] and [submatrix]. *)
Theorem C51_take_add i ax x y : runs (PTake i ax (PAdd x y)) -> batch x = batch y ->
  runs (PAdd (PTake i ax x) (PTake i ax y)) -> psame n (PTake i ax (PAdd x y)) (PAdd (PTake i ax x) (PTake i ax y)).
Proof.
move=> h eb h'; apply: (psame_of n2) => //; case: h => _ /= /and3P[/and5P[_ _ /eqP er /eqP ec _] _ _] _;
  case: (dims x) er ec eb => -[rx cx] bx; case: (dims y) => -[ry cy] by' /= <- <- <-; rewrite bctss.
  by case: (axis_pos _ _) => [|[|q]] //=; rewrite bctss.
by move=> be k j _ _ _; case: (axis_pos _ _) => [|[|q]].
Qed.
Theorem C51_submatrix i x : runs (PPart i x) -> runs (PTake i ax1 (PTake i ax2 x)) -> psame n (PPart i x) (PTake i ax1 (PTake i ax2 x)).
Proof.
move=> h h'; apply: (psame_of n2) => //; case: h => _ /= /and3P[_ /eqP sq _] _;
  case: (dims x) sq => -[rx cx] bx /= <- //.
Qed.
(** Rows of a product are the products of the rows. *)
Theorem C51_take_mm i x y : runs (PTake i ax2 (PMM false false x y)) -> runs (PMM false false (PTake i ax2 x) y) ->
  psame n (PTake i ax2 (PMM false false x y)) (PMM false false (PTake i ax2 x) y).
Proof. by move=> h h'; apply: (psame_of n2) => //=; case: (dims x) => -[rx cx] bx. Qed.
(** [kron]. *)
Theorem C51_kron_transpose x y : runs (PT (PKron x y)) -> runs (PKron (PT x) (PT y)) -> psame n (PT (PKron x y)) (PKron (PT x) (PT y)).
Proof. by move=> h h'; apply: (psame_of n2). Qed.
Theorem C51_kron_add x y z : runs (PKron (PAdd x y) z) -> runs (PAdd (PKron x z) (PKron y z)) -> 
  psame n (PKron (PAdd x y) z) (PAdd (PKron x z) (PKron y z)).
Proof.
move=> h h'; apply: (psame_of n2) => //=; last by move=> be i j _ _ _; rewrite mulrDl.
case: h => _ /= /and3P[/and5P[_ _ _ _ o] _ o'] _; case: h' => _ /= /and5P[/and3P[_ _ o1] /and3P[_ _ o2] _ _ o3] _.
congr pair; apply: bto_ext => u; rewrite !bto_bct //.
by case: (bto _ u); case: (bto (batch y) u); case: (bto _ u).
Qed.
(** [block]. *)
Theorem C51_block_transpose x y z w : runs (PT (PBlock x y z w)) -> runs (PBlock (PT x) (PT z) (PT y) (PT w)) ->
  psame n (PT (PBlock x y z w)) (PBlock (PT x) (PT z) (PT y) (PT w)).
Proof.
move=> h h'; case: (h) => _ /= /and5P[_ _ /and4P[/eqP e1 /eqP e2 /eqP e3 /eqP e4] /andP[o1 o2] o3] _.
have [o4 o5 o6 E] := bct_pairs o1 o2 o3.
apply: (psame_of n2) => //=; first by rewrite E.
by move=> be i j _ _ _; case: (ltnP i); case: (ltnP j); rewrite ?e1 ?e2 ?e3 ?e4 // => -> // ; rewrite ltnNge => ->.
Qed.
Theorem C51_block_add x y z w x' y' z' w' : runs (PAdd (PBlock x y z w) (PBlock x' y' z' w')) ->
  runs (PBlock (PAdd x x') (PAdd y y') (PAdd z z') (PAdd w w')) ->
  psame n (PAdd (PBlock x y z w) (PBlock x' y' z' w')) (PBlock (PAdd x x') (PAdd y y') (PAdd z z') (PAdd w w')).
Proof.
move=> h h'; apply: (psame_of n2) => //=.
  case: h' => _ /= /and5P[/andP[/and5P[_ _ _ _ a1] /and5P[_ _ _ _ a2]] /andP[/and5P[_ _ _ _ a3] /and5P[_ _ _ _ a4]] _ /andP[b1 b2] b3] _.
  case: h => _ /= /and5P[/and5P[_ _ _ /andP[c1 c2] c3] /and5P[_ _ _ /andP[d1 d2] d3] _ _ o] _.
  congr pair; apply: bto_ext => u; rewrite !bto_bct //.
  by do 8 case: (bto _ u).
move=> be i j _ _ _; case: h' => _ /= /and5P[/andP[/and5P[_ _ /eqP r1 /eqP c1 _] /and5P[_ _ /eqP r2 /eqP c2 _]] /andP[/and5P[_ _ /eqP r3 /eqP c3 _] _] /and4P[/eqP e1 /eqP e2 /eqP e3 /eqP e4] _ _] _.
by rewrite -r1 -c1; case: ifP => _; case: ifP.
Qed.
(** Products of block matrices. *)
Theorem C51_block_mm x y z w x' y' z' w' :
  let l := PMM false false (PBlock x y z w) (PBlock x' y' z' w') in
  let m a b := PMM false false a b in
  let r := PBlock (PAdd (m x x') (m y z')) (PAdd (m x y') (m y w')) (PAdd (m z x') (m w z')) (PAdd (m z y') (m w w')) in
  runs l -> runs r -> psame n l r.
Proof.
move=> l m r hl hr; apply: (psame_of n2) => //=.
  case: hl => _ /= /and4P[/and5P[_ _ _ /andP[a1 a2] a3] /and5P[_ _ _ /andP[b1 b2] b3] _ o] _.
  case: hr => _ /= /and5P[/andP[/and5P[/and4P[_ _ _ c1] /and4P[_ _ _ c2] _ _ c3] /and5P[/and4P[_ _ _ d1] /and4P[_ _ _ d2] _ _ d3]]
    /andP[/and5P[/and4P[_ _ _ e1] /and4P[_ _ _ e2] _ _ e3] /and5P[/and4P[_ _ _ f1] /and4P[_ _ _ f2] _ _ f3]] _ /andP[g1 g2] g3] _.
  congr pair; apply: bto_ext => u; rewrite !bto_bct //.
  by do 8 case: (bto _ u).
move=> be i j _ _ _.
case: hr => _ /= /and5P[/andP[/and5P[/and4P[_ _ /eqP c1 _] /and4P[_ _ /eqP c2 _] _ _ c3] _] /andP[/and5P[/and4P[_ _ /eqP c4 _] /and4P[_ _ /eqP c5 _] _ _ _] _] _ _ _] _.
case: hl => _ /= /and4P[/and5P[_ _ /and4P[/eqP q1 /eqP q2 /eqP q3 /eqP q4] _ _] /and5P[_ _ /and4P[/eqP p1 /eqP p2 /eqP p3 /eqP p4] _ _] _ _] _.
rewrite sumf_cat; case: ifP => hi; case: ifP => hj.
- congr (_ + _); apply: eq_sumf => p hp; first by rewrite hp -c1 hp.
  by rewrite -c1 ltnNge leq_addr /= addKn.
- congr (_ + _); apply: eq_sumf => p hp; first by rewrite hp -c1 hp.
  by rewrite -c1 ltnNge leq_addr /= addKn.
- rewrite -q3; congr (_ + _); rewrite ?q4; apply: eq_sumf => p hp; first by rewrite hp -c1 hp.
  by rewrite -c1 ltnNge leq_addr /= addKn.
- rewrite -q3; congr (_ + _); rewrite ?q4; apply: eq_sumf => p hp; first by rewrite hp -c1 hp.
  by rewrite -c1 ltnNge leq_addr /= addKn.
Qed.
(** A block-diagonal matrix is a block matrix with zeros off the diagonal. *)
Theorem C51_diags_block x y d1 d2 b1 b2 : let z1 := PLeaf (Zero d1 b1 (rows x) (cols y)) in let z2 := PLeaf (Zero d2 b2 (rows y) (cols x)) in
  runs (PDiags x y) -> runs (PBlock x z1 z2 y) -> bto b1 (bct (batch x) (batch y)) -> bto b2 (bct (batch x) (batch y)) ->
  psame n (PDiags x y) (PBlock x z1 z2 y).
Proof.
move=> z1 z2 h h' hb1 hb2; apply: (psame_of n2) => //=; congr pair; apply: bto_ext => u.
case: h' => _ /= /and5P[_ _ _ /andP[a1 a2] a3] _; case: h => _ /= /and3P[_ _ o] _.
rewrite !bto_bct //; apply/idP/idP => [/andP[k1 k2]|/andP[/andP[-> _] /andP[_ ->]]] //.
by rewrite k1 k2 andbT /= !(bto_trans _ (bto_bct_ub k1 k2)).
Qed.
End Programs.
Print Assumptions C51_program. Print Assumptions C51_program_dense. Print Assumptions C51_triangular. Print Assumptions C51_take_add.
Print Assumptions C51_submatrix. Print Assumptions C51_take_mm. Print Assumptions C51_kron_transpose. Print Assumptions C51_kron_add.
Print Assumptions C51_block_transpose. Print Assumptions C51_block_add. Print Assumptions C51_block_mm. Print Assumptions C51_diags_block.

(** ** The hypotheses can be met *)
Ltac run := repeat first [by [] | exact: s_lt_wf | split].
(** [broadcast_batch_to(submatrix(kron(W, D) @ block([W, -D], [take(D, [1, -1]), abs(W)]).T + block_diag(D, W ** 2), [True, False, True, True]), 3)]
    with a Woodbury matrix [W] and a diagonal [D]. *)
Section Ex.
Variable F : rcfType.
Let W : prog F := PLeaf (s_wb F).
Let D : prog F := PLeaf (s_diag F).
Example C51_ex : let b := PBlock W (PNeg D) (PTake (Idx [:: Posz 1; Negz 0]) ax2 D) (PCast DFloat32 (PAbs W)) in
  let e := PBatch [:: 3]%N (PPart (Mask [:: true; false; true; true]) (PAdd (PMM false true (PKron W D) b) (PDiags D (PPow 2 W)))) in
  runs e /\ dims e = (3, 3, [:: 3])%N.
Proof. by split=> //; split. Qed.
Let x := PLeaf (s_lt F).
Example C51_ex_take : runs (PTake (Idx [:: Posz 1; Posz 1]) ax2 (PMM false false W D)) /\
  runs (PMM false false (PTake (Idx [:: Posz 1; Posz 1]) ax2 W) D) /\
  runs (PTake (Idx [:: Posz 1]) (Negz 2) (PAdd x x)) /\ runs (PAdd (PTake (Idx [:: Posz 1]) (Negz 2) x) (PTake (Idx [:: Posz 1]) (Negz 2) x)).
Proof. run. Qed.
Example C51_ex_submatrix : runs (PPart (Idx [:: Posz 0; Posz 1]) W) /\ runs (PTake (Idx [:: Posz 0; Posz 1]) ax1 (PTake (Idx [:: Posz 0; Posz 1]) ax2 W)).
Proof. by []. Qed.
Example C51_ex_kron : runs (PKron (PAdd W D) x) /\ runs (PAdd (PKron W x) (PKron D x)) /\ runs (PT (PKron W x)) /\ runs (PKron (PT W) (PT x)).
Proof. run. Qed.
Example C51_ex_block : let b := PBlock W D x W in let m u v := PMM false false u v in
  runs (PT b) /\ runs (PBlock (PT W) (PT x) (PT D) (PT W)) /\
  runs (PAdd b b) /\ runs (PBlock (PAdd W W) (PAdd D D) (PAdd x x) (PAdd W W)) /\ runs (PMM false false b b) /\
  runs (PBlock (PAdd (m W W) (m D x)) (PAdd (m W D) (m D W)) (PAdd (m x W) (m W x)) (PAdd (m x D) (m W W))).
Proof. run. Qed.
Example C51_ex_diags : runs (PDiags W x) /\ runs (PBlock W (PLeaf (Zero DInt [::] 2 2)) (PLeaf (Zero DInt [:: 3]%N 2 2)) x).
Proof. run. Qed.
End Ex.
