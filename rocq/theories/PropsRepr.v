(** * C49: texts of matrices *)
From mathcomp Require Import all_ssreflect all_algebra.
From Coq Require Import Ascii String DecimalString DecimalNat.
From Verif Require Import Outcome Monad Shape Tensor Mat Dispatch Ops Spec MatThy Samples Tiled Repr.
Set Implicit Arguments. Unset Strict Implicit. Unset Printing Implicit Defensive.

(** ** Specification *)
Definition one_line (x : str) : bool := ~~ has (Ascii.eqb newline) x.
(** Every line but the first begins with at least [k] blanks. *)
Fixpoint blanks (k : nat) (x : str) : bool :=
  match k, x with 0, _ => true | k'.+1, c :: x' => Ascii.eqb c space && blanks k' x' | _, _ => false end.
Fixpoint lines_indented (k : nat) (x : str) : bool :=
  if x is c :: x' then (Ascii.eqb c newline ==> blanks k x') && lines_indented k x' else true.
(** [z] with each line but the first indented by [k] blanks. *)
Fixpoint hang (k : nat) (z : str) : str :=
  if z is c :: z' then c :: (if Ascii.eqb c newline then nseq k space else [::]) ++ hang k z' else [::].
(** A text [x] which ends with a closing bracket, with attributes (name and text) on separate lines put before it. *)
Definition layout (x : str) (fields : seq (string * str)) : str :=
  take (size x).-1 x ++ flatten [seq newline :: lit f.1 ++ hang (size (lit f.1)) (strip f.2) | f <- fields] ++ lit ">".

(** ** Characters *)
Lemma eqbP c d : reflect (c = d) (Ascii.eqb c d).
Proof. apply: (iffP idP) => [/Ascii.eqb_eq|->] //; exact: Ascii.eqb_refl. Qed.
Definition free (c : ascii) (x : str) : bool := all (fun d => ~~ Ascii.eqb d c) x.
Lemma split_at c (u v x y : str) : free c u -> free c v -> u ++ c :: x = v ++ c :: y -> u = v /\ x = y.
Proof.
elim: u v => [|d u IH] [|e v] //=; first by move=> _ _ [].
- by move=> _ /andP[/eqbP n _] [ec _]; case: n.
- by move=> /andP[/eqbP n _] _ [ec _]; case: n.
- by move=> /andP[_ h1] /andP[_ h2] [-> /(IH _ h1 h2)[-> ->]].
Qed.
Lemma free_cat c x y : free c (x ++ y) = free c x && free c y. Proof. exact: all_cat. Qed.
Definition digit (c : ascii) : bool := (47 < nat_of_ascii c < 58).
Lemma dec_digits n : all digit (dec n).
Proof. by rewrite /dec; move: (Nat.to_uint n) => d; elim: d => //= d ->. Qed.
Lemma dec_free c n : ~~ digit c -> free c (dec n).
Proof.
move=> h; apply: sub_all (dec_digits n) => d hd; apply/eqbP => e; by rewrite e (negbTE h) in hd.
Qed.
Lemma dec_inj n m : dec n = dec m -> n = m.
Proof.
move=> h; apply: Unsigned.to_uint_inj; have := NilEmpty.usu (Nat.to_uint n).
have -> : NilEmpty.string_of_uint (Nat.to_uint n) = NilEmpty.string_of_uint (Nat.to_uint m).
  by rewrite -[LHS]string_of_list_ascii_of_string -[RHS]string_of_list_ascii_of_string; congr string_of_list_ascii.
by rewrite NilEmpty.usu => -[].
Qed.
Lemma dec_nil n : dec n <> [::].
Proof.
have := NilEmpty.usu (Nat.to_uint n); rewrite /dec; case: (NilEmpty.string_of_uint _) => // -[e] _.
by have := Unsigned.of_to n; rewrite -e => en; move: e; rewrite -en.
Qed.
Lemma items_free c s : ~~ digit c -> free c (lit ", ") -> free c (items s).
Proof.
move=> h hc; elim: s => // n [|m s] IH; first exact: dec_free.
by rewrite -[items _]/(dec n ++ lit ", " ++ items (m :: s)) !free_cat dec_free // hc IH.
Qed.
Lemma items_inj s t : items s = items t -> s = t.
Proof.
have C n m (x : str) : dec n <> dec m ++ ","%char :: x.
  move=> e; have : free ","%char (dec n) by exact: dec_free.
  by rewrite e free_cat /= andbF.
elim: s t => [|n [|n' s] IH] [|m [|m' t]] //.
- by move=> e; have := @dec_nil m; rewrite -[dec m]/(items [:: m]) -e.
- by rewrite -[items [:: m, m' & t]]/(dec m ++ lit ", " ++ items (m' :: t)); case: (dec m) (@dec_nil m).
- by move/dec_nil.
- by move/dec_inj ->.
- by move/C.
- by rewrite -[items [:: n, n' & s]]/(dec n ++ lit ", " ++ items (n' :: s)); case: (dec n) (@dec_nil n).
- by move/esym/C.
- rewrite -[items [:: n, n' & s]]/(dec n ++ ","%char :: space :: items (n' :: s)) -[items [:: m, m' & t]]/(dec m ++ ","%char :: space :: items (m' :: t)).
  by case/split_at; [exact: dec_free|exact: dec_free|move=> /dec_inj -> /(congr1 behead) /IH ->].
Qed.
Definition body (s : seq nat) : str := if s is [:: n] then dec n ++ lit "," else items s.
Lemma body_inj s t : body s = body t -> s = t.
Proof.
have L n (u : seq nat) : dec n ++ lit "," = items u -> False.
  case: u => [|m [|m' u]]; first by case: (dec n).
    by move=> e; have : free ","%char (dec m); [exact: dec_free|rewrite -[dec m]e free_cat /= andbF].
  rewrite -[items (m :: _)]/(dec m ++ ","%char :: space :: items (m' :: u)) => /split_at[]; by [exact: dec_free|exact: dec_free|].
case: s => [|n [|n' s]]; case: t => [|m [|m' t]]; rewrite /body; try by [move/L|move/esym/L|move/items_inj].
by case/split_at; [exact: dec_free|exact: dec_free|move/dec_inj ->].
Qed.
Lemma body_free s : free ")"%char (body s).
Proof. by rewrite /body; case: s => [|n [|m s]] //; [rewrite free_cat dec_free|exact: items_free]. Qed.
Lemma tuple_inj s t x y : tuple_str s ++ x = tuple_str t ++ y -> s = t /\ x = y.
Proof.
rewrite /tuple_str -/(body s) -/(body t) -!catA => -[/split_at[]]; [exact: body_free|exact: body_free|by move=> /body_inj -> ->].
Qed.

(** ** Indentation *)
Lemma blanks_cat k x y : blanks k x -> blanks k (x ++ y).
Proof. by elim: k x => // k IH [//|c x] /= /andP[-> /IH]. Qed.
Lemma li_cat k x y : lines_indented k x -> lines_indented k y -> lines_indented k (x ++ y).
Proof.
move=> + hy; elim: x => //= c x IH /andP[h1 /IH ->]; rewrite andbT; apply/implyP => e; apply: blanks_cat.
exact: (implyP h1).
Qed.
Lemma li_one k x : one_line x -> lines_indented k x.
Proof.
elim: x => //= c x IH; rewrite /one_line /= negb_or => /andP[h1 /IH ->]; rewrite andbT; apply/implyP => /eqbP e.
by rewrite e in h1.
Qed.
Lemma blanks_le k x : blanks k.+1 x -> blanks k x.
Proof. by elim: k x => // k IH [//|c x]; rewrite -[blanks _ _]/(Ascii.eqb c space && blanks k.+1 x) => /andP[/= -> /IH]. Qed.
Lemma li_le k x : lines_indented k.+1 x -> lines_indented k x.
Proof.
elim: x => // c x IH; rewrite -[lines_indented k.+1 _]/((Ascii.eqb c newline ==> blanks k.+1 x) && lines_indented k.+1 x).
by case/andP=> h /IH /= ->; rewrite andbT; apply/implyP => /(implyP h)/blanks_le.
Qed.
Lemma li_le1 k x : lines_indented k.+1 x -> lines_indented 1 x.
Proof. by elim: k => // k IH /li_le. Qed.
Lemma blanks_nseq k x : blanks k (nseq k space ++ x). Proof. by elim: k => //= k ->. Qed.
Lemma li_nseq k n x : lines_indented k x -> lines_indented k (nseq n space ++ x). Proof. by move=> h; elim: n. Qed.
Lemma li_indent k x : lines_indented k (indent (nseq k space) x).
Proof.
rewrite /indent; apply: li_nseq; elim: x => //= c x IH; case: eqbP => [_|/eqbP/negbTE n] /=; last by rewrite n.
by rewrite blanks_nseq /=; exact: li_nseq.
Qed.
Lemma li_lstrip k x : lines_indented k x -> lines_indented k (lstrip x).
Proof. by elim: x => // c x IH /= /andP[h1 h2]; case: ifP => _; [exact: IH|rewrite /= h1]. Qed.
Lemma li_strict k q c w : ~~ is_space c -> lines_indented k (rcons q c ++ w) -> lines_indented k (rcons q c).
Proof.
move=> hc; have B j p : blanks j (rcons p c ++ w) -> blanks j (rcons p c).
  elim: j p => // j IH [|d p] /=; first by move=> /andP[/eqbP e]; rewrite e in hc.
  by move=> /andP[-> /IH].
elim: q => [|d q IH] /=; first by move=> _; rewrite !andbT; apply/implyP => /eqbP e; rewrite e in hc.
by move=> /andP[h1 /IH ->]; rewrite andbT; apply/implyP => /(implyP h1)/B.
Qed.
Lemma rstripE x : (rstrip x = [::] /\ all is_space x) \/ exists q c w, [/\ rstrip x = rcons q c, ~~ is_space c, all is_space w & x = rcons q c ++ w].
Proof.
have [y ->] : exists y, x = rev y by exists (rev x); rewrite revK.
rewrite /rstrip revK; elim: y => [|c y IH] /=; first by left.
case: ifP => [hc|/negbT hc]; last first.
  by right; exists (rev y), c, [::]; rewrite rev_cons cats0.
case: IH => [[-> h]|[q [d [w [-> h1 h2 h3]]]]]; [left|right]; rewrite rev_cons; first by rewrite all_rcons hc.
by exists q, d, (rcons w c); rewrite all_rcons hc h3 rcons_cat.
Qed.
Lemma li_strip k x : lines_indented k x -> lines_indented k (strip x).
Proof.
move=> /li_lstrip; rewrite /strip; move: (lstrip x) => y h.
by case: (rstripE y) => [[-> //]|[q [c [w [-> hc _ e]]]]]; move: h; rewrite {1}e; exact: li_strict.
Qed.
Lemma strip_id x : strip (strip x) = strip x.
Proof.
have L y : lstrip y = [::] \/ exists c z, lstrip y = c :: z /\ ~~ is_space c.
  by elim: y => [|c y IH] /=; [left|case: ifP => [//|/negbT h]; right; exists c, y].
have Lid c z : ~~ is_space c -> lstrip (c :: z) = c :: z by move=> /= /negbTE ->.
have Rid q c : ~~ is_space c -> rstrip (rcons q c) = rcons q c by move=> h; rewrite /rstrip rev_rcons Lid // -rev_rcons revK.
rewrite {2 3}/strip; case: (L x) => [-> //|[c [z [-> hc]]]].
case: (rstripE (c :: z)) => [[-> //]|[q [d [w [-> hd _ e]]]]]; rewrite /strip.
have -> : lstrip (rcons q d) = rcons q d by move: e; case: q => [|c' q] [e _]; [by rewrite /= (negbTE hd)|by rewrite /= -e (negbTE hc)].
exact: Rid.
Qed.
(** Trimming after indenting amounts to indenting the further lines of the trimmed text. *)
Lemma indentE k x : indent (nseq k space) x = nseq k space ++ hang k x.
Proof.
rewrite /indent; apply: (congr1 (cat _)).
by elim: x => //= c x ->; case: eqbP => [->|]. Qed.
Lemma lstrip_nseq k x : lstrip (nseq k space ++ x) = lstrip x. Proof. by elim: k. Qed.
Lemma lstrip_hang k x : lstrip (hang k x) = hang k (lstrip x).
Proof.
elim: x => //= c x IH; case: ifP => hc //; case: eqbP => _ /=; last exact: IH.
by rewrite lstrip_nseq.
Qed.
Lemma hang_cat k x y : hang k (x ++ y) = hang k x ++ hang k y.
Proof. by elim: x => //= c x ->; rewrite catA. Qed.
Lemma hang_ws k x : all is_space x -> all is_space (hang k x).
Proof.
elim: x => //= c x IH /andP[-> /IH]; rewrite all_cat => ->; rewrite andbT /=.
by case: ifP => //= _; elim: k {IH}.
Qed.
Lemma rstrip_ws x y : all is_space y -> rstrip (x ++ y) = rstrip x.
Proof.
move=> h; rewrite /rstrip rev_cat; congr rev; move: h; rewrite -all_rev.
by elim: (rev y) => //= c z IH /andP[-> /IH].
Qed.
Lemma rstrip_last q c : ~~ is_space c -> rstrip (rcons q c) = rcons q c.
Proof. by move=> /negbTE h; rewrite /rstrip rev_rcons /= h rev_cons revK. Qed.
Lemma rstrip_hang k x : rstrip (hang k x) = hang k (rstrip x).
Proof.
case: (rstripE x) => [[-> h]|[q [c [w [-> hc hw {1}->]]]]].
  by rewrite -[hang k x]cat0s rstrip_ws ?hang_ws.
rewrite hang_cat rstrip_ws ?hang_ws // -cats1 hang_cat /=.
have -> : Ascii.eqb c newline = false by apply/eqbP => e; rewrite e in hc.
by rewrite cats1 rstrip_last.
Qed.
Lemma strip_indent k x : strip (indent (nseq k space) x) = hang k (strip x).
Proof. by rewrite indentE /strip lstrip_nseq lstrip_hang rstrip_hang. Qed.

Section Texts.
Variable F : rcfType.
Notation tensor := (tensor F).
Notation mat := (mat F).
Variable fmt : tensor -> str.
Variable given : mat -> bool * bool.
Variable npr : tensor -> str.

(** ** Specification of [str(a)]: the class, the shape of the batch, the shape, the data type and, of a low-rank matrix, the
    rank. *)
Definition str_spec (a : mat) (k : ty) : str :=
  lit "<" ++ class_name k ++ lit ": batch=" ++ tuple_str (rev (mbatch a)) ++ lit ", shape=" ++
  tuple_str [:: mrows a; mcols a] ++ lit ", dtype=" ++ dtype_str (mdtype a) ++
  (if a is LR _ _ m then lit ", rank=" ++ dec (minn (mrows m) (mcols m)) else [::]) ++ lit ">".
Definition mrank (a : mat) : option nat := if a is LR _ _ m then Some (minn (mrows m) (mcols m)) else None.

Theorem C49_str (a : mat) (k : ty) : wf a -> ty_of a = Some k -> str_of a = ret (str_spec a k).
Proof.
move=> h e; rewrite /str_of e shape_batchE // shape_matrixE // !bind_ret /str_spec.
by case: a h {e} => //= l r m [_ _ hm _ _]; rewrite shape_matrixE.
Qed.

Lemma catL (z x y : str) : z ++ x = z ++ y -> x = y. Proof. by elim: z => // c z IH [/IH]. Qed.
Lemma class_inj k1 k2 x y :
  class_name k1 ++ lit ": batch=" ++ x = class_name k2 ++ lit ": batch=" ++ y -> k1 = k2 /\ x = y.
Proof.
set q := lit " batch="; rewrite -![lit ": batch=" ++ _]/(":"%char :: q ++ _) => /split_at; case; [by case: k1|by case: k2|].
by move=> e /catL ->; split=> //; case: k1 e; case: k2.
Qed.
Lemma dt_inj d1 d2 (x y : str) : (x = [::] \/ exists z, x = ","%char :: z) -> (y = [::] \/ exists z, y = ","%char :: z) ->
  dtype_str d1 ++ x ++ lit ">" = dtype_str d2 ++ y ++ lit ">" -> d1 = d2 /\ x = y.
Proof.
by move=> [->|[z ->]] [->|[w ->]]; case: d1; case: d2 => //= -[] // e; split=> //; congr cons; move: e; rewrite !cats1 => /rcons_inj[].
Qed.
Lemma getE l1 l2 (x y : str) : Ret l1 x = Ret l2 y -> x = y. Proof. by case. Qed.
Theorem C49_str_injective (a b : mat) (x : str) la lb : wf a -> wf b ->
  str_of a = Ret la x -> str_of b = Ret lb x ->
  [/\ ty_of a = ty_of b, mshape a = mshape b, mdtype a = mdtype b & mrank a = mrank b].
Proof.
move=> ha hb; case ea: (ty_of a) => [k1|]; last by rewrite /str_of ea.
case eb: (ty_of b) => [k2|]; last by rewrite /str_of eb.
rewrite (C49_str ha ea) (C49_str hb eb) => /getE <- /getE; rewrite /str_spec => /catL/class_inj[ek] /tuple_inj[eB] /catL.
move/tuple_inj=> -[[eR eC]] /catL /dt_inj[].
- by case: (b) => [*|*|*|*|*|*|*|*|*|*]; [left..|right; eexists; reflexivity|left|left].
- by case: (a) => [*|*|*|*|*|*|*|*|*|*]; [left..|right; eexists; reflexivity|left|left].
move=> eD er; split; [by rewrite ek| |by []|].
  have sh1 (c : mat) : mshape c = [:: mcols c, mrows c & mbatch c] by [].
  by rewrite !sh1 eR eC -[mbatch a]revK -[mbatch b]revK eB.
by move: er; rewrite /mrank; case: (a) => //; case: (b) => //= l r m l' r' m' [] /dec_inj ->.
Qed.

(** ** Specification of [repr(a)]: the text of [str(a)] with the texts of the attributes. *)
Inductive prints : mat -> str -> Prop :=
| P_array t : prints (Nm t) (fmt t)
| P_zero d b r c : prints (Zero d b r c) (str_spec (Zero d b r c) TZero)
| P_const t r c : prints (Const t r c) (layout (str_spec (Const t r c) TConst) [:: (" const="%string, fmt t)])
| P_dense t : prints (Dense t) (layout (str_spec (Dense t) TDense) [:: (" mat="%string, fmt t)])
| P_lt t : prints (LT t) (layout (str_spec (LT t) TLT) [:: (" mat="%string, fmt t)])
| P_ut t : prints (UT t) (layout (str_spec (UT t) TUT) [:: (" mat="%string, fmt t)])
| P_diag t : prints (Diag t) (layout (str_spec (Diag t) TDiag) [:: (" diag="%string, fmt t)])
| P_lr l r m x y z : prints l x -> prints r y -> prints m z ->
    prints (LR l r m) (layout (str_spec (LR l r m) TLR)
      ((" left="%string, x) :: (if (given (LR l r m)).1 then [:: (" middle="%string, z)] else [::]) ++
       (if (given (LR l r m)).2 then [:: (" right="%string, y)] else [::])))
| P_wb d l r m u v : prints (Diag d) u -> prints (LR l r m) v ->
    prints (Wb d l r m) (layout (str_spec (Wb d l r m) TWb) [:: (" diag="%string, u); (" lr="%string, v)])
| P_kron l r x y : prints l x -> prints r y ->
    prints (Kron l r) (layout (str_spec (Kron l r) TKron) [:: (" left="%string, x); (" right="%string, y)]).

Lemma chopE x : chop x = take (size x).-1 x. Proof. by []. Qed.
Lemma fieldE (name : string) n x : n = size (lit name) -> field name n x = newline :: lit name ++ hang (size (lit name)) (strip x).
Proof. by move=> ->; rewrite /field strip_indent. Qed.
Notation repr := (repr fmt given).
Lemma bind_ext A B (m : outcome A) (f g : A -> outcome B) : (forall a, f a = g a) -> bind m f = bind m g.
Proof. by move=> h; case: m => [l a|l e] //; rewrite /bind h. Qed.
Lemma repr_wbE d l r m : repr (Wb d l r m) =
  (do s <- str_of (Wb d l r m); do u <- repr (Diag d); do v <- repr (LR l r m);
   ret (chop s ++ field " diag=" 6 u ++ field " lr=" 4 v ++ lit ">")).
Proof.
rewrite -[LHS]/(do s <- str_of (Wb d l r m); do s1 <- str_of (Diag d);
  do x <- repr l; do y <- repr r; do z <- repr m; do v <- repr_lr given (LR l r m) x y z;
  ret (chop s ++ field " diag=" 6 (chop s1 ++ field " diag=" 6 (fmt d) ++ lit ">") ++ field " lr=" 4 v ++ lit ">")).
apply: bind_ext => s; rewrite -[repr (Diag d)]/(bind (str_of _) _) [in RHS]bindA.
apply: bind_ext => s1; rewrite bind_ret.
rewrite -[repr (LR l r m)]/(do x <- repr l; do y <- repr r; do z <- repr m; repr_lr given (LR l r m) x y z).
by rewrite bindA; apply: bind_ext => x; rewrite bindA; apply: bind_ext => y; rewrite bindA.
Qed.
Let line (f : string * str) : str := newline :: lit f.1 ++ hang (size (lit f.1)) (strip f.2).
Lemma lay1 x f : layout x [:: f] = chop x ++ line f ++ lit ">".
Proof. by rewrite /layout -/line map_cons [flatten _]cats0. Qed.
Lemma lay2 x f g : layout x [:: f; g] = chop x ++ line f ++ line g ++ lit ">".
Proof. by rewrite /layout -/line !map_cons -[flatten _]/(line f ++ (line g ++ [::])) cats0 -catA. Qed.
Lemma lay3 x f g h : layout x [:: f; g; h] = chop x ++ line f ++ line g ++ line h ++ lit ">".
Proof. by rewrite /layout -/line !map_cons -[flatten _]/(line f ++ (line g ++ (line h ++ [::]))) cats0 -!catA. Qed.
Lemma prints_repr a x : wf a -> prints a x -> repr a = ret x.
Proof.
move=> + h; elim: h => {a x}.
- by [].
- by move=> d b r c h; rewrite -[repr _]/(str_of _) (C49_str h (erefl _)).
- by move=> t r c h; rewrite -[repr _]/(bind (str_of _) _) (C49_str h (erefl _)) bind_ret fieldE // lay1.
- by move=> t h; rewrite -[repr _]/(bind (str_of _) _) (C49_str h (erefl _)) bind_ret fieldE // lay1.
- by move=> t h; rewrite -[repr _]/(bind (str_of _) _) (C49_str h (erefl _)) bind_ret fieldE // lay1.
- by move=> t h; rewrite -[repr _]/(bind (str_of _) _) (C49_str h (erefl _)) bind_ret fieldE // lay1.
- by move=> t h; rewrite -[repr _]/(bind (str_of _) _) (C49_str h (erefl _)) bind_ret fieldE // lay1.
- move=> l r m x y z _ IHl _ IHr _ IHm h; case: (h) => hl hr hm _ _.
  rewrite -[repr _]/(do x <- repr l; do y <- repr r; do z <- repr m; repr_lr given (LR l r m) x y z).
  rewrite (IHl hl) (IHr hr) (IHm hm) !bind_ret /repr_lr (C49_str h (erefl _)) bind_ret fieldE //.
  by case: (given _) => -[] []; rewrite ?fieldE // ?lay1 ?lay2 ?lay3.
- move=> d l r m u v _ IHd _ IHlr h; rewrite repr_wbE IHlr; last by case: h.
  by rewrite IHd ?(C49_str h (erefl _)) ?bind_ret ?fieldE // ?lay2 //; case: h => _ /and4P[].
- move=> l r x y _ IHl _ IHr h; case: (h) => hl hr _.
  rewrite -[repr _]/(do s <- str_of (Kron l r); do x <- repr l; do y <- repr r;
    ret (chop s ++ field " left=" 6 x ++ field " right=" 7 y ++ lit ">")).
  by rewrite (C49_str h (erefl _)) (IHl hl) (IHr hr) !bind_ret !fieldE // lay2.
Qed.
Lemma repr_prints a : wf a -> exists x, prints a x.
Proof.
elim: a => [t|d b r c|t|t|t r c|t|t|l IHl r IHr m IHm|d l IHl r IHr m IHm|l IHl r IHr]; try by move=> _; eexists; constructor.
- by case=> /IHl[x h1] /IHr[y h2] /IHm[z h3] _ _; eexists; apply: P_lr h1 h2 h3.
- by case=> -[] /IHl[x h1] /IHr[y h2] /IHm[z h3] _ _ _; eexists; apply: P_wb (P_diag d) (P_lr h1 h2 h3).
- by case=> /IHl[x h1] /IHr[y h2] _; eexists; apply: P_kron h1 h2.
Qed.
Theorem C49_repr a x : wf a -> repr a = ret x <-> prints a x.
Proof.
move=> h; split; last exact: prints_repr.
by case: (repr_prints h) => y hy; rewrite (prints_repr h hy) => /getE <-.
Qed.
(** It returns, and begins and ends like the text of [str]. *)
Theorem C49_repr_begins a k : wf a -> ty_of a = Some k -> exists x y z,
  [/\ repr a = ret x, str_of a = ret (y ++ lit ">") & x = y ++ z ++ lit ">"].
Proof.
move=> h e; case: (repr_prints h) => x hx; rewrite (prints_repr h hx) (C49_str h e).
have [y ey] : exists y, str_spec a k = y ++ lit ">" by eexists; rewrite /str_spec !catA; reflexivity.
exists x, y; rewrite ey.
have L f : exists z, layout (str_spec a k) f = y ++ z ++ lit ">".
  by eexists; rewrite /layout ey size_cat addn1 /= take_size_cat.
have Z : exists z, str_spec a k = y ++ z ++ lit ">" by exists [::].
have [z ez] : exists z, x = y ++ z ++ lit ">".
  by case: hx e ey L Z => *; match goal with E : ty_of _ = Some _ |- _ => simpl in E; first [discriminate E|injection E as <-] end; auto.
by exists z.
Qed.
(** Of a matrix object, every line of the text but the first begins with a blank. *)
Lemma li_field name n y : (exists w, lit name = lit " " ++ w /\ one_line w) -> lines_indented 1 (field name n.+1 y).
Proof.
have hn z : lines_indented 1 (lit " " ++ z) -> lines_indented 1 (newline :: lit " " ++ z) by [].
case=> w [e hw]; rewrite /field e -catA; apply: (hn (w ++ _)); apply: (@li_cat 1 (lit " ")) => //.
by apply: li_cat; [exact: li_one|exact: li_strip (li_le1 (li_indent _ _))].
Qed.
Lemma one_cat x y : one_line (x ++ y) = one_line x && one_line y. Proof. by rewrite /one_line has_cat negb_or. Qed.
Lemma dec_one n : one_line (dec n).
Proof. by rewrite /one_line -all_predC; apply: sub_all (dec_digits n) => d hd; apply/negP => /eqbP e; rewrite -e in hd. Qed.
Lemma items_one s : one_line (items s).
Proof.
elim: s => // n [|m s] IH; first exact: dec_one.
by rewrite -[items _]/(dec n ++ lit ", " ++ items (m :: s)) !one_cat dec_one IH.
Qed.
Lemma tuple_one s : one_line (tuple_str s).
Proof.
by rewrite /tuple_str !one_cat; case: s => [|n [|m s]] //; [rewrite one_cat dec_one|rewrite items_one].
Qed.
Theorem C49_str_line a k : one_line (str_spec a k).
Proof.
rewrite /str_spec; move: (tuple_one (rev (mbatch a))) (tuple_one [:: mrows a; mcols a]).
move: (tuple_str (rev _)) (tuple_str [:: _; _]) => u v hu hv.
have hc : one_line (class_name k) by case: k.
have hd : one_line (dtype_str (mdtype a)) by case: (mdtype a).
rewrite !one_cat hu hv; move: hc hd; move: (class_name k) (dtype_str _) => c d -> ->.
by case: a => // l r m; rewrite one_cat dec_one.
Qed.
Theorem C49_repr_lines a x : wf a -> ty_of a <> None -> repr a = ret x -> lines_indented 1 x.
Proof.
move=> h hk /(C49_repr _ h) hx; have S k f : all (fun p : string * str => (if lit p.1 is c :: w then Ascii.eqb c space && one_line w else false)) f ->
  lines_indented 1 (layout (str_spec a k) f).
  have T n (y : str) : one_line y -> one_line (take n y).
    by move=> hy; have : one_line (take n y ++ drop n y); [by rewrite cat_take_drop|by rewrite one_cat => /andP[]].
  move=> hf; rewrite /layout; apply: li_cat; first exact/li_one/T/C49_str_line.
  apply: li_cat => //; elim: f hf => // -[name z] f IH /andP[/= h1 h2].
  apply: (@li_cat 1 (line (name, z))); last exact: IH.
  have -> : line (name, z) = field name (size (lit name)) z by rewrite fieldE.
  case: name h1 => [//|c name] /andP[/eqbP ec hw]; rewrite {}ec.
  by apply: (@li_field (String space name) (size (lit name))); exists (lit name).
case: hx h hk S => [t|d b r c|t r c|t|t|t|t|l r m u v w _ _ _|d l r m u v _ _|l r u v _ _] h hk S //; try exact: S.
- exact/li_one/C49_str_line.
- by apply: S; case: (given _) => -[] [].
Qed.

(** ** Tiled blocks *)
Definition tl_spec (a : tiled F) (s : shape) : str :=
  lit "<tile of blocks: batch=" ++ tuple_str (rev (drop 2 s)) ++ lit ", shape=" ++ tuple_str [:: nth 0 s 1; nth 0 s 0] ++
  lit ", axis=" ++ int_str (tl_axis a) ++ lit ", dtype=" ++ dtype_str (tl_dtype a) ++ lit ">".
Theorem C49_tiled_str (a : tiled F) s : tl_shape a = ret s -> tl_str a = ret (tl_spec a s).
Proof. by move=> h; rewrite /tl_str /tl_shape_batch /tl_shape_matrix h !bind_ret. Qed.
Lemma int_inj i j (x y : str) : int_str i ++ ","%char :: x = int_str j ++ ","%char :: y -> i = j /\ x = y.
Proof.
have fr k : free ","%char (int_str k) by case: k => n; rewrite /int_str /= ?dec_free.
have D n m : dec n <> "-"%char :: dec m.
  by move=> e; have := dec_digits n; rewrite e /=.
move=> h; case: (split_at (fr i) (fr j) h) => e ->; split=> //; case: i j e {h} => n [] m; rewrite /int_str.
- by move/dec_inj ->.
- by move/D.
- by move/esym/D.
- by move/(@catL [:: "-"%char])/dec_inj => -[->].
Qed.
(** Tiled blocks with the same text have the same axis, data type, batch shape and matrix shape. *)
Theorem C49_tiled_str_injective (a b : tiled F) s t x : tl_shape a = ret s -> tl_shape b = ret t ->
  tl_str a = ret x -> tl_str b = ret x ->
  [/\ tl_axis a = tl_axis b, tl_dtype a = tl_dtype b, drop 2 s = drop 2 t & (nth 0 s 1, nth 0 s 0) = (nth 0 t 1, nth 0 t 0)].
Proof.
move=> /C49_tiled_str-> /C49_tiled_str-> /getE<- /getE; rewrite /tl_spec => /catL/tuple_inj[eB] /catL/tuple_inj[eS] /catL.
move/int_inj=> [eA] /(@catL (lit " dtype=")) eD; have [] := @dt_inj (tl_dtype b) (tl_dtype a) [::] [::] (or_introl (erefl _)) (or_introl (erefl _)) eD.
by move=> ed _; split=> //; [rewrite -[drop 2 s]revK -[drop 2 t]revK eB|case: eS => -> ->].
Qed.
(** Numerals read back as the number; a negative number has a minus sign. *)
Theorem C49_numerals n : exists d, NilEmpty.uint_of_string (string_of_list_ascii (dec n)) = Some d /\ Nat.of_uint d = n.
Proof.
exists (Nat.to_uint n); rewrite Unsigned.of_to; split=> //.
by rewrite /dec /lit string_of_list_ascii_of_string NilEmpty.usu.
Qed.
Theorem C49_integers (i : int) : int_str i = (if (i < 0)%R then lit "-" else [::]) ++ dec `|i|%N.
Proof. by case: i. Qed.
(** The text of a block: Python's text of an array, or [repr] of the matrix. *)
Definition block_text (a : mat) (x : str) : Prop := if a is Nm t then x = npr t else prints a x.
(** For every block two lines: the number of repetitions, and the text of the block, indented. *)
Theorem C49_tiled_repr (a : tiled F) s : tl_shape a = ret s -> foldr (fun q P => wf q.1 /\ P) True (tl_items a) ->
  exists xs, [/\ size xs = size (tl_items a),
    forall i, i < size xs -> block_text (nth (Nm (t_scalar DBool 0%R), 0) (tl_items a) i).1 (nth [::] xs i) &
    tl_repr fmt given npr a = ret (chop (tl_spec a s) ++
      flatten [seq newline :: lit " <block: reps=" ++ dec q.1.2 ++ newline :: lit "  matrix=" ++ hang 10 (strip q.2)
              | q <- zip (tl_items a) xs] ++ lit ">")].
Proof.
move=> hs hw; pose B (q : mat * nat) (x : str) : str := lit " <block: reps=" ++ dec q.2 ++ newline :: lit "  matrix=" ++ hang 10 (strip x) ++ [:: newline].
have [xs [sx hx ex]] : exists xs, [/\ size xs = size (tl_items a),
    forall i, i < size xs -> block_text (nth (Nm (t_scalar DBool 0%R), 0) (tl_items a) i).1 (nth [::] xs i) &
    mapM (block_repr fmt given npr) (tl_items a) = ret [seq B q.1 q.2 | q <- zip (tl_items a) xs]].
  elim: (tl_items a) hw => [_|[b n] its IH /= [hb /IH[xs [sx hx ex]]]]; first by exists [::].
  have [x [h1 h2]] : exists x, block_text b x /\ block_repr fmt given npr (b, n) = ret (B (b, n) x).
    case: (repr_prints hb) => x hx0; have hr := prints_repr hb hx0.
    case: b hb hx0 hr => [t|d b r c|t|t|t r c|t|t|l r m|d l r m|l r] hb hx0 hr.
    by exists (npr t); split=> //; rewrite /block_repr bind_ret strip_indent.
    1-9: by exists x; split=> //; rewrite /block_repr hr bind_ret strip_indent.
  exists (x :: xs); split=> /=; [by rewrite sx| |by rewrite h2 ex !bind_ret].
  by case=> // i; exact: hx.
exists xs; split=> //; rewrite /tl_repr (C49_tiled_str hs) ex !bind_ret; congr ret.
set line1 := fun q : (mat * nat) * str => lit " <block: reps=" ++ dec q.1.2 ++ newline :: lit "  matrix=" ++ hang 10 (strip q.2).
have -> : newline :: flatten [seq B q.1 q.2 | q <- zip (tl_items a) xs] =
    flatten [seq newline :: line1 q | q <- zip (tl_items a) xs] ++ [:: newline].
  have fl (x : str) ys : flatten (x :: ys) = x ++ flatten ys by [].
  elim: (zip _ _) => // q qs IH; rewrite !map_cons !fl.
  have -> : B q.1 q.2 = line1 q ++ [:: newline] by rewrite /line1 -!catA -cat_cons -!catA.
  by move: (line1 q) => l1; rewrite -!catA -IH.


by rewrite catA {1}/chop size_cat addn1 /= take_size_cat // -catA.
Qed.
End Texts.

(** A batch of Kronecker products of a triangular and a Woodbury matrix: nested attributes. *)
Example C49_example (F : rcfType) : exists x y z,
  [/\ repr (fun=> lit "?") (fun=> (true, true)) (s_kron F) = ret x, str_of (s_kron F) = ret (y ++ lit ">") & x = y ++ z ++ lit ">"].
Proof. exact: (@C49_repr_begins F _ _ (s_kron F) TKron (s_kron_wf F)). Qed.
(** The text of tests/test_woodbury.py:13-25, but for the entries. *)
Section Example.
Variable F : rcfType.
Let ones : mat F := Nm (t_ones DFloat64 [:: 1; 3]%N).
Let nl : string := string_of_list_ascii [:: newline].
Example C49_example_text :
  repr (fun t => lit (if sh t is [:: 3]%N then "[1. 1. 1.]" else if sh t is [:: 1; 1]%N then "[[1.]]" else
                      "[[1.]" ++ nl ++ " [1.]" ++ nl ++ " [1.]]")%string) (fun=> (false, true))
    (Wb (t_ones DFloat64 [:: 3]%N) ones ones (Diag (t_ones DFloat64 [:: 1]%N))) = ret (lit (
"<Woodbury matrix: batch=(), shape=(3, 3), dtype=float64" ++ nl ++
" diag=<diagonal matrix: batch=(), shape=(3, 3), dtype=float64" ++ nl ++
"       diag=[1. 1. 1.]>" ++ nl ++
" lr=<low-rank matrix: batch=(), shape=(3, 3), dtype=float64, rank=1" ++ nl ++
"     left=[[1.]" ++ nl ++
"           [1.]" ++ nl ++
"           [1.]]" ++ nl ++
"     right=[[1.]" ++ nl ++
"            [1.]" ++ nl ++
"            [1.]]>>")%string).
Proof. vm_compute. reflexivity. Qed.
(** The text of tests/test_tiledblocks.py:13-26. *)
Example C49_example_tiled :
  tl_repr (fun=> lit "[1. 1. 1.]") (fun=> (false, true)) (fun=> [::])
    (Tiled [:: (Diag (t_ones DFloat64 [:: 3]%N), 1); (Zero DInt [::] 3 3 : mat F, 2)] (Posz 0)) = ret (lit (
"<tile of blocks: batch=(), shape=(9, 3), axis=0, dtype=float64" ++ nl ++
" <block: reps=1" ++ nl ++
"  matrix=<diagonal matrix: batch=(), shape=(3, 3), dtype=float64" ++ nl ++
"           diag=[1. 1. 1.]>" ++ nl ++
" <block: reps=2" ++ nl ++
"  matrix=<zero matrix: batch=(), shape=(3, 3), dtype=int64>>")%string).
Proof. vm_compute. reflexivity. Qed.
End Example.
Print Assumptions C49_str. Print Assumptions C49_str_line. Print Assumptions C49_str_injective. Print Assumptions C49_repr.
Print Assumptions C49_repr_begins. Print Assumptions C49_repr_lines. Print Assumptions C49_tiled_str.
Print Assumptions C49_tiled_str_injective. Print Assumptions C49_tiled_repr. Print Assumptions C49_numerals. Print Assumptions C49_integers.
