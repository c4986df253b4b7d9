(** * C18: the column alignment is a valid join

    [align] returns four lists; entry [-1] points at the column of zeros which the caller appends. *)
From mathcomp Require Import all_ssreflect all_algebra.
From mathcomp Require Import zify.
From Verif Require Import Outcome Monad Shape Tensor Mat Dispatch Ops Spec ShapeThy TensorThy TensorThy2 MatThy OpsOk LrAddOk Term2 Exact Exact2 Calm Api Samples.
Set Implicit Arguments. Unset Strict Implicit. Unset Printing Implicit Defensive.
Import GRing.Theory Num.Theory Order.POrderTheory Order.TotalTheory.
Local Open Scope ring_scope.

(** ** Specification *)
(** [n1], [n2]: the numbers of columns; [close i j]: column [i] of the first and [j] of the second are taken
    to be equal. *)
Record valid_join (n1 n2 : nat) (close : nat -> nat -> Prop) (x : alignment) : Prop := ValidJoin {
  (** One length, at most [n1 + n2]. *)
  vj_size : [/\ size (al_b x) = size (al_a x), size (al_ja x) = size (al_a x), size (al_jb x) = size (al_a x) &
               (size (al_a x) <= n1 + n2)%N];
  (** Every column of either matrix is used exactly once. *)
  vj_a : forall i, (i < n1)%N -> count_mem (Posz i) (al_a x) = 1%N;
  vj_b : forall j, (j < n2)%N -> count_mem (Posz j) (al_b x) = 1%N;
  (** All entries are columns or the pad column. *)
  vj_ra : forall p, p \in al_a x -> p = -1 \/ exists2 i, p = Posz i & (i < n1)%N;
  vj_rb : forall p, p \in al_b x -> p = -1 \/ exists2 j, p = Posz j & (j < n2)%N;
  (** No entry is padding on both sides; columns that are paired are close; the joined column is the one of the
      first matrix if there is one, and otherwise the one of the second. *)
  vj_nth : forall k, (k < size (al_a x))%N -> let p := nth 0 (al_a x) k in let q := nth 0 (al_b x) k in
    [/\ p = -1 -> q <> -1, (forall i j, p = Posz i -> q = Posz j -> close i j),
        nth 0 (al_ja x) k = p & nth 0 (al_jb x) k = if p == -1 then q else -1]
}.

Section Spec.
Variable F : rcfType.
Notation mat := (mat F).
(** The first element of the batch. *)
Definition first_be (a : mat) : seq nat := nseq (size (mbatch a)) 0%N.
(** [mean((a0[:, i] - b0[:, j]) ** 2) < 1e-10], with broadcasting of the rows. *)
Definition close_cols (a b : mat) (i j : nat) : Prop :=
  let n := bcn (mrows a) (mrows b) in
  (\sum_(r < n) (ent a (first_be a) (cl (mrows a) r) i - ent b (first_be b) (cl (mrows b) r) j) ^+ 2) / n%:R
    < (10%:R ^+ 10)^-1 :> F.
(** The squared norm of a column. *)
Definition norm2 (a : mat) (j : nat) : F := \sum_(r < mrows a) ent a (first_be a) r j ^+ 2.
End Spec.

(** ** The loop *)
Section Loop.
Variable F : rcfType.
Variables (eq : nat -> nat -> outcome bool) (same e : nat -> nat -> bool) (na nb : seq F).
Definition retd A (m : outcome A) (P : A -> Prop) : Prop := exists l x, m = Ret l x /\ P x.
Lemma retd_bind A B (m : outcome A) (k : A -> outcome B) P Q :
  retd m P -> (forall x, P x -> retd (k x) Q) -> retd (bind m k) Q.
Proof. by case=> l [x [-> h]] H; have [l' [y [ey hy]]] := H x h; rewrite /bind ey; exists (ljoin l l'), y. Qed.
Lemma retd_ret A (x : A) (P : A -> Prop) : P x -> retd (ret x) P. Proof. by exists log0, x. Qed.
Definition nonpad (it : item) : bool := isSome it.1 || isSome it.2.

Lemma loopP k sa sb : (size sa + size sb <= k)%N ->
  (forall i j, i \in sa -> j \in sb -> eq i j = ret (e i j)) ->
  retd (align_loop k eq same na nb sa sb) (fun x => exists its : seq item,
    [/\ x = al_of its, pmap fst its = sa, pmap snd its = sb, all nonpad its &
        forall i j, (Some i, Some j) \in its -> e i j]).
Proof.
elim: k sa sb => [|k IH] [|i sa] [|j sb] //= hk he.
1,2,3: apply: retd_ret.
- by exists [::].
- by exists [::].
- exists [seq (None, Some j) | j <- j :: sb]; split.
  + rewrite /al_of -!map_comp /=; congr Alignment; congr cons; by elim: (sb) => //= z s ->.
  + by rewrite /=; elim: (sb).
  + by rewrite /=; congr cons; elim: (sb) => //= z s ->.
  + by rewrite all_map; apply/allP.
  + by move=> p q /mapP[].
- apply: retd_ret; exists [seq (Some i, None) | i <- i :: sa]; split.
  + rewrite /al_of -!map_comp /=; congr Alignment; congr cons; by elim: (sa) => //= z s ->.
  + by rewrite /=; congr cons; elim: (sa) => //= z s ->.
  + by rewrite /=; elim: (sa).
  + by rewrite all_map; apply/allP.
  + by move=> p q /mapP[].
rewrite he ?mem_head // bind_ret.
case E: (e i j).
  apply: (@retd_bind _ _ _ _ (fun _ => True)); first by exists (Log false (~~ same i j)), tt.
  move=> _ _; apply: (retd_bind (IH sa sb _ _)); first by move: hk; rewrite addSn addnS ltnS => /ltnW.
    by move=> p q hp hq; apply: he; rewrite in_cons ?hp ?hq orbT.
  move=> _ [its [-> <- <- h1 h2]]; apply: retd_ret; exists ((Some i, Some j) :: its); split=> //.
  by move=> p q; rewrite in_cons => /orP[/eqP[-> ->]|/h2].
case: ifP => _.
  apply: (retd_bind (IH sa (j :: sb) _ _)); first by move: hk; rewrite addSn ltnS.
    by move=> p q hp hq; apply: he => //; rewrite in_cons hp orbT.
  move=> _ [its [-> <- <- h1 h2]]; apply: retd_ret; exists ((Some i, None) :: its); split=> //.
  by move=> p q; rewrite in_cons => /orP[/eqP|/h2].
apply: (retd_bind (IH (i :: sa) sb _ _)); first by move: hk; rewrite addnS ltnS.
  by move=> p q hp hq; apply: he => //; rewrite in_cons hq orbT.
move=> _ [its [-> <- <- h1 h2]]; apply: retd_ret; exists ((None, Some j) :: its); split=> //.
Qed.

Lemma loop_all k sa sb : (size sa + size sb <= k)%N ->
  (forall i j, i \in sa -> j \in sb -> eq i j = ret (e i j)) ->
  pairwise (fun i j => nth 0 na i < nth 0 na j) sa -> pairwise (fun i j => nth 0 nb i < nth 0 nb j) sb ->
  (forall i j, i \in sa -> j \in sb -> e i j -> nth 0 na i = nth 0 nb j) ->
  retd (align_loop k eq same na nb sa sb) (fun x => forall p q, p \in sa -> q \in sb -> e p q ->
    (Posz p, Posz q) \in zip (al_a x) (al_b x)).
Proof.
elim: k sa sb => [|k IH] [|i sa] [|j sb] //= hk he ua ub hn; try by apply: retd_ret.
case/andP: (ua) => ia pa; case/andP: (ub) => ib pb.
rewrite he ?mem_head // bind_ret.
have w1 p : p \in sa -> p \in i :: sa by rewrite in_cons orbC => ->.
have w2 p : p \in sb -> p \in j :: sb by rewrite in_cons orbC => ->.
case E: (e i j).
  apply: (@retd_bind _ _ _ _ (fun _ => True)); first by exists (Log false (~~ same i j)), tt.
  move=> _ _; apply: (retd_bind (IH sa sb _ _ pa pb _)).
  - by move: hk; rewrite addSn addnS ltnS => /ltnW.
  - by move=> p q /w1 hp /w2 hq; apply: he.
  - by move=> p q /w1 hp /w2 hq; apply: hn.
  move=> x hx; apply: retd_ret => p q hp hq epq /=.
  have hh := hn _ _ (mem_head _ _) (mem_head _ _) E; have h2 := hn _ _ hp hq epq.
  rewrite in_cons; move: hp hq; rewrite !in_cons => /orP[/eqP ep|hp] /orP[/eqP eq'|hq].
  + by rewrite ep eq' eqxx.
  + by move/allP/(_ _ hq): ib; rewrite -h2 ep hh ltxx.
  + by move/allP/(_ _ hp): ia; rewrite h2 eq' hh ltxx.
  + by rewrite (hx _ _ hp hq epq) orbT.
case: ifP => hlt.
  apply: (retd_bind (IH sa (j :: sb) _ _ pa ub _)).
  - by move: hk; rewrite addSn ltnS.
  - by move=> p q /w1 hp hq; apply: he.
  - by move=> p q /w1 hp hq; apply: hn.
  move=> x hx; apply: retd_ret => p q hp hq epq /=; have h2 := hn _ _ hp hq epq.
  rewrite in_cons; move: hp; rewrite in_cons => /orP[/eqP ep|hp]; last by rewrite hx ?orbT.
  move: hq; rewrite in_cons => /orP[/eqP eq'|hq]; first by rewrite ep eq' E in epq.
  by move/allP/(_ _ hq): ib => /(lt_trans hlt); rewrite -h2 ep ltxx.
apply: (retd_bind (IH (i :: sa) sb _ _ ua pb _)).
- by move: hk; rewrite addnS ltnS.
- by move=> p q hp /w2 hq; apply: he.
- by move=> p q hp /w2 hq; apply: hn.
move=> x hx; apply: retd_ret => p q hp hq epq /=; have h2 := hn _ _ hp hq epq.
rewrite in_cons; move: hq; rewrite in_cons => /orP[/eqP eq'|hq]; last by rewrite hx ?orbT.
move: hp; rewrite in_cons => /orP[/eqP ep|hp]; first by rewrite ep eq' E in epq.
by move/allP/(_ _ hp): ia; rewrite h2 eq' hlt.
Qed.

Lemma loop_self k s : (size s <= k)%N -> (forall i, i \in s -> eq i i = ret true) ->
  retd (align_loop k eq same na nb s s) (fun x =>
    [/\ al_a x = map Posz s, al_b x = map Posz s, al_ja x = map Posz s & al_jb x = nseq (size s) (Negz 0)]).
Proof.
elim: k s => [|k IH] [|i s] //= hk he; try by apply: retd_ret.
rewrite he ?mem_head // bind_ret.
apply: (@retd_bind _ _ _ _ (fun _ => True)); first by exists (Log false (~~ same i i)), tt.
move=> _ _; apply: (retd_bind (IH s hk _)); first by move=> p hp; apply: he; rewrite in_cons hp orbT.
by move=> x [h1 h2 h3 h4]; apply: retd_ret; rewrite /= h1 h2 h3 h4.
Qed.
End Loop.

Lemma count_pmap_fst (its : seq item) (f : item -> option nat) i :
  count_mem (Posz i) [seq oint (f it) | it <- its] = count_mem i (pmap f its).
Proof. by elim: its => //= it s ->; case: (f it). Qed.
Lemma al_of_valid n1 n2 (close : nat -> nat -> Prop) (its : seq item) :
  perm_eq (pmap fst its) (iota 0 n1) -> perm_eq (pmap snd its) (iota 0 n2) -> all nonpad its ->
  (forall i j, (Some i, Some j) \in its -> close i j) -> valid_join n1 n2 close (al_of its).
Proof.
move=> h1 h2 h3 h4.
have cnt (f : item -> option nat) n i : perm_eq (pmap f its) (iota 0 n) -> (i < n)%N ->
    count_mem (Posz i) [seq oint (f it) | it <- its] = 1%N.
  by move=> h hi; rewrite count_pmap_fst (permP h) count_uniq_mem ?iota_uniq // mem_iota hi.
have rng (f : item -> option nat) n p : perm_eq (pmap f its) (iota 0 n) -> p \in [seq oint (f it) | it <- its] ->
    p = -1 \/ exists2 i, p = Posz i & (i < n)%N.
  move=> h /mapP[it hit ->]; case E: (f it) => [i|]; [right|by left]; exists i => //.
  have : i \in pmap f its by rewrite mem_pmap; apply/mapP; exists it.
  by rewrite (perm_mem h) mem_iota.
split; rewrite /= ?size_map //.
- split=> //; rewrite -(size_iota 0 n1) -(size_iota 0 n2) -(perm_size h1) -(perm_size h2).
  elim: its h3 {h1 h2 h4 cnt rng} => //= -[[i|] [j|]] s IH /andP[h /IH]; rewrite /= ?addnS ?addSn ?ltnS //; lia.
- by move=> i; apply: cnt.
- by move=> i; apply: cnt.
- by move=> p; apply: rng.
- by move=> p; apply: rng.
move=> k hk; rewrite !(nth_map (None, None)) //.
have hin := mem_nth (None, None) hk.
move/allP/(_ _ hin): h3; move: hin; case: (nth _ _ k) => -[i|] [j|] //= hin _; split=> // p q [] <- [] <-.
exact: h4.
Qed.

Section Align.
Variable F : rcfType.
Notation tensor := (tensor F).
Notation mat := (mat F).
Variable argsort : seq F -> seq nat.
Hypothesis perm : argsort_ok argsort.
Notation returns := (returns argsort).
Implicit Types a b : mat.

Lemma ret_dense a : wf a -> nw1 a -> returns (fun o => o_dense o a) (fun t => tmat t (mrows a) (mcols a) (mbatch a) (ent a)).
Proof. by move=> w h; apply: ans_returns (ans_dense perm w) => n; exact: xe_dense. Qed.
Lemma ret_getitem a : wf a -> nw1 a -> returns (fun o => getitem_dense o a) (fun t => tmat t (mrows a) (mcols a) (mbatch a) (ent a)).
Proof.
move=> w h; apply: (@ret_bind _ _ _ _ (fun _ => warn_if (structured a)) (fun _ o => o_dense o a) (fun _ => True)).
  by exists (Log (structured a) false), tt; split=> //; exists 0%N.
by move=> _ _; exact: ret_dense.
Qed.
Lemma ret_const A (m : outcome A) P : retd m P -> returns (fun _ => m) P.
Proof. by case=> l [x [-> h]]; exists l, x; split=> //; exists 0%N. Qed.

Lemma ret_ext A (f g : ops F -> outcome A) (P : A -> Prop) : (forall o, f o = g o) -> returns f P -> returns g P.
Proof. by move=> h [l [x [[n0 hn] p]]]; exists l, x; split=> //; exists n0 => n /hn <-; rewrite h. Qed.

Definition first_of (t : tensor) a : tensor :=
  Tensor (dt t) [:: mcols a; mrows a]
    (fun idx => if idx is [:: j; i] then tget t [:: j, i & nseq (size (mbatch a)) 0%N] else 0).
Lemma t_firstE t a : tmat t (mrows a) (mcols a) (mbatch a) (ent a) -> t_first t = ret (first_of t a).
Proof.
case=> s p e; have [c0 r0 pb] := posn3 p; rewrite /t_first s.
by have -> : all (fun d => 0 < d)%N (mbatch a) by exact: pb.
Qed.
Lemma inb_first (b : shape) : posn b -> inb b (nseq (size b) 0%N).
Proof. by elim: b => //= d b IH; rewrite posn_cons => /andP[-> /IH]. Qed.
Lemma first_ent t a i j : tmat t (mrows a) (mcols a) (mbatch a) (ent a) -> (i < mrows a)%N -> (j < mcols a)%N ->
  tget (first_of t a) [:: j; i] = ent a (first_be a) i j.
Proof.
case=> s p e hi hj; have [c0 r0 pb] := posn3 p.
have hin : inb (mbatch a) (nseq (size (mbatch a)) 0%N) by apply: inb_first; exact: pb.
by rewrite -e //; [rewrite /mx s /= drop0 clamp_id|apply: okb_inb].
Qed.
Lemma sumf_big n (f : nat -> F) : sumf n f = \sum_(i < n) f i.
Proof. by rewrite sumfE big_mkord. Qed.
Lemma norms_nth t a j : tmat t (mrows a) (mcols a) (mbatch a) (ent a) -> (j < mcols a)%N ->
  nth 0 (norms (first_of t a)) j = norm2 a j.
Proof.
move=> ht hj; rewrite /norms /tcols /trows /= (nth_map 0%N) ?size_iota // nth_iota // add0n sumf_big.
by apply: eq_bigr => i _; rewrite -(first_ent ht) // expr2.
Qed.
Lemma norms_size t a : size (norms (first_of t a)) = mcols a.
Proof. by rewrite /norms size_map size_iota. Qed.
Lemma col_equalE ta tb a b i j : tmat ta (mrows a) (mcols a) (mbatch a) (ent a) ->
  tmat tb (mrows b) (mcols b) (mbatch b) (ent b) -> bcnok (mrows a) (mrows b) -> (i < mcols a)%N -> (j < mcols b)%N ->
  exists2 e : bool, col_equal (first_of ta a) (first_of tb b) i j = ret e & e <-> close_cols a b i j.
Proof.
move=> ha hb ob hi hj; rewrite /col_equal /t_sub.
have := @t_map2P _ (fun x y => x - y) (t_col (first_of ta a) i) (t_col (first_of tb b) j).
rewrite /= /trows /= bcok_cons ob => /(_ isT) [z [-> sz _ ez]]; rewrite bind_ret; eexists; first by [].
rewrite bct_cons // in sz.
have r0 : (0 < mrows a)%N by case: ha => _ /posn3[].
have r1 : (0 < mrows b)%N by case: hb => _ /posn3[].
have n0 : (0 < bcn (mrows a) (mrows b))%N by rewrite /bcn; case: ifP.
rewrite /t_mean_lt /close_cols /= sz /= muln1 -[_ == 0%N]negbK -lt0n n0 /=.
rewrite sumf_big; set X := \sum_(r < _) _; set Y := \sum_(r < _) _.
suff -> : X = Y by [].
apply: eq_bigr => r _; have := ez [:: nat_of_ord r]; rewrite {1}/bat clamp_id ?sz /= ?ltn_ord // => ->.
have c1 := cl_bcn_lt ob r0 (ltn_ord r); have c2 := cl_bcn_ltr ob r1 (ltn_ord r).
rewrite -(first_ent ha) ?c1 // -(first_ent hb) ?c2 // expr2.
Qed.

(** The result of [align] on dense operands, without the computation of the columns' norms. *)
Lemma ret_align a b (P : alignment -> Prop) : wf a -> wf b -> nw1 a -> nw1 b ->
  (forall ta tb, tmat ta (mrows a) (mcols a) (mbatch a) (ent a) -> tmat tb (mrows b) (mcols b) (mbatch b) (ent b) ->
     let na := norms (first_of ta a) in let nb := norms (first_of tb b) in
     retd (align_loop (size (argsort na) + size (argsort nb)) (col_equal (first_of ta a) (first_of tb b))
             (fun i j => t_same (t_colb ta i) (t_colb tb j)) na nb (argsort na) (argsort nb)) P) ->
  returns (fun o => align argsort o a b) P.
Proof.
move=> wa wb xa xb H.
apply: (ret_bind (ret_getitem wa xa)) => ta ha; rewrite (t_firstE ha).
apply: ret_ext (_ : forall o, (do tb <- getitem_dense o b; do b0 <- t_first tb; 
     align_loop (size (argsort (norms (first_of ta a))) + size (argsort (norms b0))) (col_equal (first_of ta a) b0)
    (fun i j => t_same (t_colb ta i) (t_colb tb j)) (norms (first_of ta a)) (norms b0) (argsort (norms (first_of ta a))) (argsort (norms b0)))
   = _) _ => [o|]; first by rewrite bind_ret.
apply: (ret_bind (ret_getitem wb xb)) => tb hb; rewrite (t_firstE hb); apply: ret_const.
apply: (@retd_bind _ _ _ _ (fun x => x = first_of tb b)); first exact: retd_ret.
by move=> _ ->; exact: H.
Qed.
Lemma argsort_mem t a i : i \in argsort (norms (first_of t a)) -> (i < mcols a)%N.
Proof. by rewrite (perm_mem (perm _)) mem_iota norms_size. Qed.

(** The number of steps of the loop [align.py:45-67] is bounded by the number of columns of both matrices: the
    model's loop is cut off after [ncols(a) + ncols(b)] steps with an exception, which does not occur. *)
Theorem C18_align_valid a b : wf a -> wf b -> nw1 a -> nw1 b -> bcnok (mrows a) (mrows b) ->
  returns (fun o => align argsort o a b) (valid_join (mcols a) (mcols b) (close_cols a b)).
Proof.
move=> wa wb xa xb ob; apply: ret_align => // ta tb ha hb na nb.
pose e i j := if col_equal (first_of ta a) (first_of tb b) i j is Ret _ x then x else false.
have he i j : i \in argsort na -> j \in argsort nb ->
    col_equal (first_of ta a) (first_of tb b) i j = ret (e i j) /\ (e i j <-> close_cols a b i j).
  move=> /argsort_mem hi /argsort_mem hj.
  by have [x ex hx] := col_equalE ha hb ob hi hj; rewrite /e ex.
have he1 i j hi hj := proj1 (he i j hi hj).
have [l [x [-> [its [-> h1 h2 h3 h4]]]]] := @loopP F _ (fun i j => t_same (t_colb ta i) (t_colb tb j)) e na nb _ _ _ (leqnn _) he1.
exists l, (al_of its); split=> //; apply: al_of_valid => //.
- by rewrite h1 (perm_trans (perm _)) // norms_size.
- by rewrite h2 (perm_trans (perm _)) // norms_size.
move=> i j hin; have := h4 _ _ hin.
have hi : i \in argsort na by rewrite -h1 mem_pmap; apply/mapP; exists (Some i, Some j).
have hj : j \in argsort nb by rewrite -h2 mem_pmap; apply/mapP; exists (Some i, Some j).
by case: (he i j hi hj) => _ ->.
Qed.

(** If moreover [argsort] sorts, no two columns of one matrix have the same norm, and only columns of the same
    norm are close (for instance: distinct columns are far apart), every close pair is matched. *)
Definition argsort_sorts : Prop := forall s : seq F, sorted <=%R [seq nth 0 s i | i <- argsort s].
Theorem C18_align_complete a b : argsort_sorts -> wf a -> wf b -> nw1 a -> nw1 b -> bcnok (mrows a) (mrows b) ->
  (forall i i', (i < mcols a)%N -> (i' < mcols a)%N -> norm2 a i = norm2 a i' -> i = i') ->
  (forall j j', (j < mcols b)%N -> (j' < mcols b)%N -> norm2 b j = norm2 b j' -> j = j') ->
  (forall i j, (i < mcols a)%N -> (j < mcols b)%N -> close_cols a b i j -> norm2 a i = norm2 b j) ->
  returns (fun o => align argsort o a b) (fun x => forall i j, (i < mcols a)%N -> (j < mcols b)%N ->
    close_cols a b i j -> (Posz i, Posz j) \in zip (al_a x) (al_b x)).
Proof.
move=> srt wa wb xa xb ob ua ub hc; apply: ret_align => // ta tb ha hb na nb.
pose e i j := if col_equal (first_of ta a) (first_of tb b) i j is Ret _ x then x else false.
have he i j : i \in argsort na -> j \in argsort nb ->
    col_equal (first_of ta a) (first_of tb b) i j = ret (e i j) /\ (e i j <-> close_cols a b i j).
  move=> /argsort_mem hi /argsort_mem hj.
  by have [x ex hx] := col_equalE ha hb ob hi hj; rewrite /e ex.
have pw (t : tensor) c : tmat t (mrows c) (mcols c) (mbatch c) (ent c) ->
    (forall i i', (i < mcols c)%N -> (i' < mcols c)%N -> norm2 c i = norm2 c i' -> i = i') ->
    pairwise (fun i j => nth 0 (norms (first_of t c)) i < nth 0 (norms (first_of t c)) j) (argsort (norms (first_of t c))).
  move=> ht hu; rewrite -(pairwise_map _ (fun x y : F => x < y)) -sorted_pairwise; last exact: lt_trans.
  rewrite lt_sorted_uniq_le srt andbT map_inj_in_uniq ?(perm_uniq (perm _)) ?iota_uniq //.
  by move=> i j /argsort_mem hi /argsort_mem hj; rewrite !(norms_nth ht) //; apply: hu.
have hE i j : i \in argsort na -> j \in argsort nb -> e i j -> nth 0 na i = nth 0 nb j.
  move=> hi hj /(proj2 (he _ _ hi hj)) hcl; have ci := argsort_mem hi; have cj := argsort_mem hj.
  by rewrite (norms_nth ha) // (norms_nth hb) //; apply: hc.
have [l [x [-> hx]]] := @loop_all F (col_equal (first_of ta a) (first_of tb b)) (fun i j => t_same (t_colb ta i) (t_colb tb j)) e na nb _ _ _ (leqnn _)
   (fun i j hi hj => proj1 (he i j hi hj)) (pw _ _ ha ua) (pw _ _ hb ub) hE.
exists l, x; split=> // i j hi hj hcl.
have hi' : i \in argsort na by rewrite (perm_mem (perm _)) mem_iota norms_size.
have hj' : j \in argsort nb by rewrite (perm_mem (perm _)) mem_iota norms_size.
by apply: hx => //; apply/(proj2 (he _ _ hi' hj')).
Qed.

Lemma self_loop ta tb a b : tmat ta (mrows a) (mcols a) (mbatch a) (ent a) -> tmat tb (mrows b) (mcols b) (mbatch b) (ent b) ->
  mrows a = mrows b -> mcols a = mcols b ->
  (forall i j, (i < mrows a)%N -> (j < mcols a)%N -> ent a (first_be a) i j = ent b (first_be b) i j) ->
  let na := norms (first_of ta a) in let nb := norms (first_of tb b) in
  retd (align_loop (size (argsort na) + size (argsort nb)) (col_equal (first_of ta a) (first_of tb b))
             (fun i j => t_same (t_colb ta i) (t_colb tb j)) na nb (argsort na) (argsort nb)) (fun x =>
    [/\ al_b x = al_a x, al_ja x = al_a x, al_jb x = nseq (mcols a) (-1) &
        perm_eq (al_a x) [seq Posz i | i <- iota 0 (mcols a)]]).
Proof.
move=> ha hb er ec ee na nb.
have ob : bcnok (mrows a) (mrows b) by rewrite er bcnokn.
have en : nb = na.
  apply: (@eq_from_nth _ 0); rewrite !norms_size // => i hi; rewrite (norms_nth ha) ?(norms_nth hb) // ?ec //.
  rewrite /norm2 er; apply: eq_bigr => r _; rewrite ee // ?er ?ec //.
rewrite en.
have he i : i \in argsort na -> col_equal (first_of ta a) (first_of tb b) i i = ret true.
  move=> /argsort_mem hi; have hj := hi; rewrite ec in hj.
  have [x -> hx] := col_equalE ha hb ob hi hj; congr ret; apply/hx; rewrite /close_cols big1 ?mul0r.
    by rewrite invr_gt0 exprn_gt0 // ltr0n.
  move=> r _; have r0 : (0 < mrows a)%N by case: ha => _ /posn3[].
  have hr := cl_bcn_lt ob r0 (ltn_ord r); have er' : cl (mrows b) r = cl (mrows a) r by congr (cl _ _).
  by rewrite er' ee // subrr expr0n.
have [l [x [-> [h1 h2 h3 h4]]]] := @loop_self F _ (fun i j => t_same (t_colb ta i) (t_colb tb j)) na na _ _ (leq_addr (size (argsort na)) (size (argsort na))) he.
exists l, x; split=> //; rewrite h1 h2 h3 h4.
have sz : size (argsort na) = mcols a by rewrite (perm_size (perm _)) size_iota norms_size.
by split=> //; [rewrite sz|rewrite -(norms_size ta a) perm_map // perm].
Qed.
(** A matrix is aligned with itself column by column, whatever the norms are. *)
Theorem C18_align_self a b : wf a -> wf b -> nw1 a -> nw1 b -> mrows a = mrows b -> mcols a = mcols b ->
  (forall i j, (i < mrows a)%N -> (j < mcols a)%N -> ent a (first_be a) i j = ent b (first_be b) i j) ->
  returns (fun o => align argsort o a b) (fun x =>
    [/\ al_b x = al_a x, al_ja x = al_a x, al_jb x = nseq (mcols a) (-1) &
        perm_eq (al_a x) [seq Posz i | i <- iota 0 (mcols a)]]).
Proof. by move=> wa wb xa xb er ec ee; apply: ret_align => // ta tb ha hb; exact: self_loop. Qed.

(** The same, for an arbitrary implementation of the core operations. *)
Variable self : ops F.
Hypothesis ok : ops_ok self.
Lemma retd_hoare A (m : outcome A) P : retd m P -> hoare m P.
Proof. by case=> l [x [-> h]]. Qed.
Lemma align_self_ok a b : wf a -> wf b -> mrows a = mrows b -> mcols a = mcols b ->
  (forall i j, (i < mrows a)%N -> (j < mcols a)%N -> ent a (first_be a) i j = ent b (first_be b) i j) ->
  hoare (align argsort self a b) (fun x => size (al_a x) = mcols a).
Proof.
move=> wa wb er ec ee; rewrite /align /getitem_dense.
rewrite bindA; apply: hoare_warn_if; apply: (hoare_bind (ok_dense ok wa)) => ta ha.
rewrite (t_firstE ha) bind_ret.
rewrite bindA; apply: hoare_warn_if; apply: (hoare_bind (ok_dense ok wb)) => tb hb.
rewrite (t_firstE hb) bind_ret; apply: hoare_conseq (retd_hoare (self_loop ha hb er ec ee)) _ => x [_ _ _ /perm_size ->].
by rewrite size_map size_iota.
Qed.
End Align.
Print Assumptions C18_align_valid.
Print Assumptions C18_align_complete.
Print Assumptions C18_align_self.
