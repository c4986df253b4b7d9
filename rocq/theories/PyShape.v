(** * matrix/shape.py in Python order, and NumPy's broadcasting rule

    Here a shape is the Python tuple itself (outermost axis first).  The model
    functions follow matrix/shape.py literally; [np_rule] is NumPy's rule,
    stated index by index from the right, independently of the code. *)
From mathcomp Require Import all_ssreflect.
From Verif Require Import Outcome Monad Shape Spec ShapeThy.
Set Implicit Arguments. Unset Strict Implicit. Unset Printing Implicit Defensive.

(** [broadcast(s1: Shape, s2: Shape)]: matrix/shape.py:92-105; the
    comprehension is evaluated from the left. *)
Definition py_broadcast2 (s1 s2 : seq nat) : outcome (seq nat) :=
  if size s1 != size s2 then Raise RuntimeError
  else mapM (fun p => broadcast_dim p.1 p.2) (zip s1 s2).
(** [expand_and_broadcast(s1: Shape, s2: Shape)]: matrix/shape.py:133-150. *)
Definition py_expand_and_broadcast2 (s1 s2 : seq nat) : outcome (seq nat) :=
  if size s1 < size s2 then py_broadcast2 (nseq (size s2 - size s1) 1 ++ s1) s2
  else if size s2 < size s1 then py_broadcast2 s1 (nseq (size s1 - size s2) 1 ++ s2)
  else py_broadcast2 s1 s2.
(** [expand_and_broadcast( *xs )]: matrix/shape.py:153-168. *)
Definition py_expand_and_broadcast (ss : seq (seq nat)) : outcome (seq nat) :=
  if ss is s :: ss' then fold_shapes py_expand_and_broadcast2 s ss' else Raise ValueError.
(** [broadcast( *xs )]: matrix/shape.py:108-130. *)
Definition py_broadcast (ss : seq (seq nat)) : outcome (seq nat) :=
  if ss is s :: ss' then fold_shapes py_broadcast2 s ss' else Raise ValueError.
(** [compatible]: matrix/shape.py:56-76; [assert_compatible]: 79-89. *)
Definition py_compatible (s1 s2 : seq nat) : outcome bool :=
  match py_expand_and_broadcast2 s1 s2 with
  | Ret _ _ => ret true
  | RaiseL _ RuntimeError => ret false
  | RaiseL l e => RaiseL l e
  end.
Definition py_assert_compatible (s1 s2 : seq nat) : outcome unit :=
  do c <- py_compatible s1 s2; require c AssertionError.

(** ** NumPy's rule *)
(** The [i]-th dimension from the right; missing axes have length one. *)
Definition dimr (s : seq nat) (i : nat) : nat := nth 1 (rev s) i.
(** [s] is the broadcast of [s1] and [s2]. *)
Definition np_rule (s1 s2 s : seq nat) : Prop :=
  size s = maxn (size s1) (size s2) /\
  forall i, [\/ dimr s1 i = 1 /\ dimr s i = dimr s2 i,
                dimr s2 i = 1 /\ dimr s i = dimr s1 i
              | dimr s1 i = dimr s2 i /\ dimr s i = dimr s1 i].
(** Some pair of aligned dimensions is different and neither is one. *)
Definition np_clash (s1 s2 : seq nat) : Prop :=
  exists i, [/\ dimr s1 i != 1, dimr s2 i != 1 & dimr s1 i != dimr s2 i].

(** ** Both versions agree *)
Definition omap_out A B (f : A -> B) (m : outcome A) : outcome B :=
  match m with Ret l a => Ret l (f a) | RaiseL l e => RaiseL l e end.

Lemma mapM_bd (s : seq (nat * nat)) :
  mapM (fun p => broadcast_dim p.1 p.2) s =
  if all (fun p => isSome (bcd p.1 p.2)) s then ret [seq odflt 0 (bcd p.1 p.2) | p <- s]
  else Raise RuntimeError.
Proof.
elim: s => //= p s ->; rewrite broadcast_dimE; case: (bcd _ _) => [d|] //=.
by case: all.
Qed.
Lemma broadcast2_rev s1 s2 : broadcast2 (rev s1) (rev s2) = omap_out rev (py_broadcast2 s1 s2).
Proof.
rewrite /broadcast2 /py_broadcast2 !size_rev; case: eqP => //= h.
rewrite -rev_zip // !mapM_bd all_rev; case: all => //=.
by rewrite map_rev.
Qed.
Lemma rev_nseq A n (x : A) : rev (nseq n x) = nseq n x.
Proof.
apply: (@eq_from_nth _ x); rewrite ?size_rev // => i; rewrite size_nseq => hi.
by rewrite nth_rev ?size_nseq // !nth_nseq hi; case: ifP.
Qed.
Lemma expand_rev s1 s2 :
  expand_and_broadcast2 (rev s1) (rev s2) = omap_out rev (py_expand_and_broadcast2 s1 s2).
Proof.
rewrite /expand_and_broadcast2 /py_expand_and_broadcast2 !size_rev.
by do 2?[case: ifP => _]; rewrite -broadcast2_rev ?rev_cat ?rev_nseq.
Qed.
Lemma py_expandE s1 s2 : py_expand_and_broadcast2 s1 s2 =
  if bc (rev s1) (rev s2) is Some s then ret (rev s) else Raise RuntimeError.
Proof.
have := expand_rev s1 s2; rewrite expand_and_broadcast2E.
by case: (bc _ _) => [s|]; case: (py_expand_and_broadcast2 _ _) => [l a|l e] //= [<- ->]; rewrite ?revK.
Qed.

(** ** [bc] is NumPy's rule *)
Lemma bcdP d1 d2 d : bcd d1 d2 = Some d <->
  [\/ d1 = 1 /\ d = d2, d2 = 1 /\ d = d1 | d1 = d2 /\ d = d1].
Proof.
rewrite /bcd; split.
  case: eqP => [->|_]; first by case=> ->; constructor 1.
  case: eqP => [->|_]; first by case=> ->; constructor 2.
  by case: eqP => // -> [->]; constructor 3.
case=> -[-> ->]; rewrite ?eqxx //; do ?case: eqP => //; congruence.
Qed.
Lemma bcP s1 s2 s : bc s1 s2 = Some s <->
  (size s = maxn (size s1) (size s2) /\ forall i, bcd (nth 1 s1 i) (nth 1 s2 i) = Some (nth 1 s i)).
Proof.
elim: s1 s2 s => [|d1 s1 IH] s2 s /=.
  rewrite max0n; split=> [[<-]|[hs h]]; first by split=> // i; rewrite nth_nil.
  congr Some; apply: (@eq_from_nth _ 1) => // i _.
  by have := h i; rewrite nth_nil => -[].
case: s2 => [|d2 s2].
  rewrite maxn0; split=> [[<-]|[hs h]].
    by split=> // i; rewrite nth_nil /bcd; case: eqP => // ->.
  congr Some; apply: (@eq_from_nth _ 1) => // i _.
  by have := h i; rewrite nth_nil /bcd; case: eqP => [->|_] [].
rewrite /= maxnSS; split.
  case E: (bcd d1 d2) => [d|] //; case E': (bc s1 s2) => [s'|] // [<-].
  by have [hs h] := (IH s2 s').1 E'; rewrite /= hs; split=> // -[|i] /=.
case: s => [|d s] [] // [hs] h; rewrite (h 0) /=.
by rewrite (IH s2 s).2 //; split=> // i; apply: (h i.+1).
Qed.
Lemma np_ruleE s1 s2 s : np_rule s1 s2 s <-> bc (rev s1) (rev s2) = Some (rev s).
Proof.
rewrite bcP !size_rev /np_rule /dimr; split=> -[hs h]; split=> // i.
  exact/bcdP.
exact/bcdP.
Qed.
Lemma np_clashE s1 s2 : np_clash s1 s2 <-> bc (rev s1) (rev s2) = None.
Proof.
rewrite /np_clash /dimr; move: (rev s1) (rev s2) => r1 r2; split.
  case=> i []; elim: r1 r2 i => [|d1 r1 IH] [|d2 r2] [|i] /=; rewrite ?nth_nil //.
    by rewrite /bcd => /negbTE-> /negbTE-> /negbTE->.
  by move=> a b c; rewrite (IH _ _ a b c); case: bcd.
elim: r1 r2 => [|d1 r1 IH] [|d2 r2] //=.
case E: (bcd d1 d2) => [d|].
  by case E': (bc r1 r2) => // _; have [i hi] := IH _ E'; exists i.+1.
by move=> _; exists 0; move: E; rewrite /bcd; case: eqP => //; case: eqP => //; case: eqP.
Qed.

Lemma py_expand_ok s1 s2 s : py_expand_and_broadcast2 s1 s2 = ret s <-> np_rule s1 s2 s.
Proof.
rewrite np_ruleE py_expandE; case: (bc _ _) => [s'|]; split=> //; first by case=> <-; rewrite revK.
by case=> ->; rewrite revK.
Qed.
Lemma py_expand_raise s1 s2 : py_expand_and_broadcast2 s1 s2 = Raise RuntimeError <-> np_clash s1 s2.
Proof. by rewrite np_clashE py_expandE; case: (bc _ _) => [s'|]; split. Qed.
Lemma py_expand_total s1 s2 :
  (exists s, py_expand_and_broadcast2 s1 s2 = ret s) \/ py_expand_and_broadcast2 s1 s2 = Raise RuntimeError.
Proof. by rewrite py_expandE; case: (bc _ _) => [s|]; [left; exists (rev s)|right]. Qed.
Lemma py_expandC s1 s2 : py_expand_and_broadcast2 s1 s2 = py_expand_and_broadcast2 s2 s1.
Proof. by rewrite !py_expandE bcC. Qed.
Lemma py_expand_idem s : py_expand_and_broadcast2 s s = ret s.
Proof. by rewrite py_expandE bcsE ?bcokss // bctss revK. Qed.

Lemma bc_assoc_aux s1 s2 s3 :
  (if bc s1 s2 is Some s then bc s s3 else None) = (if bc s2 s3 is Some s then bc s1 s else None).
Proof.
have key a b c s : (if bc a b is Some s then bc s c else None) = Some s <->
  (forall u, bto s u = [&& bto a u, bto b u & bto c u]).
  split.
    by case E: (bc a b) => [s'|] // E' u; rewrite (bc_lub _ E') (bc_lub _ E) andbA.
  move=> h; have /and3P[ha hb hc] : [&& bto a s, bto b s & bto c s] by rewrite -h bto_refl.
  have okab := bcok_ub ha hb; rewrite (bcsE okab).
  have okabc : bcok (bct a b) c by apply: bcok_ub hc; apply: bto_bct_ub.
  by rewrite (bcsE okabc); congr Some; apply: bto_ext => u; rewrite h !bto_bct // andbA.
have {}key a b c s : (if bc a b is Some s then bc s c else None) = Some s <->
  (if bc b c is Some s then bc a s else None) = Some s.
  have -> : (if bc b c is Some s0 then bc a s0 else None) = (if bc b c is Some s0 then bc s0 a else None).
    by case: (bc b c) => // s0; rewrite bcC.
  by rewrite !key; split=> h u; rewrite h; case: (bto a u); case: (bto b u); case: (bto c u).
case E: (if bc s1 s2 is Some s then bc s s3 else None) => [s|]; first by symmetry; apply/key.
case E': (if bc s2 s3 is Some s then bc s1 s else None) => [s|] //.
by move/key: E'; rewrite E.
Qed.
Lemma py_expandA s1 s2 s3 :
  (do s <- py_expand_and_broadcast2 s1 s2; py_expand_and_broadcast2 s s3) =
  (do s <- py_expand_and_broadcast2 s2 s3; py_expand_and_broadcast2 s1 s).
Proof.
have := bc_assoc_aux (rev s1) (rev s2) (rev s3); rewrite !py_expandE.
case: (bc (rev s1) _) => [s|]; case: (bc (rev s2) _) => [s'|]; rewrite ?bind_ret ?py_expandE ?revK //.
- by move=> ->.
- by move=> ->.
- by rewrite bind_raise; move=> <-.
Qed.
Lemma py_compatibleP s1 s2 : py_compatible s1 s2 = ret true /\ (exists s, np_rule s1 s2 s) \/
  py_compatible s1 s2 = ret false /\ np_clash s1 s2.
Proof.
rewrite /py_compatible np_clashE py_expandE.
case E: (bc _ _) => [s|]; [left|by right]; split=> //; exists (rev s).
by rewrite np_ruleE revK.
Qed.
Lemma py_assert_compatibleP s1 s2 :
  py_assert_compatible s1 s2 = ret tt /\ (exists s, np_rule s1 s2 s) \/
  py_assert_compatible s1 s2 = Raise AssertionError /\ np_clash s1 s2.
Proof.
by rewrite /py_assert_compatible; case: (py_compatibleP s1 s2) => -[-> h]; [left|right].
Qed.
Lemma py_broadcast2P s1 s2 : py_broadcast2 s1 s2 =
  if size s1 == size s2 then py_expand_and_broadcast2 s1 s2 else Raise RuntimeError.
Proof. by rewrite /py_expand_and_broadcast2; case: ltngtP => h; rewrite // /py_broadcast2; case: ltngtP h. Qed.

(** The variadic version folds from the left; by associativity the result is
    the least upper bound of all shapes. *)
Lemma py_expand_fold s ss :
  (exists r, py_expand_and_broadcast (s :: ss) = ret r /\
             forall u, bto (rev r) (rev u) = all (fun x => bto (rev x) (rev u)) (s :: ss)) \/
  py_expand_and_broadcast (s :: ss) = Raise RuntimeError.
Proof.
rewrite /py_expand_and_broadcast; elim: ss s => [|x ss IH] s /=.
  by left; exists s; split=> // u; rewrite andbT.
rewrite py_expandE; case E: (bc _ _) => [y|]; last by right.
rewrite bind_ret; case: (IH (rev y)) => [[r [h1 h2]]|->]; [left|by right].
exists r; split=> // u; rewrite h2 /= revK (bc_lub _ E) andbA //.
Qed.
