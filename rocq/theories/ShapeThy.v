(** * Facts about shapes and broadcasting (proof support) *)
From mathcomp Require Import all_ssreflect.
From Verif Require Import Outcome Monad Shape Spec.
Set Implicit Arguments. Unset Strict Implicit. Unset Printing Implicit Defensive.

Global Arguments posn : simpl never.
Global Arguments okb : simpl never.

Lemma bto_refl s : bto s s.
Proof. by elim: s => //= d s ->; rewrite eqxx orbT. Qed.
Lemma bto_trans s2 s1 s3 : bto s1 s2 -> bto s2 s3 -> bto s1 s3.
Proof.
elim: s1 s2 s3 => [|d1 s1 IH] [|d2 s2] [|d3 s3] //= /andP[h1 h2] /andP[h3 h4].
rewrite (IH _ _ h2 h4) andbT; case/orP: h1 => [->//|/eqP->].
by case/orP: h3 => [->|->] //; rewrite orbT.
Qed.
Lemma bto_anti s1 s2 : bto s1 s2 -> bto s2 s1 -> s1 = s2.
Proof.
elim: s1 s2 => [|d1 s1 IH] [|d2 s2] //= /andP[h1 h2] /andP[h3 h4].
rewrite (IH _ h2 h4); congr (_ :: _).
by case/orP: h1 => /eqP h1 //; case/orP: h3 => /eqP h3 //; rewrite h1 h3.
Qed.
Lemma bto_ext s1 s2 : (forall u, bto s1 u = bto s2 u) -> s1 = s2.
Proof. by move=> h; apply: bto_anti; rewrite ?h ?bto_refl // -h bto_refl. Qed.

Lemma bc_lub s1 s2 s u : bc s1 s2 = Some s -> bto s u = bto s1 u && bto s2 u.
Proof.
elim: s1 s2 s u => [|d1 s1 IH] [|d2 s2] s u /=; try by case=> <-; rewrite ?andbT.
rewrite /bcd; case E: (bc s1 s2) => [s'|]; last first.
  by case: (d1 == 1); case: (d2 == 1); case: (d1 == d2).
case: u => [|d u] h.
  by move: h; case: (d1 == 1); case: (d2 == 1); case: (d1 == d2) => //; case=> <-.
move: h; case: (d1 =P 1) => [->|/eqP/negbTE h1].
  by case=> <- /=; rewrite (IH _ _ _ E) /= andbCA.
case: (d2 =P 1) => [->|/eqP/negbTE h2].
  by case=> <- /=; rewrite (IH _ _ _ E) h1 /= andbA.
case: (d1 =P d2) => // <- [<-] /=; rewrite (IH _ _ _ E) h1 /=.
by case: (d1 == d) => //=; rewrite !andbF.
Qed.
Lemma bc_ub s1 s2 u : bto s1 u -> bto s2 u -> isSome (bc s1 s2).
Proof.
elim: s1 s2 u => [|d1 s1 IH] [|d2 s2] [|d u] //= /andP[h1 h2] /andP[h3 h4].
move: (IH _ _ h2 h4); case: (bc s1 s2) => // s _.
rewrite /bcd; case: eqP h1 => //= _ /eqP->; case: eqP h3 => //= _ /eqP->.
by rewrite eqxx.
Qed.
Lemma bcok_ub u s1 s2 : bto s1 u -> bto s2 u -> bcok s1 s2.
Proof. exact: bc_ub. Qed.
Lemma bto_bct s1 s2 u : bcok s1 s2 -> bto (bct s1 s2) u = bto s1 u && bto s2 u.
Proof. by rewrite /bcok /bct; case E: (bc s1 s2) => [s|] //= _; rewrite (bc_lub _ E). Qed.
Lemma bto_bct_ub s1 s2 u : bto s1 u -> bto s2 u -> bto (bct s1 s2) u.
Proof. by move=> h1 h2; rewrite bto_bct ?h1 // (bcok_ub h1). Qed.
Lemma bct_ubl s1 s2 : bcok s1 s2 -> bto s1 (bct s1 s2).
Proof. by move=> h; move: (bto_refl (bct s1 s2)); rewrite bto_bct // => /andP[]. Qed.
Lemma bct_ubr s1 s2 : bcok s1 s2 -> bto s2 (bct s1 s2).
Proof. by move=> h; move: (bto_refl (bct s1 s2)); rewrite bto_bct // => /andP[]. Qed.
Lemma bcokP s1 s2 : reflect (exists2 u, bto s1 u & bto s2 u) (bcok s1 s2).
Proof.
apply: (iffP idP) => [h|[u h1 h2]]; last exact: bcok_ub h1 h2.
by exists (bct s1 s2); [apply: bct_ubl|apply: bct_ubr].
Qed.
Lemma bcokC s1 s2 : bcok s1 s2 = bcok s2 s1.
Proof. by apply/bcokP/bcokP => -[u ? ?]; exists u. Qed.
Lemma bctC s1 s2 : bcok s1 s2 -> bct s1 s2 = bct s2 s1.
Proof. by move=> h; apply: bto_ext => u; rewrite !bto_bct ?(andbC (bto s1 u)) // bcokC. Qed.
Lemma bcokss s : bcok s s. Proof. by apply/bcokP; exists s; rewrite bto_refl. Qed.
Lemma bctss s : bct s s = s.
Proof. by apply: bto_ext => u; rewrite bto_bct ?andbb ?bcokss. Qed.
Lemma bcok0s s : bcok [::] s. Proof. by []. Qed.
Lemma bcoks0 s : bcok s [::]. Proof. by rewrite bcokC. Qed.
Lemma bct0s s : bct [::] s = s. Proof. by []. Qed.
Lemma bcts0 s : bct s [::] = s. Proof. by case: s. Qed.
Lemma bct_to s1 s2 : bto s1 s2 -> bct s1 s2 = s2.
Proof.
move=> h; apply: bto_ext => u; rewrite bto_bct; last by apply/bcokP; exists s2; rewrite ?bto_refl.
by apply/andP/idP => [[]//|h2]; split=> //; apply: bto_trans h2.
Qed.
Lemma bcsE s1 s2 : bcok s1 s2 -> bc s1 s2 = Some (bct s1 s2).
Proof. by rewrite /bcok /bct; case: (bc s1 s2). Qed.

Lemma bcok_cons d1 d2 s1 s2 : bcok (d1 :: s1) (d2 :: s2) = bcnok d1 d2 && bcok s1 s2.
Proof.
rewrite /bcok /bcnok /= /bcd; case: (bc s1 s2); do 3?case: eqP => //=.
Qed.
Lemma bct_cons d1 d2 s1 s2 : bcnok d1 d2 -> bcok s1 s2 ->
  bct (d1 :: s1) (d2 :: s2) = bcn d1 d2 :: bct s1 s2.
Proof.
move=> h1 /bcsE h2; rewrite /bct /= h2 /= /bcd.
by case/or3P: h1 => /eqP->; rewrite /bcn ?eqxx //; do ?case: eqP.
Qed.

(** Clamping *)
Lemma size_clamp s be : size (clamp s be) = size s.
Proof. by elim: s be => //= d s IH be; rewrite IH. Qed.
Lemma cl_cl d d' i : (d == 1) || (d == d') -> cl d (cl d' i) = cl d i.
Proof. by rewrite /cl; case: eqP => //= h /eqP <-; case: eqP. Qed.
Lemma clid d i : i < d -> cl d i = i.
Proof. by rewrite /cl; case: eqP => // -> ; case: i. Qed.
Lemma cl_lt d D i : i < D -> bto [:: d] [:: D] -> cl d i < d.
Proof. by rewrite /cl /= andbT; case: eqP => //= [->//|_ h /eqP ->]. Qed.
Lemma clamp_clamp s s' be : bto s s' -> clamp s (clamp s' be) = clamp s be.
Proof.
elim: s s' be => [|d s IH] [|d' s'] be //= /andP[h1 h2].
by rewrite cl_cl // IH.
Qed.
Lemma clamp_id s be : inb s be -> clamp s be = be.
Proof. by elim: s be => [|d s IH] [|i be] //= /andP[h1 h2]; rewrite clid // IH. Qed.
Lemma clamp_idem s be : clamp s (clamp s be) = clamp s be.
Proof. by rewrite clamp_clamp ?bto_refl. Qed.
Lemma okb_inb s be : inb s be -> okb s be.
Proof. by move=> h; rewrite /okb clamp_id. Qed.
Lemma okb_cons d s i be : okb (d :: s) (i :: be) = (cl d i < d) && okb s be.
Proof. by []. Qed.
Lemma okb_clamp s s' be : bto s s' -> okb s (clamp s' be) = okb s be.
Proof. by move=> h; rewrite /okb clamp_clamp. Qed.
Lemma okb_mono s s' be : bto s s' -> okb s' be -> okb s be.
Proof.
rewrite /okb; elim: s s' be => [|d s IH] [|d' s'] be //= /andP[h1 h2] /andP[h3 h4].
rewrite (IH _ _ h2 h4) andbT /cl; case/orP: h1 => [/eqP->//|/eqP->].
by move: h3; rewrite /cl.
Qed.
Lemma okb_bct s1 s2 be : bcok s1 s2 -> okb (bct s1 s2) be = okb s1 be && okb s2 be.
Proof.
move=> h; apply/idP/andP => [hb|[]].
  by split; apply: okb_mono hb; [apply: bct_ubl|apply: bct_ubr].
rewrite /okb; elim: s1 s2 be h => [|d1 s1 IH] [|d2 s2] be //=.
rewrite bcok_cons => /andP[h1 h2] /andP[a1 b1] /andP[a2 b2]; rewrite bct_cons //=.
rewrite IH ?b1 // andbT /bcn; by case: eqP.
Qed.
Lemma posn3 c r b : posn [:: c, r & b] -> [/\ 0 < c, 0 < r & posn b].
Proof. by move/and3P. Qed.
Lemma posn_cons d s : posn (d :: s) = (0 < d) && posn s. Proof. by []. Qed.
Lemma posn_bct s1 s2 : posn s1 -> posn s2 -> posn (bct s1 s2).
Proof.
rewrite /bct; case E: (bc s1 s2) => [s|] //=.
elim: s1 s2 s E => [|d1 s1 IH] [|d2 s2] s /=; try by case=> <-.
rewrite /bcd; case E: (bc s1 s2) => [s'|]; last first.
  by case: (d1 == 1); case: (d2 == 1); case: (d1 == d2).
move=> h /andP[a1 b1] /andP[a2 b2].
have h' := IH _ _ E b1 b2.
by move: h; case: (d1 == 1); case: (d2 == 1); case: (d1 == d2) => //; case=> <-; rewrite posn_cons ?a1 ?a2.
Qed.
Lemma posn_cat s1 s2 : posn (s1 ++ s2) = posn s1 && posn s2. Proof. exact: all_cat. Qed.
Lemma bcn_pos d1 d2 : 0 < d1 -> 0 < d2 -> 0 < bcn d1 d2.
Proof. by rewrite /bcn; case: eqP. Qed.
Lemma bcnn d : bcn d d = d. Proof. by rewrite /bcn; case: eqP. Qed.
Lemma bcn1 d : bcn d 1 = d. Proof. by rewrite /bcn; case: eqP. Qed.
Lemma bc1n d : bcn 1 d = d. Proof. by []. Qed.
Lemma bcnokn d : bcnok d d. Proof. by rewrite /bcnok eqxx !orbT. Qed.
Lemma bcnok1 d : bcnok d 1. Proof. by rewrite /bcnok eqxx !orbT. Qed.
Lemma bc1nok d : bcnok 1 d. Proof. by []. Qed.
Lemma bcnokC d d' : bcnok d d' = bcnok d' d.
Proof. by rewrite /bcnok eq_sym [d == d']eq_sym orbCA. Qed.
Lemma bcnC d d' : bcnok d d' -> bcn d d' = bcn d' d.
Proof. by rewrite /bcnok /bcn; case: eqP => [->|]; case: eqP => [->|] //= _ _ /eqP. Qed.
Lemma cl_bcn_lt d d' i : bcnok d d' -> 0 < d -> i < bcn d d' -> cl d i < d.
Proof. by rewrite /bcnok /bcn /cl; case: (d =P 1) => [->|] //=. Qed.
Lemma cl_bcn_ltr d d' i : bcnok d d' -> 0 < d' -> i < bcn d d' -> cl d' i < d'.
Proof. by move=> h; rewrite bcnC //; apply: cl_bcn_lt; rewrite bcnokC. Qed.

(** The model of shape.py computes NumPy broadcasting. *)
Lemma broadcast_dimE d1 d2 :
  broadcast_dim d1 d2 = if bcd d1 d2 is Some d then ret d else Raise RuntimeError.
Proof. by rewrite /broadcast_dim /bcd; do 3?case: eqP => //=; move=> ->. Qed.
Lemma broadcast2E s1 s2 : size s1 = size s2 ->
  broadcast2 s1 s2 = if bc s1 s2 is Some s then ret s else Raise RuntimeError.
Proof.
move=> h; rewrite /broadcast2 h eqxx /=.
elim: s1 s2 h => [|d1 s1 IH] [|d2 s2] //= [h]; rewrite broadcast_dimE IH //.
by case: (bcd d1 d2) => [d|] //=; case: (bc s1 s2).
Qed.
Lemma bc_ones s : bc (nseq (size s) 1) s = Some s.
Proof. by elim: s => //= d s ->. Qed.
Lemma bc_pad s1 s2 n : size s2 = (size s1 + n)%N -> bc (s1 ++ nseq n 1) s2 = bc s1 s2.
Proof.
elim: s1 s2 => [|d1 s1 IH] [|d2 s2] h /=; try by move: h; case: n.
- by rewrite -(bc_ones (d2 :: s2)) h.
- by rewrite /= addSn in h.
by move: h => [h]; rewrite IH.
Qed.
Lemma bcC s1 s2 : bc s1 s2 = bc s2 s1.
Proof.
elim: s1 s2 => [|d1 s1 IH] [|d2 s2] //=; rewrite IH.
have -> // : bcd d1 d2 = bcd d2 d1.
by rewrite /bcd; case: (d1 =P 1); case: (d2 =P 1); case: (d1 =P d2); case: (d2 =P d1); congruence.
Qed.
Lemma expand_and_broadcast2E s1 s2 :
  expand_and_broadcast2 s1 s2 = if bc s1 s2 is Some s then ret s else Raise RuntimeError.
Proof.
rewrite /expand_and_broadcast2; case: ltnP => h.
  by rewrite broadcast2E ?size_cat ?size_nseq ?bc_pad ?subnKC // ltnW.
case: ltnP => h'.
  rewrite broadcast2E ?size_cat ?size_nseq ?subnKC //.
  by rewrite bcC bc_pad ?subnKC // bcC.
by rewrite broadcast2E //; apply/eqP; rewrite eqn_leq h h'.
Qed.
Lemma eab2_ok s1 s2 : bcok s1 s2 -> expand_and_broadcast2 s1 s2 = ret (bct s1 s2).
Proof. by move=> h; rewrite expand_and_broadcast2E bcsE. Qed.
Lemma eab_two s1 s2 : bcok s1 s2 -> expand_and_broadcast [:: s1; s2] = ret (bct s1 s2).
Proof. by move=> h; rewrite /= eab2_ok // !bind_ret. Qed.
Lemma eab_three s1 s2 s3 : bcok s1 s2 -> bcok (bct s1 s2) s3 ->
  expand_and_broadcast [:: s1; s2; s3] = ret (bct (bct s1 s2) s3).
Proof. by move=> h h'; rewrite /= eab2_ok // bind_ret eab2_ok // bind_ret. Qed.
Lemma assert_compatible_ok s1 s2 : bcok s1 s2 -> assert_compatible s1 s2 = ret tt.
Proof. by move=> h; rewrite /assert_compatible /compatible eab2_ok. Qed.
