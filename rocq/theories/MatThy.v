(** * Facts about matrix objects and structural operations (proof support) *)
From mathcomp Require Import all_ssreflect all_algebra.
From Verif Require Import Outcome Monad Shape Tensor Mat Spec ShapeThy TensorThy.
Set Implicit Arguments. Unset Strict Implicit. Unset Printing Implicit Defensive.
Import GRing.Theory.
Local Open Scope ring_scope.

(** Solve [bcok] goals from a common upper bound [u] of all batch shapes. *)
Ltac ubt := solve [repeat (first [assumption | apply: bto_refl | apply: bto_bct_ub])].
Ltac okt u := apply: (@bcok_ub u); ubt.

Section MatThy.
Variable F : rcfType.
Notation tensor := (tensor F).
Notation mat := (mat F).
Implicit Types (a l m : mat) (t : tensor) (u be : seq nat).

Lemma uprank2 t : (2 <= trank t)%N -> t_uprank t = t.
Proof. by rewrite /trank /t_uprank; case: (sh t) => [|? [|? ?]]. Qed.
Lemma uprank_wft t : wft t -> t_uprank t = t.
Proof. by case/andP=> h _; apply: uprank2. Qed.

Lemma LRb l r m u : wf (LR l r m) ->
  bto (mbatch (LR l r m)) u = [&& bto (mbatch l) u, bto (mbatch r) u & bto (mbatch m) u].
Proof. by case=> _ _ _ _ /and4P[_ _ h1 h2] /=; rewrite !bto_bct // andbA. Qed.
Lemma Wbb d l r m u : wf (Wb d l r m) ->
  bto (mbatch (Wb d l r m)) u = bto (behead (sh d)) u && [&& bto (mbatch l) u, bto (mbatch r) u & bto (mbatch m) u].
Proof. by case=> -[_ _ _ _ /and4P[_ _ h1 h2]] /and4P[_ _ _ h3] /=; rewrite !bto_bct // !andbA. Qed.
Lemma Kronb l r u : wf (Kron l r) -> bto (mbatch (Kron l r)) u = bto (mbatch l) u && bto (mbatch r) u.
Proof. by case=> _ _ h1 /=; rewrite !bto_bct. Qed.
Lemma wf_wb_lr d l r m : wf (Wb d l r m) -> wf (LR l r m).
Proof. by case. Qed.
Lemma wf_wb_d d l r m : wf (Wb d l r m) -> wf (Diag d).
Proof. by case=> _ /and4P[]. Qed.
Lemma LRo l r m be : wf (LR l r m) ->
  okb (mbatch (LR l r m)) be = [&& okb (mbatch l) be, okb (mbatch r) be & okb (mbatch m) be].
Proof. by case=> _ _ _ _ /and4P[_ _ h1 h2] /=; rewrite !okb_bct // andbA. Qed.
Lemma Wbo d l r m be : wf (Wb d l r m) ->
  okb (mbatch (Wb d l r m)) be = okb (behead (sh d)) be && [&& okb (mbatch l) be, okb (mbatch r) be & okb (mbatch m) be].
Proof. by case=> -[_ _ _ _ /and4P[_ _ h1 h2]] /and4P[_ _ _ h3] /=; rewrite !okb_bct // !andbA. Qed.
Lemma Krono l r be : wf (Kron l r) -> okb (mbatch (Kron l r)) be = okb (mbatch l) be && okb (mbatch r) be.
Proof. by case=> _ _ h1 /=; rewrite !okb_bct. Qed.

Lemma wf_posn a : wf a -> posn (mshape a).
Proof.
elim: a => [t|d b r c|t|t|t r c|t|t|l IHl r IHr m IHm|d l IHl r IHr m IHm|l IHl r IHr] /=.
- by move=> h; rewrite /mshape /= (uprank_wft h); case/andP: (h) => _; rewrite (wft_sh h).
- by [].
- by move=> h; rewrite /mshape /=; case/andP: (h) => _; rewrite (wft_sh h).
- move=> h; rewrite /mshape /=; case/andP: (h) => _; rewrite {1}(wfv_sh h) !posn_cons.
  by case/andP=> -> ->.
- by [].
- by case=> h _; rewrite /mshape /=; case/andP: (h) => _; rewrite (wft_sh h).
- by case=> h _; rewrite /mshape /=; case/andP: (h) => _; rewrite (wft_sh h).
- case=> /IHl /and3P[_ h1 h2] /IHr /and3P[_ h3 h4] /IHm /and3P[_ _ h5] _ _.
  by rewrite /mshape !posn_cons h1 h3 /= !posn_bct.
- case=> -[/IHl /and3P[_ h1 h2] /IHr /and3P[_ h3 h4] /IHm /and3P[_ _ h5] _ _] /and4P[hd _ _ _].
  case/andP: (hd) => _; rewrite (wfv_sh hd) => /andP[d0 b0].
  by rewrite /mshape !posn_cons /= d0 !posn_bct.
- case=> /IHl /and3P[h1 h2 h3] /IHr /and3P[h4 h5 h6] _.
  by rewrite /mshape !posn_cons /= !muln_gt0 h1 h2 h4 h5 posn_bct.
Qed.
Lemma mrows_gt0 a : wf a -> (0 < mrows a)%N. Proof. by move/wf_posn; case/and3P. Qed.
Lemma mcols_gt0 a : wf a -> (0 < mcols a)%N. Proof. by move/wf_posn; case/and3P. Qed.
Lemma mbatch_pos a : wf a -> posn (mbatch a). Proof. by move/wf_posn; case/and3P. Qed.

Lemma shape_matrixE a : wf a -> shape_matrix a = ret (mrows a, mcols a).
Proof.
elim: a => [t|d b r c|t|t|t r c|t|t|l IHl r IHr m IHm|d l IHl r IHr m IHm|l IHl r IHr] //=.
- by case=> /IHl-> /IHr->; rewrite !bind_ret.
- case=> -[/IHl-> /IHr-> _ _ _] /and4P[_ /eqP-> /eqP-> _]; rewrite !bind_ret /=.
  by rewrite broadcast2E // bcsE ?bcokss // bctss !bind_ret.
- by case=> /IHl-> /IHr->; rewrite !bind_ret.
Qed.
Lemma shape_batchE a : wf a -> shape_batch a = ret (mbatch a).
Proof.
elim: a => [t|d b r c|t|t|t r c|t|t|l IHl r IHr m IHm|d l IHl r IHr m IHm|l IHl r IHr] //=.
- by case=> /IHl-> /IHr-> /IHm-> _ /and4P[_ _ h1 h2]; rewrite !bind_ret -(eab_three h1 h2).
- case=> -[/IHl-> /IHr-> /IHm-> _ /and4P[_ _ h1 h2]] /and4P[_ _ _ h3].
  by rewrite !bind_ret eab2_ok // bind_ret eab2_ok // !bind_ret -(eab_two h3).
- by case=> /IHl-> /IHr-> h; rewrite !bind_ret -(eab_two h).
Qed.
Lemma shape_ofE a : wf a -> shape_of a = ret (mshape a).
Proof.
move=> h; case E: a => [t|d b r c|t|t|t r c|t|t|l r m|d l r m|l r]; rewrite -?E /shape_of.
  by subst a; rewrite /mshape /= (uprank_wft h) -wft_sh.
all: by rewrite E -E shape_batchE // shape_matrixE // !bind_ret.
Qed.
Lemma assert_matrixE a : wf a -> assert_matrix a = ret tt.
Proof. by move=> h; rewrite /assert_matrix /rank_of shape_ofE // !bind_ret. Qed.

Lemma mk_lowrankE l r m : wf l -> wf r -> wf m -> mcols l = mrows m -> mcols r = mcols m ->
  mk_lowrank l (Some r) (Some m) = ret (LR l r m).
Proof.
move=> hl hr hm e1 e2; rewrite /mk_lowrank !assert_matrixE // !shape_matrixE // !bind_ret.
by rewrite e1 eqxx e2 /require eqxx !bind_ret.
Qed.

(** Properties of a result. *)
Lemma res_wf a : wf a -> is_res a (mrows a) (mcols a) (mbatch a) (ent a).
Proof. by []. Qed.
Lemma res_ext c r k b (f g : seq nat -> nat -> nat -> F) : is_res c r k b f ->
  (forall be i j, okb b be -> (i < r)%N -> (j < k)%N -> f be i j = g be i j) -> is_res c r k b g.
Proof. by case=> h1 h2 h3 h4 h; split=> // be i j ? ? ?; rewrite h4 // h. Qed.

Lemma res_cast c r k b b' (f g : seq nat -> nat -> nat -> F) : is_res c r k b f -> b = b' ->
  (forall be i j, okb b' be -> (i < r)%N -> (j < k)%N -> f be i j = g be i j) -> is_res c r k b' g.
Proof. by move=> h <-; apply: res_ext. Qed.

Lemma res_dense t r c b g : tmat t r c b g -> is_res (Dense t) r c b g.
Proof.
by move=> h; split=> /=; [exact: tmat_is h|rewrite (tmat_rows h) (tmat_cols h)|exact: tmat_batch h|case: h].
Qed.
Lemma mk_dense_tmat t r c b g : tmat t r c b g -> mk_dense t = Dense t.
Proof. by move=> h; rewrite /mk_dense uprank_wft // (tmat_is h). Qed.
Lemma res_mk_dense t r c b g : tmat t r c b g -> is_res (mk_dense t) r c b g.
Proof. by move=> h; rewrite (mk_dense_tmat h); apply: res_dense. Qed.
Lemma res_num t r c b g : tmat t r c b g -> is_res (Nm t) r c b g.
Proof.
move=> h; have e : t_uprank t = t by rewrite uprank_wft // (tmat_is h).
by split; rewrite /= ?e; [exact: tmat_is h|rewrite (tmat_rows h) (tmat_cols h)|exact: tmat_batch h|case: h].
Qed.
Lemma res_lt t r c b g : tmat t r c b g ->
  (forall be i j, okb b be -> (i < r)%N -> (j < c)%N -> (i < j)%N -> g be i j = 0) -> is_res (LT t) r c b g.
Proof.
move=> h hl; split=> /=; [split|rewrite (tmat_rows h) (tmat_cols h)|exact: tmat_batch h|by case: h] => //.
  exact: tmat_is h.
move=> be i j; rewrite (tmat_rows h) (tmat_cols h) (tmat_batch h) => hb hi hj hij.
by rewrite (tmat_ent h) // hl.
Qed.
Lemma res_ut t r c b g : tmat t r c b g ->
  (forall be i j, okb b be -> (i < r)%N -> (j < c)%N -> (j < i)%N -> g be i j = 0) -> is_res (UT t) r c b g.
Proof.
move=> h hl; split=> /=; [split|rewrite (tmat_rows h) (tmat_cols h)|exact: tmat_batch h|by case: h] => //.
  exact: tmat_is h.
move=> be i j; rewrite (tmat_rows h) (tmat_cols h) (tmat_batch h) => hb hi hj hij.
by rewrite (tmat_ent h) // hl.
Qed.
Lemma res_diag t n b g : tvec t n b g -> is_res (Diag t) n n b (fun be i j => if i == j then g be i else 0).
Proof.
move=> h; split=> /=; [exact: tvec_is h|by rewrite (tvec_len h)|exact: tvec_batch h|].
by move=> be i j hb hi hj; case: eqP => // _; rewrite (tvec_ent h).
Qed.
Lemma res_const t b g r c : tsca t b g -> (0 < r)%N -> (0 < c)%N -> is_res (Const t r c) r c b (fun be _ _ => g be).
Proof.
move=> h r0 c0; case: (h) => s p e; split=> //=; first by rewrite !posn_cons r0 c0 s.
by move=> be i j hb _ _; rewrite e.
Qed.
Lemma mk_lt_tmat t r c b g : tmat t r c b g -> mk_lt t = ret (LT t).
Proof. by case=> s _ _; rewrite /mk_lt /trank s. Qed.
Lemma mk_ut_tmat t r c b g : tmat t r c b g -> mk_ut t = ret (UT t).
Proof. by case=> s _ _; rewrite /mk_ut /trank s. Qed.
Lemma mk_diag_tvec t n b g : tvec t n b g -> mk_diag t = ret (Diag t).
Proof. by case=> s _ _; rewrite /mk_diag /trank s. Qed.

(** Low-rank results. *)
Definition lrf (f g h : seq nat -> nat -> nat -> F) (p q : nat) (be : seq nat) (i j : nat) : F :=
  sumf p (fun x => sumf q (fun y => f be i x * h be x y * g be j y)).
Lemma res_lr l r m rl rr p q bl br bm fl fr fm u :
  is_res l rl p bl fl -> is_res r rr q br fr -> is_res m p q bm fm ->
  kfree l -> kfree r -> kfree m -> bto bl u -> bto br u -> bto bm u ->
  is_res (LR l r m) rl rr (bct (bct bl br) bm) (lrf fl fr fm p q) /\ kfree (LR l r m).
Proof.
case=> wl [rl' cl'] bl' el [wr [rr' cr'] br' er] [wm [rm' cm'] bm' em] kl kr km hl hr hm.
have k : [&& kfree l, kfree r & kfree m] by rewrite kl kr km.
have ok1 : bcok bl br by okt u. have ok2 : bcok (bct bl br) bm by okt u.
split=> //; split=> //=.
- by split=> //; rewrite bl' br' bm' rm' cm' cl' cr' !eqxx ok1 ok2.
- by rewrite bl' br' bm'.
move=> be i j; rewrite !okb_bct // => /andP[/andP[o1 o2] o3] hi hj.
rewrite /lrf cl' cr'; apply: eq_sumf => x hx; apply: eq_sumf => y hy.
by rewrite el // em // er.
Qed.
Lemma mk_lowrank_res l r m rl rr p q bl br bm fl fr fm u :
  is_res l rl p bl fl -> is_res r rr q br fr -> is_res m p q bm fm ->
  kfree l -> kfree r -> kfree m -> bto bl u -> bto br u -> bto bm u ->
  hoare (mk_lowrank l (Some r) (Some m))
    (fun c => is_res c rl rr (bct (bct bl br) bm) (lrf fl fr fm p q) /\ kfree c /\ c = LR l r m).
Proof.
move=> hl hr hm kl kr km ul ur um; have [h k] := res_lr hl hr hm kl kr km ul ur um.
case: hl hr hm => wl [rl' cl'] _ _ [wr [rr' cr'] _ _] [wm [rm' cm'] _ _].
by rewrite mk_lowrankE // ?cl' ?cr' ?rm' ?cm' //; apply: hoare_ret.
Qed.

Lemma mk_woodbury_res t l (r : mat) m n bd gd b f :
  tvec t n bd gd -> is_res (LR l r m) n n b f -> bcok bd b ->
  mk_woodbury (Diag t) (LR l r m) = ret (Wb t l r m) /\
  is_res (Wb t l r m) n n (bct bd b) (fun be i j => (if i == j then gd be i else 0) + f be i j).
Proof.
move=> ht [w [hr hc] hb e] ok; have hd := res_diag ht; case: (hd) => wd [dr dc] db de.
have sc : mk_woodbury (Diag t) (LR l r m) = ret (Wb t l r m).
  rewrite /mk_woodbury /assert_shapes_compatible !shape_ofE // !bind_ret assert_compatible_ok //.
  by rewrite /mshape dr dc hr hc hb db !bcok_cons !bcnokn.
split=> //; split=> //=.
- by split=> //; apply/and4P; split; [exact: wd|rewrite -dr in hr; apply/eqP|rewrite -dr in hc; apply/eqP|rewrite -db -hb in ok].
- by move: hb => /= ->; rewrite (tvec_batch ht).
- move=> be i j; rewrite okb_bct // => /andP[o1 o2] hi hj.
  by rewrite -de // -e.
Qed.
Lemma hoare_woodbury t l (r : mat) m n bd gd b f :
  tvec t n bd gd -> is_res (LR l r m) n n b f -> bcok bd b -> kfree (LR l r m) ->
  hoare (mk_woodbury (Diag t) (LR l r m)) (fun c => 
  [/\ is_res c n n (bct bd b) (fun be i j => (if i == j then gd be i else 0) + f be i j), kfree c & c = Wb t l r m]).
Proof. by move=> h1 h2 h3 h4; have [-> h] := mk_woodbury_res h1 h2 h3; apply: hoare_ret. Qed.

(** The type tag of an object. *)
Definition tag (a : mat) : nat :=
  match a with Nm _ => 0 | Zero _ _ _ _ => 1 | Dense _ => 2 | Diag _ => 3 | Const _ _ _ => 4
  | LT _ => 5 | UT _ => 6 | LR _ _ _ => 7 | Wb _ _ _ _ => 8 | Kron _ _ => 9 end.
Definition trtag (n : nat) : nat := match n with 5 => 6 | 6 => 5 | n => n end%N.

Lemma tmat_num a t : wf a -> a = Nm t \/ a = Dense t \/ a = LT t \/ a = UT t ->
  tmat t (mrows a) (mcols a) (mbatch a) (ent a).
Proof.
move=> h [E|[E|[E|E]]]; subst a => /=.
- by have := tmat_wft h; rewrite (uprank_wft h).
- exact: tmat_wft.
- by case: h => h _; apply: tmat_wft.
- by case: h => h _; apply: tmat_wft.
Qed.

Lemma mk_constE t r c : posn (sh t) -> exists t',
  [/\ mk_const t [:: c, r & sh t] = ret (Const t' r c), tsca t' (sh t) (sx t) & dt t' = dt t].
Proof.
move=> p; rewrite /mk_const; case E: (sh t) => [|d s].
  by exists t; split=> //; rewrite -E.
rewrite eab_two ?bcokss // bctss bind_ret /t_broadcast_to E bto_refl bind_ret.
eexists; split; [reflexivity| |by []]; split; rewrite -?E // => be hb.
by rewrite /sx /bat /= E clamp_idem.
Qed.

(** ** transpose *)
Lemma transpose_ok a : wf a -> hoare (transpose a) (fun c =>
  [/\ is_res c (mcols a) (mrows a) (mbatch a) (fun be i j => ent a be j i),
      kfree c = kfree a & tag c = trtag (tag a)]).
Proof.
elim: a => [t|d b r c|t|t|t r c|t|t|l IHl r IHr m IHm|d l IHl r IHr m IHm|l IHl r IHr] h.
- apply: (hoare_bind (tmat_transpose (tmat_num h (or_introl erefl)))) => z hz.
  by apply: hoare_ret; split=> //; apply: res_num.
- by apply: hoare_ret; split=> //; split=> //=; move: h; rewrite /= !posn_cons andbCA.
- apply: (hoare_bind (tmat_transpose (tmat_num h (or_intror (or_introl erefl))))) => z hz.
  by rewrite (mk_dense_tmat hz); apply: hoare_ret; split=> //; apply: res_dense.
- apply: hoare_ret; split=> //; split=> //= be i j _ _ _; rewrite eq_sym.
  by case: eqP => // ->.
- case/and3P: (h) => c0 r0 p; have [t' [/= -> ht' _]] := mk_constE c r p.
  by apply: hoare_ret; split=> //; apply: res_const.
- case: (h) => ht hl.
  apply: (hoare_bind (tmat_transpose (tmat_wft ht))) => z hz; rewrite (mk_ut_tmat hz).
  by apply: hoare_ret; split=> //; apply: res_ut hz _ => be i j hb hi hj hij; apply: hl.
- case: (h) => ht hl.
  apply: (hoare_bind (tmat_transpose (tmat_wft ht))) => z hz; rewrite (mk_lt_tmat hz).
  by apply: hoare_ret; split=> //; apply: res_lt hz _ => be i j hb hi hj hij; apply: hl.
- case: (h) => wl wr wm k /and4P[/eqP e1 /eqP e2 o1 o2].
  apply: (hoare_bind (IHm wm)) => m' [hm km' _]; case/and3P: (k) => kl kr km.
  have [u1 u2] := (bct_ubl o2, bct_ubr o2); move: (u1); rewrite bto_bct // => /andP[u3 u4].
  rewrite km in km'; rewrite -e2 -e1 in hm.
  apply: hoare_conseq (mk_lowrank_res (res_wf wr) (res_wf wl) hm kr kl km' u4 u3 u2) _ => c [hc [kc E]]; subst c.
  split=> //; last by rewrite /= km' kl kr km.
  apply: (res_cast hc) => /=; first by rewrite (bctC o1).
  by move=> be i j hb hi hj; rewrite /lrf sumf_exch; apply: eq_sumf => x hx; apply: eq_sumf => y hy; rewrite mulrC mulrA mulrAC.
- have wlr := wf_wb_lr h; case: (h) => -[wl wr wm k /and4P[/eqP e1 /eqP e2 o1 o2]] /and4P[wd /eqP n1 /eqP n2 o3].
  rewrite /=; apply: (hoare_bind (IHm wm)) => m' [hm km' _]; case/and3P: (k) => kl kr km.
  have [u1 u2] := (bct_ubl o2, bct_ubr o2); move: (u1); rewrite bto_bct // => /andP[u3 u4].
  rewrite km in km'; rewrite -e2 -e1 in hm.
  apply: (hoare_bind (mk_lowrank_res (res_wf wr) (res_wf wl) hm kr kl km' u4 u3 u2)) => c [hc [kc E]]; subst c.
  rewrite n1 n2 in hc.
  have o3' : bcok (behead (sh d)) (bct (bct (mbatch r) (mbatch l)) (mbatch m)) by rewrite -(bctC o1).
  apply: hoare_conseq (hoare_woodbury (tvec_wfv wd) hc o3' kc) _ => c [h1 h2 E]; subst c.
  split=> //; last by rewrite h2 [RHS]k.
  apply: (res_cast h1) => /=; first by rewrite (bctC o1).
  move=> be i j hb hi hj; congr (_ + _); first by rewrite eq_sym; case: eqP => // ->.
  by rewrite /lrf sumf_exch; apply: eq_sumf => x hx; apply: eq_sumf => y hy; rewrite mulrC mulrA mulrAC.
- case: (h) => wl wr o; apply: (hoare_bind (IHl wl)) => l' [[w1 [r1 c1] b1 e1] k1 _].
  apply: (hoare_bind (IHr wr)) => r' [[w2 [r2 c2] b2 e2] k2 _].
  apply: hoare_ret; split=> //=; split=> //=.
  + by rewrite b1 b2.
  + by rewrite r1 r2 c1 c2.
  + by rewrite b1 b2.
  move=> be i j; rewrite okb_bct // => /andP[o1 o2] hi hj.
  have := (mrows_gt0 wr, mcols_gt0 wr) => -[rr cr].
  by rewrite r2 c2 e1 ?e2 ?ltn_mod // ltn_divLR.
Qed.

(** ** negative *)
Lemma negative_ok a : wf a -> hoare (negative a) (fun c =>
  [/\ is_res c (mrows a) (mcols a) (mbatch a) (fun be i j => - ent a be i j),
      kfree c = kfree a & tag c = tag a]).
Proof.
elim: a => [t|d b r c|t|t|t r c|t|t|l IHl r IHr m IHm|d l IHl r IHr m IHm|l IHl r IHr] h.
- by apply: hoare_ret; split=> //; apply: res_num (tmat_map _ (tmat_num h (or_introl erefl))).
- by apply: hoare_ret; split=> //; split=> //= *; rewrite oppr0.
- have hz := tmat_map -%R (tmat_num h (or_intror (or_introl erefl))).
  by rewrite /= (mk_dense_tmat hz); apply: hoare_ret; split=> //; apply: res_dense.
- have hz := tvec_map -%R (tvec_wfv h); rewrite /= (mk_diag_tvec hz).
  apply: hoare_ret; split=> //; apply: res_ext (res_diag hz) _ => /= be i j _ _ _.
  by case: eqP; rewrite ?oppr0.
- case/and3P: (h) => hc0 hr0 p; apply: hoare_ret; split=> //.
- case: (h) => ht hl; have hz := tmat_map -%R (tmat_wft ht); rewrite /= (mk_lt_tmat hz).
  apply: hoare_ret; split=> //; apply: res_lt hz _ => be i j hb hi hj hij.
  by rewrite hl ?oppr0.
- case: (h) => ht hl; have hz := tmat_map -%R (tmat_wft ht); rewrite /= (mk_ut_tmat hz).
  apply: hoare_ret; split=> //; apply: res_ut hz _ => be i j hb hi hj hij.
  by rewrite hl ?oppr0.
- case: (h) => wl wr wm k /and4P[/eqP e1 /eqP e2 o1 o2].
  apply: (hoare_bind (IHm wm)) => m' [hm km' _]; case/and3P: (k) => kl kr km.
  have [u1 u2] := (bct_ubl o2, bct_ubr o2); move: (u1); rewrite bto_bct // => /andP[u3 u4].
  rewrite km in km'; rewrite -e2 -e1 in hm.
  apply: hoare_conseq (mk_lowrank_res (res_wf wl) (res_wf wr) hm kl kr km' u3 u4 u2) _ => c [hc [kc E]]; subst c.
  split=> //; last by rewrite /= km' kl kr km.
  apply: (res_cast hc) => //= be i j hb hi hj; rewrite /lrf -sumf_opp; apply: eq_sumf => x hx.
  by rewrite -sumf_opp; apply: eq_sumf => y hy; rewrite mulrN mulNr.
- have wlr := wf_wb_lr h; case: (h) => -[wl wr wm k /and4P[/eqP e1 /eqP e2 o1 o2]] /and4P[wd /eqP n1 /eqP n2 o3].
  have hz := tvec_map -%R (tvec_wfv wd); rewrite /= (mk_diag_tvec hz) bind_ret.
  rewrite /=; apply: (hoare_bind (IHm wm)) => m' [hm km' _]; case/and3P: (k) => kl kr km.
  have [u1 u2] := (bct_ubl o2, bct_ubr o2); move: (u1); rewrite bto_bct // => /andP[u3 u4].
  rewrite km in km'; rewrite -e2 -e1 in hm.
  apply: (hoare_bind (mk_lowrank_res (res_wf wl) (res_wf wr) hm kl kr km' u3 u4 u2)) => c [hc [kc E]]; subst c.
  rewrite n1 n2 in hc.
  apply: hoare_conseq (hoare_woodbury hz hc o3 kc) _ => c [h1 h2 E]; subst c.
  split=> //; last by rewrite h2 [RHS]k.
  apply: (res_cast h1) => //= be i j hb hi hj; rewrite opprD; congr (_ + _); first by case: eqP => _; rewrite ?oppr0.
  rewrite /lrf -sumf_opp; apply: eq_sumf => x hx.
  by rewrite -sumf_opp; apply: eq_sumf => y hy; rewrite mulrN mulNr.
- case: (h) => wl wr o; apply: (hoare_bind (IHl wl)) => l' [[w1 [r1 c1] b1 e1] k1 _].
  apply: hoare_ret; split=> //=; split=> //=.
  + by rewrite b1.
  + by rewrite r1 c1.
  + by rewrite b1.
  move=> be i j; rewrite okb_bct // => /andP[o1 o2] hi hj.
  have := (mrows_gt0 wr, mcols_gt0 wr) => -[rr cr].
  by rewrite e1 ?ltn_divLR // mulNr.
Qed.

(** ** broadcast_batch_to *)
Lemma broadcast_batch_ok a B : wf a -> posn B -> bto (mbatch a) B ->
  hoare (broadcast_batch_to a B) (fun c =>
  [/\ is_res c (mrows a) (mcols a) B (ent a), kfree c = kfree a & tag c = tag a]).
Proof.
move=> + pB; elim: a => [t|d b r c|t|t|t r c|t|t|l IHl r IHr m IHm|d l IHl r IHr m IHm|l IHl r IHr] h hb.
- apply: (hoare_bind (tmat_broadcast_batch (tmat_num h (or_introl erefl)) pB hb)) => z hz.
  by apply: hoare_ret; split=> //; apply: res_num.
- apply: hoare_ret; split=> //; split=> //=; move: h; rewrite /= !posn_cons.
  by case/and3P=> -> ->.
- apply: (hoare_bind (tmat_broadcast_batch (tmat_num h (or_intror (or_introl erefl))) pB hb)) => z hz.
  by rewrite (mk_dense_tmat hz); apply: hoare_ret; split=> //; apply: res_dense.
- apply: (hoare_bind (tvec_broadcast (tvec_wfv h) pB hb)) => z hz.
  by rewrite (mk_diag_tvec hz); apply: hoare_ret; split=> //; apply: res_diag.
- case/and3P: (h) => hc0 hr0 p; apply: (hoare_bind (tsca_broadcast (tsca_posn p) pB hb)) => z hz.
  by apply: hoare_ret; split=> //; apply: res_const hz hr0 hc0.
- case: (h) => ht hl; apply: (hoare_bind (tmat_broadcast_batch (tmat_wft ht) pB hb)) => z hz.
  rewrite (mk_lt_tmat hz); apply: hoare_ret; split=> //; apply: res_lt hz _ => be i j hbe hi hj hij.
  by rewrite hl // (okb_mono hb).
- case: (h) => ht hl; apply: (hoare_bind (tmat_broadcast_batch (tmat_wft ht) pB hb)) => z hz.
  rewrite (mk_ut_tmat hz); apply: hoare_ret; split=> //; apply: res_ut hz _ => be i j hbe hi hj hij.
  by rewrite hl // (okb_mono hb).
- case: (h) => wl wr wm k /and4P[/eqP e1 /eqP e2 o1 o2].
  move: hb; rewrite LRb // => /and3P[bl br bm].
  apply: (hoare_bind (IHl wl bl)) => l' [hl kl' _]; apply: (hoare_bind (IHr wr br)) => r' [hr kr' _].
  apply: (hoare_bind (IHm wm bm)) => m' [hm km' _]; case/and3P: (k) => kl kr km.
  rewrite -e2 -e1 in hm; rewrite kl in kl'; rewrite kr in kr'; rewrite km in km'.
  have uu := bto_refl B.
  apply: hoare_conseq (mk_lowrank_res hl hr hm kl' kr' km' uu uu uu) _ => c [hc [kc E]]; subst c.
  split=> //; last by rewrite kc [RHS]k.
  by apply: (res_cast hc) => //; rewrite !bctss.
- have wlr := wf_wb_lr h; case: (h) => -[wl wr wm k /and4P[/eqP e1 /eqP e2 o1 o2]] /and4P[wd /eqP n1 /eqP n2 o3].
  move: hb; rewrite Wbb // => /and4P[bd bl br bm].
  apply: (hoare_bind (tvec_broadcast (tvec_wfv wd) pB bd)) => d' hd'.
  rewrite (mk_diag_tvec hd') bind_ret.
  apply: (hoare_bind (IHl wl bl)) => l' [hl kl' _]; apply: (hoare_bind (IHr wr br)) => r' [hr kr' _].
  apply: (hoare_bind (IHm wm bm)) => m' [hm km' _]; case/and3P: (k) => kl kr km.
  rewrite -e2 -e1 in hm; rewrite kl in kl'; rewrite kr in kr'; rewrite km in km'.
  have uu := bto_refl B.
  apply: (hoare_bind (mk_lowrank_res hl hr hm kl' kr' km' uu uu uu)) => c [hc [kc E]]; subst c.
  rewrite n1 n2 !bctss in hc.
  apply: hoare_conseq (hoare_woodbury hd' hc (bcokss _) kc) _ => c [h1 h2 E]; subst c.
  split=> //; last by rewrite h2 [RHS]k.
  by apply: (res_cast h1) => //; rewrite !bctss.
- case: (h) => wl wr o; move: hb; rewrite Kronb // => /andP[bl br].
  apply: (hoare_bind (IHl wl bl)) => l' [[w1 [r1 c1] b1 e1] k1 _].
  apply: (hoare_bind (IHr wr br)) => r' [[w2 [r2 c2] b2 e2] k2 _].
  apply: hoare_ret; split=> //=; split=> //=.
  + by rewrite b1 b2 bcokss.
  + by rewrite r1 c1 r2 c2.
  + by rewrite b1 b2 bctss.
  move=> be i j ob hi hj; have := (mrows_gt0 wr, mcols_gt0 wr) => -[rr cr].
  by rewrite r2 c2 e1 ?ltn_divLR // e2 ?ltn_mod.
Qed.

(** ** cast *)
Lemma cast_ok d a : wf a -> hoare (cast d a) (fun c =>
  [/\ is_res c (mrows a) (mcols a) (mbatch a) (ent a), kfree c = kfree a, tag c = tag a & mdtype c = d]).
Proof.
have tc t r c b g : tmat t r c b g -> tmat (t_cast d t) r c b g by [].
have tv t n b g : tvec t n b g -> tvec (t_cast d t) n b g by [].
have ts t b g : tsca t b g -> tsca (t_cast d t) b g by [].
have dd : promote (promote d d) d = d by case: d {tc tv ts}.
have dd' : promote d d = d by case: d {tc tv ts dd}.
elim: a => [t|d' b r c|t|t|t r c|t|t|l IHl r IHr m IHm|d' l IHl r IHr m IHm|l IHl r IHr] h.
- by apply: hoare_ret; split=> //; apply: res_num (tc _ _ _ _ _ (tmat_num h (or_introl erefl))).
- by apply: hoare_ret; split.
- have hz := tc _ _ _ _ _ (tmat_num h (or_intror (or_introl erefl))).
  rewrite /= (mk_dense_tmat hz); apply: hoare_ret; split=> //; by rewrite /= uprank_wft // (tmat_is hz).
- have hz := tv _ _ _ _ (tvec_wfv h).
  by rewrite /= (mk_diag_tvec hz); apply: hoare_ret; split=> //; apply: res_diag.
- case/and3P: (h) => hc0 hr0 p; have p' : posn (sh (t_cast d t)) by [].
  have [t' [/= -> ht' e]] := mk_constE r c p'.
  by apply: hoare_ret; split=> //; apply: res_const.
- case: (h) => ht hl; have hz := tc _ _ _ _ _ (tmat_wft ht); rewrite /= (mk_lt_tmat hz).
  by apply: hoare_ret; split=> //; apply: res_lt hz _ => be i j hbe hi hj hij; rewrite hl.
- case: (h) => ht hl; have hz := tc _ _ _ _ _ (tmat_wft ht); rewrite /= (mk_ut_tmat hz).
  by apply: hoare_ret; split=> //; apply: res_ut hz _ => be i j hbe hi hj hij; rewrite hl.
- case: (h) => wl wr wm k /and4P[/eqP e1 /eqP e2 o1 o2].
  apply: (hoare_bind (IHl wl)) => l' [hl kl' _ dl]; apply: (hoare_bind (IHr wr)) => r' [hr kr' _ dr].
  apply: (hoare_bind (IHm wm)) => m' [hm km' _ dm]; case/and3P: (k) => kl kr km.
  rewrite -e2 -e1 in hm; rewrite kl in kl'; rewrite kr in kr'; rewrite km in km'.
  have [u1 u2] := (bct_ubl o2, bct_ubr o2); move: (u1); rewrite bto_bct // => /andP[u3 u4].
  apply: hoare_conseq (mk_lowrank_res hl hr hm kl' kr' km' u3 u4 u2) _ => c [hc [kc E]]; subst c.
  by split=> //; [rewrite kc [RHS]k|rewrite /= dl dr dm].
- have wlr := wf_wb_lr h; case: (h) => -[wl wr wm k /and4P[/eqP e1 /eqP e2 o1 o2]] /and4P[wd /eqP n1 /eqP n2 o3].
  have hd' := tv _ _ _ _ (tvec_wfv wd); rewrite /= (mk_diag_tvec hd') bind_ret.
  apply: (hoare_bind (IHl wl)) => l' [hl kl' _ dl]; apply: (hoare_bind (IHr wr)) => r' [hr kr' _ dr].
  apply: (hoare_bind (IHm wm)) => m' [hm km' _ dm]; case/and3P: (k) => kl kr km.
  rewrite -e2 -e1 in hm; rewrite kl in kl'; rewrite kr in kr'; rewrite km in km'.
  have [u1 u2] := (bct_ubl o2, bct_ubr o2); move: (u1); rewrite bto_bct // => /andP[u3 u4].
  apply: (hoare_bind (mk_lowrank_res hl hr hm kl' kr' km' u3 u4 u2)) => c [hc [kc E]]; subst c.
  rewrite n1 n2 in hc.
  apply: hoare_conseq (hoare_woodbury hd' hc o3 kc) _ => c [h1 h2 E]; subst c.
  by split=> //; [rewrite h2 [RHS]k|rewrite /= dl dr dm dd dd'].
- case: (h) => wl wr o.
  apply: (hoare_bind (IHl wl)) => l' [[w1 [r1 c1] b1 e1] k1 _ d1].
  apply: (hoare_bind (IHr wr)) => r' [[w2 [r2 c2] b2 e2] k2 _ d2].
  apply: hoare_ret; split=> //=; last by rewrite d1 d2.
  split=> //=.
  + by rewrite b1 b2.
  + by rewrite r1 c1 r2 c2.
  + by rewrite b1 b2.
  move=> be i j; rewrite okb_bct // => /andP[ob ob'] hi hj; have := (mrows_gt0 wr, mcols_gt0 wr) => -[rr cr].
  by rewrite r2 c2 e1 ?ltn_divLR // e2 ?ltn_mod.
Qed.

(** ** Entries only depend on the clamped batch index *)
Lemma ent_clamp a s be i j : wf a -> bto (mbatch a) s -> ent a (clamp s be) i j = ent a be i j.
Proof.
elim: a be i j => [t|d b r c|t|t|t r c|t|t|l IHl r IHr m IHm|d l IHl r IHr m IHm|l IHl r IHr] be i j h.
- by move=> hb /=; rewrite mx_clamp.
- by [].
- by move=> hb; apply: mx_clamp.
- by move=> hb /=; rewrite vx_clamp.
- by move=> hb /=; rewrite /sx bat_clamp.
- by move=> hb; apply: mx_clamp.
- by move=> hb; apply: mx_clamp.
- case: (h) => wl wr wm _ _; rewrite LRb // => /and3P[bl br bm] /=.
  apply: eq_sumf => x _; apply: eq_sumf => y _.
  by rewrite IHl // IHr // IHm.
- case: (h) => -[wl wr wm _ _] _; rewrite Wbb // => /and4P[bd bl br bm] /=.
  rewrite vx_clamp //; congr (_ + _); apply: eq_sumf => x _; apply: eq_sumf => y _.
  by rewrite IHl // IHr // IHm.
- case: (h) => wl wr _; rewrite Kronb // => /andP[bl br] /=.
  by rewrite IHl // IHr.
Qed.
End MatThy.
