(** * Correctness of matmul3, dense, sum, diag (proof support) *)
From mathcomp Require Import all_ssreflect all_algebra.
From Verif Require Import Outcome Monad Shape Tensor Mat Dispatch Ops Spec ShapeThy TensorThy TensorThy2 MatThy OpsOk.
Set Implicit Arguments. Unset Strict Implicit. Unset Printing Implicit Defensive.
Import GRing.Theory.
Local Open Scope ring_scope.

Section DenseOk.
Variable F : rcfType.
Notation tensor := (tensor F).
Notation mat := (mat F).
Implicit Types (a l m : mat) (t : tensor) (u be : seq nat).
Variable self : ops F.
Hypothesis ok : ops_ok self.

(** Product of three matrices, entrywise. *)
Definition mm3f (fx fy fz : seq nat -> nat -> nat -> F) (p q : nat) be i j :=
  sumf p (fun k => sumf q (fun k' => fx be i k * fy be k k' * fz be k' j)).

Lemma mm3_res x y z (ta tb tc : bool) rx cx bx fx ry cy by' fy rz cz bz fz u :
  is_res x rx cx bx fx -> is_res y ry cy by' fy -> is_res z rz cz bz fz ->
  (if ta then rx else cx) = (if tb then cy else ry) ->
  (if tb then ry else cy) = (if tc then cz else rz) ->
  bto bx u -> bto by' u -> bto bz u ->
  kfree x || kfree y -> kfree y || kfree z ->
  hoare (mm3 self x y z ta tb tc) (fun w =>
    is_res w (if ta then cx else rx) (if tc then rz else cz) (bct (bct bx by') bz)
      (mm3f (fun be i p => if ta then fx be p i else fx be i p)
            (fun be i p => if tb then fy be p i else fy be i p)
            (fun be i p => if tc then fz be p i else fz be i p)
            (if ta then rx else cx) (if tb then ry else cy)) /\
    (kfree x || kfree y || kfree z -> kfree w)).
Proof.
move=> hx hy hz e1 e2 ux uy uz kxy kyz.
case: (hx) (hy) (hz) => wx [rx' cx'] bx' _ [wy [ry' cy'] by'' _] [wz [rz' cz'] bz' _].
rewrite /mm3 !shape_matrixE // !bind_ret rx' cx' ry' cy' rz' cz'.
rewrite [(if ta then _ else _) as X in let '(_, _) := X in _](_ : _ = ((if ta then cx else rx), if ta then rx else cx)); last by case: (ta).
rewrite [(if tb then _ else _) as X in let '(_, _) := X in _](_ : _ = ((if tb then cy else ry), if tb then ry else cy)); last by case: (tb).
rewrite [(if tc then _ else _) as X in let '(_, _) := X in _](_ : _ = ((if tc then cz else rz), if tc then rz else cz)); last by case: (tc).
have okxy : bcok bx by' by okt u. have okyz : bcok by' bz by okt u.
have okl : bcok (bct bx by') bz by okt u. have okr : bcok bx (bct by' bz) by okt u.
case: ifP => _.
- apply: (hoare_bind (mm_res ok hx hy e1 okxy (mm_side_kfree _ _ kxy))) => v [hv kv].
  have kvz : kfree v || kfree z by rewrite kv.
  apply: hoare_conseq (mm_res ok hv hz (tb := tc) (ta := false) e2 okl (mm_side_kfree _ _ kvz)) _ => w [hw kw].
  split; last by move=> _; exact: kw.
  apply: res_ext hw _ => be i j hbe hi hj; rewrite /mm3f sumf_exch; apply: eq_sumf => q hq.
  by rewrite sumf_mulr; apply: eq_sumf => p hp.
- apply: (hoare_bind (mm_res ok hy hz e2 okyz (mm_side_kfree _ _ kyz))) => v [hv kv].
  have kxv : kfree x || kfree v by rewrite kv ?orbT.
  apply: hoare_conseq (mm_res ok hx hv (ta := ta) (tb := false) e1 okr (mm_side_kfree _ _ kxv)) _ => w [hw kw].
  split; last by move=> _; exact: kw.
  have bE : bct bx (bct by' bz) = bct (bct bx by') bz.
    by apply: bto_ext => v'; rewrite !bto_bct // andbA.
  apply: (res_cast hw) => // be i j hbe hi hj; rewrite /mm3f; apply: eq_sumf => p hp.
  by rewrite sumf_mull; apply: eq_sumf => q hq; rewrite mulrA.
Qed.

Lemma tag_dgok a : tag a != 9%N -> dgok a. Proof. by case: a. Qed.
Lemma broadcast_batch_dgok a B : wf a -> posn B -> bto (mbatch a) B ->
  hoare (broadcast_batch_to a B) (fun c => dgok c = dgok a).
Proof.
move=> + pB; elim: a => [t|d b r c|t|t|t r c|t|t|l _ r _ m _|d l _ r _ m _|l IHl r IHr] w hb;
  try (apply: hoare_conseq (broadcast_batch_ok w pB hb) _ => c' [_ _ tc]; rewrite tag_dgok // tc //; fail).
case: (w) => wl wr o; move: hb; rewrite Kronb // => /andP[bl br] /=.
apply: (hoare_bind (hoare_and (IHl wl bl) (broadcast_batch_ok wl pB bl))) => l' [dl _].
apply: (hoare_bind (hoare_and (IHr wr br) (broadcast_batch_ok wr pB br))) => r' [dr [[_ [r1 c1] _ _] _ _]].
by apply: hoare_ret; rewrite /= dl dr r1 c1.
Qed.
Lemma align_batch2_ok l (r : mat) : wf l -> wf r -> bcok (mbatch l) (mbatch r) ->
  hoare (align_batch [:: l; r]) (fun xs => exists l' r', [/\ xs = [:: l'; r'],
     is_res l' (mrows l) (mcols l) (bct (mbatch l) (mbatch r)) (ent l),
     is_res r' (mrows r) (mcols r) (bct (mbatch l) (mbatch r)) (ent r) &
     dgok l' = dgok l /\ dgok r' = dgok r]).
Proof.
move=> wl wr o; rewrite /align_batch /shape_batch_broadcast /= !shape_batchE // !bind_ret.
have -> : expand_and_broadcast [:: mbatch l; mbatch r] = ret (bct (mbatch l) (mbatch r)) by apply: eab_two.
have pb := posn_bct (mbatch_pos wl) (mbatch_pos wr).
rewrite bind_ret; apply: (hoare_bind (hoare_and (broadcast_batch_dgok wl pb (bct_ubl o)) (broadcast_batch_ok wl pb (bct_ubl o)))) => l' [dl [hl _ _]].
rewrite bindA; apply: (hoare_bind (hoare_and (broadcast_batch_dgok wr pb (bct_ubr o)) (broadcast_batch_ok wr pb (bct_ubr o)))) => r' [dr [hr _ _]].
by rewrite !bind_ret; apply: hoare_ret; exists l', r'.
Qed.

Lemma tmat_const t (r c : nat) : posn [:: c, r & sh t] ->
  hoare (t_const_dense t r c) (fun z => tmat z r c (sh t) (fun be _ _ => sx t be)).
Proof.
move=> /posn3[c0 r0 p]; rewrite /t_const_dense.
have hn : posn (nseq (size (sh t)) 1%N) by elim: (size _).
have hb : bto (nseq (size (sh t)) 1%N) (sh t) by elim: (sh t) => //= d s ->.
have ho : tmat (t_ones (dt t) [:: c, r & nseq (size (sh t)) 1%N]) r c (nseq (size (sh t)) 1%N) (fun _ _ _ => (1 : F)).
  by apply: tmat_full; rewrite !posn_cons c0 r0.
have o : bcok (sh t) (nseq (size (sh t)) 1%N) by apply: (@bcok_ub (sh t)); rewrite ?bto_refl.
apply: hoare_conseq (tmat_map2_sl _ (tsca_posn p) ho o) _ => z hz.
move: hz; rewrite (_ : bct _ _ = sh t) ?(bctC o) ?bct_to // => hz.
by apply: tmat_ext hz _ => be i j _ _ _; rewrite mulr1.
Qed.

Lemma mm3f_lr l (r : mat) m be i j :
  mm3f (ent l) (ent m) (fun be i p => ent r be p i) (mcols l) (mcols m) be i j =
  sumf (mcols l) (fun p => sumf (mcols m) (fun q => ent l be i p * ent m be p q * ent r be j q)).
Proof. by []. Qed.

(** Unpacked well-formedness of a low-rank matrix. *)
Lemma lr_facts l (r : mat) m : wf (LR l r m) ->
  [/\ [/\ wf l, wf r & wf m], [/\ kfree l, kfree r & kfree m], mcols l = mrows m /\ mcols r = mcols m &
      [/\ bto (mbatch l) (mbatch (LR l r m)), bto (mbatch r) (mbatch (LR l r m)) & bto (mbatch m) (mbatch (LR l r m))]].
Proof.
move=> w; have := bto_refl (mbatch (LR l r m)); rewrite {1}LRb // => /and3P[h1 h2 h3].
by case: w => wl wr wm /and3P[kl kr km] /and4P[/eqP e1 /eqP e2 _ _]; split.
Qed.

Theorem dense_ok a : wf a -> hoare (dense_step self a) (fun t => tmat t (mrows a) (mcols a) (mbatch a) (ent a)).
Proof.
case: a => [t|d b r c|t|t|t r c|t|t|l r m|d l r m|l r] w.
- by apply: hoare_ret; apply: tmat_num; [|left].
- by apply: hoare_ret.
- by apply: hoare_ret; apply: tmat_num; [|right; left].
- exact: tvec_diag_construct (tvec_wfv w).
- by apply: hoare_conseq (tmat_const w) _ => z hz; apply: tmat_ext hz _.
- by apply: hoare_ret; apply: tmat_num; [|right; right; left].
- by apply: hoare_ret; apply: tmat_num; [|right; right; right].
- have [[wl wr wm] [kl kr km] [e1 e2] [ul ur um]] := lr_facts w.
  apply: (hoare_bind (mm3_res (ta := false) (tb := false) (tc := true) (res_wf wl) (res_wf wm) (res_wf wr) e1 (esym e2) ul um ur _ _)); rewrite ?kl ?km // => x [hx kx].
  apply: hoare_conseq (dense_res ok hx) _ => t ht.
  have bE : bct (bct (mbatch l) (mbatch m)) (mbatch r) = mbatch (LR l r m).
    by apply: bto_ext => v; rewrite LRb // !bto_bct; [rewrite -andbA [bto (mbatch m) v && _]andbC|okt (mbatch (LR l r m))|okt (mbatch (LR l r m))].
  rewrite bE in ht; apply: tmat_ext ht _ => be i j _ _ _ /=.
  by rewrite mm3f_lr e2.
- have wd := wf_wb_d w; have wlr := wf_wb_lr w; case: (w) => _ /and4P[_ /eqP n1 /eqP n2 o3].
  apply: (hoare_bind (ok_dense ok wd)) => x hx; apply: (hoare_bind (ok_dense ok wlr)) => y hy.
  by rewrite /= in hx; rewrite /= n1 n2 in hy; apply: hoare_conseq (tmat_map2e _ hx hy o3) _.
- case: (w) => wl wr o; rewrite /=.
  apply: (hoare_bind (align_batch2_ok wl wr o)) => _ [l' [r' [-> hl hr _]]] /=.
  apply: (hoare_bind (dense_res ok hl)) => x hx; apply: (hoare_bind (dense_res ok hr)) => y hy.
  by apply: hoare_conseq (tmat_kron2 hx hy) _.
Qed.

Lemma lr_sum_alg P Q R (A : nat -> F) (M B : nat -> nat -> F) :
  sumf Q (fun q => sumf P (fun p => A p * M p q) * sumf R (fun j => B j q)) =
  sumf R (fun j => sumf P (fun p => sumf Q (fun q => A p * M p q * B j q))).
Proof.
transitivity (sumf Q (fun q => sumf R (fun j => sumf P (fun p => A p * M p q * B j q)))).
  apply: eq_sumf => q _; rewrite sumf_mull; apply: eq_sumf => j _; rewrite sumf_mulr; exact: eq_sumf.
by rewrite sumf_exch; apply: eq_sumf => j _; rewrite sumf_exch.
Qed.
Lemma lr_sum_alg' P Q R (A : nat -> F) (M B : nat -> nat -> F) :
  sumf P (fun p => sumf R (fun i => B i p) * sumf Q (fun q => A q * M p q)) =
  sumf R (fun i => sumf P (fun p => sumf Q (fun q => B i p * M p q * A q))).
Proof.
transitivity (sumf P (fun p => sumf R (fun i => sumf Q (fun q => B i p * M p q * A q)))).
  apply: eq_sumf => p _; rewrite sumf_mulr; apply: eq_sumf => i _; rewrite sumf_mull; apply: eq_sumf => q _.
  by rewrite [A q * _]mulrC mulrA.
by rewrite sumf_exch.
Qed.

(** ** sum over the columns / rows *)
Theorem sumax_ok a : wf a ->
  hoare (sumax_step self a true) (fun t => tvec t (mrows a) (mbatch a) (fun be i => sumf (mcols a) (ent a be i))) /\
  hoare (sumax_step self a false) (fun t => tvec t (mcols a) (mbatch a) (fun be j => sumf (mrows a) (fun i => ent a be i j))).
Proof.
have tm t (a' : mat) : tmat t (mrows a') (mcols a') (mbatch a') (ent a') ->
  hoare (t_sum_ax t true) (fun t => tvec t (mrows a') (mbatch a') (fun be i => sumf (mcols a') (ent a' be i))) /\
  hoare (t_sum_ax t false) (fun t => tvec t (mcols a') (mbatch a') (fun be j => sumf (mrows a') (fun i => ent a' be i j))).
  by move=> h; split; [exact: tmat_sum0 h|exact: tmat_sum1 h].
case: a => [t|d b r c|t|t|t r c|t|t|l r m|d l r m|l r] w.
- by apply: tm; apply: tmat_num; [|left].
- have [c0 r0 pb] := posn3 w.
  by split; apply: hoare_ret; (apply: tvec_ext; first by apply: tvec_full; rewrite posn_cons ?c0 ?r0) => be i _ _; rewrite /= sumf0.
- by apply: tm; apply: tmat_num; [|right; left].
- split; apply: hoare_ret; apply: tvec_ext (tvec_wfv w) _ => be i _ hi /=; first by rewrite (sumf_delta (fun _ => vx t be i)).
  rewrite (eq_sumf (g := fun k => if k == i then vx t be i else 0)) ?(sumf_delta' (fun _ => vx t be i)) // => k _.
  by case: eqP => // ->.
- have [c0 r0 p] := posn3 w.
  have hn : posn (nseq (size (sh t)) 1%N) by elim: (size _).
  have hb : bto (nseq (size (sh t)) 1%N) (sh t) by elim: (sh t) => //= d s ->.
  have o : bcok (sh t) (nseq (size (sh t)) 1%N) by apply: (@bcok_ub (sh t)); rewrite ?bto_refl.
  have ho n : (0 < n)%N -> tvec (t_ones (dt t) (n :: nseq (size (sh t)) 1%N)) n (nseq (size (sh t)) 1%N) (fun _ _ => (1 : F)).
    by move=> n0; apply: tvec_full; rewrite posn_cons n0.
  have E k : t_scale k (t_expand1_is t) = t_expand1_is (t_scale k t) by rewrite /t_expand1_is /=; case: (sh t).
  have ht k : tsca (t_scale k t) (sh t) (fun be => sx t be * k) := tsca_map (fun y => y * k) (tsca_posn p).
  by split; rewrite /= E; [apply: hoare_conseq (tvec_map2_sl _ (ht _) (ho r r0) o) _|apply: hoare_conseq (tvec_map2_sl _ (ht _) (ho c c0) o) _] => z hz;
    move: hz; rewrite (_ : bct _ _ = sh t) ?(bctC o) ?bct_to // => hz; apply: tvec_ext hz _ => be i _ _; rewrite mulr1 sumf_const mulr_natr.
- by apply: tm; apply: tmat_num; [|right; right; left].
- by apply: tm; apply: tmat_num; [|right; right; right].
- have [[wl wr wm] [kl kr km] [e1 e2] [ul ur um]] := lr_facts w; set u := mbatch (LR l r m) in ul ur um.
  split; rewrite /=.
  + have o1 : bcok (mbatch l) (mbatch m) by okt u.
    apply: (hoare_bind (mm_res ok (ta := false) (tb := false) (res_wf wl) (res_wf wm) e1 o1 (mm_side_kfree _ _ _))); rewrite ?kl // => x [hx kx].
    apply: (hoare_bind (sum2_res ok (res_wf wr))) => s hs; have hs2 := res_num (tmat_expand2 hs); rewrite /= in hx.
    have o2 : bcok (bct (mbatch l) (mbatch m)) (mbatch r) by okt u.
    have side : mul_side x (Nm (t_expand2 s)).
      apply: full_mul_num'; case: hx hs2 => _ [x1 x2] _ _ [_ [y1 y2] _ _].
      by rewrite /full x1 x2 y1 y2 bcn1 e2 bcnn !eqxx.
    rewrite e2 in hs2; apply: (hoare_bind (mul_res ok hx hs2 (bcnok1 _) (bcnokn _) o2 side)) => y [hy ky].
    rewrite bcn1 bcnn in hy; apply: hoare_conseq (sum1_res ok hy) _ => z hz.
    have bE : bct (bct (mbatch l) (mbatch m)) (mbatch r) = u.
      by apply: bto_ext => v; rewrite /u LRb // !bto_bct // -andbA [bto (mbatch m) v && _]andbC.
    rewrite bE in hz; apply: tvec_ext hz _ => be i hbe hi /=.
    rewrite -e2 -lr_sum_alg; apply: eq_sumf => q hq.
    by rewrite !(clid hi) !(clid hq).
  + apply: (hoare_bind (sum2_res ok (res_wf wl))) => s hs; have hs2 := res_num (tmat_expand2 hs).
    have o1 : bcok (mbatch r) (mbatch m) by okt u.
    apply: (hoare_bind (mm_res ok (ta := false) (tb := true) (res_wf wr) (res_wf wm) e2 o1 (mm_side_kfree _ _ _))); rewrite ?kr // => x [hx kx].
    rewrite /= in hx; have o2 : bcok (mbatch l) (bct (mbatch r) (mbatch m)) by okt u.
    have side : mul_side (Nm (t_expand2 s)) x.
      apply: full_mul_num; case: hx hs2 => _ [x1 x2] _ _ [_ [y1 y2] _ _].
      by rewrite /full x1 x2 y1 y2 bcn1 e1 bcnn !eqxx.
    rewrite e1 in hs2; apply: (hoare_bind (mul_res ok hs2 hx (bc1nok _) (bcnokn _) o2 side)) => y [hy ky].
    rewrite bc1n bcnn in hy; apply: hoare_conseq (sum1_res ok hy) _ => z hz.
    have bE : bct (mbatch l) (bct (mbatch r) (mbatch m)) = u.
      by apply: bto_ext => v; rewrite /u LRb // !bto_bct.
    rewrite bE in hz; apply: tvec_ext hz _ => be i hbe hi /=.
    rewrite -e1 -lr_sum_alg'; apply: eq_sumf => q hq.
    by rewrite !(clid hi) !(clid hq).
- have wd := wf_wb_d w; have wlr := wf_wb_lr w; case: (w) => _ /and4P[_ /eqP n1 /eqP n2 o3].
  split; rewrite /=.
  + apply: (hoare_bind (ok_sumax ok wd).1) => x hx; apply: (hoare_bind (ok_sumax ok wlr).1) => y hy.
    rewrite /= in hx; rewrite /= n1 n2 in hy; apply: hoare_conseq (tvec_map2e _ hx hy o3) _ => z hz.
    by apply: tvec_ext hz _ => be i _ _; rewrite -sumf_add.
  + apply: (hoare_bind (ok_sumax ok wd).2) => x hx; apply: (hoare_bind (ok_sumax ok wlr).2) => y hy.
    rewrite /= in hx; rewrite /= n1 n2 in hy; apply: hoare_conseq (tvec_map2e _ hx hy o3) _ => z hz.
    by apply: tvec_ext hz _ => be i _ _; rewrite -sumf_add.
- case: (w) => wl wr o; split; rewrite /sumax_step.
  + apply: (hoare_bind (ok_sumax ok wl).1) => x hx; apply: (hoare_bind (ok_sumax ok wr).1) => y hy.
    apply: (hoare_bind (tmat_map2 _ (tmat_expand1 hx) (tmat_expand2 hy) (bcnok1 _) (bc1nok _) o)) => z hz.
    rewrite bcn1 bc1n in hz; rewrite (shape_batchE w) (shape_matrixE w) !bind_ret.
    apply: hoare_conseq (tmat_reshape_vec hz (n := (mrows l * mrows r)%N) erefl) _ => v hv.
    apply: tvec_ext hv _ => be i hbe hi /=.
    have r0 := mrows_gt0 wr; have h1 : (i %/ mrows r < mrows l)%N by rewrite ltn_divLR.
    have h2 : (i %% mrows r < mrows r)%N by rewrite ltn_mod.
    by rewrite (clid h1) (clid h2) sumf_sumf_mul -sumf_prod_dm.
  + apply: (hoare_bind (ok_sumax ok wl).2) => x hx; apply: (hoare_bind (ok_sumax ok wr).2) => y hy.
    apply: (hoare_bind (tmat_map2 _ (tmat_expand1 hx) (tmat_expand2 hy) (bcnok1 _) (bc1nok _) o)) => z hz.
    rewrite bcn1 bc1n in hz; rewrite (shape_batchE w) (shape_matrixE w) !bind_ret.
    apply: hoare_conseq (tmat_reshape_vec hz (n := (mcols l * mcols r)%N) erefl) _ => v hv.
    apply: tvec_ext hv _ => be i hbe hi /=.
    have r0 := mcols_gt0 wr; have h1 : (i %/ mcols r < mcols l)%N by rewrite ltn_divLR.
    have h2 : (i %% mcols r < mcols r)%N by rewrite ltn_mod.
    by rewrite (clid h1) (clid h2) sumf_sumf_mul -sumf_prod_dm.
Qed.

(** ** total sum *)
Definition total (b : shape) (r c : nat) (f : seq nat -> nat -> nat -> F) : F :=
  sumall b (fun be => sumf r (fun i => sumf c (fun j => f be i j))).
Theorem sumall_ok a : wf a -> hoare (sumall_step self a) (fun t => sh t = [::] /\
    tget t [::] = sumall (mbatch a) (fun be => sumf (mrows a) (fun i => sumf (mcols a) (fun j => ent a be i j)))).
Proof.
case: a => [t|d b r c|t|t|t r c|t|t|l r m|d l r m|l r] w.
- by apply: hoare_ret; split=> //=; rewrite (tmat_sumall (tmat_num w (or_introl erefl))).
- apply: hoare_ret; split=> //=; rewrite -[LHS](sumall0 _ b); apply: eq_sumall => be _.
  by rewrite -[LHS](sumf0 _ r); apply: eq_sumf => i _; rewrite sumf0.
- by apply: hoare_ret; split=> //=; rewrite (tmat_sumall (tmat_num w (or_intror (or_introl erefl)))).
- apply: hoare_ret; split=> //=; rewrite (tvec_sumall (tvec_wfv w)); apply: eq_sumall => be _.
  by apply: eq_sumf => i hi; rewrite (sumf_delta (fun _ => vx t be i)).
- have [c0 r0 p] := posn3 w; apply: hoare_ret; split=> //=.
  rewrite (tsca_sumall (tsca_posn p)) -!sumall_mulr; apply: eq_sumall => be _.
  by rewrite !sumf_const !mulr_natr mulrnAC.
- by apply: hoare_ret; split=> //=; rewrite (tmat_sumall (tmat_num w (or_intror (or_intror (or_introl erefl))))).
- by apply: hoare_ret; split=> //=; rewrite (tmat_sumall (tmat_num w (or_intror (or_intror (or_intror erefl))))).
- have [[wl wr wm] [kl kr km] [e1 e2] [ul ur um]] := lr_facts w; set u := mbatch (LR l r m) in ul ur um.
  have o1 : bcok (mbatch l) (mbatch m) by okt u.
  apply: (hoare_bind (mm_res ok (ta := false) (tb := false) (res_wf wl) (res_wf wm) e1 o1 (mm_side_kfree _ _ _))); rewrite ?kl // => x [hx kx].
  apply: (hoare_bind (sum2_res ok hx)) => s hs; apply: (hoare_bind (ok_sumax ok wr).2) => v hv.
  have o2 : bcok (bct (mbatch l) (mbatch m)) (mbatch r) by okt u.
  rewrite e2 in hv; apply: (hoare_bind (tvec_map2e _ hs hv o2)) => z hz; apply: hoare_ret; split=> //=.
  have bE : bct (bct (mbatch l) (mbatch m)) (mbatch r) = u.
    by apply: bto_ext => b; rewrite /u LRb // !bto_bct // -andbA [bto (mbatch m) b && _]andbC.
  rewrite (tvec_sumall hz) bE; apply: eq_sumall => be hbe; rewrite /= -e2.
  transitivity (sumf (mrows l) (fun i => sumf (mcols r) (fun q => sumf (mcols l) (fun p => ent l be i p * ent m be p q) * sumf (mrows r) (fun j => ent r be j q)))).
    by rewrite sumf_exch; apply: eq_sumf => q _; rewrite -sumf_mulr.
  by apply: eq_sumf => i _; rewrite lr_sum_alg.
- have wd := wf_wb_d w; have wlr := wf_wb_lr w; case: (w) => _ /and4P[_ /eqP n1 /eqP n2 o3].
  rewrite /=; apply: (hoare_bind (ok_sumax ok wd).1) => x hx; apply: (hoare_bind (tvec_sum0 hx)) => x' hx'.
  apply: (hoare_bind (ok_sumax ok wlr).1) => y hy; apply: (hoare_bind (tvec_sum0 hy)) => y' hy'.
  rewrite /= n1 n2 in hy'; rewrite /= in hx'.
  have o4 : bcok (mbatch (LR l r m)) (behead (sh d)) by rewrite bcokC.
  apply: (hoare_bind (tsca_map2 _ hy' hx' o4)) => z hz; apply: hoare_ret; split=> //=.
  rewrite (tsca_sumall hz) /= (bctC o4); apply: eq_sumall => be hbe; rewrite addrC -sumf_add.
  by apply: eq_sumf => i _; rewrite -sumf_add.
- case: (w) => wl wr o; rewrite /=.
  apply: (hoare_bind (ok_sumax ok wl).1) => x hx; apply: (hoare_bind (tvec_sum0 hx)) => x' hx'.
  apply: (hoare_bind (ok_sumax ok wr).1) => y hy; apply: (hoare_bind (tvec_sum0 hy)) => y' hy'.
  apply: (hoare_bind (tsca_map2 _ hx' hy' o)) => z hz; apply: hoare_ret; split=> //=.
  rewrite (tsca_sumall hz); apply: eq_sumall => be hbe.
  rewrite (sumf_prod_dm _ _ (fun i1 i2 => sumf (mcols l * mcols r) (fun j => ent l be i1 (j %/ mcols r) * ent r be i2 (j %% mcols r)))).
  rewrite sumf_sumf_mul; apply: eq_sumf => i _; apply: eq_sumf => j _.
  by rewrite (sumf_prod_dm _ _ (fun j1 j2 => ent l be i j1 * ent r be j j2)) sumf_sumf_mul.
Qed.

(** ** diagonal *)
Lemma minn_mul n x y : (minn (x * n) (y * n) = minn x y * n)%N.
Proof. by rewrite -minnMl. Qed.
Theorem diag_ok a : wf a -> dgok a ->
  hoare (diag_step self a) (fun t => tvec t (minn (mrows a) (mcols a)) (mbatch a) (fun be i => ent a be i i)).
Proof.
case: a => [t|d b r c|t|t|t r c|t|t|l r m|d l r m|l r] w dg.
- exact: tmat_diag_extract (tmat_num w (or_introl erefl)).
- have [c0 r0 pb] := posn3 w; rewrite /diag_step /diag_len (shape_matrixE w) !bind_ret; apply: hoare_ret.
  by apply: tvec_full; rewrite posn_cons leq_min r0 c0.
- exact: tmat_diag_extract (tmat_num w (or_intror (or_introl erefl))).
- by apply: hoare_ret => /=; rewrite minnn; apply: tvec_ext (tvec_wfv w) _ => be i _ _; rewrite eqxx.
- have [c0 r0 p] := posn3 w; rewrite /diag_step /diag_len (shape_matrixE w) !bind_ret.
  have ho : tvec (t_ones (dt t) (minn r c :: sh t)) (minn r c) (sh t) (fun _ _ => (1 : F)).
    by apply: tvec_full; rewrite posn_cons leq_min r0 c0.
  apply: hoare_conseq (tvec_map2_sl _ (tsca_posn p) ho (bcokss _)) _ => z; rewrite bctss => hz.
  by apply: tvec_ext hz _ => be i _ _; rewrite mulr1.
- exact: tmat_diag_extract (tmat_num w (or_intror (or_intror (or_introl erefl)))).
- exact: tmat_diag_extract (tmat_num w (or_intror (or_intror (or_intror erefl)))).
- have [[wl wr wm] [kl kr km] [e1 e2] [ul ur um]] := lr_facts w; set u := mbatch (LR l r m) in ul ur um.
  rewrite /diag_step; apply: hoare_warn_if; rewrite /diag_len (shape_matrixE w) !bind_ret.
  have o1 : bcok (mbatch l) (mbatch m) by okt u.
  apply: (hoare_bind (mm_res ok (ta := false) (tb := false) (res_wf wl) (res_wf wm) e1 o1 (mm_side_kfree _ _ _))); rewrite ?kl // => x [hx kx].
  apply: (hoare_bind (dense_res ok hx)) => x' hx'; apply: (hoare_bind (ok_dense ok wr)) => y hy; rewrite e2 in hy.
  have n0 : (0 < minn (mrows l) (mrows r))%N by rewrite leq_min !mrows_gt0.
  have hx2 := tmat_firstrows hx' n0; have hy2 := tmat_firstrows hy n0.
  rewrite (minn_idPl (geq_minl _ _)) in hx2; rewrite (minn_idPl (geq_minr _ _)) in hy2.
  have o2 : bcok (bct (mbatch l) (mbatch m)) (mbatch r) by okt u.
  apply: (hoare_bind (tmat_map2e _ hx2 hy2 o2)) => z hz; apply: hoare_conseq (tmat_sum0 hz) _ => v hv.
  have bE : bct (bct (mbatch l) (mbatch m)) (mbatch r) = u.
    by apply: bto_ext => b; rewrite /u LRb // !bto_bct // -andbA [bto (mbatch m) b && _]andbC.
  rewrite bE in hv; apply: tvec_ext hv _ => be i _ _ /=; rewrite e2 [RHS]sumf_exch; apply: eq_sumf => q _.
  by rewrite sumf_mulr.
- have wd := wf_wb_d w; have wlr := wf_wb_lr w; case: (w) => _ /and4P[_ /eqP n1 /eqP n2 o3].
  apply: (hoare_bind (ok_diag ok wd isT)) => x hx; apply: (hoare_bind (ok_diag ok wlr isT)) => y hy.
  by rewrite /= in hx; rewrite /= n1 n2 in hy; apply: hoare_conseq (tvec_map2e _ hx hy o3) _.
- case: (w) => wl wr o; case/and3P: (dg) => /eqP sq dl dr; rewrite /=.
  apply: (hoare_bind (align_batch2_ok wl wr o)) => _ [l' [r' [-> hl hr [dl' dr']]]] /=.
  apply: (hoare_bind (diag_res ok hl _)); rewrite ?dl' // => x hx.
  apply: (hoare_bind (diag_res ok hr _)); rewrite ?dr' // => y hy.
  by rewrite sq minnn in hy; rewrite sq -minnMl; apply: hoare_conseq (tvec_kron1 hx hy) _.
Qed.
End DenseOk.
