(** * Termination: matmul and the bound (proof support) *)
From mathcomp Require Import all_ssreflect all_algebra.
From mathcomp Require Import zify.
From Verif Require Import Outcome Monad Shape Tensor Mat Dispatch LookThy Ops Spec MatThy AddOk Term Term2 Term3.
Set Implicit Arguments. Unset Strict Implicit. Unset Printing Implicit Defensive.
Import GRing.Theory.
Local Open Scope nat_scope.
Local Arguments expand_and_broadcast : simpl never.
Local Arguments broadcast : simpl never.

Lemma eqw (w w' r r' n : nat) : w' <= w -> r' < r -> 16 * w + r <= n.+1 -> 16 * w' + r' <= n.
Proof. lia. Qed.
Lemma lr_aux (l r m b x : nat) : 0 < l -> 0 < r -> 0 < m -> 0 < b -> x <= b * r ->
  b * r < (l * r * m).+1 * b /\ (l * x * m).+1 <= (l * r * m).+1 * b.
Proof.
move=> h1 h2 h3 h4 h5; have [q1 q2 q3] := fac3 h1 h2 h3; split; first by rewrite mulnC ltn_pmul2r // ltnS.
apply: (leq_trans (n := (l * (b * r) * m).+1)); first by rewrite ltnS leq_mul2r leq_mul2l h5 !orbT.
have -> : l * (b * r) * m = l * r * m * b by rewrite (mulnC b) mulnA mulnAC.
by rewrite mulSn; move: (_ * b) => k; lia.
Qed.
Lemma ltmuladd (p p' k k' : nat) : p <= k -> p' <= k' -> p * p' < k.+1 * k'.+1.
Proof. by move=> h1 h2; apply: leq_ltn_trans (leq_mul h1 h2) _; nia. Qed.

Section Term.
Variable F : rcfType.
Notation tensor := (tensor F).
Notation mat := (mat F).
Implicit Types (a b l m : mat) (t x y : tensor).
Notation ty1 a := (ty_of_matrix (to_matrix a)).

Lemma th_tr a (t : bool) : gd a -> thoare (tr a t) (fun c => [/\ gd c, wt c <= wt a &
  tag c = (if t && (tag a == 5) then 6 else if t && (tag a == 6) then 5 else tag a)]).
Proof. by case: t => g /=; first exact: th_transp. Qed.
Lemma nr_comp a b ta tb : nrec (assert_composable a b ta tb).
Proof.
have s (c : mat) (t : bool) : nrec (shape_matrix_tr c t) by apply: nr_bind => [|[? ?]] //; apply: nr_sm.
by apply: nr_bind => [|?]; [exact: s|apply: nr_bind => [|?]; [exact: s|exact: nr_require]].
Qed.
Lemma nr_smt (c : mat) (t : bool) : nrec (shape_matrix_tr (F := F) c t).
Proof. by apply: nr_bind => [|[? ?]] //; apply: nr_sm. Qed.

Section Mm.
Variables (self : ops F) (n : nat).
Hypothesis ok : tm n self.

Lemma th_reshape_mat W a ds : 16 * W <= n -> gd a -> wt a < W -> 0 < size ds -> thoare (reshape_mat self a ds) (fun z => ns z).
Proof.
by move=> hW g h hd; apply: nr_bind => // _; apply: nr_bind => [|t]; [exact: th_nr (s_dense ok hW g h)|exact: th_reshape].
Qed.
Lemma th_reshape_rows W a i j : 16 * W <= n -> gd a -> wt a < W -> thoare (reshape_rows self a i j) (fun z => ns z).
Proof. by move=> hW g h; apply: nr_bind => [|?]; [exact: nr_sb|apply: (th_reshape_mat hW)]. Qed.
Lemma th_reshape_cols W a i j : 16 * W <= n -> gd a -> wt a < W -> thoare (reshape_cols self a i j) (fun z => ns z).
Proof.
move=> hW g h; apply: nr_bind => [|?]; first exact: nr_sb.
apply: th_bind (th_transp g) _ => c [gc wc _].
apply: nr_bind => [|?]; last exact: th_transpose.
by apply: th_nr; apply: (th_reshape_mat hW) => //; apply: leq_ltn_trans wc h.
Qed.
Lemma th_kai W a b : 16 * W <= n -> gd a -> gd b -> wt a < W -> wt b < W -> thoare (kron_a_id_b self a b) (fun z => ns z).
Proof.
move=> hW ga gb ha hb; apply: nr_bind => [|?]; first exact: nr_sh. apply: nr_bind => [|?]; first exact: nr_sh.
apply: th_bind (th_reshape_rows _ _ hW gb hb) _ => t nt.
have gt : gd (Nm t) by []. have wt1 : wt (Nm t) = 1 by rewrite /= nt.
apply: th_bind (s_mm ok hW _ _ ga gt _) _ => [|x [gx wx]]; first by rewrite wt1 muln1.
by rewrite wt1 muln1 in wx; apply: (th_reshape_rows _ _ hW) => //; apply: leq_ltn_trans wx ha.
Qed.
Lemma th_kia W a b : 16 * W <= n -> gd a -> gd b -> wt a < W -> wt b < W -> thoare (kron_id_a_b self a b) (fun z => ns z).
Proof.
move=> hW ga gb ha hb; apply: nr_bind => [|?]; first exact: nr_sh. apply: nr_bind => [|?]; first exact: nr_sh.
apply: th_bind (th_reshape_cols _ _ hW gb hb) _ => t nt.
have gt : gd (Nm t) by []. have wt1 : wt (Nm t) = 1 by rewrite /= nt.
apply: th_bind (s_mm ok hW _ _ ga gt _) _ => [|x [gx wx]]; first by rewrite wt1 muln1.
by rewrite wt1 muln1 in wx; apply: (th_reshape_cols _ _ hW) => //; apply: leq_ltn_trans wx ha.
Qed.

Lemma th_mm_mat a b ta tb : gd a -> gd b -> tag a != 0 -> tag b != 0 ->
  16 * (wt a * wt b) + rk_mm (ty_of_matrix a) (ty_of_matrix b) ta tb <= n.+1 ->
  thoare (do i <- lookup mm_table (ty_of_matrix a) (ty_of_matrix b); mm_body self i a b ta tb) (pm a b).
Proof.
move=> ga gb na nb h; rewrite mm_selE.
have rk := rk_mm_b (ty_of_matrix a) (ty_of_matrix b) ta tb.
have [pa_ pb_] := (wt_gt0 a, wt_gt0 b).
have [la_ lb_] : wt a <= wt a * wt b /\ wt b <= wt a * wt b by rewrite leq_pmulr // leq_pmull.
have hW : 16 * (wt a * wt b) <= n by move: h rk; clear; lia.
have hW5 : 16 * (wt a * wt b) + 5 <= n by move: h rk; clear; lia.
have eW (x : nat) : x <= wt a * wt b -> 16 * x + 1 <= n by move: hW5; clear; lia.
have dA : thoare (o_dense self a) (fun t => ns t) by apply: (tk_dense ok) => //; rewrite /fu_1; apply: eW.
have dB : thoare (o_dense self b) (fun t => ns t) by apply: (tk_dense ok) => //; rewrite /fu_1; apply: eW.
have tA : thoare (tr a ta) (fun c => [/\ gd c, wt c <= wt a & tag c = (if ta && (tag a == 5) then 6 else if ta && (tag a == 6) then 5 else tag a)]) by apply: th_tr.
have tB : thoare (tr b tb) (fun c => [/\ gd c, wt c <= wt b & tag c = (if tb && (tag b == 5) then 6 else if tb && (tag b == 6) then 5 else tag b)]) by apply: th_tr.
have ac := nr_comp a b ta tb.
have mmc (a' b' : mat) ta' tb' : gd a' -> gd b' -> wt a' <= wt a -> wt b' <= wt b ->
   rk_mm (ty1 a') (ty1 b') ta' tb' < rk_mm (ty_of_matrix a) (ty_of_matrix b) ta tb -> thoare (o_matmul self a' b' ta' tb') (pm a b).
  move=> ga' gb' wa' wb' hr; have w := leq_mul wa' wb'.
  apply: th_conseq (tk_mm ok ga' gb' _) _ => [|c [gc wc]]; first exact: eqw w hr h.
  by split=> //; apply: leq_trans wc w.
have mlc (a' b' : mat) : gd a' -> gd b' -> wt a' * wt b' <= wt a * wt b -> thoare (o_mul self a' b') (pm a b).
  move=> ga' gb' w; apply: th_conseq (tk_mul ok (gd_gdo ga') (gd_gdo gb') _ _) _ => [||c [gc wc]]; first by rewrite ga'.
    by rewrite /fu_mul; have := rk_mul_b (ty1 a') (ty1 b'); move: w hW5; move: (wt a * wt b) (wt a' * wt b'); clear; lia.
  by split=> //; apply: leq_trans wc w.
have zz d B r c : thoare (ret (@Zero F d B r c)) (pm a b) by apply: th_ret; apply: pm1.
have zL d : thoare (do _ <- assert_composable a b ta tb; do s1 <- shape_matrix_tr a ta; do s2 <- shape_matrix_tr b tb;
      do batch <- shape_batch_broadcast [:: a; b]; ret (Zero d batch s1.1 s2.2)) (pm a b).
  apply: nr_bind => // _; do 2 (apply: nr_bind => [|?]; [exact: nr_smt|]).
  by apply: nr_bind => [|?]; first exact: nr_sbb.
have mkw x y k : (forall z, thoare (k z) (fun c => gd c /\ wt c <= 1)) -> thoare (do z <- t_mul x y; k z) (pm a b).
  move=> hk; apply: nr_bind => [|z]; first exact: th_nr (th_map2 _ _ _).
  by apply: th_conseq (hk z) _ => c; apply: pm1.
have two c : gd c /\ wt c <= 2 -> 1 < wt a -> pm a b c.
  by case=> g w h2; split=> //; apply: leq_trans w _; rewrite (leq_trans h2) // leq_pmulr.
have two' c : gd c /\ wt c <= 2 -> 1 < wt b -> pm a b c.
  by case=> g w h2; split=> //; apply: leq_trans w _; rewrite (leq_trans h2) // leq_pmull.
have sA a' ax : gd a' -> wt a' <= wt a -> nrec (o_sumax self a' ax).
  by move=> g w; apply: (tk_sumax ok) => //; rewrite /fu_1; apply: eW; apply: leq_trans la_.
have sB a' ax : gd a' -> wt a' <= wt b -> nrec (o_sumax self a' ax).
  by move=> g w; apply: (tk_sumax ok) => //; rewrite /fu_1; apply: eW; apply: leq_trans lb_.
have smm a' (b' : mat) ta' tb' := @s_mm F self n _ ok hW a' b' ta' tb'.
have lrg l (r : mat) m : a = LR l r m -> thoare (mm_body self PLRGen a b ta tb) (pm a b).
  move=> ea; have -> : mm_body self PLRGen a b ta tb = do _ <- assert_composable a b ta tb; do a' <- tr a ta; do b' <- tr b tb;
      match a' with
      | LR la ra ma => do x <- o_matmul self b' ra true false; mk_lowrank la (Some x) (Some ma)
      | _ => Raise AttributeError
      end by rewrite ea.
  apply: nr_bind => // _.
  apply: th_bind tA _ => a' [ga' wa' ea'].
  have {}ea' : tag a' = 7 by move: ea'; rewrite ea /= !andbF.
  apply: th_bind tB _ => b' [gb' wb' _].
  case: a' ga' wa' ea' => // l' r' m' /and3P[gl' gr' gm'] wa' _.
  have [p1 p2 p3] := lr_weights l' r' m'.
  have [q1 _] := lr_aux p1 p2 p3 (wt_gt0 b') (leqnn _).
  have w : wt (LR l' r' m') * wt b' <= wt a * wt b by apply: leq_mul.
  apply: th_bind (smm _ _ _ _ gb' gr' _) _ => [|z [gz wz]]; first by apply: leq_trans q1 w.
  apply: th_conseq (th_mk_lowrank _ _ _) _ => c ->; split; first by apply/and3P.
  by apply: leq_trans w; have [_] := lr_aux p1 p2 p3 (wt_gt0 b') wz.
have glr l (r : mat) m : b = LR l r m -> thoare (mm_body self PGenLR a b ta tb) (pm a b).
  move=> eb; have -> : mm_body self PGenLR a b ta tb = do _ <- assert_composable a b ta tb; do a' <- tr a ta; do b' <- tr b tb;
      match b' with
      | LR lb rb mb => do x <- o_matmul self a' lb false false; mk_lowrank x (Some rb) (Some mb)
      | _ => Raise AttributeError
      end by rewrite eb; case: (a).
  apply: nr_bind => // _; apply: th_bind tA _ => a' [ga' wa' _].
  apply: th_bind tB _ => b' [gb' wb' eb']; have {}eb' : tag b' = 7 by move: eb'; rewrite eb /= !andbF.
  case: b' gb' wb' eb' => // l' r' m' /and3P[gl' gr' gm'] wb' _.
  have [p1 p2 p3] := lr_weights l' r' m'.
  have [q1 _] := lr_aux p2 p1 p3 (wt_gt0 a') (leqnn _).
  have w : wt a' * wt (LR l' r' m') <= wt a * wt b by apply: leq_mul.
  have e : wt a' * wt (LR l' r' m') = (wt r' * wt l' * wt m').+1 * wt a' by rewrite mulnC /= (mulnC (wt r')).
  apply: th_bind (smm _ _ _ _ ga' gl' _) _ => [|z [gz wz]]; first by apply: leq_trans w; rewrite e.
  apply: th_conseq (th_mk_lowrank _ _ _) _ => c ->; split; first by apply/and3P.
  apply: leq_trans w; rewrite e; have [_] := lr_aux p2 p1 p3 (wt_gt0 a') wz.
  by rewrite /= (mulnC (wt z)).
have wA (x : mat) : gd x -> wt x < wt a * wt b -> thoare (o_dense self x) (fun t => ns t) := fun g h0 => s_dense ok hW g h0.
have rkE : rk_mm (ty_of_matrix a) (ty_of_matrix b) ta tb = rk_mm (ty1 a) (ty1 b) ta tb by case: (a) na => // *; case: (b) nb.
have rk1 (x : mat) : tag x != 0 -> ty1 x = ty_of_matrix x by case: x.
have ltg : (tag a == 5) || (tag a == 6) -> thoare (mm_body self PLTGen a b ta tb) (pm a b).
  move=> ha; have e : mm_body self PLTGen a b ta tb = do _ <- warn_if (structured b); do x <- o_dense self a; o_matmul self (Nm x) b ta tb.
    by case: (a).
  rewrite e; apply: nr_bind => // _; apply: th_bind dA _ => x nx.
  have gx : gd (Nm x) by []. have wx : wt (Nm x) <= wt a by rewrite /= nx.
  have hx : ty1 (Nm x) = TDense by move: nx; rewrite /= /convert_num /ns; case: (sh x).
  apply: mmc => //; rewrite rkE hx.
  by case: (a) ha => // *; case: (ty1 b); case: (ta); case: (tb).
have glt : (tag b == 5) || (tag b == 6) -> thoare (mm_body self PGenLT a b ta tb) (pm a b).
  move=> ha; have e : mm_body self PGenLT a b ta tb = do _ <- warn_if (structured a); do y <- o_dense self b; o_matmul self a (Nm y) ta tb.
    by case: (a).
  rewrite e; apply: nr_bind => // _; apply: th_bind dB _ => x nx.
  have gx : gd (Nm x) by []. have wx : wt (Nm x) <= wt b by rewrite /= nx.
  have hx : ty1 (Nm x) = TDense by move: nx; rewrite /= /convert_num /ns; case: (sh x).
  apply: mmc => //; rewrite rkE hx.
  by case: (b) ha => // *; case: (ty1 a); case: (ta); case: (tb).
(* transposing one triangular operand first *)
have trr : ta || tb -> ((tag a == 5) || (tag a == 6)) && ((tag b == 5) || (tag b == 6)) ->
    thoare (do a' <- tr a ta; do b' <- tr b tb; o_matmul self a' b' false false) (pm a b).
  move=> ht /andP[h1 h2]; apply: th_bind tA _ => a' [ga' wa' ea']; apply: th_bind tB _ => b' [gb' wb' eb'].
  apply: mmc => //; rewrite rkE.
  have : (tag a' == 5) || (tag a' == 6) by rewrite ea'; case: (ta) => //; move: h1; case/orP=> /eqP->.
  have : (tag b' == 5) || (tag b' == 6) by rewrite eb'; case: (tb) => //; move: h2; case/orP=> /eqP->.
  by case: b' {eb' gb' wb'} => // ?; case: a' {ea' ga' wa'} => // ? _ _; case: (a) h1 => // ? _; case: (b) h2 => // ? _; move: ht; case: (ta); case: (tb).
have tdl (mk : mat -> outcome mat) x : wt a = 1 -> wt b = 1 -> a = LT x \/ a = UT x -> tag b = 3 ->
    (forall z, gd z -> wt z <= 1 -> thoare (mk z) (pm a b)) ->
    thoare (if ~~ ta then do z <- o_matmul self (Nm x) b false false; mk z else do a' <- tr a ta; o_matmul self a' b false false) (pm a b).
  move=> wa1 wb1 ea eb hk; case: ifP => hta; last first.
    have {}hta : ta by move: hta; case: (ta).
    apply: th_bind tA _ => a' [ga' wa' ea']; apply: mmc => //; rewrite rkE.
    have : (tag a' == 5) || (tag a' == 6) by rewrite ea' hta; case: ea => ->.
    by case: a' {ea' ga' wa'} => // ? _; case: ea => ->; case: (b) eb => // ? _; rewrite hta; case: (tb).
  have nx : ns x by case: ea ga => ->.
  have hx : ty1 (Nm x) = TDense by move: nx; rewrite /= /convert_num /ns; case: (sh x).
  have gx : gd (Nm x) by []. have wx : wt (Nm x) <= wt a by rewrite /= nx wa1.
  have H : thoare (o_matmul self (Nm x) b false false) (pm a b).
    apply: mmc => //; rewrite rkE hx; case: ea => ->; case: (b) eb => // ? _; by case: (ta); case: (tb).
  by apply: th_bind H _ => z [gz]; rewrite wa1 wb1 => wz; apply: hk.
have tdr (mk : mat -> outcome mat) x : wt a = 1 -> wt b = 1 -> b = LT x \/ b = UT x -> tag a = 3 ->
    (forall z, gd z -> wt z <= 1 -> thoare (mk z) (pm a b)) ->
    thoare (if ~~ tb then do z <- o_matmul self a (Nm x) false false; mk z else do b' <- tr b tb; o_matmul self a b' false false) (pm a b).
  move=> wa1 wb1 ea eb hk; case: ifP => hta; last first.
    have {}hta : tb by move: hta; case: (tb).
    apply: th_bind tB _ => a' [ga' wa' ea']; apply: mmc => //; rewrite rkE.
    have : (tag a' == 5) || (tag a' == 6) by rewrite ea' hta; case: ea => ->.
    by case: a' {ea' ga' wa'} => // ? _; case: ea => ->; case: (a) eb => // ? _; rewrite hta; case: (ta).
  have nx : ns x by case: ea gb => ->.
  have hx : ty1 (Nm x) = TDense by move: nx; rewrite /= /convert_num /ns; case: (sh x).
  have gx : gd (Nm x) by []. have wx : wt (Nm x) <= wt b by rewrite /= nx wb1.
  have H : thoare (o_matmul self a (Nm x) false false) (pm a b).
    apply: mmc => //; rewrite rkE hx; case: ea => ->; case: (a) eb => // ? _; by case: (ta); case: (tb).
  by apply: th_bind H _ => z [gz]; rewrite wa1 wb1 => wz; apply: hk.
have mkl z : gd z -> wt z <= 1 -> thoare (mk_lt_mat self z) (pm a b).
  move=> gz wz; apply: nr_bind => [|_]; first exact: nr_am.
  apply: th_bind (tk_dense ok gz _) _ => [|t nt]; last by apply: th_ret; apply: pm1; rewrite /= nt.
  by rewrite /fu_1; apply: eW; apply: leq_trans wz _; rewrite muln_gt0 pa_.
have mku z : gd z -> wt z <= 1 -> thoare (mk_ut_mat self z) (pm a b).
  move=> gz wz; apply: nr_bind => [|_]; first exact: nr_am.
  apply: th_bind (tk_dense ok gz _) _ => [|t nt]; last by apply: th_ret; apply: pm1; rewrite /= nt.
  by rewrite /fu_1; apply: eW; apply: leq_trans wz _; rewrite muln_gt0 pa_.
have w3 L z z' c : wt a * wt b = L.+1 * c -> 0 < c -> 1 < L -> gd z -> gd z' -> wt z <= c -> wt z' <= L * c -> thoare (o_add self z z') (pm a b).
  move=> e c0 L1 gz gz' wz wz'; rewrite e in hW5.
  have hW3 : 16 * (L.+1 * c) + 3 <= n by move: hW5; clear; lia.
  apply: th_conseq (tk_add ok (gd_gdo gz) (gd_gdo gz') _ _) _ => [||d [gc wc _]].
  - by rewrite gz.
  - exact: (wb_aux1 wz wz' hW3 (rk_add_b _ _)).
  - by split=> //; rewrite e; exact: (wb_aux2 wz wz' c0 L1 wc).
have wg d l (r : mat) m : a = Wb d l r m -> thoare (mm_body self PWbGen a b ta tb) (pm a b).
  move=> ea; have eL : wt a = (wt (LR l r m)).+1 by rewrite ea.
  have [gD gL] : gd (Diag d) /\ gd (LR l r m) by move: ga; rewrite ea => /andP[].
  have wL := lr_w2 l r m.
  have -> : mm_body self PWbGen a b ta tb = do x <- o_matmul self (wb_diag d) b ta tb;
      do y <- o_matmul self (wb_lr l r m) b ta tb; o_add self x y by rewrite ea.
  apply: th_bind (smm _ _ _ _ gD gb _) _ => [|z [gz wz]].
    by rewrite mul1n eL; move: (wt (LR l r m)) (wt b) wL pb_; clear => u v; nia.
  apply: th_bind (smm _ _ _ _ gL gb _) _ => [|z' [gz' wz']].
    by rewrite eL; apply: ltmulS2.
  by rewrite mul1n in wz; apply: (w3 (wt (LR l r m)) z z' (wt b)) => //; rewrite eL.
have gw d l (r : mat) m : b = Wb d l r m -> thoare (mm_body self PGenWb a b ta tb) (pm a b).
  move=> ea; have eL : wt b = (wt (LR l r m)).+1 by rewrite ea.
  have [gD gL] : gd (Diag d) /\ gd (LR l r m) by move: gb; rewrite ea => /andP[].
  have wL := lr_w2 l r m.
  have -> : mm_body self PGenWb a b ta tb = do x <- o_matmul self a (wb_diag d) ta tb;
      do y <- o_matmul self a (wb_lr l r m) ta tb; o_add self x y by rewrite ea; case: (a).
  apply: th_bind (smm _ _ _ _ ga gD _) _ => [|z [gz wz]].
    by rewrite muln1 eL; move: (wt (LR l r m)) (wt a) wL pa_; clear => u v; nia.
  apply: th_bind (smm _ _ _ _ ga gL _) _ => [|z' [gz' wz']].
    by rewrite eL mulnC [_ * _.+1]mulnC; apply: ltmulS2.
  rewrite muln1 in wz; rewrite mulnC in wz'; apply: (w3 (wt (LR l r m)) z z' (wt a)) => //; by rewrite eL mulnC.
have dgn x : a = Diag x -> thoare (mm_body self PDiagGen a b ta tb) (pm a b).
  move=> ea; have -> : mm_body self PDiagGen a b ta tb = do _ <- assert_composable a b ta tb;
      do b' <- tr b tb; o_mul self (mk_dense (t_expand1 x)) b' by rewrite ea.
  apply: nr_bind => // _; apply: th_bind tB _ => b' [gb' wb' _]; have [g1 w1] := gd_dense (t_expand1 x).
  by apply: mlc => //; apply: leq_mul => //; apply: leq_trans pa_.
have gdg x : b = Diag x -> thoare (mm_body self PGenDiag a b ta tb) (pm a b).
  move=> ea; have -> : mm_body self PGenDiag a b ta tb = do _ <- assert_composable a b ta tb;
      do a' <- tr a ta; o_mul self a' (mk_dense (t_expand2 x)) by rewrite ea; case: (a).
  apply: nr_bind => // _; apply: th_bind tA _ => b' [gb' wb' _]; have [g1 w1] := gd_dense (t_expand2 x).
  by apply: mlc => //; apply: leq_mul => //; apply: leq_trans pb_.
have lr2 (x y m : tensor) M : ns x -> ns y -> gd M -> wt M <= 1 -> thoare (mk_lowrank (Nm x) (Some (Nm y)) (Some M)) (fun c => gd c /\ wt c <= 2).
  move=> nx ny gM wM; apply: th_conseq (th_mk_lowrank _ _ _) _ => c ->; split; first by apply/and3P.
  by rewrite /= nx ny mul1n mul1n ltnS.
have cg x r c : a = Const x r c -> thoare (mm_body self PConstGen a b ta tb) (pm a b).
  move=> ea; have -> : mm_body self PConstGen a b ta tb = do _ <- assert_composable a b ta tb;
      do a' <- tr a ta; do b' <- tr b tb;
      match a' with
      | Const x r _ =>
          do s <- o_sumax self b' false; do m <- fill_diag x 1;
          mk_lowrank (Nm (t_ones (dt x) [:: 1%N; r])) (Some (Nm (t_expand1 s))) (Some m)
      | _ => Raise AttributeError
      end by rewrite ea.
  apply: nr_bind => // _; apply: th_bind tA _ => a' [_ _ _]; apply: th_bind tB _ => b' [gb' wb' _].
  case: a' => // x' r' _; apply: nr_bind => [|s]; first exact: sB.
  apply: th_bind (th_fill_diag _ _) _ => M [gM wM].
  by apply: th_conseq (lr2 _ _ x _ _ _ gM wM) _ => // c'; move/two; apply; rewrite ea.
have gc x r c : b = Const x r c -> thoare (mm_body self PGenConst a b ta tb) (pm a b).
  move=> ea; have -> : mm_body self PGenConst a b ta tb = do _ <- assert_composable a b ta tb;
      do a' <- tr a ta; do b' <- tr b tb;
      match b' with
      | Const y _ c =>
          do s <- o_sumax self a' true; do m <- fill_diag y 1;
          mk_lowrank (Nm (t_expand1 s)) (Some (Nm (t_ones (dt y) [:: 1%N; c]))) (Some m)
      | _ => Raise AttributeError
      end by rewrite ea; case: (a).
  apply: nr_bind => // _; apply: th_bind tA _ => a' [ga' wa' _]; apply: th_bind tB _ => b' [_ _ _].
  case: b' => // x' _ c'; apply: nr_bind => [|s]; first exact: sA.
  apply: th_bind (th_fill_diag _ _) _ => M [gM wM].
  by apply: th_conseq (lr2 _ _ x _ _ _ gM wM) _ => // d'; move/two'; apply; rewrite ea.
have kg l (r : mat) : a = Kron l r -> thoare (mm_body self PKronGen a b ta tb) (pm a b).
  move=> ea; have -> : mm_body self PKronGen a b ta tb = do _ <- assert_composable a b ta tb;
      do a' <- tr a ta; do b' <- tr b tb;
      match a' with
      | Kron kl kr =>
          do ' (l_rows, l_cols) <- shape_matrix kl;
          do ' (r_rows, r_cols) <- shape_matrix kr;
          let cost_first_left := (l_rows * l_cols * r_cols + r_rows * r_cols * l_rows)%N in
          let cost_first_right := (r_rows * r_cols * l_cols + l_rows * l_cols * r_rows)%N in
          if (cost_first_left <= cost_first_right)%N then
            do x <- kron_a_id_b self kl b'; do y <- kron_id_a_b self kr (Nm x); ret (convert_num y)
          else
            do x <- kron_id_a_b self kr b'; do y <- kron_a_id_b self kl (Nm x); ret (convert_num y)
      | _ => Raise AttributeError
      end by rewrite ea.
  apply: nr_bind => // _; apply: th_bind tA _ => a' [ga' wa' _]; apply: th_bind tB _ => b' [gb' wb' _].
  case: a' ga' wa' => // kl kr /andP[gl gr] wk.
  have [wl [wr wb1]] : wt kl < wt a * wt b /\ wt kr < wt a * wt b /\ wt b' < wt a * wt b.
    have := (wt_gt0 kl, wt_gt0 kr); move: wk wb' pb_ la_; rewrite /=; move: (wt kl) (wt kr) (wt a) (wt b) (wt b').
    by clear => u v w z1 z2 h1 h2 h3 h4 [h5 h6]; split; [|split]; nia.
  have cn y : ns y -> pm a b (convert_num y) by move=> ny; apply: pm1; move: (gd_dense y); rewrite /convert_num; move: ny; rewrite /ns; case: (sh y).
  have Nx x : ns x -> gd (Nm x) /\ wt (Nm x) < wt a * wt b.
    by move=> nx; split=> //; rewrite /= nx; apply: leq_ltn_trans wl; exact: wt_gt0.
  apply: nr_bind => [|[lr lc]]; first exact: nr_sm. apply: nr_bind => [|[rr rc]]; first exact: nr_sm.
  cbv zeta; case: ifP => _.
    apply: th_bind (th_kai hW gl gb' wl wb1) _ => x /Nx[gx wx].
    by apply: th_bind (th_kia hW gr gx wr wx) _ => y ny; apply: th_ret; apply: cn.
  apply: th_bind (th_kia hW gr gb' wr wb1) _ => x /Nx[gx wx].
  by apply: th_bind (th_kai hW gl gx wl wx) _ => y ny; apply: th_ret; apply: cn.
have gk l (r : mat) : b = Kron l r -> tag a = 2 -> thoare (mm_body self PGenKron a b ta tb) (pm a b).
  move=> eb ea; have -> : mm_body self PGenKron a b ta tb = do x <- o_matmul self b a (~~ tb) (~~ ta); transpose x.
    by rewrite eb; case: (a).
  apply: th_bind (tk_mm ok gb ga _) _ => [|z [gz wz]].
    rewrite /fu_mm (mulnC (wt b)); move: h; have : rk_mm (ty1 b) (ty1 a) (~~ tb) (~~ ta) < rk_mm (ty_of_matrix a) (ty_of_matrix b) ta tb.
      by rewrite eb; case: (a) ea => // ? _; case: (ta); case: (tb).
    by move: (rk_mm _ _ _ _) (rk_mm _ _ _ _) (wt a * wt b); clear; lia.
  apply: th_conseq (th_transp gz) _ => c [gc' wc _]; split=> //; apply: leq_trans wc _; by rewrite mulnC.
case: a ga na h rk pa_ la_ lb_ hW hW5 eW dA tA ac mmc mlc zz zL mkw two two' sA sB smm lrg glr wA rkE rk1 ltg glt trr tdl tdr mkl mku w3 wg gw dgn gdg lr2 cg gc kg gk
   => [x|d br r c|x|x|x r c|x|x|la ra ma|d la ra ma|la ra] ga na; [by []|..];
  (case: b gb nb pb_ dB tB => [y|d' b' r' c'|y|y|y r' c'|y|y|lb rb mb|d' lb rb mb|lb rb] gb nb pb_ dB tB
    h rk pa_ la_ lb_ hW hW5 eW dA tA ac mmc mlc zz zL mkw two two' sA sB smm lrg glr wA rkE rk1 ltg glt trr tdl tdr mkl mku w3 wg gw dgn gdg lr2 cg gc kg gk; [by []|..]); look;
  lazymatch goal with |- thoare (mm_body _ ?i _ _ _ _) _ => lazymatch i with
  | PZeroL => exact: zL | PZeroR => exact: zL
  | PDense => (apply: th_bind (th_matmul _ _ _ _) _ => z nz; apply: th_ret; apply: pm1; exact: gd_dense)
  | PDiag => (apply: nr_bind => [|_]; [exact: ac|apply: mkw => z; exact: th_mk_diag])
  | PDiagGen => exact: (dgn _ erefl) | PGenDiag => exact: (gdg _ erefl)
  | PConstGen => exact: (cg _ _ _ erefl) | PGenConst => exact: (gc _ _ _ erefl)
  | PLTGen => exact: ltg | PGenLT => exact: glt
  | PLTDiag => apply: (tdl (mk_lt_mat self) x erefl erefl (or_introl erefl) erefl mkl)
  | PUTDiag => apply: (tdl (mk_ut_mat self) x erefl erefl (or_intror erefl) erefl mku)
  | PDiagLT => apply: (tdr (mk_lt_mat self) y erefl erefl (or_introl erefl) erefl mkl)
  | PDiagUT => apply: (tdr (mk_ut_mat self) y erefl erefl (or_intror erefl) erefl mku)
  | PLRGen => exact: (lrg _ _ _ erefl) | PGenLR => exact: (glr _ _ _ erefl)
  | PWbGen => exact: (wg _ _ _ _ erefl) | PGenWb => exact: (gw _ _ _ _ erefl)
  | PKronGen => exact: (kg _ _ erefl) | PGenKron => exact: (gk _ _ erefl erefl)
  | _ => idtac
  end end.
all: clear lrg glr ltg glt tdl tdr wg gw dgn gdg cg gc kg gk w3.
- (* PDiagKron *) apply: nr_bind => // _; apply: th_bind dB _ => t nt.
  have gt : gd (Nm t) by []. have wt1 : wt (Nm t) = 1 by rewrite /= nt.
  apply: th_conseq (smm _ _ _ _ ga gt _) _ => [|c [gc' wc]].
    by rewrite wt1 /=; have := wt_gt0 lb; clear; lia.
  by rewrite wt1 in wc; apply: pm1.
- (* PConst *) apply: nr_bind => // _; apply: th_bind tA _ => a' [_ _ _]; apply: th_bind tB _ => b' [_ _ _].
  case: a' => // x' r1 c1; case: b' => // y' r2 c2.
  apply: nr_bind => [|z]; first exact: th_nr (th_map2 _ _ _).
  by apply: th_conseq (th_mk_const _ _) _ => c3 h3; apply: two.
- (* PConstLR *) apply: th_bind (th_const_lr _ _ _) _ => a' [ga' wa' ea'].
  apply: mmc => //; first by rewrite wa'.
  by case: a' {ga' wa'} ea' => // ? ? ? _; case: (ta); case: (tb).
- (* PLT *) rewrite /mm_body; case: ifP => ht.
    by apply: th_bind (th_matmul _ _ _ _) _ => z nz; apply: th_conseq (th_mk_lt _) _ => c'; apply: pm1.
  by apply: trr => //; move: ht; case: (ta); case: (tb).
- (* PUT *) rewrite /mm_body; case: ifP => ht.
    by apply: th_bind (th_matmul _ _ _ _) _ => z nz; apply: th_conseq (th_mk_ut _) _ => c'; apply: pm1.
  by apply: trr => //; move: ht; case: (ta); case: (tb).
- (* PLRConst *) apply: th_bind (th_const_lr _ _ _) _ => b1 [gb1 wb1 eb1].
  apply: mmc => //; first by rewrite wb1.
  by case: b1 {gb1 wb1} eb1 => // ? ? ? _; case: (ta); case: (tb).
- (* PLR *) apply: nr_bind => // _; apply: th_bind tA _ => a' [ga' wa' ea']; apply: th_bind tB _ => b1 [gb1 wb1 eb1].
  rewrite /= !andbF in ea'; rewrite /= !andbF in eb1.
  case: a' ga' wa' ea' => // l1 r1 m1 /and3P[gl1 gr1 gm1] wa' _.
  case: b1 gb1 wb1 eb1 => // l2 r2 m2 /and3P[gl2 gr2 gm2] wb1 _.
  have [p1 p2 p3] := lr_weights l1 r1 m1; have [q1 q2 q3] := fac3 p1 p2 p3.
  have [p1' p2' p3'] := lr_weights l2 r2 m2; have [q1' q2' q3'] := fac3 p1' p2' p3'.
  have w := leq_mul wa' wb1.
  have w1 : wt r1 * wt l2 < wt (LR la ra ma) * wt (LR lb rb mb) by apply: leq_trans w; apply: ltmuladd.
  apply: th_bind (smm _ _ _ _ gr1 gl2 w1) _ => z [gz wz].
  have e2 : wt m1 * wt z * wt m2 <= (wt r1 * wt m1) * (wt l2 * wt m2).
    by apply: leq_trans (_ : wt m1 * (wt r1 * wt l2) * wt m2 <= _); [rewrite !leq_mul2r leq_mul2l wz !orbT|rewrite mulnCA !mulnA].
  have [f1 f2] : wt r1 * wt m1 <= wt l1 * wt r1 * wt m1 /\ wt l2 * wt m2 <= wt l2 * wt r2 * wt m2.
    by split; [rewrite -mulnA leq_pmull|rewrite mulnAC leq_pmulr].
  have w2 : wt m1 * wt z * wt m2 < wt (LR la ra ma) * wt (LR lb rb mb).
    by apply: leq_trans w; apply: leq_ltn_trans e2 _; apply: ltmuladd.
  apply: th_bind (s_mm3 ok hW _ _ _ gm1 gz gm2 w2) _ => M [gM wM].
  apply: nr_bind => [|s]; first exact: nr_sm.
  have H : thoare (if s == (1, 1) then do t <- getitem_dense self M; do x <- t_get00 t; mk_diag (t_expand1 x) else ret M)
     (fun c => gd c /\ wt c <= (wt r1 * wt m1) * (wt l2 * wt m2)).
    case: ifP => _; last by apply: th_ret; split=> //; apply: leq_trans wM e2.
    apply: nr_bind => [|t]; first by apply: nr_bind => // _; apply: th_nr (wA _ gM (leq_ltn_trans wM w2)).
    apply: nr_bind => [|t']; first exact: nr_get00.
    by apply: th_conseq (th_mk_diag _) _ => c [gc' wc]; split=> //; apply: leq_trans wc _; rewrite !muln_gt0 p2 p3 p1' p3'.
  apply: th_bind H _ => M' [gM' wM'].
  apply: th_conseq (th_mk_lowrank _ _ _) _ => c ->; split; first by apply/and3P.
  apply: leq_trans w; rewrite [wt (LR l1 r2 M')]/= [wt (LR l1 r1 m1)]/= [wt (LR l2 r2 m2)]/=.
  move: wM'; move: (wt l1) (wt r2) (wt M') (wt r1) (wt m1) (wt l2) (wt m2); clear => u v w x y z k h.
  apply: (leq_trans (n := (u * v * (x * y * (z * k))).+1)); first by rewrite ltnS leq_mul2l h orbT.
  have -> : u * v * (x * y * (z * k)) = u * x * y * (z * v * k) by rewrite -!mulnA; congr (_ * _); rewrite mulnCA; congr (_ * _); rewrite mulnCA; congr (_ * _); rewrite mulnCA.
  by move: (u * x * y) (z * v * k) => A B; nia.
- (* PKronDiag *) apply: nr_bind => // _; apply: th_bind dA _ => t nt.
  have gt : gd (Nm t) by []. have wt1 : wt (Nm t) = 1 by rewrite /= nt.
  apply: th_conseq (smm _ _ _ _ gt gb _) _ => [|c [gc' wc]].
    by rewrite wt1 /=; have := wt_gt0 la; clear; lia.
  by rewrite wt1 in wc; apply: pm1.
- (* PKron *)
  case/andP: ga => gla gra; case/andP: gb => glb grb.
  do 2 (apply: nr_bind => [|_]; [exact: nr_comp|]).
  have [k1 k2] : wt la * wt lb < wt (Kron la ra) * wt (Kron lb rb) /\ wt ra * wt rb < wt (Kron la ra) * wt (Kron lb rb).
    by rewrite /=; move: (wt la) (wt lb) (wt ra) (wt rb); clear => u v w z; split; nia.
  apply: th_bind (smm _ _ _ _ gla glb k1) _ => z [gz wz].
  apply: th_bind (smm _ _ _ _ gra grb k2) _ => z' [gz' wz'].
  apply: th_ret; split; first by rewrite /= gz.
  move: wz wz'; rewrite /=; move: (wt la) (wt lb) (wt ra) (wt rb) (wt z) (wt z'); clear => u v w z1 a1 a2; nia.
Qed.
End Mm.
End Term.
