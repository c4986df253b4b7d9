(** * C24, C28: functions of plain arrays *)
From mathcomp Require Import all_ssreflect all_algebra zify.
From Verif Require Import Outcome Monad Shape Tensor Mat Dispatch Ops Spec ShapeThy TensorThy TensorThy2 MatThy OpsOk DenseOk OpsMain Api Calm Bridge Samples PyShape Ops2 SumThy Block BlockThy PropsBlock Backend SpecLA LinAlg MxThy Solve PropsNumpy.
Set Implicit Arguments. Unset Strict Implicit. Unset Printing Implicit Defensive.
Import GRing.Theory.
Local Open Scope ring_scope.

Section Arrays.
Variable F : rcfType.
Notation tensor := (tensor F).
Notation mat := (mat F).
Notation t0 := (t_scalar DInt 0 : tensor).
Implicit Types (o : ops F).

(** ** block_diag of one array *)
Lemma t_bd_tail (ts es : seq tensor) (hs ws : seq nat) b (gs : nat -> seq nat -> nat -> nat -> F) :
  (0 < size hs)%N -> size es = size hs -> size ws = size hs -> aligned ts = ret es ->
  (forall k, (k < size hs)%N -> tmat (nth t0 es k) (nth 0%N hs k) (nth 0%N ws k) b (gs k)) ->
  exists2 z, t_block_diag ts = ret z & tm0 z (sumn hs) (sumn ws) b (fun be i j =>
    if (loc hs i).1 == (loc ws j).1 then gs (loc hs i).1 be (loc hs i).2 (loc ws j).2 else 0).
Proof.
move=> n0 se s2 A H.
have R k : (k < size hs)%N -> is_res (Nm (nth t0 es k)) (nth 0%N hs k) (nth 0%N ws k) b (gs k).
  by move=> hk; exact: res_num (H k hk).
rewrite /t_block_diag A bind_ret (@mapM_eq _ _ t0 (0,0)%N _ _ (zip hs ws)); last 2 first.
- by rewrite size_zip s2 minnn.
- move=> k; rewrite se => hk; have [w [m1 m2] _ _] := R k hk; rewrite shape_matrixE // m1 m2.
  by rewrite nth_zip.
rewrite bind_ret; case Ees: es => [|e0 es']; first by rewrite Ees /= in se; rewrite -se in n0.
rewrite -Ees shape_batchE; last by have := R 0%N n0; rewrite Ees => -[].
have -> : mbatch (Nm e0) = b by have := R 0%N n0; rewrite Ees => -[].
have -> : sumn (map snd (zip hs ws)) = sumn ws by rewrite -/(unzip2 _) unzip2_zip // s2.
rewrite bind_ret; have [|zs -> [sz hz]] := @bd_rows_ok _ (dt e0) b (sumn ws) 0 es hs ws gs se s2 erefl.
  by move=> k hk; apply: tmat_tm0; exact: H.
rewrite bind_ret; have [z -> hzz] := tm0_concat2 n0 sz hz; exists z => //.
apply: tm0_ext hzz _ => be i j _ hi hj; rewrite !add0n; set p := (loc hs i).1.
have [l1 l2] := loc_lt hi; have [l3 l4] := loc_lt hj.
have -> : (sumn (take p ws) <= j < sumn (take p.+1 ws))%N = (p == (loc ws j).1).
  rewrite leqNgt -!loc_pre ?s2 //; last exact: ltnW.
  by rewrite -leqNgt ltnS eqn_leq andbC.
case: eqP => // e; rewrite e; congr (gs _ _ _ _); rewrite {1}(loc_eq ws j); lia.
Qed.
Lemma aligned1 (t : tensor) : wf (Nm t) -> exists2 u, aligned [:: t] = t_iter u &
  tmat u (trows t) (tcols t) (tbatch t) (mx t).
Proof.
move=> w; have U : t_uprank t = t by move: w; rewrite /= /wft /trank /t_uprank; case: (sh t) => [|? [|? ?]].
have [||Eb pb] := @sbb_ok _ [:: Nm t] (tbatch t) isT; first by case.
  by move=> v; rewrite /= andbT U.
have [|x Ex [[wx [r1 r2] r3 r4] _ tx]] := calm_hoare (cm_bb (Nm t) _) (broadcast_batch_ok w pb _).
  by rewrite /= U bto_refl.
rewrite /= U in r1 r2 r4; case: x Ex wx r1 r2 r3 r4 tx => // u Ex wu r1 r2 r3 r4 _; exists u.
  by rewrite /aligned /align_batch Eb bind_ret -[mapM _ _]/(do y <- broadcast_batch_to (Nm t) (tbatch t); do ys <- ret [::]; ret (y :: ys)) Ex !bind_ret.
by have h := tmat_num wu (or_introl erefl); rewrite r1 r2 r3 in h; exact: tmat_ext h r4.
Qed.
Lemma loc_nseq d r i : (0 < r)%N -> (i < d * r)%N -> loc (nseq d r) i = (i %/ r, i %% r)%N.
Proof.
move=> h; elim: d i => [|d IH] i; first by rewrite mul0n ltn0.
rewrite mulSn -[loc _ _]/(if (i < r)%N then (0, i)%N else ((loc (nseq d r) (i - r)).1.+1, (loc (nseq d r) (i - r)).2)) => lt.
case: ltnP => hi; first by rewrite divn_small // modn_small.
have e := subnK hi; move: (i - r)%N e lt {hi} (IH (i - r)%N) => k <- lt -> /=; last by move: lt; rewrite addnC ltn_add2l.
by rewrite divnDr ?dvdnn // divnn h addn1 modnDr.
Qed.

Lemma inb_rcons (b : shape) d ix k : inb b ix -> (k < d)%N -> inb (rcons b d) (rcons ix k).
Proof. by elim: b ix => [|x b IH] [|i ix] //=; [move=> _ ->|move=> /andP[-> h] /IH->]. Qed.

(** A single array of shape [d, ..., r, c] is read as the list of its [d] slices along the first axis, which
    become the blocks. *)
Theorem C24_block_diag_array o (t : tensor) (d : nat) (s : seq nat) (r c : nat) :
  pshape t = d :: s ++ [:: r; c] -> (forall n, n \in pshape t -> (0 < n)%N) ->
  exists2 z, block_diag o [:: Nm t] = ret (Nm z) &
    isarr z (s ++ [:: d * r; d * c]%N) (fun ix =>
      let be := take (size s) ix in let i := nth 0%N ix (size s) in let j := nth 0%N ix (size s).+1 in
      if (i %/ r == j %/ c)%N then pget t (i %/ r :: be ++ [:: i %% r; j %% c])%N else 0).
Proof.
move=> es pos; pose b := rev s.
have sht : sh t = [:: c, r & rcons b d] by rewrite -[sh t]revK -/(pshape t) es rev_cons rev_cat.
have pt : posn (sh t) by apply/allP => n hn; apply: pos; rewrite /pshape mem_rev.
have [hc hr pb hd] : [/\ 0 < c, 0 < r, posn b & 0 < d]%N.
  by move: pt; rewrite sht /posn /= all_rcons => /and4P[? ? ? ?].
have wt : wf (Nm t) by rewrite /= /wft pt /trank sht.
have [u Au hu] := aligned1 wt; rewrite /trows /tcols /tbatch sht /= drop0 in hu; case: hu => su _ eu.
pose e k := Tensor (dt u) [:: c, r & b] (fun idx => tget u (rcons idx k)).
have A : aligned [:: t] = ret [seq e k | k <- iota 0 d].
  by rewrite Au /t_iter su -!rcons_cons rev_rcons revK.
have [|||k|z Ez [sz ez]] := @t_bd_tail [:: t] [seq e k | k <- iota 0 d] (nseq d r) (nseq d c) b
  (fun k be i j => tget t [:: j, i & rcons (clamp b be) k]) _ _ _ A.
- by rewrite size_nseq.
- by rewrite size_map size_iota size_nseq.
- by rewrite !size_nseq.
- rewrite size_nseq => hk; rewrite (nth_map 0%N) ?size_iota // nth_iota // add0n !nth_nseq hk.
  split=> // [|be i j hb hi hj]; first by rewrite !posn_cons hc hr pb.
  have ik : inb (rcons b d) (rcons (clamp b be) k) by exact: inb_rcons.
  rewrite {1}/mx /= drop0; have := eu (rcons (clamp b be) k) i j (okb_inb ik) hi hj.
  by rewrite /mx su sht /= !drop0 clamp_id.
- exists z; first by rewrite /block_diag /= Ez bind_ret.
  rewrite !sumn_nseq (mulnC r) (mulnC c) in sz ez.
  have szr : pshape z = s ++ [:: d * r; d * c]%N by rewrite /pshape sz /b !rev_cons revK -!cats1 -catA.
  rewrite /isarr szr; split=> // ix /pinE; rewrite -szr revK sz; have := revK ix; case: (rev ix) => [|j [|i be]] <- //; rewrite [inb _ _]/= ?andbF // => /and3P[hj hi hb].
  have sb : size (rev be) = size s by rewrite size_rev -[size s]size_rev -/b; elim: (b) (be) hb => [|x b' IH] [|y v] //= /andP[_ /IH->].
  rewrite [pget z _]/pget revK !rev_cons -!cats1 -catA /= take_size_cat // !nth_cat sb ltnn subnn ltnNge leqnSn /= subSnn /=.
  have := ez be i j (okb_inb hb) hi hj; rewrite /mx sz /= drop0 clamp_id // => ->.
  by rewrite !loc_nseq //= /pget rev_cons rev_cat revK.
Qed.
End Arrays.

(** ** triangular_solve of arrays *)
Section Solve.
Variable F : rcfType.
Notation tensor := (tensor F).
Notation at_ t be i j := (pget t (be ++ [:: (i : nat); (j : nat)])).
(** Only the selected triangle of [a] is read, and the flag selects it.  The function returns if no diagonal entry is
    zero. *)
Theorem C28_triangular_solve_arrays (o : ops F) k (a b : tensor) (lower : bool) s1 s2 s n m :
  pshape a = s1 ++ [:: n; n] -> pshape b = s2 ++ [:: n; m] -> np_rule s1 s2 s ->
  (forall be i, pin s be -> (i < n)%N -> at_ a (pbidx s1 be) i i <> 0) ->
  exists2 z, triangular_solve o k (Nm a) (Nm b) lower = ret (Nm z) & pshape z = s ++ [:: n; m] /\
    forall be i j, pin s be -> (i < n)%N -> (j < m)%N ->
      \sum_(k < n | if lower then (k <= i)%N else (i <= k)%N) at_ a (pbidx s1 be) i k * at_ z be k j = at_ b (pbidx s2 be) i j.
Proof.
move=> h1 h2 h3 nz; have [z Ez] : exists z, t_trisolve a b lower = ret z.
  have ea := shE h1; have eb := shE h2; rewrite rev_cat /= in ea; rewrite rev_cat /= in eb.
  have [l1 l2] := size_np h3; have hb := (np_ruleE _ _ _).1 h3.
  rewrite /t_trisolve /t_solve_sel ea eb !eqxx hb /= ifT; first by eexists.
  apply/allidxI => be hbe; have pbe : pin s (rev be) by apply/pinE; rewrite revK.
  have [sb _] := pbe; rewrite unitmxE unitfE.
  have -> : \det (gmx n n (fun i j => if if lower then (j <= i)%N else (i <= j)%N then mx a be i j else 0)) =
            \prod_(i < n) at_ a (pbidx s1 (rev be)) i i.
    have -> (G : nat -> nat -> F) : (forall i j, if lower then (i < j)%N -> G i j = 0 else (j < i)%N -> G i j = 0) ->
      \det (gmx n n G) = \prod_(i < n) G i i.
    - move=> hG; case: lower hG => hG; last rewrite -det_tr; rewrite det_trig.
      + by apply: eq_bigr => i _; rewrite mxE.
      + by apply/is_trig_mxP => i j h; rewrite mxE; exact: hG.
      + by apply: eq_bigr => i _; rewrite !mxE.
      + by apply/is_trig_mxP => i j h; rewrite !mxE; exact: hG.
    - apply: eq_bigr => i _; rewrite !leqnn if_same /mx ea /= drop0 /pget rev_cat /=.
      by rewrite -pbidxE ?sb // revK.
    - move=> i j; case: lower => h; by rewrite leqNgt h.
  by apply/prodf_neq0 => i _; apply/eqP; exact: nz.
exists z; first by rewrite /triangular_solve Ez bind_ret.
exact: C46_trisolve h1 h2 h3 Ez.
Qed.
End Solve.

(** The hypotheses can be met: the batch of three triangular matrices of the samples. *)
Example C24_ex_array (F : rcfType) : pshape (s_lt_t F) = (3 :: [::] ++ [:: 2; 2])%N /\
  (forall n, n \in pshape (s_lt_t F) -> (0 < n)%N) .
Proof. by split=> // n; rewrite !inE => /or3P[]/eqP->. Qed.
Example C28_ex_arrays (F : rcfType) (s := [:: 3]%N) : [/\ pshape (s_lt_t F) = s ++ [:: 2; 2]%N,
  pshape (t_ones DFloat64 [:: 5; 2]%N : tensor F) = [::] ++ [:: 2; 5]%N, np_rule s [::] s &
  forall be i, pin s be -> (i < 2)%N -> pget (s_lt_t F) (pbidx s be ++ [:: i; i]) <> 0].
Proof.
split=> //; first by apply/np_ruleE.
move=> [|k [|? ?]] i [] // _ /(_ 0%N isT) /= hk hi; rewrite /pbidx /= /pget /= ltnn; apply/eqP.
by rewrite Num.Theory.pnatr_eq0.
Qed.
Print Assumptions C24_block_diag_array.
Print Assumptions C28_triangular_solve_arrays.
