(** * Correctness of the entrywise product of two low-rank matrices (proof support) *)
From mathcomp Require Import all_ssreflect all_algebra.
From Verif Require Import Outcome Monad Shape Tensor Mat Dispatch Ops Spec ShapeThy TensorThy TensorThy2 TensorThy3 MatThy OpsOk DenseOk AddOk.
Set Implicit Arguments. Unset Strict Implicit. Unset Printing Implicit Defensive.
Import GRing.Theory.
Local Open Scope ring_scope.

Section MulLrOk.
Variable F : rcfType.
Notation tensor := (tensor F).
Notation mat := (mat F).
Implicit Types (a l m : mat) (t : tensor) (u be : seq nat).
Variable self : ops F.
Hypothesis ok : ops_ok self.

(** All products of a column of [x] and a column of [y]. *)
Lemma stack_cols (f f' : nat -> tensor) r r' p q b g h :
  (forall k, (k < p)%N -> tvec (f k) r b (fun be i => g be i k)) ->
  (forall k, (k < q)%N -> tvec (f' k) r' b (fun be i => h be i k)) -> (0 < p)%N -> (0 < q)%N -> bcnok r r' ->
  hoare (do zs <- mapM (fun p => t_mul p.1 p.2) [seq (x, y) | x <- map f (iota 0 p), y <- map f' (iota 0 q)]; t_stack zs 0)
   (fun z => tmat z (bcn r r') (p * q) b (fun be i k => g be (cl r i) (k %/ q)%N * h be (cl r' i) (k %% q)%N)).
Proof.
move=> hf hf' p0 q0 orr; rewrite allpairs_map_iota.
apply: (hoare_bind (hoare_mapM (P := fun k z => tvec z (bcn r r') b
    (fun be i => g be (cl r i) (k %/ q)%N * h be (cl r' i) (k %% q)%N)) _)).
  move=> k hk; have k1 : (k %/ q < p)%N by rewrite ltn_divLR.
  have k2 : (k %% q < q)%N by rewrite ltn_mod.
  by apply: hoare_conseq (tvec_map2 _ (hf _ k1) (hf' _ k2) orr (bcokss _)) _ => z; rewrite bctss.
move=> zs [sz hz]; apply: (tvec_stack0 sz); first by rewrite muln_gt0 p0.
by move=> t0 i hi; apply: hz.
Qed.

Lemma unstack_rows (w : tensor) n c b gw : tmat w n c b gw -> exists f : nat -> nat -> tensor,
    (do rows <- t_unstack w 1; mapM (fun x => t_unstack x 0) rows) = ret [seq [seq f i j | j <- iota 0 c] | i <- iota 0 n]
    /\ forall i j, (i < n)%N -> (j < c)%N -> tsca (f i j) b (fun be => gw be i j).
Proof.
move=> hw; have [fr [-> hr]] := tmat_unstack1 hw; rewrite bind_ret.
exists (fun i j => Tensor (dt (fr i)) (del (sh (fr i)) 0) (fun idx => tget (fr i) (ins idx 0 j))); split.
  by apply: mapM_iota => k hk; have [s1 _ _] := hr k hk; rewrite /t_unstack s1.
move=> i j hi hj; have [s1 /andP[n0 pb] e] := hr i hi; split=> /=; rewrite ?s1 //.
by move=> be hbe; rewrite -e // /sx /bat /vx /= s1 /= ins0.
Qed.

Lemma stack_mid (f f' : nat -> nat -> tensor) p q p' q' b g h :
  (forall i j, (i < p)%N -> (j < q)%N -> tsca (f i j) b (fun be => g be i j)) ->
  (forall i j, (i < p')%N -> (j < q')%N -> tsca (f' i j) b (fun be => h be i j)) ->
  (0 < p)%N -> (0 < q)%N -> (0 < p')%N -> (0 < q')%N ->
  hoare (do zs <- mapM (fun p =>
                       do ys <- mapM (fun q => t_mul q.1 q.2) [seq (x, y) | x <- p.1, y <- p.2];
                       t_stack ys 0) [seq (x, y) | x <- [seq [seq f i j | j <- iota 0 q] | i <- iota 0 p],
                                                   y <- [seq [seq f' i j | j <- iota 0 q'] | i <- iota 0 p']];
         t_stack zs 1)
   (fun z => tmat z (p * p') (q * q') b (fun be k k' => g be (k %/ p')%N (k' %/ q')%N * h be (k %% p')%N (k' %% q')%N)).
Proof.
move=> hf hf' p0 q0 p0' q0'.
rewrite (allpairs_map_iota (fun i => [seq f i j | j <- iota 0 q]) (fun i => [seq f' i j | j <- iota 0 q'])).
apply: (hoare_bind (hoare_mapM (P := fun k z => tvec z (q * q') b
    (fun be k' => g be (k %/ p')%N (k' %/ q')%N * h be (k %% p')%N (k' %% q')%N)) _)).
  move=> k hk; have k1 : (k %/ p' < p)%N by rewrite ltn_divLR.
  have k2 : (k %% p' < p')%N by rewrite ltn_mod.
  rewrite /= (allpairs_map_iota (f (k %/ p')%N) (f' (k %% p')%N)).
  apply: (hoare_bind (hoare_mapM (P := fun k' z => tsca z b
     (fun be => g be (k %/ p')%N (k' %/ q')%N * h be (k %% p')%N (k' %% q')%N)) _)).
    move=> k' hk'; have k3 : (k' %/ q' < q)%N by rewrite ltn_divLR.
    have k4 : (k' %% q' < q')%N by rewrite ltn_mod.
    by apply: hoare_conseq (tsca_map2 _ (hf _ _ k1 k3) (hf' _ _ k2 k4) (bcokss _)) _ => z; rewrite bctss.
  move=> zs [sz hz]; apply: (tsca_stack sz); first by rewrite muln_gt0 q0.
  by move=> t0 i hi; apply: hz.
move=> zs [sz hz]; apply: (tvec_stack1 sz); first by rewrite muln_gt0 p0.
by move=> t0 i hi; apply: hz.
Qed.

Lemma lr_lr_alg pa pb qa qb (la lb ra rb : nat -> F) (ma mb : nat -> nat -> F) :
  sumf (pa * pb) (fun k => sumf (qa * qb) (fun k' =>
    la (k %/ pb)%N * lb (k %% pb)%N * (ma (k %/ pb)%N (k' %/ qb)%N * mb (k %% pb)%N (k' %% qb)%N) *
    (ra (k' %/ qb)%N * rb (k' %% qb)%N))) =
  sumf pa (fun p => sumf qa (fun q => la p * ma p q * ra q)) *
  sumf pb (fun p => sumf qb (fun q => lb p * mb p q * rb q)).
Proof.
rewrite (sumf_prod_dm pa pb (fun i i' => sumf (qa * qb) (fun k' =>
    la i * lb i' * (ma i (k' %/ qb)%N * mb i' (k' %% qb)%N) * (ra (k' %/ qb)%N * rb (k' %% qb)%N)))).
rewrite sumf_sumf_mul; apply: eq_sumf => i _; apply: eq_sumf => i' _.
rewrite (sumf_prod_dm qa qb (fun j j' => la i * lb i' * (ma i j * mb i' j') * (ra j * rb j'))).
rewrite sumf_sumf_mul; apply: eq_sumf => j _; apply: eq_sumf => j' _.
by rewrite [X in X * _]mulrACA [LHS]mulrACA.
Qed.

Theorem mul_lr_lr_ok la ra ma lb rb mb : wf (LR la ra ma) -> wf (LR lb rb mb) ->
  shapes_ok (LR la ra ma) (LR lb rb mb) ->
  hoare (mul_lr_lr self la ra ma lb rb mb)
    (fun c => res2 *%R (LR la ra ma) (LR lb rb mb) c /\ kfree c).
Proof.
move=> wA wB so; rewrite /mul_lr_lr assert_shapesE // bind_ret.
have [[wla wra wma] [kla kra kma] [e1 e2] [b1 b2 b3]] := lr_facts wA.
have [[wlb wrb wmb] [klb krb kmb] [e3 e4] [b4 b5 b6]] := lr_facts wB.
case/and3P: (so) => o1 o2 o3.
set u := bct (mbatch (LR la ra ma)) (mbatch (LR lb rb mb)).
have uA : bto (mbatch (LR la ra ma)) u := bct_ubl o3.
have uB : bto (mbatch (LR lb rb mb)) u := bct_ubr o3.
move: (b1) (b2) (b3) (b4) (b5) (b6) => /bto_trans/(_ uA) c1 /bto_trans/(_ uA) c2 /bto_trans/(_ uA) c3 
  /bto_trans/(_ uB) c4 /bto_trans/(_ uB) c5 /bto_trans/(_ uB) c6.
apply: hoare_warn_if.
apply: (hoare_bind (ok_dense ok wla)) => al hal; apply: (hoare_bind (ok_dense ok wma)) => am ham.
apply: (hoare_bind (ok_dense ok wra)) => ar har; apply: (hoare_bind (ok_dense ok wlb)) => bl hbl.
apply: (hoare_bind (ok_dense ok wmb)) => bm hbm; apply: (hoare_bind (ok_dense ok wrb)) => br hbr.
have nb (x : tensor) r c b g : tmat x r c b g -> shape_batch (Nm x) = ret b.
  move=> h; have w := tmat_is h; rewrite shape_batchE; last exact: w.
  by rewrite /mbatch uprank_wft // (tmat_batch h).
have -> : shape_batch_broadcast [:: Nm al; Nm am; Nm ar; Nm bl; Nm bm; Nm br] = ret u.
  rewrite /shape_batch_broadcast /mapM (nb _ _ _ _ _ hal) (nb _ _ _ _ _ ham) (nb _ _ _ _ _ har).
  rewrite (nb _ _ _ _ _ hbl) (nb _ _ _ _ _ hbm) (nb _ _ _ _ _ hbr) !bind_ret.
  have al6 : all (fun s => bto s u) [:: mbatch ma; mbatch ra; mbatch lb; mbatch mb; mbatch rb].
    by rewrite /= c2 c3 c4 c5 c6.
  have [v [-> hv]] := eab_many c1 al6; congr ret; apply: bto_ext => w; rewrite hv /u bto_bct // !LRb //=.
  by rewrite andbT; do 6!case: (bto _ w).
rewrite bind_ret; have pu : posn u by rewrite posn_bct ?mbatch_pos.
apply: (hoare_bind (tmat_broadcast_batch hal pu c1)) => {}al {}hal.
apply: (hoare_bind (tmat_broadcast_batch ham pu c3)) => {}am {}ham.
apply: (hoare_bind (tmat_broadcast_batch har pu c2)) => {}ar {}har.
apply: (hoare_bind (tmat_broadcast_batch hbl pu c4)) => {}bl {}hbl.
apply: (hoare_bind (tmat_broadcast_batch hbm pu c6)) => {}bm {}hbm.
apply: (hoare_bind (tmat_broadcast_batch hbr pu c5)) => {}br {}hbr.
have [fal [-> gal]] := tmat_unstack0 hal; have [far [-> gar]] := tmat_unstack0 har.
have [fbl [-> gbl]] := tmat_unstack0 hbl; have [fbr [-> gbr]] := tmat_unstack0 hbr.
rewrite !bind_ret; have [fam [-> gam]] := unstack_rows ham; have [fbm [-> gbm]] := unstack_rows hbm.
rewrite !bind_ret.
apply: (hoare_bind (stack_cols gal gbl (mcols_gt0 wla) (mcols_gt0 wlb) o1)) => sl hsl.
apply: (hoare_bind (stack_cols gar gbr (mcols_gt0 wra) (mcols_gt0 wrb) o2)) => sr hsr.
apply: (hoare_bind (stack_mid gam gbm (mrows_gt0 wma) (mcols_gt0 wma) (mrows_gt0 wmb) (mcols_gt0 wmb))) => sm hsm.
rewrite -e1 -e2 -e3 -e4 in hsm.
have uu := bto_refl u.
apply: hoare_conseq (mk_lowrank_res (res_num hsl) (res_num hsr) (res_num hsm) isT isT isT uu uu uu) _ => c [hc [kc _]].
split=> //; apply: (res_cast hc); first by rewrite !bctss.
by move=> be i j _ _ _; rewrite /lrf lr_lr_alg.
Qed.
End MulLrOk.
