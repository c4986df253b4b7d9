(** * Cholesky solves and positive-definite inverses (proof support for C25, C26, C28 - C30) *)
From mathcomp Require Import all_ssreflect all_algebra.
From mathcomp Require Import zify.
From Verif Require Import Outcome Monad Shape Tensor Mat Dispatch Ops Spec ShapeThy TensorThy TensorThy2 MatThy OpsOk MulOk DenseOk MmOk OpsMain Term Calm Api Bridge Ans PropsMm Types PropsStruct Ops2 PropsSum PropsLift PropsExpr.
From Verif Require Import Backend SpecLA LinAlg MxThy ClsThy Solve InvThy PropsInv SolveThy CholThy.
Set Implicit Arguments. Unset Strict Implicit. Unset Printing Implicit Defensive.
Import Order.TTheory GRing.Theory Num.Theory.
Local Open Scope ring_scope.

Section PdThy.
Variable F : rcfType.
Notation tensor := (tensor F).
Notation mat := (mat F).
Variable argsort : seq F -> seq nat.
Hypothesis perm : argsort_ok argsort.
Notation answers := (answers argsort).
Implicit Types a b c l r x y : mat.

Lemma bct_idl (u v : shape) : bcok u v -> bct u (bct u v) = bct u v.
Proof.
move=> o; apply: bto_ext => w; have h := bct_ubl o; rewrite bto_bct; last by apply: (@bcok_ub (bct u v)) => //; exact: bto_refl.
rewrite bto_bct //; by case: (bto u w).
Qed.
Lemma bcok_idl (u v : shape) : bcok u v -> bcok u (bct u v).
Proof. by move=> o; apply: (@bcok_ub (bct u v)); [exact: bct_ubl|exact: bto_refl]. Qed.
Definition isdlu a : bool := match a with Diag _ | LT _ | UT _ => true | _ => false end.
Lemma isdlu_tag x y : tag y = trtag (tag x) -> isdlu x -> isdlu y.
Proof. by case: x => // t; case: y. Qed.
Lemma isdlu_wb x : isdlu x -> iswb x = false. Proof. by case: x. Qed.
Lemma isdlu_depth x : isdlu x -> mdepth x = 0%N. Proof. by case: x. Qed.

Lemma cholesky_solve_main c b n m k (bc' bb : shape) (C : seq nat -> 'M[F]_n) (B : seq nat -> 'M[F]_(n, m)) :
  is_mx c bc' C -> is_mx b bb B -> bcok bc' bb -> (forall be, okb bc' be -> C be \in unitmx) ->
  isdlu c -> (0 < k)%N -> (cls b = TZero -> bct bc' bb = bb) ->
  answers (fun o => cholesky_solve o k c b)
    (fun x => [/\ is_mx x (bct bc' bb) (fun be => invmx (C be *m (C be)^T) *m B be), kfree x & ~~ ty_eqb (cls c) TDiag -> cls b <> TZero -> cls x = TDense]).
Proof.
move=> hc hb o uC dc hk hz; have [wc wb] := (mx_ok hc, mx_ok hb).
have E op : cholesky_solve op k c b = do x <- solve op k c (to_matrix b); do a' <- transpose c; solve op k a' x.
  have L : lookup csolve_table (ty_of_matrix c) (cls b) = ret CTri by clear -dc; case: c dc => // t _; case: b.
  by clear -dc wb L; case: c dc L => // t _ L; rewrite /cholesky_solve to_matrix_ty // L bind_ret.
apply: ans_ext (fun op => esym (E op)) _.
have k1 : (sdepth c < k)%N by apply: sdepth_le; rewrite isdlu_depth.
apply: ans_bind (solve_main perm hc (to_matrix_mx hb) o uC _ k1 _) _ => [|h|x [hx kx _ tx]].
- by rewrite isdlu_wb.
- by apply: hz; rewrite -h to_matrix_cls.
have [a' ea [ha ka ta]] := calm_hoare (cm_transp c) (transpose_ok wc).
have da : isdlu a' by exact: isdlu_tag ta dc.
have ha' : is_mx a' bc' (fun be => (C be)^T).
  case: hc => _ [e1 e2] e3 e4; rewrite e1 e2 e3 in ha; apply: mx_ext (res_mx ha) _ => be ob.
  by rewrite -e4 // mxofE gmx_tr.
apply: (ans_eq ea).
have uC' be : okb bc' be -> (C be)^T \in unitmx by move=> ob; rewrite unitmx_tr uC.
have k2 : (sdepth a' < k)%N by apply: sdepth_le; rewrite isdlu_depth.
apply: ans_conseq (solve_main perm ha' hx (bcok_idl o) uC' _ k2 _) _ => [|_|z [hz' kz _ tz]].
- by rewrite isdlu_wb.
- exact: bct_idl.
split=> //.
  move: hz'; rewrite bct_idl // => hz'; apply: mx_ext hz' _ => be; rewrite okb_bct // => /andP[h1 h2].
  have u := uC be h1; rewrite mulmxA; congr (_ *m _); apply/esym; apply: invmx_uniq.
  by rewrite -mulmxA (mulmxA (C be)^T) mulmxV ?unitmx_tr // mul1mx mulmxV.
move=> nd nz; apply: tz; rewrite /densely.
have -> : cls x = TDense by apply: tx; rewrite /densely to_matrix_cls //; move: dc nd nz; clear; case: c => // t _ _; case: (cls b).
by move: da ta nd dc; clear; case: c => // t; case: a'.
Qed.

(** ** pd_inv *)
Notation pdinv k := (fun o => pd_inv_n o k).
Definition issimple a : bool := match a with Nm _ | Dense _ | Diag _ => true | _ => false end.
Lemma eye_mx a n : wf a -> mrows a = n -> mcols a = n -> exists2 c, eye_of a = ret c & is_mx c [::] (fun _ => 1%:M : 'M[F]_n).
Proof.
move=> w e1 e2; have -> : eye_of a = fill_diag (one_of a) n.
  by rewrite /eye_of assert_squareE ?e1 ?e2 // shape_matrixE // !bind_ret e1.
have n0 : (0 < n)%N by rewrite -e1 mrows_gt0.
have ht : tsca (one_of a) [::] (fun _ => (1 : F)) by [].
have [c e [hc kc tc]] := calm_hoare (cm_fill_diag _ _) (fill_diag_ok ht n0); exists c => //.
apply: mx_ext (res_mx hc) _ => be _; apply/matrixP => i j; by rewrite !mxE -val_eqE; case: (_ == _).
Qed.
Lemma pd_simple a n k : wf a -> issimple a -> definite a -> mrows a = n -> (1 < k)%N ->
  inverts argsort (pdinv k) a (mbatch a) (mxof n n a).
Proof.
move=> w sa da en; case: k => // k hk.
have pa : posdef a by clear -sa da; case: a sa da.
have sq := posdef_sq pa; have hp := posdef_pd w pa en; have ha := mx_wf w en (etrans (esym sq) en).
case ed: (ty_eqb (cls a) TDiag).
  case: a w sa da en pa sq hp ha ed => // t w sa da en pa sq hp ha _.
  have [ht e] := diag_mx_inv ha.
  have nz be i : okb (mbatch (Diag t)) be -> (i < n)%N -> vx t be i != 0.
    by move=> hb hi; rewrite gt_eqF //; apply: pd_dmx hi; rewrite -e //; exact: hp.
  have [u eu hu] := diag_inv_ok ht nz; rewrite /inverts; apply: ans_ext (_ : forall o, ret (Diag u) = _) _ => [op|] //.
  apply: ans_ret; split=> //; apply: mx_ext (mx_diag hu) _ => be hb; rewrite e // dmx_inv // => i hi; exact: nz.
have w1 : wf (to_matrix a) by exact: (mx_ok (to_matrix_mx ha)).
have c1 : cls (to_matrix a) = TDense by rewrite to_matrix_cls //; clear -sa ed; case: a sa ed.
have E : forall op, (do c <- cholesky op (to_matrix a); do e <- eye_of (to_matrix a); do t <- o_dense op e; cholesky_solve op k c (Nm t)) = pd_inv_n op k.+1 a.
  by clear -sa ed; case: a sa ed.
apply: ans_ext E _.
have h1 := to_matrix_mx ha; have [_ [r1 m1] b1 e1] := h1.
have p1 : posdef (to_matrix a).
  have : definite (to_matrix a) by split; [rewrite [mrows (to_matrix a)]r1 [mcols (to_matrix a)]m1|move=> be; rewrite [mrows (to_matrix a)]r1 [mbatch (to_matrix a)]b1 => hb; rewrite e1 //; exact: hp].
  by clear -sa ed w; case: a w sa ed => //= t w _ _; rewrite conv_ns // wf_ns.
apply: ans_bind (cholesky_main perm w1 p1 r1) _ => c [C [hC gC uC tC kC]].
rewrite [mbatch (to_matrix a)]b1 in hC gC uC.
have [e ee he] := eye_mx w1 r1 m1; apply: (ans_eq ee).
apply: ans_bind (ans_dense_mx perm he) _ => t ht.
have dc : isdlu c && ~~ ty_eqb (cls c) TDiag.
  have : tag c = 5%N by rewrite tC; clear -sa ed w; case: a w sa ed => //= t w _ _; rewrite conv_ns // wf_ns.
  by clear; case: c.
case/andP: dc => dc nd.
apply: ans_conseq (cholesky_solve_main hC (mx_num ht) (bcoks0 _) uC dc hk _) _ => [//|z [hz kz tz]].
rewrite bcts0 in hz; split=> //.
  by apply: mx_ext hz _ => be hb; rewrite gC // mulmx1 e1.
by rewrite tz // -c1 to_matrix_cls.
Qed.

Lemma pd_inv_main a k n : wf a -> posdef a -> mrows a = n -> (mdepth a + 1 < k)%N ->
  inverts argsort (pdinv k) a (mbatch a) (mxof n n a).
Proof.
elim: a k n => [t|d b r c|t|t|t r c|t|t|l IHl r IHr m IHm|d l IHl r IHr m IHm|l IHl r IHr] k n w h en // hk.
1,2,3: by apply: pd_simple.
- case: k hk => // k hk.
  have [hd hl hr [p1 p2 p3 p4 br]] := wbp w h en erefl; have [ud ul ur um'] := wbu w.
  have [[_ _ wm kf _] _] := w; set p := mrows m in hl hr p1 p2 p3 p4.
  have hk' : (mdepth m + 1 < k)%N by clear -hk; move: hk => /=; lia.
  have [hm ss _ _] := h; have im := IHm k p wm hm erefl hk'; have pm := posdef_pd wm hm (erefl : mrows m = p).
  have um be : okb (mbatch m) be -> mxof p p m be \in unitmx by move=> hb; apply: pd_unit; exact: pm.
  have pdd := wb_dpos h en.
  have nz be i : okb (behead (sh d)) be -> (i < n)%N -> vx d be i != 0.
    by move=> hb hi; rewrite gt_eqF //; apply: pd_dmx hi; exact: pdd.
  rewrite br in ur; set u := mbatch (Wb d l r m) in ud ul ur um'.
  have bsu : bto u (bct (mbatch m) (bct (bct (mbatch l) (behead (sh d))) (mbatch l))).
    have ue : u = bct (behead (sh d)) (bct (bct (mbatch l) (mbatch l)) (mbatch m)) by rewrite /u /= br.
    by rewrite (@bs_eq u) // -ue; exact: bto_refl.
  have pW be : okb (bct (mbatch m) (bct (bct (mbatch l) (behead (sh d))) (mbatch l))) be ->
     pd (dmx n (vx d be) + mxof n p l be *m mxof p p m be *m (mxof n p l be)^T).
    by move=> /(okb_mono bsu) hb; apply: wb_pd; [exact: pdd (okb_mono ud hb)|exact: pm (okb_mono um' hb)].
  have uW be hb := pd_unit (pW be hb).
  have H := @woodbury_inv_ok _ _ perm (fun o => pd_inv_n o k) d l r m n p _ _ _ _ u _ _ _ _ hd hl hr ud ul ur um' kf nz um im ss uW.
  apply: ans_conseq (H _) _ => [s hs ks ts|c [hc kc tc]].
    have [ws [s1 s2] s3 s4] := hs.
    have pS be : okb (mbatch s) be -> pd (mxof p p s be).
      rewrite s3 => hb; rewrite s4 //; move: hb => /(okb_mono bsu) hb; apply: schur_pd; [exact: pdd (okb_mono ud hb)|exact: pm (okb_mono um' hb)].
    have ds : definite s by split; rewrite ?s1 ?s2.
    have ks' : (1 < k)%N by apply: leq_trans hk'; rewrite addn1 ltnS.
    have is_s : issimple s by move: ts; clear; case: s.
    have := pd_simple ws is_s ds s1 ks'; rewrite s3 => H'; apply: ans_conseq H' _ => c [hc kc tc]; split=> //.
    by apply: mx_ext hc _ => be hb; rewrite s4.
  split=> //; apply: mx_cast hc _ _; first by rewrite /= br.
  by move=> be hb; rewrite (wbE w h en erefl) //= br.
- case: k hk => // k hk.
  case: (h) => hl hr; case: (w) => wl wr o.
  have [hk1 hk2] : (mdepth l + 1 < k)%N /\ (mdepth r + 1 < k)%N.
    by clear -hk; move: hk => /=; lia.
  have il := IHl k _ wl hl erefl hk1; have ir := IHr k _ wr hr erefl hk2.
  have ul := posdef_pd wl hl erefl; have ur := posdef_pd wr hr erefl.
  subst n.
  apply: ans_bind il _ => x [hx kx tx]; apply: ans_bind ir _ => y [hy ky ty]; apply: ans_ret; split=> //.
  apply: mx_ext (mx_kron hx hy o) _ => be hb; rewrite -(kmx_inv (pd_unit (ul _ _)) (pd_unit (ur _ _))); last 2 first.
  + by move: hb; rewrite okb_bct // => /andP[].
  + by move: hb; rewrite okb_bct // => /andP[].
  by congr invmx; apply/esym; apply: mxof_kron => //; apply/esym; apply: posdef_sq.
Qed.
End PdThy.
