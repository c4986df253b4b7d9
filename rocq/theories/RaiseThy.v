(** * Operands of incompatible shapes: the operations do not return (proof support for C38) *)
From mathcomp Require Import all_ssreflect all_algebra.
From Verif Require Import Outcome Monad Shape Tensor Mat Dispatch Ops Spec ShapeThy TensorThy TensorThy2 MatThy OpsOk DenseOk LookThy AddOk LrAddOk MulOk MmOk OpsMain Exact Exact2 Calm Bridge.
Set Implicit Arguments. Unset Strict Implicit. Unset Printing Implicit Defensive.
Import GRing.Theory.
Local Open Scope ring_scope.

(** The products of entries which skip a check of the shapes: a triangular matrix and a constant one (the matrix
    axes are not checked), an upper- and a lower-triangular one (only the diagonals are looked at), and two
    Kronecker products with equally shaped factors (the batch axes of the two new factors are not compared). *)
Definition mul_unchecked (F : rcfType) (a b : mat F) : bool :=
  match a, b with
  | LT _, Const _ _ _ | UT _, Const _ _ _ | Const _ _ _, LT _ | Const _ _ _, UT _ => bcok (mbatch a) (mbatch b)
  | LT _, UT _ | UT _, LT _ =>
      bcok (mbatch a) (mbatch b) && bcnok (minn (mrows a) (mcols a)) (minn (mrows b) (mcols b))
  | Kron la ra, Kron lb rb => samesh la lb && samesh ra rb
  | _, _ => false
  end.

Section Raise.
Variable F : rcfType.
Notation tensor := (tensor F).
Notation mat := (mat F).
Implicit Types a b : mat.

(** Sums which add two low-rank matrices after the operands have been taken apart. *)
Definition wbp (a b : mat) : bool :=
  match a, b with Wb _ _ _ _, (Wb _ _ _ _ | LR _ _ _ | Const _ _ _) | (LR _ _ _ | Const _ _ _), Wb _ _ _ _ => true | _, _ => false end.

Variable w : bool.
(** The computation does not return; if [w] holds, it may return after an inexact comparison. *)
Definition never A (m : outcome A) : bool := if m is Ret l _ then w && ~~ exact l else true.
Definition okn a : bool := w || nw1 a.
Definition okx a b : bool := w || [&& nw1 a, nw1 b & ~~ wbp a b].
Definition okm a b : bool := okn a && okn b.
Lemma okx_m a b : okx a b -> okm a b.
Proof. by rewrite /okx /okm /okn; case: w => //= /and3P[-> ->]. Qed.
Lemma okx_1 a b : okx a b -> okn a. Proof. by move=> /okx_m/andP[]. Qed.
Lemma okx_2 a b : okx a b -> okn b. Proof. by move=> /okx_m/andP[]. Qed.
Lemma okm_1 a b : okm a b -> okn a. Proof. by move=> /andP[]. Qed.
Lemma okm_2 a b : okm a b -> okn b. Proof. by move=> /andP[]. Qed.
Lemma okxC a b : okx a b -> okx b a.
Proof. by rewrite /okx; case: w => //= /and3P[-> ->]; case: a; case: b. Qed.
Lemma okmC a b : okm a b -> okm b a. Proof. by rewrite /okm andbC. Qed.
Lemma okx_w a b : okx a b -> wbp a b -> w.
Proof. by rewrite /okx => /orP[|/and3P[_ _ /negP h] h'] //; case: h. Qed.

Lemma nv_l A B (m : outcome A) (f : A -> outcome B) : never m -> never (bind m f).
Proof.
case: m => [l a|l e] //= /andP[hw he]; rewrite /bind; case: (f a) => [l' b|] //=; rewrite hw /=.
by move: he; rewrite /exact /= !negbK => ->.
Qed.
Lemma nv_r A B (m : outcome A) (f : A -> outcome B) : (forall x, never (f x)) -> never (bind m f).
Proof.
case: m => [l a|l e] //= /(_ a); rewrite /bind; case: (f a) => [l' b|] //= /andP[hw he]; rewrite hw /=.
by move: he; rewrite /exact /= !negbK => ->; rewrite orbT.
Qed.
Lemma nv_p A B (m : outcome A) (f : A -> outcome B) P Q : phoare m P -> w \/ xh m Q -> (forall x, P x -> w \/ Q x -> never (f x)) ->
  never (bind m f).
Proof.
case: m => [l a|l e] //= h hx k; case: (boolP (exact l)) => e.
  have : never (f a) by apply: k => //; [exact: h|case: hx => [|[]]; auto].
  rewrite /bind; case: (f a) => [l' b|] //= /andP[hw he]; rewrite hw /=.
  by move: he; rewrite /exact /= !negbK => ->; rewrite orbT.
have hw : w by case: hx => // -[/=]; rewrite (negbTE e).
rewrite /bind; case: (f a) => [l' b|] //=; rewrite hw /=.
by move: e; rewrite /exact /= !negbK => ->.
Qed.
Lemma nv_h A B (m : outcome A) (f : A -> outcome B) P Q : hoare m P -> w \/ xh m Q -> (forall x, P x -> w \/ Q x -> never (f x)) ->
  never (bind m f).
Proof. by move=> /hoare_phoare; apply: nv_p. Qed.
Lemma xeT A (m : outcome A) : xe m -> w \/ xe m. Proof. by right. Qed.
Lemma calm_xe A (m : outcome A) : calm m -> xe m. Proof. by case: m => [l a /= -> | l e [/= -> ]]. Qed.

Lemma nv_eab s s' : ~~ bcok s s' -> never (expand_and_broadcast [:: s; s']).
Proof. by move=> h; apply: nv_l; rewrite expand_and_broadcast2E; move: h; rewrite /bcok; case: (bc s s'). Qed.
Lemma nv_compat s s' : ~~ bcok s s' -> never (assert_compatible s s').
Proof.
move=> h; rewrite /assert_compatible /compatible expand_and_broadcast2E; move: h; rewrite /bcok.
by case: (bc s s').
Qed.
Lemma nv_assert a b : wf a -> wf b -> ~~ shapes_ok a b -> never (assert_shapes_compatible a b).
Proof.
move=> wa wb; rewrite shapes_bcok => h; rewrite /assert_shapes_compatible !shape_ofE // !bind_ret.
exact: nv_compat.
Qed.
Lemma nv_sb2 a b : wf a -> wf b -> ~~ shapes_ok a b -> never (shape_broadcast2 a b).
Proof.
move=> wa wb; rewrite shapes_bcok => h; rewrite /shape_broadcast2 !shape_ofE // !bind_ret.
exact: nv_eab.
Qed.
Lemma nv_smb2 a b : wf a -> wf b -> ~~ (bcnok (mrows a) (mrows b) && bcnok (mcols a) (mcols b)) ->
  never (shape_matrix_broadcast2 a b).
Proof.
move=> wa wb h; rewrite /shape_matrix_broadcast2 !shape_matrixE // !bind_ret; apply: nv_l; apply: nv_eab.
by rewrite !bcok_cons andbCA andbA (negbTE h).
Qed.
Lemma nv_map2 (f : F -> F -> F) x y : ~~ bcok (sh x) (sh y) -> never (t_map2 f x y).
Proof. by rewrite /t_map2 /bcok; case: (bc _ _). Qed.
Lemma nv_map2_mat (f : F -> F -> F) x y rx cx bx gx ry cy by' gy :
  tmat x rx cx bx gx -> tmat y ry cy by' gy -> ~~ [&& bcnok rx ry, bcnok cx cy & bcok bx by'] -> never (t_map2 f x y).
Proof. by case=> sx _ _ [sy _ _] h; apply: nv_map2; rewrite sx sy !bcok_cons andbCA. Qed.

Lemma mm_map2P (f : F -> F -> F) x y : phoare (t_map2 f x y) (fun z => bcok (sh x) (sh y) /\ sh z = bct (sh x) (sh y)).
Proof. by rewrite /t_map2 /bcok /bct; case: (bc _ _). Qed.

Lemma xe_map2w (f : F -> F -> F) x y : w \/ xe (t_map2 f x y). Proof. by right; apply: xe_map2. Qed.

Variable argsort : seq F -> seq nat.
Hypothesis perm : forall s, perm_eq (argsort s) (iota 0 (size s)).

Lemma diag_add n (x y : tensor) : wfv x -> wfv y -> phoare (o_add (ops_n argsort n) (Diag x) (Diag y))
  (fun c => exists z, [/\ c = Diag z, wfv z, bcok (sh x) (sh y) & sh z = bct (sh x) (sh y)]).
Proof.
move=> wx wy; case: n => [|n] //=; rewrite /add_step /= add_selE /= bind_ret /t_add.
have := @mm_map2P +%R x y.
move=> h; apply: (phoare_bind h) => z [h1 h2].
have wz : wfv z.
  move/andP: wx => [r1 p1]; move/andP: wy => [r2 p2]; apply/andP; split; last by rewrite h2 posn_bct.
  move: h1 h2 r1 r2; rewrite /trank; case: (sh x) (sh y) => [|d s] [|d' s'] //; rewrite bcok_cons => /andP[k1 k2].
  by rewrite bct_cons // => ->.
by rewrite (mk_diag_tvec (tvec_wfv wz)); apply: phoare_ret; exists z.
Qed.

Lemma xe_diag_add n (x y : tensor) : xe (o_add (ops_n argsort n) (Diag x) (Diag y)).
Proof. exact: xh_xe (xe_add argsort n _). Qed.
Lemma okC a b : shapes_ok a b = shapes_ok b a.
Proof. by rewrite /shapes_ok bcnokC [bcnok (mcols a) _]bcnokC bcokC. Qed.

Lemma bc4 s1 s2 t1 t2 : bcok s1 s2 -> bcok t1 t2 -> bcok s1 t1 -> bcok s2 t2 ->
  bcok (bct s1 s2) (bct t1 t2) -> bcok (bct s1 t1) (bct s2 t2).
Proof.
move=> h1 h2 h3 h4 o; have u1 := bct_ubl o; have u2 := bct_ubr o.
move: u1 u2; rewrite (bto_bct _ h1) (bto_bct _ h2) => /andP[v1 v2] /andP[v3 v4].
by apply: (@bcok_ub (bct (bct s1 s2) (bct t1 t2))); rewrite bto_bct // ?v1 ?v2 ?v3 ?v4.
Qed.
Lemma bc3 s1 s2 t : bcok s1 s2 -> bcok (bct s1 s2) t -> bcok (bct s1 t) s2.
Proof.
move=> h1 o; have u1 := bct_ubl o; have u2 := bct_ubr o.
move: u1; rewrite (bto_bct _ h1) => /andP[v1 v2].
apply: bcok_ub v2; rewrite bto_bct ?v1 ?u2 //; exact: bcok_ub v1 u2.
Qed.
Lemma bc3' s1 s2 t : bcok s1 s2 -> bcok t (bct s1 s2) -> bcok (bct t s1) s2.
Proof.
move=> h1 o; have u1 := bct_ubl o; have u2 := bct_ubr o.
move: u2; rewrite (bto_bct _ h1) => /andP[v1 v2].
apply: bcok_ub v2; rewrite bto_bct ?v1 ?u1 //; exact: bcok_ub u1 v1.
Qed.
Lemma bc_pair s1 s2 t : bcok s1 s2 -> bcok s1 t -> bcok s2 t -> bcok (bct s1 s2) t.
Proof.
elim: s1 s2 t => [|d1 s1 IH] [|d2 s2] [|d s] //; rewrite ?bcoks0 ?bcts0 //.
rewrite !bcok_cons => /andP[h1 h2] /andP[h3 h4] /andP[h5 h6]; rewrite bct_cons // bcok_cons IH // andbT.
by move: h1 h3 h5; rewrite /bcnok /bcn; do ?case: eqP => //= ?; subst.
Qed.

Section Step.
Variable n : nat.
Let self := ops_n argsort n.
Let ok : ops_ok self := ops_ok_n perm n.
Hypothesis IHa : forall a b, wf a -> wf b -> okx a b -> ~~ shapes_ok a b -> never (o_add self a b).
Hypothesis IHu : forall a b, wf a -> wf b -> okm a b -> ~~ shapes_ok a b -> ~~ mul_unchecked a b -> never (o_mul self a b).
Hypothesis IHm : forall a b ta tb, wf a -> wf b -> okm a b -> mcolst a ta != mrowst b tb -> never (o_matmul self a b ta tb).

Lemma xd a : okn a -> w \/ xe (o_dense self a).
Proof. by case/orP => h; [left|right; apply: xe_dense]. Qed.
Lemma gen_nv (f : F -> F -> F) v a b : wf a -> wf b -> okm a b -> ~~ shapes_ok a b ->
  never (do _ <- warn_if v; do x <- o_dense self a; do y <- o_dense self b; do z <- t_map2 f x y; ret (mk_dense z)).
Proof.
move=> wa wb /andP[k1 k2] h; apply: nv_r => _; apply: (nv_h (ok_dense ok wa) (xd k1)) => x hx _; apply: (nv_h (ok_dense ok wb) (xd k2)) => y hy _.
by apply: nv_l; apply: nv_map2_mat hx hy h.
Qed.
(** An operand that is stored as a numeric matrix. *)
Definition core (a : mat) : tensor := match a with Nm t | Dense t | LT t | UT t => t | _ => t_zeros DInt [::] end.
Definition cored a := match a with Nm _ | Dense _ | LT _ | UT _ => true | _ => false end.
Lemma core_tmat a : wf a -> cored a -> tmat (core a) (mrows a) (mcols a) (mbatch a) (ent a).
Proof.
case: a => [t|d b r c|t|t|t r c|t|t|l r m|d l r m|l r] //= v _.
- by have := tmat_wft v; rewrite (uprank_wft v).
- exact: tmat_wft.
- exact: tmat_wft (proj1 v).
- exact: tmat_wft (proj1 v).
Qed.
Lemma core_nv A (f : F -> F -> F) (k : tensor -> outcome A) a b : wf a -> wf b -> cored a -> cored b -> ~~ shapes_ok a b ->
  never (do z <- t_map2 f (core a) (core b); k z).
Proof. by move=> wa wb ca cb h; apply: nv_l; apply: nv_map2_mat (core_tmat wa ca) (core_tmat wb cb) h. Qed.
Lemma coregen_nv A (f : F -> F -> F) (k : tensor -> outcome A) a b : wf a -> wf b -> okn b -> cored a -> ~~ shapes_ok a b ->
  never (do y <- o_dense self b; do z <- t_map2 f (core a) y; k z).
Proof.
move=> wa wb k2 ca h; apply: (nv_h (ok_dense ok wb) (xd k2)) => y hy _.
by apply: nv_l; apply: nv_map2_mat (core_tmat wa ca) hy h.
Qed.
Lemma diag2_nv A (f : F -> F -> F) (k : tensor -> outcome A) x y : wfv x -> wfv y -> ~~ shapes_ok (Diag x) (Diag y) ->
  never (do z <- t_map2 f x y; k z).
Proof.
move=> wx wy h; apply: nv_l; apply: nv_map2; apply: contra h; rewrite (wfv_sh wx) (wfv_sh wy) bcok_cons => /andP[h1 h2].
by rewrite /shapes_ok /= h1 h2.
Qed.
Lemma nv_woodbury (x : tensor) (l r m : mat) : wf (Diag x) -> wf (LR l r m) -> ~~ shapes_ok (Diag x) (LR l r m) ->
  never (mk_woodbury (Diag x) (LR l r m)).
Proof. by move=> w1 w2 h; apply: nv_l; apply: nv_assert. Qed.

(** A Woodbury matrix consists of a diagonal and a low-rank matrix of the same shape. *)
Lemma wb_split (d : tensor) (l r m : mat) : wf (Wb d l r m) -> [/\ wf (Diag d), wf (LR l r m), mrows (LR l r m) = tcols d,
  mcols (LR l r m) = tcols d & mbatch (Wb d l r m) = bct (behead (sh d)) (mbatch (LR l r m)) /\ bcok (behead (sh d)) (mbatch (LR l r m))].
Proof. by move=> v; have := wf_wb_lr v; case: v => _ /and4P[h1 /eqP h2 /eqP h3 h4]. Qed.

Lemma wb_wb_nv (da : tensor) (la ra ma : mat) (db : tensor) (lb rb mb : mat) : wf (Wb da la ra ma) -> wf (Wb db lb rb mb) -> w ->
  ~~ shapes_ok (Wb da la ra ma) (Wb db lb rb mb) ->
  never (do x <- o_add self (wb_diag da) (wb_diag db);
      do y <- o_add self (wb_lr la ra ma) (wb_lr lb rb mb); o_add self x y).
Proof.
move=> wa wb hw h; rewrite /wb_diag /wb_lr.
have okw (x y : mat) : okx x y by rewrite /okx hw.
have [d1 l1 r1 c1 [b1 o1]] := wb_split wa; have [d2 l2 r2 c2 [b2 o2]] := wb_split wb.
apply: (nv_p (diag_add n d1 d2) (xeT (xe_diag_add n _ _))) => _ [z [-> wz hz sz]] _.
case E: (shapes_ok (LR la ra ma) (LR lb rb mb)); last by apply: nv_l; apply: IHa; rewrite ?E.
apply: (nv_h (ok_add ok (or_introl l1) (or_introl l2) (or_introl l1) E _) (or_introl hw : is_true w \/ xe _)) => // y [[wy [ry cy] by' _] _] _.
apply: IHa => //; apply: contra h; rewrite /shapes_ok ry cy by' => /and3P[_ _ o3].
case/and3P: E => e1 e2 e3; rewrite b1 b2 /= -r1 -r2 e1 /=.
move: hz sz; rewrite (wfv_sh d1) (wfv_sh d2) bcok_cons => /andP[k1 k2]; rewrite bct_cons // => sz.
rewrite /= sz /= in o3; rewrite /=; exact: bc4 k2 e3 o1 o2 o3.
Qed.
Lemma wb_dg_nv (da : tensor) (la ra ma : mat) (db : tensor) : wf (Wb da la ra ma) -> wf (Diag db) -> okx (Wb da la ra ma) (Diag db) ->
  ~~ shapes_ok (Wb da la ra ma) (Diag db) ->
  never (do x <- o_add self (wb_diag da) (Diag db); o_add self x (wb_lr la ra ma)).
Proof.
move=> wa wb hk h; rewrite /wb_diag /wb_lr.
have [d1 l1 r1 c1 [b1 o1]] := wb_split wa.
apply: (nv_p (diag_add n d1 wb) (xeT (xe_diag_add n _ _))) => _ [z [-> wz hz sz]] _.
apply: IHa => //; apply: contra h; rewrite /shapes_ok r1 c1 b1 => /and3P[_ _ o3].
move: hz sz; rewrite (wfv_sh d1) (wfv_sh wb) bcok_cons => /andP[k1 k2]; rewrite bct_cons // => sz.
rewrite /= sz /= in o3; rewrite /= k1 /=; exact: bc3 k2 o3.
Qed.
Lemma wb_lrc_nv (da : tensor) (la ra ma b : mat) : wf (Wb da la ra ma) -> wf b -> tag b = 7%N \/ tag b = 4%N -> w ->
  ~~ shapes_ok (Wb da la ra ma) b ->
  never (do y <- o_add self (wb_lr la ra ma) b; o_add self (wb_diag da) y).
Proof.
move=> wa wb tb hw h; rewrite /wb_diag /wb_lr.
have okw (x y : mat) : okx x y by rewrite /okx hw.
have [d1 l1 r1 c1 [b1 o1]] := wb_split wa.
case E: (shapes_ok (LR la ra ma) b); last by apply: nv_l; apply: IHa; rewrite ?E.
apply: (nv_h (ok_add ok (or_introl l1) (or_introl wb) (or_introl l1) E _) (or_introl hw : is_true w \/ xe _)); first by (clear -tb; case: b tb => //= *; intuition discriminate).
move=> y [[wy [ry cy] by' _] _] _.
apply: IHa => //; apply: contra h; rewrite /shapes_ok by' b1 => /and3P[_ _ o3].
case/and3P: E => e1 e2 e3; rewrite r1 in e1; rewrite c1 in e2; rewrite /= e1 e2 /=.
exact: bc3' e3 o3.
Qed.

Lemma asrt_nv A (k : unit -> outcome A) a b : wf a -> wf b -> ~~ shapes_ok a b -> never (do u <- assert_shapes_compatible a b; k u).
Proof. by move=> wa wb h; apply: nv_l; apply: nv_assert. Qed.
Lemma constgen_nv v (x : tensor) r c b : wf (Const x r c) -> wf b -> ~~ shapes_ok (Const x r c) b ->
  never (do _ <- warn_if v; do y <- o_dense self b; do z <- t_add (t_expand11_is x) y;
      do s <- shape_broadcast2 (Const x r c) b; do u <- t_broadcast_to z s; ret (mk_dense u)).
Proof. by move=> wa wb h; do 3 (apply: nv_r => ?); apply: nv_l; apply: nv_sb2. Qed.
Lemma lrconst_nv (la ra ma : mat) (y : tensor) r c : wf (LR la ra ma) -> wf (Const y r c) -> okx (LR la ra ma) (Const y r c) -> ~~ shapes_ok (LR la ra ma) (Const y r c) ->
  never (do ' (r', c') <- shape_matrix_broadcast2 (LR la ra ma) (Const y r c);
      do b' <- const_to_lowrank y r' c'; o_add self (LR la ra ma) b').
Proof.
move=> wa wb hk h.
case E: (bcnok (mrows (LR la ra ma)) r && bcnok (mcols (LR la ra ma)) c); last by apply: nv_l; apply: nv_smb2; rewrite ?E.
case/andP: E => E1 E2.
have -> : shape_matrix_broadcast2 (LR la ra ma) (Const y r c) = ret (bcn (mrows (LR la ra ma)) r, bcn (mcols (LR la ra ma)) c).
  have hb : bcok [:: mrows (LR la ra ma)] [:: r] by rewrite bcok_cons E1.
  by rewrite /shape_matrix_broadcast2 !shape_matrixE // !bind_ret eab_two ?bcok_cons ?E1 ?E2 // !bct_cons // bind_ret.
rewrite bind_ret; have [_ _ py] := posn3 wb; case/posn3: (out_posn wa wb) => C0 R0 _.
apply: (nv_h (const_to_lowrank_ok (tsca_posn py) R0 C0) (or_intror (xh_const_lr _ _ _))) => z [[wz [rz cz] bz _] _ tz] nz.
apply: IHa => //; first by (case/orP: hk => [hk|/and3P[k1 k2 _]]; rewrite /okx ?hk // k1; clear -nz tz; case: z tz nz => //= l r m _ [->|[->]] //; rewrite orbT).
apply: contra h; rewrite /shapes_ok rz cz bz => /and3P[_ _ o].
by rewrite /shapes_ok E1 E2.
Qed.

Theorem add_mat_nv a b : wf a -> wf b -> tag a != 0%N -> tag b != 0%N -> okx a b -> ~~ shapes_ok a b ->
  never (do i <- lookup add_table (ty_of_matrix a) (ty_of_matrix b); add_body argsort self i a b).
Proof.
move=> wa wb ta tb hk so; rewrite add_selE.
case: a wa ta hk so => [x|d br r c|x|x|x r c|x|x|la ra ma|d la ra ma|la ra] wa ta; [by []|..];
  (case: b wb tb => [y|d' b' r' c'|y|y|y r' c'|y|y|lb rb mb|d' lb rb mb|lb rb] wb tb hk so; [by []|..]); clear ta tb; look;
  lazymatch goal with |- is_true (never (add_body _ _ ?i _ _)) => lazymatch i with
    | AZeroR => eapply asrt_nv; assumption | AZeroL => eapply asrt_nv; assumption | AGen => (eapply gen_nv; first [assumption|exact: okx_m])
    | ADense => (eapply (core_nv _ _ wa wb); [reflexivity|reflexivity|assumption])
    | ADiag => eapply diag2_nv; assumption | AConst => eapply asrt_nv; assumption | AConstDiag => eapply asrt_nv; assumption
    | AConstGen => eapply constgen_nv; assumption
    | ALT => (eapply (core_nv _ _ wa wb); [reflexivity|reflexivity|assumption])
    | AUT => (eapply (core_nv _ _ wa wb); [reflexivity|reflexivity|assumption])
    | AUTLT => (eapply (core_nv _ _ wa wb); [reflexivity|reflexivity|assumption])
    | ALTDiag => (eapply (coregen_nv _ _ wa wb); [exact: okx_2 hk|reflexivity|assumption])
    | AUTDiag => (eapply (coregen_nv _ _ wa wb); [exact: okx_2 hk|reflexivity|assumption])
    | ALR => eapply asrt_nv; assumption | ALRConst => eapply lrconst_nv; assumption
    | ADiagLR => eapply nv_woodbury; assumption
    | ALRDiag => (eapply nv_woodbury; first [assumption|rewrite okC; assumption])
    | AWb => (eapply wb_wb_nv; first [assumption|exact: okx_w hk _]) | AWbDiag => eapply wb_dg_nv; assumption
    | AWbLR => (eapply wb_lrc_nv; first [assumption|exact: okx_w hk _|by left|by right])
    | ARev => (apply IHa; first [assumption|rewrite okC; assumption|exact: okxC])
  end end.
Qed.
Lemma wf_to_matrix a : wf a -> [/\ wf (to_matrix a), tag (to_matrix a) != 0%N, mrows (to_matrix a) = mrows a,
  mcols (to_matrix a) = mcols a & mbatch (to_matrix a) = mbatch a].
Proof. by move=> wa; have [[h1 [h2 h3] h4 _] _ h5 _ _] := to_matrix_ok (or_introl wa). Qed.
Lemma tt_tag a b : (tag a = 0%N /\ tag b = 0%N) \/ (tag a != 0%N \/ tag b != 0%N).
Proof. by case: (tag a); case: (tag b); auto. Qed.
Lemma okn_tm a : okn a -> okn (to_matrix a).
Proof. by rewrite /okn; case: w => //=; apply: nw1_tm. Qed.
Lemma okx_tm a b : okx a b -> wf a -> wf b -> okx (to_matrix a) (to_matrix b).
Proof.
move=> h wa wb; have := okn_tm (okx_1 h); have := okn_tm (okx_2 h); move: h; rewrite /okx /okn; case: w => //= /and3P[_ _ h] -> -> /=.
have nm (x : tensor) : wf (Nm x) -> to_matrix (Nm x) = Dense (t_uprank x).
  by move=> v; rewrite /to_matrix /convert_num (wft_sh v).
by apply: contra h; case: (a) wa => [x|? ? ? ?|?|?|? ? ?|?|?|? ? ?|? ? ? ?|? ?] wa; rewrite ?(nm _ wa);
  case: (b) wb => [x'|? ? ? ?|?|?|? ? ?|?|?|? ? ?|? ? ? ?|? ?] wb; rewrite ?(nm _ wb).
Qed.
Theorem add_nv a b : wf a -> wf b -> okx a b -> ~~ shapes_ok a b -> never (add_step argsort self a b).
Proof.
move=> wa wb hk so; case: (tt_tag a b) => [[ta tb]|tt].
  have [x ea] := tag0 ta; have [y eb] := tag0 tb; subst a b.
  by eapply (core_nv _ _ wa wb).
have [wa' ta ra ca ba] := wf_to_matrix wa; have [wb' tb rb cb bb] := wf_to_matrix wb.
have E : add_step argsort self a b = do i <- lookup add_table (ty_of_matrix (to_matrix a)) (ty_of_matrix (to_matrix b)); add_body argsort self i (to_matrix a) (to_matrix b).
  clear -tt; case: a tt => [?|? ? ? ?|?|?|? ? ?|?|?|? ? ?|? ? ? ?|? ?] tt; [|reflexivity..].
  case: b tt => [?|? ? ? ?|?|?|? ? ?|?|?|? ? ?|? ? ? ?|? ?] tt; [|reflexivity..]; by case: tt.
rewrite E; refine (add_mat_nv wa' wb' ta tb (okx_tm hk wa wb) _); by rewrite /shapes_ok ra rb ca cb ba bb.
Qed.

(** *** multiply *)
Lemma mul_uncheckedC a b : mul_unchecked a b = mul_unchecked b a.
Proof.
have sC (x y : mat) : samesh x y = samesh y x by rewrite /samesh eq_sym [mcols _ == _]eq_sym.
by case: a => [?|? ? ? ?|?|?|? ? ?|?|?|? ? ?|? ? ? ?|? ?]; case: b => [?|? ? ? ?|?|?|? ? ?|?|?|? ? ?|? ? ? ?|? ?];
  rewrite /mul_unchecked // 1?bcokC // 1?[bcnok _ _]bcnokC // sC [samesh _ _ in X in _ && X]sC.
Qed.
Lemma tri_const_nv A (f : F -> F -> F) (k : tensor -> outcome A) a (y : tensor) : wf a -> cored a ->
  ~~ bcok (mbatch a) (sh y) -> never (do z <- t_map2 f (core a) (t_expand11_is y); k z).
Proof.
move=> wa ca h; apply: nv_l; have [sa _ _] := core_tmat wa ca; apply: nv_map2; apply: contra h.
rewrite sa /t_expand11_is; case E: (sh y) => [|d s] //=; first by rewrite bcoks0.
by rewrite -E !bcok_cons => /and3P[].
Qed.
Lemma ut_lt_nv A (k : tensor -> outcome A) (x y : tensor) : wf (UT x) -> wf (LT y) -> ~~ mul_unchecked (UT x) (LT y) ->
  never (do u <- o_diag self (UT x); do v <- o_diag self (LT y); do z <- t_mul u v; k z).
Proof.
have xg (z : mat) : nw1 z -> w \/ xe (o_diag self z) by move=> h; right; apply: xe_diag.
move=> wa wb h; apply: (nv_h (ok_diag ok wa isT) (xg (UT x) isT)) => u [su _ _] _; apply: (nv_h (ok_diag ok wb isT) (xg (LT y) isT)) => v [sv _ _] _.
by apply: nv_l; apply: nv_map2; apply: contra h; rewrite su sv bcok_cons andbC.
Qed.
Lemma wbgen_nv (d : tensor) (l r m b : mat) : wf (Wb d l r m) -> wf b -> okm (Wb d l r m) b -> ~~ shapes_ok (Wb d l r m) b ->
  never (do x <- o_mul self (wb_diag d) b; do y <- o_mul self (wb_lr l r m) b; o_add self x y).
Proof.
move=> wa wb /andP[k1 k2] h; rewrite /wb_diag /wb_lr; have [d1 l1 r1 c1 [b1 o1]] := wb_split wa.
have k3 : okm (Diag d) b by rewrite /okm k2 /okn orbT.
have k4 : okm (LR l r m) b by rewrite /okm k2 andbT; exact: k1.
case E1: (shapes_ok (Diag d) b); last by apply: nv_l; apply: IHu; rewrite ?E1.
case E2: (shapes_ok (LR l r m) b); last by apply: nv_r => x; apply: nv_l; apply: IHu; rewrite ?E2.
case/negP: h; case/and3P: E1 => e1 e2 e3; case/and3P: E2 => e4 e5 e6.
by rewrite /shapes_ok b1 bc_pair // andbT; apply/andP.
Qed.
Lemma kron_nv (la ra lb rb : mat) A (k : unit -> outcome A) : wf (Kron la ra) -> wf (Kron lb rb) -> ~~ mul_unchecked (Kron la ra) (Kron lb rb) ->
  never (do sla <- shape_matrix la; do slb <- shape_matrix lb;
      do sra <- shape_matrix ra; do srb <- shape_matrix rb;
      do u <- require ((sla == slb) && (sra == srb)) AssertionError; k u).
Proof.
case=> w1 w2 _ [w3 w4 _] h; rewrite !shape_matrixE // !bind_ret; apply: nv_l.
by move: h; rewrite /mul_unchecked /samesh -!pair_eqE /= => /negbTE ->.
Qed.
Lemma okm_tm a b : okm a b -> okm (to_matrix a) (to_matrix b).
Proof. by case/andP=> h1 h2; rewrite /okm !okn_tm. Qed.
Theorem mul_mat_nv a b : wf a -> wf b -> tag a != 0%N -> tag b != 0%N -> okm a b -> ~~ shapes_ok a b -> ~~ mul_unchecked a b ->
  never (do i <- lookup mul_table (ty_of_matrix a) (ty_of_matrix b); mul_body self i a b).
Proof.
move=> wa wb ta tb hk so mu; rewrite mul_selE.
case: a wa ta hk so mu => [x|d br r c|x|x|x r c|x|x|la ra ma|d la ra ma|la ra] wa ta; [by []|..];
  (case: b wb tb => [y|d' b' r' c'|y|y|y r' c'|y|y|lb rb mb|d' lb rb mb|lb rb] wb tb hk so mu; [by []|..]); clear ta tb; look;
  lazymatch goal with |- is_true (never (mul_body _ ?i _ _)) => lazymatch i with
    | MZeroR => eapply asrt_nv; assumption | MZeroL => eapply asrt_nv; assumption | MGen => eapply gen_nv; assumption
    | MDense => (eapply (core_nv _ _ wa wb); [reflexivity|reflexivity|assumption])
    | MDiag => eapply diag2_nv; assumption | MConst => eapply asrt_nv; assumption | MConstDiag => eapply asrt_nv; assumption
    | MDiagGen => eapply asrt_nv; assumption | MConstGen => eapply asrt_nv; assumption
    | MLT => (eapply (core_nv _ _ wa wb); [reflexivity|reflexivity|assumption])
    | MUT => (eapply (core_nv _ _ wa wb); [reflexivity|reflexivity|assumption])
    | MLTGen => (eapply (coregen_nv _ _ wa wb); [exact: okm_2 hk|reflexivity|assumption])
    | MUTGen => (eapply (coregen_nv _ _ wa wb); [exact: okm_2 hk|reflexivity|assumption])
    | MLTConst => (eapply (tri_const_nv _ _ wa); [reflexivity|exact: mu])
    | MUTConst => (eapply (tri_const_nv _ _ wa); [reflexivity|exact: mu])
    | MUTLT => (eapply ut_lt_nv; assumption)
    | MLR => eapply asrt_nv; assumption | MConstLR => eapply asrt_nv; assumption | MConstKron => eapply asrt_nv; assumption
    | MWbGen => (eapply wbgen_nv; first [assumption|exact: isT])
    | MKron => (eapply kron_nv; assumption)
    | MRev => (apply IHu; first [assumption|rewrite okC; assumption|rewrite mul_uncheckedC; assumption|exact: okmC])
  end end.
Qed.
Theorem mul_nv a b : wf a -> wf b -> okm a b -> ~~ shapes_ok a b -> ~~ mul_unchecked a b -> never (mul_step self a b).
Proof.
move=> wa wb hk so mu; case: (tt_tag a b) => [[ta tb]|tt].
  have [x ea] := tag0 ta; have [y eb] := tag0 tb; subst a b.
  by eapply (core_nv _ _ wa wb).
have [wa' ta ra ca ba] := wf_to_matrix wa; have [wb' tb rb cb bb] := wf_to_matrix wb.
have E : mul_step self a b = do i <- lookup mul_table (ty_of_matrix (to_matrix a)) (ty_of_matrix (to_matrix b)); mul_body self i (to_matrix a) (to_matrix b).
  clear -tt; case: a tt => [?|? ? ? ?|?|?|? ? ?|?|?|? ? ?|? ? ? ?|? ?] tt; [|reflexivity..].
  case: b tt => [?|? ? ? ?|?|?|? ? ?|?|?|? ? ?|? ? ? ?|? ?] tt; [|reflexivity..]; by case: tt.
rewrite E; refine (mul_mat_nv wa' wb' ta tb (okm_tm hk) _ _); first by rewrite /shapes_ok ra rb ca cb ba bb.
apply: contra mu; rewrite /mul_unchecked; clear -wa wb.
have nm (x : tensor) : wf (Nm x) -> to_matrix (Nm x) = Dense (t_uprank x).
  by move=> v; rewrite /to_matrix /convert_num (wft_sh v).
case: a wa => [x|d br r c|x|x|x r c|x|x|la ra ma|d la ra ma|la ra] wa; rewrite ?(nm _ wa);
 case: b wb => [y|d' b' r' c'|y|y|y r' c'|y|y|lb rb mb|d' lb rb mb|lb rb] wb; rewrite ?(nm _ wb) //.
Qed.

(** *** matmul *)
Lemma comp_nv A (k : unit -> outcome A) a b ta tb : wf a -> wf b -> mcolst a ta != mrowst b tb ->
  never (do u <- assert_composable a b ta tb; k u).
Proof.
by move=> wa wb /negbTE h; apply: nv_l; rewrite /assert_composable !shape_matrix_trE // !bind_ret /= h.
Qed.
Lemma tmm_nv A (k : tensor -> outcome A) a b ta tb : wf a -> wf b -> cored a -> cored b -> mcolst a ta != mrowst b tb ->
  never (do z <- t_matmul (core a) (core b) ta tb; k z).
Proof.
move=> wa wb ca cb h; apply: nv_l; have [sa _ _] := core_tmat wa ca; have [sb _ _] := core_tmat wb cb.
move: h; rewrite /t_matmul /t_tr /t_transpose sa sb /mcolst /mrowst.
by case: ta; case: tb; rewrite ?bind_ret /= /t_matmul_nn /= ?sa ?sb /= => /negbTE ->.
Qed.
Lemma is_res_wf (c : mat) r k (s : shape) g : is_res c r k s g -> [/\ wf c, mrows c = r & mcols c = k].
Proof. by case=> v [h1 h2] _ _. Qed.
Lemma xtr a t : nw a -> w \/ xh (tr a t) (fun x => nw x).
Proof. by move=> h; right; rewrite /tr; case: t => //; apply: xh_transp. Qed.
Lemma oknw a b : w \/ nw a -> w \/ nw b -> okm a b.
Proof. by rewrite /okm /okn => h1 h2; apply/andP; split; apply/orP; [case: h1|case: h2] => h; [by left|by right; apply: nw_nw1|by left|by right; apply: nw_nw1]. Qed.
Lemma trtr_nv a b ta tb : wf a -> wf b -> nw a -> nw b -> mcolst a ta != mrowst b tb ->
  never (do a' <- tr a ta; do b' <- tr b tb; o_matmul self a' b' false false).
Proof.
move=> wa wb na nb h; apply: (nv_h (tr_ok ta wa) (xtr ta na)) => a' [/is_res_wf[wa' ra ca] _ _] qa.
apply: (nv_h (tr_ok tb wb) (xtr tb nb)) => b' [/is_res_wf[wb' rb cb] _ _] qb.
by apply: IHm; rewrite // ?(oknw qa qb) // /mcolst /mrowst ca rb.
Qed.
Lemma dnum x a : wf a -> tmat x (mrows a) (mcols a) (mbatch a) (ent a) -> [/\ wf (Nm x), mrows (Nm x) = mrows a & mcols (Nm x) = mcols a].
Proof. by move=> wa hx; apply: is_res_wf (res_num hx). Qed.
Lemma ltgen_nv v a b ta tb : wf a -> wf b -> okm a b -> mcolst a ta != mrowst b tb ->
  never (do _ <- warn_if v; do x <- o_dense self a; o_matmul self (Nm x) b ta tb).
Proof.
move=> wa wb /andP[k1 k2] h; apply: nv_r => _; apply: (nv_h (ok_dense ok wa) (xd k1)) => x /(dnum wa)[wx rx cx] _.
by apply: IHm => //; [rewrite /okm k2 /okn orbT|move: h; rewrite /mcolst rx cx].
Qed.
Lemma genlt_nv v a b ta tb : wf a -> wf b -> okm a b -> mcolst a ta != mrowst b tb ->
  never (do _ <- warn_if v; do y <- o_dense self b; o_matmul self a (Nm y) ta tb).
Proof.
move=> wa wb /andP[k1 k2] h; apply: nv_r => _; apply: (nv_h (ok_dense ok wb) (xd k2)) => x /(dnum wb)[wx rx cx] _.
by apply: IHm => //; [rewrite /okm k1 /okn orbT|move: h; rewrite /mrowst rx cx].
Qed.
Lemma core_num a : wf a -> cored a -> [/\ wf (Nm (core a)), mrows (Nm (core a)) = mrows a & mcols (Nm (core a)) = mcols a].
Proof. by move=> wa ca; apply: dnum (core_tmat wa ca). Qed.
Lemma tridiag_nv (k : mat -> outcome mat) a (y : tensor) (ta tb : bool) : wf a -> wf (Diag y) -> cored a -> nw a -> mcolst a ta != mrowst (Diag y) tb ->
  never (if ~~ ta then do z <- o_matmul self (Nm (core a)) (Diag y) false false; k z
      else do a' <- tr a ta; o_matmul self a' (Diag y) false false).
Proof.
have nD : w \/ nw (Diag y) by right.
move=> wa wb ca na h; case: ta h => /= h.
  apply: (nv_h (tr_ok true wa) (xtr true na)) => a' [/is_res_wf[wa' ra ca'] _ _] qa; apply: IHm => //; first exact: oknw.
  by rewrite /mcolst ca' /mrowst; move: h; rewrite /mrowst /=; case: (tb).
have [h1 h2 h3] := core_num wa ca; apply: nv_l; apply: IHm => //; first by apply: oknw => //; right.
by rewrite /mcolst h3; move: h; rewrite /mrowst /=; case: (tb).
Qed.
Lemma diagtri_nv (k : mat -> outcome mat) (x : tensor) b (ta tb : bool) : wf (Diag x) -> wf b -> cored b -> nw b -> mcolst (Diag x) ta != mrowst b tb ->
  never (if ~~ tb then do z <- o_matmul self (Diag x) (Nm (core b)) false false; k z
      else do b' <- tr b tb; o_matmul self (Diag x) b' false false).
Proof.
have nD : w \/ nw (Diag x) by right.
move=> wa wb cb nb h; case: tb h => /= h.
  apply: (nv_h (tr_ok true wb) (xtr true nb)) => b' [/is_res_wf[wb' rb cb'] _ _] qb; apply: IHm => //; first exact: oknw.
  by rewrite /mrowst rb /mcolst; move: h; rewrite /mcolst /=; case: (ta).
have [h1 h2 h3] := core_num wb cb; apply: nv_l; apply: IHm => //; first by apply: oknw => //; right.
by rewrite /mrowst h2; move: h; rewrite /mcolst /=; case: (ta).
Qed.
Lemma tri2_nv (k : tensor -> outcome mat) a b (ta tb : bool) : wf a -> wf b -> cored a -> cored b -> nw a -> nw b -> mcolst a ta != mrowst b tb ->
  never (if ~~ ta && ~~ tb then do z <- t_matmul (core a) (core b) false false; k z
      else do a' <- tr a ta; do b' <- tr b tb; o_matmul self a' b' false false).
Proof.
move=> wa wb ca cb na nb h; case: ifP => E; last exact: trtr_nv.
by case: ta h E => //; case: tb => // h _; apply: tmm_nv.
Qed.
Lemma lrconst_mm (a : mat) (y : tensor) r c ta tb : wf a -> wf (Const y r c) -> okn a -> mcolst a ta != mrowst (Const y r c) tb ->
  never (do b' <- const_to_lowrank y r c; o_matmul self a b' ta tb).
Proof.
move=> wa wb k h; have [c0 r0 py] := posn3 wb.
apply: (nv_h (const_to_lowrank_ok (tsca_posn py) r0 c0) (or_intror (xh_const_lr _ _ _))) => z [/is_res_wf[wz rz cz] _ _] nz.
have kz : okn z by rewrite /okn; case: nz => [->|[/nw_nw1 -> _]]; rewrite ?orbT.
by apply: IHm; rewrite // /okm ?k ?kz // /mrowst rz cz.
Qed.
Lemma constlr_mm (b : mat) (y : tensor) r c ta tb : wf (Const y r c) -> wf b -> okn b -> mcolst (Const y r c) ta != mrowst b tb ->
  never (do a' <- const_to_lowrank y r c; o_matmul self a' b ta tb).
Proof.
move=> wa wb k h; have [c0 r0 py] := posn3 wa.
apply: (nv_h (const_to_lowrank_ok (tsca_posn py) r0 c0) (or_intror (xh_const_lr _ _ _))) => z [/is_res_wf[wz rz cz] _ _] nz.
have kz : okn z by rewrite /okn; case: nz => [->|[/nw_nw1 -> _]]; rewrite ?orbT.
by apply: IHm; rewrite // /okm ?k ?kz // /mcolst rz cz.
Qed.
Lemma wbgen_mm (d : tensor) (l r m b : mat) ta tb : wf (Wb d l r m) -> wf b -> okn b -> mcolst (Wb d l r m) ta != mrowst b tb ->
  never (do x <- o_matmul self (wb_diag d) b ta tb; do y <- o_matmul self (wb_lr l r m) b ta tb; o_add self x y).
Proof.
move=> wa wb k h; have [d1 _ _ _ _] := wb_split wa; apply: nv_l; apply: IHm => //.
by rewrite /okm k /okn orbT.
Qed.
Lemma genwb_mm (d : tensor) (l r m a : mat) ta tb : wf a -> wf (Wb d l r m) -> okn a -> mcolst a ta != mrowst (Wb d l r m) tb ->
  never (do x <- o_matmul self a (wb_diag d) ta tb; do y <- o_matmul self a (wb_lr l r m) ta tb; o_add self x y).
Proof.
move=> wa wb k h; have [d1 _ _ _ _] := wb_split wb; apply: nv_l; apply: IHm => //.
by rewrite /okm k /okn orbT.
Qed.
Lemma kron_mm (la ra lb rb : mat) ta tb A (k : outcome A) : wf (Kron la ra) -> wf (Kron lb rb) ->
  mcolst (Kron la ra) ta != mrowst (Kron lb rb) tb ->
  never (do _ <- assert_composable la lb ta tb; do _ <- assert_composable ra rb ta tb; k).
Proof.
case=> w1 w2 _ [w3 w4 _] h.
case E1: (mcolst la ta == mrowst lb tb); last by apply: comp_nv; rewrite ?E1.
apply: nv_r => _; apply: comp_nv => //; apply: contra h => /eqP E2; move/eqP: E1 E2.
by rewrite /mcolst /mrowst /=; case: ta; case: tb => -> ->.
Qed.
Lemma genkron_mm a b ta tb : wf a -> wf b -> okm a b -> mcolst a ta != mrowst b tb ->
  never (do x <- o_matmul self b a (~~ tb) (~~ ta); transpose x).
Proof.
move=> wa wb k h; apply: nv_l; apply: IHm => //; first exact: okmC.
rewrite eq_sym; move: h.
by rewrite /mcolst /mrowst; case: ta; case: tb.
Qed.
Theorem mm_mat_nv a b ta tb : wf a -> wf b -> tag a != 0%N -> tag b != 0%N -> okm a b -> mcolst a ta != mrowst b tb ->
  never (do i <- lookup mm_table (ty_of_matrix a) (ty_of_matrix b); mm_body self i a b ta tb).
Proof.
move=> wa wb ta' tb' hk e; rewrite mm_selE.
case: a wa ta' hk e => [x|d br r c|x|x|x r c|x|x|la ra ma|d la ra ma|la ra] wa ta'; [by []|..];
  (case: b wb tb' => [y|d' b' r' c'|y|y|y r' c'|y|y|lb rb mb|d' lb rb mb|lb rb] wb tb' hk e; [by []|..]); clear ta' tb'; look;
  lazymatch goal with |- is_true (never (mm_body _ ?i _ _ _ _)) => lazymatch i with
    | PZeroR => eapply comp_nv; assumption | PZeroL => eapply comp_nv; assumption
    | PDense => (eapply (tmm_nv _ wa wb); [reflexivity|reflexivity|assumption])
    | PDiag => eapply comp_nv; assumption | PDiagGen => eapply comp_nv; assumption | PGenDiag => eapply comp_nv; assumption
    | PConst => eapply comp_nv; assumption | PConstGen => eapply comp_nv; assumption | PGenConst => eapply comp_nv; assumption
    | PLT => (eapply (tri2_nv _ wa wb); [reflexivity|reflexivity|reflexivity|reflexivity|assumption])
    | PUT => (eapply (tri2_nv _ wa wb); [reflexivity|reflexivity|reflexivity|reflexivity|assumption])
    | PLTGen => eapply ltgen_nv; assumption | PGenLT => eapply genlt_nv; assumption
    | PLTDiag => (eapply (tridiag_nv _ wa wb); [reflexivity|reflexivity|eassumption])
    | PUTDiag => (eapply (tridiag_nv _ wa wb); [reflexivity|reflexivity|eassumption])
    | PDiagLT => (eapply (diagtri_nv _ wa wb); [reflexivity|reflexivity|eassumption])
    | PDiagUT => (eapply (diagtri_nv _ wa wb); [reflexivity|reflexivity|eassumption])
    | PLR => eapply comp_nv; assumption | PLRGen => eapply comp_nv; assumption | PGenLR => eapply comp_nv; assumption
    | PLRConst => (eapply lrconst_mm; first [assumption|exact: okm_1 hk]) | PConstLR => (eapply constlr_mm; first [assumption|exact: okm_2 hk])
    | PWbGen => (eapply wbgen_mm; first [assumption|exact: okm_2 hk]) | PGenWb => (eapply genwb_mm; first [assumption|exact: okm_1 hk])
    | PKron => eapply kron_mm; assumption | PKronGen => eapply comp_nv; assumption
    | PGenKron => eapply genkron_mm; assumption
    | PKronDiag => exact (ltgen_nv true wa wb hk e) | PDiagKron => exact (genlt_nv true wa wb hk e)
  end end.
Qed.
Theorem mm_nv a b ta tb : wf a -> wf b -> okm a b -> mcolst a ta != mrowst b tb -> never (matmul_step self a b ta tb).
Proof.
move=> wa wb hk e; case: (tt_tag a b) => [[ta' tb']|tt].
  have [x ea] := tag0 ta'; have [y eb] := tag0 tb'; subst a b.
  by eapply (tmm_nv _ wa wb).
have [wa' ta' ra ca _] := wf_to_matrix wa; have [wb' tb' rb cb _] := wf_to_matrix wb.
have E : matmul_step self a b ta tb = do i <- lookup mm_table (ty_of_matrix (to_matrix a)) (ty_of_matrix (to_matrix b)); mm_body self i (to_matrix a) (to_matrix b) ta tb.
  clear -tt; case: a tt => [?|? ? ? ?|?|?|? ? ?|?|?|? ? ?|? ? ? ?|? ?] tt; [|reflexivity..].
  case: b tt => [?|? ? ? ?|?|?|? ? ?|?|?|? ? ?|? ? ? ?|? ?] tt; [|reflexivity..]; by case: tt.
rewrite E; refine (mm_mat_nv wa' wb' ta' tb' (okm_tm hk) _); by rewrite /mcolst /mrowst ra rb ca cb.
Qed.
End Step.

Theorem ops_nv n : [/\ forall a b, wf a -> wf b -> okx a b -> ~~ shapes_ok a b -> never (o_add (ops_n argsort n) a b),
  forall a b, wf a -> wf b -> okm a b -> ~~ shapes_ok a b -> ~~ mul_unchecked a b -> never (o_mul (ops_n argsort n) a b) &
  forall a b ta tb, wf a -> wf b -> okm a b -> mcolst a ta != mrowst b tb -> never (o_matmul (ops_n argsort n) a b ta tb)].
Proof.
elim: n => [|n [h1 h2 h3]]; first by [].
split.
- move=> a b wa wb k so; exact: (add_nv h1 wa wb k so).
- move=> a b wa wb k so mu; exact: (mul_nv h2 wa wb k so mu).
- move=> a b ta tb wa wb k e; exact: (mm_nv h3 wa wb k e).
Qed.
End Raise.
