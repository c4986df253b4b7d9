(** * Correctness of the core operations: interface (proof support) *)
From mathcomp Require Import all_ssreflect all_algebra.
From Verif Require Import Outcome Monad Shape Tensor Mat Dispatch Ops Spec ShapeThy TensorThy MatThy.
Set Implicit Arguments. Unset Strict Implicit. Unset Printing Implicit Defensive.
Import GRing.Theory.
Local Open Scope ring_scope.

Section OpsOk.
Variable F : rcfType.
Notation tensor := (tensor F).
Notation mat := (mat F).
Implicit Types (a l m : mat) (t : tensor) (u be : seq nat).

(** [b] broadcasts with [a]. *)
Definition shapes_ok (a b : mat) : bool :=
  [&& bcnok (mrows a) (mrows b), bcnok (mcols a) (mcols b) & bcok (mbatch a) (mbatch b)].
(** Result of an entrywise operation with broadcasting. *)
Definition res2 (op : F -> F -> F) (a b c : mat) : Prop :=
  is_res c (bcn (mrows a) (mrows b)) (bcn (mcols a) (mcols b)) (bct (mbatch a) (mbatch b))
    (fun be i j => op (entb a be i j) (entb b be i j)).
(** Result of a matrix product. *)
Definition resm (a b : mat) (ta tb : bool) (c : mat) : Prop :=
  is_res c (mrowst a ta) (mcolst b tb) (bct (mbatch a) (mbatch b))
    (fun be i j => sumf (mcolst a ta) (fun p => entt a ta be i p * entt b tb be p j)).

Record ops_ok (self : ops F) : Prop := OpsOk {
  ok_dense : forall a, wf a ->
    hoare (o_dense self a) (fun t => tmat t (mrows a) (mcols a) (mbatch a) (ent a));
  ok_add : forall a b, wfo a -> wfo b -> wf a \/ wf b -> shapes_ok a b -> add_side a b ->
    hoare (o_add self a b) (fun c => res2 +%R a b c /\ (kfree a -> kfree b -> kfree c));
  ok_mul : forall a b, wfo a -> wfo b -> wf a \/ wf b -> shapes_ok a b -> mul_side a b ->
    hoare (o_mul self a b) (fun c => res2 *%R a b c /\ (kfree a -> kfree b -> kfree c));
  ok_mm : forall a b ta tb, wf a -> wf b -> mcolst a ta = mrowst b tb ->
    bcok (mbatch a) (mbatch b) -> mm_side a b ta tb ->
    hoare (o_matmul self a b ta tb) (fun c => resm a b ta tb c /\ (kfree a || kfree b -> kfree c));
  ok_sumax : forall a, wf a -> 
    hoare (o_sumax self a true) (fun t => tvec t (mrows a) (mbatch a) (fun be i => sumf (mcols a) (ent a be i))) /\
    hoare (o_sumax self a false) (fun t => tvec t (mcols a) (mbatch a) (fun be j => sumf (mrows a) (fun i => ent a be i j)));
  ok_sumall : forall a, wf a -> hoare (o_sumall self a) (fun t => sh t = [::] /\
    tget t [::] = sumall (mbatch a) (fun be => sumf (mrows a) (fun i => sumf (mcols a) (fun j => ent a be i j))));
  ok_diag : forall a, wf a -> dgok a ->
    hoare (o_diag self a) (fun t => tvec t (minn (mrows a) (mcols a)) (mbatch a) (fun be i => ent a be i i))
}.

(** ** Side conditions *)
Lemma add_side_same (a b : mat) : samesh a b -> add_side a b.
Proof.
move=> h; have h1 : full a b by case/andP: h => /eqP h1 /eqP h2; rewrite /full h1 h2 !bcnn !eqxx.
have h2 : full b a by case/andP: h => /eqP h2 /eqP h3; rewrite /full h2 h3 !bcnn !eqxx.
by move: h h1 h2; case: a => [?|? ? ? ?|?|?|? ? ?|?|?|? ? ?|? ? ? ?|? ?];
  case: b => [?|? ? ? ?|?|?|? ? ?|?|?|? ? ?|? ? ? ?|? ?] h h1 h2; rewrite /add_side ?h ?h1 ?h2 ?implybT.
Qed.
Lemma full_mul_num t (b : mat) : full b (Nm t) -> mul_side (Nm t) b.
Proof. by case: b => //= *; rewrite ?andbT. Qed.
Lemma full_mul_num' t (b : mat) : full b (Nm t) -> mul_side b (Nm t).
Proof. by case: b => //= *; rewrite ?andbT. Qed.
Lemma full_mul_dense t (b : mat) : full b (Dense t) -> mul_side (Dense t) b.
Proof. by case: b => //= *; rewrite ?andbT. Qed.
Lemma full_mul_dense' t (b : mat) : full b (Dense t) -> mul_side b (Dense t).
Proof. by case: b => //= *; rewrite ?andbT. Qed.
Lemma mm_side_kfree (a b : mat) ta tb : kfree a || kfree b -> mm_side a b ta tb.
Proof. by case: a => //; case: b. Qed.

Lemma res_kwf c r k b (f : seq nat -> nat -> nat -> F) : is_res c r k b f -> wf c.
Proof. by case. Qed.

(** ** The operations on described operands *)
Section Self.
Variable self : ops F.
Hypothesis ok : ops_ok self.

Lemma dense_res x r c b f : is_res x r c b f -> hoare (o_dense self x) (fun t => tmat t r c b f).
Proof.
case=> w [hr hc] hb e; apply: hoare_conseq (ok_dense ok w) _ => t; rewrite hr hc hb => h.
by apply: tmat_ext h _ => *; apply: e.
Qed.
Lemma res2_res (op : F -> F -> F) x y z rx cx bx fx ry cy by' fy :
  is_res x rx cx bx fx -> is_res y ry cy by' fy -> bcnok rx ry -> bcnok cx cy -> bcok bx by' ->
  res2 op x y z -> is_res z (bcn rx ry) (bcn cx cy) (bct bx by')
    (fun be i j => op (fx be (cl rx i) (cl cx j)) (fy be (cl ry i) (cl cy j))).
Proof.
case=> wx [hrx hcx] hbx ex [wy [hry hcy] hby ey] okr okc okb.
rewrite /res2 /entb hrx hcx hbx hry hcy hby => h; apply: res_ext h _ => be i j.
rewrite okb_bct // => /andP[o1 o2] hi hj.
have := (mrows_gt0 wx, mcols_gt0 wx, mrows_gt0 wy, mcols_gt0 wy); rewrite hrx hcx hry hcy => -[[[a1 a2] a3] a4].
by rewrite ex ?ey ?(cl_bcn_lt okr) ?(cl_bcn_ltr okr) ?(cl_bcn_lt okc) ?(cl_bcn_ltr okc).
Qed.
Lemma res_shapes x y rx cx bx fx ry cy by' fy :
  is_res x rx cx bx fx -> is_res y ry cy by' fy -> bcnok rx ry -> bcnok cx cy -> bcok bx by' -> shapes_ok x y.
Proof. by rewrite /shapes_ok; case=> _ [-> ->] -> _ [_ [-> ->] -> _] h1 h2 h3; apply/and3P. Qed.
Lemma add_res x y rx cx bx fx ry cy by' fy :
  is_res x rx cx bx fx -> is_res y ry cy by' fy -> bcnok rx ry -> bcnok cx cy -> bcok bx by' -> add_side x y ->
  hoare (o_add self x y) (fun z => is_res z (bcn rx ry) (bcn cx cy) (bct bx by')
    (fun be i j => fx be (cl rx i) (cl cx j) + fy be (cl ry i) (cl cy j)) /\ (kfree x -> kfree y -> kfree z)).
Proof.
move=> hx hy okr okc okb side.
apply: hoare_conseq (ok_add ok (or_introl (res_kwf hx)) (or_introl (res_kwf hy)) (or_introl (res_kwf hx)) _ side) _.
  exact: res_shapes hx hy _ _ _.
by move=> z [hz k]; split=> //; apply: res2_res hx hy _ _ _ hz.
Qed.
Lemma add_rese x y r c bx fx by' fy :
  is_res x r c bx fx -> is_res y r c by' fy -> bcok bx by' ->
  hoare (o_add self x y) (fun z => is_res z r c (bct bx by')
    (fun be i j => fx be i j + fy be i j) /\ (kfree x -> kfree y -> kfree z)).
Proof.
move=> hx hy okb; apply: hoare_conseq (add_res hx hy (bcnokn r) (bcnokn c) okb _) _.
  apply: add_side_same; case: hx hy => _ [h1 h2] _ _ [_ [h3 h4] _ _].
  by rewrite /samesh h1 h2 h3 h4 !eqxx.
move=> z [hz k]; split=> //; rewrite !bcnn in hz; apply: res_ext hz _ => be i j _ hi hj.
by rewrite !clid.
Qed.
Lemma mul_res x y rx cx bx fx ry cy by' fy :
  is_res x rx cx bx fx -> is_res y ry cy by' fy -> bcnok rx ry -> bcnok cx cy -> bcok bx by' -> mul_side x y ->
  hoare (o_mul self x y) (fun z => is_res z (bcn rx ry) (bcn cx cy) (bct bx by')
    (fun be i j => fx be (cl rx i) (cl cx j) * fy be (cl ry i) (cl cy j)) /\ (kfree x -> kfree y -> kfree z)).
Proof.
move=> hx hy okr okc okb side.
apply: hoare_conseq (ok_mul ok (or_introl (res_kwf hx)) (or_introl (res_kwf hy)) (or_introl (res_kwf hx)) _ side) _.
  exact: res_shapes hx hy _ _ _.
by move=> z [hz k]; split=> //; apply: res2_res hx hy _ _ _ hz.
Qed.
Lemma mm_res x y (ta tb : bool) rx cx bx fx ry cy by' fy :
  is_res x rx cx bx fx -> is_res y ry cy by' fy ->
  (if ta then rx else cx) = (if tb then cy else ry) -> bcok bx by' -> mm_side x y ta tb ->
  hoare (o_matmul self x y ta tb) (fun z =>
    is_res z (if ta then cx else rx) (if tb then ry else cy) (bct bx by')
    (fun be i j => sumf (if ta then rx else cx)
      (fun p => (if ta then fx be p i else fx be i p) * (if tb then fy be j p else fy be p j)))
    /\ (kfree x || kfree y -> kfree z)).
Proof.
case=> wx [hrx hcx] hbx ex [wy [hry hcy] hby ey] hk okb side.
apply: hoare_conseq (ok_mm ok wx wy _ _ side) _.
- by rewrite /mcolst /mrowst hrx hcx hry hcy.
- by rewrite hbx hby.
move=> z [hz k]; split=> //; move: hz; rewrite /resm /mcolst /mrowst hrx hcx hry hcy hbx hby => hz.
apply: res_ext hz _ => be i j; rewrite okb_bct // => /andP[o1 o2] hi hj; apply: eq_sumf => p hp.
rewrite /entt; congr (_ * _).
  by case: (ta) hi hp => hi hp; rewrite ex.
by move: hp; rewrite hk; case: (tb) hj => hj hp; rewrite ey.
Qed.
Lemma sum1_res x r c b f : is_res x r c b f ->
  hoare (o_sumax self x true) (fun t => tvec t r b (fun be i => sumf c (fun j => f be i j))).
Proof.
case=> w [hr hc] hb e; apply: hoare_conseq (ok_sumax ok w).1 _ => t; rewrite hr hc hb => h.
by apply: tvec_ext h _ => be i hbe hi; apply: eq_sumf => j hj; apply: e.
Qed.
Lemma sum2_res x r c b f : is_res x r c b f ->
  hoare (o_sumax self x false) (fun t => tvec t c b (fun be j => sumf r (fun i => f be i j))).
Proof.
case=> w [hr hc] hb e; apply: hoare_conseq (ok_sumax ok w).2 _ => t; rewrite hr hc hb => h.
by apply: tvec_ext h _ => be i hbe hi; apply: eq_sumf => j hj; apply: e.
Qed.
Lemma diag_res x r c b f : is_res x r c b f -> dgok x ->
  hoare (o_diag self x) (fun t => tvec t (minn r c) b (fun be i => f be i i)).
Proof.
case=> w [hr hc] hb e d; apply: hoare_conseq (ok_diag ok w d) _ => t; rewrite hr hc hb => h.
by apply: tvec_ext h _ => be i hbe; rewrite leq_min => /andP[h1 h2]; apply: e.
Qed.
End Self.

(** ** Scalars *)
Lemma uprank_scal t : sh t = [::] -> t_uprank t = t_expand1 (t_expand1 t).
Proof. by move=> e; rewrite /t_uprank e. Qed.
Lemma tsca_scal t : sh t = [::] -> tsca t [::] (fun _ => tget t [::]).
Proof. by move=> e; split; rewrite ?e // => be _; rewrite /sx /bat e. Qed.
Lemma scal_facts t : sh t = [::] ->
  [/\ mrows (Nm t) = 1%N, mcols (Nm t) = 1%N, mbatch (Nm t) = [::] &
      forall be i j, ent (Nm t) be i j = tget t [::]].
Proof.
by move=> e; rewrite /= uprank_scal // /trows /tcols /tbatch /mx /= e.
Qed.
Lemma to_matrix_ok a : wfo a ->
  [/\ is_res (to_matrix a) (mrows a) (mcols a) (mbatch a) (ent a),
      kfree (to_matrix a) = kfree a, tag (to_matrix a) != 0%N,
      tag a != 0%N -> to_matrix a = a & wf a -> ~~ isscal a].
Proof.
have gen : tag a != 0%N -> wfo a -> [/\ is_res (to_matrix a) (mrows a) (mcols a) (mbatch a) (ent a),
      kfree (to_matrix a) = kfree a, tag (to_matrix a) != 0%N,
      tag a != 0%N -> to_matrix a = a & wf a -> ~~ isscal a].
  move=> ta [] w; last by case: a ta w.
  have -> : to_matrix a = a by case: a ta {w}.
  by split=> //; case: a ta {w}.
case: a gen => [t|? ? ? ?|?|?|? ? ?|?|?|? ? ?|? ? ? ?|? ?] gen; try exact: gen.
move=> h; case E: (sh t) => [|d s].
  have [h1 h2 h3 h4] := scal_facts E; rewrite /to_matrix /convert_num E.
  split=> //; last by rewrite /= /wft /trank E.
  - rewrite h1 h2 h3; case: eqP => e; split=> //=.
    + by move=> be i j _ _ _; rewrite -e -(h4 be i j).
    + by rewrite E.
    + by move=> be i j _ _ _; rewrite -[RHS]/(ent (Nm t) be i j) h4 /sx /bat E.
  - by case: (tget t [::] == 0).
  - by case: (tget t [::] == 0).
have {}h : wf (Nm t) by case: h => // /eqP; rewrite E.
rewrite /to_matrix /convert_num E; split=> //; last by rewrite /= E.
by move: (tmat_num h (or_introl erefl)); rewrite (uprank_wft h) => /res_dense.
Qed.
Lemma wfo_pos a : wfo a -> (0 < mrows a)%N /\ (0 < mcols a)%N.
Proof.
move=> h; have [[w [h1 h2] _ _] _ _ _ _] := to_matrix_ok h.
by rewrite -h1 -h2; split; [apply: mrows_gt0|apply: mcols_gt0].
Qed.

(** ** Promotion of constants *)
Lemma fill_diag_ok t b g n : tsca t b g -> (0 < n)%N -> hoare (fill_diag t n) (fun c =>
  [/\ is_res c n n b (fun be i j => if i == j then g be else 0), kfree c & tag c = 3%N]).
Proof.
move=> ht n0; have h1 := tvec_expand1 ht; case: (ht) => s p _; rewrite /fill_diag s.
have h2 : tvec (t_ones (dt t) (n :: b)) n b (fun _ _ => (1 : F)) by apply: tvec_full; rewrite posn_cons n0.
apply: (hoare_bind (tvec_map2 _ h1 h2 (bc1nok _) (bcokss _))) => z; rewrite bc1n bctss => hz.
rewrite (mk_diag_tvec hz); apply: hoare_ret; split=> //; apply: res_ext (res_diag hz) _ => be i j _ _ _.
by rewrite mulr1.
Qed.
Lemma const_to_lowrank_ok t b g r c : tsca t b g -> (0 < r)%N -> (0 < c)%N ->
  hoare (const_to_lowrank t r c) (fun z => [/\ is_res z r c b (fun be _ _ => g be), kfree z & tag z = 7%N]).
Proof.
move=> ht r0 c0; case: (ht) => s p _.
apply: (hoare_bind (fill_diag_ok ht (isT : (0 < 1)%N))) => mid [hm km _].
have h1 k : (0 < k)%N -> is_res (Nm (t_ones (dt t) [:: 1%N; k])) k 1 [::] (fun _ _ _ => (1 : F)).
  by move=> k0; apply: res_num; apply: tmat_full; rewrite !posn_cons k0.
have bb : bto b b by exact: bto_refl.
have key : hoare (mk_lowrank (Nm (t_ones (dt t) [:: 1%N; r])) (Some (Nm (t_ones (dt t) [:: 1%N; c]))) (Some mid))
   (fun z => [/\ is_res z r c b (fun be _ _ => g be), kfree z & tag z = 7%N]).
  apply: hoare_conseq (mk_lowrank_res (u := b) (h1 _ r0) (h1 _ c0) hm isT isT km isT isT bb) _ => z [hz [kz E]].
  rewrite kz; split=> //; last by rewrite E.
  by apply: (res_cast hz) => // be i j _ _ _; rewrite /lrf !sumf1 mul1r mulr1.
case: eqP => [e|_] //; subst c; move: key.
case: (hm) => wm [mr mc] _ _; rewrite /mk_lowrank !(assert_matrixE wm) (shape_matrixE wm) mr mc.
by rewrite !bind_ret /=.
Qed.

(** ** broadcast_to *)
Lemma mk_const_ok t b g r c B : tsca t b g -> posn [:: c, r & B] -> bto b B ->
  hoare (mk_const t [:: c, r & B]) (fun z => [/\ is_res z r c B (fun be _ _ => g be), kfree z & tag z = 4%N]).
Proof.
rewrite !posn_cons => ht /and3P[c0 r0 pB] hb; case: (ht) => s p e; rewrite /mk_const.
case: B pB hb => [|d B] pB hb.
  move: hb ht; rewrite {e}; case: b s p => // s p _ ht; apply: hoare_ret; split=> //.
  exact: res_const ht r0 c0.
have ok : bcok b (d :: B) by apply: (@bcok_ub (d :: B)); rewrite ?bto_refl.
rewrite s eab_two // bind_ret bct_to //.
apply: (hoare_bind (tsca_broadcast ht pB hb)) => z hz; apply: hoare_ret; split=> //.
exact: res_const hz r0 c0.
Qed.
Lemma broadcast_to_ok self a R C B : ops_ok self -> wf a -> posn [:: C, R & B] ->
  bto (mshape a) [:: C, R & B] ->
  hoare (broadcast_to_step self a [:: C, R & B]) (fun c => is_res c R C B (entb a) /\ (kfree a -> kfree c)).
Proof.
move=> ok w p hb; rewrite /broadcast_to_step shape_ofE // bind_ret.
have [[e1 e2 e3]|ne] := mshape a =P [:: C, R & B].
  apply: hoare_ret; split=> //; rewrite -e1 -e2 -e3; split=> // be i j _ hi hj.
  by rewrite /entb !clid.
have bb := hb; rewrite /mshape /= in bb; case/and3P: bb => hc hr hB.
have gen : hoare (if take 2 (mshape a) == take 2 [:: C, R & B] then broadcast_batch_to a (drop 2 [:: C, R & B]) else
    do _ <- warn_if (structured a);
    do t <- o_dense self a; do u <- t_broadcast_to t [:: C, R & B]; ret (mk_dense u))
    (fun c : mat => is_res c R C B (entb a) /\ (kfree a -> kfree c)).
  case: eqP => [/= [e1 e2 _]|_].
    rewrite drop0; case: (posn3 p) => _ _ pB.
    apply: hoare_conseq (broadcast_batch_ok w pB hB) _ => c [h k _]; rewrite k; split=> //.
    by rewrite -e1 -e2; apply: res_ext h _ => be i j _ hi hj; rewrite /entb !clid.
  apply: hoare_warn_if; apply: (hoare_bind (ok_dense ok w)) => t ht.
  apply: (hoare_bind (tmat_broadcast ht p hb)) => z hz; rewrite (mk_dense_tmat hz).
  by apply: hoare_ret; split=> //; apply: res_dense.
have bs : bcok (mshape a) [:: C, R & B] by apply: (@bcok_ub [:: C, R & B]); rewrite ?bto_refl.
case: a w hb hc hr hB ne gen bs => //.
- move=> t w hb hc hr hB ne _ _; apply: (hoare_bind (tmat_broadcast (tmat_num w (or_introl erefl)) p hb)) => z hz.
  by apply: hoare_ret; split=> //; apply: res_num.
- move=> d b r c w hb hc hr hB ne _ bs.
  by rewrite eab_two // bind_ret bct_to //; apply: hoare_ret.
- move=> t r c w hb hc hr hB ne _ bs; rewrite eab_two // bind_ret bct_to //.
  have [_ _ p'] := posn3 w.
  by apply: hoare_conseq (mk_const_ok (tsca_posn p') p hB) _ => z [h k _].
Qed.
End OpsOk.
