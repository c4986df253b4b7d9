(** * C23, C36: means, Kronecker products, tiling, concatenation, reshaping,
      squeezing; diagonals of products *)
From mathcomp Require Import all_ssreflect all_algebra zify.
From Verif Require Import Outcome Monad Shape Tensor Mat Dispatch Ops Ops2 Spec ShapeThy TensorThy TensorThy2 MatThy OpsOk DenseOk LookThy AddOk MulOk MmOk OpsMain Term Calm Api Bridge Ans PropsMm SumThy PropsSum PropsArith.
From Verif Require Import Samples.
Set Implicit Arguments. Unset Strict Implicit. Unset Printing Implicit Defensive.
Import GRing.Theory Num.Theory.
Local Open Scope ring_scope.

Lemma inb_size s idx : inb s idx -> size idx = size s.
Proof. by elim: s idx => [|d s IH] [|i idx] //= /andP[_ /IH ->]. Qed.
Lemma inb_unravel s n : (n < prodn s)%N -> inb s (unravel s n).
Proof.
elim: s n => [|d s IH] n //= h; have d0 : (0 < d)%N by case: d h.
by rewrite ltn_mod d0 IH // ltn_divLR // mulnC.
Qed.
Lemma ravel_lt s idx : inb s idx -> (ravel s idx < prodn s)%N.
Proof.
elim: s idx => [|d s IH] [|i idx] //= /andP[hi /IH h].
apply: leq_trans (_ : d + d * ravel s idx <= _)%N; first by rewrite ltn_add2r.
by rewrite -mulnS leq_mul2l h orbT.
Qed.
Lemma inb_mod s reps idx : size reps = size s -> inb [seq (p.1 * p.2)%N | p <- zip s reps] idx ->
  inb s [seq (p.1 %% p.2)%N | p <- zip idx s].
Proof.
elim: s reps idx => [|d s IH] [|k reps] [|i idx] //= [hs] /andP[hi hb].
by rewrite ltn_mod (IH reps) // andbT; case: d hi.
Qed.

Section PropsLift.
Variable F : rcfType.
Notation tensor := (tensor F).
Notation mat := (mat F).
Variable argsort : seq F -> seq nat.
Hypothesis perm : argsort_ok argsort.
Notation answers := (answers argsort).
Implicit Types (a c : mat) (t x y z : tensor).

(** ** Numeric functions respect equality of arrays *)
Lemma teq_tile x y reps z : teq x y -> t_tile y reps = ret z -> exists2 u, t_tile x reps = ret u & teq u z.
Proof.
case=> h1 h2; rewrite /t_tile h1; case: eqP => // hs [<-]; eexists; first reflexivity.
split=> //= idx hi; apply: h2; rewrite h1; exact: inb_mod hs hi.
Qed.
Lemma teq_reshape x y ds z : teq x y -> t_reshape y ds = ret z -> exists2 u, t_reshape x ds = ret u & teq u z.
Proof.
case=> h1 h2; rewrite /t_reshape h1.
have P : forall s, resolve_dims (prodn (sh y)) ds = ret s -> prodn s = prodn (sh y).
  move=> s; rewrite /resolve_dims; case: ifP => c1.
    case: ifP => // /andP[c2 c3] [<-].
    have Q : forall (q : nat) (l : seq (option nat)), (count (fun d => ~~ isSome d) l <= 1)%N ->
       prodn [seq odflt q d | d <- l] = (prodn (pmap id l) * (if count (fun d => ~~ isSome d) l == 1 then q else 1))%N.
      move=> q; elim=> [|[d|] l IH] //= hc.
        by rewrite IH // mulnA.
      have c0 : count (fun d : option nat => ~~ isSome d) l = 0%N by lia.
      by rewrite IH ?c0 // muln1 mulnC.
    by rewrite Q ?(eqP c1) // mulnC divnK.
  by case: ifP => // /andP[_ /eqP e] [<-].
case E: (resolve_dims _ _) => [l s|//]; have hl : l = log0.
  by move: E; rewrite /resolve_dims; case: ifP => _; case: ifP => // _ [<-].
subst l; rewrite -/(ret s) !bind_ret => -[<-]; eexists; first reflexivity.
split=> //= idx hi; apply: h2; rewrite h1; apply: inb_unravel.
by rewrite -(P s) //; exact: ravel_lt.
Qed.
(** Pairwise equal lists of arrays. *)
Definition teqs (xs ys : seq tensor) : Prop :=
  size xs = size ys /\ forall k x0, (k < size xs)%N -> teq (nth x0 xs k) (nth x0 ys k).
Lemma teqs_cons x xs y ys : teqs (x :: xs) (y :: ys) <-> teq x y /\ teqs xs ys.
Proof.
split=> [[/= [h1] h2]|[h [h1 h2]]]; first by split; [exact: h2 0%N x isT|split=> // k x0 hk; exact: h2 k.+1 x0 hk].
by split=> [|[|k] x0 hk] //=; [rewrite h1|exact: h2].
Qed.
Lemma teqs_sh xs ys : teqs xs ys -> map (@sh F) xs = map (@sh F) ys.
Proof.
elim: xs ys => [|x xs IH] [|y ys] //; try by case.
by rewrite teqs_cons => -[[h _] /IH /= ->]; rewrite h.
Qed.
Lemma cat_teq xs ys p s idx : teqs xs ys -> (p < size s)%N ->
  all (fun u => upd (sh u) p 0%N == upd s p 0%N) xs ->
  inb (upd s p (sumn [seq nth 0%N (sh u) p | u <- xs])) idx -> cat_get xs p idx = cat_get ys p idx.
Proof.
elim: xs ys idx => [|x xs IH] [|y ys] idx //; try by case.
rewrite teqs_cons => -[[h1 h2] hs] hp /= /andP[/eqP hx hxs] hi.
have hl : (nth 0 idx p < nth 0 (sh x) p + sumn [seq nth 0 (sh u) p | u <- xs])%N.
  by have := inb_nth (q := p) hi; rewrite size_upd nth_upd //; apply.
rewrite -h1; case: ifP => c1.
  apply: h2; have := inb_upd hi c1; rewrite upd_nth -(upd_upd s p 0%N) -hx upd_upd upd_nth; exact.
apply: IH => //; apply: inb_upd hi _; lia.
Qed.
Lemma teq_concat xs ys ax z : teqs xs ys -> t_concat ys ax = ret z -> exists2 u, t_concat xs ax = ret u & teq u z.
Proof.
move=> h; have hm := teqs_sh h; rewrite /t_concat.
have -> : (if xs is t :: _ then trank t else 0%N) = (if ys is t :: _ then trank t else 0%N).
  by case: xs ys h hm => [|x xs] [|y ys] // _ [e _]; rewrite /trank e.
case E: (resolve_axis _ _) => [l p|//]; have hl : l = log0.
  by move: E; rewrite /resolve_axis; case: ax => n; case: ifP => // _ [<-].
subst l; rewrite -/(ret p) !bind_ret.
case: xs ys h hm E => [|x xs] [|y ys] // h hm E; rewrite /t_concat_pos.
have ex : sh x = sh y by case: hm.
have hall : all (fun u => upd (sh u) p 0%N == upd (sh x) p 0%N) (x :: xs) = all (fun u => upd (sh u) p 0%N == upd (sh y) p 0%N) (y :: ys).
  have X (zs : seq tensor) s : all (fun u => upd (sh u) p 0%N == s) zs = all (fun w => upd w p 0%N == s) (map (@sh F) zs) by rewrite all_map.
  by rewrite !X hm ex.
have hsum : [seq nth 0%N (sh u) p | u <- x :: xs] = [seq nth 0%N (sh u) p | u <- y :: ys].
  have X (zs : seq tensor) : [seq nth 0%N (sh u) p | u <- zs] = map (fun w => nth 0%N w p) (map (@sh F) zs) by rewrite -map_comp.
  by rewrite !X hm.
rewrite hall ex; case: ifP => // /andP[hp hal] [<-]; eexists; first reflexivity.
split=> [|idx]; first exact: (congr1 (fun l => upd (sh y) p (sumn l)) hsum).
rewrite [sh _]/= => hi; apply: (@cat_teq (x :: xs) (y :: ys) p (sh y) idx) => //.
by move: hal; rewrite -hall ex.
Qed.
Lemma den_dense_teq t : (2 <= trank t)%N -> teq (den (Dense t : mat)) t.
Proof.
rewrite /trank => h; case e: (sh t) h => [|k [|r b]] // _.
have E : mshape (Dense t : mat) = sh t by rewrite /mshape /= /tcols /trows /tbatch e /= drop0.
split=> [|idx]; first exact: E.
rewrite [sh _]E e; case: idx => [|j [|i be]] //= ; first by rewrite andbF.
by case/and3P=> _ _ hb; rewrite /mx e /= drop0 clamp_id.
Qed.
Lemma arr_mk_dense t : (2 <= trank t)%N -> teq (arr (mk_dense t : mat)) t.
Proof. by move=> h; rewrite /mk_dense uprank2 //; exact: den_dense_teq. Qed.

(** ** C23: reshape, squeeze, concat, tile *)
Theorem C23_reshape a ds z : wf a -> t_reshape (den a) ds = ret z ->
  answers (fun o => reshape_op o a ds) (fun t => teq t z).
Proof.
move=> w hz; apply: ans_warn; apply: ans_bind (ans_dense perm w) _ => t ht.
have [u -> hu] := teq_reshape (tmat_teq ht (den_tmat w)) hz; exact: ans_ret.
Qed.
Theorem C23_squeeze a z : wf a -> t_squeeze (den a) = ret z -> answers (fun o => squeeze_op o a) (fun t => teq t z).
Proof.
move=> w hz; apply: ans_warn; apply: ans_bind (ans_dense perm w) _ => t ht.
have h := tmat_teq ht (den_tmat w); move: hz; rewrite /t_squeeze.
have -> : sh (den a) = sh t by case: h.
by move=> hz; have [u -> hu] := teq_reshape h hz; exact: ans_ret.
Qed.
Lemma dens_ok xs : (forall k, (k < size xs)%N -> wf (nth (Nm (t_scalar DInt 0)) xs k)) ->
  answers (fun o => mapM (o_dense o) xs) (fun ts => teqs ts (map (@den F) xs)).
Proof.
elim: xs => [|x xs IH] h; first by apply: ans_ret.
rewrite /=; apply: ans_bind (ans_dense perm (h 0%N isT)) _ => t ht.
apply: ans_bind (IH _) _ => [k hk|ts hts]; first exact: h k.+1 hk.
apply: ans_ret; apply/teqs_cons; split=> //; exact: tmat_teq ht (den_tmat (h 0%N isT)).
Qed.
Theorem C23_concat xs axis z : (forall k, (k < size xs)%N -> wf (nth (Nm (t_scalar DInt 0)) xs k)) ->
  t_concat (map (@den F) xs) axis = ret z ->
  answers (fun o => concat_op o xs axis) (fun c => teq (arr c) z).
Proof.
move=> h hz; apply: ans_warn; apply: ans_bind (dens_ok h) _ => ts hts.
have [u hu tu] := teq_concat hts hz; apply: (ans_eq hu); apply: ans_ret.
apply: teq_trans tu; apply: arr_mk_dense; rewrite /trank.
move: hu; rewrite /t_concat; case: ts hts => [|t ts] hts; first by case: resolve_axis.
case: (resolve_axis _ _) => // l p; rewrite /bind /t_concat_pos; case: ifP => // _ hu.
have {hu} -> : sh u = upd (sh t) p (sumn [seq nth 0%N (sh u0) p | u0 <- t :: ts]) by rewrite /ret in hu; injection hu => <-.
rewrite size_upd.
case: xs h hz hts => [|x xs] h hz; first by case.
by move/teqs_cons => -[[-> _] _].
Qed.
Theorem C23_tile a reps z : wf a -> t_tile (den a) reps = ret z ->
  answers (fun o => tile_op o a reps) (fun c => teq (arr c) z).
Proof.
move=> w hz; have hs : size reps = (size (mbatch a)).+2.
  by move: hz; rewrite /t_tile /=; case: eqP.
have gen : answers (fun o => do _ <- warn_if (structured a); do t <- o_dense o a; do u <- t_tile t reps; ret (mk_dense u))
    (fun c => teq (arr c) z).
  apply: ans_warn; apply: ans_bind (ans_dense perm w) _ => t ht.
  have [u hu tu] := teq_tile (tmat_teq ht (den_tmat w)) hz; apply: (ans_eq hu); apply: ans_ret.
  apply: teq_trans tu; apply: arr_mk_dense; move: hu; rewrite /t_tile /trank; case: eqP => // e [<-] /=.
  by rewrite size_map size_zip e minnn; case: ht => ->.
case: a w hz hs gen => [t|d b r c|t|t|t r c|t|t|l r m|d l r m|l r] w hz hs gen; try exact: gen.
- have ht := tmat_teq (tmat_num w (or_introl erefl)) (den_tmat w).
  by have [u hu tu] := teq_tile ht hz; apply: (ans_eq hu); apply: ans_ret.
- move: hz => {gen}; rewrite /t_tile [sh _]/= hs eqxx => -[<-].
  case: reps hs => [|k1 [|k2 reps]] //= [hs]; rewrite hs addn2 eqxx bind_ret; apply: ans_ret.
  rewrite /= drop0; split=> // -[|j [|i be]] //= _.
- move: hz => {gen}; rewrite /t_tile [sh _]/= hs eqxx => -[<-].
  case: reps hs => [|k1 [|k2 reps]] //= [hs]; rewrite /tile_op /rank_of shape_ofE // !bind_ret /= hs eqxx bind_ret.
  rewrite /t_tile drop0 hs eqxx !bind_ret; apply: ans_ret.
  split=> // -[|j [|i be]] //= /and3P[_ _ hb].
  have hb' := inb_mod hs hb; by rewrite /sx /bat /= !clamp_id.
Qed.

(** ** C23: kron *)
Lemma look_kron (x y : ty) : lookup kron_table x y = ret
  (match x, y with TZero, _ => KZeroL | _, TZero => KZeroR | TConst, TConst => KConst | _, _ => KGen end).
Proof. by case: x; case: y. Qed.
(** NumPy's [kron] of two numeric arrays needs equal batch shapes. *)
Definition kron_side a (b : mat) : bool :=
  match a, b with
  | Nm _, Nm _ => mbatch a == mbatch b
  | Zero _ _ _ _, Zero _ _ _ _ => false
  | _, _ => true
  end.
Definition kpost a (b : mat) c := is_res c (mrows a * mrows b) (mcols a * mcols b) (bct (mbatch a) (mbatch b))
  (fun be i j => ent a be (i %/ mrows b)%N (j %/ mcols b)%N * ent b be (i %% mrows b)%N (j %% mcols b)%N).
Lemma kron_zeroR rec a d b r (k : nat) : wf a -> wf (Zero d b r k : mat) -> tag a != 0%N -> tag a != 1%N -> bcok (mbatch a) b ->
  exists2 z, kron_body rec a (Zero d b r k) = ret z & kpost a (Zero d b r k) z.
Proof.
move=> wa wb t0 t1 o; exists (Zero d (bct (mbatch a) b) (mrows a * r) (mcols a * k)).
  rewrite /kron_body look_kron bind_ret.
  have -> : (match ty_of_matrix a with TZero => KZeroL | _ => KZeroR end) = KZeroR by case: a t0 t1 {wa o}.
  rewrite /shape_batch_broadcast /= shape_batchE // !bind_ret (eab_two o) bind_ret.
  by rewrite /product_shape shape_matrixE // !bind_ret.
have [c0 r0 b0] := posn3 (wb : posn [:: k, r & b]); have [c1 r1 b1] := posn3 (wf_posn wa).
split=> //= [|be i j _ _ _]; last by rewrite mulr0.
by rewrite !posn_cons !muln_gt0 c0 r0 c1 r1 posn_bct.
Qed.
Lemma kron_mat n a (b : mat) : wf a -> wf b -> tag a != 0%N -> tag b != 0%N -> bcok (mbatch a) (mbatch b) ->
  ~~ ((tag a == 1%N) && (tag b == 1%N)) -> exists2 c, kron_body (@kron_n F n.+1) a b = ret c & kpost a b c.
Proof.
move=> wa wb ta tb o nz.
have [[d [bb [r [c eb]]]]|nb] : (exists d bb r k, b = Zero d bb r k) \/ tag b != 1%N.
  by case: b {wb tb o nz} => [x|d bb r c|x|x|x ? ?|x|x|? ? ?|? ? ? ?|? ?]; first [by right|left; exists d, bb, r, c].
  by subst b; apply: kron_zeroR => //; move: nz; rewrite andbT.
have [[d [bb [r [c eb]]]]|na] : (exists d bb r k, a = Zero d bb r k) \/ tag a != 1%N.
  by case: a {wa ta o nz} => [x|d bb r c|x|x|x ? ?|x|x|? ? ?|? ? ? ?|? ?]; first [by right|left; exists d, bb, r, c].
  rewrite eb in wa o nz *; have ob : bcok (mbatch b) bb by rewrite bcokC.
  have -> : kron_body (@kron_n F n.+1) (Zero d bb r c) b = kron_body (@kron_n F n) b (Zero d bb r c).
    by rewrite {1}/kron_body look_kron bind_ret; case: b tb {wb o nz nb ob}.
  have [z -> hz] := kron_zeroR (@kron_n F n) wb wa tb nb ob; exists z => //.
  rewrite /kpost /= in hz *.
  rewrite bctC // (mulnC r) (mulnC c); apply: res_ext hz _ => be i j _ _ _ /=; by rewrite mulr0 mul0r.
have [[x [r [c [y [r' [c' [ea eb]]]]]]]|nc] : (exists x r k y r' k', a = Const x r k /\ b = Const y r' k') \/ (tag a != 4%N \/ tag b != 4%N).
  case: a {wa ta o nz na} => [x|? ? ? ?|x|x|x r c|x|x|? ? ?|? ? ? ?|? ?]; try by right; left.
  case: b {wb tb nb} => [y|? ? ? ?|y|y|y r' c'|y|y|? ? ?|? ? ? ?|? ?]; try by right; right.
  by left; exists x, r, c, y, r', c'.
  subst a b; rewrite /kron_body look_kron bind_ret.
  have [p0 p1 p2] := posn3 (wa : posn [:: c, r & sh x]); have [p0' p1' p2'] := posn3 (wb : posn [:: c', r' & sh y]).
  have [z hz pz] := calm_hoare (cm_map2 _ _ _) (tsca_map2 *%R (tsca_posn p2) (tsca_posn p2') o).
  rewrite /= /t_mul hz bind_ret /product_shape !shape_matrixE // !bind_ret; eexists; first reflexivity.
  by apply: res_const pz _ _; rewrite muln_gt0 ?p0 ?p1.
exists (Kron a b); last by split.
rewrite /kron_body look_kron bind_ret.
have H : forall x y : ty, ty_of_matrix a = x -> ty_of_matrix b = y -> x <> TZero -> y <> TZero -> ~ (x = TConst /\ y = TConst) ->
   match x, y with TZero, _ => KZeroL | _, TZero => KZeroR | TConst, TConst => KConst | _, _ => KGen end = KGen.
  by move=> [] [] // _ _ _ _ [].
rewrite (H _ _ erefl erefl) //.
- by case: a na {H wa ta o nz nc}.
- by case: b nb {H wb tb o nz nc}.
- by case=> h1 h2; case: nc; [case: a h1 {H wa ta o nz na}|case: b h2 {H wb tb o nz nb}].
Qed.
Lemma kron_ok a (b : mat) n : wf a -> wf b -> bcok (mbatch a) (mbatch b) -> kron_side a b -> (2 <= n)%N ->
  exists2 c, kron_n n a b = ret c & kpost a b c.
Proof.
case: n => [|[|n]] // wa wb o sd _.
have [[ta tb]|tt] : (tag a = 0%N /\ tag b = 0%N) \/ (tag a != 0%N \/ tag b != 0%N).
  by case: (tag a); case: (tag b); auto.
- have [x ea] := tag0 ta; have [y eb] := tag0 tb; subst a b.
  have hx := tmat_num wa (or_introl erefl); have hy := tmat_num wb (or_introl erefl).
  move: sd => /eqP sd; rewrite -sd in hy.
  have [z hz pz] := calm_hoare (cm_k2 _ _) (tmat_kron2 hx hy).
  exists (Nm z); first by rewrite /= hz bind_ret.
  apply: res_cast (res_num pz) _ _ => //; by rewrite -sd bctss.
- have [[wA [ra ca] ba ea] ka na _ _] := to_matrix_ok (or_introl wa).
  have [[wB [rb cb] bb eb] kb nb _ _] := to_matrix_ok (or_introl wb).
  have -> : kron_n n.+2 a b = kron_body (@kron_n F n.+1) (to_matrix a) (to_matrix b).
    by case: a tt {wa o sd wA ra ca ba ea ka na} => [?|? ? ? ?|?|?|? ? ?|?|?|? ? ?|? ? ? ?|? ?] //; case: b {wb wB rb cb bb eb kb nb} => // ? [].
  have nz : ~~ ((tag (to_matrix a) == 1%N) && (tag (to_matrix b) == 1%N)).
    have Z (x : mat) : wf x -> tag (to_matrix x) == 1%N -> tag x == 1%N.
      by case: x => // t; rewrite /= /wft /trank /convert_num; case: (sh t).
    apply/negP => /andP[/(Z _ wa) h1 /(Z _ wb) h2]; move: sd.
    by case: a h1 {Z tt wa o wA ra ca ba ea ka na} => // ? ? ? ? _; case: b h2 {wb wB rb cb bb eb kb nb}.
  have ob : bcok (mbatch (to_matrix a)) (mbatch (to_matrix b)) by rewrite ba bb.
  have [c hc p] := kron_mat n wA wB na nb ob nz; exists c => //; move: p.
  rewrite /kpost ra ca rb cb ba bb => p; apply: res_ext p _ => be i j; rewrite okb_bct // => /andP[h1 h2] h3 h4.
  have [p1 p2 _] := posn3 (wf_posn wb).
  by rewrite ea ?eb ?ltn_mod ?ltn_divLR.
Qed.
(** NumPy's [kron] is the specification, after both arguments are broadcast to a common batch shape. *)
Theorem C23_kron a (b : mat) n : wf a -> wf b -> bcok (mbatch a) (mbatch b) -> kron_side a b -> (2 <= n)%N ->
  exists2 c, kron_n n a b = ret c & wf c /\
    is_value (do x <- t_broadcast_batch_to (den a) (bct (mbatch a) (mbatch b));
              do y <- t_broadcast_batch_to (den b) (bct (mbatch a) (mbatch b)); t_kron2 x y) (den c).
Proof.
move=> wa wb o sd hn; have [c hc pc] := kron_ok wa wb o sd hn.
exists c => //; split; first by case: pc.
have pb := posn_bct (mbatch_pos wa) (mbatch_pos wb).
apply: value_tmat _ _ (res_tmat pc).
  by apply: calm_bind => [|?]; [exact: cm_bbto|apply: calm_bind => [|?]; [exact: cm_bbto|exact: cm_k2]].
apply: hoare_bind (tmat_broadcast_batch (den_tmat wa) pb (bct_ubl o)) _ => x hx.
apply: hoare_bind (tmat_broadcast_batch (den_tmat wb) pb (bct_ubr o)) _ => y hy.
exact: tmat_kron2 hx hy.
Qed.
(** [kron] of two [Zero] matrices never returns. *)
Theorem C23_kron_zero_refuted n d1 b1 r1 k1 d2 b2 r2 k2 :
  kron_n n (Zero d1 b1 r1 k1 : mat) (Zero d2 b2 r2 k2) = Raise RecursionError.
Proof.
elim: n d1 b1 r1 k1 d2 b2 r2 k2 => [|n IH] * //.
by rewrite [LHS]/= /kron_body look_kron bind_ret; exact: IH.
Qed.

(** ** C23: mean *)
Lemma t_div_scal t d (x : F) : exists2 u, t_div t (t_scalar d x) = ret u & teq u (t_map (fun y : F => y / x) t).
Proof.
have E : bc (sh t) [::] = Some (sh t) by case: (sh t).
rewrite /t_div /t_map2 E; eexists; first reflexivity.
by split=> //= idx hi; rewrite /bat clamp_id.
Qed.
Lemma mean_num (m : outcome tensor) t d (x : F) : is_value m t ->
  answers (fun o => divide o (Nm t) (Nm (t_scalar d x)))
    (fun c => is_value (do s <- m; ret (t_map (fun y : F => y / x) s)) (arr c)).
Proof.
case=> z -> [h1 h2]; have [u hu [e1 e2]] := t_div_scal t d x.
apply: ans_ext (_ : forall o, (do z <- t_div t (t_scalar d x); ret (Nm z)) = _) _ => //.
apply: (ans_eq hu); apply: ans_ret; rewrite bind_ret; eexists; first reflexivity.
split=> /= [|idx hi]; first by rewrite e1 /= h1.
by rewrite e2 //= h2 // -[sh t]e1.
Qed.
Lemma bind_nm B (m : outcome tensor) (k : mat -> outcome B) :
  (do x <- (do t <- m; ret (Nm t)); k x) = do t <- m; k (Nm t).
Proof. by case: m => [l t|l e] //; rewrite /bind /= log0r. Qed.
(** The sum over the axis, divided by its length. *)
Theorem C23_mean a (axis : int) p : wf a -> resolve_axis (size (mshape a)) axis = ret p ->
  answers (fun o => mean_op o a (Some axis)) (fun c =>
    is_value (do s <- t_sum (den a) (Some axis); ret (t_map (fun y : F => y / (nth 0%N (mshape a) p)%:R) s)) (arr c)).
Proof.
move=> w hp; have hp' : (p < (size (mbatch a)).+2)%N.
  by move: hp; rewrite /resolve_axis /mshape /=; case: axis => n; case: ifP => // h []; lia.
rewrite /mean_op; apply: ans_eq (shape_ofE w) _.
apply: ans_ext (_ : forall o, (do x <- sum_op o a (Some axis); divide o x (Nm (t_scalar weak (nth 0%N (mshape a) p)%:R))) = _) _.
  by move=> o; rewrite hp !bind_ret.
rewrite /sum_op /rank_of shape_ofE //.
apply: ans_ext (_ : forall o, (do x <- sum_pos o a p; divide o x (Nm (t_scalar weak (nth 0%N (mshape a) p)%:R))) = _) _.
  by move=> o; rewrite !bind_ret hp bind_ret.
have E : t_sum (den a) (Some axis) = t_sum_pos (den a) p by rewrite /t_sum /trank hp bind_ret.
rewrite E; case: p hp hp' E => [|[|q]] hp hp' E.
- rewrite /sum_pos; apply: ans_ext (_ : forall o, (do t <- o_sumax o a true; divide o (Nm t) (Nm (t_scalar weak (nth 0%N (mshape a) 0)%:R))) = _) _.
    by move=> o; rewrite bind_nm.
  apply: ans_bind (ans_sum1 perm w) _ => t ht; apply: mean_num.
  exact: value_tvec (cm_sumpos _ _) (tmat_sum0 (den_tmat w)) ht.
- rewrite /sum_pos; apply: ans_ext (_ : forall o, (do t <- o_sumax o a false; divide o (Nm t) (Nm (t_scalar weak (nth 0%N (mshape a) 1)%:R))) = _) _.
    by move=> o; rewrite bind_nm.
  apply: ans_bind (ans_sum2 perm w) _ => t ht; apply: mean_num.
  exact: value_tvec (cm_sumpos _ _) (tmat_sum1 (den_tmat w)) ht.
- apply: ans_bind (sumb_ok perm w hp') _ => x hx; set n := (_)%:R.
  have wx : wf x by case: hx. have [s1 s2] := scal_shapes x weak n; have [m1 m2] := andP (scal_mul x weak n).
  apply: ans_conseq (divide_ok perm (or_introl wx) (scal_wfo weak n) (or_introl wx) s1 m1) _ => c.
  rewrite /res2 /= !bcn1 bcts0 => hc.
  apply: value_arr _ _ hc.
    by apply: calm_bind => [|?]; [exact: cm_sumpos|].
  apply: hoare_bind (tmat_sumb (den_tmat w) hp') _ => z hz; apply: hoare_ret.
  case: hx => _ [e1 e2] e3 e4; rewrite e1 e2 e3; apply: tmat_ext (tmat_map (fun y : F => y / n) hz) _ => be i j hb hi hj.
  by rewrite -e4 // /entb e1 e2 (clid hi) (clid hj).
Qed.
Theorem C23_mean_all a : wf a ->
  answers (fun o => mean_op o a None) (fun c =>
    is_value (do s <- t_sum (den a) None; ret (t_map (fun y : F => y / (prodn (mshape a))%:R) s)) (arr c)).
Proof.
move=> w; rewrite /mean_op; apply: ans_eq (shape_ofE w) _.
apply: ans_ext (_ : forall o, (do t <- o_sumall o a; divide o (Nm t) (Nm (t_scalar weak (prodn (mshape a))%:R))) = _) _.
  by move=> o; rewrite bind_ret /sum_op bind_nm.
apply: ans_bind (ans_sumall perm w) _ => t [h1 h2]; apply: mean_num.
exists (t_sum_all (den a)) => //; split=> /=; first by rewrite h1.
case=> [|i idx]; rewrite h1 //= => _; rewrite h2.
by have := tmat_sumall (den_tmat w); rewrite /= => ->.
Qed.

(** ** C36 *)
Definition islr a : bool := if a is LR _ _ _ then true else false.
(** The product is square; unless both operands are low-rank, [multiply] must be right on
    the operands transposed as the code transposes them. *)
Lemma matmul_diag_res a (b : mat) (ta tb : bool) : wf a -> wf b ->
  mcolst a ta = mrowst b tb -> mrowst a ta = mcolst b tb -> bcok (mbatch a) (mbatch b) ->
  islr a && islr b \/ (forall a' b', tr a (~~ ta) = ret a' -> tr b tb = ret b' -> mul_side a' b') ->
  answers (fun o => matmul_diag o a b ta tb)
    (fun t => tvec t (mrowst a ta) (bct (mbatch a) (mbatch b)) (fun be i => sumf (mcolst a ta) (fun p => entt a ta be i p * entt b tb be p i))).
Proof.
move=> wa wb e1 e2 o sd.
have [/andP[la lb]|nl] : islr a && islr b \/ ~~ (islr a && islr b) by case: (_ && _); auto.
- case: a la wa e1 e2 o {sd} => // l r m _ wa e1 e2 o; case: b lb wb e1 e2 o => // l' r' m' _ wb e1 e2 o.
  rewrite /matmul_diag; apply: ans_bind (ans_mm perm wa wb e1 o isT) _ => z [hz kz].
  have dz : dgok z by apply: tag_dgok; have : kfree z by [apply: kz; rewrite wf_kfree]; case: (z).
  apply: ans_conseq (ans_diag_res perm hz dz) _ => t ht.
  by rewrite -e2 minnn in ht.
- have {}sd : forall a' b', tr a (~~ ta) = ret a' -> tr b tb = ret b' -> mul_side a' b'.
    by case: sd => // h; rewrite h in nl.
  apply: ans_ext (_ : forall o, (do a' <- tr a (~~ ta); do b' <- tr b tb; do c <- o_mul o a' b'; o_sumax o c false) = _) _.
    by case: a nl {wa e1 e2 o sd} => //= ? ? ?; case: b {wb}.
  have [a' ha [ra _ _]] := calm_hoare (cm_tr _ _) (tr_ok (~~ ta) wa).
  have [b' hb [rb _ _]] := calm_hoare (cm_tr _ _) (tr_ok tb wb).
  apply: (ans_eq ha); apply: (ans_eq hb).
  have E1 : mrowst a (~~ ta) = mrowst b tb by rewrite -e1; case: (ta).
  have E2 : mcolst a (~~ ta) = mcolst b tb by rewrite -e2; case: (ta).
  rewrite E1 E2 in ra.
  apply: ans_bind (ans_mul_rese perm ra rb o (sd _ _ ha hb)) _ => c [hc _].
  apply: ans_conseq (ans_sum2_res perm hc) _ => t ht; rewrite e2 e1.
  by apply: tvec_ext ht _ => be i _ _; apply: eq_sumf => p _; case: (ta).
Qed.
Theorem C36_matmul_diag a (b : mat) (ta tb : bool) : wf a -> wf b ->
  mcolst a ta = mrowst b tb -> mrowst a ta = mcolst b tb -> bcok (mbatch a) (mbatch b) ->
  islr a && islr b \/ (forall a' b', tr a (~~ ta) = ret a' -> tr b tb = ret b' -> mul_side a' b') ->
  answers (fun o => matmul_diag o a b ta tb)
    (is_value (do z <- t_matmul (den a) (den b) ta tb; t_diag_extract z)).
Proof.
move=> wa wb e1 e2 o sd.
have V t : tvec t (mrowst a ta) (bct (mbatch a) (mbatch b)) (fun be i => sumf (mcolst a ta) (fun p => entt a ta be i p * entt b tb be p i)) ->
   is_value (do z <- t_matmul (den a) (den b) ta tb; t_diag_extract z) t.
  apply: value_tvec; first by apply: calm_bind => [|?]; [exact: cm_matmul|exact: cm_dx].
  have := tmat_matmul (den_tmat wa) (den_tmat wb) o e1; rewrite -/(mrowst a ta) -/(mcolst b tb) => H.
  apply: hoare_bind H _ => z hz; apply: hoare_conseq (tmat_diag_extract hz) _ => u hu.
  by rewrite -e2 minnn in hu.
by apply: ans_conseq (matmul_diag_res wa wb e1 e2 o sd) _ => t; exact: V.
Qed.
Definition istri a : bool := if a is (LT _ | UT _) then true else false.
Lemma mul_side_same a (b : mat) : samesh a b -> kfree a -> kfree b -> ~~ (istri a && istri b) || (mrows a == mcols a) -> mul_side a b.
Proof.
move=> h; have [f1 f2] : full a b /\ full b a by move: h; rewrite /samesh /full => /andP[/eqP-> /eqP->]; rewrite !bcnn !eqxx.
have [d1 d2] : (kfree a -> dgok a) /\ (kfree b -> dgok b) by split; [case: (a)|case: (b)].
move=> /[dup] ka /d1 g1 /[dup] kb /d2 g2.
case: a b h ka kb f1 f2 g1 g2 {d1 d2} => [x|? ? ? ?|x|x|x ? ?|x|x|? ? ?|? ? ? ?|? ?] [y|? ? ? ?|y|y|y ? ?|y|y|? ? ?|? ? ? ?|? ?] h ka kb f1 f2 g1 g2 t //;
  rewrite /mul_side ?h ?f1 ?f2 ?g1 ?g2 //; exact: t.
Qed.
(** In particular: no Kronecker products, and two triangular matrices are square. *)
Theorem C36_matmul_diag_kfree a (b : mat) (ta tb : bool) : wf a -> wf b ->
  mcolst a ta = mrowst b tb -> mrowst a ta = mcolst b tb -> bcok (mbatch a) (mbatch b) ->
  kfree a -> kfree b -> ~~ (istri a && istri b) || (mrows a == mcols a) ->
  answers (fun o => matmul_diag o a b ta tb)
    (is_value (do z <- t_matmul (den a) (den b) ta tb; t_diag_extract z)).
Proof.
move=> wa wb e1 e2 o ka kb h; apply: C36_matmul_diag => //; right => a' b' ha hb.
have [a2 ha' [[_ [r1 c1] _ _] k1 t1]] := calm_hoare (cm_tr _ _) (tr_ok (~~ ta) wa).
have [b2 hb' [[_ [r2 c2] _ _] k2 t2]] := calm_hoare (cm_tr _ _) (tr_ok tb wb).
have E1 : mrowst a (~~ ta) = mrowst b tb by rewrite -e1; case: (ta).
have E2 : mcolst a (~~ ta) = mcolst b tb by rewrite -e2; case: (ta).
move: ha; rewrite ha' => -[?]; move: hb; rewrite hb' => -[?]; subst a2 b2.
have T (x y : mat) (t : bool) : tag y = (if t then trtag (tag x) else tag x) -> istri y = istri x.
  by case: t; case: x; case: y.
apply: mul_side_same; rewrite ?k1 ?k2 // ?/samesh ?r1 ?c1 ?r2 ?c2 ?E1 ?E2 ?eqxx //.
by rewrite (T _ _ _ t1) (T _ _ _ t2) -E1 -E2; case/orP: h => [->|/eqP h]; rewrite ?orbT //; apply/orP; right; case: (ta); rewrite /= h.
Qed.
End PropsLift.
Print Assumptions C23_reshape. Print Assumptions C23_squeeze. Print Assumptions C23_concat. Print Assumptions C23_tile.
Print Assumptions C23_kron. Print Assumptions C23_mean. Print Assumptions C23_mean_all. Print Assumptions C36_matmul_diag.
Print Assumptions C36_matmul_diag_kfree.
(** The hypotheses can be met. *)
Example C23_ex_reshape (F : rcfType) : exists z, wf (s_kron F) /\ t_reshape (den (s_kron F)) [:: None; Some 2%N] = ret z.
Proof. by eexists; split; [exact: s_kron_wf|reflexivity]. Qed.
Example C23_ex_concat (F : rcfType) : exists z, t_concat (map (@den F) [:: s_dense23 F; s_dense23 F]) ax1 = ret z.
Proof. by eexists; reflexivity. Qed.
Example C23_ex_tile (F : rcfType) : exists z, wf (s_dense23 F) /\ t_tile (den (s_dense23 F)) [:: 2; 3]%N = ret z.
Proof. by eexists; split; [exact: s_dense23_wf|reflexivity]. Qed.
Example C23_ex_kron (F : rcfType) : [/\ wf (s_lt F), wf (s_dense23 F), bcok (mbatch (s_lt F)) (mbatch (s_dense23 F)) & kron_side (s_lt F) (s_dense23 F)].
Proof. by split; [exact: s_lt_wf|exact: s_dense23_wf| |]. Qed.
