(** * C19, continued: what the sum of two low-rank matrices is, whether or not a comparison was exact *)
From mathcomp Require Import all_ssreflect all_algebra.
From Verif Require Import Outcome Monad Shape Tensor Mat Dispatch Ops Spec ShapeThy TensorThy TensorThy2 MatThy OpsOk DenseOk LookThy AddOk LrAddOk OpsMain MulLrOk Term Term2 Term5 Exact Exact2 Calm Api Bridge PropsAlign PropsLrAdd Samples Inhabited.
Set Implicit Arguments. Unset Strict Implicit. Unset Printing Implicit Defensive.
Import GRing.Theory.
Local Open Scope ring_scope.

(** ** Specification *)
Section Spec.
Variable F : rcfType.
Notation mat := (mat F).
(** Entry [p] of a list of columns where [-1] stands for a column of zeros. *)
Definition pick (f : nat -> F) (p : int) : F := if p is Posz i then f i else 0.
(** Column [k] of [j] is column [al_ja x] of [a] plus column [al_jb x] of [b], one of which is the column of
    zeros. *)
Definition joined_side (x : alignment) (a b j : mat) : Prop :=
  is_res j (bcn (mrows a) (mrows b)) (size (al_a x)) (bct (mbatch a) (mbatch b)) (fun be i k =>
    pick (ent a be (cl (mrows a) i)) (nth 0 (al_ja x) k) + pick (ent b be (cl (mrows b) i)) (nth 0 (al_jb x) k)).
(** Entry [(k, k')] of [j] is the entry of [a] at the columns of [a] which went into columns [k] and [k'], plus
    the one of [b]. *)
Definition joined_middle (x y : alignment) (a b j : mat) : Prop :=
  is_res j (size (al_a x)) (size (al_a y)) (bct (mbatch a) (mbatch b)) (fun be k k' =>
    pick (fun p => pick (ent a be p) (nth 0 (al_a y) k')) (nth 0 (al_a x) k) +
    pick (fun p => pick (ent b be p) (nth 0 (al_b y) k')) (nth 0 (al_b x) k)).
(** The mean of the absolute values of all entries. *)
Definition mean_abs (a : mat) : F := sumall (mshape a) (fun idx => `|tget (den a) idx|) / (prodn (mshape a))%:R.
(** Close columns are equal, in all elements of the batch. *)
Definition close_is_equal (a b : mat) : Prop := forall i j, close_cols a b i j -> forall be r,
  okb (mbatch a) be -> okb (mbatch b) be -> (r < bcn (mrows a) (mrows b))%N ->
  ent a be (cl (mrows a) r) i = ent b be (cl (mrows b) r) j.
(** [c] is [LR jl jr jm], or [Zero] if the entries of [jm] are on average below 1e-10. *)
Definition sum_result (jl jr jm c : mat) : Prop :=
  if mean_abs jm < (10%:R ^+ 10)^-1
  then c = Zero (mdtype (LR jl jr jm)) (mbatch (LR jl jr jm)) (mrows (LR jl jr jm)) (mcols (LR jl jr jm))
  else c = LR jl jr jm.
End Spec.

(** ** A triple which ignores the ghost flag *)
Definition shoare A (m : outcome A) (P : A -> Prop) : Prop :=
  match m with Ret _ a => P a | RaiseL _ e => e = RecursionError end.
Section Rules.
Variables A B : Type.
Lemma sh_of (m : outcome A) P : hoare m P -> xe m -> shoare m P.
Proof. by case: m => [l a|l e] /= h [x _]; apply: h. Qed.
Lemma sh_bind (m : outcome A) (f : A -> outcome B) P Q : shoare m P -> (forall a, P a -> shoare (f a) Q) -> shoare (bind m f) Q.
Proof. by case: m => [l a|l e] //= h H; rewrite /bind; have := H a h; case: (f a). Qed.
Lemma sh_conseq (m : outcome A) (P Q : A -> Prop) : shoare m P -> (forall a, P a -> Q a) -> shoare m Q.
Proof. by case: m => [l a|l e] //= h H; apply: H. Qed.
Lemma sh_ret (a : A) (P : A -> Prop) : P a -> shoare (ret a) P. Proof. by []. Qed.
Lemma sh_retd (m : outcome A) P : retd m P -> shoare m P. Proof. by case=> l [x [-> h]]. Qed.
Lemma sh_flag (l : log) (K : unit -> outcome A) P : shoare (K tt) P -> shoare (bind (Ret l tt) K) P.
Proof. by rewrite /bind; case: (K tt). Qed.
Lemma bind_retr (m : outcome A) : bind m (@ret A) = m.
Proof. by case: m => [[[] []] a|l e]. Qed.
End Rules.

Section LrSum.
Variable F : rcfType.
Notation mat := (mat F).
Notation tensor := (tensor F).
Variable argsort : seq F -> seq nat.
Hypothesis perm : argsort_ok argsort.
Notation returns := (returns argsort).

Lemma numlike_nw1 (a : mat) : numlike a -> nw1 a. Proof. by case: a. Qed.

Section Level.
Variable n : nat.
Let self := ops_n argsort n.
Let ok : ops_ok self := ops_ok_n perm n.
Lemma xe_pad_col a : nw1 a -> xe (pad_zero_col self a).
Proof.
move=> h; apply: xe_bind => [|s]; first exact: xe_sb.
apply: xe_bind => [|s']; first exact: xe_sh.
have G z p : xe (do _ <- warn_if (structured a); do t <- o_dense self a; do u <- t_concat_pos [:: t; z] p; ret (mk_dense u)).
  by apply: xe_bind => // _; apply: xe_bind => [|t]; [exact: xe_dense|apply: xe_bind => [|u] //; exact: xe_concat].
move: (t_zeros _ _) => z; move: (G z 0%N); case: a {G} h => // t _ _; apply: xe_bind => [|u] //; exact: xe_concat.
Qed.
Lemma xe_pad_row a : nw1 a -> xe (pad_zero_row self a).
Proof.
move=> h; apply: xe_bind => [|s]; first exact: xe_sb.
apply: xe_bind => [|s']; first exact: xe_sh.
have G z p : xe (do _ <- warn_if (structured a); do t <- o_dense self a; do u <- t_concat_pos [:: t; z] p; ret (mk_dense u)).
  by apply: xe_bind => // _; apply: xe_bind => [|t]; [exact: xe_dense|apply: xe_bind => [|u] //; exact: xe_concat].
move: (t_zeros _ _) => z; move: (G z 1%N); case: a {G} h => // t _ _; apply: xe_bind => [|u] //; exact: xe_concat.
Qed.
Lemma xe_take_num a l p : nw1 a -> xe (take_num self a l p).
Proof.
have G : nw1 a -> xe (do _ <- warn_if (structured a); do t <- o_dense self a; do u <- t_take_pos t (Idx l) p; ret (mk_dense u)).
  by move=> h; apply: xe_bind => // _; apply: xe_bind => [|t]; [exact: xe_dense|apply: xe_bind => [|u] //; exact: xe_takepos].
case: a G => // t _ _; apply: xe_bind => [|u] //; exact: xe_takepos.
Qed.
Lemma addx_numlike (x y : mat) : numlike x -> numlike y -> addx x y.
Proof. by rewrite /addx; case: x => // ? _; case: y => // ? _; rewrite /= !andbF. Qed.

Lemma sh_add_numlike (x y : mat) : wf x -> wf y -> numlike x -> numlike y -> shoare (o_add self x y) (fun z => True) -> 
  shoare (o_add self x y) (@numlike F).
Proof.
rewrite /self; case: n => // k wx wy nx ny.
have B (m : outcome tensor) (C : tensor -> mat) : (forall z, numlike (C z)) -> shoare (do z <- m; ret (C z)) (fun _ => True) ->
    shoare (do z <- m; ret (C z)) (@numlike F).
  by case: m => [l z|l e] //= hC; rewrite /bind.
have nm (z : tensor) : wf (Nm z) -> to_matrix (Nm z) = Dense (t_uprank z).
  by move=> v; rewrite /to_matrix /convert_num (wft_sh v).
have -> : o_add (ops_n argsort k.+1) x y = add_step argsort (ops_n argsort k) x y by [].
have G (u v : tensor) : shoare (do i <- lookup add_table (ty_of_matrix (Dense u)) (ty_of_matrix (Dense v)); add_body argsort (ops_n argsort k) i (Dense u) (Dense v)) (fun _ => True) ->
   shoare (do i <- lookup add_table (ty_of_matrix (Dense u)) (ty_of_matrix (Dense v)); add_body argsort (ops_n argsort k) i (Dense u) (Dense v)) (@numlike F).
  by rewrite add_selE /= bind_ret; apply: B.
have N (z : mat) : numlike z -> (exists u, z = Nm u) \/ (exists u, z = Dense u) by case: z => // u _; [left|right]; exists u.
case: (N _ nx) => -[u eu]; case: (N _ ny) => -[v ev]; rewrite eu in wx *; rewrite ev in wy *; rewrite /add_step.
- exact: B.
- rewrite (nm _ wx); exact: G.
- rewrite (nm _ wy); exact: G.
- exact: G.
Qed.
Lemma sh_and A (m : outcome A) (P Q : A -> Prop) : shoare m P -> shoare m Q -> shoare m (fun x => P x /\ Q x).
Proof. by case: m. Qed.
Lemma sh_pad_take (a : mat) os : wf a -> nw1 a -> (0 < size os)%N ->
  all (fun o => if o is Some i then i < mcols a else true)%N os ->
  shoare (do x <- pad_zero_col self a; take_num self x (map oint os) 0) (fun x =>
    is_res x (mrows a) (size os) (mbatch a) (fun be i k => oapp (ent a be i) 0 (nth None os k)) /\ numlike x).
Proof.
move=> wa na n0 al.
apply: (sh_bind (sh_of (pad_col_ok ok (res_wf wa)) (xe_pad_col na))) => x [hx nx].
apply: sh_conseq (sh_of (take_num_ok0 ok hx n0 al) (xe_take_num _ _ (numlike_nw1 nx))) _ => y [hy ny].
split=> //; apply: res_ext hy _ => be i k _ _ hk.
have := allP al (nth None os k); rewrite mem_nth // => /(_ isT).
by case: (nth None os k) => [j|] /= => [->|_]; rewrite ?ltnn.
Qed.
Lemma sh_pad_take2 (a : mat) os os' : wf a -> nw1 a -> (0 < size os)%N -> (0 < size os')%N ->
  all (fun o => if o is Some i then i < mrows a else true)%N os ->
  all (fun o => if o is Some i then i < mcols a else true)%N os' ->
  shoare (do x <- pad_zero_both self a; do y <- take_num self x (map oint os) 1; take_num self y (map oint os') 0) (fun x =>
    is_res x (size os) (size os') (mbatch a)
     (fun be k k' => oapp (fun i => oapp (ent a be i) 0 (nth None os' k')) 0 (nth None os k)) /\ numlike x).
Proof.
move=> wa na n0 n0' al al'; rewrite /pad_zero_both bindA.
apply: (sh_bind (sh_of (pad_row_ok ok (res_wf wa)) (xe_pad_row na))) => x [hx nx].
apply: (sh_bind (sh_of (pad_col_ok ok hx) (xe_pad_col (numlike_nw1 nx)))) => y [hy ny].
apply: (sh_bind (sh_of (take_num_ok1 ok hy n0 al) (xe_take_num _ _ (numlike_nw1 ny)))) => z [hz nz].
apply: sh_conseq (sh_of (take_num_ok0 ok hz n0' al') (xe_take_num _ _ (numlike_nw1 nz))) _ => w [hw nw].
split=> //; apply: res_ext hw _ => be k k' _ hk hk'.
have := allP al (nth None os k); rewrite mem_nth // => /(_ isT).
have := allP al' (nth None os' k'); rewrite mem_nth // => /(_ isT).
case: (nth None os' k') => [j|] /= => [->|_]; case: (nth None os k) => [i|] /= => [->|_] //; by rewrite !ltnn.
Qed.
Lemma sh_add_num (x y : mat) rx cx bx fx ry cy by' fy :
  is_res x rx cx bx fx -> is_res y ry cy by' fy -> bcnok rx ry -> bcnok cx cy -> bcok bx by' -> numlike x -> numlike y ->
  shoare (o_add self x y) (fun z => is_res z (bcn rx ry) (bcn cx cy) (bct bx by')
    (fun be i j => fx be (cl rx i) (cl cx j) + fy be (cl ry i) (cl cy j)) /\ kfree z).
Proof.
move=> hx hy o1 o2 o3 nx ny.
apply: sh_conseq (sh_of (add_res ok hx hy o1 o2 o3 (numlike_side (res_kwf hx) (res_kwf hy) nx ny)) _) _.
  exact: xh_xe (xe_add argsort n (addx_numlike nx ny)).
by move=> z [hz kz]; split=> //; apply: kz; apply: numlike_kfree.
Qed.

Lemma sh_align (a b : mat) : wf a -> wf b -> nw1 a -> nw1 b -> bcnok (mrows a) (mrows b) ->
  shoare (align argsort self a b) (fun x => exists its : seq item,
    [/\ x = al_of its, perm_eq (pmap fst its) (iota 0 (mcols a)), perm_eq (pmap snd its) (iota 0 (mcols b)),
        all nonpad its & forall i j, (Some i, Some j) \in its -> close_cols a b i j]).
Proof.
move=> wa wb xa xb ob; rewrite /align /getitem_dense.
rewrite bindA; apply: sh_flag; apply: (sh_bind (sh_of (ok_dense ok wa) (xe_dense _ _ xa))) => ta ha.
rewrite (t_firstE ha) bind_ret.
rewrite bindA; apply: sh_flag; apply: (sh_bind (sh_of (ok_dense ok wb) (xe_dense _ _ xb))) => tb hb.
rewrite (t_firstE hb) bind_ret; apply: sh_retd.
set na := norms _; set nb := norms _.
pose e i j := if col_equal (first_of ta a) (first_of tb b) i j is Ret _ x then x else false.
have he i j : i \in argsort na -> j \in argsort nb ->
    col_equal (first_of ta a) (first_of tb b) i j = ret (e i j) /\ (e i j <-> close_cols a b i j).
  move=> /(argsort_mem perm) hi /(argsort_mem perm) hj.
  by have [x ex hx] := col_equalE ha hb ob hi hj; rewrite /e ex.
have he1 i j hi hj := proj1 (he i j hi hj).
have [l [x [-> [its [-> h1 h2 h3 h4]]]]] := @loopP F _ (fun i j => t_same (t_colb ta i) (t_colb tb j)) e na nb _ _ _ (leqnn _) he1.
exists l, (al_of its); split=> //; exists its; split=> //.
- by rewrite h1 (perm_trans (perm _)) // norms_size.
- by rewrite h2 (perm_trans (perm _)) // norms_size.
move=> i j hin; have := h4 _ _ hin.
have hi : i \in argsort na by rewrite -h1 mem_pmap; apply/mapP; exists (Some i, Some j).
have hj : j \in argsort nb by rewrite -h2 mem_pmap; apply/mapP; exists (Some i, Some j).
by case: (he i j hi hj) => _ ->.
Qed.

Lemma sh_side (a b : mat) (its : seq item) : wf a -> wf b -> nw1 a -> nw1 b ->
  bcnok (mrows a) (mrows b) -> bcok (mbatch a) (mbatch b) ->
  perm_eq (pmap fst its) (iota 0 (mcols a)) -> perm_eq (pmap snd its) (iota 0 (mcols b)) ->
  forall (Q : mat -> Prop) (K : mat -> outcome mat),
  (forall j, is_res j (bcn (mrows a) (mrows b)) (size its) (bct (mbatch a) (mbatch b))
      (fun be i k => jcol (ent a be (cl (mrows a) i)) (ent b be (cl (mrows b) i)) (nth (None, None) its k)) -> kfree j ->
     shoare (K j) Q) ->
  shoare (do x <- (do x <- pad_zero_col self a; take_num self x (al_ja (al_of its)) 0);
         do y <- (do x <- pad_zero_col self b; take_num self x (al_jb (al_of its)) 0);
         do j <- o_add self x y; K j) Q.
Proof.
move=> wa wb na nb orw ob p1 p2 Q K hK /=.
have n0 := its_size p1 (mcols_gt0 wa).
have -> : [seq oint it.1 | it <- its] = map oint (map fst its) by rewrite -map_comp.
have -> : [seq oint (ojb it) | it <- its] = map oint (map ojb its) by rewrite -map_comp.
apply: (sh_bind (sh_pad_take wa na _ (its_bound p1))); first by rewrite size_map.
move=> x [hx nx]; apply: (sh_bind (sh_pad_take wb nb _ (its_boundb p2))); first by rewrite size_map.
move=> y [hy ny]; rewrite !size_map in hx hy.
apply: (sh_bind (sh_add_num hx hy orw (bcnokn _) ob nx ny)) => j [hj kj].
apply: hK => //.
rewrite bcnn in hj; apply: res_ext hj _ => be i k _ _ hk.
by rewrite /jcol !(clid hk) !(nth_map ((None, None) : item)).
Qed.

Lemma pick_oint (f : nat -> F) o : pick f (oint o) = oapp f 0 o. Proof. by case: o. Qed.

Definition sum_form la ra ma lb rb mb (c : mat) : Prop := exists (its its' : seq item) (jl jr jm : mat),
  [/\ [/\ perm_eq (pmap fst its) (iota 0 (mcols la)), perm_eq (pmap snd its) (iota 0 (mcols lb)),
        all nonpad its & forall i j, (Some i, Some j) \in its -> close_cols la lb i j],
      [/\ perm_eq (pmap fst its') (iota 0 (mcols ra)), perm_eq (pmap snd its') (iota 0 (mcols rb)),
        all nonpad its' & forall i j, (Some i, Some j) \in its' -> close_cols ra rb i j],
      [/\ is_res jl (bcn (mrows la) (mrows lb)) (size its) (bct (mbatch la) (mbatch lb))
         (fun be i k => jcol (ent la be (cl (mrows la) i)) (ent lb be (cl (mrows lb) i)) (nth (None, None) its k)),
       is_res jr (bcn (mrows ra) (mrows rb)) (size its') (bct (mbatch ra) (mbatch rb))
         (fun be i k => jcol (ent ra be (cl (mrows ra) i)) (ent rb be (cl (mrows rb) i)) (nth (None, None) its' k)),
       is_res jm (size its) (size its') (bct (mbatch ma) (mbatch mb))
         (fun be k k' => jmid (ent ma be) (ent mb be) (nth (None, None) its k) (nth (None, None) its' k')) &
       [/\ kfree jl, kfree jr & kfree jm]] &
      sum_result jl jr jm c].

Lemma sh_add_lr la ra ma lb rb mb : wf (LR la ra ma) -> wf (LR lb rb mb) ->
  [/\ nw1 la, nw1 ra & nw1 ma] -> [/\ nw1 lb, nw1 rb & nw1 mb] ->
  shapes_ok (LR la ra ma) (LR lb rb mb) ->
  shoare (add_lr_lr argsort self la ra ma lb rb mb) (sum_form la ra ma lb rb mb).
Proof.
move=> wA wB [xla xra xma] [xlb xrb xmb] so; rewrite /add_lr_lr assert_shapesE // bind_ret.
have [[wla wra wma] [kla kra kma] [e1 e2] [b1 b2 b3]] := lr_facts wA.
have [[wlb wrb wmb] [klb krb kmb] [e3 e4] [b4 b5 b6]] := lr_facts wB.
case/and3P: (so) => o1 o2 o3.
set u := bct (mbatch (LR la ra ma)) (mbatch (LR lb rb mb)).
have uA : bto (mbatch (LR la ra ma)) u := bct_ubl o3.
have uB : bto (mbatch (LR lb rb mb)) u := bct_ubr o3.
move: (b1) (b2) (b3) (b4) (b5) (b6) => /bto_trans/(_ uA) c1 /bto_trans/(_ uA) c2 /bto_trans/(_ uA) c3 
  /bto_trans/(_ uB) c4 /bto_trans/(_ uB) c5 /bto_trans/(_ uB) c6.
have q1 : bcok (mbatch la) (mbatch lb) by okt u.
have q2 : bcok (mbatch ra) (mbatch rb) by okt u.
have q3 : bcok (mbatch ma) (mbatch mb) by okt u.
apply: (sh_bind (sh_align wla wlb xla xlb o1)) => _ [its [-> h1 h2 h3 h4]].
apply: (sh_bind (sh_align wra wrb xra xrb o2)) => _ [its' [-> h1' h2' h3' h4']].
apply: (sh_side wla wlb xla xlb o1 q1 h1 h2) => jl hjl kjl.
apply: (sh_side wra wrb xra xrb o2 q2 h1' h2') => jr hjr kjr.
have n0 := its_size h1 (mcols_gt0 wla); have n0' := its_size h1' (mcols_gt0 wra).
have -> : al_a (al_of its) = map oint (map fst its) by rewrite /= -map_comp.
have -> : al_a (al_of its') = map oint (map fst its') by rewrite /= -map_comp.
have -> : al_b (al_of its) = map oint (map snd its) by rewrite /= -map_comp.
have -> : al_b (al_of its') = map oint (map snd its') by rewrite /= -map_comp.
have i1 := its_bound h1; have i2 := its_bound h2; have i1' := its_bound h1'; have i2' := its_bound h2'.
rewrite e1 in i1; rewrite e2 in i1'; rewrite e3 in i2; rewrite e4 in i2'.
apply: (sh_bind (sh_pad_take2 wma xma _ _ i1 i1')); rewrite ?size_map // => am [ham nam].
apply: (sh_bind (sh_pad_take2 wmb xmb _ _ i2 i2')); rewrite ?size_map // => bm [hbm nbm].
rewrite ?size_map in ham; rewrite ?size_map in hbm.
have A1 := sh_of (add_rese ok ham hbm q3) (xh_xe (xe_add argsort n (addx_numlike nam nbm))).
have A2 := sh_and A1 (sh_add_numlike (res_kwf ham) (res_kwf hbm) nam nbm (sh_conseq A1 (fun _ _ => I))).
apply: (sh_bind A2) => jm [[hjm kjm] njm].
have {}kjm : kfree jm by apply: kjm; apply: numlike_kfree.
have {}hjm : is_res jm (size its) (size its') (bct (mbatch ma) (mbatch mb))
   (fun be k k' => jmid (ent ma be) (ent mb be) (nth (None, None) its k) (nth (None, None) its' k')).
  by apply: res_ext hjm _ => be k k' _ hk hk'; rewrite /jmid !(nth_map (None, None)).
have v1 : bto (bct (mbatch la) (mbatch lb)) u by rewrite bto_bct // c1.
have v2 : bto (bct (mbatch ra) (mbatch rb)) u by rewrite bto_bct // c2.
have v3 : bto (bct (mbatch ma) (mbatch mb)) u by rewrite bto_bct // c3.
apply: (sh_bind (sh_of (mk_lowrank_res hjl hjr hjm kjl kjr kjm v1 v2 v3) (xh_xe (xh_mk_lowrank' _ _ _)))) => lr [hlr [klr E]].
subst lr.
apply: (sh_bind (sh_of (dense_res ok hjm) (xe_dense _ _ (numlike_nw1 njm)))) => t ht.
have iz : t_mean_lt (t_map (fun x => `|x|) t) (tol F) = (mean_abs jm < (10%:R ^+ 10)^-1).
  have hd : tmat (den jm) (size its) (size its') (bct (mbatch ma) (mbatch mb))
     (fun be k k' => jmid (ent ma be) (ent mb be) (nth (None, None) its k) (nth (None, None) its' k')) by exact: res_tmat.
  have [es et] := tmat_teq ht hd; have ps : posn (sh t) by have [-> pp _] := ht.
  have es' : mshape jm = sh t by rewrite es.
  rewrite /t_mean_lt /mean_abs es' -[sh (t_map _ t)]/(sh t).
  have -> : (prodn (sh t) == 0%N) = false by apply/negbTE; rewrite -lt0n prodn_gt0.
  by rewrite (@eq_sumall _ _ _ (fun idx => `|tget (den jm) idx|)) // => idx hidx /=; rewrite et.
rewrite iz; apply: sh_flag.
have X : forall c, sum_result jl jr jm c -> sum_form la ra ma lb rb mb c by move=> c hc; exists its, its', jl, jr, jm.
case E: (mean_abs jm < _); last by apply: sh_ret; apply: X; rewrite /sum_result E.
rewrite /zeros_of shape_ofE; last by case: hlr.
by rewrite bind_ret /mk_zero; apply: sh_ret; apply: X; rewrite /sum_result E.
Qed.
End Level.

Section Sum.
Variables la ra ma lb rb mb : mat.
Notation A := (LR la ra ma).
Notation B := (LR lb rb mb).
Hypotheses (wA : wf A) (wB : wf B).
Hypotheses (nA : [/\ nw1 la, nw1 ra & nw1 ma]) (nB : [/\ nw1 lb, nw1 rb & nw1 mb]).
Hypothesis so : bcok (mshape A) (mshape B).

Lemma ret_sum_form : returns (fun o => o_add o A B) (sum_form la ra ma lb rb mb).
Proof.
have so' : shapes_ok A B by rewrite shapes_bcok.
have HH n : shoare (o_add (ops_n argsort n) A B) (sum_form la ra ma lb rb mb).
  by case: n => [|n] //; rewrite o_add_LR; exact (sh_add_lr n wA wB nA nB so').
have r := thnrec (tk_add (tm_n argsort _) (wfo_gdo (or_introl wA)) (wfo_gdo (or_introl wB)) (wf_gd2 (or_introl wA)) (leqnn _)).
have hs := @settle_core _ _ _ (fun o => o_add o A B) (fu_add A B) (fun n k => le_add (ople_n argsort n k) _ _) r.
move: r hs (HH (fu_add A B)); case: (o_add (ops_n argsort _) A B) => [l c|l e] hr hs h; first by exists l, c.
by move: hr; rewrite /= h.
Qed.

Let so' : shapes_ok A B. Proof. by rewrite shapes_bcok. Qed.
Lemma joined_lr (its its' : seq item) jl jr jm :
  perm_eq (pmap fst its) (iota 0 (mcols la)) -> perm_eq (pmap snd its) (iota 0 (mcols lb)) ->
  perm_eq (pmap fst its') (iota 0 (mcols ra)) -> perm_eq (pmap snd its') (iota 0 (mcols rb)) ->
  is_res jl (bcn (mrows la) (mrows lb)) (size its) (bct (mbatch la) (mbatch lb))
         (fun be i k => jcol (ent la be (cl (mrows la) i)) (ent lb be (cl (mrows lb) i)) (nth (None, None) its k)) ->
  is_res jr (bcn (mrows ra) (mrows rb)) (size its') (bct (mbatch ra) (mbatch rb))
         (fun be i k => jcol (ent ra be (cl (mrows ra) i)) (ent rb be (cl (mrows rb) i)) (nth (None, None) its' k)) ->
  is_res jm (size its) (size its') (bct (mbatch ma) (mbatch mb))
         (fun be k k' => jmid (ent ma be) (ent mb be) (nth (None, None) its k) (nth (None, None) its' k')) ->
  kfree jl -> kfree jr -> kfree jm ->
  let u := bct (bct (bct (mbatch la) (mbatch lb)) (bct (mbatch ra) (mbatch rb))) (bct (mbatch ma) (mbatch mb)) in
  let f be i j := lrf (fun be i k => jcol (ent la be (cl (mrows la) i)) (ent lb be (cl (mrows lb) i)) (nth (None, None) its k))
         (fun be i k => jcol (ent ra be (cl (mrows ra) i)) (ent rb be (cl (mrows rb) i)) (nth (None, None) its' k))
         (fun be k k' => jmid (ent ma be) (ent mb be) (nth (None, None) its k) (nth (None, None) its' k')) (size its) (size its') be i j in
  [/\ is_res (LR jl jr jm) (bcn (mrows la) (mrows lb)) (bcn (mrows ra) (mrows rb)) u f,
      u = bct (mbatch A) (mbatch B) &
      (forall i j, (Some i, Some j) \in its -> colsame la lb i j) -> (forall i j, (Some i, Some j) \in its' -> colsame ra rb i j) ->
      res2 +%R A B (LR jl jr jm)].
Proof.
move=> h1 h2 h1' h2' hjl hjr hjm kjl kjr kjm w f.
have [_ _ [e1 e2] [b1 b2 b3]] := lr_facts wA.
have [_ _ [e3 e4] [b4 b5 b6]] := lr_facts wB.
case/and3P: so' => o1 o2 o3.
set u := bct (mbatch A) (mbatch B).
have uA : bto (mbatch A) u := bct_ubl o3.
have uB : bto (mbatch B) u := bct_ubr o3.
move: (b1) (b2) (b3) (b4) (b5) (b6) => /bto_trans/(_ uA) c1 /bto_trans/(_ uA) c2 /bto_trans/(_ uA) c3 
  /bto_trans/(_ uB) c4 /bto_trans/(_ uB) c5 /bto_trans/(_ uB) c6.
have q1 : bcok (mbatch la) (mbatch lb) by okt u.
have q2 : bcok (mbatch ra) (mbatch rb) by okt u.
have q3 : bcok (mbatch ma) (mbatch mb) by okt u.
have v1 : bto (bct (mbatch la) (mbatch lb)) u by rewrite bto_bct // c1.
have v2 : bto (bct (mbatch ra) (mbatch rb)) u by rewrite bto_bct // c2.
have v3 : bto (bct (mbatch ma) (mbatch mb)) u by rewrite bto_bct // c3.
have [hlr _] := res_lr hjl hjr hjm kjl kjr kjm v1 v2 v3.
have eb : w = u.
  apply: bto_ext => v; rewrite [RHS]bto_bct // !LRb // [LHS]bto_bct; last by okt u.
  rewrite [bto (bct _ _) v]bto_bct; last by okt u.
  rewrite !(bto_bct _ q1) !(bto_bct _ q2) !(bto_bct _ q3).
  by do 6!case: (bto _ v).
split=> // h4 h4'; apply: (res_cast hlr eb) => be i j; rewrite -/u => hbe hi hj; rewrite /lrf /entb /=.
have okx b : bto b u -> okb b be by move=> hb; apply: okb_mono hb hbe.
rewrite -(join_sum _ _ h1 h2 h1' h2') // => p q hin.
  by apply: (h4 _ _ hin); rewrite ?okx.
by apply: (h4' _ _ hin); rewrite ?okx.
Qed.

(** The form of the result of [add], always: the columns of the factors are joined along two alignments (which
    are joins in the sense of C18), the middles are added accordingly, and the result is dropped only if the mean
    of the entries of the middle is below 1e-10. *)
Theorem C19_sum_form : returns (fun o => o_add o A B) (fun c => exists (x y : alignment) (jl jr jm : mat),
  [/\ valid_join (mcols la) (mcols lb) (close_cols la lb) x, valid_join (mcols ra) (mcols rb) (close_cols ra rb) y,
      [/\ joined_side x la lb jl, joined_side y ra rb jr & joined_middle x y ma mb jm],
      [/\ wf (LR jl jr jm), bct (mshape A) (mshape B) = mshape (LR jl jr jm) & mshape c = mshape (LR jl jr jm)] &
      sum_result jl jr jm c]).
Proof.
apply: ret_conseq ret_sum_form _ => c [its [its' [jl [jr [jm [[h1 h2 h3 h4] [h1' h2' h3' h4'] [hl hr hm [kl kr km]] hc]]]]]].
have [hlr eb _] := joined_lr h1 h2 h1' h2' hl hr hm kl kr km.
exists (al_of its), (al_of its'), jl, jr, jm; split=> //.
- exact: al_of_valid.
- exact: al_of_valid.
- rewrite /joined_side /joined_middle /= !size_map; split.
  + apply: res_ext hl _ => be i k _ _ hk; by rewrite /jcol !(nth_map ((None, None) : item)) // !pick_oint.
  + apply: res_ext hr _ => be i k _ _ hk; by rewrite /jcol !(nth_map ((None, None) : item)) // !pick_oint.
  + apply: res_ext hm _ => be i k _ hi hk; rewrite /jmid !(nth_map ((None, None) : item)) // !pick_oint.
    by case: (nth _ its i) => [[p|] [q|]] /=; rewrite ?pick_oint.
have es : bct (mshape A) (mshape B) = mshape (LR jl jr jm).
  case/and3P: so' => o1 o2 o3; case: hlr => _ [e1 e2] e3 _.
  rewrite /mshape !bct_cons //; last by rewrite bcok_cons o1.
  by rewrite e1 e2 e3 -eb.
split=> //; first by case: hlr.
by move: hc; rewrite /sum_result; case: ifP => _ ->.
Qed.
(** If the columns which are close are equal, the factors represent the exact sum. *)
Theorem C19_sum_exact : close_is_equal la lb -> close_is_equal ra rb ->
  returns (fun o => o_add o A B) (fun c => exists (jl jr jm : mat),
  [/\ wf (LR jl jr jm), (mcols jl <= mcols la + mcols lb)%N, (mcols jr <= mcols ra + mcols rb)%N,
      is_value (t_add (den A) (den B)) (den (LR jl jr jm)) & sum_result jl jr jm c]).
Proof.
move=> E1 E2.
apply: ret_conseq ret_sum_form _ => c [its [its' [jl [jr [jm [[h1 h2 h3 h4] [h1' h2' h3' h4'] [hl hr hm [kl kr km]] hc]]]]]].
have [hlr eb hv] := joined_lr h1 h2 h1' h2' hl hr hm kl kr km.
exists jl, jr, jm; split=> //; first by case: hlr.
- by case: hl => _ [_ ->] _ _; apply: its_le.
- by case: hr => _ [_ ->] _ _; apply: its_le.
apply: value_map2 (or_introl wA) (or_introl wB) so' (hv _ _) => i j.
  by move/h4; exact: E1.
by move/h4'; exact: E2.
Qed.
End Sum.
End LrSum.

(** ** The hypotheses can be met *)
Section Examples.
Variable F : rcfType.
Import Num.Theory Order.POrderTheory Order.TotalTheory.
Lemma ex_close f g : close_is_equal (al_ex F f) (al_ex F g).
Proof.
move=> i j /exc h be r _ _ hr.
have [e0 e1] : f 0%N i = g 0%N j /\ f 1%N i = g 1%N j.
  move/eqP: h; rewrite paddr_eq0 ?exprn_even_ge0 // !expf_eq0 /= !subr_eq0 => /andP[/eqP -> /eqP ->] //.
by case: r hr => [|[|r]] // _; rewrite /= /mx /= ?drop0 /= ?e0 ?e1; case: be.
Qed.
Example C19_sum_ex : let A := LR (al_exa F) (al_exb F) (al_exa F) in let B := LR (al_exb F) (al_exa F) (al_exb F) in
  [/\ wf A, wf B, bcok (mshape A) (mshape B), nw1 (al_exa F) /\ nw1 (al_exb F) &
      close_is_equal (al_exa F) (al_exb F) /\ close_is_equal (al_exb F) (al_exa F)].
Proof. by split=> //; split; apply: ex_close. Qed.
End Examples.
Print Assumptions C19_sum_form.
Print Assumptions C19_sum_exact.
