(** * C45: replaying recorded decisions *)
From mathcomp Require Import all_ssreflect all_algebra.
From Verif Require Import Outcome Monad Shape Tensor Mat Dispatch Ops Spec ShapeThy TensorThy TensorThy2 MatThy OpsOk DenseOk LookThy AddOk LrAddOk OpsMain MulLrOk Term Term2 Term5 Exact Exact2 Calm Api Bridge PropsAlign PropsLrAdd PropsLrSum Samples Inhabited Replay.
Set Implicit Arguments. Unset Strict Implicit. Unset Printing Implicit Defensive.
Import GRing.Theory.
Local Open Scope ring_scope.

(** ** Specification *)
Section Spec.
Variable F : rcfType.
Notation mat := (mat F).
(** Column [i] of [a] is column [j] of [b], in all elements of the batch (rows broadcasted). *)
Definition equal_cols (a b : mat) (i j : nat) : Prop := forall be r,
  okb (mbatch a) be -> okb (mbatch b) be -> (r < bcn (mrows a) (mrows b))%N ->
  ent a be (cl (mrows a) r) i = ent b be (cl (mrows b) r) j.
End Spec.

(** A valid join comes from a list of items. *)
Definition ointd (p : int) : option nat := if p is Posz i then Some i else None.
Lemma ointK o : ointd (oint o) = o. Proof. by case: o. Qed.
Lemma valid_its n1 n2 close x : valid_join n1 n2 close x -> exists its : seq item,
  [/\ x = al_of its, perm_eq (pmap fst its) (iota 0 n1), perm_eq (pmap snd its) (iota 0 n2),
      all nonpad its & forall i j, (Some i, Some j) \in its -> close i j].
Proof.
case=> -[s1 s2 s3 s4] c1 c2 r1 r2 hn.
pose its : seq item := zip (map ointd (al_a x)) (map ointd (al_b x)).
have sz : size its = size (al_a x) by rewrite size_zip !size_map s1 minnn.
have nthits k : (k < size (al_a x))%N -> nth (None, None) its k = (ointd (nth 0 (al_a x) k), ointd (nth 0 (al_b x) k)).
  by move=> hk; rewrite nth_zip ?size_map // !(nth_map 0) // s1.
have oid (s : seq int) n : (forall p, p \in s -> p = -1 \/ exists2 i, p = Posz i & (i < n)%N) -> 
    forall k, (k < size s)%N -> oint (ointd (nth 0 s k)) = nth 0 s k.
  by move=> h k hk; case: (h _ (mem_nth 0 hk)) => [->|[i -> _]].
have ea : [seq oint it.1 | it <- its] = al_a x.
  apply: (@eq_from_nth _ 0); rewrite size_map sz // => k hk; rewrite (nth_map (None, None)) ?sz // nthits //=; exact: oid r1 _ hk.
have eb : [seq oint it.2 | it <- its] = al_b x.
  apply: (@eq_from_nth _ 0); rewrite size_map sz // => k hk; rewrite (nth_map (None, None)) ?sz // nthits //=; apply: oid r2 _ _; by rewrite s1.
have pe (f : item -> option nat) (s : seq int) n : [seq oint (f it) | it <- its] = s -> (forall i, (i < n)%N -> count_mem (Posz i) s = 1%N) ->
    (forall p, p \in s -> p = -1 \/ exists2 i, p = Posz i & (i < n)%N) -> perm_eq (pmap f its) (iota 0 n).
  move=> es hc hr.
  have cnt i : count_mem i (pmap f its) = count_mem (Posz i) s by rewrite -es count_pmap_fst.
  have lt i : i \in pmap f its -> (i < n)%N.
    rewrite -has_pred1 has_count cnt -has_count has_pred1 => /hr[] // [j [->]] //.
  apply: uniq_perm; last 1 first.
  - move=> i; rewrite mem_iota /= add0n; apply/idP/idP => [/lt //|hi].
    by rewrite -has_pred1 has_count cnt hc.
  - by apply: count_mem_uniq => i; case hi: (i \in _); [rewrite cnt hc // lt|apply/count_memPn; rewrite hi].
  - exact: iota_uniq.
exists its; split.
- transitivity (Alignment (al_a x) (al_b x) (al_ja x) (al_jb x)); first by case: (x).
  rewrite /al_of ea eb; congr Alignment; apply: (@eq_from_nth _ 0); rewrite ?size_map ?sz ?s2 ?s3 // => k hk; have [_ _ h3 h4] := hn _ hk.
    by rewrite h3.
  rewrite h4 (nth_map (None, None)) ?sz // nthits //.
  have hk' : (k < size (al_b x))%N by rewrite s1.
  case: (r1 _ (mem_nth 0 hk)) => [->|[i -> _]] //=.
  by case: (r2 _ (mem_nth 0 hk')) => [->|[i -> _]].
- exact: (pe fst _ _ ea c1 r1).
- exact: (pe snd _ _ eb c2 r2).
- apply/(all_nthP (None, None)) => k; rewrite sz => hk; rewrite nthits // /nonpad.
  have hk' : (k < size (al_b x))%N by rewrite s1.
  have [h1 _ _ _] := hn _ hk.
  case: (r1 _ (mem_nth 0 hk)) h1 => [->|[i -> _]] //= h1.
  by case: (r2 _ (mem_nth 0 hk')) h1 => [->|[i -> _]] //= h; case: (h erefl).
move=> i j /(nthP (None, None))[k]; rewrite sz => hk; rewrite nthits // => -[ei ej].
have [_ h _ _] := hn _ hk; apply: h.
  by move: ei; case: (nth 0 _ k) => // ? [->].
by move: ej; case: (nth 0 _ k) => // ? [->].
Qed.

Section Rep.
Variable F : rcfType.
Notation mat := (mat F).
Notation tensor := (tensor F).
Variable argsort : seq F -> seq nat.
Hypothesis perm : argsort_ok argsort.
Notation returns := (returns argsort).
Notation settles := (settles argsort).
Notation run n := (ops_n argsort n).

Lemma ret_of_sh A (f : ops F -> outcome A) P n0 : (forall n, shoare (f (run n)) P) ->
  (forall n k, ole (f (run n)) (f (run (n + k)))) -> nrec (f (run n0)) -> returns f P.
Proof.
move=> hh hm hr; have := settle_core hm hr; have := hh n0; move: hr.
case: (f (run n0)) => [l a|l e] /= hr h hs; first by exists l, a.
by move: hr; rewrite h.
Qed.
Let le n k : ople (run n) (run (n + k)) := ople_n argsort n k.
Lemma nr_dense_gen B (a : mat) (K : tensor -> outcome B) : gd a -> (forall t, nrec (K t)) ->
  nrec (do _ <- warn_if (structured a); do t <- o_dense (run (fu_1 a)) a; K t).
Proof.
move=> g h; apply: nr_bind => // _; apply: nr_bind => // .
exact: th_nr (tk_dense (tm_n argsort _) g (leqnn _)).
Qed.
Lemma nr_concat (a : mat) z p : gd a -> nrec (concat_num (run (fu_1 a)) a z p).
Proof.
move=> g; have N (t : tensor) (C : tensor -> mat) : nrec (do u <- t_concat_pos [:: t; z] p; ret (C u)).
  by apply: nr_bind => // ; exact: th_nr (th_concat _ _).
have := @nr_dense_gen mat a (fun t => do u <- t_concat_pos [:: t; z] p; ret (mk_dense u)) g (fun t => N t _).
by rewrite /concat_num; case: (a).
Qed.
Lemma ret_pad_col (a : mat) r c b f : is_res a r c b f -> nw1 a -> returns (fun o => pad_zero_col o a) (fun x =>
  is_res x r c.+1 b (fun be i j => if (j < c)%N then f be i j else 0) /\ numlike x).
Proof.
move=> h na; apply: (@ret_of_sh _ _ _ (fu_1 a)) => [n|n k|].
- exact: sh_of (pad_col_ok (ops_ok_n perm n) h) (xe_pad_col _ n na).
- exact: ole_padc (le n k) _.
apply: nr_bind => [|s]; first exact: nr_sb.
by apply: nr_bind => [|s']; [exact: nr_sh|apply: nr_concat; apply: wf_gd; case: h].
Qed.
Lemma ret_pad_row (a : mat) r c b f : is_res a r c b f -> nw1 a -> returns (fun o => pad_zero_row o a) (fun x =>
  is_res x r.+1 c b (fun be i j => if (i < r)%N then f be i j else 0) /\ numlike x).
Proof.
move=> h na; apply: (@ret_of_sh _ _ _ (fu_1 a)) => [n|n k|].
- exact: sh_of (pad_row_ok (ops_ok_n perm n) h) (xe_pad_row _ n na).
- exact: ole_padr (le n k) _.
apply: nr_bind => [|s]; first exact: nr_sb.
by apply: nr_bind => [|s']; [exact: nr_sh|apply: nr_concat; apply: wf_gd; case: h].
Qed.
Lemma nr_take (a : mat) l p : gd a -> nrec (take_num (run (fu_1 a)) a l p).
Proof.
move=> g; have N (t : tensor) (C : tensor -> mat) : nrec (do u <- t_take_pos t (Idx l) p; ret (C u)).
  by apply: nr_bind => // ; exact: th_nr (th_takepos _ _ _).
have := @nr_dense_gen mat a (fun t => do u <- t_take_pos t (Idx l) p; ret (mk_dense u)) g (fun t => N t _).
by rewrite /take_num; case: (a).
Qed.
Lemma ret_take0 (a : mat) r c b f os : is_res a r c.+1 b f -> nw1 a -> (0 < size os)%N ->
  all (fun o => if o is Some i then i < c else true)%N os ->
  returns (fun o => take_num o a (map oint os) 0) (fun x =>
    is_res x r (size os) b (fun be i k => f be i (odflt c (nth None os k))) /\ numlike x).
Proof.
move=> h na n0 al; apply: (@ret_of_sh _ _ _ (fu_1 a)) => [n|n k|].
- exact: sh_of (take_num_ok0 (ops_ok_n perm n) h n0 al) (xe_take_num _ n _ _ na).
- exact: ole_take (le n k) _ _ _.
by apply: nr_take; apply: wf_gd; case: h.
Qed.
Lemma ret_take1 (a : mat) r c b f os : is_res a r.+1 c b f -> nw1 a -> (0 < size os)%N ->
  all (fun o => if o is Some i then i < r else true)%N os ->
  returns (fun o => take_num o a (map oint os) 1) (fun x =>
    is_res x (size os) c b (fun be k j => f be (odflt r (nth None os k)) j) /\ numlike x).
Proof.
move=> h na n0 al; apply: (@ret_of_sh _ _ _ (fu_1 a)) => [n|n k|].
- exact: sh_of (take_num_ok1 (ops_ok_n perm n) h n0 al) (xe_take_num _ n _ _ na).
- exact: ole_take (le n k) _ _ _.
by apply: nr_take; apply: wf_gd; case: h.
Qed.
Lemma ret_pad_take (a : mat) os : wf a -> nw1 a -> (0 < size os)%N ->
  all (fun o => if o is Some i then i < mcols a else true)%N os ->
  returns (fun o => do x <- pad_zero_col o a; take_num o x (map oint os) 0) (fun x =>
    is_res x (mrows a) (size os) (mbatch a) (fun be i k => oapp (ent a be i) 0 (nth None os k)) /\ numlike x).
Proof.
move=> wa na n0 al.
apply: (ret_bind (ret_pad_col (res_wf wa) na)) => x [hx nx].
apply: ret_conseq (ret_take0 hx (numlike_nw1 nx) n0 al) _ => y [hy ny].
split=> //; apply: res_ext hy _ => be i k _ _ hk.
have := allP al (nth None os k); rewrite mem_nth // => /(_ isT).
by case: (nth None os k) => [j|] /= => [->|_]; rewrite ?ltnn.
Qed.
Lemma ret_pad_take2 (a : mat) os os' : wf a -> nw1 a -> (0 < size os)%N -> (0 < size os')%N ->
  all (fun o => if o is Some i then i < mrows a else true)%N os ->
  all (fun o => if o is Some i then i < mcols a else true)%N os' ->
  returns (fun o => do x <- pad_zero_both o a; do y <- take_num o x (map oint os) 1; take_num o y (map oint os') 0) (fun x =>
    is_res x (size os) (size os') (mbatch a)
     (fun be k k' => oapp (fun i => oapp (ent a be i) 0 (nth None os' k')) 0 (nth None os k)) /\ numlike x).
Proof.
move=> wa na n0 n0' al al'.
apply: ret_ext (_ : forall o, (do x <- pad_zero_row o a; do x <- pad_zero_col o x; do y <- take_num o x (map oint os) 1; take_num o y (map oint os') 0) = _) _ => [o|].
  by rewrite /pad_zero_both bindA.
apply: (ret_bind (ret_pad_row (res_wf wa) na)) => x [hx nx].
apply: (ret_bind (ret_pad_col hx (numlike_nw1 nx))) => y [hy ny].
apply: (ret_bind (ret_take1 hy (numlike_nw1 ny) n0 al)) => z [hz nz].
apply: ret_conseq (ret_take0 hz (numlike_nw1 nz) n0' al') _ => w [hw nw].
split=> //; apply: res_ext hw _ => be k k' _ hk hk'.
have := allP al (nth None os k); rewrite mem_nth // => /(_ isT).
have := allP al' (nth None os' k'); rewrite mem_nth // => /(_ isT).
case: (nth None os' k') => [j|] /= => [->|_]; case: (nth None os k) => [i|] /= => [->|_] //; by rewrite !ltnn.
Qed.
Lemma ret_add_num (x y : mat) rx cx bx fx ry cy by' fy :
  is_res x rx cx bx fx -> is_res y ry cy by' fy -> bcnok rx ry -> bcnok cx cy -> bcok bx by' -> numlike x -> numlike y ->
  returns (fun o => o_add o x y) (fun z => is_res z (bcn rx ry) (bcn cx cy) (bct bx by')
    (fun be i j => fx be (cl rx i) (cl cx j) + fy be (cl ry i) (cl cy j)) /\ kfree z).
Proof.
move=> hx hy o1 o2 o3 nx ny; apply: (@ret_of_sh _ _ _ (fu_add x y)) => [n|n k|].
- exact: (sh_add_num perm n hx hy o1 o2 o3 nx ny).
- exact (le_add (le n k) _ _).
by case: hx hy => wx _ _ _ [wy _ _ _]; exact (thnrec (tk_add (tm_n argsort _) (wfo_gdo (or_introl wx)) (wfo_gdo (or_introl wy)) (wf_gd2 (or_introl wx)) (leqnn _))).
Qed.

Lemma ret_side B (a b : mat) (its : seq item) : wf a -> wf b -> nw1 a -> nw1 b ->
  bcnok (mrows a) (mrows b) -> bcok (mbatch a) (mbatch b) ->
  perm_eq (pmap fst its) (iota 0 (mcols a)) -> perm_eq (pmap snd its) (iota 0 (mcols b)) ->
  forall (Q : B -> Prop) (K : mat -> ops F -> outcome B),
  (forall j, is_res j (bcn (mrows a) (mrows b)) (size its) (bct (mbatch a) (mbatch b))
      (fun be i k => jcol (ent a be (cl (mrows a) i)) (ent b be (cl (mrows b) i)) (nth (None, None) its k)) -> kfree j ->
     returns (K j) Q) ->
  returns (fun o => do x <- (do x <- pad_zero_col o a; take_num o x (al_ja (al_of its)) 0);
         do y <- (do x <- pad_zero_col o b; take_num o x (al_jb (al_of its)) 0);
         do j <- o_add o x y; K j o) Q.
Proof.
move=> wa wb na nb orw ob p1 p2 Q K hK.
have n0 := its_size p1 (mcols_gt0 wa).
have -> : al_ja (al_of its) = map oint (map fst its) by rewrite -map_comp.
have -> : al_jb (al_of its) = map oint (map ojb its) by rewrite -map_comp.
apply: (ret_bind (ret_pad_take wa na _ (its_bound p1))); first by rewrite size_map.
move=> x [hx nx]; apply: (ret_bind (ret_pad_take wb nb _ (its_boundb p2))); first by rewrite size_map.
move=> y [hy ny]; rewrite !size_map in hx hy.
apply: (ret_bind (ret_add_num hx hy orw (bcnokn _) ob nx ny)) => j [hj kj].
apply: hK => //.
rewrite bcnn in hj; apply: res_ext hj _ => be i k _ _ hk.
by rewrite /jcol !(clid hk) !(nth_map ((None, None) : item)).
Qed.

Section Sum.
Variables la ra ma lb rb mb : mat.
Notation A := (LR la ra ma).
Notation B := (LR lb rb mb).

Lemma ole_join x y n k : ole (join_lr (run n) x y la ra ma lb rb mb) (join_lr (run (n + k)) x y la ra ma lb rb mb).
Proof.
have hpt (a : mat) l : ole (do x <- pad_zero_col (run n) a; take_num (run n) x l 0) (do x <- pad_zero_col (run (n + k)) a; take_num (run (n + k)) x l 0).
  by apply: ole_bind => [|z]; [exact: ole_padc|exact: ole_take].
have hp2 (a : mat) l l' : ole (do x <- pad_zero_both (run n) a; do y <- take_num (run n) x l 1; take_num (run n) y l' 0)
    (do x <- pad_zero_both (run (n + k)) a; do y <- take_num (run (n + k)) x l 1; take_num (run (n + k)) y l' 0).
  by apply: ole_bind => [|z]; [exact: ole_padb|apply: ole_bind => [|w]; exact: ole_take].
rewrite /join_lr.
do 2!(apply: ole_bind => [|?]; first exact: hpt); apply: ole_bind => [|?]; first exact (le_add (le n k) _ _).
do 2!(apply: ole_bind => [|?]; first exact: hpt); apply: ole_bind => [|?]; first exact (le_add (le n k) _ _).
do 2!(apply: ole_bind => [|?]; first exact: hp2); apply: ole_bind => [|?]; first exact (le_add (le n k) _ _).
exact: ole_refl.
Qed.
Lemma ole_replay q n k : ole (add_lr_replay (run n) q la ra ma lb rb mb) (add_lr_replay (run (n + k)) q la ra ma lb rb mb).
Proof.
apply: ole_bind => [|_]; first exact: ole_refl.
apply: ole_bind => [|[pl q1]]; first exact: ole_refl.
apply: ole_bind => [|[pr q2]]; first exact: ole_refl.
apply: ole_bind => [|[lr jm]]; first exact: ole_join.
exact: ole_refl.
Qed.

Lemma eq_bind X Y (m : outcome X) (f g : X -> outcome Y) : (forall x, f x = g x) -> bind m f = bind m g.
Proof. by case: m => [l a|l e] //= h; rewrite /bind h. Qed.
Lemma bind_inv X Y (m : outcome X) (f : X -> outcome Y) l b : bind m f = Ret l b ->
  exists l1 a l2, m = Ret l1 a /\ f a = Ret l2 b.
Proof. by case: m => [l1 a|//]; rewrite /bind; case E: (f a) => [l2 b'|//] [_ <-]; exists l1, a, l2. Qed.
Lemma bindE X Y Z (m : outcome X) (f : X -> outcome Z) (g : X -> outcome Y) (h : Y -> outcome Z) :
  (forall x, f x = bind (g x) h) -> bind m f = bind (bind m g) h.
Proof. by rewrite bindA => e; apply: eq_bind. Qed.
Lemma record_sum n : add_lr_lr argsort (run n) la ra ma lb rb mb =
  do p <- add_lr_record argsort (run n) la ra ma lb rb mb; ret p.1.
Proof.
rewrite /add_lr_lr /add_lr_record /join_lr.
apply: bindE => _; apply: bindE => pl; apply: bindE => pr; rewrite [RHS]bindA.
do 10!apply: bindE => ?.
rewrite bind_ret; apply: bindE => jm; apply: bindE => _.
by rewrite bindA -[LHS]bind_retr; apply: eq_bind => c; rewrite bind_ret.
Qed.

(** While recording, the sum is the sum without a cache (with one more level for the call of [add]). *)
Theorem C45_record n : o_add (run n.+1) A B = do p <- add_lr_record argsort (run n) la ra ma lb rb mb; ret p.1.
Proof. by rewrite o_add_LR record_sum. Qed.

(** Replaying the record on the operands with which it was made gives the same sum, and consumes the record. *)
Theorem C45_replay_same l c q : settles (fun o => add_lr_record argsort o la ra ma lb rb mb) (Ret l (c, q)) ->
  returns (fun o => add_lr_replay o q la ra ma lb rb mb) (fun p => p = (c, Ctl [::] [::])).
Proof.
case=> n0 /(_ n0 (leqnn _)) h.
have [l' e] : exists l', add_lr_replay (run n0) q la ra ma lb rb mb = Ret l' (c, Ctl [::] [::]).
  have [l0 [[] [r0 [E0 {h}h]]]] := bind_inv h.
  have [l1 [pl [r1 [E1 {h}h]]]] := bind_inv h.
  have [l2 [pr [r2 [E2 {h}h]]]] := bind_inv h.
  have [l3 [[lr jm] [r3 [E3 {h}h]]]] := bind_inv h.
  have [l4 [t [r4 [E4 {h}h]]]] := bind_inv h.
  have [l5 [[] [r5 [E5 {h}h]]]] := bind_inv h.
  have [l6 [d [r6 [E6 [_ <- <-]]]]] := bind_inv h.
  rewrite /add_lr_replay E0 /get_align; cbn [c_align c_zero]; rewrite !bind_ret E3 /get_zero; cbn [c_align c_zero].
  rewrite /bind; cbn beta iota delta [ret]; rewrite E6; by eexists.
exists l', (c, Ctl [::] [::]); split=> //; rewrite -e; apply: (@settle_core _ argsort _ (fun o => add_lr_replay o q la ra ma lb rb mb)).
  exact: ole_replay.
by rewrite e.
Qed.

Hypotheses (wA : wf A) (wB : wf B).
Hypotheses (nA : [/\ nw1 la, nw1 ra & nw1 ma]) (nB : [/\ nw1 lb, nw1 rb & nw1 mb]).
Hypothesis so : bcok (mshape A) (mshape B).

Lemma ret_join (its its' : seq item) :
  perm_eq (pmap fst its) (iota 0 (mcols la)) -> perm_eq (pmap snd its) (iota 0 (mcols lb)) ->
  perm_eq (pmap fst its') (iota 0 (mcols ra)) -> perm_eq (pmap snd its') (iota 0 (mcols rb)) ->
  returns (fun o => join_lr o (al_of its) (al_of its') la ra ma lb rb mb) (fun p => exists jl jr,
   [/\ p.1 = LR jl jr p.2, 
       is_res jl (bcn (mrows la) (mrows lb)) (size its) (bct (mbatch la) (mbatch lb))
         (fun be i k => jcol (ent la be (cl (mrows la) i)) (ent lb be (cl (mrows lb) i)) (nth (None, None) its k)),
       is_res jr (bcn (mrows ra) (mrows rb)) (size its') (bct (mbatch ra) (mbatch rb))
         (fun be i k => jcol (ent ra be (cl (mrows ra) i)) (ent rb be (cl (mrows rb) i)) (nth (None, None) its' k)),
       is_res p.2 (size its) (size its') (bct (mbatch ma) (mbatch mb))
         (fun be k k' => jmid (ent ma be) (ent mb be) (nth (None, None) its k) (nth (None, None) its' k')) &
       [/\ kfree jl, kfree jr & kfree p.2]]).
Proof.
move=> h1 h2 h1' h2'; move: nA nB => [xla xra xma] [xlb xrb xmb].
have so' : shapes_ok A B by rewrite shapes_bcok.
have [[wla wra wma] [kla kra kma] [e1 e2] [b1 b2 b3]] := lr_facts wA.
have [[wlb wrb wmb] [klb krb kmb] [e3 e4] [b4 b5 b6]] := lr_facts wB.
case/and3P: (so') => o1 o2 o3.
set u := bct (mbatch (LR la ra ma)) (mbatch (LR lb rb mb)).
have uA : bto (mbatch (LR la ra ma)) u := bct_ubl o3.
have uB : bto (mbatch (LR lb rb mb)) u := bct_ubr o3.
move: (b1) (b2) (b3) (b4) (b5) (b6) => /bto_trans/(_ uA) c1 /bto_trans/(_ uA) c2 /bto_trans/(_ uA) c3 
  /bto_trans/(_ uB) c4 /bto_trans/(_ uB) c5 /bto_trans/(_ uB) c6.
have q1 : bcok (mbatch la) (mbatch lb) by okt u.
have q2 : bcok (mbatch ra) (mbatch rb) by okt u.
have q3 : bcok (mbatch ma) (mbatch mb) by okt u.
rewrite /join_lr.
apply: (ret_side wla wlb xla xlb o1 q1 h1 h2) => jl hjl kjl.
apply: (ret_side wra wrb xra xrb o2 q2 h1' h2') => jr hjr kjr.
have n0 := its_size h1 (mcols_gt0 wla); have n0' := its_size h1' (mcols_gt0 wra).
have -> : al_a (al_of its) = map oint (map fst its) by rewrite /= -map_comp.
have -> : al_a (al_of its') = map oint (map fst its') by rewrite /= -map_comp.
have -> : al_b (al_of its) = map oint (map snd its) by rewrite /= -map_comp.
have -> : al_b (al_of its') = map oint (map snd its') by rewrite /= -map_comp.
have i1 := its_bound h1; have i2 := its_bound h2; have i1' := its_bound h1'; have i2' := its_bound h2'.
rewrite e1 in i1; rewrite e2 in i1'; rewrite e3 in i2; rewrite e4 in i2'.
apply: (ret_bind (ret_pad_take2 wma xma _ _ i1 i1')); rewrite ?size_map // => am [ham nam].
apply: (ret_bind (ret_pad_take2 wmb xmb _ _ i2 i2')); rewrite ?size_map // => bm [hbm nbm].
rewrite ?size_map in ham; rewrite ?size_map in hbm.
apply: (ret_bind (ret_add_num ham hbm (bcnokn _) (bcnokn _) q3 nam nbm)) => jm [hjm kjm].
rewrite !bcnn in hjm.
have {}hjm : is_res jm (size its) (size its') (bct (mbatch ma) (mbatch mb))
   (fun be k k' => jmid (ent ma be) (ent mb be) (nth (None, None) its k) (nth (None, None) its' k')).
  by apply: res_ext hjm _ => be k k' _ hk hk'; rewrite /jmid !(clid hk) !(clid hk') !(nth_map (None, None)).
have v1 : bto (bct (mbatch la) (mbatch lb)) u by rewrite bto_bct // c1.
have v2 : bto (bct (mbatch ra) (mbatch rb)) u by rewrite bto_bct // c2.
have v3 : bto (bct (mbatch ma) (mbatch mb)) u by rewrite bto_bct // c3.
apply: (@ret_bind _ _ _ _ (fun _ => mk_lowrank jl (Some jr) (Some jm)) (fun lr _ => ret (lr, jm)) (fun lr => lr = LR jl jr jm)).
  have H := calm_hoare (cm_mk_lowrank jl (Some jr) (Some jm)) (mk_lowrank_res hjl hjr hjm kjl kjr kjm v1 v2 v3).
  by case: H => x -> [_ [_ ->]]; apply: ret_const; apply: retd_ret.
by move=> lr ->; apply: ret_const; apply: retd_ret; exists jl, jr.
Qed.

Lemma ole_record n k : ole (add_lr_record argsort (run n) la ra ma lb rb mb) (add_lr_record argsort (run (n + k)) la ra ma lb rb mb).
Proof.
apply: ole_bind => [|_]; first exact: ole_refl.
apply: ole_bind => [|pl]; first exact: ole_align.
apply: ole_bind => [|pr]; first exact: ole_align.
apply: ole_bind => [|[lr jm]]; first exact: ole_join.
apply: ole_bind => [|t]; first exact (le_dense (le n k) _).
exact: ole_refl.
Qed.
(** The sum can be recorded, and replaying what was recorded gives the sum. *)
Theorem C45_record_replay : exists l c q, [/\ settles (fun o => add_lr_record argsort o la ra ma lb rb mb) (Ret l (c, q)),
  settles (fun o => o_add o A B) (Ret l c) &
  returns (fun o => add_lr_replay o q la ra ma lb rb mb) (fun p => p = (c, Ctl [::] [::]))].
Proof.
have [l [c [[n0 h] _]]] := ret_sum_form perm wA wB nA nB so.
have hn n : (n0 <= n)%N -> exists q, add_lr_record argsort (run n) la ra ma lb rb mb = Ret l (c, q).
  move=> hn; have := h n.+1 (leqW hn); rewrite C45_record; case: (add_lr_record _ _ _ _ _ _ _ _) => [l' [d q]|//] /=.
  by rewrite /bind /ljoin /ret; case: l' => [[] []] /= [<- <-]; exists q.
have [q hq] := hn n0 (leqnn _).
have hs : settles (fun o => add_lr_record argsort o la ra ma lb rb mb) (Ret l (c, q)).
  rewrite -hq; apply: (@settle_core _ argsort _ (fun o => add_lr_record argsort o la ra ma lb rb mb)); last by rewrite hq.
  exact: ole_record.
exists l, c, q; split=> //; first by exists n0.
exact: C45_replay_same hs.
Qed.

(** Replaying decisions on other operands than those with which they were recorded gives the exact sum provided
    that the recorded permutations list all columns of the new operands, identify equal columns only, and the
    recorded zero test failed. *)
Theorem C45_replay_exact x y :
  valid_join (mcols la) (mcols lb) (equal_cols la lb) x -> valid_join (mcols ra) (mcols rb) (equal_cols ra rb) y ->
  returns (fun o => add_lr_replay o (Ctl [:: x; y] [:: false]) la ra ma lb rb mb) (fun p =>
    [/\ wf p.1, is_value (t_add (den A) (den B)) (den p.1) & p.2 = Ctl [::] [::]]).
Proof.
move=> /valid_its[its [-> h1 h2 h3 h4]] /valid_its[its' [-> h1' h2' h3' h4']].
have so' : shapes_ok A B by rewrite shapes_bcok.
have R := ret_join h1 h2 h1' h2'.
apply: ret_ext (_ : forall o, (do p <- join_lr o (al_of its) (al_of its') la ra ma lb rb mb; ret (p.1, Ctl [::] [::])) = _) _ => [o|].
  rewrite /add_lr_replay assert_shapesE // bind_ret /get_align /= !bind_ret /get_zero.
  by apply: eq_bind => -[lr jm]; rewrite /= !bind_ret.
apply: (ret_bind R) => -[lr jm] /= [jl [jr [-> hl hr hm [kl kr km]]]].
apply: ret_const; apply: retd_ret => /=.
have [hlr eb hv] := joined_lr wA wB so h1 h2 h1' h2' hl hr hm kl kr km.
split=> //; first by case: hlr.
apply: value_map2 (or_introl wA) (or_introl wB) so' (hv _ _) => i j; first exact: h4.
exact: h4'.
Qed.
(** A zero test which was recorded as true is not repeated: the result is [Zero], whatever the operands. *)
Theorem C45_replay_zero x y close close' :
  valid_join (mcols la) (mcols lb) close x -> valid_join (mcols ra) (mcols rb) close' y ->
  returns (fun o => add_lr_replay o (Ctl [:: x; y] [:: true]) la ra ma lb rb mb) (fun p => exists d,
    p = (Zero d (bct (mbatch A) (mbatch B)) (bcn (mrows A) (mrows B)) (bcn (mcols A) (mcols B)), Ctl [::] [::])).
Proof.
move=> /valid_its[its [-> h1 h2 h3 h4]] /valid_its[its' [-> h1' h2' h3' h4']].
have so' : shapes_ok A B by rewrite shapes_bcok.
have R := ret_join h1 h2 h1' h2'.
apply: ret_ext (_ : forall o, (do p <- join_lr o (al_of its) (al_of its') la ra ma lb rb mb; do z <- zeros_of p.1; ret (z, Ctl [::] [::])) = _) _ => [o|].
  rewrite /add_lr_replay assert_shapesE // bind_ret /get_align /= !bind_ret /get_zero.
  by apply: eq_bind => -[lr jm]; rewrite /= !bind_ret.
apply: (ret_bind R) => -[lr jm] /= [jl [jr [-> hl hr hm [kl kr km]]]].
have [hlr eb _] := joined_lr wA wB so h1 h2 h1' h2' hl hr hm kl kr km.
apply: ret_const; rewrite /zeros_of shape_ofE; last by case: hlr.
rewrite bind_ret /mk_zero bind_ret; apply: retd_ret; eexists.
by case: hlr => _ [er ec] ebb _; rewrite er ec ebb eb.
Qed.
End Sum.
End Rep.

(** ** The hypotheses can be met, and the zero test is not repeated *)
Section Examples.
Variable F : rcfType.
(** A join which identifies no columns. *)
Definition al_apart : alignment := al_of [:: (Some 0%N, None); (Some 1%N, None); (None, Some 0%N); (None, Some 1%N)].
Lemma apart close : valid_join 2 2 close al_apart. Proof. by apply: al_of_valid; [vm_compute|vm_compute|vm_compute|move=> i j; rewrite !inE => /or4P[]/eqP[]]. Qed.
Example C45_ex : let A := LR (al_exa F) (al_exb F) (al_exa F) in let B := LR (al_exb F) (al_exa F) (al_exb F) in
  [/\ wf A, wf B, bcok (mshape A) (mshape B), nw1 (al_exa F) /\ nw1 (al_exb F) &
      valid_join (mcols (al_exa F)) (mcols (al_exb F)) (equal_cols (al_exa F) (al_exb F)) al_apart].
Proof. by split=> //; apply: apart. Qed.
(** A join which identifies the second column of the first with the first column of the second matrix. *)
Definition al_shared : alignment := al_of [:: (Some 0%N, None); (Some 1%N, Some 0%N); (None, Some 1%N)].
Example C45_shared : valid_join (mcols (al_exa F)) (mcols (al_exb F)) (equal_cols (al_exa F) (al_exb F)) al_shared.
Proof.
apply: al_of_valid; [by vm_compute|by vm_compute|by vm_compute|move=> i j; rewrite !inE => /or3P[]/eqP[] // -> -> be r _ _].
by case: r => [|[|r]] // _; rewrite /= /mx /=; case: be.
Qed.
Definition one11 : mat F := Dense (Tensor DFloat64 [:: 1; 1]%N (fun _ => 1)).
Definition al_one : alignment := al_of [:: (Some 0%N, Some 0%N)].
(** Replaying a recorded [true] for 1 + 1 gives 0. *)
Theorem C45_replay_zero_wrong argsort : argsort_ok argsort -> let A := LR one11 one11 one11 in
  returns argsort (fun o => add_lr_replay o (Ctl [:: al_one; al_one] [:: true]) one11 one11 one11 one11 one11 one11)
    (fun p => exists d, p.1 = Zero d [::] 1 1) /\
  (exists2 z, t_add (den A) (den A) = ret z & tget z [:: 0; 0]%N = 2%:R).
Proof.
move=> perm A; split.
  have v : valid_join 1 1 (equal_cols one11 one11) al_one by apply: al_of_valid; [vm_compute|vm_compute|vm_compute|move=> i j; rewrite inE => /eqP[-> ->]].
  have wA : wf A by [].
  have nA : [/\ nw1 one11, nw1 one11 & nw1 one11] by [].
  have so : bcok (mshape A) (mshape A) by [].
  have R := C45_replay_zero perm wA wA nA nA so v v.
  apply: (ret_conseq R) => -[c q] [d [-> _]] /=.
  by exists d.
eexists; first by [].
by rewrite /= /bat /= /mx /= !mulr1 /sumf /tcols /= !addr0 -mulr2n.
Qed.
End Examples.
Print Assumptions C45_record.
Print Assumptions C45_record_replay.
Print Assumptions C45_replay_same.
Print Assumptions C45_replay_exact.
Print Assumptions C45_replay_zero.
Print Assumptions C45_replay_zero_wrong.
