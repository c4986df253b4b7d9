(** * Correctness of the sum of two low-rank matrices (proof support) *)
From mathcomp Require Import all_ssreflect all_algebra.
From Verif Require Import Outcome Monad Shape Tensor Mat Dispatch Ops Spec ShapeThy TensorThy TensorThy2 MatThy OpsOk DenseOk AddOk.
Set Implicit Arguments. Unset Strict Implicit. Unset Printing Implicit Defensive.
Import GRing.Theory.
Local Open Scope ring_scope.

(** The columns of the result: from both operands, from the first, from the second. *)
Definition item := (option nat * option nat)%type.
Definition oint (o : option nat) : int := if o is Some i then Posz i else Negz 0.
Definition ojb (it : item) : option nat := if it.1 is Some _ then None else it.2.
Definition al_of (its : seq item) : alignment :=
  Alignment [seq oint it.1 | it <- its] [seq oint it.2 | it <- its]
            [seq oint it.1 | it <- its] [seq oint (ojb it) | it <- its].
Definition itok (same : nat -> nat -> bool) (it : item) : bool :=
  match it with (Some i, Some j) => same i j | (None, None) => false | _ => true end.

Section LrAddOk.
Variable F : rcfType.
Notation tensor := (tensor F).
Notation mat := (mat F).
Implicit Types (a l m : mat) (t : tensor) (u be : seq nat).

Lemma align_loop_ok k eq same (na nb : seq F) sa sb :
  (forall i j, hoare (eq i j) (fun _ => True)) ->
  hoare (align_loop k eq same na nb sa sb) (fun x => exists its : seq item,
    [/\ x = al_of its, pmap fst its = sa, pmap snd its = sb & all (itok same) its]).
Proof.
move=> he.
have A sb0 : hoare (ret (Alignment (nseq (size sb0) (Negz 0)) (map Posz sb0) (nseq (size sb0) (Negz 0)) (map Posz sb0)))
  (fun x => exists its : seq item, [/\ x = al_of its, pmap fst its = [::], pmap snd its = sb0 & all (itok same) its]).
  apply: hoare_ret; exists [seq (None, Some j) | j <- sb0]; split.
  - rewrite /al_of -!map_comp; congr Alignment; by elim: sb0 => //= j s ->.
  - by elim: sb0.
  - by elim: sb0 => //= j s ->.
  - by elim: sb0.
have B sa0 : hoare (ret (Alignment (map Posz sa0) (nseq (size sa0) (Negz 0)) (map Posz sa0) (nseq (size sa0) (Negz 0))))
  (fun x => exists its : seq item, [/\ x = al_of its, pmap fst its = sa0, pmap snd its = [::] & all (itok same) its]).
  apply: hoare_ret; exists [seq (Some i, None) | i <- sa0]; split.
  - rewrite /al_of -!map_comp; congr Alignment; by elim: sa0 => //= j s ->.
  - by elim: sa0 => //= j s ->.
  - by elim: sa0.
  - by elim: sa0.
elim: k sa sb => [|k IH] [|i sa] [|j sb]; try (exact: A); try (exact: B); first exact: hoare_raise.
rewrite /=.
apply: (hoare_bind (he i j)) => e _; case: e.
  apply: hoare_mark => /negbFE hs; apply: (hoare_bind (IH sa sb)) => _ [its [-> e1 e2 e3]].
  by apply: hoare_ret; exists ((Some i, Some j) :: its); rewrite /= e1 e2 e3 hs.
case: ifP => _.
  apply: (hoare_bind (IH sa (j :: sb))) => _ [its [-> e1 e2 e3]].
  by apply: hoare_ret; exists ((Some i, None) :: its); rewrite /= e1 e2 e3.
apply: (hoare_bind (IH (i :: sa) sb)) => _ [its [-> e1 e2 e3]].
by apply: hoare_ret; exists ((None, Some j) :: its); rewrite /= e1 e2 e3.
Qed.

Variable argsort : seq F -> seq nat.
Hypothesis argsort_perm : forall s, perm_eq (argsort s) (iota 0 (size s)).
Variable self : ops F.
Hypothesis ok : ops_ok self.

(** The columns [i] of [a] and [j] of [b] agree. *)
Definition colsame a (b : mat) (i j : nat) : Prop :=
  forall be r, okb (mbatch a) be -> okb (mbatch b) be -> (r < bcn (mrows a) (mrows b))%N ->
  ent a be (cl (mrows a) r) i = ent b be (cl (mrows b) r) j.

Lemma align_ok a b : wf a -> wf b -> bcnok (mrows a) (mrows b) -> bcok (mbatch a) (mbatch b) ->
  hoare (align argsort self a b) (fun x => exists its : seq item,
    [/\ x = al_of its, perm_eq (pmap fst its) (iota 0 (mcols a)), perm_eq (pmap snd its) (iota 0 (mcols b)),
        all (fun it : item => isSome it.1 || isSome it.2) its &
        forall i j, (Some i, Some j) \in its -> colsame a b i j]).
Proof.
move=> wa wb orw ob; rewrite /align /getitem_dense.
rewrite bindA; apply: hoare_warn_if; apply: (hoare_bind (ok_dense ok wa)) => ta ha.
apply: (hoare_bind (tmat_first ha)) => a0 sa0.
rewrite bindA; apply: hoare_warn_if; apply: (hoare_bind (ok_dense ok wb)) => tb hb.
apply: (hoare_bind (tmat_first hb)) => b0 sb0.
have he i j : hoare (col_equal a0 b0 i j) (fun _ => True).
  rewrite /col_equal /t_sub; have := @t_map2P _ (fun x y => x - y) (t_col a0 i) (t_col b0 j).
  rewrite /= /trows sa0 sb0 /= bcok_cons orw => /(_ isT) [z [-> _ _ _]].
  by rewrite bind_ret; apply: hoare_ret.
apply: hoare_conseq (align_loop_ok _ _ _ _ _ _ he) _ => x [its [-> e1 e2 e3]].
have sz (z : tensor) : size (norms z) = tcols z by rewrite size_map size_iota.
exists its; split=> //.
- by rewrite e1 (perm_trans (argsort_perm _)) // sz /tcols sa0.
- by rewrite e2 (perm_trans (argsort_perm _)) // sz /tcols sb0.
- by apply: sub_all e3 => -[[i|] [j|]].
move=> i j hin; move/allP/(_ _ hin): e3 => /=.
have [ci cj] : (i < mcols a)%N /\ (j < mcols b)%N.
  have h1 : i \in pmap fst its by rewrite mem_pmap; apply/mapP; exists (Some i, Some j).
  have h2 : j \in pmap snd its by rewrite mem_pmap; apply/mapP; exists (Some i, Some j).
  move: h1 h2; rewrite e1 e2 !(perm_mem (argsort_perm _)) !mem_iota !sz /tcols sa0 sb0 /=; split; assumption.
case: (ha) (hb) => s1 p1 E1 [s2 p2 E2].
have o2 : bcok (mrows a :: mbatch a) (mrows b :: mbatch b) by rewrite bcok_cons orw.
have z1 : sh (t_colb ta i) = mrows a :: mbatch a by rewrite /= s1.
have z2 : sh (t_colb tb j) = mrows b :: mbatch b by rewrite /= s2.
rewrite /t_same z1 z2 (bcsE o2) bct_cons // => hal be r h1 h2 hr.
set s := bcn _ _ :: _ in hal.
have hs : inb s (clamp s (r :: be)) by rewrite /s -[inb _ _]/(okb s (r :: be)) /s okb_cons clid // hr okb_bct // h1.
have := allidxP hal hs; move/eqP; rewrite !bat_clamp; last 2 first.
- by rewrite /= s2 /s -bct_cons // bct_ubr.
- by rewrite /= s1 /s -bct_cons // bct_ubl.
have [c1 c2] : (cl (mrows a) r < mrows a)%N /\ (cl (mrows b) r < mrows b)%N.
  by rewrite (cl_bcn_lt orw) ?(cl_bcn_ltr orw) ?mrows_gt0.
rewrite /bat /= s1 s2 /= => e; rewrite -E1 // -E2 //.
by rewrite /mx s1 s2 /= !drop0.
Qed.

(** Padding and taking. *)
Definition pk (p : nat) (g : seq nat -> nat -> nat -> F) be i (o : option nat) : F := if o is Some j then g be i j else 0.
Lemma resolve_oint c os : all (fun o => if o is Some i then i < c else true)%N os ->
  resolve_iom c.+1 (Idx (map oint os)) = ret (map (odflt c) os).
Proof.
rewrite /resolve_iom; elim: os => //= o os IH /andP[h1 /IH ->]; case: o h1 => [i|] /= h1.
  by rewrite (ltn_trans h1) // !bind_ret.
by rewrite subn1 !bind_ret.
Qed.
Definition numlike a : bool := (tag a == 0%N) || (tag a == 2%N).
Lemma concat_num_ok0 a z c' h : wf a -> tmat z (mrows a) c' (mbatch a) h ->
  hoare (concat_num self a z 0) (fun x => is_res x (mrows a) (mcols a + c') (mbatch a)
    (fun be i j => if (j < mcols a)%N then ent a be i j else h be i (j - mcols a)%N) /\ numlike x).
Proof.
move=> wa hz.
have G : hoare (do _ <- warn_if (structured a); do t <- o_dense self a; do u <- t_concat_pos [:: t; z] 0; ret (mk_dense u))
   (fun x => is_res x (mrows a) (mcols a + c') (mbatch a)
    (fun be i j => if (j < mcols a)%N then ent a be i j else h be i (j - mcols a)%N) /\ numlike x).
  apply: hoare_warn_if; apply: (hoare_bind (ok_dense ok wa)) => t ht.
  apply: (hoare_bind (tmat_concat0 ht hz)) => w hw; rewrite (mk_dense_tmat hw).
  by apply: hoare_ret; split=> //; apply: res_dense.
case: a wa hz G => // t wa hz _.
apply: (hoare_bind (tmat_concat0 (num_is wa) hz)) => w hw.
by apply: hoare_ret; split=> //; apply: res_num.
Qed.
Lemma concat_num_ok1 a z c' h : wf a -> tmat z c' (mcols a) (mbatch a) h ->
  hoare (concat_num self a z 1) (fun x => is_res x (mrows a + c') (mcols a) (mbatch a)
    (fun be i j => if (i < mrows a)%N then ent a be i j else h be (i - mrows a)%N j) /\ numlike x).
Proof.
move=> wa hz.
have G : hoare (do _ <- warn_if (structured a); do t <- o_dense self a; do u <- t_concat_pos [:: t; z] 1; ret (mk_dense u))
   (fun x => is_res x (mrows a + c') (mcols a) (mbatch a)
    (fun be i j => if (i < mrows a)%N then ent a be i j else h be (i - mrows a)%N j) /\ numlike x).
  apply: hoare_warn_if; apply: (hoare_bind (ok_dense ok wa)) => t ht.
  apply: (hoare_bind (tmat_concat1 ht hz)) => w hw; rewrite (mk_dense_tmat hw).
  by apply: hoare_ret; split=> //; apply: res_dense.
case: a wa hz G => // t wa hz _.
apply: (hoare_bind (tmat_concat1 (num_is wa) hz)) => w hw.
by apply: hoare_ret; split=> //; apply: res_num.
Qed.
Lemma pad_col_ok a r c b f : is_res a r c b f -> hoare (pad_zero_col self a) (fun x =>
  is_res x r c.+1 b (fun be i j => if (j < c)%N then f be i j else 0) /\ numlike x).
Proof.
move=> [wa [hr hc] hb e]; rewrite /pad_zero_col shape_batchE // shape_ofE // !bind_ret /=.
have hz : tmat (t_zeros (mdtype a) [:: 1%N, mrows a & mbatch a]) (mrows a) 1 (mbatch a) (fun _ _ _ => (0 : F)).
  by apply: tmat_full; rewrite !posn_cons /= mrows_gt0 // mbatch_pos.
apply: hoare_conseq (concat_num_ok0 wa hz) _ => x [hx nx]; rewrite -hr -hc -hb -addn1; split=> //.
apply: res_ext hx _ => be i j hbe hi hj; case: ifP => // hj'.
by apply: e; rewrite -?hr -?hc -?hb.
Qed.
Lemma pad_row_ok a r c b f : is_res a r c b f -> hoare (pad_zero_row self a) (fun x =>
  is_res x r.+1 c b (fun be i j => if (i < r)%N then f be i j else 0) /\ numlike x).
Proof.
move=> [wa [hr hc] hb e]; rewrite /pad_zero_row shape_batchE // shape_ofE // !bind_ret /=.
have hz : tmat (t_zeros (mdtype a) [:: mcols a, 1%N & mbatch a]) 1 (mcols a) (mbatch a) (fun _ _ _ => (0 : F)).
  by apply: tmat_full; rewrite !posn_cons /= mcols_gt0 // mbatch_pos.
apply: hoare_conseq (concat_num_ok1 wa hz) _ => x [hx nx]; rewrite -hr -hc -hb -addn1; split=> //.
apply: res_ext hx _ => be i j hbe hi hj; case: ifP => // hj'.
by apply: e; rewrite -?hr -?hc -?hb.
Qed.
Lemma take_num_ok0 a r c b f os : is_res a r c.+1 b f -> (0 < size os)%N ->
  all (fun o => if o is Some i then i < c else true)%N os ->
  hoare (take_num self a (map oint os) 0) (fun x =>
    is_res x r (size os) b (fun be i k => f be i (odflt c (nth None os k))) /\ numlike x).
Proof.
move=> [wa [hr hc] hb e] n0 al; have R := resolve_oint al.
have n0' : (0 < size (map (odflt c) os))%N by rewrite size_map.
have al' : all (fun n => n < c.+1)%N (map (odflt c) os).
  by rewrite all_map; apply: sub_all al => -[i|] //= h; apply: ltnW.
have K (t : tensor) (Z : tensor -> mat) : tmat t r c.+1 b f -> (forall z r c b g, tmat z r c b g -> is_res (Z z) r c b g /\ numlike (Z z)) ->
   hoare (do u <- t_take_pos t (Idx (map oint os)) 0; ret (Z u)) (fun x =>
    is_res x r (size os) b (fun be i k => f be i (odflt c (nth None os k))) /\ numlike x).
  move=> ht hZ; apply: (hoare_bind (tmat_take0 ht R n0' al')) => w hw; apply: hoare_ret.
  have [h1 h2] := hZ _ _ _ _ _ hw; split=> //; rewrite size_map in h1; apply: res_ext h1 _ => be i j _ _ hj.
  by rewrite (nth_map None).
have G : hoare (do _ <- warn_if (structured a); do t <- o_dense self a; do u <- t_take_pos t (Idx (map oint os)) 0; ret (mk_dense u)) (fun x =>
    is_res x r (size os) b (fun be i k => f be i (odflt c (nth None os k))) /\ numlike x).
  apply: hoare_warn_if; apply: (hoare_bind (dense_res ok (And4 wa (conj hr hc) hb e))) => t ht.
  by apply: K ht _ => z ? ? ? ? H; rewrite (mk_dense_tmat H); split=> //; apply: res_dense.
case: a wa hr hc hb e G => // t wa hr hc hb e _.
apply: K; last by move=> *; split=> //; apply: res_num.
by have := num_is wa; rewrite hr hc hb => h; apply: tmat_ext h _.
Qed.
Lemma take_num_ok1 a r c b f os : is_res a r.+1 c b f -> (0 < size os)%N ->
  all (fun o => if o is Some i then i < r else true)%N os ->
  hoare (take_num self a (map oint os) 1) (fun x =>
    is_res x (size os) c b (fun be k j => f be (odflt r (nth None os k)) j) /\ numlike x).
Proof.
move=> [wa [hr hc] hb e] n0 al; have R := resolve_oint al.
have n0' : (0 < size (map (odflt r) os))%N by rewrite size_map.
have al' : all (fun n => n < r.+1)%N (map (odflt r) os).
  by rewrite all_map; apply: sub_all al => -[i|] //= h; apply: ltnW.
have K (t : tensor) (Z : tensor -> mat) : tmat t r.+1 c b f -> (forall z r c b g, tmat z r c b g -> is_res (Z z) r c b g /\ numlike (Z z)) ->
   hoare (do u <- t_take_pos t (Idx (map oint os)) 1; ret (Z u)) (fun x =>
    is_res x (size os) c b (fun be k j => f be (odflt r (nth None os k)) j) /\ numlike x).
  move=> ht hZ; apply: (hoare_bind (tmat_take1 ht R n0' al')) => w hw; apply: hoare_ret.
  have [h1 h2] := hZ _ _ _ _ _ hw; split=> //; rewrite size_map in h1; apply: res_ext h1 _ => be i j _ hi _.
  by rewrite (nth_map None).
have G : hoare (do _ <- warn_if (structured a); do t <- o_dense self a; do u <- t_take_pos t (Idx (map oint os)) 1; ret (mk_dense u)) (fun x =>
    is_res x (size os) c b (fun be k j => f be (odflt r (nth None os k)) j) /\ numlike x).
  apply: hoare_warn_if; apply: (hoare_bind (dense_res ok (And4 wa (conj hr hc) hb e))) => t ht.
  by apply: K ht _ => z ? ? ? ? H; rewrite (mk_dense_tmat H); split=> //; apply: res_dense.
case: a wa hr hc hb e G => // t wa hr hc hb e _.
apply: K; last by move=> *; split=> //; apply: res_num.
by have := num_is wa; rewrite hr hc hb => h; apply: tmat_ext h _.
Qed.
(** Both steps. *)
Lemma pad_take_ok a os : wf a -> (0 < size os)%N ->
  all (fun o => if o is Some i then i < mcols a else true)%N os ->
  hoare (do x <- pad_zero_col self a; take_num self x (map oint os) 0) (fun x =>
    is_res x (mrows a) (size os) (mbatch a) (fun be i k => oapp (ent a be i) 0 (nth None os k)) /\ numlike x).
Proof.
move=> wa n0 al; apply: (hoare_bind (pad_col_ok (res_wf wa))) => x [hx nx].
apply: hoare_conseq (take_num_ok0 hx n0 al) _ => y [hy ny]; split=> //; apply: res_ext hy _ => be i k _ _ hk.
have := allP al (nth None os k); rewrite mem_nth // => /(_ isT).
by case: (nth None os k) => [j|] /= => [->|_]; rewrite ?ltnn.
Qed.
Lemma pad_take2_ok a os os' : wf a -> (0 < size os)%N -> (0 < size os')%N ->
  all (fun o => if o is Some i then i < mrows a else true)%N os ->
  all (fun o => if o is Some i then i < mcols a else true)%N os' ->
  hoare (do x <- pad_zero_both self a; do y <- take_num self x (map oint os) 1; take_num self y (map oint os') 0) (fun x =>
    is_res x (size os) (size os') (mbatch a)
     (fun be k k' => oapp (fun i => oapp (ent a be i) 0 (nth None os' k')) 0 (nth None os k)) /\ numlike x).
Proof.
move=> wa n0 n0' al al'; rewrite /pad_zero_both bindA; apply: (hoare_bind (pad_row_ok (res_wf wa))) => x [hx nx].
apply: (hoare_bind (pad_col_ok hx)) => y [hy ny]; apply: (hoare_bind (take_num_ok1 hy n0 al)) => z [hz nz].
apply: hoare_conseq (take_num_ok0 hz n0' al') _ => w [hw nw]; split=> //; apply: res_ext hw _ => be k k' _ hk hk'.
have := allP al (nth None os k); rewrite mem_nth // => /(_ isT).
have := allP al' (nth None os' k'); rewrite mem_nth // => /(_ isT).
case: (nth None os' k') => [j|] /= => [->|_]; case: (nth None os k) => [i|] /= => [->|_] //; by rewrite !ltnn.
Qed.


Lemma numlike_kfree x : numlike x -> kfree x. Proof. by case: x. Qed.
Lemma numlike_side x y : wf x -> wf y -> numlike x -> numlike y -> add_side x y.
Proof. by case: x => //; case: y. Qed.
Lemma its_bound (its : seq item) (f : item -> option nat) n : perm_eq (pmap f its) (iota 0 n) ->
  all (fun o => if o is Some i then i < n else true)%N (map f its).
Proof.
move=> hp; rewrite all_map; apply/allP => it hit /=; case E: (f it) => [i|] //.
have : i \in pmap f its by rewrite mem_pmap -E; apply: map_f.
by rewrite (perm_mem hp) mem_iota.
Qed.
Lemma its_boundb (its : seq item) n : perm_eq (pmap snd its) (iota 0 n) ->
  all (fun o => if o is Some i then i < n else true)%N (map ojb its).
Proof.
move/its_bound; rewrite !all_map; apply: sub_all => -[[i|] [j|]] //.
Qed.
Lemma its_size (its : seq item) n : perm_eq (pmap fst its) (iota 0 n) -> (0 < n)%N -> (0 < size its)%N.
Proof.
move=> hp n0; have := perm_size hp; rewrite size_iota; case: its {hp} => //= e; by rewrite -e in n0.
Qed.

(** The joined factor: what its columns are. *)
Definition jcol (fa fb : nat -> F) (it : item) : F := oapp fa 0 it.1 + oapp fb 0 (ojb it).
Lemma join_side_ok la (lb : mat) (its : seq item) : wf la -> wf lb -> bcnok (mrows la) (mrows lb) -> bcok (mbatch la) (mbatch lb) ->
  perm_eq (pmap fst its) (iota 0 (mcols la)) -> perm_eq (pmap snd its) (iota 0 (mcols lb)) ->
  forall (Q : mat -> Prop) (K : mat -> outcome mat),
  (forall j, is_res j (bcn (mrows la) (mrows lb)) (size its) (bct (mbatch la) (mbatch lb))
      (fun be i k => jcol (ent la be (cl (mrows la) i)) (ent lb be (cl (mrows lb) i)) (nth (None, None) its k)) -> kfree j ->
     hoare (K j) Q) ->
  hoare (do x <- (do x <- pad_zero_col self la; take_num self x (al_ja (al_of its)) 0);
         do y <- (do x <- pad_zero_col self lb; take_num self x (al_jb (al_of its)) 0);
         do j <- o_add self x y; K j) Q.
Proof.
move=> wa wb orw ob p1 p2 Q K hK /=.
have n0 := its_size p1 (mcols_gt0 wa).
have -> : [seq oint it.1 | it <- its] = map oint (map fst its) by rewrite -map_comp.
have -> : [seq oint (ojb it) | it <- its] = map oint (map ojb its) by rewrite -map_comp.
apply: (hoare_bind (pad_take_ok wa _ (its_bound p1))); first by rewrite size_map.
move=> x [hx nx]; apply: (hoare_bind (pad_take_ok wb _ (its_boundb p2))); first by rewrite size_map.
move=> y [hy ny]; rewrite !size_map in hx hy.
apply: (hoare_bind (add_res ok hx hy orw (bcnokn _) ob (numlike_side (res_kwf hx) (res_kwf hy) nx ny))) => j [hj kj].
apply: hK; last by apply: kj; apply: numlike_kfree.
rewrite bcnn in hj; apply: res_ext hj _ => be i k _ _ hk.
by rewrite /jcol !(clid hk) !(nth_map ((None, None) : item)).
Qed.

Definition jmid (ma mb : nat -> nat -> F) (it it' : item) : F :=
  oapp (fun i => oapp (ma i) 0 it'.1) 0 it.1 + oapp (fun i => oapp (mb i) 0 it'.2) 0 it.2.
Lemma join_sum (its its' : seq item) (la lb ra rb : nat -> F) (ma mb : nat -> nat -> F) pa qa pb qb :
  perm_eq (pmap fst its) (iota 0 pa) -> perm_eq (pmap snd its) (iota 0 pb) ->
  perm_eq (pmap fst its') (iota 0 qa) -> perm_eq (pmap snd its') (iota 0 qb) ->
  (forall i j, (Some i, Some j) \in its -> la i = lb j) ->
  (forall i j, (Some i, Some j) \in its' -> ra i = rb j) ->
  let nn := nth ((None, None) : item) in
  sumf (size its) (fun k => sumf (size its') (fun k' =>
     jcol la lb (nn its k) * jmid ma mb (nn its k) (nn its' k') * jcol ra rb (nn its' k'))) =
  sumf pa (fun p => sumf qa (fun q => la p * ma p q * ra q)) +
  sumf pb (fun p => sumf qb (fun q => lb p * mb p q * rb q)).
Proof.
move=> h1 h2 h3 h4 e1 e2 nn.
rewrite -(sumf_pmap (None, None) (fun p => sumf qa (fun q => la p * ma p q * ra q)) h1).
rewrite -(sumf_pmap (None, None) (fun p => sumf qb (fun q => lb p * mb p q * rb q)) h2).
rewrite -sumf_add; apply: eq_sumf => k hk; rewrite -/nn.
have : nn its k \in its by apply: mem_nth.
case: (nn its k) => [x1 x2] hx.
have La p : x1 = Some p -> jcol la lb (x1, x2) = la p by move=> ->; rewrite /jcol /ojb /= addr0.
have Lb p : x2 = Some p -> jcol la lb (x1, x2) = lb p.
  move=> e; subst x2; rewrite /jcol /ojb /=; case: x1 hx {La} => [i|] hx /=; last by rewrite add0r.
  by rewrite addr0; apply: e1.
have Ra q : forall y2, (Some q, y2) \in its' -> jcol ra rb (Some q, y2) = ra q by move=> y2 _; rewrite /jcol /ojb /= addr0.
have Rb q : forall y1, (y1, Some q) \in its' -> jcol ra rb (y1, Some q) = rb q.
  move=> y1 hy; rewrite /jcol /ojb /=; case: y1 hy => [i|] hy /=; last by rewrite add0r.
  by rewrite addr0; apply: e2.
have A : oapp (fun p => sumf qa (fun q => la p * ma p q * ra q)) 0 x1 =
   sumf (size its') (fun k' => jcol la lb (x1, x2) * oapp (fun i => oapp (ma i) 0 (nn its' k').1) 0 x1 * jcol ra rb (nn its' k')).
  case: x1 hx La {Lb} => [p|] hx La /=; last by rewrite (eq_sumf (g := fun _ => 0)) ?sumf0 // => k' _; rewrite mulr0 mul0r.
  rewrite -(sumf_pmap (None, None) _ h3); apply: eq_sumf => k' hk'; rewrite -/nn (La p) //.
  have : nn its' k' \in its' by apply: mem_nth.
  by case: (nn its' k') => [[q|] y2] hy /=; rewrite ?(Ra _ _ hy) // mulr0 mul0r.
have B : oapp (fun p => sumf qb (fun q => lb p * mb p q * rb q)) 0 x2 =
   sumf (size its') (fun k' => jcol la lb (x1, x2) * oapp (fun i => oapp (mb i) 0 (nn its' k').2) 0 x2 * jcol ra rb (nn its' k')).
  case: x2 hx Lb {La A} => [p|] hx Lb /=; last by rewrite (eq_sumf (g := fun _ => 0)) ?sumf0 // => k' _; rewrite mulr0 mul0r.
  rewrite -(sumf_pmap (None, None) _ h4); apply: eq_sumf => k' hk'; rewrite -/nn (Lb p) //.
  have : nn its' k' \in its' by apply: mem_nth.
  by case: (nn its' k') => [y1 [q|]] hy /=; rewrite ?(Rb _ _ hy) // mulr0 mul0r.
rewrite A B -sumf_add; apply: eq_sumf => k' _.
rewrite /jmid; move: (jcol la lb _) (jcol ra rb _) => X Y; by rewrite mulrDr mulrDl.
Qed.

Theorem add_lr_lr_ok la ra ma lb rb mb : wf (LR la ra ma) -> wf (LR lb rb mb) ->
  shapes_ok (LR la ra ma) (LR lb rb mb) ->
  hoare (add_lr_lr argsort self la ra ma lb rb mb)
    (fun c => res2 +%R (LR la ra ma) (LR lb rb mb) c /\ kfree c).
Proof.
move=> wA wB so; rewrite /add_lr_lr assert_shapesE // bind_ret.
have [[wla wra wma] [kla kra kma] [e1 e2] [b1 b2 b3]] := lr_facts wA.
have [[wlb wrb wmb] [klb krb kmb] [e3 e4] [b4 b5 b6]] := lr_facts wB.
case/and3P: (so) => o1 o2 o3.
set u := bct (mbatch (LR la ra ma)) (mbatch (LR lb rb mb)).
have uA : bto (mbatch (LR la ra ma)) u := bct_ubl o3.
have uB : bto (mbatch (LR lb rb mb)) u := bct_ubr o3.
move: (b1) (b2) (b3) (b4) (b5) (b6) => /bto_trans/(_ uA) c1 /bto_trans/(_ uA) c2 /bto_trans/(_ uA) c3 
  /bto_trans/(_ uB) c4 /bto_trans/(_ uB) c5 /bto_trans/(_ uB) c6.
have q1 : bcok (mbatch la) (mbatch lb) by okt u.
have q2 : bcok (mbatch ra) (mbatch rb) by okt u.
have q3 : bcok (mbatch ma) (mbatch mb) by okt u.
apply: (hoare_bind (align_ok wla wlb o1 q1)) => _ [its [-> h1 h2 h3 h4]].
apply: (hoare_bind (align_ok wra wrb o2 q2)) => _ [its' [-> h1' h2' h3' h4']].
apply: (join_side_ok wla wlb o1 q1 h1 h2) => jl hjl kjl.
apply: (join_side_ok wra wrb o2 q2 h1' h2') => jr hjr kjr.
have n0 := its_size h1 (mcols_gt0 wla); have n0' := its_size h1' (mcols_gt0 wra).
have -> : al_a (al_of its) = map oint (map fst its) by rewrite /= -map_comp.
have -> : al_a (al_of its') = map oint (map fst its') by rewrite /= -map_comp.
have -> : al_b (al_of its) = map oint (map snd its) by rewrite /= -map_comp.
have -> : al_b (al_of its') = map oint (map snd its') by rewrite /= -map_comp.
have i1 := its_bound h1; have i2 := its_bound h2; have i1' := its_bound h1'; have i2' := its_bound h2'.
rewrite e1 in i1; rewrite e2 in i1'; rewrite e3 in i2; rewrite e4 in i2'.
apply: (hoare_bind (pad_take2_ok wma _ _ i1 i1')); rewrite ?size_map // => am [ham nam].
apply: (hoare_bind (pad_take2_ok wmb _ _ i2 i2')); rewrite ?size_map // => bm [hbm nbm].
rewrite ?size_map in ham; rewrite ?size_map in hbm.
apply: (hoare_bind (add_rese ok ham hbm q3)) => jm [hjm kjm].
have {}kjm : kfree jm by apply: kjm; apply: numlike_kfree.
have {}hjm : is_res jm (size its) (size its') (bct (mbatch ma) (mbatch mb))
   (fun be k k' => jmid (ent ma be) (ent mb be) (nth (None, None) its k) (nth (None, None) its' k')).
  by apply: res_ext hjm _ => be k k' _ hk hk'; rewrite /jmid !(nth_map (None, None)).
have v1 : bto (bct (mbatch la) (mbatch lb)) u by rewrite bto_bct // c1.
have v2 : bto (bct (mbatch ra) (mbatch rb)) u by rewrite bto_bct // c2.
have v3 : bto (bct (mbatch ma) (mbatch mb)) u by rewrite bto_bct // c3.
apply: (hoare_bind (mk_lowrank_res hjl hjr hjm kjl kjr kjm v1 v2 v3)) => lr [hlr [klr _]].
apply: (hoare_bind (dense_res ok hjm)) => t ht.
set iz := t_mean_lt _ _.
have G : res2 +%R (LR la ra ma) (LR lb rb mb) lr.
  apply: (res_cast hlr).
    apply: bto_ext => v; rewrite [RHS]bto_bct // !LRb // [LHS]bto_bct; last by okt u.
    rewrite [bto (bct _ _) v]bto_bct; last by okt u.
    rewrite !(bto_bct _ q1) !(bto_bct _ q2) !(bto_bct _ q3).
    by do 6!case: (bto _ v).
  move=> be i j; rewrite -/u => hbe hi hj; rewrite /lrf /entb /=.
  have okx b : bto b u -> okb b be by move=> hb; apply: okb_mono hb hbe.
  rewrite -(join_sum _ _ h1 h2 h1' h2') // => p q hin.
    by apply: (h4 _ _ hin); rewrite ?okx.
  by apply: (h4' _ _ hin); rewrite ?okx.
apply: hoare_mark => hz; case: ifP hz => iz' hz; last by apply: hoare_ret.
rewrite /zeros_of shape_ofE; last by case: G.
rewrite bind_ret /mk_zero; apply: hoare_ret; split=> //.
move/negbFE: hz => hz; case: (G) => w [r1 r2] r3 r4; split=> //=.
- have := wf_posn w; by [].
move=> be i j hbe hi hj; rewrite -r4 //.
case: (hlr) => _ [s1 s2] s3 s4; rewrite s4 //; last by rewrite -s3 r3.
rewrite /lrf; symmetry; rewrite (eq_sumf (g := fun _ => 0)) ?sumf0 // => k hk.
rewrite (eq_sumf (g := fun _ => 0)) ?sumf0 // => k' hk'.
have okm : okb (bct (mbatch ma) (mbatch mb)) be by apply: okb_mono v3 hbe.
case: ht => ts tp te; rewrite -te //.
have : inb (sh t) [:: k', k & clamp (bct (mbatch ma) (mbatch mb)) be] by rewrite ts /= hk hk'.
by move/(allidxP hz)/eqP; rewrite /mx ts /= drop0 => ->; rewrite mulr0 mul0r.
Qed.
End LrAddOk.
