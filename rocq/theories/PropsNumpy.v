(** * C46: the array functions, in NumPy's order and notation

    The theorems about matrices compare with the array functions of Tensor.v.  Here these are compared with a
    textbook specification in which shapes and indices are Python tuples (outermost axis first). *)
From mathcomp Require Import all_ssreflect all_algebra zify.
From Verif Require Import Outcome Monad Shape Tensor Ops2 Spec ShapeThy TensorThy TensorThy2 SumThy PyShape Backend SpecLA LinAlg MxThy.
Set Implicit Arguments. Unset Strict Implicit. Unset Printing Implicit Defensive.
Import GRing.Theory.
Local Open Scope ring_scope.

(** ** Specification *)
Section Spec.
Variable F : rcfType.
Notation tensor := (tensor F).
(** [t.shape] and [t[ix]] *)
Definition pshape (t : tensor) : seq nat := rev (sh t).
Definition pget (t : tensor) (ix : seq nat) : F := tget t (rev ix).
(** [ix] is an index of an array of shape [s]. *)
Definition pin (s ix : seq nat) : Prop := size ix = size s /\ forall p, (p < size s)%N -> (nth 0 ix p < nth 0 s p)%N.
(** The entry read by index [ix] of an array of shape [s] which was broadcasted: axes are aligned from the right,
    and axes of length one are read at zero. *)
Definition pbidx (s ix : seq nat) : seq nat :=
  [seq (if nth 0 s p == 1 then 0 else nth 0 ix (size ix - size s + p))%N | p <- iota 0 (size s)].
(** Number of the entry in C order (Horner's rule). *)
Definition offset (s ix : seq nat) : nat := foldl (fun acc (p : nat * nat) => acc * p.1 + p.2)%N 0%N (zip s ix).
(** [z] has shape [s] and entries [f]. *)
Definition isarr (z : tensor) (s : seq nat) (f : seq nat -> F) : Prop :=
  pshape z = s /\ forall ix, pin s ix -> pget z ix = f ix.
End Spec.

(** ** Reversal *)
Lemma pinE s ix : pin s ix <-> inb (rev s) (rev ix).
Proof.
have key (u v : seq nat) : inb u v <-> size v = size u /\ forall p, (p < size u)%N -> (nth 0 v p < nth 0 u p)%N.
  elim: u v => [|d u IH] [|i v] //=; try by split=> // -[].
  split=> [/andP[h /IH[e H]]|[[e] H]].
    by split=> [|[|p]] //; [rewrite e|exact: H].
  by rewrite (H 0%N) //=; apply/IH; split=> // p hp; apply: (H p.+1).
rewrite key !size_rev; split=> -[e H]; split=> // p hp.
  by rewrite !nth_rev ?e //; apply: H; move: hp; clear; lia.
have h : (size s - p.+1 < size s)%N by move: hp; clear; lia.
have := H _ h; rewrite !nth_rev ?e //; have -> // : (size s - (size s - p.+1).+1 = p)%N by move: hp; clear; lia.
Qed.
Lemma del_cat A (s : seq A) p : del s p = take p s ++ drop p.+1 s.
Proof. by elim: s p => [|x s IH] [|p] //=; rewrite ?drop0 ?IH. Qed.
Lemma ins_cat A (s : seq A) p x : (p <= size s)%N -> ins s p x = take p s ++ x :: drop p s.
Proof. by elim: s p => [|y s IH] [|p] //= h; rewrite ?drop0 ?IH. Qed.
Lemma upd_cat A (s : seq A) p x : (p < size s)%N -> upd s p x = take p s ++ x :: drop p.+1 s.
Proof. by elim: s p => [|y s IH] [|p] //= h; rewrite ?drop0 ?IH. Qed.
Lemma clamp_nth (s ix : seq nat) : clamp s ix = [seq cl (nth 0%N s p) (nth 0%N ix p) | p <- iota 0 (size s)].
Proof.
elim: s ix => [|d s IH] ix //=; rewrite nth0 IH; congr cons.
by rewrite -[1%N]/(1 + 0)%N iotaDl -map_comp; apply: eq_map => p /=; rewrite nth_behead.
Qed.
Lemma rev_iota_sub n : rev (iota 0 n) = [seq n - p.+1 | p <- iota 0 n]%N.
Proof.
apply: (@eq_from_nth _ 0%N); rewrite size_rev ?size_map // => p; rewrite size_iota => hp.
by rewrite nth_rev ?size_iota // (nth_map 0%N) ?size_iota // !nth_iota ?add0n // subnSK // leq_subr.
Qed.
Lemma pbidxE s ix : (size s <= size ix)%N -> clamp (rev s) (rev ix) = rev (pbidx s ix).
Proof.
move=> h; rewrite clamp_nth /pbidx -map_rev rev_iota_sub -map_comp size_rev; apply/eq_in_map => p.
rewrite mem_iota add0n => /= hp; rewrite /cl !nth_rev //; last exact: leq_trans hp h.
case: ifP => // _; congr nth; move: hp h; clear; lia.
Qed.

Lemma rdel A (s : seq A) p : (p < size s)%N -> del (rev s) (size s - p.+1) = rev (take p s ++ drop p.+1 s).
Proof.
move=> hp; rewrite del_cat take_rev drop_rev rev_cat.
have -> : (size s - (size s - p.+1) = p.+1)%N by move: hp; clear; lia.
by have -> : (size s - (size s - p.+1).+1 = p)%N by move: hp; clear; lia.
Qed.
Lemma rins A (s : seq A) p x : (p <= size s)%N -> ins (rev s) (size s - p) x = rev (take p s ++ x :: drop p s).
Proof.
move=> hp; rewrite ins_cat ?size_rev ?leq_subr // take_rev drop_rev rev_cat rev_cons cat_rcons.
by have -> : (size s - (size s - p) = p)%N by move: hp; clear; lia.
Qed.
Lemma rupd A (s : seq A) p x : (p < size s)%N -> upd (rev s) (size s - p.+1) x = rev (take p s ++ x :: drop p.+1 s).
Proof.
move=> hp; have h : (size s - p.+1 < size s)%N by move: hp; clear; lia.
rewrite upd_cat ?size_rev // take_rev drop_rev rev_cat rev_cons cat_rcons.
have -> : (size s - (size s - p.+1) = p.+1)%N by move: hp; clear; lia.
by have -> : (size s - (size s - p.+1).+1 = p)%N by move: hp; clear; lia.
Qed.
(** A Python axis: position [p] from the left, possibly written as a negative number. *)
Definition paxis (rank : nat) (ax : int) (p : nat) : Prop := (p < rank)%N /\ (ax = Posz p \/ ax = Posz p - Posz rank).
Lemma paxisE rank ax p : paxis rank ax p -> resolve_axis rank ax = ret (rank - p.+1)%N.
Proof.
case=> hp [->|->] /=; first by rewrite hp.
have -> : Posz p - Posz rank = Negz (rank - p.+1) by move: hp; clear; lia.
by rewrite /=; have -> : (rank - p.+1 < rank)%N by move: hp; clear; lia.
Qed.
Lemma paxisN rank ax : (forall p, ~ paxis rank ax p) -> resolve_axis rank ax = Raise ValueError.
Proof.
rewrite /paxis; case: ax => n h /=; case: ltnP => // hn.
  by case: (h n); split=> //; left.
by case: (h (rank - n.+1)%N); split; [|right]; move: hn; clear; lia.
Qed.

Section Arrays.
Variable F : rcfType.
Notation tensor := (tensor F).
Implicit Types t a b : tensor.
Lemma isarrE (z : tensor) s f : sh z = rev s -> (forall idx, inb (rev s) idx -> tget z idx = f (rev idx)) -> isarr z s f.
Proof. by move=> e h; split=> [|ix /pinE hx]; rewrite /pshape ?e ?revK // /pget h ?revK. Qed.
Lemma shE t s : pshape t = s -> sh t = rev s. Proof. by move<-; rewrite /pshape revK. Qed.
Lemma size_inb s idx : inb s idx -> size idx = size s.
Proof. by elim: s idx => [|d s IH] [|i idx] //= /andP[_ /IH->]. Qed.
Lemma batE t idx : (size (sh t) <= size idx)%N -> bat t idx = pget t (pbidx (pshape t) (rev idx)).
Proof. by move=> h; rewrite /pget -pbidxE /pshape ?revK ?size_rev. Qed.
Lemma size_np s1 s2 s : np_rule s1 s2 s -> (size s1 <= size s)%N /\ (size s2 <= size s)%N.
Proof. by case=> -> _; rewrite leq_maxl leq_maxr. Qed.

(** Elementwise binary functions. *)
Theorem C46_elementwise (f : F -> F -> F) a b :
  (forall s, np_rule (pshape a) (pshape b) s -> exists2 z, t_map2 f a b = ret z &
     isarr z s (fun ix => f (pget a (pbidx (pshape a) ix)) (pget b (pbidx (pshape b) ix)))) /\
  (np_clash (pshape a) (pshape b) -> t_map2 f a b = Raise ValueError).
Proof.
rewrite np_clashE /t_map2 /pshape !revK; split=> [s h|-> //].
have [h1 h2] := size_np h; rewrite !size_rev in h1 h2; move/np_ruleE: h; rewrite !revK => ->.
eexists; first reflexivity; apply: isarrE => //= idx /size_inb; rewrite size_rev => e.
by rewrite !batE // e.
Qed.
Theorem C46_broadcast_to t s :
  (np_rule (pshape t) s s -> exists2 z, t_broadcast_to t (rev s) = ret z & isarr z s (fun ix => pget t (pbidx (pshape t) ix))) /\
  (~ np_rule (pshape t) s s -> t_broadcast_to t (rev s) = Raise ValueError).
Proof.
have E : np_rule (pshape t) s s <-> bto (sh t) (rev s).
  rewrite np_ruleE /pshape revK; split=> [h|h]; first by have := bc_lub (rev s) h; rewrite bto_refl => /esym/andP[].
  rewrite bcsE ?(bcok_ub h (bto_refl _)) //; congr Some; apply: bto_ext => u; rewrite bto_bct ?(bcok_ub h (bto_refl _)) //.
  by case e: (bto (rev s) u); rewrite ?andbF // andbT (bto_trans h e).
rewrite /t_broadcast_to; split=> [h|h].
  have [h1 _] := size_np h; rewrite size_rev in h1.
  rewrite (E.1 h); eexists; first reflexivity; apply: isarrE => //= idx /size_inb; rewrite size_rev => e.
  by rewrite batE // e.
by case: ifP => // /E.
Qed.
(** [B.transpose] swaps the last two axes. *)
Theorem C46_transpose t s r c : pshape t = s ++ [:: r; c] ->
  exists z, [/\ t_transpose t = ret z, pshape z = s ++ [:: c; r] &
    forall be i j, size be = size s -> pget z (be ++ [:: j; i]) = pget t (be ++ [:: i; j])].
Proof.
move/shE; rewrite rev_cat /t_transpose => -> /=; eexists; split; first reflexivity.
  by rewrite /pshape /= !rev_cons revK -!cats1 -catA.
by move=> be i j _; rewrite /pget /= !rev_cat.
Qed.
Theorem C46_transpose_low t : (size (pshape t) < 2)%N -> t_transpose t = Raise ValueError.
Proof. by rewrite size_rev /t_transpose; case: (sh t) => [|? []]. Qed.
(** [B.matmul]: the last two axes, the others broadcasted. *)
Theorem C46_matmul_nn a b s1 s2 s m k k' n : pshape a = s1 ++ [:: m; k] -> pshape b = s2 ++ [:: k'; n] ->
  [/\ (k = k' -> np_rule s1 s2 s -> exists z, [/\ t_matmul a b false false = ret z, pshape z = s ++ [:: m; n] &
        forall be i j, pin s be -> pget z (be ++ [:: i; j]) =
          \sum_(l < k) pget a (pbidx s1 be ++ [:: i; l : nat]) * pget b (pbidx s2 be ++ [:: l : nat; j])]),
     (k <> k' -> t_matmul a b false false = Raise ValueError) &
     (np_clash s1 s2 -> t_matmul a b false false = Raise ValueError)].
Proof.
move=> /shE ea /shE eb; rewrite rev_cat /= in ea; rewrite rev_cat /= in eb.
rewrite /t_matmul /= !bind_ret /t_matmul_nn ea eb; split.
- move=> <- h; rewrite eqxx; have [h1 h2] := size_np h; rewrite ((np_ruleE _ _ _).1 h).
  eexists; split; first reflexivity; first by rewrite /pshape /= !rev_cons revK -!cats1 -catA.
  move=> be i j [e _]; rewrite /pget /= !rev_cat /= sumfE big_mkord; apply: eq_bigr => l _.
  by rewrite /mx ea eb /= !drop0 !rev_cat /= !pbidxE ?e.
- by case: eqP.
- by rewrite np_clashE => ->; case: eqP.
Qed.
Theorem C46_matmul a b (ta tb : bool) : (2 <= size (pshape a))%N -> (2 <= size (pshape b))%N ->
  exists a' b', [/\ (if ta then t_transpose a = ret a' else a' = a), (if tb then t_transpose b = ret b' else b' = b) &
    t_matmul a b ta tb = t_matmul a' b' false false].
Proof.
have T t : (2 <= size (pshape t))%N -> exists z, t_transpose t = ret z.
  by rewrite size_rev /t_transpose; case: (sh t) => [|? [|? ?]] // _; eexists.
move=> /T[za ha] /T[zb hb]; exists (if ta then za else a), (if tb then zb else b).
by split; case: ta; case: tb; rewrite // /t_matmul /t_tr ?ha ?hb ?bind_ret.
Qed.
(** [B.sum] over one axis. *)
Theorem C46_sum_axis t ax : let s := pshape t in
  (forall p, paxis (size s) ax p -> exists2 z, t_sum t (Some ax) = ret z &
     isarr z (take p s ++ drop p.+1 s) (fun ix => \sum_(k < nth 0%N s p) pget t (take p ix ++ (k : nat) :: drop p ix))) /\
  ((forall p, ~ paxis (size s) ax p) -> t_sum t (Some ax) = Raise ValueError).
Proof.
move=> s; have es : sh t = rev s by rewrite revK.
rewrite /= /trank es size_rev; split=> [p h|h]; last by rewrite paxisN.
rewrite (paxisE h) bind_ret; case: h => hp _.
have hq : (size s - p.+1 < size s)%N by move: hp; clear; lia.
rewrite /t_sum_pos es size_rev hq; eexists; first reflexivity.
apply: isarrE; rewrite /= ?rdel // => idx /size_inb; rewrite size_rev size_cat size_take size_drop hp => e.
rewrite sumfE big_mkord nth_rev //.
have -> : (size s - (size s - p.+1).+1 = p)%N by move: hp; clear; lia.
apply: eq_bigr => k _; rewrite /pget -rins ?revK ?size_rev ?e.
  by rewrite addKn es size_rev.
by move: hp; clear; lia.
Qed.

(** [B.sum] over all axes: the sum over all indices, in any order. *)
Fixpoint allix (s : shape) : seq (seq nat) :=
  if s is d :: s' then flatten [seq [seq i :: idx | idx <- allix s'] | i <- iota 0 d] else [:: [::]].
Lemma mem_allix s idx : (idx \in allix s) = inb s idx.
Proof.
elim: s idx => [|d s IH] [|i idx] //=.
  by apply/flatten_mapP => -[k _ /mapP[]].
apply/flatten_mapP/andP => [[k hk /mapP[x hx [-> ->]]]|[hi hx]].
  by rewrite -IH hx; rewrite mem_iota in hk.
by exists i; [rewrite mem_iota|apply/mapP; exists idx; rewrite ?IH].
Qed.
Lemma uniq_allix s : uniq (allix s).
Proof.
elim: s => //= d s IH; have := iota_uniq 0 d; elim: (iota 0 d) => //= i l IHl /andP[hi /IHl ul].
rewrite cat_uniq ul andbT map_inj_uniq ?IH //=; last by move=> x y [].
apply/hasPn => x /flatten_mapP[k hk /mapP[y _ ->]]; apply/negP => /mapP[z _ [e _]].
by move: hi; rewrite -e hk.
Qed.
Lemma sumallE s (f : seq nat -> F) : sumall s f = \sum_(idx <- allix s) f idx.
Proof.
elim: s f => [|d s IH] f /=; first by rewrite big_seq1.
rewrite big_flatten /= big_map sumfE /index_iota subn0; apply: eq_bigr => i _.
by rewrite IH big_map.
Qed.
Theorem C46_sum_all t (l : seq (seq nat)) : uniq l -> (forall ix, ix \in l <-> pin (pshape t) ix) ->
  exists2 z, t_sum t None = ret z & isarr z [::] (fun _ => \sum_(ix <- l) pget t ix).
Proof.
move=> ul hl; eexists; first reflexivity; apply: isarrE => //= idx _; rewrite sumallE.
rewrite (perm_big (map rev l)); first by rewrite big_map.
apply: uniq_perm; [exact: uniq_allix|rewrite map_inj_uniq //; exact: (can_inj revK)|move=> jdx].
rewrite mem_allix -[jdx]revK mem_map; last exact: (can_inj revK).
by have := pinE (pshape t) (rev jdx); rewrite /pshape !revK -hl => h; apply/idP/idP => /h.
Qed.

(** [B.take] with a list of (possibly negative) indices or a mask. *)
Lemma mapM_nth X Y (f : X -> outcome Y) (l : seq X) (r : seq Y) x0 y0 : size r = size l ->
  (forall k, (k < size l)%N -> f (nth x0 l k) = ret (nth y0 r k)) -> mapM f l = ret r.
Proof.
elim: l r => [|x l IH] [|y r] //= [e] h; rewrite (h 0%N) // bind_ret (IH r) ?bind_ret // => k hk; exact: (h k.+1).
Qed.
Lemma mapM_raise X Y (f : X -> outcome Y) e (l : seq X) :
  (forall x, (exists y, f x = ret y) \/ f x = Raise e) -> (exists k x0, (k < size l)%N /\ f (nth x0 l k) = Raise e) -> mapM f l = Raise e.
Proof.
move=> h; elim: l => [|x l IH] [k [x0 [//]]]; case: k => [|k] hk /= ek; first by rewrite ek.
case: (h x) => [[y ->]|-> //]; rewrite bind_ret IH //; by exists k, x0.
Qed.
Lemma resolve_indexE d i : resolve_index d i = if resolve_axis d i is Ret _ q then ret (d - q.+1)%N else Raise IndexError.
Proof. by case: i => n /=; case: ltnP => // h; congr ret; move: h; clear; lia. Qed.
Theorem C46_take t ax p (l : seq int) : let s := pshape t in paxis (size s) ax p ->
  (forall qs, size qs = size l -> (forall k, (k < size l)%N -> paxis (nth 0%N s p) (nth 0 l k) (nth 0%N qs k)) ->
    exists2 z, t_take t (Idx l) ax = ret z & isarr z (take p s ++ size l :: drop p.+1 s)
      (fun ix => pget t (take p ix ++ nth 0%N qs (nth 0%N ix p) :: drop p.+1 ix))) /\
  ((exists2 k, (k < size l)%N & forall q, ~ paxis (nth 0%N s p) (nth 0 l k) q) -> t_take t (Idx l) ax = Raise IndexError).
Proof.
move=> s h; have es : sh t = rev s by rewrite revK.
rewrite /t_take /trank es size_rev (paxisE h) bind_ret /t_take_pos es size_rev; case: h => hp _.
have hq : (size s - p.+1 < size s)%N by move: hp; clear; lia.
have hn : (size s - (size s - p.+1).+1 = p)%N by move: hp; clear; lia.
rewrite hq nth_rev // hn; split=> [qs e H|[k hk H]] /=; last first.
  rewrite (@mapM_raise _ _ _ IndexError) //.
    by move=> x; rewrite resolve_indexE; case: (resolve_axis _ _) => [l' q|l' e']; [left; eexists|right].
  by exists k, 0; rewrite resolve_indexE paxisN.
rewrite (@mapM_nth _ _ _ _ qs 0 0%N) ?bind_ret // => [|k hk]; last first.
  rewrite resolve_indexE (paxisE (H k hk)) /=; congr ret; have [h _] := H k hk; move: h; clear; lia.
eexists; first reflexivity.
apply: isarrE; rewrite /= ?es ?e ?rupd // => idx /size_inb; rewrite size_rev size_cat size_take hp /= size_drop => ei.
have {}ei : size idx = size s by rewrite ei; move: hp; clear; lia.
rewrite /pget -rupd ?revK ?size_rev ?ei //; congr (tget t (upd _ _ (nth _ _ _))).
  by rewrite es size_rev.
by rewrite nth_rev ?ei // es size_rev.
Qed.
Theorem C46_take_mask t ax p (m : seq bool) : let s := pshape t in paxis (size s) ax p ->
  (size m = nth 0%N s p -> let qs := [seq q <- iota 0 (size m) | nth false m q] in
    exists2 z, t_take t (Mask m) ax = ret z & isarr z (take p s ++ size qs :: drop p.+1 s)
      (fun ix => pget t (take p ix ++ nth 0%N qs (nth 0%N ix p) :: drop p.+1 ix))) /\
  (size m <> nth 0%N s p -> t_take t (Mask m) ax = Raise IndexError).
Proof.
move=> s h; have es : sh t = rev s by rewrite revK.
rewrite /t_take /trank es size_rev (paxisE h) bind_ret /t_take_pos es size_rev; case: h => hp _.
have hq : (size s - p.+1 < size s)%N by move: hp; clear; lia.
have hn : (size s - (size s - p.+1).+1 = p)%N by move: hp; clear; lia.
rewrite hq nth_rev // hn /=; split=> [e|]; [set qs := [seq q <- _ | _]|by case: eqP].
have E : mask_positions m = qs.
  rewrite /mask_positions /qs; have -> : zip (iota 0 (size m)) m = [seq (q, nth false m q) | q <- iota 0 (size m)].
    apply: (@eq_from_nth _ (0%N, false)); rewrite size_zip ?size_map size_iota minnn // => k hk.
    by rewrite nth_zip ?size_iota // (nth_map 0%N) ?size_iota // !nth_iota.
  by rewrite filter_map -map_comp /= map_id.
rewrite e eqxx bind_ret E; eexists; first reflexivity.
apply: isarrE; rewrite /= ?es ?rupd // => idx /size_inb; rewrite size_rev size_cat size_take hp /= size_drop => ei.
have {}ei : size idx = size s by rewrite ei; move: hp; clear; lia.
rewrite /pget -rupd ?revK ?size_rev ?ei //; congr (tget t (upd _ _ (nth _ _ _))).
  by rewrite es size_rev.
by rewrite nth_rev ?ei // es size_rev.
Qed.

(** [B.concat]. *)
Lemma cat_getE (ts : seq tensor) q k idx t0 : (k < size ts)%N -> (q < size idx)%N -> inb (sh (nth t0 ts k)) idx ->
  cat_get ts q (upd idx q (sumn [seq nth 0%N (sh u) q | u <- take k ts] + nth 0%N idx q)%N) = tget (nth t0 ts k) idx.
Proof.
elim: ts k => [|t ts IH] [|k] //= hk hq hi; rewrite nth_upd //.
  rewrite add0n upd_nth ifT //; have := inb_nth hi; rewrite -(size_inb hi) => -> //.
rewrite ifF; last by move: (nth _ _ _) (nth _ _ _) (sumn _) => x y z; clear; lia.
by rewrite upd_upd -(IH k) //; congr (cat_get _ _ (upd _ _ _)); move: (nth _ _ _) (nth _ _ _) (sumn _) => x y z; clear; lia.
Qed.
Theorem C46_concat (ts : seq tensor) t0 ax p : let s := pshape (head t0 ts) in (0 < size ts)%N -> paxis (size s) ax p ->
  (forall k, (k < size ts)%N -> let s' := pshape (nth t0 ts k) in take p s' = take p s /\ drop p.+1 s' = drop p.+1 s /\ size s' = size s) ->
  exists z, [/\ t_concat ts ax = ret z,
    pshape z = take p s ++ (\sum_(k < size ts) nth 0 (pshape (nth t0 ts k)) p)%N :: drop p.+1 s &
    forall k ix, (k < size ts)%N -> pin (pshape (nth t0 ts k)) ix ->
      pget z (take p ix ++ (\sum_(j < k) nth 0%N (pshape (nth t0 ts j)) p + nth 0%N ix p)%N :: drop p.+1 ix) = pget (nth t0 ts k) ix].
Proof.
case: ts => [|t ts] // s _ h H; set us := t :: ts in H *.
have es : sh t = rev s by rewrite revK.
have -> : t_concat us ax = t_concat_pos us (size s - p.+1).
  by rewrite /t_concat /us /trank es size_rev (paxisE h) bind_ret.
case: h => hp _.
have hq : (size s - p.+1 < size s)%N by move: hp; clear; lia.
have hn : (size s - (size s - p.+1).+1 = p)%N by move: hp; clear; lia.
have szu k : (k < size us)%N -> size (pshape (nth t0 us k)) = size s by move=> /H[_ []].
have nthq k : (k < size us)%N -> nth 0%N (sh (nth t0 us k)) (size s - p.+1) = nth 0%N (pshape (nth t0 us k)) p.
  by move=> hk; rewrite -[sh (nth t0 us k)]revK -/(pshape (nth t0 us k)) nth_rev szu // hn.
have E k : (k < size us)%N -> upd (sh (nth t0 us k)) (size s - p.+1) 0%N == upd (sh t) (size s - p.+1) 0%N.
  move=> hk; have [h1 [h2 h3]] := H k hk; rewrite -{1}[sh (nth _ _ _)]revK -/(pshape (nth t0 us k)).
  by rewrite es -{1}(szu k hk) !rupd ?szu // h1 h2.
have D k : (k <= size us)%N -> sumn [seq nth 0%N (sh u) (size s - p.+1) | u <- take k us] = (\sum_(j < k) nth 0%N (pshape (nth t0 us j)) p)%N.
  move=> hk; rewrite sumnE big_map (big_nth t0) size_takel // big_mkord; apply: eq_bigr => j _.
  by rewrite nth_take // nthq // (leq_trans (ltn_ord j)).
have -> : t_concat_pos us (size s - p.+1) = ret (Tensor (foldr (fun u d => promote (dt u) d) (dt t) us)
     (upd (sh t) (size s - p.+1) (sumn [seq nth 0%N (sh u) (size s - p.+1) | u <- us])) (cat_get us (size s - p.+1))).
  rewrite /t_concat_pos {1}/us ifT // {1}es size_rev hq; apply/(all_nthP t0) => k; exact: E.
eexists; split; first reflexivity.
  by rewrite -D // take_size -[take p s ++ _]revK -rupd // -es.
move=> k ix hk /pinE; rewrite /pshape revK => hi.
have sx : size ix = size s by rewrite -(size_rev ix) (size_inb hi) -(size_rev (sh _)) (szu k hk).
rewrite -(D k) ?(ltnW hk) // /pget -rupd ?sx //.
have <- : nth 0%N (rev ix) (size s - p.+1) = nth 0%N ix p by rewrite nth_rev ?sx // hn.
by rewrite -[RHS](@cat_getE _ (size s - p.+1) _ _ _ hk _ hi) // size_rev sx.
Qed.

(** [B.reshape]: the entry with the same number in C order. *)
Lemma ravelE s ix : size s = size ix -> ravel (rev s) (rev ix) = offset s ix.
Proof.
elim/last_ind: s ix => [|s d IH] ix; first by case: ix.
elim/last_ind: ix => [|ix i _]; rewrite ?size_rcons // => -[e].
rewrite !rev_rcons /= IH // /offset -!cats1 zip_cat // foldl_cat /= mulnC addnC //.
Qed.
Lemma prodn_rev s : prodn (rev s) = (\prod_(d <- s) d)%N.
Proof.
elim/last_ind: s => [|s d IH]; first by rewrite big_nil.
by rewrite rev_rcons /= IH -cats1 big_cat big_seq1 mulnC.
Qed.
Theorem C46_reshape t s : let total := (\prod_(d <- pshape t) d)%N in
  ((\prod_(d <- s) d)%N = total -> exists z, [/\ t_reshape t (rev (map Some s)) = ret z, pshape z = s &
     forall ix ix', pin (pshape t) ix -> pin s ix' -> offset (pshape t) ix = offset s ix' -> pget z ix' = pget t ix]) /\
  ((\prod_(d <- s) d)%N <> total -> t_reshape t (rev (map Some s)) = Raise ValueError).
Proof.
move=> total; rewrite /t_reshape -map_rev /resolve_dims.
have c0 : count (fun d : option nat => ~~ isSome d) (map Some (rev s)) = 0%N by elim: (rev s).
have -> : pmap id (map Some (rev s)) = rev s by rewrite map_pK.
have -> : prodn (sh t) = total by rewrite -[sh t]revK -/(pshape t) prodn_rev.
rewrite c0 /= prodn_rev; split=> [->|/eqP/negbTE-> //]; rewrite eqxx bind_ret.
eexists; split; first reflexivity; first by rewrite /pshape /= revK.
move=> ix ix' hx hx' e; rewrite /pget /= ravelE; last by case: hx'.
by rewrite -e -ravelE; [rewrite /pshape revK unravelK // -[sh t]revK; apply/pinE|case: hx].
Qed.
(** One dimension may be [-1]. *)
Theorem C46_reshape_unknown t s1 s2 : let total := (\prod_(d <- pshape t) d)%N in
  (0 < \prod_(d <- s1 ++ s2) d)%N ->
  (forall x, (\prod_(d <- s1 ++ s2) d * x)%N = total ->
     t_reshape t (rev (map Some s1 ++ None :: map Some s2)) = t_reshape t (rev (map Some (s1 ++ x :: s2)))) /\
  ((forall x, (\prod_(d <- s1 ++ s2) d * x)%N <> total) ->
     t_reshape t (rev (map Some s1 ++ None :: map Some s2)) = Raise ValueError).
Proof.
move=> total k0; rewrite /t_reshape.
have -> : prodn (sh t) = total by rewrite -[sh t]revK -/(pshape t) prodn_rev.
rewrite {1 3}/resolve_dims.
have -> : count (fun d : option nat => ~~ isSome d) (rev (map Some s1 ++ None :: map Some s2)) = 1%N.
  have c0 (s : seq nat) : count (fun d : option nat => ~~ isSome d) (map Some s) = 0%N by elim: s.
  by rewrite count_rev count_cat /= !c0.
have E : pmap id (rev (map Some s1 ++ None :: map Some s2)) = rev (s1 ++ s2).
  have p0 (s : seq nat) : pmap id (map Some s) = s by rewrite map_pK.
  by rewrite rev_cat rev_cons cat_rcons -!map_rev pmap_cat /= !p0 rev_cat.
rewrite E /= prodn_rev; set kn := (\prod_(d <- _) d)%N; rewrite -lt0n k0 /=; split=> [x hx|h]; last first.
  by case: ifP => // /dvdnP[x hx]; case: (h x); rewrite mulnC.
have d : (kn %| total)%N by apply/dvdnP; exists x; rewrite mulnC.
rewrite d bind_ret /resolve_dims -map_rev.
have c0 (s : seq nat) : count (fun d : option nat => ~~ isSome d) (map Some s) = 0%N by elim: s.
have -> : pmap id (map Some (rev (s1 ++ x :: s2))) = rev (s1 ++ x :: s2) by rewrite map_pK.
rewrite c0 /= prodn_rev.
have -> : (\prod_(d <- s1 ++ x :: s2) d)%N = total.
  by rewrite big_cat big_cons /= -hx /kn big_cat /= mulnCA mulnC.
rewrite eqxx bind_ret.
have -> // : [seq odflt (total %/ kn)%N d | d <- rev (map Some s1 ++ None :: map Some s2)] = rev (s1 ++ x :: s2).
have m0 (s : seq nat) : [seq odflt (total %/ kn)%N d | d <- map Some s] = s by rewrite -map_comp map_id.
by rewrite map_rev map_cat /= !m0 -hx mulKn.
Qed.
(** [B.squeeze] drops the axes of length one. *)
Lemma foldl_skip (z : seq (nat * nat)) acc : (forall x, x \in z -> x.1 = 1%N -> x.2 = 0%N) ->
  foldl (fun acc (p : nat * nat) => acc * p.1 + p.2)%N acc z =
  foldl (fun acc (p : nat * nat) => acc * p.1 + p.2)%N acc [seq x <- z | x.1 != 1%N].
Proof.
elim: z acc => //= x z IH acc h; rewrite IH => [|y hy]; last by apply: h; rewrite in_cons hy orbT.
case: eqP => //= e; have -> : x.2 = 0%N by apply: h; rewrite ?in_cons ?eqxx.
by rewrite e muln1 addn0.
Qed.
Theorem C46_squeeze t : let s := pshape t in exists z, [/\ t_squeeze t = ret z, pshape z = [seq d <- s | d != 1%N] &
  forall ix, pin s ix -> pget z [seq x.2 | x <- zip s ix & x.1 != 1%N] = pget t ix].
Proof.
move=> s; have [] := C46_reshape t [seq d <- s | d != 1%N].
have pe : (\prod_(d <- [seq d <- s | d != 1%N]) d)%N = (\prod_(d <- s) d)%N.
  by rewrite big_filter big_mkcond /=; apply: eq_bigr => d _; case: eqP.
move=> /(_ pe)[z [hz sz ez]] _; exists z; split=> //.
  by rewrite -hz /t_squeeze -map_rev -filter_rev /s revK.
move=> ix hx; have [sx hx'] := hx.
have ef : [seq d <- s | d != 1%N] = [seq x.1 | x <- zip s ix & x.1 != 1%N].
  by rewrite -{1}(unzip1_zip (_ : size s <= size ix)%N) ?sx // filter_map.
have z0 x : x \in zip s ix -> (x.2 < x.1)%N.
  case/(nthP (0, 0)%N) => k; rewrite size_zip sx minnn => hk <-.
  by rewrite nth_zip //=; apply: hx'.
apply: ez => //.
  rewrite ef; split=> [|p]; rewrite !size_map // => hp; rewrite !(nth_map (0, 0)%N) //.
  by have := mem_nth (0, 0)%N hp; rewrite mem_filter => /andP[_ /z0].
rewrite /offset ef zip_map -[RHS]/(foldl _ _ _).
have -> : [seq (x.1, x.2) | x <- [seq x <- zip s ix | x.1 != 1%N]] = [seq x <- zip s ix | x.1 != 1%N].
  by rewrite -[RHS]map_id; apply: eq_map => -[].
by apply: foldl_skip => x /z0 + e; rewrite e; case: x.2.
Qed.

(** [B.stack] and [B.unstack] at position [p] from the left; the model counts from the right. *)
Theorem C46_stack (ts : seq tensor) t0 p : let s := pshape (head t0 ts) in (0 < size ts)%N -> (p <= size s)%N ->
  (forall k, (k < size ts)%N -> pshape (nth t0 ts k) = s) ->
  exists z, [/\ t_stack ts (size s - p) = ret z, pshape z = take p s ++ size ts :: drop p s &
    forall k ix, (k < size ts)%N -> pin s ix -> pget z (take p ix ++ k :: drop p ix) = pget (nth t0 ts k) ix].
Proof.
case: ts => [|t ts] // s _ hp H; set us := t :: ts in H *.
have es : sh t = rev s by rewrite revK.
have -> : t_stack us (size s - p) = ret (Tensor (foldr (fun u d => promote (dt u) d) (dt t) us)
   (ins (sh t) (size s - p) (size us)) (fun idx => tget (nth t us (nth 0%N idx (size s - p))) (del idx (size s - p)))).
  rewrite /t_stack {1}/us ifT // {1}es size_rev leq_subr; apply/(all_nthP t0) => k /H e.
  by rewrite es -e /pshape revK.
eexists; split; first reflexivity.
  by rewrite /pshape [sh _]/= es rins // revK.
move=> k ix hk [sx _]; rewrite /pget [LHS]/=.
have sz : size (take p ix ++ k :: drop p ix) = (size s).+1.
  by rewrite size_cat size_takel ?sx //= size_drop sx; move: hp; clear; lia.
have hx : (p < size (take p ix ++ k :: drop p ix))%N by rewrite sz ltnS.
have e : (size s - p = size (take p ix ++ k :: drop p ix) - p.+1)%N by rewrite sz.
rewrite nth_rev ?{2}e; last by rewrite sz ltnS leq_subr.
have -> : (size (take p ix ++ k :: drop p ix) - (size s - p).+1 = p)%N by rewrite sz; move: hp; clear; lia.
rewrite nth_cat size_takel ?sx // ltnn subnn /= rdel //.
rewrite take_cat size_takel ?sx // ltnn subnn take0 cats0 drop_cat size_takel ?sx // ltnNge leqnSn /= subSnn /= drop0 cat_take_drop.
by congr (tget _ _); apply: set_nth_default.
Qed.
Theorem C46_unstack t p : let s := pshape t in (p < size s)%N ->
  exists us, [/\ t_unstack t (size s - p.+1) = ret us, size us = nth 0%N s p &
    forall k u0, (k < size us)%N -> isarr (nth u0 us k) (take p s ++ drop p.+1 s) (fun ix => pget t (take p ix ++ k :: drop p ix))].
Proof.
move=> s hp; have es : sh t = rev s by rewrite revK.
have hq : (size s - p.+1 < size s)%N by move: hp; clear; lia.
have hn : (size s - (size s - p.+1).+1 = p)%N by move: hp; clear; lia.
rewrite /t_unstack es size_rev hq nth_rev // hn; eexists; split; first reflexivity; first by rewrite size_map size_iota.
move=> k u0; rewrite size_map size_iota => hk; rewrite (nth_map 0%N) ?size_iota // nth_iota // add0n.
apply: isarrE; rewrite /= ?rdel // => idx /size_inb; rewrite size_rev size_cat size_take size_drop hp => e.
rewrite /pget -rins ?revK ?size_rev ?e ?addKn ?es ?size_rev //; move: hp; clear; lia.
Qed.

(** [B.tile]. *)
Theorem C46_tile t (reps : seq nat) : let s := pshape t in
  (size reps = size s -> exists2 z, t_tile t (rev reps) = ret z &
     isarr z [seq (nth 0 s p * nth 0 reps p)%N | p <- iota 0 (size s)]
       (fun ix => pget t [seq (nth 0 ix p %% nth 0 s p)%N | p <- iota 0 (size s)])) /\
  (size reps <> size s -> t_tile t (rev reps) = Raise ValueError).
Proof.
move=> s; have es : sh t = rev s by rewrite revK.
have zi (u v : seq nat) (f : nat -> nat -> nat) : size u = size s -> size v = size s ->
    [seq f x.1 x.2 | x <- zip (rev u) (rev v)] = rev [seq f (nth 0%N u p) (nth 0%N v p) | p <- iota 0 (size s)].
  move=> hu hv; rewrite -rev_zip ?hu ?hv // map_rev; congr rev.
  apply: (@eq_from_nth _ 0%N); rewrite ?size_map ?size_zip ?hu ?hv ?minnn ?size_iota // => k hk.
  by rewrite !(nth_map (0, 0)%N) ?size_zip ?hu ?hv ?minnn // (nth_map 0%N) ?size_iota // nth_iota // nth_zip ?hu.
have en : size (sh t) = size s by rewrite es size_rev.
rewrite /t_tile size_rev en; split=> [e|/eqP/negbTE -> //]; rewrite e eqxx es.
eexists; first reflexivity; apply: isarrE; rewrite /= ?zi // => idx /size_inb.
rewrite size_rev size_map size_iota => ei; rewrite -[idx in LHS]revK (zi (rev idx) s modn) ?size_rev //.
by rewrite ei -en.
Qed.

(** [B.kron] over the last two axes. *)
Theorem C46_kron a b s ra ca rb cb : pshape a = s ++ [:: ra; ca] -> pshape b = s ++ [:: rb; cb] ->
  exists z, [/\ t_kron2 a b = ret z, pshape z = s ++ [:: ra * rb; ca * cb]%N &
   forall be i i' j j', size be = size s -> (i' < rb)%N -> (j' < cb)%N ->
     pget z (be ++ [:: i * rb + i'; j * cb + j']%N) = pget a (be ++ [:: i; j]) * pget b (be ++ [:: i'; j'])].
Proof.
move=> /shE ea /shE eb; rewrite rev_cat /= in ea; rewrite rev_cat /= in eb.
rewrite /t_kron2 ea eb eqxx; eexists; split; first reflexivity.
  by rewrite /pshape /= !rev_cons revK -!cats1 -catA.
move=> be i i' j j' _ hi hj; rewrite /pget /= !rev_cat /=.
have hr : (0 < rb)%N by apply: leq_ltn_trans hi. 
have hc : (0 < cb)%N by apply: leq_ltn_trans hj.
by rewrite !divnMDl // !modnMDl !divn_small // !modn_small // !addn0.
Qed.

(** [B.diag_construct], [B.diag_extract], [B.eye]. *)
Theorem C46_diag_construct t s n : pshape t = s ++ [:: n] ->
  exists z, [/\ t_diag_construct t = ret z, pshape z = s ++ [:: n; n] &
    forall be i j, pget z (be ++ [:: i; j]) = if i == j then pget t (be ++ [:: i]) else 0].
Proof.
move/shE; rewrite rev_cat /t_diag_construct => -> /=; eexists; split; first reflexivity.
  by rewrite /pshape /= !rev_cons revK -!cats1 -catA.
by move=> be i j; rewrite /pget /= !rev_cat.
Qed.
Theorem C46_diag_extract t s r c : pshape t = s ++ [:: r; c] ->
  exists z, [/\ t_diag_extract t = ret z, pshape z = s ++ [:: minn r c] &
    forall be i, pget z (be ++ [:: i]) = pget t (be ++ [:: i; i])].
Proof.
move/shE; rewrite rev_cat /t_diag_extract => -> /=; eexists; split; first reflexivity.
  by rewrite /pshape /= !rev_cons revK -!cats1.
by move=> be i; rewrite /pget /= !rev_cat.
Qed.
Theorem C46_constants d n s (x : F) :
  isarr (t_eye d n : tensor) [:: n; n] (fun ix => (nth 0%N ix 0 == nth 0%N ix 1)%:R) /\ isarr (t_full d (rev s) x) s (fun _ => x).
Proof.
split; apply: isarrE => //= -[|j [|i [|? ?]]] //=; rewrite ?andbF // => _.
by rewrite /rev /=; case: eqP.
Qed.
(** [B.uprank]: axes of length one are appended. *)
Theorem C46_uprank t : [/\ pshape t = [::] -> isarr (t_uprank t) [:: 1; 1]%N (fun _ => pget t [::]),
   (forall n, pshape t = [:: n] -> isarr (t_uprank t) [:: n; 1]%N (fun ix => pget t [:: nth 0%N ix 0])) &
   ((2 <= size (pshape t))%N -> t_uprank t = t)].
Proof.
split=> [/shE e|n /shE e|]; rewrite /t_uprank; last by rewrite size_rev; case: (sh t) => [|? []].
- rewrite e; apply: isarrE; rewrite /= ?e // => -[|j [|i [|? ?]]] //=; by rewrite ?andbF.
- rewrite e; apply: isarrE; rewrite /= ?e // => -[|j [|i [|? ?]]] //=; by rewrite ?andbF.
Qed.

(** ** Linear algebra of arrays *)
(** Entry [(i, j)] of the matrix with batch index [be]. *)
Notation at_ t be i j := (pget t (be ++ [:: (i : nat); (j : nat)])).
Lemma mx_at t s r c be i j : pshape t = s ++ [:: r; c] -> pin s be -> mx t (rev be) i j = at_ t be i j.
Proof.
move=> /shE e h; rewrite /mx /pget e rev_cat /= drop0 rev_cat /= clamp_id //; exact/pinE.
Qed.
Lemma tsq_ok ok (f : forall n, 'M[F]_n -> 'M[F]_n) t s n z : pshape t = s ++ [:: n; n] -> t_square ok f t = ret z ->
  [/\ pshape z = s ++ [:: n; n], forall be, pin s be -> ok n (gmx n n (fun i j => at_ t be i j)) &
    forall be, pin s be -> gmx n n (fun i j => at_ z be i j) = f n (gmx n n (fun i j => at_ t be i j))].
Proof.
move=> e; have es := shE e; rewrite rev_cat /= in es; rewrite /t_square es eqxx /=; case: ifP => // h [<-].
have G be : pin s be -> gmx n n (mx t (rev be)) = gmx n n (fun i j => at_ t be i j).
  by move=> hb; apply: eq_gmx => i j _ _; rewrite (mx_at _ _ e).
split; first by rewrite /pshape /= !rev_cons revK -!cats1 -catA.
  by move=> be hb; rewrite -G //; apply: (allidxP h); apply/pinE.
move=> be hb; rewrite -G // -[RHS]gmx_mget; apply: eq_gmx => i j _ _.
by rewrite /pget /= rev_cat /= .
Qed.
Lemma tsq_raise ok (f : forall n, 'M[F]_n -> 'M[F]_n) t s n : pshape t = s ++ [:: n; n] ->
  (forall z, t_square ok f t <> ret z) -> t_square ok f t = Raise LinAlgError /\
  exists2 be, pin s be & ~~ ok n (gmx n n (fun i j => at_ t be i j)).
Proof.
move=> e; have es := shE e; rewrite rev_cat /= in es; rewrite /t_square es eqxx /=; case: ifP => [h /(_ _ erefl) //|/negbT h _].
split=> //.
have [be hb hn] : exists2 be, be \in allix (rev s) & ~~ ok n (gmx n n (mx t be)).
  apply/hasP; apply: contraR h; rewrite -all_predC => /allP h; apply: allidxI => be; rewrite -mem_allix => /h /=.
  by rewrite negbK.
exists (rev be); first by apply/pinE; rewrite revK -mem_allix.
have <- // : gmx n n (mx t be) = gmx n n (fun i j => at_ t (rev be) i j).
by apply: eq_gmx => i j _ _; rewrite -(mx_at _ _ e) ?revK //; apply/pinE; rewrite revK -mem_allix.
Qed.

(** [B.inv]: the inverse of every matrix of the batch, on both sides. *)
Theorem C46_inv t z s n : pshape t = s ++ [:: n; n] -> t_inv t = ret z -> pshape z = s ++ [:: n; n] /\
  forall be i j, pin s be -> (i < n)%N -> (j < n)%N ->
    \sum_(k < n) at_ t be i k * at_ z be k j = (i == j)%:R /\ \sum_(k < n) at_ z be i k * at_ t be k j = (i == j)%:R.
Proof.
move=> e hz; have [h1 h2 h3] := tsq_ok e hz; split=> // be i j hb hi hj.
have u := h2 be hb; have g := h3 be hb; pose oi := Ordinal hi; pose oj := Ordinal hj.
have M1 : gmx n n (fun i j => at_ t be i j) *m gmx n n (fun i j => at_ z be i j) = 1%:M by rewrite g mulmxV.
have M2 : gmx n n (fun i j => at_ z be i j) *m gmx n n (fun i j => at_ t be i j) = 1%:M by rewrite g mulVmx.
move/matrixP: M1 => /(_ oi oj); move/matrixP: M2 => /(_ oi oj); rewrite !mxE => <- e1.
by split; [rewrite -[RHS]e1|]; apply: eq_bigr => k _; rewrite !mxE.
Qed.
(** It raises only if a matrix of the batch has no inverse. *)
Theorem C46_inv_raises t s n : pshape t = s ++ [:: n; n] -> (forall z, t_inv t <> ret z) ->
  t_inv t = Raise LinAlgError /\ exists be, pin s be /\ forall g : nat -> nat -> F,
    ~ (forall i j, (i < n)%N -> (j < n)%N -> \sum_(k < n) at_ t be i k * g k j = (i == j)%:R).
Proof.
move=> e h; have [h1 [be hb hu]] := tsq_raise e h; split=> //; exists be; split=> // g hg.
case/negP: hu; have M : gmx n n (fun i j => at_ t be i j) *m gmx n n g = 1%:M.
  by apply/matrixP => i j; rewrite !mxE -hg //; apply: eq_bigr => k _; rewrite !mxE.
by case: (mulmx1_unit M).
Qed.
(** [B.cholesky] of symmetric matrices: lower triangular with positive diagonal, and [L L^T = A]. *)
Theorem C46_cholesky t z s n : pshape t = s ++ [:: n; n] ->
  (forall be i j, pin s be -> (i < n)%N -> (j < n)%N -> at_ t be i j = at_ t be j i) -> t_chol t = ret z ->
  pshape z = s ++ [:: n; n] /\ forall be i j, pin s be -> (i < n)%N -> (j < n)%N ->
    [/\ \sum_(k < n) at_ z be i k * at_ z be j k = at_ t be i j, (i < j)%N -> at_ z be i j = 0 & 0 < at_ z be i i].
Proof.
move=> e sy hz; have [h1 h2 h3] := tsq_ok e hz; split=> // be i j hb hi hj.
have u := h2 be hb; have g := h3 be hb; pose oi := Ordinal hi; pose oj := Ordinal hj.
have sm : sym (gmx n n (fun i j => at_ t be i j)) by apply/matrixP => k l; rewrite !mxE sy.
have G := chol_gram sm u; rewrite -g in G.
have zE (k l : 'I_n) : at_ z be k l = chol_f (gmx n n (fun i j => at_ t be i j)) k l by rewrite -g mxE.
split.
- by move/matrixP: G => /(_ oi oj); rewrite !mxE => <-; apply: eq_bigr => k _; rewrite !mxE.
- move=> lt; have /is_trig_mxP := chol_trig (gmx n n (fun i j => at_ t be i j)).
  by rewrite (zE oi oj) => ->.
- by rewrite (zE oi oi) chol_diag.
Qed.
(** [B.solve] and [B.trisolve]: the solution of the system with the entries that the routine reads. *)
Lemma solve_selE sel a b z s1 s2 s n m : pshape a = s1 ++ [:: n; n] -> pshape b = s2 ++ [:: n; m] -> np_rule s1 s2 s ->
  t_solve_sel sel a b = ret z -> pshape z = s ++ [:: n; m] /\
  forall be i j, pin s be -> (i < n)%N -> (j < m)%N ->
    \sum_(k < n) (if sel i k then at_ a (pbidx s1 be) i k else 0) * at_ z be k j = at_ b (pbidx s2 be) i j.
Proof.
move=> /shE ea /shE eb hs; rewrite rev_cat /= in ea; rewrite rev_cat /= in eb.
have [l1 l2] := size_np hs; have hb := (np_ruleE _ _ _).1 hs.
rewrite /t_solve_sel ea eb !eqxx hb /=; case: ifP => // u [<-]; split; first by rewrite /pshape /= !rev_cons revK -!cats1 -catA.
move=> be i j hbe hi hj; have [sb _] := hbe.
have E1 k l : mx a (rev be) k l = at_ a (pbidx s1 be) k l by rewrite /mx /pget ea /= drop0 !rev_cat /= pbidxE ?sb.
have E2 k l : mx b (rev be) k l = at_ b (pbidx s2 be) k l by rewrite /mx /pget eb /= drop0 !rev_cat /= pbidxE ?sb.
set A := gmx n n (fun i j => if sel i j then mx a (rev be) i j else 0); have uA : A \in unitmx by apply: (allidxP u); apply/pinE.
have M : A *m (invmx A *m gmx n m (mx b (rev be))) = gmx n m (mx b (rev be)) by rewrite mulmxA mulmxV ?mul1mx.
move/matrixP: M => /(_ (Ordinal hi) (Ordinal hj)); rewrite mxE [RHS]mxE E2 => <-; apply: eq_bigr => k _.
by rewrite /pget /= !rev_cat /= -(mget_ord _ k (Ordinal hj)) mxE /= E1 /pget rev_cat.
Qed.
Theorem C46_solve a b z s1 s2 s n m : pshape a = s1 ++ [:: n; n] -> pshape b = s2 ++ [:: n; m] -> np_rule s1 s2 s ->
  t_solve a b = ret z -> pshape z = s ++ [:: n; m] /\
  forall be i j, pin s be -> (i < n)%N -> (j < m)%N ->
    \sum_(k < n) at_ a (pbidx s1 be) i k * at_ z be k j = at_ b (pbidx s2 be) i j.
Proof. exact: solve_selE. Qed.
Theorem C46_trisolve a b z s1 s2 s n m (lower : bool) : pshape a = s1 ++ [:: n; n] -> pshape b = s2 ++ [:: n; m] -> np_rule s1 s2 s ->
  t_trisolve a b lower = ret z -> pshape z = s ++ [:: n; m] /\
  forall be i j, pin s be -> (i < n)%N -> (j < m)%N ->
    \sum_(k < n | if lower then (k <= i)%N else (i <= k)%N) at_ a (pbidx s1 be) i k * at_ z be k j = at_ b (pbidx s2 be) i j.
Proof.
move=> h1 h2 h3 /(solve_selE h1 h2 h3)[e H]; split=> // be i j hb hi hj; rewrite -(H be i j) // [LHS]big_mkcond /=.
by apply: eq_bigr => k _; case: ifP => // _; rewrite mul0r.
Qed.
End Arrays.

(** ** The hypotheses can be met *)
Section Examples.
Variable F : rcfType.
Definition np_ex : tensor F := Tensor DFloat64 [:: 2; 3; 1]%N (fun idx => (nth 0 idx 0 + 2 * nth 0 idx 1)%N%:R).
Example C46_ex : [/\ pshape np_ex = [:: 1; 3; 2]%N, np_rule (pshape np_ex) [:: 4; 1; 2]%N [:: 4; 3; 2]%N, np_clash (pshape np_ex) [:: 4; 2]%N,
   paxis 3 (Negz 0) 2 & pin (pshape np_ex) [:: 0; 2; 1]%N /\ offset (pshape np_ex) [:: 0; 2; 1]%N = 5%N].
Proof.
split=> //.
- by split=> // -[|[|[|i]]]; rewrite /dimr /=; [constructor 3|constructor 2|constructor 1|rewrite ?nth_nil; constructor 1].
- by exists 1%N.
- by split=> //; right.
- by split=> //; split=> // -[|[|[|p]]].
Qed.
End Examples.
Print Assumptions C46_elementwise.
Print Assumptions C46_broadcast_to.
Print Assumptions C46_transpose.
Print Assumptions C46_transpose_low.
Print Assumptions C46_matmul_nn.
Print Assumptions C46_matmul.
Print Assumptions C46_sum_axis.
Print Assumptions C46_sum_all.
Print Assumptions C46_take.
Print Assumptions C46_take_mask.
Print Assumptions C46_concat.
Print Assumptions C46_reshape.
Print Assumptions C46_reshape_unknown.
Print Assumptions C46_squeeze.
Print Assumptions C46_stack.
Print Assumptions C46_unstack.
Print Assumptions C46_tile.
Print Assumptions C46_kron.
Print Assumptions C46_diag_construct.
Print Assumptions C46_diag_extract.
Print Assumptions C46_constants.
Print Assumptions C46_uprank.
Print Assumptions C46_inv.
Print Assumptions C46_inv_raises.
Print Assumptions C46_cholesky.
Print Assumptions C46_solve.
Print Assumptions C46_trisolve.
