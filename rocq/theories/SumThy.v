(** * Sums and selections along batch axes (proof support) *)
From mathcomp Require Import all_ssreflect all_algebra zify.
From Verif Require Import Outcome Monad Shape Tensor Mat Dispatch Ops Spec ShapeThy TensorThy TensorThy2 MatThy OpsOk DenseOk Term Calm Api Bridge Ans.
Set Implicit Arguments. Unset Strict Implicit. Unset Printing Implicit Defensive.
Import GRing.Theory.
Local Open Scope ring_scope.

(** ** Indices *)
Lemma size_del A (s : seq A) q : (q < size s)%N -> (size (del s q)).+1 = size s.
Proof. by elim: s q => [|x s IH] [|q] //= h; rewrite IH. Qed.
Lemma posn_del s q : posn s -> posn (del s q).
Proof. by elim: s q => [|d s IH] [|q] //= /andP[h1 h2] //; apply/andP; split=> //; exact: IH. Qed.
Lemma posn_nth s q : posn s -> (q < size s)%N -> (0 < nth 0%N s q)%N.
Proof. by elim: s q => [|d s IH] [|q] //= /andP[h1 h2] // h; exact: IH. Qed.
Lemma inb_ins s be q k : inb (del s q) be -> (k < nth 0%N s q)%N -> (q < size s)%N -> inb s (ins be q k).
Proof.
elim: s be q => [|d s IH] be [|q] //=; first by rewrite ins0 => h ->.
by case: be => [|i be] //= /andP[-> h] hk hq; rewrite IH.
Qed.
Lemma posn_upd s q n : posn s -> (0 < n)%N -> posn (upd s q n).
Proof. by elim: s q => [|d s IH] [|q] //= /andP[h1 h2] h; apply/andP; split=> //; exact: IH. Qed.
Lemma nth_upd s q (n : nat) : (q < size s)%N -> nth 0%N (upd s q n) q = n.
Proof. by elim: s q => [|d s IH] [|q] //= h; exact: IH. Qed.
Lemma upd_upd s q (n m : nat) : upd (upd s q n) q m = upd s q m.
Proof. by elim: s q => [|d s IH] [|q] //=; rewrite IH. Qed.
Lemma size_upd A (s : seq A) q n : size (upd s q n) = size s.
Proof. by elim: s q => [|d s IH] [|q] //=; rewrite IH. Qed.
Lemma inb_upd s be q (n k m : nat) : inb (upd s q n) be -> (k < m)%N -> inb (upd s q m) (upd be q k).
Proof.
elim: s be q => [|d s IH] [|i be] [|q] //=; first by case/andP=> _ -> ->.
by case/andP=> -> h hk; exact: IH hk.
Qed.
Lemma inb_upd' s be q (n k : nat) : inb (upd s q n) be -> (q < size s)%N -> (k < nth 0%N s q)%N -> inb s (upd be q k).
Proof.
elim: s be q => [|d s IH] [|i be] [|q] //=; first by case/andP=> _ -> _ ->.
by case/andP=> -> h hq hk; rewrite (IH _ _ h).
Qed.
Lemma inb_nth s be q : inb s be -> (q < size s)%N -> (nth 0%N be q < nth 0%N s q)%N.
Proof. by elim: s be q => [|d s IH] [|i be] [|q] //= /andP[h1 h2] // hq; exact: IH. Qed.
Lemma upd_nth s q : upd s q (nth 0%N s q) = s.
Proof. by elim: s q => [|d s IH] [|q] //=; rewrite IH. Qed.

Section SumThy.
Variable F : rcfType.
Notation tensor := (tensor F).
Notation mat := (mat F).
Variable argsort : seq F -> seq nat.
Implicit Types (t : tensor) (be : seq nat).

(** Sum of [g] over position [q] of the batch index. *)
Definition sb (b : shape) (q : nat) (be : seq nat) (g : seq nat -> F) : F :=
  sumf (nth 0%N b q) (fun k => g (ins (clamp (del b q) be) q k)).
Lemma eq_sb b q be (g g' : seq nat -> F) : (q < size b)%N -> okb (del b q) be ->
  (forall be, inb b be -> g be = g' be) -> sb b q be g = sb b q be g'.
Proof. by move=> hq hb e; apply: eq_sumf => k hk; rewrite e //; apply: inb_ins. Qed.

Lemma tmat_sumb t r c b g q : tmat t r c b g -> (q < size b)%N ->
  hoare (t_sum_pos t q.+2) (fun z => tmat z r c (del b q) (fun be i j => sb b q be (fun be => g be i j))).
Proof.
case=> h1 h2 h3 hq; rewrite /t_sum_pos h1 /= !ltnS hq; apply: hoare_ret; have [c0 r0 b0] := posn3 h2.
split=> //=; first by rewrite !posn_cons c0 r0 posn_del.
move=> be i j hb hi hj; rewrite /mx /= drop0; apply: eq_sumf => k hk.
have hin := inb_ins hb hk hq.
by rewrite -h3 ?okb_inb // /mx h1 /= drop0 (clamp_id hin).
Qed.
Lemma tvec_sumb t n b g q : tvec t n b g -> (q < size b)%N ->
  hoare (t_sum_pos t q.+1) (fun z => tvec z n (del b q) (fun be i => sb b q be (fun be => g be i))).
Proof.
case=> h1 h2 h3 hq; rewrite /t_sum_pos h1 /= !ltnS hq; apply: hoare_ret; move: h2; rewrite posn_cons => /andP[n0 b0].
split=> //=; first by rewrite posn_cons n0 posn_del.
move=> be i hb hi; rewrite /vx /=; apply: eq_sumf => k hk.
have hin := inb_ins hb hk hq.
by rewrite -h3 ?okb_inb // /vx h1 /= (clamp_id hin).
Qed.
Lemma tsca_sumb t b g q : tsca t b g -> (q < size b)%N ->
  hoare (t_sum_pos t q) (fun z => tsca z (del b q) (fun be => sb b q be g)).
Proof.
case=> h1 h2 h3 hq; rewrite /t_sum_pos h1 /= hq; apply: hoare_ret.
split=> //=; first by rewrite posn_del.
move=> be hb; rewrite /sx /bat /=; apply: eq_sumf => k hk.
have hin := inb_ins hb hk hq.
by rewrite -h3 ?okb_inb // /sx /bat h1 (clamp_id hin).
Qed.

(** Selection [ns] along position [q] of the batch index. *)
Definition selb (b : shape) (q : nat) (ns : seq nat) (be : seq nat) : seq nat :=
  let be' := clamp (upd b q (size ns)) be in upd be' q (nth 0%N ns (nth 0%N be' q)).
Lemma inb_selb b q ns be : (q < size b)%N -> all (fun n => n < nth 0%N b q)%N ns ->
  okb (upd b q (size ns)) be -> inb b (selb b q ns be).
Proof.
move=> hq hn hb; apply: inb_upd' (hb) (hq) _; move/allP: hn; apply; apply: mem_nth.
by have := inb_nth hb (q := q); rewrite size_upd nth_upd //; apply.
Qed.
Lemma tmat_takeb t r c b g q x ns : tmat t r c b g -> (q < size b)%N -> resolve_iom (nth 0%N b q) x = ret ns ->
  (0 < size ns)%N -> all (fun n => n < nth 0%N b q)%N ns ->
  hoare (t_take_pos t x q.+2) (fun z => tmat z r c (upd b q (size ns)) (fun be i j => g (selb b q ns be) i j)).
Proof.
case=> h1 h2 h3 hq hx n0 hn; rewrite /t_take_pos h1 /= !ltnS hq hx bind_ret; apply: hoare_ret; have [c0 r0 b0] := posn3 h2.
split=> /=; first by rewrite h1.
  by rewrite !posn_cons c0 r0 posn_upd.
move=> be i j hb hi hj; rewrite /mx /= h1 /= drop0.
have hin := inb_selb hq hn hb.
by rewrite -h3 ?okb_inb // /mx h1 /= drop0 (clamp_id hin).
Qed.
Lemma tvec_takeb t n b g q x ns : tvec t n b g -> (q < size b)%N -> resolve_iom (nth 0%N b q) x = ret ns ->
  (0 < size ns)%N -> all (fun n => n < nth 0%N b q)%N ns ->
  hoare (t_take_pos t x q.+1) (fun z => tvec z n (upd b q (size ns)) (fun be i => g (selb b q ns be) i)).
Proof.
case=> h1 h2 h3 hq hx n0 hn; rewrite /t_take_pos h1 /= !ltnS hq hx bind_ret; apply: hoare_ret; move: h2; rewrite posn_cons => /andP[m0 b0].
split=> /=; first by rewrite h1.
  by rewrite !posn_cons m0 posn_upd.
move=> be i hb hi; rewrite /vx /= h1 /=.
have hin := inb_selb hq hn hb.
by rewrite -h3 ?okb_inb // /vx h1 /= (clamp_id hin).
Qed.
Lemma tsca_takeb t b g q x ns : tsca t b g -> (q < size b)%N -> resolve_iom (nth 0%N b q) x = ret ns ->
  (0 < size ns)%N -> all (fun n => n < nth 0%N b q)%N ns ->
  hoare (t_take_pos t x q) (fun z => tsca z (upd b q (size ns)) (fun be => g (selb b q ns be))).
Proof.
case=> h1 h2 h3 hq hx n0 hn; rewrite /t_take_pos h1 /= hq hx bind_ret; apply: hoare_ret.
split=> /=; first by rewrite h1.
  by rewrite posn_upd.
move=> be hb; rewrite /sx /bat /= h1.
have hin := inb_selb hq hn hb.
by rewrite -h3 ?okb_inb // /sx /bat h1 (clamp_id hin).
Qed.
Lemma resolve_iom_lt d x ns : resolve_iom d x = ret ns -> all (fun n => n < d)%N ns.
Proof.
case: x => [l|m] /=.
- elim: l ns => [|i l IH] ns /=; first by case=> <-.
  have hi : (exists2 n, resolve_index d i = ret n & (n < d)%N) \/ resolve_index d i = Raise IndexError.
    by rewrite /resolve_index; case: i => n; case: ifP => h; auto; left; eexists; try reflexivity; lia.
  case: hi => [[n -> hn]|-> //]; rewrite bind_ret.
  have : calm (mapM (resolve_index d) l).
    by apply: calm_mapM => -[] k; rewrite /resolve_index; case: ifP.
  case E2: (mapM _ l) => [lg2 ns2|//] /= e; rewrite e in E2 *; case=> <- /=; rewrite hn (IH ns2) //.
- case: eqP => // <- [<-]; apply/allP => n hn.
  have : n \in unzip1 (zip (iota 0 (size m)) m).
    by apply: mem_subseq hn; apply: map_subseq; apply: filter_subseq.
  by rewrite unzip1_zip ?size_iota // mem_iota.
Qed.
End SumThy.
