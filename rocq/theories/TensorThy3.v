(** * Stack, unstack and lists of tensors (proof support) *)
From mathcomp Require Import all_ssreflect all_algebra.
From mathcomp Require Import zify.
From Verif Require Import Outcome Monad Shape Tensor Mat Spec ShapeThy TensorThy TensorThy2.
Set Implicit Arguments. Unset Strict Implicit. Unset Printing Implicit Defensive.
Import GRing.Theory.
Local Open Scope ring_scope.

(** All pairs of two ranges, as one range. *)
Lemma allpairs_iota (T : Type) (h : nat -> nat -> T) m p q :
  [seq h x y | x <- iota m p, y <- iota 0 q] =
  [seq h (m + k %/ q)%N (k %% q)%N | k <- iota 0 (p * q)].
Proof.
elim: p m => [|p IH] m //=.
rewrite IH mulSn iotaD map_cat add0n; congr (_ ++ _).
  apply/eq_in_map => k; rewrite mem_iota add0n => /andP[_ hk].
  by rewrite divn_small // modn_small // addn0.
have [->|q0] := posnP q; first by rewrite muln0.
have -> : iota q (p * q) = map (addn q) (iota 0 (p * q)) by rewrite -iotaDl addn0.
rewrite -map_comp; apply: eq_map => k /=.
by rewrite divnDl // divnn q0 modnDl addnA addn1.
Qed.
Lemma allpairs_map_iota (T1 T2 : Type) (f : nat -> T1) (g : nat -> T2) p q :
  [seq (x, y) | x <- map f (iota 0 p), y <- map g (iota 0 q)] =
  [seq (f (k %/ q)%N, g (k %% q)%N) | k <- iota 0 (p * q)].
Proof.
by rewrite allpairs_mapl allpairs_mapr (allpairs_iota (fun x y => (f x, g y))).
Qed.

Lemma hoare_mapM (A B : Type) (f : nat -> A) (F : A -> outcome B) (P : nat -> B -> Prop) n :
  (forall k, (k < n)%N -> hoare (F (f k)) (P k)) ->
  hoare (mapM F (map f (iota 0 n))) (fun ys => size ys = n /\
    forall y0 k, (k < n)%N -> P k (nth y0 ys k)).
Proof.
move=> h; suff G m : (m + n)%N = (m + n)%N -> (forall k, (m <= k < m + n)%N -> hoare (F (f k)) (P k)) ->
    hoare (mapM F (map f (iota m n))) (fun ys => size ys = n /\
    forall y0 k, (k < n)%N -> P (m + k)%N (nth y0 ys k)).
  by apply: (G 0%N) => // k /andP[_ hk]; apply: h.
move=> _; elim: n m {h} => [|n IH] m h /=; first exact: hoare_ret.
apply: (@hoare_bind _ _ _ _ (P m)); first by apply: h; lia.
move=> y hy; apply: (hoare_bind (IH m.+1 _)); first by move=> k hk; apply: h; lia.
move=> ys [s e]; apply: hoare_ret; split; first by rewrite /= s.
by move=> y0 [|k] hk /=; rewrite ?addn0 // -addSnnS; apply: e.
Qed.

Lemma mapM_iota (A B : Type) (f : nat -> A) (G : A -> outcome B) (g : nat -> B) n :
  (forall k, (k < n)%N -> G (f k) = ret (g k)) -> mapM G (map f (iota 0 n)) = ret (map g (iota 0 n)).
Proof.
move=> h; have {}h k : k \in iota 0 n -> G (f k) = ret (g k) by rewrite mem_iota => /andP[_ /h].
elim: (iota 0 n) h => //= k s IH h; rewrite h ?mem_head // bind_ret IH ?bind_ret // => j hj.
by apply: h; rewrite inE hj orbT.
Qed.

Section TensorThy3.
Variable F : rcfType.
Notation tensor := (tensor F).
Implicit Types (t : tensor) (b s u be : seq nat).

Lemma tmat_unstack0 (x : tensor) r c b g : tmat x r c b g -> exists f,
  t_unstack x 0 = ret (map f (iota 0 c)) /\ forall k, (k < c)%N -> tvec (f k) r b (fun be i => g be i k).
Proof.
case=> s p e; have [c0 r0 pb] := posn3 p; rewrite /t_unstack s /=.
eexists; split; first by []. 
move=> k hk; split=> //=; first by rewrite posn_cons r0.
by move=> be i hbe hi; rewrite -e // /vx /mx /= s /= drop0.
Qed.
Lemma tmat_unstack1 (x : tensor) r c b g : tmat x r c b g -> exists f,
  t_unstack x 1 = ret (map f (iota 0 r)) /\ forall k, (k < r)%N -> tvec (f k) c b (fun be j => g be k j).
Proof.
case=> s p e; have [c0 r0 pb] := posn3 p; rewrite /t_unstack s /=.
eexists; split; first by []. 
move=> k hk; split=> //=; first by rewrite posn_cons c0.
by move=> be i hbe hi; rewrite -e // /vx /mx /= s /= drop0 ins0.
Qed.
Lemma tvec_unstack (x : tensor) n b g : tvec x n b g -> exists f,
  t_unstack x 0 = ret (map f (iota 0 n)) /\ forall k, (k < n)%N -> tsca (f k) b (fun be => g be k).
Proof.
case=> s /andP[n0 pb] e; rewrite /t_unstack s /=.
eexists; split; first by []. 
move=> k hk; split=> //= be hbe; rewrite -e // /vx /sx /bat /= s //=.
by rewrite ins0.
Qed.

Lemma tvec_stack0 (ts : seq tensor) n k b g : size ts = k -> (0 < k)%N ->
  (forall t0 i, (i < k)%N -> tvec (nth t0 ts i) n b (g i)) ->
  hoare (t_stack ts 0) (fun z => tmat z n k b (fun be i j => g j be i)).
Proof.
move=> sz k0 h; case: ts sz h => [|t ts] sz h; first by rewrite -sz in k0.
have [st /andP[n0 pb] _] := h t 0%N k0.
rewrite /t_stack; have -> : all (fun u : tensor => sh u == sh t) (t :: ts).
  apply/(all_nthP t) => i; rewrite sz => hi; have [-> _ _] := h t i hi; rewrite /= in st; by rewrite st.
rewrite /= in st; rewrite leq0n andTb; apply: hoare_ret; split=> /=.
- by rewrite ins0 st -sz.
- by rewrite !posn_cons n0 k0.
move=> be i j hbe hi hj; have [s _ e] := h t j hj; rewrite -e // /mx /vx /= ins0 st s /= drop0.
by [].
Qed.
Lemma tvec_stack1 (ts : seq tensor) n k b g : size ts = k -> (0 < k)%N ->
  (forall t0 i, (i < k)%N -> tvec (nth t0 ts i) n b (g i)) ->
  hoare (t_stack ts 1) (fun z => tmat z k n b (fun be i j => g i be j)).
Proof.
move=> sz k0 h; case: ts sz h => [|t ts] sz h; first by rewrite -sz in k0.
have [st /andP[n0 pb] _] := h t 0%N k0.
rewrite /t_stack; have -> : all (fun u : tensor => sh u == sh t) (t :: ts).
  apply/(all_nthP t) => i; rewrite sz => hi; have [-> _ _] := h t i hi; rewrite /= in st; by rewrite st.
rewrite /= in st; rewrite st /=; apply: hoare_ret; split=> /=.
- by rewrite ins0 -sz.
- by rewrite !posn_cons n0 k0.
move=> be i j hbe hi hj; have [s _ e] := h t i hi; rewrite -e // /mx /vx /= ins0 s /= drop0.
by [].
Qed.
Lemma tsca_stack (ts : seq tensor) k b g : size ts = k -> (0 < k)%N ->
  (forall t0 i, (i < k)%N -> tsca (nth t0 ts i) b (g i)) ->
  hoare (t_stack ts 0) (fun z => tvec z k b (fun be i => g i be)).
Proof.
move=> sz k0 h; case: ts sz h => [|t ts] sz h; first by rewrite -sz in k0.
have [st pb _] := h t 0%N k0.
rewrite /t_stack; have -> : all (fun u : tensor => sh u == sh t) (t :: ts).
  apply/(all_nthP t) => i; rewrite sz => hi; have [-> _ _] := h t i hi; rewrite /= in st; by rewrite st.
rewrite /= in st; rewrite leq0n andTb; apply: hoare_ret; split=> /=.
- by rewrite ins0 st -sz.
- by rewrite !posn_cons k0.
move=> be i hbe hi; have [s _ e] := h t i hi; rewrite -e // /vx /sx /bat /= ins0 st s /=.
by [].
Qed.

(** Broadcasting of many shapes. *)
Lemma eab_many u s ss : bto s u -> all (fun s => bto s u) ss -> exists v,
  expand_and_broadcast (s :: ss) = ret v /\ forall w, bto v w = bto s w && all (fun s => bto s w) ss.
Proof.
rewrite /=; elim: ss s => [|s' ss IH] s h1 /=; first by exists s; split=> // w; rewrite andbT.
case/andP=> h2 h3; have o : bcok s s' by apply: bcok_ub h1 h2.
rewrite eab2_ok // bind_ret; have [|v [-> hv]] := IH (bct s s') _ h3; first by rewrite bto_bct // h1.
by exists v; split=> // w; rewrite hv bto_bct // andbA.
Qed.
End TensorThy3.
