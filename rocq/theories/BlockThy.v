(** * Lists of matrices, concatenation (proof support), and the specification of block matrices *)
From mathcomp Require Import all_ssreflect all_algebra zify.
From Verif Require Import Outcome Monad Shape Tensor Mat Dispatch Ops Ops2 Block Spec ShapeThy TensorThy TensorThy2 MatThy OpsOk DenseOk AddOk OpsMain Term Calm Api Bridge Ans SumThy.
Set Implicit Arguments. Unset Strict Implicit. Unset Printing Implicit Defensive.
Import GRing.Theory Num.Theory.
Local Open Scope ring_scope.

(** ** Specification *)
(** In which of the consecutive blocks of sizes [ws] position [i] lies, and where in it. *)
Fixpoint loc (ws : seq nat) (i : nat) : nat * nat :=
  match ws with
  | [::] => (0, i)%N
  | w :: ws' => if (i < w)%N then (0, i)%N else ((loc ws' (i - w)).1.+1, (loc ws' (i - w)).2)
  end.
(** [b] is the shape which the shapes [ss] broadcast to (their least upper bound). *)
Definition bcall (b : shape) (ss : seq shape) : Prop := forall v, bto b v = all (fun s => bto s v) ss.

Lemma loc_eq ws i : i = (sumn (take (loc ws i).1 ws) + (loc ws i).2)%N.
Proof. by elim: ws i => //= w ws IH i; case: ltnP => h //=; rewrite -addnA -(IH (i - w)%N) subnKC. Qed.
Lemma loc_lt ws i : (i < sumn ws)%N -> ((loc ws i).1 < size ws)%N /\ ((loc ws i).2 < nth 0%N ws (loc ws i).1)%N.
Proof.
elim: ws i => //= w ws IH i h; case: (ltnP i w) => hw /=; first by [].
by apply: (IH (i - w)%N); rewrite ltn_subLR.
Qed.
Lemma loc_inj ws i j : loc ws i = loc ws j -> i = j.
Proof. by move=> h; rewrite (loc_eq ws i) (loc_eq ws j) h. Qed.
Lemma loc_pre ws k i : (k <= size ws)%N -> (i < sumn ws)%N -> ((loc ws i).1 < k)%N = (i < sumn (take k ws))%N.
Proof.
elim: ws k i => [|w ws IH] [|k] i //= hk h; case: (ltnP i w) => hw //=; first by rewrite ltn_addr.
by rewrite -[LHS]/((loc ws (i - w)).1 < k)%N IH ?ltn_subLR //; lia.
Qed.

(** ** Lists *)
Section Lists.
Variable F : rcfType.
Variable argsort : seq F -> seq nat.
Notation answers := (answers argsort).
Variables (A B : Type) (x0 : A) (y0 : B).
Lemma hoare_mapM (f : A -> outcome B) (R : nat -> B -> Prop) (s : seq A) :
  (forall k, (k < size s)%N -> hoare (f (nth x0 s k)) (R k)) ->
  hoare (mapM f s) (fun ys => size ys = size s /\ forall k, (k < size s)%N -> R k (nth y0 ys k)).
Proof.
elim: s R => [|x s IH] R h; first by apply: hoare_ret.
apply: hoare_bind (h 0%N isT) _ => y hy; apply: hoare_bind (IH (fun k => R k.+1) _) _ => [k hk|ys [e hys]]; first exact: (h k.+1 hk).
by apply: hoare_ret; split=> [|[|k] hk] //=; [rewrite e|apply: hys].
Qed.
Lemma ans_mapM (f : ops F -> A -> outcome B) (R : nat -> B -> Prop) (s : seq A) :
  (forall k, (k < size s)%N -> answers (fun o => f o (nth x0 s k)) (R k)) ->
  answers (fun o => mapM (f o) s) (fun ys => size ys = size s /\ forall k, (k < size s)%N -> R k (nth y0 ys k)).
Proof.
elim: s R => [|x s IH] R h; first by apply: ans_ret.
apply: ans_bind (h 0%N isT) _ => y hy; apply: ans_bind (IH (fun k => R k.+1) _) _ => [k hk|ys [e hys]]; first exact: (h k.+1 hk).
by apply: ans_ret; split=> [|[|k] hk] //=; [rewrite e|apply: hys].
Qed.
Lemma mapM_eq (f : A -> outcome B) (s : seq A) (ys : seq B) : size ys = size s ->
  (forall k, (k < size s)%N -> f (nth x0 s k) = ret (nth y0 ys k)) -> mapM f s = ret ys.
Proof.
elim: s ys => [|x s IH] [|y ys] //= [e] h; rewrite (h 0%N isT) bind_ret (IH ys e) ?bind_ret // => k hk.
exact: (h k.+1 hk).
Qed.
End Lists.
Lemma mapM_ret_nth A B (x0 : A) (f : A -> outcome B) (g : A -> B) (s : seq A) :
  (forall k, (k < size s)%N -> f (nth x0 s k) = ret (g (nth x0 s k))) -> mapM f s = ret (map g s).
Proof.
move=> h; case: s h => [|x s] h //; apply: (@mapM_eq _ _ x0 (g x0)); first by rewrite size_map.
by move=> k hk; rewrite h // (nth_map x0).
Qed.
Lemma mapM_calm_hoare A B (x0 : A) (y0 : B) (f : A -> outcome B) (R : nat -> B -> Prop) (s : seq A) :
  (forall x, calm (f x)) -> (forall k, (k < size s)%N -> hoare (f (nth x0 s k)) (R k)) ->
  exists2 ys, mapM f s = ret ys & size ys = size s /\ forall k, (k < size s)%N -> R k (nth y0 ys k).
Proof. by move=> c h; exact: calm_hoare (calm_mapM _ c) (hoare_mapM y0 h). Qed.

(** ** Broadcasting several shapes *)
Lemma fold_all b s ss : (forall v, bto b v = bto s v && all (fun s => bto s v) ss) ->
  fold_shapes expand_and_broadcast2 s ss = ret b.
Proof.
elim: ss s => [|s' ss IH] s h; first by congr ret; apply: bto_ext => v; rewrite h andbT.
have := h b; rewrite bto_refl /= => /esym/and3P[h1 h2 _]; have o := bcok_ub h1 h2.
by rewrite /= eab2_ok // bind_ret; apply: IH => v; rewrite h /= bto_bct // andbA.
Qed.
Lemma eab_all b ss : (0 < size ss)%N -> bcall b ss -> expand_and_broadcast ss = ret b.
Proof. by case: ss => // s ss _ h; apply: fold_all. Qed.
Lemma fold_pos s ss b : (forall v, bto b v = bto s v && all (fun s => bto s v) ss) -> posn s -> all posn ss -> posn b.
Proof.
elim: ss s => [|s' ss IH] s h.
  by move=> p _; have -> : b = s by apply: bto_ext => v; rewrite h andbT.
move=> p /= /andP[p' ps]; have := h b; rewrite bto_refl /= => /esym/and3P[h1 h2 _]; have o := bcok_ub h1 h2.
by apply: (IH (bct s s')) => // [v|]; [rewrite h /= bto_bct // andbA|exact: posn_bct].
Qed.
Lemma bcall_pos b ss : (0 < size ss)%N -> bcall b ss -> all posn ss -> posn b.
Proof. by case: ss => // s ss _ h /= /andP[]; apply: fold_pos. Qed.
Lemma bcall_le b ss : bcall b ss -> all (fun s => bto s b) ss.
Proof. by move=> h; rewrite -h bto_refl. Qed.
Lemma bcall_same b ss : (0 < size ss)%N -> all (pred1 b) ss -> bcall b ss.
Proof.
move=> n0 h v; case: ss n0 h => // s ss _ /= /andP[/eqP-> h]; case e: (bto b v) => //=.
by apply/esym/(all_nthP [::]) => k hk; move/(all_nthP [::])/(_ k hk): h => /eqP->.
Qed.
Lemma all_flatten T (p : T -> bool) (ss : seq (seq T)) : all p (flatten ss) = all (all p) ss.
Proof. by elim: ss => //= s ss IH; rewrite all_cat IH. Qed.

(** ** Concatenation *)
Section Concat.
Variable F : rcfType.
Notation tensor := (tensor F).
Implicit Types (t : tensor) (ts : seq tensor).
Notation t0 := (t_scalar DInt 0 : tensor).
(** Matrices and vectors, possibly with empty axes. *)
Definition tm0 t (r c : nat) (b : shape) (g : seq nat -> nat -> nat -> F) : Prop :=
  sh t = [:: c, r & b] /\ (forall be i j, okb b be -> (i < r)%N -> (j < c)%N -> mx t be i j = g be i j).
Lemma tmat_tm0 t r c b g : tmat t r c b g -> tm0 t r c b g. Proof. by case. Qed.
Lemma tm0_tmat t r c b g : tm0 t r c b g -> posn [:: c, r & b] -> tmat t r c b g. Proof. by case. Qed.
Lemma tm0_ext t r c b g h : tm0 t r c b g ->
  (forall be i j, okb b be -> (i < r)%N -> (j < c)%N -> g be i j = h be i j) -> tm0 t r c b h.
Proof. by case=> e H E; split=> // be i j *; rewrite H // E. Qed.
Lemma tm0_zeros d r c b : tm0 (t_zeros d [:: c, r & b]) r c b (fun _ _ _ => 0). Proof. by []. Qed.

Lemma upd_upd T (s : seq T) p x y : upd (upd s p x) p y = upd s p y.
Proof. by elim: s p => [|z s IH] [|p] //=; rewrite IH. Qed.
Lemma nth_upd_eq T (x0 : T) s p x : (p < size s)%N -> nth x0 (upd s p x) p = x.
Proof. by elim: s p => [|z s IH] [|p] //= h; exact: IH. Qed.
Lemma upd_nth0 (s : seq nat) p : (p < size s)%N -> upd s p (nth 0%N s p) = s.
Proof. by elim: s p => [|z s IH] [|p] //= h; rewrite IH. Qed.
Lemma cat_getE ts ws p idx : size ts = size ws ->
  (forall k, (k < size ws)%N -> nth 0%N (sh (nth t0 ts k)) p = nth 0%N ws k) ->
  (p < size idx)%N -> (nth 0%N idx p < sumn ws)%N ->
  cat_get ts p idx = tget (nth t0 ts (loc ws (nth 0%N idx p)).1) (upd idx p (loc ws (nth 0%N idx p)).2).
Proof.
elim: ts ws idx => [|t ts IH] [|w ws] idx //= [e] h hp; rewrite (h 0%N isT) /= => hi.
case: (ltnP (nth 0%N idx p) w) => hw /=; first by rewrite upd_nth0.
rewrite (IH ws); [|by []|by move=> k hk; exact: (h k.+1 hk)|by rewrite size_upd|by rewrite nth_upd_eq // ltn_subLR].
by rewrite nth_upd_eq // upd_upd.
Qed.
Lemma tm0_concat1 ts ws r b gs : (0 < size ws)%N -> size ts = size ws ->
  (forall k, (k < size ws)%N -> tm0 (nth t0 ts k) r (nth 0%N ws k) b (gs k)) ->
  exists2 z, t_concat ts ax1 = ret z & tm0 z r (sumn ws) b (fun be i j => gs (loc ws j).1 be i (loc ws j).2).
Proof.
move=> n0 e h; case: ts e h => [|t ts] e h; first by rewrite -e in n0.
rewrite /t_concat; have [s0 _] := h 0%N n0; rewrite /= in s0.
have -> : resolve_axis (trank t) ax1 = ret 0%N by rewrite /trank s0.
have S k : (k < size ws)%N -> sh (nth t0 (t :: ts) k) = [:: nth 0%N ws k, r & b] by move=> /h[].
rewrite bind_ret /t_concat_pos s0 ifT; last first.
  by apply/andP; split=> //; apply/(all_nthP t0) => k hk; rewrite S //= -e.
have -> : sumn [seq nth 0%N (sh u) 0 | u <- t :: ts] = sumn ws.
  congr sumn; apply: (@eq_from_nth _ 0%N); rewrite size_map // => k hk; rewrite (nth_map t0) // S //; by rewrite -e.
eexists; first by []; split=> // be i j hb hi hj.
rewrite -[LHS]/(cat_get (t :: ts) 0 [:: j, i & clamp (drop 0 b) be]) (cat_getE (ws := ws)) //; last by move=> k hk; rewrite S.
have [h1 h2] := loc_lt hj; have [e1 e2] := h _ h1.
by rewrite -(e2 be i) // /mx e1 /= drop0.
Qed.
Lemma tm0_concat2 ts hs c b gs : (0 < size hs)%N -> size ts = size hs ->
  (forall k, (k < size hs)%N -> tm0 (nth t0 ts k) (nth 0%N hs k) c b (gs k)) ->
  exists2 z, t_concat ts ax2 = ret z & tm0 z (sumn hs) c b (fun be i j => gs (loc hs i).1 be (loc hs i).2 j).
Proof.
move=> n0 e h; case: ts e h => [|t ts] e h; first by rewrite -e in n0.
rewrite /t_concat; have [s0 _] := h 0%N n0; rewrite /= in s0.
have -> : resolve_axis (trank t) ax2 = ret 1%N by rewrite /trank s0.
have S k : (k < size hs)%N -> sh (nth t0 (t :: ts) k) = [:: c, nth 0%N hs k & b] by move=> /h[].
rewrite bind_ret /t_concat_pos s0 ifT; last first.
  by apply/andP; split=> //; apply/(all_nthP t0) => k hk; rewrite S //= -e.
have -> : sumn [seq nth 0%N (sh u) 1 | u <- t :: ts] = sumn hs.
  congr sumn; apply: (@eq_from_nth _ 0%N); rewrite size_map // => k hk; rewrite (nth_map t0) // S //; by rewrite -e.
eexists; first by []; split=> // be i j hb hi hj.
rewrite -[LHS]/(cat_get (t :: ts) 1 [:: j, i & clamp (drop 0 b) be]) (cat_getE (ws := hs)) //; last by move=> k hk; rewrite S.
have [h1 h2] := loc_lt hi; have [e1 e2] := h _ h1.
by rewrite -(e2 be _ j) // /mx e1 /= drop0.
Qed.
Lemma tvec_concat ts ws b gs : (0 < size ws)%N -> size ts = size ws ->
  (forall k, (k < size ws)%N -> tvec (nth t0 ts k) (nth 0%N ws k) b (gs k)) ->
  exists2 z, t_concat ts ax1 = ret z & tvec z (sumn ws) b (fun be i => gs (loc ws i).1 be (loc ws i).2).
Proof.
move=> n0 e h; case: ts e h => [|t ts] e h; first by rewrite -e in n0.
rewrite /t_concat; have [s0 p0 _] := h 0%N n0; rewrite /= in s0.
have -> : resolve_axis (trank t) ax1 = ret 0%N by rewrite /trank s0.
have S k : (k < size ws)%N -> sh (nth t0 (t :: ts) k) = nth 0%N ws k :: b by move=> /h[].
rewrite bind_ret /t_concat_pos s0 ifT; last first.
  by apply/andP; split=> //; apply/(all_nthP t0) => k hk; rewrite S //= -e.
have -> : sumn [seq nth 0%N (sh u) 0 | u <- t :: ts] = sumn ws.
  congr sumn; apply: (@eq_from_nth _ 0%N); rewrite size_map // => k hk; rewrite (nth_map t0) // S //; by rewrite -e.
eexists; first by []; split=> // [|be i hb hi].
  by move: p0; rewrite !posn_cons => /andP[w0 ->]; rewrite andbT; case: (ws) n0 w0 => //= w ws' _; lia.
rewrite -[LHS]/(cat_get (t :: ts) 0 (i :: clamp b be)) (cat_getE (ws := ws)) //; last by move=> k hk; rewrite S.
have [h1 h2] := loc_lt hi; have [e1 _ e2] := h _ h1.
by rewrite -(e2 be) // /vx e1.
Qed.
End Concat.
