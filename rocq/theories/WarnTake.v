(** * C48: [take] along a batch axis never warns and keeps the class *)
From mathcomp Require Import all_ssreflect all_algebra zify.
From Verif Require Import Outcome Monad Shape Tensor Mat Dispatch Ops Spec ShapeThy LookThy Term Calm Types Ops2 Block Samples Warn Warn2 Warn3 PropsWarn PropsWarn2.
Set Implicit Arguments. Unset Strict Implicit. Unset Printing Implicit Defensive.
Import GRing.Theory.
Local Open Scope ring_scope.

Section Take.
Variable F : rcfType.
Notation tensor := (tensor F).
Notation mat := (mat F).
Variable argsort : seq F -> seq nat.
Notation run n := (ops_n argsort n).
Implicit Types (a b c : mat) (n : nat) (l : log).

Lemma bc_size s1 s2 s : bc s1 s2 = Some s -> size s = maxn (size s1) (size s2).
Proof.
elim: s1 s2 s => [|x s1 IH] [|y s2] s /=; try by case=> <-; rewrite ?maxn0 ?max0n.
case: (bcd x y) => // d; case E: (bc s1 s2) => [s'|//] [<-] /=; rewrite (IH _ _ E); lia.
Qed.
Lemma eab2_size s1 s2 : rets (expand_and_broadcast2 s1 s2) (fun _ s => size s = maxn (size s1) (size s2)).
Proof. by rewrite expand_and_broadcast2E; case E: (bc s1 s2) => [s|] //=; exact: bc_size E. Qed.
Lemma eab_size ss : rets (expand_and_broadcast ss) (fun _ s => size s = foldr maxn 0%N (map size ss)).
Proof.
case: ss => //= s ss; elim: ss s => [|t ss IH] s /=; first by rewrite maxn0.
apply: rets_bind (eab2_size s t) _ => ? u eu; apply: rets_conseq (IH u) _ => ? v ->; lia.
Qed.
Lemma bcxx s : bc s s = Some s.
Proof. by elim: s => [|x s IH] //=; rewrite IH /bcd eqxx; case: (x == 1)%N. Qed.
Lemma eabxx s : expand_and_broadcast2 s s = ret s. Proof. by rewrite expand_and_broadcast2E bcxx. Qed.

(** The batch shape is [s], if there is one. *)
Definition hasb a (s : shape) := rets (shape_batch a) (fun _ s' => s' = s).
Definition flat (s : shape) (c : mat) := hasb c s /\ (if c is Nm t then size (sh t) = (size s).+2 else True).
Lemma flat_rank s c : flat s c -> sil (rank_of c) (fun r => r = (size s).+2).
Proof.
case=> h1 h2; apply: sil_calmP; first exact: cm_rank.
rewrite /rank_of; apply: (@rets_bind _ _ _ _ (fun _ u => size u = (size s).+2)) => [|? u -> //].
have g (m : outcome (nat * nat)) : rets (do b <- shape_batch c; do ' (r, c0) <- m; ret [:: c0, r & b]) (fun _ u => size u = (size s).+2).
  by apply: rets_bind h1 _ => ? u ->; apply: rets_bindT => ? [r' c'].
by case: c h1 h2 g => [t|d b r k|t|t|t r k|t|t|x y m|d x y m|x y] h1 h2 g; [by rewrite /shape_of /rets /= h2|exact: (g (shape_matrix _))..].
Qed.
Lemma bbt_sh (t : tensor) s : rets (t_broadcast_batch_to t s) (fun _ u => exists j i : nat, sh u = [:: j, i & s]).
Proof. by rewrite /t_broadcast_batch_to; case: (sh t) => [|c [|r b]] //; rewrite /t_broadcast_to; case: ifP => //= _; exists c, r. Qed.
(** Broadcasting plain, diagonal and triangular matrices. *)
Lemma s_bb a s : md a -> sil (broadcast_batch_to a s) (fun c => [/\ kd c = kd a, md c, pl c = pl a & flat s c]).
Proof.
have bb (t : tensor) : sil (t_broadcast_batch_to t s) (fun u => exists j i : nat, sh u = [:: j, i & s]).
  by apply: sil_calmP; [exact: cm_bbto|exact: bbt_sh].
case: a => // t h; cbn [broadcast_batch_to].
- apply: sil_bind (bb t) _ => u [j [i e]]; apply: sil_ret; have h' : ns t := h; rewrite /flat /hasb /= h' /ns /t_uprank e /= ?e.
  by split=> //; split=> //; rewrite /rets /= ?e /= ?drop0.
- apply: sil_bind (bb t) _ => u [j [i e]]; apply: sil_ret; have h' : ns t := h; rewrite /flat /hasb /mk_dense /= h' /ns /t_uprank e /= ?e.
  by split=> //; split=> //; rewrite /rets /= ?e /= ?drop0.
- apply: (@sil_bind _ _ _ _ (fun u => sh u = tcols t :: s)).
    by apply: sil_calmP; [exact: cm_bto|rewrite /t_broadcast_to; case: ifP].
  move=> u e; apply: sil_calmP; first exact: cm_mk_diag; rewrite /mk_diag /require; case: ifP => //= _; split=> //.
  by rewrite /flat /hasb /= e.
- apply: sil_bind (bb t) _ => u [j [i e]]; apply: sil_calmP; first exact: cm_mk_lt.
  by rewrite /mk_lt /require; case: ifP => //= _; rewrite /flat /hasb /= /ns e; split=> //; split=> //; rewrite /rets /= ?e /= ?drop0.
- apply: sil_bind (bb t) _ => u [j [i e]]; apply: sil_calmP; first exact: cm_mk_ut.
  by rewrite /mk_ut /require; case: ifP => //= _; rewrite /flat /hasb /= /ns e; split=> //; split=> //; rewrite /rets /= ?e /= ?drop0.
Qed.

Lemma s_res (r q : nat) : (q.+2 < r)%N -> sil (resolve_axis r (Posz q)) (fun p => p = (r - q.+1)%N /\ (p < 2)%N = false).
Proof. by move=> h; rewrite /resolve_axis; case: ifP => // _; apply: sil_ret; split=> //; lia. Qed.
Lemma s_tk n k a s x (q : nat) : md a -> flat s a -> (q < size s)%N ->
  sil (take_n (run n) k a x (Posz q)) (fun c => [/\ kd c = kd a, md c & pl c = pl a]).
Proof.
case: k => // k h f hq; rewrite -[take_n _ _]/(take_step (run n) (take_n (run n) k)) /take_step.
apply: sil_bind (flat_rank f) _ => r ->; apply: sil_bind (@s_res (size s).+2 q _) _ => [|p [ep p2]]; first by lia.
case: a h {f} => // t h.
- by apply: sil_bind (s_takep _ _ _) _ => u hu; apply: sil_ret; split=> //; rewrite /= ?(hu h) ?[ns t]h.
- apply: sil_warn => //; apply: sil_bind (v_dense (inv_n argsort n) (a := Dense t) h) _ => u hu.
  by apply: sil_bind (s_takep _ _ _) _ => v _; apply: sil_ret; split=> //=; rewrite ?ns_up ?[ns t]h.
- rewrite p2; apply: sil_bind (sil_calm (cm_take _ _ _)) _ => u _; by apply: sil_conseq (s_diag _) _ => c [t' ->].
- apply: sil_bind (sil_calm (cm_takepos _ _ _)) _ => u _; rewrite p2; by apply: sil_conseq (s_lt _) _ => c [t' ->].
- apply: sil_bind (sil_calm (cm_takepos _ _ _)) _ => u _; rewrite p2; by apply: sil_conseq (s_ut _) _ => c [t' ->].
Qed.
Lemma md_pl a : pl a -> md a. Proof. by case: a. Qed.
(** Size of the batch shape. *)
Definition bsz a : nat :=
  match a with
  | Nm t => size (drop 2 (sh (t_uprank t))) | Dense t | LT t | UT t => size (drop 2 (sh t)) | Diag t => size (behead (sh t)) | _ => 0%N
  end.
Lemma md_sb a : md a -> exists2 s, shape_batch a = ret s & size s = bsz a.
Proof. by case: a => // t _; eexists; try reflexivity. Qed.
Definition lrsz (y z m : mat) : nat := maxn (bsz y) (maxn (bsz z) (bsz m)).
Lemma lr_sb (y z m : mat) : pl y -> pl z -> md m -> rets (shape_batch (LR y z m)) (fun _ u => size u = lrsz y z m).
Proof.
move=> /md_pl/md_sb[sy ey ey'] /md_pl/md_sb[sz ez ez'] /md_sb[sm em em']; cbn [shape_batch]; rewrite ey ez em !bind_ret.
by apply: rets_conseq (eab_size _) _ => ? u ->; rewrite /= maxn0 ey' ez' em'.
Qed.
Lemma rank_size a S : (if a is Nm _ then False else True) -> rets (shape_batch a) (fun _ u => size u = S) -> sil (rank_of a) (fun r => r = S.+2).
Proof.
move=> na h; apply: sil_calmP; first exact: cm_rank.
rewrite /rank_of; apply: (@rets_bind _ _ _ _ (fun _ u => size u = S.+2)) => [|? u -> //].
have g (m : outcome (nat * nat)) : rets (do b <- shape_batch a; do ' (r, c0) <- m; ret [:: c0, r & b]) (fun _ u => size u = S.+2).
  by apply: rets_bind h _ => ? u e; apply: rets_bindT => ? [r' c']; rewrite /rets /= e.
by case: a na h g => [//|d b r k|t|t|t r k|t|t|x y m|d x y m|x y] _ _ g; exact: (g (shape_matrix _)).
Qed.
Lemma flat_lr s (y z m : mat) : flat s y -> flat s z -> flat s m -> rets (shape_batch (LR y z m)) (fun _ u => u = s).
Proof.
case=> h1 _ [h2 _] [h3 _]; cbn [shape_batch]; apply: rets_bind h1 _ => ? ? ->; apply: rets_bind h2 _ => ? ? ->.
by apply: rets_bind h3 _ => ? ? ->; rewrite /= eabxx bind_ret eabxx bind_ret.
Qed.
Lemma s_tlr n k (y z m : mat) x (q S : nat) : pl y -> pl z -> md m ->
  rets (shape_batch (LR y z m)) (fun _ u => size u = S) -> (q < S)%N -> (S <= lrsz y z m)%N ->
  sil (take_n (run n) k (LR y z m) x (Posz q)) (fun c => kd c = KLR (structured m) /\ std c).
Proof.
case: k => // k hy hz hm hs hq le; rewrite -[take_n _ _]/(take_step (run n) (take_n (run n) k)) /take_step.
apply: sil_bind (@rank_size (LR y z m) S I hs) _ => r ->; apply: sil_bind (@s_res S.+2 q _) _ => [|p [ep p2]]; first by lia.
case: ifP => [/eqP e|_]; first by move: p2; rewrite e.
case: ifP => [/eqP e|_]; first by move: p2; rewrite e.
have -> : Posz (S.+2 - p.+1)%N = Posz q by congr Posz; lia.
rewrite /align_batch /shape_batch_broadcast /=.
have [sy ey ey'] := md_sb (md_pl hy); have [sz ez ez'] := md_sb (md_pl hz); have [sm em em'] := md_sb hm.
rewrite ey ez em !bind_ret.
apply: (@sil_bind _ _ _ _ (fun xs => exists (b : shape) y' z' m', [/\ xs = [:: y'; m'; z'], (q < size b)%N,
    [/\ md y', md z' & md m'], [/\ pl y', pl z' & kd m' = kd m] & [/\ flat b y', flat b z' & flat b m']])).
  apply: (@sil_bind _ _ _ _ (fun b : shape => (q < size b)%N)).
    apply: sil_calmP; first exact: cm_eb.
    by apply: rets_conseq (eab_size _) _ => ? u ->; rewrite /= ey' ez' em'; move: le; rewrite /lrsz; lia.
  move=> b hb; apply: sil_bind (s_bb b (md_pl hy)) _ => y' [_ y1 y2 y3]; rewrite bindA; apply: sil_bind (s_bb b hm) _ => m' [m0 m1 m2 m3].
  rewrite !bindA; apply: sil_bind (s_bb b (md_pl hz)) _ => z' [_ z1 z2 z3]; rewrite !bind_ret; apply: sil_ret; exists b, y', z', m'.
  by split=> //; split=> //; rewrite ?y2 ?z2.
move=> xs [b [y' [z' [m' [-> hb [y1 z1 m1] [y2 z2 m2] [y3 z3 m3]]]]]] /=.
apply: sil_bind (s_tk n k x y1 y3 hb) _ => y4 [_ _ y5]; apply: sil_bind (s_tk n k x z1 z3 hb) _ => z4 [_ _ z5].
apply: sil_bind (s_tk n k x m1 m3 hb) _ => m4 [m5 m6 _]; apply: sil_conseq (s_lowrank _ _ _) _ => c -> /=.
rewrite y5 y2 z5 z2 m6; split=> //; congr KLR; move: m5; rewrite m2; clear; case: m4; case: m => //= *.
Qed.
Lemma flat_bsz s a : md a -> flat s a -> bsz a = size s.
Proof. by move=> /md_sb[u e <-] [h _]; move: h; rewrite /hasb e /rets /= => ->. Qed.
Lemma s_bblr (y z m : mat) s : pl y -> pl z -> md m -> sil (broadcast_batch_to (LR y z m) s) (fun c => exists y' z' m',
  [/\ c = LR y' z' m', [/\ pl y', pl z' & md m'], kd m' = kd m & [/\ flat s y', flat s z' & flat s m']]).
Proof.
move=> hy hz hm; cbn [broadcast_batch_to]; apply: sil_bind (s_bb s (md_pl hy)) _ => y' [_ y1 y2 y3].
apply: sil_bind (s_bb s (md_pl hz)) _ => z' [_ z1 z2 z3]; apply: sil_bind (s_bb s hm) _ => m' [m0 m1 m2 m3].
apply: sil_conseq (s_lowrank _ _ _) _ => c ->; exists y', z', m'; by split=> //; split=> //; rewrite ?y2 ?z2.
Qed.
Lemma str_kd (m m' : mat) : kd m = kd m' -> structured m = structured m'. Proof. by case: m; case: m'. Qed.
Lemma rank_inv a l r : (if a is Nm _ then False else True) -> rank_of a = Ret l r -> rets (shape_batch a) (fun _ u => r = (size u).+2).
Proof.
move=> na; have g : rank_of a = Ret l r -> (do s <- (do b <- shape_batch a; do ' (r, c) <- shape_matrix a; ret [:: c, r & b]); ret (size s)) = Ret l r.
  by case: (a) na.
move/g; case: (shape_batch a) => [l0 b|l0 e] //=; case: (shape_matrix a) => [l1 [i j]|l1 e] //=.
by rewrite /bind /= => -[_ <-].
Qed.
Lemma s_awb d (y z m : mat) q : pl y -> pl z -> md m -> rets (shape_batch (Wb d y z m)) (fun _ u => (q < size u)%N) ->
  sil (align_batch [:: Diag d; LR y z m]) (fun xs => exists (s : shape) d' y' z' m',
   [/\ xs = [:: Diag d'; LR y' z' m'], (q < size s)%N, True /\ flat s (Diag d'), [/\ pl y', pl z' & md m'] &
       kd m' = kd m /\ [/\ flat s y', flat s z' & flat s m']]).
Proof.
move=> hy hz hm hb; rewrite /align_batch; apply: (@sil_bind _ _ _ _ (fun s : shape => (q < size s)%N)).
  apply: sil_calmP; first exact: cm_sbb.
  by move: hb; rewrite /shape_batch_broadcast; cbn [shape_batch mapM]; rewrite ?bindA ?bind_ret; have [sy -> _] := md_sb (md_pl hy); have [sz -> _] := md_sb (md_pl hz); have [sm -> _] := md_sb hm; rewrite ?bind_ret; case: (expand_and_broadcast [:: sy; sz; sm]) => [l u|l e]; rewrite /rets /bind /ret //; case: (expand_and_broadcast [:: behead (sh d); u]).
move=> s hs; cbn [mapM]; apply: sil_bind (s_bb s (a := Diag d) isT) _ => d' [d1 _ _ d2].
rewrite bindA; apply: sil_bind (s_bblr s hy hz hm) _ => _ [y' [z' [m' [-> [y1 z1 m1] m2 [y3 z3 m3]]]]].
rewrite !bind_ret; apply: sil_ret; case: d' d1 d2 => //= d' _ d2; by exists s, d', y', z', m'.
Qed.
Lemma s_akr (y z : mat) q : pl y -> pl z -> rets (shape_batch (Kron y z)) (fun _ u => (q < size u)%N) ->
  sil (align_batch [:: y; z]) (fun xs => exists (s : shape) y' z',
   [/\ xs = [:: y'; z'], (q < size s)%N, md y', md z' & flat s y' /\ flat s z']).
Proof.
move=> hy hz hb; rewrite /align_batch; apply: (@sil_bind _ _ _ _ (fun s : shape => (q < size s)%N)).
  apply: sil_calmP; first exact: cm_sbb.
  by move: hb; rewrite /shape_batch_broadcast; cbn [shape_batch mapM]; have [sy -> _] := md_sb (md_pl hy); have [sz -> _] := md_sb (md_pl hz); rewrite !bind_ret.
move=> s hs; cbn [mapM]; apply: sil_bind (s_bb s (md_pl hy)) _ => y' [_ y1 y2 y3].
rewrite bindA; apply: sil_bind (s_bb s (md_pl hz)) _ => z' [_ z1 z2 z3].
rewrite !bind_ret; apply: sil_ret; by exists s, y', z'.
Qed.
Lemma s_tb n k a x (q : nat) : std a -> rets (rank_of a) (fun _ r => (q.+2 < r)%N) -> sil (take_n (run n) k a x (Posz q)) (fun c => kd c = kd a).
Proof.
case: k => // k h hr; have I := inv_n argsort n.
rewrite -[take_n _ _]/(take_step (run n) (take_n (run n) k)).
case: a h hr => [t|d b r c|t|t|t r c|t|t|y z m|d y z m|y z] h hr.
8: { have /and3P[hy hz hm] := h; have hs := lr_sb hy hz hm.
  have hr' := rank_size (a := LR y z m) Logic.I hs.
  case E: (rank_of (LR y z m)) => [l r|l e]; last by rewrite /take_step E.
  have hq : (q < lrsz y z m)%N by move: hr hr'; rewrite E /sil /rets => h1 [_ h2]; move: h1; rewrite h2.
  by have := @s_tlr n k.+1 y z m x q _ hy hz hm hs hq (leqnn _); move=> h'; apply: sil_conseq h' _ => c []. }
8: { have /and3P[hy hz hm] := h.
  case E: (rank_of (Wb d y z m)) => [l r|l e]; last by rewrite /take_step E.
  have hb : rets (shape_batch (Wb d y z m)) (fun _ u => (q < size u)%N).
    have X := rank_inv (a := Wb d y z m) Logic.I E; apply: rets_conseq X _ => ? u /= e; move: hr; rewrite E /rets e; lia.
  have hr' : sil (rank_of (Wb d y z m)) (fun r' => r' = r /\ (q.+2 < r)%N).
    by apply: sil_calmP; [exact: cm_rank|rewrite E /rets; split=> //; move: hr; rewrite E].
  rewrite /take_step; apply: sil_bind hr' _ => _ [-> hr']; apply: sil_bind (@s_res r q hr') _ => p [ep p2].
  have -> : Posz (r - p.+1)%N = Posz q by congr Posz; lia.
  rewrite p2; cbv iota; apply: sil_bind (@s_awb d y z m q hy hz hm hb) _ => xs [s [d' [y' [z' [m' [-> hs [d1 d2] [y1 z1 m1] [m2 [y3 z3 m3]]]]]]]].
  cbn [nth]; apply: sil_bind (s_tk n k x (isT : md (Diag d')) d2 hs) _ => d4 [d5 d6 _].
  have le : (size s <= lrsz y' z' m')%N by rewrite /lrsz (flat_bsz (md_pl y1) y3); lia.
  have g : rets (shape_batch (LR y' z' m')) (fun _ u => size u = size s) by apply: rets_conseq (flat_lr y3 z3 m3) _ => ? u ->.
  apply: sil_bind (@s_tlr n k y' z' m' x q (size s) y1 z1 m1 g hs le) _ => c [ec hc].
  have V := v_add I (std_md d6) hc; rewrite d5 ec binE //= in V; rewrite (str_kd m2) in V.
  have := sil_of V isT; move=> V'; apply: sil_conseq V' _ => c' /andP[_]; rewrite /= orbF => /eqP <-; by []. }
8: { have /andP[hy hz] := h.
  case E: (rank_of (Kron y z)) => [l r|l e]; last by rewrite /take_step E.
  have hb : rets (shape_batch (Kron y z)) (fun _ u => (q < size u)%N).
    have X := rank_inv (a := Kron y z) Logic.I E; apply: rets_conseq X _ => ? u /= e; move: hr; rewrite E /rets e; lia.
  have hr' : sil (rank_of (Kron y z)) (fun r' => r' = r /\ (q.+2 < r)%N).
    by apply: sil_calmP; [exact: cm_rank|rewrite E /rets; split=> //; move: hr; rewrite E].
  rewrite /take_step; apply: sil_bind hr' _ => _ [-> hr']; apply: sil_bind (@s_res r q hr') _ => p [ep p2].
  have -> : Posz (r - p.+1)%N = Posz q by congr Posz; lia.
  rewrite p2; cbv iota; apply: sil_bind (@s_akr y z q hy hz hb) _ => xs [s [y' [z' [-> hs y1 z1 [y3 z3]]]]]; cbn [nth].
  apply: sil_bind (s_tk n k x y1 y3 hs) _ => y4 _; apply: sil_bind (s_tk n k x z1 z3 hs) _ => z4 _.
  exact: sil_ret. }
all: rewrite /take_step; apply: (@sil_bind _ _ _ _ (fun r => (q.+2 < r)%N)) => [|r0 hr0]; first by apply: sil_calmP; [exact: cm_rank|].
all: apply: sil_bind (@s_res r0 q hr0) _ => p [ep p2].
all: try (have -> : Posz (r0 - p.+1)%N = Posz q by congr Posz; lia).
all: try (have p1 : (p == 1)%N = false by (case: (p) p2 => [|[|]])); try (have p0 : (p == 0)%N = false by (case: (p) p2)).
- by apply: sil_bind (s_takep _ _ _) _ => u hu; apply: sil_ret.
- by apply: sil_conseq (s_zero _ _ _) _ => c0 [? [? [? [? ->]]]].
- apply: sil_warn => //; apply: sil_bind (v_dense I (a := Dense t) h) _ => u hu.
  by apply: sil_bind (s_takep _ _ _) _ => v _; apply: sil_ret.
- rewrite p2; apply: sil_bind (sil_calm (cm_take _ _ _)) _ => u _; by apply: sil_conseq (s_diag _) _ => c [t' ->].
- rewrite p1 p0; apply: sil_bind (sil_calm (cm_take _ _ _)) _ => u _; by apply: sil_conseq (s_const _ _) _ => c0 [? [? [? ->]]].
- apply: sil_bind (sil_calm (cm_takepos _ _ _)) _ => u _; rewrite p2; by apply: sil_conseq (s_lt _) _ => c [t' ->].
- apply: sil_bind (sil_calm (cm_takepos _ _ _)) _ => u _; rewrite p2; by apply: sil_conseq (s_ut _) _ => c [t' ->].
Qed.
(** The axis counted from the front. *)
Lemma s_neg n k a x r (p : nat) : rets (rank_of a) (fun _ r' => r' = r) -> (p < r)%N ->
  take_n (run n) k a x (Negz p) = take_n (run n) k a x (Posz (r - p.+1)%N).
Proof.
case: k => // k h lt; rewrite -[take_n _ _]/(take_step (run n) (take_n (run n) k)) /take_step.
have er : resolve_axis r (Posz (r - p.+1)%N) = resolve_axis r (Negz p).
  by rewrite /resolve_axis lt; case: ifP => [_|]; [congr ret; lia|lia].
by case: (rank_of a) h => [l r'|l e] // h; rewrite {1}/bind [in RHS]/bind; cbv beta iota; rewrite /rets in h; rewrite h er.
Qed.
(** [take] along a batch axis, counted from the front ([axis] is at least 0 and less than the rank minus 2) or from the
    back ([axis] is at most -3), never warns, and the result has the class of the argument. *)
Definition batch_axis (rank : nat) (axis : int) : bool :=
  match axis with Posz q => (q.+2 < rank)%N | Negz p => (1 < p)%N end.
Theorem C48_take_batch n a x axis l l0 c r : std a -> rank_of a = Ret l0 r -> batch_axis r axis ->
  take_op (run n) a x axis = Ret l c -> kd c = kd a /\ lw l = false.
Proof.
move=> h er; case: axis => q hq e.
  have : sil (take_op (run n) a x (Posz q)) (fun c => kd c = kd a) by apply: s_tb => //; rewrite er.
  by rewrite e => -[/negbTE].
have [lt|ge] := ltnP q r.
  have : sil (take_op (run n) a x (Negz q)) (fun c => kd c = kd a).
    rewrite /take_op (s_neg n _ x (r := r)) ?er //; apply: s_tb => //; rewrite er /rets; move: hq lt; rewrite /batch_axis; lia.
  by rewrite e => -[/negbTE].
exfalso; move: e; rewrite /take_op; case: (depth a) => // k; rewrite -[take_n _ _]/(take_step (run n) (take_n (run n) k)).
by rewrite /take_step er /bind /resolve_axis ltnNge ge.
Qed.
(** A batch of two Woodbury matrices, of which the low-rank part is not batched. *)
Example C48_take_batch_ex :
  let a : mat := Wb (t_ones DInt [:: 3%N; 2%N]) (Dense (t_ones DInt [:: 1%N; 3%N])) (Dense (t_ones DInt [:: 1%N; 3%N])) (Diag (t_ones DInt [:: 1%N])) in
  [/\ std a, rets (rank_of a) (fun _ r => r = 3%N), batch_axis 3 (Posz 0) & batch_axis 3 (Negz 2)].
Proof. by []. Qed.
End Take.
Print Assumptions C48_take_batch.
