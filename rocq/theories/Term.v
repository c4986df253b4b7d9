(** * Termination of the core operations (proof support)

    Every operation has a weight computed from its operands; every recursive
    call of a method body has a smaller weight, or the same weight and a
    smaller rank.  Hence recursion depth [16 * weight + rank] suffices. *)
From mathcomp Require Import all_ssreflect all_algebra.
From mathcomp Require Import zify.
From Verif Require Import Outcome Monad Shape Tensor Mat Dispatch LookThy Ops Spec MatThy AddOk.
Set Implicit Arguments. Unset Strict Implicit. Unset Printing Implicit Defensive.
Import GRing.Theory.

(** The call does not run out of recursion depth, and what it returns satisfies [P]. *)
Definition thoare A (m : outcome A) (P : A -> Prop) : Prop :=
  match m with Ret _ a => P a | RaiseL _ e => e <> RecursionError end.
Notation nrec m := (thoare m (fun _ => True)).

Section Rules.
Variables A B : Type.
Lemma th_ret (a : A) (P : A -> Prop) : P a -> thoare (ret a) P. Proof. by []. Qed.
Lemma th_conseq (m : outcome A) (P Q : A -> Prop) : thoare m P -> (forall a, P a -> Q a) -> thoare m Q.
Proof. by case: m => //= l a h k; apply: k. Qed.
Lemma th_bind (m : outcome A) (f : A -> outcome B) (P : A -> Prop) (Q : B -> Prop) :
  thoare m P -> (forall a, P a -> thoare (f a) Q) -> thoare (bind m f) Q.
Proof. by case: m => [l a|l e] //= h /(_ a h); rewrite /bind; case: (f a). Qed.
Lemma th_nr (m : outcome A) (P : A -> Prop) : thoare m P -> nrec m.
Proof. by move=> h; apply: th_conseq h _. Qed.
Lemma nr_bind (m : outcome A) (f : A -> outcome B) (Q : B -> Prop) :
  nrec m -> (forall a, thoare (f a) Q) -> thoare (bind m f) Q.
Proof. by move=> h k; apply: th_bind h _ => a _. Qed.
End Rules.
Section Rules2.
Variables A B : Type.
Lemma nr_mapM (f : A -> outcome B) s : (forall x, nrec (f x)) -> nrec (mapM f s).
Proof. by move=> h; elim: s => //= x s IH; apply: nr_bind => // y; apply: nr_bind. Qed.
Lemma th_mapM (f : A -> outcome B) (P : A -> Prop) (Q : B -> Prop) s :
  (forall x, P x -> thoare (f x) Q) -> (forall i d, i < size s -> P (nth d s i)) ->
  thoare (mapM f s) (fun ys => size ys = size s /\ forall i d, i < size s -> Q (nth d ys i)).
Proof.
move=> h; elim: s => [|x s IH] hs /=; first by split.
apply: th_bind (h x (hs 0 x isT)) _ => y qy.
apply: th_bind (IH (fun i d hi => hs i.+1 d hi)) _ => ys [e q]; apply: th_ret; split=> [|[|i] d] //=.
  by rewrite e.
by move=> hi; apply: q.
Qed.
Lemma th_if (b : bool) (m1 m2 : outcome A) (P : A -> Prop) : (b -> thoare m1 P) -> (~~ b -> thoare m2 P) -> thoare (if b then m1 else m2) P.
Proof. by case: b => h1 h2; auto. Qed.
End Rules2.

(** Methods which cannot recurse: unfold and inspect every case. *)
Ltac nr1 := first
  [ assumption | done
  | apply: nr_bind; [|move=> ?]
  | match goal with |- context [match ?x with _ => _ end] => case: x => * end
  | match goal with |- context [if ?x then _ else _] => case: x => * end ].
Ltac nr := repeat nr1.

Section Shapes.
Lemma nr_require b e : e <> RecursionError -> nrec (require b e).
Proof. by rewrite /require; case: b. Qed.
Lemma nr_bdim d d' : nrec (broadcast_dim d d'). Proof. by rewrite /broadcast_dim; nr. Qed.
Lemma nr_bc2 s s' : nrec (broadcast2 s s').
Proof. rewrite /broadcast2; case: ifP => // _; apply: nr_mapM => p; exact: nr_bdim. Qed.
Lemma nr_eb2 s s' : nrec (expand_and_broadcast2 s s').
Proof. by rewrite /expand_and_broadcast2; case: ifP => _; [|case: ifP => _]; apply: nr_bc2. Qed.
Lemma nr_fold op s ss : (forall s s', nrec (op s s')) -> nrec (fold_shapes op s ss).
Proof. by move=> h; elim: ss s => //= s' ss IH s; apply: nr_bind. Qed.
Lemma nr_eb ss : nrec (expand_and_broadcast ss).
Proof. by case: ss => //= s ss; apply: nr_fold; apply: nr_eb2. Qed.
Lemma nr_bcs ss : nrec (broadcast ss).
Proof. by case: ss => //= s ss; apply: nr_fold; apply: nr_bc2. Qed.
Lemma nr_compat s s' : nrec (assert_compatible s s').
Proof.
rewrite /assert_compatible; apply: nr_bind => [|b]; last exact: nr_require.
by rewrite /compatible; have := nr_eb2 s s'; case: (expand_and_broadcast2 s s') => // l [] // .
Qed.
End Shapes.

Local Arguments expand_and_broadcast : simpl never.
Local Arguments broadcast : simpl never.
Section Mats.
Variable F : rcfType.
Notation tensor := (tensor F).
Notation mat := (mat F).
Implicit Types (a b l m : mat) (t x y : tensor).

Definition ns t : bool := if sh t is [::] then false else true.
(** Good objects: no scalar inside a matrix object.  Every well-formed object is good. *)
Fixpoint gd (a : mat) : bool :=
  match a with
  | Nm t | Dense t | LT t | UT t | Diag t => ns t
  | Zero _ _ _ _ | Const _ _ _ => true
  | LR l r m => [&& gd l, gd r & gd m]
  | Wb d l r m => [&& ns d, gd l, gd r & gd m]
  | Kron l r => gd l && gd r
  end.
Fixpoint wt (a : mat) : nat :=
  match a with
  | Nm t => if ns t then 1 else 2
  | Dense _ | LT _ | UT _ | Diag _ | Zero _ _ _ _ => 1
  | Const _ _ _ => 2
  | LR l r m => (wt l * wt r * wt m).+1
  | Wb _ l r m => (wt l * wt r * wt m).+2
  | Kron l r => (wt l + wt r).+1
  end.
(** Good operands. *)
Definition gdo (a : mat) : bool := gd a || isscal a.
Lemma wt_gt0 a : 0 < wt a. Proof. by case: a => //= t; case: (ns t). Qed.
Lemma gd_gdo a : gd a -> gdo a. Proof. by rewrite /gdo => ->. Qed.
Lemma wf_gd a : wf a -> gd a.
Proof.
elim: a => //=.
- by move=> t /andP[]; rewrite /ns /trank; case: (sh t).
- by move=> t /andP[]; rewrite /ns /trank; case: (sh t).
- by move=> t /andP[]; rewrite /ns /trank; case: (sh t).
- by move=> t [/andP[]]; rewrite /ns /trank; case: (sh t).
- by move=> t [/andP[]]; rewrite /ns /trank; case: (sh t).
- by move=> l h1 r h2 m h3 [/h1 -> /h2 -> /h3 ->].
- move=> d l h1 r h2 m h3 [[/h1 -> /h2 -> /h3 -> _ _]] /and4P[/andP[]]; rewrite /ns /trank.
  by case: (sh d).
- by move=> l h1 r h2 [/h1 -> /h2 ->].
Qed.

(** ** Tensors *)
Lemma th_map2 f x y : thoare (t_map2 f x y) (fun z => ns x || ns y -> ns z).
Proof.
rewrite /t_map2 /ns; case: (sh x) (sh y) => [|d s] [|d' s'] //=; last by case: (bcd d d'); case: (bc s s') => [?|] //= ?.
all: by case: (bc _ _) => //= u.
Qed.
Lemma th_bto t s : thoare (t_broadcast_to t s) (fun z => ns t -> ns z).
Proof. by rewrite /t_broadcast_to /ns; case: (sh t) => [|d u]; case: s => [|d' s] //=; case: ifP. Qed.
Lemma th_transpose t : thoare (t_transpose t) (fun z => ns z).
Proof. by rewrite /t_transpose; case: (sh t) => [|? [|? ?]]. Qed.
Lemma th_matmul x y ta tb : thoare (t_matmul x y ta tb) (fun z => ns z).
Proof.
rewrite /t_matmul; apply: nr_bind => [|x']; first by rewrite /t_tr; case: ta => //; apply: th_nr (th_transpose _).
apply: nr_bind => [|y']; first by rewrite /t_tr; case: tb => //; apply: th_nr (th_transpose _).
by rewrite /t_matmul_nn; case: (sh x') => [|? [|? ?]] //; case: (sh y') => [|? [|? ?]] //; case: ifP => // _; case: (bc _ _).
Qed.
Lemma nr_sumpos t p : nrec (t_sum_pos t p). Proof. by rewrite /t_sum_pos; nr. Qed.
Lemma nr_resolve d (x : iom) : nrec (resolve_iom d x).
Proof. case: x => l /=; [apply: nr_mapM => -[] n /=; by case: ifP|by case: ifP]. Qed.
Lemma ns_size t : ns t = (0 < size (sh t)). Proof. by rewrite /ns; case: (sh t). Qed.
Lemma size_upd A (s : seq A) p (x : A) : size (upd s p x) = size s.
Proof. by elim: s p => //= y s IH [|p] //=; rewrite IH. Qed.
Lemma size_ins A (s : seq A) p (x : A) : 0 < size (ins s p x).
Proof. by case: p s => [|p] [|]. Qed.
Lemma th_takepos t (x : iom) p : thoare (t_take_pos t x p) (fun z => ns z).
Proof.
rewrite /t_take_pos; case: ifP => // h; apply: nr_bind => [|l]; first exact: nr_resolve.
by apply: th_ret; rewrite ns_size /= size_upd (leq_ltn_trans _ h).
Qed.
Lemma th_concat ts p : thoare (t_concat_pos ts p) (fun z => ns z).
Proof.
case: ts => //= t ts; case: ifP => // /andP[h _]; apply: th_ret.
by rewrite ns_size /= size_upd (leq_ltn_trans _ h).
Qed.
Lemma th_resolve_dims n ds : thoare (resolve_dims n ds) (fun s => size s = size ds).
Proof.
rewrite /resolve_dims; case: ifP => _; first by case: ifP => // _; apply: th_ret; rewrite size_map.
case: ifP => // /andP[/eqP h _]; apply: th_ret.
by elim: ds h => //= -[d|] ds IH //= /IH ->.
Qed.
Lemma th_reshape t ds : 0 < size ds -> thoare (t_reshape t ds) (fun z => ns z).
Proof.
by move=> h; apply: th_bind (th_resolve_dims _ _) _ => s e; apply: th_ret; rewrite ns_size /= e.
Qed.
Lemma th_stack ts p : thoare (t_stack ts p) (fun z => ns z).
Proof. by case: ts => //= t ts; case: ifP => // _; apply: th_ret; rewrite ns_size /= size_ins. Qed.
Lemma nr_unstack t p : nrec (t_unstack t p). Proof. by rewrite /t_unstack; nr. Qed.
Lemma nr_first t : nrec (t_first t). Proof. by rewrite /t_first; nr. Qed.
Lemma nr_get00 t : nrec (t_get00 t). Proof. by rewrite /t_get00; nr. Qed.
Lemma nr_dx t : nrec (t_diag_extract t). Proof. by rewrite /t_diag_extract; nr. Qed.
Lemma th_dc t : thoare (t_diag_construct t) (fun z => ns z). Proof. by rewrite /t_diag_construct; nr. Qed.
Lemma nr_k1 x y : nrec (t_kron1 x y). Proof. by rewrite /t_kron1; nr. Qed.
Lemma th_k2 x y : thoare (t_kron2 x y) (fun z => ns z). Proof. by rewrite /t_kron2; nr. Qed.
Lemma nr_sq1 t : nrec (t_squeeze1 t).
Proof. by rewrite /t_squeeze1; case: (sh t) => [|[|[|n]] s]. Qed.
Lemma nr_sq2 t : nrec (t_squeeze2 t).
Proof. by rewrite /t_squeeze2; case: (sh t) => [|c [|[|[|n]] s]]. Qed.
Lemma ns_uprank t : ns (t_uprank t).
Proof. by rewrite /ns /t_uprank; case E: (sh t) => [|d [|d' s]] //=; rewrite ?E. Qed.
Lemma th_bbto t s : thoare (t_broadcast_batch_to t s) (fun z => ns z).
Proof.
rewrite /t_broadcast_batch_to; case E: (sh t) => [|c [|r b]] //.
by apply: th_conseq (th_bto _ _) _ => z; apply; rewrite /ns E.
Qed.

(** ** Shapes of matrices *)
Lemma nr_sb a : nrec (shape_batch a).
Proof.
elim: a => //= *; repeat first [assumption|exact: nr_eb|apply: nr_bind => [|?]].
Qed.
Lemma nr_sm a : nrec (shape_matrix a).
Proof.
elim: a => //= *; try by repeat (apply: nr_bind => //= -[? ?]).
by apply: nr_bind => //= -[? ?]; apply: nr_bind => //= -[? ?]; apply: nr_bind => //= ; apply: nr_bcs.
Qed.
Lemma nr_sh a : nrec (shape_of a).
Proof.
have h : nrec (do b <- shape_batch a; do ' (r, c) <- shape_matrix a; ret [:: c, r & b]).
  by apply: nr_bind => [|?]; [apply: nr_sb|apply: nr_bind => [|[? ?]]; [apply: nr_sm|]].
by case: a h.
Qed.
Lemma nr_rank a : nrec (rank_of a). Proof. by apply: nr_bind => //; apply: nr_sh. Qed.
Lemma nr_am a : nrec (assert_matrix a).
Proof. by apply: nr_bind => [|?]; [apply: nr_rank|apply: nr_require]. Qed.
Lemma nr_sb2 a b : nrec (shape_broadcast2 a b).
Proof. by apply: nr_bind => [|?]; [apply: nr_sh|apply: nr_bind => [|?]; [apply: nr_sh|apply: nr_eb]]. Qed.
Lemma nr_sbb (xs : seq mat) : nrec (shape_batch_broadcast xs).
Proof. by apply: nr_bind => [|?]; [apply: nr_mapM; apply: nr_sb|apply: nr_eb]. Qed.
Lemma nr_smb a b : nrec (shape_matrix_broadcast2 a b).
Proof.
apply: nr_bind => [|[? ?]]; first exact: nr_sm.
apply: nr_bind => [|[? ?]]; first exact: nr_sm.
by apply: nr_bind => [|?] //; apply: nr_eb.
Qed.
Lemma nr_ac a b : nrec (assert_shapes_compatible a b).
Proof. by apply: nr_bind => [|?]; [apply: nr_sh|apply: nr_bind => [|?]; [apply: nr_sh|apply: nr_compat]]. Qed.

(** ** Constructors *)
Lemma th_mk_diag t : thoare (mk_diag t) (fun c => gd c /\ wt c <= 1).
Proof.
by rewrite /mk_diag /require /trank; case: ifP => // h; rewrite bind_ret; apply: th_ret; rewrite /= ns_size h.
Qed.
Lemma th_mk_lt t : thoare (mk_lt t) (fun c => gd c /\ wt c <= 1).
Proof.
by rewrite /mk_lt /require /trank; case: ifP => // h; rewrite bind_ret; apply: th_ret; rewrite /= ns_size (leq_trans _ h).
Qed.
Lemma th_mk_ut t : thoare (mk_ut t) (fun c => gd c /\ wt c <= 1).
Proof.
by rewrite /mk_ut /require /trank; case: ifP => // h; rewrite bind_ret; apply: th_ret; rewrite /= ns_size (leq_trans _ h).
Qed.
Lemma th_mk_zero d s : thoare (@mk_zero F d s) (fun c => gd c /\ wt c <= 1).
Proof. by case: s => [|? [|? ?]]. Qed.
Lemma th_mk_const t s : thoare (mk_const t s) (fun c => gd c /\ wt c <= 2).
Proof.
case: s => [|c [|r [|? ?]]] //=; apply: nr_bind => [|?]; first exact: nr_eb.
by apply: nr_bind => [|?] //; apply: th_nr (th_bto _ _).
Qed.
Lemma th_fill_diag t n : thoare (fill_diag t n) (fun c => gd c /\ wt c <= 1).
Proof. by apply: nr_bind => [|?]; [apply: th_nr (th_map2 _ _ _)|apply: th_mk_diag]. Qed.
Lemma th_mk_lowrank l (r : mat) m : thoare (mk_lowrank l (Some r) (Some m)) (fun c => c = LR l r m).
Proof.
rewrite /mk_lowrank; apply: nr_bind => [|?]; first exact: nr_am.
apply: nr_bind => [|[? ?]]; first exact: nr_sm.
apply: nr_bind => [|?].
  by apply: nr_bind => [|?]; [apply: nr_am|apply: nr_bind => [|[? ?]]; [apply: nr_sm|apply: nr_require]].
apply: nr_bind => [|?]; last by [].
apply: nr_bind => [|?]; [apply: nr_am|apply: nr_bind => [|[? ?]]; [apply: nr_sm|]].
by apply: nr_bind => [|[? ?]]; [apply: nr_sm|apply: nr_require].
Qed.
Lemma th_mk_lowrank1 l m : thoare (mk_lowrank l None (Some m)) (fun c => c = LR l l m).
Proof.
rewrite /mk_lowrank; apply: nr_bind => [|?]; first exact: nr_am.
apply: nr_bind => [|[? ?]]; first exact: nr_sm.
apply: nr_bind => [|?]; last by [].
by apply: nr_bind => [|?]; [apply: nr_am|apply: nr_bind => [|[? ?]]; [apply: nr_sm|apply: nr_require]].
Qed.
Lemma th_const_lr t r c : thoare (const_to_lowrank t r c) (fun x : mat => [/\ gd x, wt x = 2 & tag x = 7]).
Proof.
rewrite /const_to_lowrank; apply: th_bind (th_fill_diag _ _) _ => m [gm wm].
have e : wt m = 1 by apply/eqP; rewrite eqn_leq wm wt_gt0.
by case: ifP => _; [apply: th_conseq (th_mk_lowrank1 _ _) _|apply: th_conseq (th_mk_lowrank _ _ _) _] => x ->; rewrite /= gm e.
Qed.
Lemma th_mk_wb t (lr : mat) : ns t -> gd lr -> thoare (mk_woodbury (Diag t) lr) (fun c => gd c /\ wt c <= (wt lr).+1).
Proof.
case: lr => // l r m nt g; apply: nr_bind => [|_]; first exact: nr_ac.
by apply: th_ret; rewrite /= nt; split.
Qed.
Lemma gd_dense t : gd (mk_dense t) /\ wt (mk_dense t) <= 1. Proof. by rewrite /= ns_uprank. Qed.

(** ** Structural operations preserve weights *)
Lemma th_transp a : gd a -> thoare (transpose a) (fun c => [/\ gd c, wt c <= wt a & tag c = (if tag a == 5 then 6 else if tag a == 6 then 5 else tag a)]).
Proof.
elim: a => //=.
- by move=> t h; rewrite h; apply: th_bind (th_transpose _) _ => u hu; apply: th_ret; rewrite /= hu.
- by move=> t h; apply: th_bind (th_transpose _) _ => u hu; apply: th_ret; rewrite /= ns_uprank.
- move=> t r c _; case: (sh t) => [|d s] //=; apply: nr_bind => [|?]; first exact: nr_eb.
  by apply: nr_bind => [|?] //; apply: th_nr (th_bto _ _).
- move=> t h; apply: th_bind (th_transpose _) _ => u hu; rewrite /mk_ut /require; case: ifP => // _.
- move=> t h; apply: th_bind (th_transpose _) _ => u hu; rewrite /mk_lt /require; case: ifP => // _.
- move=> l _ r _ m hm /and3P[gl gr /hm {}hm]; apply: th_bind hm _ => m' [gm wm _].
  apply: th_conseq (th_mk_lowrank _ _ _) _ => c -> /=; rewrite gl gr gm; split=> //.
  by rewrite ltnS (mulnC (wt r)) leq_mul2l wm orbT.
- move=> d l _ r _ m hm /and4P[nd gl gr /hm {}hm]; apply: th_bind hm _ => m' [gm wm _].
  apply: th_bind (th_mk_lowrank _ _ _) _ => c ->; apply: nr_bind => [|_]; first exact: nr_ac.
  apply: th_ret => /=; rewrite nd gl gr gm; split=> //.
  by rewrite !ltnS (mulnC (wt r)) leq_mul2l wm orbT.
- move=> l hl r hr /andP[/hl {}hl /hr {}hr]; apply: th_bind hl _ => l' [gl wl _].
  apply: th_bind hr _ => r' [gr wr _]; apply: th_ret; rewrite /= gl gr; split=> //.
  by rewrite ltnS leq_add.
Qed.
Lemma leq_mul3 (a b c a1 b1 c1 : nat) : a <= a1 -> b <= b1 -> c <= c1 -> a * b * c <= a1 * b1 * c1.
Proof. by move=> *; rewrite !leq_mul. Qed.
Lemma th_bb a s : gd a -> thoare (broadcast_batch_to a s) (fun c => gd c /\ wt c <= wt a).
Proof.
elim: a => //=.
- by move=> t h; rewrite h; apply: th_bind (th_bbto _ _) _ => u hu; apply: th_ret; rewrite /= hu.
- by move=> t h; apply: th_bind (th_bbto _ _) _ => u hu; apply: th_ret; apply: gd_dense.
- by move=> t h; apply: nr_bind => [|u]; [apply: th_nr (th_bto _ _)|apply: th_mk_diag].
- by move=> t r c _; apply: nr_bind => [|u]; [apply: th_nr (th_bto _ _)|].
- by move=> t h; apply: nr_bind => [|u]; [apply: th_nr (th_bbto _ _)|apply: th_mk_lt].
- by move=> t h; apply: nr_bind => [|u]; [apply: th_nr (th_bbto _ _)|apply: th_mk_ut].
- move=> l hl r hr m hm /and3P[/hl {}hl /hr {}hr /hm {}hm].
  apply: th_bind hl _ => l' [gl wl]; apply: th_bind hr _ => r' [gr wr]; apply: th_bind hm _ => m' [gm wm].
  apply: th_conseq (th_mk_lowrank _ _ _) _ => c -> /=; rewrite gl gr gm; split=> //.
  by rewrite ltnS leq_mul3.
- move=> d l hl r hr m hm /and4P[nd /hl {}hl /hr {}hr /hm {}hm].
  apply: th_bind (th_bto _ _) _ => u /(_ nd) nu.
  rewrite /mk_diag /require; case: ifP => // _; rewrite bind_ret bind_ret.
  apply: th_bind hl _ => l' [gl wl]; apply: th_bind hr _ => r' [gr wr]; apply: th_bind hm _ => m' [gm wm].
  apply: th_bind (th_mk_lowrank _ _ _) _ => c ->.
  have g : gd (LR l' r' m') by rewrite /= gl gr gm.
  by apply: th_conseq (th_mk_wb nu g) _ => x [gx wx]; split=> //; apply: leq_trans wx _; rewrite /= !ltnS leq_mul3.
- move=> l hl r hr /andP[/hl {}hl /hr {}hr]; apply: th_bind hl _ => l' [gl wl].
  apply: th_bind hr _ => r' [gr wr]; apply: th_ret; rewrite /= gl gr; split=> //.
  by rewrite ltnS leq_add.
Qed.
Lemma th_align_batch l (r : mat) : gd l -> gd r -> thoare (align_batch [:: l; r]) (fun lr =>
  [/\ gd (nth l lr 0), wt (nth l lr 0) <= wt l, gd (nth r lr 1) & wt (nth r lr 1) <= wt r]).
Proof.
move=> gl gr; apply: nr_bind => [|s]; first exact: nr_sbb.
rewrite /=; apply: th_bind (th_bb s gl) _ => l' [gl' wl']; rewrite !bindA.
apply: th_bind (th_bb s gr) _ => r' [gr' wr']; rewrite !bind_ret; exact: th_ret.
Qed.
Lemma to_matrix_gd a : gdo a -> gd (to_matrix a) /\ wt (to_matrix a) <= wt a.
Proof.
case: a => [t|? ? ? ?|?|?|? ? ?|?|?|? ? ?|? ? ? ?|? ?] //; rewrite /gdo ?orbF //.
rewrite /= /convert_num /ns; case E: (sh t) => [|d s] //=; first by case: ifP.
by rewrite ns_uprank.
Qed.
End Mats.
