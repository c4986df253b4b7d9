(** * C16, C17, C37, C40: broadcasting, constructors, data types, constants *)
From mathcomp Require Import all_ssreflect all_algebra zify.
From Verif Require Import Outcome Monad Shape Tensor Mat Dispatch Ops Spec ShapeThy TensorThy MatThy OpsOk OpsMain Term Term2 Term4 Term5 Exact Calm Api Bridge Ans.
From Verif Require Import Samples PropsCore PropsShape.
Set Implicit Arguments. Unset Strict Implicit. Unset Printing Implicit Defensive.
Import GRing.Theory.
Local Open Scope ring_scope.

Section Misc.
Variable F : rcfType.
Notation tensor := (tensor F).
Notation mat := (mat F).
Variable argsort : seq F -> seq nat.
Hypothesis perm : argsort_ok argsort.
Notation answers := (answers argsort).
Notation run n := (ops_n argsort n).
Implicit Types a b c l r m : mat.

(** ** C16 *)
(** [bto s s']: shape [s] can be broadcast to [s'] (C15). *)
Theorem C16_broadcast_batch a (B : shape) : wf a -> posn B -> bto (mbatch a) B ->
  exists2 c, broadcast_batch_to a B = ret c &
  [/\ wf c, ty_of c = ty_of a & is_value (t_broadcast_to (den a) [:: mcols a, mrows a & B]) (den c)].
Proof.
move=> w p hb; have [c -> [hc _ ht]] := calm_hoare (cm_bb a B) (broadcast_batch_ok w p hb); exists c => //.
split; [by case: hc|exact: tag_ty|].
have pp : posn [:: mcols a, mrows a & B].
  by case: (den_tmat w) => _; rewrite !posn_cons => /and3P[-> -> _] _.
apply: value_tmat (cm_bto _ _) (tmat_broadcast (den_tmat w) pp _) _; first by rewrite /bto /= !eqxx !orbT.
by apply: tmat_ext (res_tmat hc) _ => be i j _ hi hj; rewrite !clid.
Qed.
Theorem C16_broadcast_to a (s : shape) : wf a -> ty_of a <> None -> posn s -> (2 <= size s)%N -> bto (mshape a) s ->
  answers (fun o => broadcast_to_step o a s) (fun c =>
    [/\ wf c, shape_of c = ret s & is_value (t_broadcast_to (den a) s) (den c)]).
Proof.
case: s => [|C [|R B]] // w nn p _ hb.
have tg : tag a != 0%N by case: (a) nn.
have h : answers (fun o => broadcast_to_step o a [:: C, R & B]) (fun c => is_res c R C B (entb a) /\ (kfree a -> kfree c)).
  apply: (@ans_core _ _ _ _ _ (fu_1 a).+1) => [n|n k|].
  - exact: broadcast_to_ok (ops_ok_n perm n) w p hb.
  - exact: ole_bto (ople_n argsort n k) _ _.
  - apply: thnrec; apply: (@th_broadcast_to _ _ _ (wt a) (tm_n argsort _) _ _ a _ (wf_gd w) (leqnn _) tg); rewrite /fu_1; lia.
apply: ans_conseq h _ => c [hc _]; split; first by case: hc.
  by case: hc => wc [e1 e2] e3 _; rewrite shape_ofE // /mshape e1 e2 e3.
exact: value_tmat (cm_bto _ _) (tmat_broadcast (den_tmat w) p hb) (res_tmat hc).
Qed.
(** A shape to which the matrix cannot be broadcast: [Zero] and [Constant] do
    not raise, they return the broadcast of both shapes instead. *)
Theorem C16_broadcast_to_refuted (d : dtype) o :
  broadcast_to_step o (Zero d [::] 3 3) [:: 1; 1]%N = ret (Zero d [::] 3 3 : mat) /\
  raises argsort (fun _ => t_broadcast_to (den (Zero d [::] 3 3 : mat)) [:: 1; 1]%N).
Proof. by split=> //; eexists; eexists; split; [exists 0%N|]. Qed.

(** ** C17 *)
Lemma eab_no s1 s2 : ~~ bcok s1 s2 -> expand_and_broadcast [:: s1; s2] = Raise RuntimeError.
Proof. by rewrite /= expand_and_broadcast2E /bcok; case: (bc _ _). Qed.
Theorem C17_lowrank l r m : wf l -> wf r -> wf m ->
  mk_lowrank l (Some r) (Some m) =
  if (mcols l == mrows m) && (mcols r == mcols m) then ret (LR l r m) else Raise AssertionError.
Proof.
move=> hl hr hm; rewrite /mk_lowrank !assert_matrixE // !shape_matrixE // !bind_ret.
by rewrite /require; case: (mcols l == mrows m) => //; case: (mcols r == mcols m).
Qed.
(** Leaving out factors. *)
Theorem C17_lowrank_defaults l : wf l -> kfree l -> exists m,
  [/\ mk_lowrank l None None = ret (LR l l m), wf (LR l l m), ty_of m = Some TDiag &
      forall be i j, (i < mcols l)%N -> (j < mcols l)%N -> ent m be i j = if i == j then 1 else 0].
Proof.
move=> hl kl; have -> : mk_lowrank l None None = do m' <- fill_diag (one_of l) (mcols l); ret (LR l l m').
  by rewrite /mk_lowrank assert_matrixE // shape_matrixE // !bind_ret.
have n0 : (0 < mcols l)%N by case: (den_tmat hl) => _; rewrite !posn_cons => /and3P[].
have ht : tsca (one_of l) [::] (fun _ => (1 : F)) by [].
have [m em [hm km tm]] := calm_hoare (cm_fill_diag _ _) (fill_diag_ok ht n0); exists m.
rewrite em !bind_ret.
case: (hm) => wm [m1 m2] mb me; split; rewrite ?bind_ret //.
- by split=> //; [rewrite kl km|rewrite m1 m2 mb !eqxx bcokss bcoks0].
- by move: tm; clear; case: m.
- by move=> be i j hi hj; apply: me => //; rewrite /okb clamp_nil.
Qed.
Theorem C17_lowrank_rank (t : tensor) (ro mo : option mat) : (trank t < 2)%N -> mk_lowrank (Nm t) ro mo = Raise AssertionError.
Proof.
move=> h; rewrite /mk_lowrank /assert_matrix /rank_of /shape_of bind_ret bind_ret.
by rewrite /require leqNgt h.
Qed.
Theorem C17_low_rank_data (t : tensor) :
  [/\ (mk_diag t = if (1 <= trank t)%N then ret (Diag t) else Raise AssertionError),
      (mk_lt t = if (2 <= trank t)%N then ret (LT t) else Raise AssertionError) &
      (mk_ut t = if (2 <= trank t)%N then ret (UT t) else Raise AssertionError)].
Proof. by split; rewrite /mk_diag /mk_lt /mk_ut /require; case: (_ <= _)%N. Qed.
(** [Constant(x, *batch, rows, cols)] broadcasts the batch of [x] and the
    requested batch, or raises. *)
Theorem C17_constant (t : tensor) (B : shape) (r c : nat) : posn (sh t) -> posn [:: c, r & B] -> (0 < size B)%N ->
  (bcok (sh t) B -> exists2 z, mk_const t [:: c, r & B] = ret z &
     [/\ wf z, ty_of z = Some TConst, mshape z = [:: c, r & bct (sh t) B] &
         forall be i j, okb (bct (sh t) B) be -> ent z be i j = sx t be]) /\
  (~~ bcok (sh t) B -> mk_const t [:: c, r & B] = Raise RuntimeError).
Proof.
case: B => // d B p1 p2 _; split=> hb.
  have ht : tsca t (sh t) (fun be => sx t be) by [].
  have := p2; rewrite !posn_cons => /and3P[c0 r0 pB].
  have pb : posn (bct (sh t) (d :: B)) by apply: posn_bct.
  have z1 := bct_ubl hb.
  have [x e hx] := calm_hoare (cm_bto t (bct (sh t) (d :: B))) (tsca_broadcast ht pb z1).
  exists (Const x r c); first by rewrite /mk_const eab_two // bind_ret e bind_ret.
  case: hx => hs hp hx; split=> //=; rewrite ?hs //; first by rewrite !posn_cons c0 r0.
    by rewrite /mshape /= hs.
  by move=> be _ _; exact: hx.
by rewrite /mk_const eab_no.
Qed.
Theorem C17_woodbury (t : tensor) l r m : wf (Diag t : mat) -> wf (LR l r m) ->
  mk_woodbury (Diag t) (LR l r m) =
  if bcok (mshape (Diag t)) (mshape (LR l r m)) then ret (Wb t l r m) else Raise AssertionError.
Proof.
move=> h1 h2; rewrite /mk_woodbury /assert_shapes_compatible !shape_ofE // !bind_ret.
by rewrite /assert_compatible /compatible expand_and_broadcast2E /bcok; case: (bc _ _).
Qed.

(** ** C37 *)
Theorem C37_cast d a : wf a -> exists2 c, cast d a = ret c &
  [/\ wf c, ty_of c = ty_of a, mdtype c = d & teq (den c) (den a)].
Proof.
move=> w; have [c -> [hc _ ht hd]] := calm_hoare (cm_cast d a) (cast_ok d w); exists c => //.
by split=> //; [case: hc|exact: tag_ty|exact: tmat_teq (res_tmat hc) (den_tmat w)].
Qed.
(** Promotion is a join: the data type of a composite matrix does not depend
    on the order or grouping of its parts. *)
(** The data type of a matrix is the least one above those of all arrays stored in it. *)
Definition dle (x y : dtype) : Prop := promote x y = y.
Fixpoint stored (d : dtype) (a : mat) : Prop :=
  match a with
  | Zero e _ _ _ => d = e
  | Nm t | Dense t | Diag t | Const t _ _ | LT t | UT t => d = dt t
  | LR l r m => stored d l \/ stored d r \/ stored d m
  | Wb t l r m => d = dt t \/ stored d l \/ stored d r \/ stored d m
  | Kron l r => stored d l \/ stored d r
  end.
Lemma dle_promote x y z : dle (promote x y) z <-> dle x z /\ dle y z.
Proof. by case: x y z => -[] []; split=> [|[]]. Qed.
Theorem C37_dtype (a : mat) e : dle (mdtype a) e <-> forall d, stored d a -> dle d e.
Proof.
elim: a => [t|d b r c|t|t|t r c|t|t|l IHl r IHr m IHm|d l IHl r IHr m IHm|l IHl r IHr];
  rewrite /=; try by (split=> [h d' ->|h] //; exact: h).
- rewrite !dle_promote IHl IHr IHm; split=> [[[h1 h2] h3] d [|[]]|h]; [exact: h1|exact: h2|exact: h3|].
  by split; [split|] => d hd; apply: h; auto.
- rewrite !dle_promote IHl IHr IHm; split=> [[h0 [[h1 h2] h3]] d' [->|[|[]]]|h] //; [exact: h1|exact: h2|exact: h3|].
  by split; [exact: h (or_introl erefl)|split; [split|] => d' hd; apply: h; auto].
- rewrite dle_promote IHl IHr; split=> [[h1 h2] d []|h]; [exact: h1|exact: h2|].
  by split=> d hd; apply: h; auto.
Qed.
Theorem C37_promote_join x y z : [/\ promote x x = x, promote x y = promote y x &
  promote x (promote y z) = promote (promote x y) z].
Proof. by case: x; case: y; case: z. Qed.

(** ** C40 *)
Theorem C40_zeros a : wf a -> exists2 c, zeros_of a = ret c &
  [/\ wf c, ty_of c = Some TZero, mshape c = mshape a, mdtype c = mdtype a & forall be i j, ent c be i j = 0].
Proof.
move=> w; rewrite /zeros_of shape_ofE // bind_ret; eexists; first reflexivity.
by split=> //; case: (den_tmat w).
Qed.
Theorem C40_ones a : wf a -> exists2 c, ones_of a = ret c &
  [/\ wf c, ty_of c = Some TConst, mshape c = mshape a, mdtype c = mdtype a &
      teq (den c) (t_ones (mdtype a) (mshape a))].
Proof.
move=> w; rewrite /ones_of shape_ofE // bind_ret.
have pp : posn (mshape a) by case: (den_tmat w).
have ht : tsca (one_of a) [::] (fun _ => (1 : F)) by [].
have [c e [hc kc tc]] := calm_hoare (cm_mk_const _ _) (mk_const_ok ht pp isT); exists c; first exact: e.
case: (hc) => wc [e1 e2] e3 _; split=> //; first by move: tc; clear; case: c.
- by rewrite /mshape e1 e2 e3.
- move: e; clear; rewrite /mk_const /mshape; case: (mbatch a) => [[<-] //|d B].
  by rewrite eab_two // bind_ret /t_broadcast_to /= bind_ret => -[<-].
- exact: tmat_teq (res_tmat hc) (tmat_full _ _ pp).
Qed.
Theorem C40_eye a : wf a -> if mrows a == mcols a then exists2 c, eye_of a = ret c &
    [/\ wf c, ty_of c = Some TDiag, mshape c = [:: mrows a; mrows a], mdtype c = mdtype a &
        teq (den c) (t_eye (mdtype a) (mrows a))]
  else eye_of a = Raise AssertionError.
Proof.
move=> w; have -> : eye_of a = do _ <- require (mrows a == mcols a) AssertionError; fill_diag (one_of a) (mrows a).
  by rewrite /eye_of /assert_square assert_matrixE // shape_matrixE // !bind_ret; case: (_ == _).
case: ifP => hs; last by rewrite hs.
rewrite hs /require !bind_ret.
have n0 : (0 < mrows a)%N by case: (den_tmat w) => _; rewrite !posn_cons => /and3P[].
have ht : tsca (one_of a) [::] (fun _ => (1 : F)) by [].
have [c e [hc kc tc]] := calm_hoare (cm_fill_diag _ _) (fill_diag_ok ht n0); exists c; first exact: e.
case: (hc) => wc [e1 e2] e3 ee; split=> //; first by move: tc; clear; case: c.
- by rewrite /mshape e1 e2 e3.
- by move: e; clear; rewrite /fill_diag /t_mul /t_map2 /= /mk_diag /= => -[<-] /=; case: (mdtype a).
apply: tmat_teq (res_tmat hc) _; by split=> //=; rewrite !posn_cons n0.
Qed.
(** [fill_diag(x, n)] for a batch of scalars [x]. *)
Theorem C40_fill_diag (t : tensor) n : posn (sh t) -> (0 < n)%N -> exists2 c, fill_diag t n = ret c &
  [/\ wf c, ty_of c = Some TDiag, mshape c = [:: n, n & sh t], mdtype c = dt t &
      forall be i j, okb (sh t) be -> (i < n)%N -> (j < n)%N -> ent c be i j = if i == j then sx t be else 0].
Proof.
move=> p n0; have ht : tsca t (sh t) (fun be => sx t be) by [].
have [c e [hc kc tc]] := calm_hoare (cm_fill_diag _ _) (fill_diag_ok ht n0); exists c; first exact: e.
case: (hc) => wc [e1 e2] e3 ee; split=> //; first by move: tc; clear; case: c.
- by rewrite /mshape e1 e2 e3.
- move: e; clear; rewrite /fill_diag /t_mul /t_map2.
  case: (bc _ _) => // s; rewrite bind_ret /mk_diag /require; case: ifP => // _ [<-] /=.
  by case: (dt t).
Qed.
Theorem C40_uprank a (k : nat) : uprank_of a k = if k == 2%N then ret a else Raise ValueError.
Proof. by rewrite /uprank_of /require; case: eqP. Qed.
End Misc.

Print Assumptions C16_broadcast_batch. Print Assumptions C16_broadcast_to. Print Assumptions C16_broadcast_to_refuted.
Print Assumptions C17_lowrank. Print Assumptions C17_lowrank_defaults. Print Assumptions C17_lowrank_rank.
Print Assumptions C17_low_rank_data. Print Assumptions C17_constant. Print Assumptions C17_woodbury.
Print Assumptions C37_cast. Print Assumptions C37_dtype. Print Assumptions C37_promote_join.
Print Assumptions C40_zeros. Print Assumptions C40_ones. Print Assumptions C40_eye. Print Assumptions C40_fill_diag. Print Assumptions C40_uprank.

Example C16_ex (F : rcfType) : wf (s_kron F) /\ bto (mbatch (s_kron F)) [:: 3; 5]%N /\
  bto (mshape (s_dense23 F)) (mshape (s_dense23 F) ++ [:: 7]%N).
Proof. by split; [exact: s_kron_wf|]. Qed.
Example C17_ex (F : rcfType) : wf (s_lr F) /\ kfree (s_dense4 F) /\ wf (s_dense4 F). Proof. by []. Qed.
