(** * Data types of results

    Proofs for [PropsDtype.v]: a set of data types which is closed under promotion and contains the data types of
    all arrays stored in the arguments also contains those of all arrays stored in the result.  Nothing is
    assumed about shapes. *)
From mathcomp Require Import all_ssreflect all_algebra.
From Verif Require Import Outcome Shape Tensor Mat Dispatch Ops Ops2 Block.
Set Implicit Arguments. Unset Strict Implicit. Unset Printing Implicit Defensive.
Import GRing.Theory.
Local Open Scope ring_scope.

(** Whatever is returned satisfies [P]. *)
Definition dq A (P : A -> Prop) (m : outcome A) : Prop := if m is Ret _ x then P x else True.
Lemma dq_bind A B (P : A -> Prop) (Q : B -> Prop) m k : dq P m -> (forall x, P x -> dq Q (k x)) -> dq Q (bind m k).
Proof. by case: m => //= l x h /(_ x h); case: (k x). Qed.
Lemma dqT A (m : outcome A) : dq (fun _ => True) m. Proof. by case: m. Qed.
Lemma dq_ret A (P : A -> Prop) x : P x -> dq P (ret x). Proof. by []. Qed.
Lemma dq_imp A (P Q : A -> Prop) m : dq P m -> (forall x, P x -> Q x) -> dq Q m.
Proof. by case: m => //= l x h; exact. Qed.
Lemma dq_inv A (P : A -> Prop) m l x : dq P m -> m = Ret l x -> P x. Proof. by move=> h e; rewrite e in h. Qed.
Fixpoint All A (P : A -> Prop) (s : seq A) : Prop := if s is x :: s' then P x /\ All P s' else True.
Lemma dq_mapM A B (P : A -> Prop) (Q : B -> Prop) f s : All P s -> (forall x, P x -> dq Q (f x)) -> dq (All Q) (mapM f s).
Proof.
move=> hs hf; elim: s hs => [//|x s IH] /= [hx hs].
by apply: dq_bind (hf _ hx) _ => y hy; apply: dq_bind (IH hs) _ => ys hys; apply: dq_ret.
Qed.
Lemma All_map A B (P : A -> Prop) (Q : B -> Prop) (f : A -> B) s : All P s -> (forall x, P x -> Q (f x)) -> All Q (map f s).
Proof. by move=> hs hf; elim: s hs => //= x s IH [hx hs]; split; [exact: hf|exact: IH]. Qed.
Lemma All_cat A (P : A -> Prop) s t : All P s -> All P t -> All P (s ++ t).
Proof. by elim: s => //= x s IH [hx hs] ht; split=> //; exact: IH. Qed.
Lemma All_nth A (P : A -> Prop) x0 s i : P x0 -> All P s -> P (nth x0 s i).
Proof. by move=> h0; elim: s i => [|x s IH] [|i] //= [hx hs] //; exact: IH. Qed.
Lemma All_pairs A B (P : A -> Prop) (Q : B -> Prop) (s : seq A) (t : seq B) : All P s -> All Q t ->
  All (fun p => P p.1 /\ Q p.2) [seq (x, y) | x <- s, y <- t].
Proof.
move=> hs ht; elim: s hs => //= x s IH [hx hs]; apply: All_cat; last exact: IH.
by apply: All_map ht _.
Qed.
Lemma All_true A (s : seq A) : All (fun _ => True) s. Proof. by elim: s. Qed.

Section Dtypes.
Variable F : rcfType.
Notation tensor := (tensor F).
Notation mat := (mat F).
Variable argsort : seq F -> seq nat.
Variable S : dtype -> Prop.
Hypothesis closed : forall x y, S x -> S y -> S (promote x y).

Definition dT (t : tensor) : Prop := S (dt t).
Fixpoint dM (a : mat) : Prop :=
  match a with
  | Zero e _ _ _ => S e
  | Nm t | Dense t | Diag t | Const t _ _ | LT t | UT t => dT t
  | LR l r m => [/\ dM l, dM r & dM m]
  | Wb t l r m => [/\ dT t, dM l, dM r & dM m]
  | Kron l r => dM l /\ dM r
  end.
Lemma dM_dtype a : dM a -> S (mdtype a).
Proof.
elim: a => //= [l IHl r IHr m IHm [hl hr hm]|d l IHl r IHr m IHm [hd hl hr hm]|l IHl r IHr [hl hr]];
  do ?apply: closed => //; auto.
Qed.

(** ** Arrays *)
Lemma d_map2 f a b : dT a -> dT b -> dq dT (t_map2 f a b).
Proof. by move=> ha hb; rewrite /t_map2; case: (bc _ _) => // s; apply: closed. Qed.
Lemma d_add a b : dT a -> dT b -> dq dT (t_add a b). Proof. exact: d_map2. Qed.
Lemma d_mul a b : dT a -> dT b -> dq dT (t_mul a b). Proof. exact: d_map2. Qed.
Lemma d_sub a b : dT a -> dT b -> dq dT (t_sub a b). Proof. exact: d_map2. Qed.
Lemma d_div a b : dT a -> dT b -> dq dT (t_div a b). Proof. exact: d_map2. Qed.
Lemma d_transpose t : dT t -> dq dT (t_transpose t).
Proof. by rewrite /t_transpose; case: (sh t) => [|c [|r b]]. Qed.
Lemma d_tr t x : dT t -> dq dT (t_tr t x). Proof. by case: x => // h; exact: d_transpose. Qed.
Lemma d_matmul a b ta tb : dT a -> dT b -> dq dT (t_matmul a b ta tb).
Proof.
move=> ha hb; apply: dq_bind (d_tr ta ha) _ => x hx; apply: dq_bind (d_tr tb hb) _ => y hy.
rewrite /t_matmul_nn; case: (sh x) => [|? [|? ?]] //; case: (sh y) => [|? [|? ?]] //; case: eqP => // _.
by case: (bc _ _) => // s; apply: closed.
Qed.
Lemma d_sum_pos t p : dT t -> dq dT (t_sum_pos t p). Proof. by rewrite /t_sum_pos; case: ifP. Qed.
Lemma d_take_pos t x p : dT t -> dq dT (t_take_pos t x p).
Proof. by rewrite /t_take_pos; case: ifP => // _ h; apply: dq_bind (dqT _) _ => l _. Qed.
Lemma d_take t x ax : dT t -> dq dT (t_take t x ax).
Proof. by move=> h; apply: dq_bind (dqT _) _ => p _; exact: d_take_pos. Qed.
Lemma d_broadcast_to t s : dT t -> dq dT (t_broadcast_to t s). Proof. by rewrite /t_broadcast_to; case: ifP. Qed.
Lemma d_reshape t ds : dT t -> dq dT (t_reshape t ds).
Proof. by move=> h; apply: dq_bind (dqT _) _ => s _. Qed.
Lemma d_diag_construct t : dT t -> dq dT (t_diag_construct t). Proof. by rewrite /t_diag_construct; case: (sh t). Qed.
Lemma d_diag_extract t : dT t -> dq dT (t_diag_extract t).
Proof. by rewrite /t_diag_extract; case: (sh t) => [|c [|r b]]. Qed.
Lemma d_squeeze1 t : dT t -> dq dT (t_squeeze1 t). Proof. by rewrite /t_squeeze1; case: (sh t) => [|[|[|?]] ?]. Qed.
Lemma d_squeeze2 t : dT t -> dq dT (t_squeeze2 t). Proof. by rewrite /t_squeeze2; case: (sh t) => [|? [|[|[|?]] ?]]. Qed.
Lemma d_kron2 a b : dT a -> dT b -> dq dT (t_kron2 a b).
Proof.
rewrite /t_kron2; case: (sh a) => [|? [|? ?]] //; case: (sh b) => [|? [|? ?]] // ha hb; case: eqP => // _.
exact: closed.
Qed.
Lemma d_kron1 a b : dT a -> dT b -> dq dT (t_kron1 a b).
Proof. by rewrite /t_kron1; case: (sh a) => [|? ?] //; case: (sh b) => [|? ?] // ha hb; case: eqP => // _; exact: closed. Qed.
Lemma d_first t : dT t -> dq dT (t_first t).
Proof. by rewrite /t_first; case: (sh t) => [|? [|? ?]] // h; case: ifP. Qed.
Lemma d_get00 t : dT t -> dq dT (t_get00 t).
Proof. by rewrite /t_get00; case: (sh t) => [|? [|? ?]] // h; case: ifP. Qed.
Lemma d_tile t r : dT t -> dq dT (t_tile t r). Proof. by rewrite /t_tile; case: ifP. Qed.
Lemma d_uprank t : dT t -> dT (t_uprank t). Proof. by rewrite /t_uprank /dT; case: (sh t) => [|? [|? ?]]. Qed.
Lemma d_e1 t : dT t -> dT (t_expand1_is t). Proof. by rewrite /t_expand1_is; case: (sh t). Qed.
Lemma d_e11 t : dT t -> dT (t_expand11_is t). Proof. by rewrite /t_expand11_is; case: (sh t). Qed.
Lemma d_fold t ts : dT t -> All dT ts -> S (foldr (fun u d => promote (dt u) d) (dt t) ts).
Proof. by move=> h0; elim: ts => //= u ts IH [hu hs]; apply: closed => //; exact: IH. Qed.
Lemma d_concat_pos ts p : All dT ts -> dq dT (t_concat_pos ts p).
Proof. by case: ts => [//|t ts] /= [h hs]; case: ifP => // _; apply: (closed h); exact: d_fold. Qed.
Lemma d_concat ts ax : All dT ts -> dq dT (t_concat ts ax).
Proof. by move=> h; apply: dq_bind (dqT _) _ => p _; exact: d_concat_pos. Qed.
Lemma d_stack ts p : All dT ts -> dq dT (t_stack ts p).
Proof. by case: ts => [//|t ts] /= [h hs]; case: ifP => // _; apply: (closed h); exact: d_fold. Qed.
Lemma d_unstack t p : dT t -> dq (All dT) (t_unstack t p).
Proof. by rewrite /t_unstack; case: ifP => // _ h; apply: dq_ret; apply: All_map (All_true _) _. Qed.
Lemma d_bbt t b : dT t -> dq dT (t_broadcast_batch_to t b).
Proof. by rewrite /t_broadcast_batch_to; case: (sh t) => [|? [|? ?]] // h; exact: d_broadcast_to. Qed.

(** ** Matrices *)
Lemma d_convert t : dT t -> dM (convert_num t).
Proof. by rewrite /convert_num => h; case: (sh t) => [|? ?]; [case: ifP|exact: d_uprank]. Qed.
Lemma d_to_matrix a : dM a -> dM (to_matrix a). Proof. by case: a => //= t; exact: d_convert. Qed.
Lemma d_mk_dense t : dT t -> dM (mk_dense t). Proof. exact: d_uprank. Qed.
Lemma d_mk_diag t : dT t -> dq dM (mk_diag t). Proof. by move=> h; apply: dq_bind (dqT _) _. Qed.
Lemma d_mk_lt t : dT t -> dq dM (mk_lt t). Proof. by move=> h; apply: dq_bind (dqT _) _. Qed.
Lemma d_mk_ut t : dT t -> dq dM (mk_ut t). Proof. by move=> h; apply: dq_bind (dqT _) _. Qed.
Lemma d_mk_zero d s : S d -> dq dM (mk_zero d s). Proof. by case: s => [|? [|? ?]]. Qed.
Lemma d_mk_const t s : dT t -> dq dM (mk_const t s).
Proof.
move=> h; case: s => [|? [|? [|? ?]]] //; apply: dq_bind (dqT _) _ => b _.
by apply: dq_bind (d_broadcast_to _ h) _ => u hu; apply: dq_ret.
Qed.
Lemma d_fill_diag t n : dT t -> dq dM (fill_diag t n).
Proof. by move=> h; apply: dq_bind (d_mul (a := t_expand1 t) _ _) _ => // u hu; exact: d_mk_diag. Qed.
Definition oM (a : option mat) : Prop := if a is Some x then dM x else True.
Lemma d_mk_lowrank l r m : dM l -> oM r -> oM m -> dq dM (mk_lowrank l r m).
Proof.
move=> hl hr hm; apply: dq_bind (dqT _) _ => _ _; apply: dq_bind (dqT _) _ => -[_ lc] _.
do 2![apply: dq_bind (dqT _) _ => _ _].
have h : dq dM (match m with Some m => ret m | None => fill_diag (one_of l) lc end).
  by case: m hm => // _; apply: d_fill_diag; exact: dM_dtype.
by apply: dq_bind h _ => m' hm'; apply: dq_ret; split=> //; case: r hr.
Qed.
Lemma d_mk_woodbury d lr : dM d -> dM lr -> dq dM (mk_woodbury d lr).
Proof. by case: d => //= t ht; case: lr => //= l r m [hl hr hm]; apply: dq_bind (dqT _) _. Qed.
Lemma d_c2lr t r c : dT t -> dq dM (const_to_lowrank t r c).
Proof.
move=> h; apply: dq_bind (d_fill_diag 1 h) _ => m hm.
by case: ifP => _; apply: d_mk_lowrank.
Qed.
Lemma d_transposeM a : dM a -> dq dM (transpose a).
Proof.
elim: a => [t h|d b r c h|t h|t h|t r c h|t h|t h|l IHl r IHr m IHm [hl hr hm]|d l IHl r IHr m IHm [hd hl hr hm]|l IHl r IHr [hl hr]];
  rewrite [transpose _]/=.
- by apply: dq_bind (d_transpose h) _.
- by [].
- by apply: dq_bind (d_transpose h) _ => u hu; exact: d_uprank.
- by [].
- exact: (d_mk_const [:: r, c & sh t]).
- by apply: dq_bind (d_transpose h) _ => u hu; exact: d_mk_ut.
- by apply: dq_bind (d_transpose h) _ => u hu; exact: d_mk_lt.
- by apply: dq_bind (IHm hm) _ => u hu; exact: d_mk_lowrank.
- by apply: dq_bind (IHm hm) _ => u hu; apply: dq_bind (d_mk_lowrank _ _ _) _ => // x hx; exact: (@d_mk_woodbury (Diag d)).
- by apply: dq_bind (IHl hl) _ => u hu; apply: dq_bind (IHr hr) _.
Qed.
Lemma d_negative a : dM a -> dq dM (negative a).
Proof.
elim: a => [t h|d b r c h|t h|t h|t r c h|t h|t h|l IHl r IHr m IHm [hl hr hm]|d l IHl r IHr m IHm [hd hl hr hm]|l IHl r IHr [hl hr]];
  rewrite [negative _]/=.
- by [].
- by [].
- exact: d_uprank.
- exact: d_mk_diag.
- exact: (@d_mk_const _ [:: c; r]).
- exact: d_mk_lt.
- exact: d_mk_ut.
- by apply: dq_bind (IHm hm) _ => u hu; exact: d_mk_lowrank.
- apply: (dq_bind (P := dM)) => [|x hx]; first exact: d_mk_diag.
  by apply: dq_bind (IHm hm) _ => u hu; apply: dq_bind (d_mk_lowrank _ _ _) _ => // y hy; exact: d_mk_woodbury.
- by apply: dq_bind (IHl hl) _ => u hu.
Qed.
Lemma d_bbtM a b : dM a -> dq dM (broadcast_batch_to a b).
Proof.
elim: a => [t h|d b' r c h|t h|t h|t r c h|t h|t h|l IHl r IHr m IHm [hl hr hm]|d l IHl r IHr m IHm [hd hl hr hm]|l IHl r IHr [hl hr]];
  rewrite [broadcast_batch_to _ _]/=.
- by apply: dq_bind (d_bbt _ h) _.
- by [].
- by apply: dq_bind (d_bbt _ h) _ => u hu; exact: d_uprank.
- by apply: dq_bind (d_broadcast_to _ h) _ => u hu; exact: d_mk_diag.
- by apply: dq_bind (d_broadcast_to _ h) _ => u hu; exact: (@d_mk_const _ [:: c; r]).
- by apply: dq_bind (d_bbt _ h) _ => u hu; exact: d_mk_lt.
- by apply: dq_bind (d_bbt _ h) _ => u hu; exact: d_mk_ut.
- apply: dq_bind (IHl hl) _ => u hu; apply: dq_bind (IHr hr) _ => v hv; apply: dq_bind (IHm hm) _ => w hw.
  exact: d_mk_lowrank.
- apply: dq_bind (d_broadcast_to _ hd) _ => e he; apply: dq_bind (d_mk_diag he) _ => y hy.
  apply: dq_bind (IHl hl) _ => u hu; apply: dq_bind (IHr hr) _ => v hv; apply: dq_bind (IHm hm) _ => w hw.
  by apply: dq_bind (d_mk_lowrank _ _ _) _ => // z hz; exact: d_mk_woodbury.
- by apply: dq_bind (IHl hl) _ => u hu; apply: dq_bind (IHr hr) _.
Qed.
Lemma d_align_batch xs : All dM xs -> dq (All dM) (align_batch xs).
Proof. by move=> h; apply: dq_bind (dqT _) _ => b _; apply: dq_mapM h _ => x hx; exact: d_bbtM. Qed.
Lemma d_zeros a : dM a -> dq dM (zeros_of a).
Proof. by move=> h; apply: dq_bind (dqT _) _ => s _; apply: d_mk_zero; exact: dM_dtype. Qed.
Lemma d_tr_mat a x : dM a -> dq dM (tr a x). Proof. by case: x => // h; exact: d_transposeM. Qed.

(** ** The operations *)
Record dops (o : ops F) : Prop := DOps {
  dp_dense : forall a, dM a -> dq dT (o_dense o a);
  dp_matmul : forall a b ta tb, dM a -> dM b -> dq dM (o_matmul o a b ta tb);
  dp_add : forall a b, dM a -> dM b -> dq dM (o_add o a b);
  dp_mul : forall a b, dM a -> dM b -> dq dM (o_mul o a b);
  dp_sumax : forall a x, dM a -> dq dT (o_sumax o a x);
  dp_sumall : forall a, dM a -> dq dT (o_sumall o a);
  dp_diag : forall a, dM a -> dq dT (o_diag o a) }.
Section Step.
Variable self : ops F.
Hypothesis hs : dops self.
Ltac dfact :=
  lazymatch goal with
  | |- True => exact I
  | |- S _ => first [assumption | apply: dM_dtype; dfact]
  | |- oM (Some ?x) => change (dM x); dfact
  | |- oM None => exact I
  | |- dT (t_expand11_is _) => apply: d_e11; dfact
  | |- dT (t_expand1_is _) => apply: d_e1; dfact
  | |- dT (t_uprank _) => apply: d_uprank; dfact
  | |- dT _ => first [assumption | match goal with h : dT ?t |- _ => exact h end | rewrite /dT /=; dfact]
  | |- dM (to_matrix _) => apply: d_to_matrix; dfact
  | |- dM (convert_num _) => apply: d_convert; dfact
  | |- dM (mk_dense _) => apply: d_mk_dense; dfact
  | |- dM (Nm ?t) => change (dT t); dfact
  | |- dM (Dense ?t) => change (dT t); dfact
  | |- dM (wb_diag ?t) => change (dT t); dfact
  | |- dM (Diag ?t) => change (dT t); dfact
  | |- dM (wb_lr _ _ _) => first [assumption | split; dfact]
  | |- dM (LR _ _ _) => first [assumption | split; dfact]
  | |- dM (Kron _ _) => first [assumption | split; dfact]
  | |- dM (Const ?t _ _) => first [assumption | change (dT t); dfact]
  | |- dM (LT ?t) => first [assumption | change (dT t); dfact]
  | |- dM (UT ?t) => first [assumption | change (dT t); dfact]
  | |- dM (Zero _ _ _ _) => rewrite /=; dfact
  | |- dM (nth _ _ _) => apply: All_nth; dfact
  | |- dM _ => assumption
  | |- All _ (_ :: _) => split; dfact
  | |- All _ [::] => exact I
  | |- All _ [seq (_, _) | _ <- _, _ <- _] => apply: All_pairs; dfact
  | |- All _ _ => assumption
  | |- _ /\ _ => split; dfact
  end.
Ltac hd t := lazymatch t with ?f _ => hd f | _ => t end.
Ltac dprim :=
  lazymatch goal with |- dq _ ?m =>
  let f := hd m in
  lazymatch f with
  | @t_add => apply: d_add; dfact
  | @t_mul => apply: d_mul; dfact
  | @t_sub => apply: d_sub; dfact
  | @t_div => apply: d_div; dfact
  | @t_transpose => apply: d_transpose; dfact
  | @t_matmul => apply: d_matmul; dfact
  | @t_sum_pos => apply: d_sum_pos; dfact
  | @t_take_pos => apply: d_take_pos; dfact
  | @t_take => apply: d_take; dfact
  | @t_broadcast_to => apply: d_broadcast_to; dfact
  | @t_reshape => apply: d_reshape; dfact
  | @t_diag_construct => apply: d_diag_construct; dfact
  | @t_diag_extract => apply: d_diag_extract; dfact
  | @t_squeeze1 => apply: d_squeeze1; dfact
  | @t_squeeze2 => apply: d_squeeze2; dfact
  | @t_kron2 => apply: d_kron2; dfact
  | @t_kron1 => apply: d_kron1; dfact
  | @t_first => apply: d_first; dfact
  | @t_get00 => apply: d_get00; dfact
  | @t_tile => apply: d_tile; dfact
  | @t_concat_pos => apply: d_concat_pos; dfact
  | @t_concat => apply: d_concat; dfact
  | @t_stack => apply: d_stack; dfact
  | @t_unstack => apply: d_unstack; dfact
  | @t_broadcast_batch_to => apply: d_bbt; dfact
  | @mk_diag => apply: d_mk_diag; dfact
  | @mk_lt => apply: d_mk_lt; dfact
  | @mk_ut => apply: d_mk_ut; dfact
  | @mk_zero => apply: d_mk_zero; dfact
  | @mk_const => apply: d_mk_const; dfact
  | @fill_diag => apply: d_fill_diag; dfact
  | @mk_lowrank => apply: d_mk_lowrank; dfact
  | @mk_woodbury => apply: d_mk_woodbury; dfact
  | @const_to_lowrank => apply: d_c2lr; dfact
  | @transpose => apply: d_transposeM; dfact
  | @negative => apply: d_negative; dfact
  | @broadcast_batch_to => apply: d_bbtM; dfact
  | @align_batch => apply: d_align_batch; dfact
  | @zeros_of => apply: d_zeros; dfact
  | @tr => apply: d_tr_mat; dfact
  | @o_dense => apply: (dp_dense hs); dfact
  | @o_matmul => apply: (dp_matmul hs); dfact
  | @o_add => apply: (dp_add hs); dfact
  | @o_mul => apply: (dp_mul hs); dfact
  | @o_sumax => apply: (dp_sumax hs); dfact
  | @o_sumall => apply: (dp_sumall hs); dfact
  | @o_diag => apply: (dp_diag hs); dfact
  end end.
Ltac dgo :=
  lazymatch goal with
  | |- dq _ (ret _) => apply: dq_ret; dfact
  | |- dq _ (RaiseL _ _) => exact I
  | |- dq _ (bind ?m _) =>
     lazymatch type of m with
     | outcome (Tensor.tensor _) => apply: (dq_bind (P := dT)); [dgo | let x := fresh "x" in let h := fresh "h" in move=> x h; dgo]
     | outcome (Mat.mat _) => apply: (dq_bind (P := dM)); [dgo | let x := fresh "x" in let h := fresh "h" in move=> x h; dgo]
     | outcome (seq (Tensor.tensor _)) => apply: (dq_bind (P := All dT)); [dgo | let x := fresh "x" in let h := fresh "h" in move=> x h; dgo]
     | outcome (seq (Mat.mat _)) => apply: (dq_bind (P := All dM)); [dgo | let x := fresh "x" in let h := fresh "h" in move=> x h; dgo]
     | outcome (seq (seq (Tensor.tensor _))) => apply: (dq_bind (P := All (All dT))); [dgo | let x := fresh "x" in let h := fresh "h" in move=> x h; dgo]
     | outcome (prod _ _) => apply: dq_bind (dqT _) _; case=> ? ? _; dgo
     | _ => apply: dq_bind (dqT _) _ => ? _; dgo
     end
  | |- dq _ (if ?b then _ else _) => case: b; dgo
  | |- dq _ (mapM _ _) => idtac
  | |- dq _ _ => first [dprim | idtac]
  end.
Lemma d_mm3 a b c ta tb tc : dM a -> dM b -> dM c -> dq dM (mm3 self a b c ta tb tc).
Proof.
move=> ha hb hc; rewrite /mm3; do 3![apply: dq_bind (dqT _) _ => ? _].
by do 3![case: (if _ then _ else _) => ? ?]; dgo.
Qed.
Lemma d_dense_step a : dM a -> dq dT (dense_step self a).
Proof.
case: a => [t h|d b r c h|t h|t h|t r c h|t h|t h|l r m [hl hr hm]|d l r m [hd hl hr hm]|l r [hl hr]];
  rewrite /dense_step /t_const_dense; try dgo.
exact: d_mm3.
Qed.
Lemma d_broadcast_to_step a s : dM a -> dq dM (broadcast_to_step self a s).
Proof.
move=> h; rewrite /broadcast_to_step; apply: dq_bind (dqT _) _ => sa _; case: ifP => // _.
by case: a h => [t h|d b r c h|t h|t h|t r c h|t h|t h|l r m h|d l r m h|l r h]; dgo.
Qed.
Lemma d_concat_num a z p : dM a -> dT z -> dq dM (concat_num self a z p).
Proof. by move=> h hz; case: a h => [t h|d b r c h|t h|t h|t r c h|t h|t h|l r m h|d l r m h|l r h]; rewrite /concat_num; dgo. Qed.
Lemma d_pzc a : dM a -> dq dM (pad_zero_col self a).
Proof. by move=> h; rewrite /pad_zero_col; dgo; apply: d_concat_num => //; exact: dM_dtype. Qed.
Lemma d_pzr a : dM a -> dq dM (pad_zero_row self a).
Proof. by move=> h; rewrite /pad_zero_row; dgo; apply: d_concat_num => //; exact: dM_dtype. Qed.
Lemma d_pzb a : dM a -> dq dM (pad_zero_both self a).
Proof. by move=> h; apply: dq_bind (d_pzr h) _ => x hx; exact: d_pzc. Qed.
Lemma d_take_num a l p : dM a -> dq dM (take_num self a l p).
Proof. by move=> h; case: a h => [t h|d b r c h|t h|t h|t r c h|t h|t h|x r m h|d x r m h|x r h]; rewrite /take_num; dgo. Qed.
Lemma d_add_lr la ra ma lb rb mb : dM la -> dM ra -> dM ma -> dM lb -> dM rb -> dM mb ->
  dq dM (add_lr_lr argsort self la ra ma lb rb mb).
Proof.
move=> h1 h2 h3 h4 h5 h6; rewrite /add_lr_lr; do 3![apply: dq_bind (dqT _) _ => ? _].
have K a l : dM a -> dq dM (do x <- pad_zero_col self a; take_num self x l 0).
  by move=> h; apply: dq_bind (d_pzc h) _ => x hx; exact: d_take_num.
have L a l l' : dM a -> dq dM (do x <- pad_zero_both self a; do y <- take_num self x l 1; take_num self y l' 0).
  by move=> h; apply: dq_bind (d_pzb h) _ => x hx; apply: dq_bind (d_take_num _ _ hx) _ => y hy; exact: d_take_num.
do 2![apply: dq_bind (K _ _ _) _ => // ? ?; apply: dq_bind (K _ _ _) _ => // ? ?; apply: dq_bind (dp_add hs _ _) _ => // ? ?].
apply: dq_bind (L _ _ _ _) _ => // ? ?; apply: dq_bind (L _ _ _ _) _ => // ? ?; apply: dq_bind (dp_add hs _ _) _ => // ? ?.
by dgo.
Qed.
Lemma d_add_body i a b : dM a -> dM b -> dq dM (add_body argsort self i a b).
Proof.
case: i => ha hb; rewrite /add_body.
1,2: by do 2![apply: dq_bind (dqT _) _ => ? _]; apply: d_broadcast_to_step.
1: by dgo.
6: by dgo.
all: case: a ha => [t ha|d ba r c ha|t ha|t ha|t r c ha|t ha|t ha|l r m ha|d l r m ha|l r ha]; try exact I.
all: try (by case: ha => ? ? ? ?; dgo).
all: case: b hb => [t' hb|d' bb r' c' hb|t' hb|t' hb|t' r' c' hb|t' hb|t' hb|l' r' m' hb|d' l' r' m' hb|l' r' hb]; try exact I.
all: try (by dgo).
- by case: ha hb => ? ? ? []; exact: d_add_lr.
- by case: ha hb => ? ? ? ? [? ? ? ?]; dgo.
- by case: ha => ? ? ? ?; dgo.
Qed.
Lemma d_add_step a b : dM a -> dM b -> dq dM (add_step argsort self a b).
Proof.
move=> ha hb; rewrite /add_step.
have K : dq dM (do i <- lookup add_table (ty_of_matrix (to_matrix a)) (ty_of_matrix (to_matrix b));
                add_body argsort self i (to_matrix a) (to_matrix b)).
  by apply: dq_bind (dqT _) _ => i _; apply: d_add_body; exact: d_to_matrix.
case: a ha K => [t ha|d ba r c ha|t ha|t ha|t r c ha|t ha|t ha|l r m ha|d l r m ha|l r ha] K.
2-10: exact K.
case: b hb K => [t' hb|d' bb r' c' hb|t' hb|t' hb|t' r' c' hb|t' hb|t' hb|l' r' m' hb|d' l' r' m' hb|l' r' hb] K.
2-10: exact K.
by dgo.
Qed.
Lemma d_mul_lr la ra ma lb rb mb : dM la -> dM ra -> dM ma -> dM lb -> dM rb -> dM mb ->
  dq dM (mul_lr_lr self la ra ma lb rb mb).
Proof.
move=> h1 h2 h3 h4 h5 h6; rewrite /mul_lr_lr.
have U t : dT t -> dq (All (All dT)) (do rows <- t_unstack t 1; mapM (fun x => t_unstack x 0) rows).
  by move=> h; apply: dq_bind (d_unstack 1 h) _ => rows hr; apply: dq_mapM hr _ => x hx; exact: d_unstack.
have P (s t : seq tensor) p : All dT s -> All dT t ->
    dq dT (do xs <- mapM (fun p => t_mul p.1 p.2) [seq (x, y) | x <- s, y <- t]; t_stack xs p).
  move=> hx hy; apply: (dq_bind (P := All dT)) => [|xs hxs]; last exact: d_stack.
  by apply: dq_mapM (All_pairs hx hy) _ => -[x y] [? ?]; exact: d_mul.
do 2![apply: dq_bind (dqT _) _ => ? _].
do 6![apply: dq_bind (dp_dense hs _) _ => // ? ?]; apply: dq_bind (dqT _) _ => ? _.
do 6![apply: dq_bind (d_bbt _ _) _; [by []|move=> ? ?]].
do 4![apply: dq_bind (d_unstack _ _) _; [by []|move=> ? ?]].
do 2![apply: dq_bind (U _ _) _; [by []|move=> ? ?]].
do 2![apply: dq_bind (P _ _ _ _ _) _; [by []|by []|move=> ? ?]].
apply: (dq_bind (P := dT)) => [|? ?]; last by apply: d_mk_lowrank.
apply: (dq_bind (P := All dT)) => [|? ?]; last exact: d_stack.
by apply: (dq_mapM (P := fun p => All dT p.1 /\ All dT p.2)) => [|[x y] [? ?]]; [exact: All_pairs|exact: P].
Qed.
Lemma d_mul_body i a b : dM a -> dM b -> dq dM (mul_body self i a b).
Proof.
case: i => ha hb; rewrite /mul_body.
1,2: by do 2![apply: dq_bind (dqT _) _ => ? _]; apply: d_broadcast_to_step.
1: by dgo.
4: by dgo.
all: case: a ha => [t ha|d ba r c ha|t ha|t ha|t r c ha|t ha|t ha|l r m ha|d l r m ha|l r ha]; try exact I.
all: try (by dgo).
all: try (by case: ha => ? ? ? ?; dgo).
all: case: b hb => [t' hb|d' bb r' c' hb|t' hb|t' hb|t' r' c' hb|t' hb|t' hb|l' r' m' hb|d' l' r' m' hb|l' r' hb]; try exact I.
all: try (by dgo).
- by case: ha hb => ? ? ? []; exact: d_mul_lr.
- by case: hb => ? ? ?; dgo.
- by case: ha hb => ? ? [? ?]; dgo.
- by case: hb => ? ?; dgo.
Qed.
Lemma d_mul_step a b : dM a -> dM b -> dq dM (mul_step self a b).
Proof.
move=> ha hb; rewrite /mul_step.
have K : dq dM (do i <- lookup mul_table (ty_of_matrix (to_matrix a)) (ty_of_matrix (to_matrix b));
                mul_body self i (to_matrix a) (to_matrix b)).
  by apply: dq_bind (dqT _) _ => i _; apply: d_mul_body; exact: d_to_matrix.
case: a ha K => [t ha|d ba r c ha|t ha|t ha|t r c ha|t ha|t ha|l r m ha|d l r m ha|l r ha] K.
2-10: exact K.
case: b hb K => [t' hb|d' bb r' c' hb|t' hb|t' hb|t' r' c' hb|t' hb|t' hb|l' r' m' hb|d' l' r' m' hb|l' r' hb] K.
2-10: exact K.
by dgo.
Qed.
Lemma d_reshape_mat a ds : dM a -> dq dT (reshape_mat self a ds). Proof. by move=> h; rewrite /reshape_mat; dgo. Qed.
Lemma d_reshape_cols a i j : dM a -> dq dT (reshape_cols self a i j).
Proof.
move=> h; rewrite /reshape_cols; apply: dq_bind (dqT _) _ => ? _; apply: dq_bind (d_transposeM h) _ => x hx.
by apply: dq_bind (d_reshape_mat _ hx) _ => t ht; exact: d_transpose.
Qed.
Lemma d_reshape_rows a i j : dM a -> dq dT (reshape_rows self a i j).
Proof. by move=> h; rewrite /reshape_rows; apply: dq_bind (dqT _) _ => ? _; exact: d_reshape_mat. Qed.
Lemma d_kid a b : dM a -> dM b -> dq dT (kron_id_a_b self a b).
Proof.
move=> ha hb; rewrite /kron_id_a_b; do 2![apply: dq_bind (dqT _) _ => ? _].
by apply: dq_bind (d_reshape_cols _ _ hb) _ => x hx; apply: dq_bind (dp_matmul hs _ _ _ _) _ => // y hy; exact: d_reshape_cols.
Qed.
Lemma d_kai a b : dM a -> dM b -> dq dT (kron_a_id_b self a b).
Proof.
move=> ha hb; rewrite /kron_a_id_b; do 2![apply: dq_bind (dqT _) _ => ? _].
by apply: dq_bind (d_reshape_rows _ _ hb) _ => x hx; apply: dq_bind (dp_matmul hs _ _ _ _) _ => // y hy; exact: d_reshape_rows.
Qed.
Lemma d_mk_lt_mat a : dM a -> dq dM (mk_lt_mat self a). Proof. by move=> h; rewrite /mk_lt_mat; dgo. Qed.
Lemma d_mk_ut_mat a : dM a -> dq dM (mk_ut_mat self a). Proof. by move=> h; rewrite /mk_ut_mat; dgo. Qed.
Ltac mcase x h := move: h; case: x => [?|? ? ? ?|?|?|? ? ?|?|?|? ? ?|? ? ? ?|? ?] h; try exact I.
Lemma d_mm_body i a b ta tb : dM a -> dM b -> dq dM (mm_body self i a b ta tb).
Proof.
case: i => ha hb; rewrite /mm_body.
all: try (by dgo).
all: try (by mcase a ha; dgo).
all: try (by mcase b hb; dgo).
all: try (by mcase a ha; mcase b hb; dgo).
- mcase a ha; mcase b hb; apply: dq_bind (dqT _) _ => ? _; apply: dq_bind (d_tr_mat _ ha) _ => x hx.
  by apply: dq_bind (d_tr_mat _ hb) _ => y hy; mcase x hx; mcase y hy; dgo.
- mcase a ha; apply: dq_bind (dqT _) _ => ? _; apply: dq_bind (d_tr_mat _ ha) _ => x hx.
  by apply: dq_bind (d_tr_mat _ hb) _ => y hy; mcase x hx; dgo.
- mcase b hb; apply: dq_bind (dqT _) _ => ? _; apply: dq_bind (d_tr_mat _ ha) _ => x hx.
  by apply: dq_bind (d_tr_mat _ hb) _ => y hy; mcase y hy; dgo.
- mcase a ha; mcase b hb; case: ifP => _; last by dgo.
  by apply: dq_bind (dp_matmul hs _ _ _ _) _ => // x hx; exact: d_mk_lt_mat.
- mcase a ha; mcase b hb; case: ifP => _; last by dgo.
  by apply: dq_bind (dp_matmul hs _ _ _ _) _ => // x hx; exact: d_mk_lt_mat.
- mcase a ha; mcase b hb; case: ifP => _; last by dgo.
  by apply: dq_bind (dp_matmul hs _ _ _ _) _ => // x hx; exact: d_mk_ut_mat.
- mcase a ha; mcase b hb; case: ifP => _; last by dgo.
  by apply: dq_bind (dp_matmul hs _ _ _ _) _ => // x hx; exact: d_mk_ut_mat.
- mcase a ha; mcase b hb; apply: dq_bind (dqT _) _ => ? _; apply: dq_bind (d_tr_mat _ ha) _ => x hx.
  apply: dq_bind (d_tr_mat _ hb) _ => y hy; mcase x hx; mcase y hy; case: hx hy => ? ? ? [? ? ?].
  apply: dq_bind (dp_matmul hs _ _ _ _) _ => // u hu; apply: dq_bind (d_mm3 _ _ _ _ _ _) _ => // v hv.
  apply: dq_bind (dqT _) _ => ? _; apply: (dq_bind (P := dM)) => [|w hw]; last by dgo.
  by rewrite /getitem_dense; dgo.
- mcase a ha; apply: dq_bind (dqT _) _ => ? _; apply: dq_bind (d_tr_mat _ ha) _ => x hx.
  by apply: dq_bind (d_tr_mat _ hb) _ => y hy; mcase x hx; case: hx => ? ? ?; dgo.
- mcase b hb; apply: dq_bind (dqT _) _ => ? _; apply: dq_bind (d_tr_mat _ ha) _ => x hx.
  by apply: dq_bind (d_tr_mat _ hb) _ => y hy; mcase y hy; case: hy => ? ? ?; dgo.
- by mcase a ha; case: ha => ? ? ? ?; dgo.
- by mcase b hb; case: hb => ? ? ? ?; dgo.
- by mcase a ha; mcase b hb; case: ha hb => ? ? [? ?]; dgo.
- mcase a ha; apply: dq_bind (dqT _) _ => ? _; apply: dq_bind (d_tr_mat _ ha) _ => x hx.
  apply: dq_bind (d_tr_mat _ hb) _ => y hy; mcase x hx; case: hx => ? ?.
  do 2![apply: dq_bind (dqT _) _ => -[? ?] _]; case: ifP => _.
    by apply: dq_bind (d_kai _ _) _ => // ? ?; apply: dq_bind (d_kid _ _) _ => // ? ?; apply: d_convert.
  by apply: dq_bind (d_kid _ _) _ => // ? ?; apply: dq_bind (d_kai _ _) _ => // ? ?; apply: d_convert.
Qed.
Lemma d_matmul_step a b ta tb : dM a -> dM b -> dq dM (matmul_step self a b ta tb).
Proof.
move=> ha hb; rewrite /matmul_step.
have K : dq dM (do i <- lookup mm_table (ty_of_matrix (to_matrix a)) (ty_of_matrix (to_matrix b));
                mm_body self i (to_matrix a) (to_matrix b) ta tb).
  by apply: dq_bind (dqT _) _ => i _; apply: d_mm_body; exact: d_to_matrix.
case: a ha K => [t ha|d ba r c ha|t ha|t ha|t r c ha|t ha|t ha|l r m ha|d l r m ha|l r ha] K.
2-10: exact K.
case: b hb K => [t' hb|d' bb r' c' hb|t' hb|t' hb|t' r' c' hb|t' hb|t' hb|l' r' m' hb|d' l' r' m' hb|l' r' hb] K.
2-10: exact K.
by dgo.
Qed.
Lemma d_sum_ax t x : dT t -> dq dT (t_sum_ax t x). Proof. exact: d_sum_pos. Qed.
Lemma d_sumax_step a x : dM a -> dq dT (sumax_step self a x).
Proof.
case: a => [t h|d b r c h|t h|t h|t r c h|t h|t h|l r m [hl hr hm]|d l r m [hd hl hr hm]|l r [hl hr]]; rewrite /sumax_step;
  try exact: d_sum_ax; try (by dgo).
by apply: d_mul => //; rewrite /t_scale /t_map; exact: (d_e1 h).
Qed.
Lemma d_sumall_step a : dM a -> dq dT (sumall_step self a).
Proof.
by case: a => [t h|d b r c h|t h|t h|t r c h|t h|t h|l r m [hl hr hm]|d l r m [hd hl hr hm]|l r [hl hr]]; rewrite /sumall_step; dgo.
Qed.
Lemma d_diag_step a : dM a -> dq dT (diag_step self a).
Proof.
by case: a => [t h|d b r c h|t h|t h|t r c h|t h|t h|l r m [hl hr hm]|d l r m [hd hl hr hm]|l r [hl hr]]; rewrite /diag_step; dgo.
Qed.

(** ** The other functions *)
Lemma d_subtract a b : dM a -> dM b -> dq dM (subtract self a b).
Proof.
move=> ha hb; have K : dq dM (do b' <- negative (to_matrix b); o_add self (to_matrix a) b') by dgo.
case: a ha K => [?|? ? ? ?|?|?|? ? ?|?|?|? ? ?|? ? ? ?|? ?] ha K; try exact: K.
by case: b hb K => [?|? ? ? ?|?|?|? ? ?|?|?|? ? ?|? ? ? ?|? ?] hb K; try exact: K; rewrite /subtract; dgo.
Qed.
Lemma d_sum_posM a p : dM a -> dq dM (sum_pos self a p).
Proof.
case: p => [|[|q]] h; rewrite /sum_pos; [by dgo|by dgo|].
case: a h => [t h|d b r c h|t h|t h|t r c h|t h|t h|l r m h|d l r m [hd hl hr hm]|l r h]; try by dgo.
apply: (dq_bind (P := All dM)) => [|xs hxs]; first by apply: d_align_batch; dfact.
by case: xs hxs => [|[]] // d' [|lr [|? ?]] // [? [? _]]; dgo.
Qed.
Lemma d_sum a ax : dM a -> dq dM (sum_op self a ax).
Proof. by move=> h; case: ax => [ax|]; rewrite /sum_op; dgo; exact: d_sum_posM. Qed.
Lemma d_trace a : dM a -> dq dT (trace self a). Proof. by move=> h; rewrite /trace; dgo. Qed.
Lemma d_div_body i a b : dM a -> dM b -> dq dM (div_body self i a b).
Proof. by case: i => ha hb; rewrite /div_body; [dgo|mcase b hb; dgo]. Qed.
Lemma d_divide a b : dM a -> dM b -> dq dM (divide self a b).
Proof.
move=> ha hb.
have K : dq dM (do i <- lookup div_table (ty_of_matrix (to_matrix a)) (ty_of_matrix (to_matrix b));
                div_body self i (to_matrix a) (to_matrix b)).
  by apply: dq_bind (dqT _) _ => i _; apply: d_div_body; exact: d_to_matrix.
case: a ha K => [t ha|d ba r c ha|t ha|t ha|t r c ha|t ha|t ha|l r m ha|d l r m ha|l r ha] K.
2-10: exact K.
case: b hb K => [t' hb|d' bb r' c' hb|t' hb|t' hb|t' r' c' hb|t' hb|t' hb|l' r' m' hb|d' l' r' m' hb|l' r' hb] K.
2-10: exact K.
by rewrite /divide; dgo.
Qed.
(** The divisor is a Python number. *)
Lemma d_mean a ax : S weak -> dM a -> dq dM (mean_op self a ax).
Proof.
move=> hw h; rewrite /mean_op; do 2![apply: dq_bind (dqT _) _ => ? _].
by apply: dq_bind (d_sum ax h) _ => x hx; apply: d_divide.
Qed.
Lemma d_elementwise f a : dM a -> dq dM (elementwise self f a).
Proof.
elim: a => [t h|d b r c h|t h|t h|t r c h|t h|t h|l IHl r IHr m IHm h|d l IHl r IHr m IHm h|l IHl r IHr [hl hr]];
  cbn [elementwise]; try by dgo.
by apply: dq_bind (IHl hl) _ => u hu; apply: dq_bind (IHr hr) _.
Qed.
Lemma d_matmul_diag a b ta tb : dM a -> dM b -> dq dT (matmul_diag self a b ta tb).
Proof.
move=> ha hb.
have K : dq dT (do a' <- tr a (~~ ta); do b' <- tr b tb; do c <- o_mul self a' b'; o_sumax self c false) by dgo.
have L : dq dT (do c <- o_matmul self a b ta tb; o_diag self c) by dgo.
by case: (a) K L ha; case: (b) hb.
Qed.
Lemma d_kron n a b : dM a -> dM b -> dq dM (kron_n n a b).
Proof.
elim: n a b => [//|n IH] a b ha hb.
have K : dq dM (kron_body (kron_n n) (to_matrix a) (to_matrix b)).
  have [ha' hb'] : dM (to_matrix a) /\ dM (to_matrix b) by split; exact: d_to_matrix.
  apply: dq_bind (dqT _) _ => -[] _.
  - by apply: dq_bind (dqT _) _ => ? _; apply: dq_bind (dqT _) _ => -[? ?] _; apply: d_mk_zero; exact: dM_dtype.
  - exact: IH.
  - by [].
  - move: (to_matrix a) (to_matrix b) ha' hb' => x y hx hy; mcase x hx; mcase y hy.
    by apply: dq_bind (d_mul hx hy) _ => z hz; apply: dq_bind (dqT _) _ => -[? ?] _; apply: d_mk_const.
case: a ha K => [t ha|d ba r c ha|t ha|t ha|t r c ha|t ha|t ha|l r m ha|d l r m ha|l r ha] K.
2-10: exact K.
case: b hb K => [t' hb|d' bb r' c' hb|t' hb|t' hb|t' r' c' hb|t' hb|t' hb|l' r' m' hb|d' l' r' m' hb|l' r' hb] K.
2-10: exact K.
by rewrite [kron_n _ _ _]/=; dgo.
Qed.
Lemma d_tileM a reps : dM a -> dq dM (tile_op self a reps).
Proof.
by case: a => [t h|d b r c h|t h|t h|t r c h|t h|t h|l r m h|d l r m h|l r h]; rewrite /tile_op; dgo.
Qed.
Lemma d_concatM xs ax : All dM xs -> dq dM (concat_op self xs ax).
Proof.
move=> h; apply: dq_bind (dqT _) _ => ? _; apply: (dq_bind (P := All dT)) => [|ts hts]; last by dgo.
by apply: dq_mapM h _ => x hx; exact: dp_dense hs _ hx.
Qed.
Lemma d_reshapeM a ds : dM a -> dq dT (reshape_op self a ds). Proof. by move=> h; rewrite /reshape_op; dgo. Qed.
Lemma d_squeezeM a : dM a -> dq dT (squeeze_op self a).
Proof. by move=> h; rewrite /squeeze_op; dgo; rewrite /t_squeeze; dgo. Qed.
Lemma d_take_gen a x p : dM a -> dq dM (take_gen self a x p). Proof. by move=> h; rewrite /take_gen; dgo. Qed.
Lemma d_take_n n a x ax : dM a -> dq dM (take_n self n a x ax).
Proof.
elim: n a x ax => [//|n IH] a x ax h; rewrite [take_n _ _]/= /take_step; do 2![apply: dq_bind (dqT _) _ => ? _].
case: a h => [t h|d b r c h|t h|t h|t r c h|t h|t h|l r m [hl hr hm]|d l r m [hd hl hr hm]|l r [hl hr]].
- by dgo.
- by dgo.
- exact: d_take_gen.
- by case: ifP => _; [exact: d_take_gen|dgo].
- by dgo.
- by dgo.
- by dgo.
- case: ifP => _; last case: ifP => _.
  + by apply: dq_bind (IH _ _ _ hl) _ => u hu; dgo.
  + by apply: dq_bind (IH _ _ _ hr) _ => u hu; dgo.
  + apply: (dq_bind (P := All dM)) => [|xs hxs]; first by apply: d_align_batch; dfact.
    by do 3![apply: dq_bind (IH _ _ _ (All_nth _ _ hxs)) _; [dfact|move=> ? ?]]; dgo.
- have hD : dM (wb_diag d) by []. have hL : dM (wb_lr l r m) by [].
  case: ifP => _.
    by apply: dq_bind (IH _ _ _ hD) _ => u hu; apply: dq_bind (IH _ _ _ hL) _ => v hv; dgo.
  apply: (dq_bind (P := All dM)) => [|xs hxs]; first by apply: d_align_batch; dfact.
  have hW : dM (Wb d l r m) by [].
  by do 2![apply: dq_bind (IH _ _ _ (All_nth _ hW hxs)) _ => ? ?]; dgo.
- case: ifP => _; first exact: d_take_gen.
  apply: (dq_bind (P := All dM)) => [|xs hxs]; first by apply: d_align_batch; dfact.
  by do 2![apply: dq_bind (IH _ _ _ (All_nth _ _ hxs)) _; [dfact|move=> ? ?]]; dgo.
Qed.
Lemma d_takeM a x ax : dM a -> dq dM (take_op self a x ax). Proof. exact: d_take_n. Qed.
Lemma d_tsub t x : dT t -> dq dT (t_submatrix t x). Proof. by move=> h; rewrite /t_submatrix; dgo. Qed.
Lemma d_sub_lr l r m x : dM l -> dM r -> dM m -> dq dM (submatrix_lr self l r m x).
Proof.
move=> hl hr hm; apply: dq_bind (d_takeM _ _ hl) _ => u hu; apply: dq_bind (d_takeM _ _ hr) _ => v hv.
by dgo.
Qed.
Lemma d_submatrix a x : dM a -> dq dM (submatrix self a x).
Proof.
have U t (k : tensor -> outcome mat) : dT t -> (forall u, dT u -> dq dM (k u)) -> dq dM (do u <- t_submatrix t x; k u).
  by move=> h hk; apply: dq_bind (d_tsub x h) _.
case: a => [t h|d b r c h|t h|t h|t r c h|t h|t h|l r m [hl hr hm]|d l r m [hd hl hr hm]|l r h]; rewrite /submatrix;
  try (by apply: U => // u hu; dgo); try by dgo.
- by apply: dq_bind (dqT _) _ => ? _; apply: dq_bind (dp_dense hs _) _ => [//|u hu]; apply: U => // v hv; dgo.
- exact: d_sub_lr.
- apply: dq_bind (d_take _ _ hd) _ => u hu; apply: dq_bind (d_mk_diag hu) _ => v hv.
  by apply: dq_bind (d_sub_lr _ _ _ _) _ => // w hw; dgo.
- by apply: dq_bind (dqT _) _ => ? _; apply: dq_bind (dp_dense hs _) _ => [//|u hu]; apply: U => // v hv; dgo.
Qed.
Lemma d_flatten (rows : seq (seq mat)) : All (All dM) rows -> All dM (flatten rows).
Proof. by elim: rows => //= r rows IH [h1 h2]; apply: All_cat => //; exact: IH. Qed.
Lemma d_align_rows rows : All (All dM) rows -> dq (All (All dM)) (align_batch_rows rows).
Proof.
move=> h; apply: dq_bind (dqT _) _ => b _; apply: dq_mapM h _ => row hr; apply: dq_mapM hr _ => x hx; exact: d_bbtM.
Qed.
Definition optM (z : option mat) : Prop := if z is Some x then dM x else True.
Lemma d_attempt_zero rows : All (All dM) rows -> dq optM (attempt_zero rows).
Proof.
move=> h; rewrite /attempt_zero; case: ifP => // _; case: rows h => [|[|x row] rows] // [[hx _] _].
by do 3![apply: dq_bind (dqT _) _ => ? _]; apply: dq_ret; exact: dM_dtype.
Qed.
Lemma d_diag_blocks n r (rows : seq (seq mat)) : All (All dM) rows -> all (fun row => size row == n) rows ->
  (r + size rows <= n)%N -> All dM (diag_blocks r rows).
Proof.
elim: rows r => //= row rows IH r [h1 h2] /andP[/eqP e hn] le; split.
  have hr : (r < size row)%N by rewrite e; apply: leq_trans le; rewrite addnS ltnS leq_addr.
  elim: (row) r hr h1 {IH le e} => //= x s IHs [|r] // hr [hx hss] //; exact: IHs.
by apply: IH => //; rewrite addSnnS.
Qed.
Lemma d_attempt_diagonal rows : All (All dM) rows -> dq optM (attempt_diagonal self rows).
Proof.
move=> h; apply: dq_bind (d_align_rows h) _ => {h} rws h; case: ifP => // e; apply: dq_bind (dqT _) _ => k _.
case: ifP => // _; apply: dq_bind (dqT _) _ => b _.
apply: (dq_bind (P := All dM)) => [|ds hds].
  have hd : All dM (diag_blocks 0 rws) by apply: d_diag_blocks h e _; rewrite add0n.
  by apply: dq_mapM hd _ => x hx; exact: d_bbtM.
apply: (dq_bind (P := All dT)) => [|ts hts]; first by apply: dq_mapM hds _ => x hx; exact: dp_diag hs _ hx.
by apply: dq_bind (d_concat _ hts) _ => t ht; apply: dq_bind (d_mk_diag ht) _ => d hd; apply: dq_ret.
Qed.
Lemma d_block rows : All (All dM) rows -> dq dM (block self rows).
Proof.
move=> h.
have K : dq dM (do z <- attempt_zero rows; if z is Some c then ret c else
    do d <- attempt_diagonal self rows; if d is Some c then ret c else
    do _ <- warn_if true; do rows' <- align_batch_rows rows; do ts <- mapM (mapM (o_dense self)) rows';
    do t <- t_concat2d ts; ret (mk_dense t)).
  apply: dq_bind (d_attempt_zero h) _ => -[c|] hc; first exact: hc.
  apply: dq_bind (d_attempt_diagonal h) _ => -[d|] hd; first exact: hd.
  apply: dq_bind (dqT _) _ => _ _; apply: dq_bind (d_align_rows h) _ => rws hw.
  apply: (dq_bind (P := All (All dT))) => [|ts hts].
    by apply: dq_mapM hw _ => row hr; apply: dq_mapM hr _ => x hx; exact: dp_dense hs _ hx.
  apply: (dq_bind (P := dT)) => [|t ht]; last by dgo.
  apply: (dq_bind (P := All dT)) => [|rs hrs]; last exact: d_concat.
  by apply: dq_mapM hts _ => row hr; exact: d_concat.
rewrite /block; case: (rows) h K => [|[|x [|? ?]] [|? ?]] // h K; by case: h => -[].
Qed.
Lemma d_iter t : dT t -> dq (All dT) (t_iter t).
Proof. by move=> h; rewrite /t_iter; case: (rev _) => // d s; apply: dq_ret; apply: All_map (All_true _) _. Qed.
Lemma d_nums xs : All dM xs -> All dT (pmap (fun x : mat => if x is Nm u then Some u else None) xs).
Proof. by elim: xs => //= x xs IH [hx hxs]; case: x hx => //= *; try split; auto. Qed.
Lemma d_aligned ts : All dT ts -> dq (All dT) (aligned ts).
Proof.
move=> h; apply: (dq_bind (P := All dM)) => [|xs hxs]; first by apply: d_align_batch; apply: All_map h _.
by move: (d_nums hxs); case: (pmap _ _) => [|u [|v us]] // [hu _]; exact: d_iter.
Qed.
Lemma d_bd_rows d b tc built es : S d -> All (fun e => dT e.1) es -> dq (All dT) (bd_rows d b tc built es).
Proof.
move=> hd; elim: es built => [//|[e [h w]] es IH] built [he hes]; rewrite [bd_rows _ _ _ _ _]/=.
apply: (dq_bind (P := dT)) => [|row hr]; first by apply: d_concat; do !split.
by apply: dq_bind (IH _ hes) _ => rows hrs; apply: dq_ret.
Qed.
Lemma All_zip A B (P : A -> Prop) (s : seq A) (t : seq B) : All P s -> All (fun p => P p.1) (zip s t).
Proof. by elim: s t => [|x s IH] [|y t] //= [hx hss]; split=> //; exact: IH. Qed.
Lemma d_tbd ts : All dT ts -> dq dT (t_block_diag ts).
Proof.
move=> h; apply: dq_bind (d_aligned h) _ => es hes; apply: dq_bind (dqT _) _ => shapes _.
case: es hes => // e es hes; apply: dq_bind (dqT _) _ => b _.
by apply: dq_bind (d_bd_rows _ _ _ _ (All_zip _ hes)) _ => [|rows hr]; [case: hes|exact: d_concat].
Qed.
Lemma d_block_diag xs : All dM xs -> dq dM (block_diag self xs).
Proof.
move=> h; rewrite /block_diag; case: ifP => _.
  by apply: dq_bind (d_tbd (d_nums h)) _ => t ht; apply: dq_ret.
have K : dq dM (do z <- bd_attempt_zero xs; if z is Some c then ret c else
    do d <- bd_attempt_diagonal self xs; if d is Some c then ret c else
    do _ <- warn_if true; do ts <- mapM (o_dense self) xs; do t <- t_block_diag ts; ret (mk_dense t)).
  apply: (dq_bind (P := optM)) => [|[c|] hc]; last 1 first.
  - apply: (dq_bind (P := optM)) => [|[d|] hd]; last 1 first.
    + apply: dq_bind (dqT _) _ => _ _; apply: (dq_bind (P := All dT)) => [|ts hts].
        by apply: dq_mapM h _ => x hx; exact: dp_dense hs _ hx.
      by apply: dq_bind (d_tbd hts) _ => t ht; dgo.
    + rewrite /bd_attempt_diagonal; case: ifP => // _; apply: dq_bind (d_align_batch h) _ => ys hys.
      apply: (dq_bind (P := All dT)) => [|ts hts]; first by apply: dq_mapM hys _ => x hx; exact: dp_diag hs _ hx.
      by apply: dq_bind (d_concat _ hts) _ => t ht; apply: dq_bind (d_mk_diag ht) _ => d hd; apply: dq_ret.
    + exact: hd.
  - rewrite /bd_attempt_zero; case: ifP => // _; case: (xs) h => // x ys [hx _].
    by do 3![apply: dq_bind (dqT _) _ => ? _]; apply: dq_ret; exact: dM_dtype.
  - exact: hc.
by case: (xs) h K => [|x [|? ?]] // [hx _] _.
Qed.
End Step.

Lemma d_run n : dops (ops_n argsort n).
Proof.
elim: n => [|n IH]; first by split.
by split=> *; [exact: d_dense_step|exact: d_matmul_step|exact: d_add_step|exact: d_mul_step|exact: d_sumax_step|
  exact: d_sumall_step|exact: d_diag_step].
Qed.
End Dtypes.
