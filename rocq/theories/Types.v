(** * Result types of the binary operations (proof support for C11, C14) *)
From mathcomp Require Import all_ssreflect all_algebra.
From Verif Require Import Outcome Monad Shape Tensor Mat Dispatch Ops Spec LookThy Term.
Set Implicit Arguments. Unset Strict Implicit. Unset Printing Implicit Defensive.

(** ** Rules for "whatever is returned" *)
Definition rets A (m : outcome A) (Q : log -> A -> Prop) : Prop :=
  if m is Ret l a then Q l a else True.
Lemma rets_bind A B (m : outcome A) (k : A -> outcome B) (P : log -> A -> Prop) (Q : log -> B -> Prop) :
  rets m P -> (forall l a, P l a -> rets (k a) (fun l' b => Q (ljoin l l') b)) -> rets (bind m k) Q.
Proof. by case: m => [l a|l e] //= h H; rewrite /bind; case: (k a) (H l a h) => //=. Qed.
Lemma rets_bindT A B (m : outcome A) (k : A -> outcome B) (Q : log -> B -> Prop) :
  (forall l a, rets (k a) (fun l' b => Q (ljoin l l') b)) -> rets (bind m k) Q.
Proof. by move=> h; apply: (@rets_bind _ _ _ _ (fun _ _ => True)) => [|l a _]; [case: m {h}|]. Qed.
Lemma rets_conseq A (m : outcome A) (P Q : log -> A -> Prop) : rets m P -> (forall l a, P l a -> Q l a) -> rets m Q.
Proof. by case: m => [l a|l e] //= h H; apply: H. Qed.
Lemma rets_warn B b (k : unit -> outcome B) (Q : log -> B -> Prop) :
  rets (k tt) (fun l c => Q (ljoin (Log b false) l) c) -> rets (bind (warn_if b) k) Q.
Proof. by rewrite /bind /warn_if; case: (k tt). Qed.
Lemma rets_ret A (a : A) (Q : log -> A -> Prop) : Q log0 a -> rets (ret a) Q. Proof. by []. Qed.

(** ** The tables *)
Definition ty_in (x : ty) (s : seq ty) : bool := has (ty_eqb x) s.
(** Possible types of [add] for operands of the given types. *)
Definition addt (x y : ty) : seq ty :=
  match x, y with
  | TTiled, _ | _, TTiled => all_ty
  | TZero, z | z, TZero => if ty_eqb z TZero || ty_eqb z TConst then [:: z] else [:: z; TDense]
  | TDiag, TDiag => [:: TDiag]
  | TConst, TConst => [:: TConst]
  | TLT, TLT | TLT, TDiag | TDiag, TLT => [:: TLT]
  | TUT, TUT | TUT, TDiag | TDiag, TUT => [:: TUT]
  | TDiag, (TConst | TLR | TWb) | (TConst | TLR | TWb), TDiag => [:: TWb]
  | TLR, TLR | TLR, TConst | TConst, TLR => [:: TLR; TZero]
  | TWb, (TConst | TLR | TWb) | (TConst | TLR), TWb => [:: TWb; TDiag; TDense]
  | _, _ => [:: TDense]
  end.
Definition mult (x y : ty) : ty :=
  match x, y with
  | TTiled, _ | _, TTiled => TTiled
  | TZero, _ | _, TZero => TZero
  | TDiag, _ | _, TDiag => TDiag
  | TLT, TUT | TUT, TLT => TDiag
  | TLT, _ | _, TLT => TLT
  | TUT, _ | _, TUT => TUT
  | TConst, z | z, TConst => z
  | TLR, TLR => TLR
  | TWb, (TLR | TWb) | TLR, TWb => TWb
  | TKron, TKron => TKron
  | _, _ => TDense
  end.
(** Types of matrix products (after transposition of the operands). *)
Definition mmt (x y : ty) : seq ty :=
  match x, y with
  | TTiled, _ | _, TTiled => all_ty
  | TZero, _ | _, TZero => [:: TZero]
  | TDiag, TDiag => [:: TDiag]
  | TConst, TConst => [:: TConst]
  | TWb, (TConst | TLR) | (TConst | TLR), TWb => [:: TLR; TZero]
  | (TConst | TLR), _ | _, (TConst | TLR) => [:: TLR]
  | TWb, TWb => [:: TWb; TDiag; TDense]
  | TDiag, TWb | TWb, TDiag => [:: TWb]
  | TDiag, TLT | TLT, TDiag => [:: TLT]
  | TDiag, TUT | TUT, TDiag => [:: TUT]
  | TLT, TLT => [:: TLT; TDense]
  | TUT, TUT => [:: TUT; TDense]
  | TKron, TKron => [:: TKron]
  | _, _ => [:: TDense]
  end.
Definition trt (x : ty) (t : bool) : ty :=
  match x with TLT => if t then TUT else TLT | TUT => if t then TLT else TUT | _ => x end.
(** Lower plus upper triangular: the one case in which [add] falls back to
    dense for two structured operands without a warning. *)
Definition ltut (x y : ty) : bool := match x, y with TLT, TUT | TUT, TLT => true | _, _ => false end.
Definition sty (x : ty) : bool := if x is TDense then false else true.

Section Types.
Variable F : rcfType.
Notation tensor := (tensor F).
Notation mat := (mat F).
Variable argsort : seq F -> seq nat.
Notation run n := (ops_n argsort n).
Notation T := (@ty_of_matrix F).
Definition ismat (a : mat) : bool := if a is Nm _ then false else true.
Definition isty (c : mat) (x : ty) : bool := ismat c && ty_eqb (T c) x.

Definition AQ (x y : ty) (l : log) (c : mat) : Prop :=
  ismat c /\ ty_in (T c) (addt x y) /\ (ty_eqb (T c) TDense -> sty x && sty y -> ~~ ltut x y -> lw l).
Definition MQ (x y : ty) (l : log) (c : mat) : Prop :=
  isty c (mult x y) /\ (ty_eqb (T c) TDense -> [|| sty x && ~~ ty_eqb x TConst | sty y && ~~ ty_eqb y TConst] -> lw l).
Definition PQ (x y : ty) (l : log) (c : mat) : Prop :=
  ismat c /\ ty_in (T c) (mmt x y) /\ (ty_eqb (T c) TDense -> sty x && sty y -> lw l).

Local Arguments mk_const : simpl never.
Local Arguments mk_woodbury : simpl never.
Local Arguments mk_lowrank : simpl never.
Ltac rb := repeat first [apply: rets_bindT => ? ? | match goal with |- context [let '(_, _) := ?x in _] => case: x => ? ? end].
Lemma rk_diag (t : tensor) : rets (mk_diag t) (fun _ c => isty c TDiag).
Proof. by rewrite /mk_diag /require; case: ifP. Qed.
Lemma rk_lt (t : tensor) : rets (mk_lt t) (fun _ c => isty c TLT).
Proof. by rewrite /mk_lt /require; case: ifP. Qed.
Lemma rk_ut (t : tensor) : rets (mk_ut t) (fun _ c => isty c TUT).
Proof. by rewrite /mk_ut /require; case: ifP. Qed.
Lemma rk_const (t : tensor) s : rets (mk_const t s) (fun _ c => isty c TConst).
Proof. by case: s => [|? [|? [|? ?]]] //=; rewrite /mk_const; do 2 apply: rets_bindT => ? ?. Qed.
Lemma rk_zero d s : rets (mk_zero d s) (fun _ (c : mat) => isty c TZero).
Proof. by case: s => [|? [|? ?]]. Qed.
Lemma rk_lowrank (l : mat) r m : rets (mk_lowrank l r m) (fun _ c => isty c TLR).
Proof. by rewrite /mk_lowrank; rb; apply: rets_ret. Qed.
Lemma rk_woodbury (d l : mat) : rets (mk_woodbury d l) (fun _ c => isty c TWb).
Proof. by case: d; case: l => //= *; apply: rets_bindT => ? ?; apply: rets_ret. Qed.
Lemma rk_bbt (a : mat) s : ismat a -> rets (broadcast_batch_to a s) (fun _ c => isty c (T a)).
Proof.
case: a => //= *; do 8? [exact: rk_diag|exact: rk_lt|exact: rk_ut|exact: rk_const|exact: rk_lowrank|exact: rk_woodbury|exact: rets_ret|apply: rets_bindT => ? ?].
Qed.
Lemma rk_tr (a : mat) t : ismat a -> rets (tr a t) (fun _ c => isty c (trt (T a) t)).
Proof.
case: t; last by rewrite /tr; case: a => // *; apply: rets_ret.
rewrite /tr; case: a => //= *; do 8? [exact: rk_diag|exact: rk_lt|exact: rk_ut|exact: rk_const|exact: rk_lowrank|exact: rk_woodbury|exact: rets_ret|apply: rets_bindT => ? ?].
Qed.
Lemma rk_bt o (a : mat) s : ismat a -> rets (broadcast_to_step o a s)
  (fun l c => ismat c /\ ty_in (T c) (if ty_eqb (T a) TZero || ty_eqb (T a) TConst then [:: T a] else [:: T a; TDense]) /\
     (ty_eqb (T c) TDense -> sty (T a) -> lw l)).
Proof.
move=> m; rewrite /broadcast_to_step; apply: rets_bindT => l0 sa.
case: ifP => _; first by apply: rets_ret; case: a m.
have gen : rets (if take 2 sa == take 2 s then broadcast_batch_to a (drop 2 s)
     else do _ <- warn_if (structured a); do t <- o_dense o a; do u <- t_broadcast_to t s; ret (mk_dense u))
  (fun l c => ismat c /\ ty_in (T c) [:: T a; TDense] /\ (ty_eqb (T c) TDense -> sty (T a) -> lw (ljoin l0 l))).
  case: ifP => _.
    apply: rets_conseq (rk_bbt (drop 2 s) m) _ => l c /andP[h1 /eqP h2]; split=> //.
    rewrite /ty_in /= /ty_eqb h2 eqxx; split=> //.
    by case: (a) m h2 => //; case: (c) h1.
  apply: rets_warn; do 2 apply: rets_bindT => ? ?; apply: rets_ret; split=> //.
  by split; [case: (a) m|move=> _; case: (a) m => // *; rewrite /= !orbT].
case: a m gen => // *; try by apply: rets_conseq gen _ => ? ?.
- apply: rets_bindT => ? ?; apply: rets_conseq (rk_zero _ _) _ => ? c /andP[h1 h2]; split=> //.
  by rewrite /ty_in /= h2; split=> //; case: c h1 h2.
- apply: rets_bindT => ? ?; apply: rets_conseq (rk_const _ _) _ => ? c /andP[h1 h2]; split=> //.
  by rewrite /ty_in /= h2; split=> //; case: c h1 h2.
Qed.
Lemma rk_c2l (t : tensor) r c : rets (const_to_lowrank t r c) (fun _ c => isty c TLR).
Proof. by rewrite /const_to_lowrank; apply: rets_bindT => ? ?; case: ifP => _; exact: rk_lowrank. Qed.
Lemma rk_zeros (a : mat) : rets (zeros_of a) (fun _ c => isty c TZero).
Proof. by rewrite /zeros_of; apply: rets_bindT => ? ?; exact: rk_zero. Qed.
Lemma rk_addlr o la ra ma lb rb mb : rets (add_lr_lr argsort o la ra ma lb rb mb) (AQ TLR TLR).
Proof.
rewrite /add_lr_lr; do 12 apply: rets_bindT => ? ?.
apply: rets_bind (rk_lowrank _ _ _) _ => ? lr h; do 2 apply: rets_bindT => ? ?.
case: ifP => _; last by apply: rets_ret; case: lr h.
by apply: rets_conseq (rk_zeros _) _ => ? c; case: c.
Qed.
Lemma rk_mullr o la ra ma lb rb mb : rets (mul_lr_lr o la ra ma lb rb mb) (MQ TLR TLR).
Proof.
rewrite /mul_lr_lr; do 24 apply: rets_bindT => ? ?.
by apply: rets_conseq (rk_lowrank _ _ _) _ => ? c; case: c.
Qed.

Lemma lwr l l' : lw l' -> lw (ljoin l l'). Proof. by move=> h; rewrite /ljoin /= h orbT. Qed.
Lemma lwl l l' : lw l -> lw (ljoin l l'). Proof. by move=> h; rewrite /ljoin /= h. Qed.

(** Statements which more warnings cannot break. *)
Definition mono A (Q : log -> A -> Prop) := forall l0 l c, Q l c -> Q (ljoin l0 l) c.
Lemma rets_bindM A B (m : outcome A) (k : A -> outcome B) (Q : log -> B -> Prop) :
  mono Q -> (forall a, rets (k a) Q) -> rets (bind m k) Q.
Proof. by move=> hm h; apply: rets_bindT => l a; apply: rets_conseq (h a) _ => l' b; apply: hm. Qed.
Lemma rets_bindMP A B (m : outcome A) (k : A -> outcome B) (P : log -> A -> Prop) (Q : log -> B -> Prop) :
  mono Q -> rets m P -> (forall l a, P l a -> rets (k a) Q) -> rets (bind m k) Q.
Proof. by move=> hm h1 h; apply: rets_bind h1 _ => l a /h h'; apply: rets_conseq h' _ => l' b; apply: hm. Qed.
Lemma AQ_mono x y : mono (AQ x y).
Proof. by move=> l0 l c [h1 [h2 h3]]; split=> //; split=> // *; apply: lwr; apply: h3. Qed.
Lemma MQ_mono x y : mono (MQ x y).
Proof. by move=> l0 l c [h1 h2]; split=> // *; apply: lwr; apply: h2. Qed.
Lemma PQ_mono x y : mono (PQ x y).
Proof. by move=> l0 l c [h1 [h2 h3]]; split=> //; split=> // *; apply: lwr; apply: h3. Qed.
Lemma AQ_t x y l c t : isty c t -> ty_in t (addt x y) -> (ty_eqb t TDense -> sty x && sty y -> ~~ ltut x y -> lw l) -> AQ x y l c.
Proof. by rewrite /isty /AQ; case: t => /andP[]; case: c. Qed.
Lemma AQ_sym x y l c : AQ x y l c -> AQ y x l c.
Proof.
case=> h1 [h2 h3]; split=> //; split; first by move: h2; case: x {h3}; case: y.
by rewrite andbC => k1 k2 k3; apply: h3 => //; move: k3; case: x {h2 k2}; case: y.
Qed.
Lemma isty_T (x : mat) u : isty x u -> ismat x /\ T x = u.
Proof. by case/andP; case: x => //=; case: u. Qed.
Lemma ret_dense x y (t : tensor) l : (sty x && sty y -> ~~ ltut x y -> lw l) -> ty_in TDense (addt x y) -> AQ x y l (mk_dense t).
Proof. by move=> h1 h2; split=> //; split=> // _. Qed.
Lemma SA n (a b : mat) : ismat a -> ismat b -> rets (o_add (run n) a b) (AQ (T a) (T b)).
Proof.
elim: n a b => [|n IH] a b // ha hb.
have rv (x y : mat) : ismat x -> ismat y -> rets (o_add (run n) x y) (AQ (T y) (T x)).
  by move=> hx hy; apply: rets_conseq (IH x y hx hy) _ => l c; exact: AQ_sym.
change (o_add (run n.+1)) with (add_step argsort (run n)).
have bt (x : mat) (s : seq nat) : ismat x -> rets (broadcast_to_step (run n) x s) (AQ (T x) TZero).
  move=> hx; apply: rets_conseq (rk_bt (run n) s hx) _ => l c [h1 [h2 h3]]; split=> //; split.
    by move: h2; case: (x) hx.
  by move=> k1 /andP[k2 _] _; apply: h3.
have bt' (x : mat) (s : seq nat) : ismat x -> rets (broadcast_to_step (run n) x s) (AQ TZero (T x)).
  by move=> hx; apply: rets_conseq (bt x s hx) _ => l c; exact: AQ_sym.
have gen (x y : mat) u v : sty u && sty v ==> ~~ ltut u v ==> structured x && structured y -> ty_in TDense (addt u v) ->
    rets (do _ <- warn_if (structured x && structured y); do t <- o_dense (run n) x; do t' <- o_dense (run n) y;
          do z <- t_add t t'; ret (mk_dense z)) (AQ u v).
  move=> h h'; apply: rets_warn; do 3 apply: rets_bindT => ? ?; apply: rets_ret; apply: ret_dense => // k1 k2.
  by apply: lwl; move: h; rewrite k1 k2.
have cgen (x : mat) (t : tensor) m u v : sty u && sty v ==> ~~ ltut u v ==> structured x -> ty_in TDense (addt u v) ->
    rets (do _ <- warn_if (structured x); do y <- o_dense (run n) x; do z <- t_add (t_expand11_is t) y;
    do s <- m; do u <- t_broadcast_to z s; ret (mk_dense u)) (AQ u v).
  move=> h h'; apply: rets_warn; do 4 apply: rets_bindT => ? ?; apply: rets_ret; apply: ret_dense => // k1 k2.
  by apply: lwl; move: h; rewrite k1 k2.
have wb (d x : mat) u v : isty d TDiag -> (ty_in (T x) [:: TLR; TZero]) -> ismat x ->
   (addt u v = [:: TWb; TDiag; TDense]) -> rets (o_add (run n) d x) (AQ u v).
  case/isty_T => d1 d2 h hx e; apply: rets_conseq (IH d x d1 hx) _ => l c [h1 [h2 h3]]; split=> //.
  rewrite e; split; first by move: h2; rewrite d2; move: h; case: (T x) => //; case: (T c).
  by move=> k1 _ _; apply: h3 => //; rewrite d2; move: h; case: (T x).
case: a ha => [?|? ? ? ?|?|?|? ? ?|?|?|la ra ma|da la ra ma|? ?] ha; [discriminate ha|..];
(case: b hb => [?|? ? ? ?|?|?|? ? ?|?|?|? ? ?|? ? ? ?|? ?] hb; [discriminate hb|..]); rewrite /add_step /to_matrix [T _]/= [T _]/= add_selE [selof _ _ _]/= bind_ret /add_body;
 lazymatch goal with
 | |- rets (o_add _ ?x ?y) _ => exact (rv x y isT isT)
 | |- rets (add_lr_lr _ _ _ _ _ _ _ _) _ => exact: rk_addlr
 | |- rets (mk_woodbury _ _) _ => by apply: rets_conseq (rk_woodbury _ _) _ => ? ? /AQ_t; apply
 | |- rets (bind (warn_if (structured ?x && structured ?y)) _) (AQ ?u ?v) => exact (gen x y u v isT isT)
 | |- rets (bind (warn_if (structured ?x)) _) (AQ ?u ?v) => exact (cgen x _ _ u v isT isT)
 | |- rets (bind _ (fun _ => bind _ (fun _ => broadcast_to_step _ ?x _))) (AQ TZero _) => 
     do 2 (apply: rets_bindM; [exact: AQ_mono|move=> ?]); exact (bt' x _ isT)
 | |- rets (bind _ (fun _ => bind _ (fun _ => broadcast_to_step _ ?x _))) _ => 
     do 2 (apply: rets_bindM; [exact: AQ_mono|move=> ?]); exact (bt x _ isT)
 | |- rets (bind _ (fun _ => ret _)) _ => by apply: rets_bindT => ? ?; apply: rets_ret
 | |- rets (bind _ (fun _ => mk_diag _)) _ => by apply: rets_bindT => ? ?; apply: rets_conseq (rk_diag _) _ => ? ? /AQ_t; apply
 | |- rets (bind _ (fun _ => mk_lt _)) _ => by apply: rets_bindT => ? ?; apply: rets_conseq (rk_lt _) _ => ? ? /AQ_t; apply
 | |- rets (bind _ (fun _ => mk_ut _)) _ => by apply: rets_bindT => ? ?; apply: rets_conseq (rk_ut _) _ => ? ? /AQ_t; apply
 | |- rets (bind _ (fun _ => bind _ (fun _ => mk_lt _))) _ => by do 2 apply: rets_bindT => ? ?; apply: rets_conseq (rk_lt _) _ => ? ? /AQ_t; apply
 | |- rets (bind _ (fun _ => bind _ (fun _ => mk_ut _))) _ => by do 2 apply: rets_bindT => ? ?; apply: rets_conseq (rk_ut _) _ => ? ? /AQ_t; apply
 | |- rets (bind _ (fun _ => bind _ (fun _ => bind _ (fun _ => mk_const _ _)))) _ => by do 3 apply: rets_bindT => ? ?; apply: rets_conseq (rk_const _ _) _ => ? ? /AQ_t; apply
 | |- _ => idtac
 end.
- apply: rets_bindM; [exact: AQ_mono|move=> ?]; apply: rets_bindM; [exact: AQ_mono|move=> [r c]].
  apply: (rets_bindMP (@AQ_mono _ _) (rk_c2l _ _ _)) => l x /isty_T[h1 h2]; have := IH x (Diag _) h1 isT; rewrite h2; exact.
- apply: rets_bindM; [exact: AQ_mono|move=> [r c]].
  apply: (rets_bindMP (@AQ_mono _ _) (rk_c2l _ _ _)) => l x /isty_T[h1 h2]; have := IH (LR la ra ma) x isT h1; rewrite h2; exact.
- apply: (rets_bindMP (@AQ_mono _ _) (IH (Diag da) (Diag _) isT isT)) => l x [h1 [h2 _]].
  by have := IH x (LR la ra ma) h1 isT; move: h2; case: x h1.
- apply: (rets_bindMP (@AQ_mono _ _) (IH (LR la ra ma) (Const _ _ _) isT isT)) => l x [h1 [h2 _]]; exact: wb.
- apply: (rets_bindMP (@AQ_mono _ _) (IH (LR la ra ma) (LR _ _ _) isT isT)) => l x [h1 [h2 _]]; exact: wb.
- apply: (rets_bindMP (@AQ_mono _ _) (IH (Diag da) (Diag _) isT isT)) => l x [h1 [h2 _]].
  apply: (rets_bindMP (@AQ_mono _ _) (IH (LR la ra ma) (LR _ _ _) isT isT)) => l' x' [h1' [h2' _]]; apply: wb => //.
  by move: h1 h2; case: x.
Qed.

Lemma MQ_t x y l c t : isty c t -> ty_eqb t (mult x y) -> (ty_eqb t TDense -> [|| sty x && ~~ ty_eqb x TConst | sty y && ~~ ty_eqb y TConst] -> lw l) -> MQ x y l c.
Proof. by rewrite /isty /MQ; case: t => /andP[] h1 h2 h3; move: h2; case: c h1 => //= *; split=> //; rewrite -h3. Qed.
Lemma mult_sym x y : mult x y = mult y x. Proof. by case: x; case: y. Qed.
Lemma MQ_sym x y l c : MQ x y l c -> MQ y x l c.
Proof. by case=> h1 h2; split; rewrite 1?mult_sym // => k1 k2; apply: h2 => //; rewrite orbC. Qed.
Lemma mul_dense x y (t : tensor) l : ([|| sty x && ~~ ty_eqb x TConst | sty y && ~~ ty_eqb y TConst] -> lw l) -> ty_eqb TDense (mult x y) -> MQ x y l (mk_dense t).
Proof. by move=> h1 h2; split=> // _. Qed.
Lemma SM n (a b : mat) : ismat a -> ismat b -> rets (o_mul (run n) a b) (MQ (T a) (T b)).
Proof.
elim: n a b => [|n IH] a b // ha hb.
have rv (x y : mat) : ismat x -> ismat y -> rets (o_mul (run n) x y) (MQ (T y) (T x)).
  by move=> hx hy; apply: rets_conseq (IH x y hx hy) _ => l c; exact: MQ_sym.
change (o_mul (run n.+1)) with (mul_step (run n)).
have bt (x : mat) (s : seq nat) u v : ismat x -> T x = TZero -> mult u v = TZero -> rets (broadcast_to_step (run n) x s) (MQ u v).
  move=> hx ex e; apply: rets_conseq (rk_bt (run n) s hx) _ => l c [h1 [h2 h3]]; rewrite ex /= in h2.
  by rewrite /MQ e; move: h1 h2; case: (c).
have gen (x y : mat) u v : [|| sty u && ~~ ty_eqb u TConst | sty v && ~~ ty_eqb v TConst] ==> (structured x || structured y) -> ty_eqb TDense (mult u v) ->
    rets (do _ <- warn_if (structured x || structured y); do t <- o_dense (run n) x; do t' <- o_dense (run n) y;
          do z <- t_mul t t'; ret (mk_dense z)) (MQ u v).
  move=> h h'; apply: rets_warn; do 3 apply: rets_bindT => ? ?; apply: rets_ret; apply: mul_dense => // k1.
  by apply: lwl; move: h; rewrite k1.
have cgen m0 (x : mat) (t : tensor) m u v : [|| sty u && ~~ ty_eqb u TConst | sty v && ~~ ty_eqb v TConst] ==> structured x -> ty_eqb TDense (mult u v) ->
    rets (do _ <- m0; do _ <- warn_if (structured x); do y <- o_dense (run n) x; do z <- t_mul (t_expand11_is t) y;
    do s <- m; do u <- t_broadcast_to z s; ret (mk_dense u)) (MQ u v).
  move=> h h'; apply: rets_bindM; [exact: MQ_mono|move=> ?]; apply: rets_warn; do 4 apply: rets_bindT => ? ?; apply: rets_ret; apply: mul_dense => // k1.
  by apply: lwl; move: h; rewrite k1.
have wb d l r m (x : mat) u v : ismat x ->
   (forall c c' lg lg', MQ TDiag (T x) lg c -> MQ TLR (T x) lg' c' -> forall lg'' z, AQ (T c) (T c') lg'' z -> MQ u v (ljoin lg (ljoin lg' lg'')) z) ->
   rets (do y <- o_mul (run n) (wb_diag d) x; do z <- o_mul (run n) (wb_lr l r m) x; o_add (run n) y z) (MQ u v).
  move=> hx h; apply: rets_bind (IH (Diag d) x isT hx) _ => lg c hc; apply: rets_bind (IH (LR l r m) x isT hx) _ => lg' c' hc'.
  have m1 : ismat c by case: hc => /andP[]. have m2 : ismat c' by case: hc' => /andP[].
  by apply: rets_conseq (SA n m1 m2) _ => lg'' z hz; exact: h hc hc' _ _ hz.
case: a ha => [?|? ? ? ?|?|?|? ? ?|?|?|la ra ma|da la ra ma|? ?] ha; [discriminate ha|..];
(case: b hb => [?|? ? ? ?|?|?|? ? ?|?|?|? ? ?|? ? ? ?|? ?] hb; [discriminate hb|..]); rewrite /mul_step /to_matrix [T _]/= [T _]/= mul_selE [selof _ _ _]/= bind_ret /mul_body;
 lazymatch goal with
 | |- rets (o_mul _ ?x ?y) _ => exact (rv x y isT isT)
 | |- rets (mul_lr_lr _ _ _ _ _ _ _) _ => exact: rk_mullr
 | |- rets (bind (warn_if (structured ?x || structured ?y)) _) (MQ ?u ?v) => exact (gen x y u v isT isT)
 | |- rets (bind _ (fun _ => bind (warn_if (structured ?x)) _)) (MQ ?u ?v) => exact (cgen _ _ x _ _ u v isT isT)
 | |- rets (bind _ (fun _ => bind _ (fun _ => broadcast_to_step _ ?x _))) (MQ ?u ?v) => 
     do 2 (apply: rets_bindM; [exact: MQ_mono|move=> ?]); exact (bt x _ u v isT erefl erefl)
 | |- rets (bind _ (fun _ => ret _)) _ => by apply: rets_bindT => ? ?; apply: rets_ret
 | |- rets (bind _ (fun _ => mk_diag _)) _ => by apply: rets_bindT => ? ?; apply: rets_conseq (rk_diag _) _ => ? ? /MQ_t; apply
 | |- rets (bind _ (fun _ => mk_lt _)) _ => by apply: rets_bindT => ? ?; apply: rets_conseq (rk_lt _) _ => ? ? /MQ_t; apply
 | |- rets (bind _ (fun _ => mk_ut _)) _ => by apply: rets_bindT => ? ?; apply: rets_conseq (rk_ut _) _ => ? ? /MQ_t; apply
 | |- rets (bind _ (fun _ => bind _ (fun _ => mk_diag _))) _ => by do 2 apply: rets_bindT => ? ?; apply: rets_conseq (rk_diag _) _ => ? ? /MQ_t; apply
 | |- rets (bind _ (fun _ => bind _ (fun _ => bind _ (fun _ => mk_diag _)))) _ => by do 3 apply: rets_bindT => ? ?; apply: rets_conseq (rk_diag _) _ => ? ? /MQ_t; apply
 | |- rets (bind _ (fun _ => bind _ (fun _ => mk_lt _))) _ => by do 2 apply: rets_bindT => ? ?; apply: rets_conseq (rk_lt _) _ => ? ? /MQ_t; apply
 | |- rets (bind _ (fun _ => bind _ (fun _ => mk_ut _))) _ => by do 2 apply: rets_bindT => ? ?; apply: rets_conseq (rk_ut _) _ => ? ? /MQ_t; apply
 | |- rets (bind _ (fun _ => bind _ (fun _ => mk_lowrank _ _ _))) _ => by do 2 apply: rets_bindT => ? ?; apply: rets_conseq (rk_lowrank _ _ _) _ => ? ? /MQ_t; apply
 | |- rets (bind _ (fun _ => bind _ (fun _ => bind _ (fun _ => mk_const _ _)))) _ => by do 3 apply: rets_bindT => ? ?; apply: rets_conseq (rk_const _ _) _ => ? ? /MQ_t; apply
 | |- _ => idtac
 end.
1-6: by apply: rets_bindT => ? ?; apply: rets_bindT => ? [rows cols]; do 2 apply: rets_bindT => ? ?; apply: rets_conseq (rk_diag _) _ => ? ? /MQ_t; apply.
- by do 2 apply: rets_bindT => ? ?; apply: rets_ret.
1-7: apply: wb => // c c' lg lg' h1 h2 lg'' z hz.
1-7: have e1 : T c = TDiag by case: h1 => /andP[_]; clear; case: c.
1-7: move: hz; rewrite e1 => hz; case: h2; rewrite /isty /= => /andP[m2 t2] w2.
1-7: case: hz => m3 [t3 w3]; split; last by move=> k _; move: k w2 w3 t2 t3; clear; case: c' => //=; case: z => //= ? ? _ w2; rewrite (w2 isT isT) ?orbT.
1-7: by move: m3 t2 t3; clear; case: c' => //=; case: z.
by do 7 apply: rets_bindT => ? ?; apply: rets_ret.
Qed.

(** ** matmul *)
Definition nl (a : mat) : bool := match a with LT t | UT t => ns t | _ => true end.
Lemma rk_trn (a : mat) t : ismat a -> nl a -> rets (tr a t) (fun _ c => isty c (trt (T a) t) /\ nl c).
Proof.
move=> ha hn; have h := rk_tr t ha.
have k (u : tensor) : rets (t_transpose u) (fun _ z => ns z).
  by rewrite /t_transpose /ns; case: (sh u) => [|? []].
case: t h => h; last first.
  by apply: rets_ret; split=> //; move: h; rewrite /tr /=.
case: a ha hn h => [?|? ? ? ?|?|?|? ? ?|?|?|? ? ?|? ? ? ?|? ?] ha hn h.
all: try by [apply: rets_conseq h _ => l c e; split=> //; move: e; clear; case: c].
- by rewrite /tr /=; apply: rets_bind (k _) _ => ? z hz; rewrite /mk_ut /require; case: ifP.
- by rewrite /tr /=; apply: rets_bind (k _) _ => ? z hz; rewrite /mk_lt /require; case: ifP.
Qed.
Lemma rk_reshape (t : tensor) d ds : rets (t_reshape t (d :: ds)) (fun _ z => ns z).
Proof.
rewrite /t_reshape; apply: (rets_bind (P := fun _ s => s != [::])) => [|l s hs]; last first.
  by apply: rets_ret; rewrite /ns /=; case: s hs.
rewrite /resolve_dims; case: ifP => _; first by case: ifP.
by case: ifP => //; case: d => [d|] /=; rewrite ?add0n //; case/andP.
Qed.
Lemma rk_cols o (a : mat) i j : rets (reshape_cols o a i j) (fun _ z => ns z).
Proof.
by rewrite /reshape_cols; do 3 apply: rets_bindT => ? ?; rewrite /t_transpose /ns; case: (sh _) => [|? []].
Qed.
Lemma rk_rows o (a : mat) i j : rets (reshape_rows o a i j) (fun _ z => ns z).
Proof. by rewrite /reshape_rows /reshape_mat; do 3 apply: rets_bindT => ? ?; exact: rk_reshape. Qed.
Lemma rk_kid o (a b : mat) : rets (kron_id_a_b o a b) (fun _ z => ns z).
Proof. by rewrite /kron_id_a_b; do 4 apply: rets_bindT => ? ?; exact: rk_cols. Qed.
Lemma rk_kai o (a b : mat) : rets (kron_a_id_b o a b) (fun _ z => ns z).
Proof. by rewrite /kron_a_id_b; do 4 apply: rets_bindT => ? ?; exact: rk_rows. Qed.
Lemma rk_densek n (l r : mat) : rets (o_dense (run n) (Kron l r)) (fun _ z => ns z).
Proof.
case: n => [//|n]; change (o_dense (run n.+1)) with (dense_step (run n)); rewrite /dense_step.
do 3 apply: rets_bindT => ? ?; rewrite /t_kron2 /ns; case: (sh _) => [|? [|? ?]] //; case: (sh _) => [|? [|? ?]] //.
by case: ifP.
Qed.
Lemma rk_denselt n (a : mat) (t : tensor) : a = LT t \/ a = UT t -> ns t -> rets (o_dense (run n) a) (fun _ z => ns z).
Proof. by case: n => [//|n] [] ->. Qed.
Lemma conv_ns (t : tensor) : ns t -> convert_num t = Dense (t_uprank t).
Proof. by rewrite /ns /convert_num; case: (sh t). Qed.
Lemma mmNl n (x : tensor) (b : mat) ta tb : ns x -> ismat b -> o_matmul (run n) (Nm x) b ta tb = o_matmul (run n) (mk_dense x) b ta tb.
Proof. by move=> hx; case: n => [//|n]; case: b => //= *; rewrite /matmul_step /= conv_ns. Qed.
Lemma mmNr n (x : tensor) (b : mat) ta tb : ns x -> ismat b -> o_matmul (run n) b (Nm x) ta tb = o_matmul (run n) b (mk_dense x) ta tb.
Proof. by move=> hx; case: n => [//|n]; case: b => //= *; rewrite /matmul_step /= conv_ns. Qed.
Lemma PQ_t x y l c t : isty c t -> ty_in t (mmt x y) -> (ty_eqb t TDense -> sty x && sty y -> lw l) -> PQ x y l c.
Proof. by rewrite /isty /PQ; case: t => /andP[]; case: c. Qed.
Lemma rk_ltm o (a : mat) : rets (mk_lt_mat o a) (fun _ c => isty c TLT).
Proof. by rewrite /mk_lt_mat; do 2 apply: rets_bindT => ? ?. Qed.
Lemma rk_utm o (a : mat) : rets (mk_ut_mat o a) (fun _ c => isty c TUT).
Proof. by rewrite /mk_ut_mat; do 2 apply: rets_bindT => ? ?. Qed.
Definition wbcheck (x1 y1 x2 y2 u v : ty) : bool :=
  all (fun t1 => all (fun t2 => all (fun t3 => ty_in t3 (mmt u v) &&
     ((ty_eqb t3 TDense && (sty u && sty v)) ==> [|| ty_eqb t1 TDense && (sty x1 && sty y1), ty_eqb t2 TDense && (sty x2 && sty y2) | sty t1 && sty t2 && ~~ ltut t1 t2]))
   (addt t1 t2)) (mmt x2 y2)) (mmt x1 y1).
Lemma tyP (x y : ty) : reflect (x = y) (ty_eqb x y). Proof. by case: x; case: y; constructor. Qed.
Lemma ty_inP x s (P : ty -> bool) : all P s -> ty_in x s -> P x.
Proof. by elim: s => //= y s IH /andP[h1 h2] /orP[/tyP -> //|]; apply: IH. Qed.
Lemma wb2 n (p q p' q' : mat) ta tb x1 y1 x2 y2 u v :
  rets (o_matmul (run n) p q ta tb) (PQ x1 y1) -> rets (o_matmul (run n) p' q' ta tb) (PQ x2 y2) -> wbcheck x1 y1 x2 y2 u v ->
  rets (do x <- o_matmul (run n) p q ta tb; do y <- o_matmul (run n) p' q' ta tb; o_add (run n) x y) (PQ u v).
Proof.
move=> h1 h2 hc; apply: rets_bind h1 _ => l1 c1 [m1 [i1 w1]]; apply: rets_bind h2 _ => l2 c2 [m2 [i2 w2]].
apply: rets_conseq (SA n m1 m2) _ => l3 c3 [m3 [i3 w3]].
have /andP[k1 k2] := ty_inP (ty_inP (ty_inP hc i1) i2) i3; split=> //; split=> // e1 e2.
move: k2; rewrite e1 e2 /= => /or3P[/andP[a1 a2]|/andP[a1 a2]|/andP[a1 a2]].
- by rewrite w1.
- by rewrite w2 ?orbT.
- by rewrite w3 ?orbT.
Qed.
Lemma lrK (A B C : Type) (m1 : outcome A) (m2 : outcome B) (m3 : outcome C) (k : B -> C -> outcome mat) u v :
  (forall a b, rets (k a b) (fun _ c => isty c TLR)) -> ty_in TLR (mmt u v) ->
  rets (do _ <- m1; do a <- m2; do b <- m3; k a b) (PQ u v).
Proof.
move=> h1 h2; do 3 apply: rets_bindT => ? ?; apply: rets_conseq (h1 _ _) _ => l c /PQ_t; apply=> //.
Qed.
Lemma SP n (a b : mat) ta tb : ismat a -> ismat b -> nl a -> nl b ->
  rets (o_matmul (run n) a b ta tb) (PQ (trt (T a) ta) (trt (T b) tb)).
Proof.
elim: n a b ta tb => [|n IH] a b ta tb ha hb na nb; first by [].
change (o_matmul (run n.+1)) with (matmul_step (run n)).
have gl x y (t : tensor) (b' : mat) v : x = LT t \/ x = UT t -> y = b' -> ns t -> ismat b' -> nl b' -> T b' = v ->
  v = TDense \/ v = TLT \/ v = TUT \/ v = TKron ->
  ty_in TDense (mmt (trt (T x) ta) (trt (T b') tb)) -> 
  rets (do _ <- warn_if (structured b'); do t <- o_dense (run n) x; o_matmul (run n) (Nm t) y ta tb) (PQ (trt (T x) ta) (trt (T b') tb)).
  move=> hx -> nt m1 n1 ev hv hd; apply: rets_warn.
  apply: (rets_bind (rk_denselt n hx nt)) => l z nz; rewrite mmNl //.
  apply: rets_conseq (IH _ _ ta tb (isT : ismat (mk_dense z)) m1 isT n1) _ => l' c [k1 [k2 k3]]; split=> //.
  have eD : T c = TDense by move: k2; rewrite ev [T _]/=; clear -hv; case: hv => [->|[->|[->|->]]]; case: (tb); case: (T c).
  rewrite eD hd; split=> // _ /andP[_ kk]; apply: lwl => /=.
  by move: m1 kk; rewrite /structured; clear; case: b'.
have gr x y (t : tensor) (a' : mat) v : x = LT t \/ x = UT t -> y = a' -> ns t -> ismat a' -> nl a' -> T a' = v ->
  v = TDense \/ v = TLT \/ v = TUT \/ v = TKron ->
  ty_in TDense (mmt (trt (T a') ta) (trt (T x) tb)) -> 
  rets (do _ <- warn_if (structured a'); do t <- o_dense (run n) x; o_matmul (run n) y (Nm t) ta tb) (PQ (trt (T a') ta) (trt (T x) tb)).
  move=> hx -> nt m1 n1 ev hv hd; apply: rets_warn.
  apply: (rets_bind (rk_denselt n hx nt)) => l z nz; rewrite mmNr //.
  apply: rets_conseq (IH _ _ ta tb m1 (isT : ismat (mk_dense z)) n1 isT) _ => l' c [k1 [k2 k3]]; split=> //.
  have eD : T c = TDense by move: k2; rewrite ev [T (mk_dense _)]/=; case: hv => [->|[->|[->|->]]]; case: (ta); case: (T c).
  rewrite eD hd; split=> // _ /andP[kk _]; apply: lwl => /=.
  by move: m1 kk; rewrite /structured; clear; case: a'.
have lcn (b' c' : mat) : rets (match b' with Const y _ c => do s <- o_sumax (run n) c' true; do m <- fill_diag y 1;
     mk_lowrank (Nm (t_expand1 s)) (Some (Nm (t_ones (dt y) [:: 1%N; c]))) (Some m) | _ => Raise AttributeError end) (fun _ c => isty c TLR).
  by case: b' => // *; do 2 apply: rets_bindT => ? ?; exact: rk_lowrank.
have lcn' (b' c' : mat) : rets (match b' with Const y r _ => do s <- o_sumax (run n) c' false; do m <- fill_diag y 1;
     mk_lowrank (Nm (t_ones (dt y) [:: 1%N; r])) (Some (Nm (t_expand1 s))) (Some m) | _ => Raise AttributeError end) (fun _ c => isty c TLR).
  by case: b' => // *; do 2 apply: rets_bindT => ? ?; exact: rk_lowrank.
have llr (a' b' : mat) : rets (match b' with LR lb rb mb => do x <- o_matmul (run n) a' lb false false; mk_lowrank x (Some rb) (Some mb)
    | _ => Raise AttributeError end) (fun _ c => isty c TLR).
  by case: b' => // *; apply: rets_bindT => ? ?; exact: rk_lowrank.
have llr' (a' b' : mat) : rets (match b' with LR lb rb mb => do x <- o_matmul (run n) a' rb true false; mk_lowrank lb (Some x) (Some mb)
    | _ => Raise AttributeError end) (fun _ c => isty c TLR).
  by case: b' => // *; apply: rets_bindT => ? ?; exact: rk_lowrank.
have wl d l r m (b' : mat) : ismat b' -> nl b' -> wbcheck TDiag (trt (T b') tb) TLR (trt (T b') tb) TWb (trt (T b') tb) ->
  rets (do x <- o_matmul (run n) (wb_diag d) b' ta tb; do y <- o_matmul (run n) (wb_lr l r m) b' ta tb; o_add (run n) x y) (PQ (trt TWb ta) (trt (T b') tb)).
  by move=> m1 n1 h; apply: wb2 (IH (Diag d) b' ta tb isT m1 isT n1) (IH (LR l r m) b' ta tb isT m1 isT n1) h.
have wr d l r m (a' : mat) : ismat a' -> nl a' -> wbcheck (trt (T a') ta) TDiag (trt (T a') ta) TLR (trt (T a') ta) TWb ->
  rets (do x <- o_matmul (run n) a' (wb_diag d) ta tb; do y <- o_matmul (run n) a' (wb_lr l r m) ta tb; o_add (run n) x y) (PQ (trt (T a') ta) (trt TWb tb)).
  by move=> m1 n1 h; apply: wb2 (IH a' (Diag d) ta tb m1 isT n1 isT) (IH a' (LR l r m) ta tb m1 isT n1 isT) h.
have ifd (m1 m2 : outcome mat) (t : bool) x u v : (~~ t -> rets m1 (fun _ c => isty c x)) -> (t -> rets m2 (PQ u v)) ->
   (~~ t -> ty_in x (mmt u v)) -> x <> TDense -> rets (if ~~ t then m1 else m2) (PQ u v).
  case: t => /= h1 h2 h3 h4; first exact: h2.
  by apply: rets_conseq (h1 isT) _ => l c hc; apply: PQ_t hc (h3 isT) _ => /tyP.
case: a ha na => [?|? ? ? ?|?|?|? ? ?|?|?|la ra ma|da la ra ma|? ?] ha na; [discriminate ha|..];
(case: b hb nb => [?|? ? ? ?|?|?|? ? ?|?|?|? ? ?|? ? ? ?|? ?] hb nb; [discriminate hb|..]);
rewrite /matmul_step /to_matrix [T _]/= [T _]/= mm_selE [selof _ _ _]/= bind_ret /mm_body;
 lazymatch goal with
 | |- rets (bind _ (fun _ => bind _ (fun _ => bind _ (fun _ => bind _ (fun _ => ret (Zero _ _ _ _)))))) (PQ ?u ?v) =>
     do 4 (apply: rets_bindT => ? ?); apply: rets_ret; split; [exact isT|split; [clear; case: (ta); case: (tb); exact isT|discriminate]]
 | |- rets (bind (warn_if (structured ?b)) (fun _ => bind (o_dense _ ?x) (fun t => o_matmul _ (Nm t) _ _ _))) _ =>
     apply: (gl x _ _ b _ _ erefl _ _ _ erefl); (exact na || exact nb || exact isT || (by auto) || (by clear; case: (ta); case: (tb)))
 | |- rets (bind (warn_if (structured ?b)) (fun _ => bind (o_dense _ ?x) (fun t => o_matmul _ _ (Nm t) _ _))) _ =>
     apply: (gr x _ _ b _ _ erefl _ _ _ erefl); (exact na || exact nb || exact isT || (by auto) || (by clear; case: (ta); case: (tb)))
 | |- rets (bind (o_matmul _ (wb_diag ?d) ?b _ _) _) _ => apply: (wl d _ _ _ b); [exact isT|exact nb|by clear; case: (tb)]
 | |- rets (bind (o_matmul _ ?a (wb_diag ?d) _ _) _) _ => apply: (wr d _ _ _ a); [exact isT|exact na|by clear; case: (ta)]
 | |- _ => idtac
 end.
all: try (apply: lrK; [|by clear; case: (ta); case: (tb)]; intros a0 b0; first [exact (lcn b0 a0)|exact (lcn' a0 b0)|exact (llr a0 b0)|exact (llr' b0 a0)]).
(* Dense @ Dense *)
- by apply: rets_bindT => ? ?; apply: rets_ret; split=> //; clear; case: (ta); case: (tb).
(* Dense @ Diag *)
- apply: rets_bindT => ? ?; apply: rets_bind (rk_tr ta ha) _ => l c /andP[m1 /tyP e1].
  apply: rets_conseq (SM n m1 (isT : ismat (mk_dense (t_expand2 _)))) _ => l' d.
  rewrite e1 => -[h1 _]; apply: PQ_t h1 _ _; first by clear; case: (ta); case: (tb).
  by move=> _; clear; case: (ta).
(* Dense @ Kron *)
- apply: rets_bind (IH _ _ _ _ hb ha nb na) _ => l c [m1 [h1 h2]].
  apply: rets_conseq (rk_tr true m1) _ => l' d /PQ_t; apply.
    by move: h1; clear; case: (ta); case: (tb); case: (T c).
  by move=> _; clear; case: (ta); case: (tb).
(* Diag @ Dense *)
- apply: rets_bindT => ? ?; apply: rets_bind (rk_tr tb hb) _ => l c /andP[m1 /tyP e1].
  apply: rets_conseq (SM n (isT : ismat (mk_dense (t_expand1 _))) m1) _ => l' d.
  rewrite e1 => -[h1 _]; apply: PQ_t h1 _ _; first by clear; case: (ta); case: (tb).
  by move=> _; clear; case: (ta); case: (tb).
(* Diag @ Diag *)
- by do 2 apply: rets_bindT => ? ?; apply: rets_conseq (rk_diag _) _ => l c /PQ_t; apply=> //; clear; case: (ta); case: (tb).
(* Diag @ LT, UT *)
- apply: (ifd _ _ tb TLT); [by move=> _; apply: rets_bindT => ? ?; exact: rk_ltm| |by clear; case: (ta); case: (tb)|by []].
  move=> etb; apply: rets_bind (rk_trn tb hb nb) _ => l c [/andP[m1 /tyP e1] n1];
  apply: rets_conseq (IH _ _ false false ha m1 na n1) _ => l' d; rewrite e1 etb [T _]/=;
  by clear; case: (ta) => -[q1 [q2 q3]]; split=> //; split=> // a1 a2; rewrite /= q3 ?orbT.
- apply: (ifd _ _ tb TUT); [by move=> _; apply: rets_bindT => ? ?; exact: rk_utm| |by clear; case: (ta); case: (tb)|by []].
  move=> etb; apply: rets_bind (rk_trn tb hb nb) _ => l c [/andP[m1 /tyP e1] n1];
  apply: rets_conseq (IH _ _ false false ha m1 na n1) _ => l' d; rewrite e1 etb [T _]/=;
  by clear; case: (ta) => -[q1 [q2 q3]]; split=> //; split=> // a1 a2; rewrite /= q3 ?orbT.
(* Diag @ Kron *)
- rewrite /warn; apply: rets_warn; apply: rets_bind (rk_densek _ _ _) _ => l z nz; rewrite mmNr //.
  apply: rets_conseq (IH _ _ ta tb ha (isT : ismat (mk_dense z)) na isT) _ => l' c [k1 [k2 k3]].
  split=> //; split=> //; move: k2; clear; case: (ta); case: (tb); by case: (T c).
(* Const @ Const *)
- apply: rets_bindT => ? ?; apply: rets_bindT => ? a'; apply: rets_bindT => ? b'.
  case: a' => // *; case: b' => // *; apply: rets_bindT => ? ?.
  by apply: rets_conseq (rk_const _ _) _ => l c /PQ_t; apply=> //; clear; case: (ta); case: (tb).
(* Const @ LR *)
- apply: rets_bind (rk_c2l _ _ _) _ => l c /andP[m1 /tyP e1].
  apply: rets_conseq (IH _ _ ta tb m1 hb _ nb) _ => [|l' d]; first by move: e1; clear; case: c.
  rewrite e1; move: e1 => _; clear; case: (ta); case: (tb) => -[q1 [q2 q3]]; split=> //; split=> // a1 a2; by rewrite /= q3 ?orbT.
(* LT @ Diag *)
- apply: (ifd _ _ ta TLT); [by move=> _; apply: rets_bindT => ? ?; exact: rk_ltm| |by clear; case: (ta); case: (tb)|by []].
  move=> eta; apply: rets_bind (rk_trn ta ha na) _ => l c [/andP[m1 /tyP e1] n1];
  apply: rets_conseq (IH _ _ false false m1 hb n1 nb) _ => l' d; rewrite e1 eta [T _]/=;
  by clear; case: (tb) => -[q1 [q2 q3]]; split=> //; split=> // a1 a2; rewrite /= q3 ?orbT.
(* LT @ LT *)
- case: ifP => hh.
    apply: rets_bindT => ? ?; apply: rets_conseq (rk_lt _) _ => l c /PQ_t; apply=> //.
    by move: hh; clear; case: (ta); case: (tb).
  apply: rets_bind (rk_trn ta ha na) _ => l c [/andP[m1 /tyP e1] n1].
  apply: rets_bind (rk_trn tb hb nb) _ => l' c' [/andP[m1' /tyP e1'] n1'].
  apply: rets_conseq (IH _ _ false false m1 m1' n1 n1') _ => l2 d; rewrite e1 e1' /=.
  by clear; case: (ta); case: (tb) => -[q1 [q2 q3]]; split=> //; split=> // a1 a2; rewrite /= q3 ?orbT.
(* UT @ Diag *)
- apply: (ifd _ _ ta TUT); [by move=> _; apply: rets_bindT => ? ?; exact: rk_utm| |by clear; case: (ta); case: (tb)|by []].
  move=> eta; apply: rets_bind (rk_trn ta ha na) _ => l c [/andP[m1 /tyP e1] n1];
  apply: rets_conseq (IH _ _ false false m1 hb n1 nb) _ => l' d; rewrite e1 eta [T _]/=;
  by clear; case: (tb) => -[q1 [q2 q3]]; split=> //; split=> // a1 a2; rewrite /= q3 ?orbT.
(* UT @ UT *)
- case: ifP => hh.
    apply: rets_bindT => ? ?; apply: rets_conseq (rk_ut _) _ => l c /PQ_t; apply=> //.
    by move: hh; clear; case: (ta); case: (tb).
  apply: rets_bind (rk_trn ta ha na) _ => l c [/andP[m1 /tyP e1] n1].
  apply: rets_bind (rk_trn tb hb nb) _ => l' c' [/andP[m1' /tyP e1'] n1'].
  apply: rets_conseq (IH _ _ false false m1 m1' n1 n1') _ => l2 d; rewrite e1 e1' /=.
  by clear; case: (ta); case: (tb) => -[q1 [q2 q3]]; split=> //; split=> // a1 a2; rewrite /= q3 ?orbT.
(* LR @ Const *)
- apply: rets_bind (rk_c2l _ _ _) _ => l c /andP[m1 /tyP e1].
  apply: rets_conseq (IH _ _ ta tb ha m1 na _) _ => [|l' d]; first by move: e1; clear; case: c.
  rewrite e1; move: e1 => _; clear; case: (ta); case: (tb) => -[q1 [q2 q3]]; split=> //; split=> // a1 a2; by rewrite /= q3 ?orbT.
(* LR @ LR *)
- apply: rets_bindT => ? ?; apply: rets_bindT => ? a'; apply: rets_bindT => ? b'.
  case: a' => // *; case: b' => // *; do 4 apply: rets_bindT => ? ?.
  by apply: rets_conseq (rk_lowrank _ _ _) _ => l c /PQ_t; apply=> //; clear; case: (ta); case: (tb).
(* Kron @ Dense *)
- apply: rets_bindT => ? ?; apply: rets_bindT => ? a'; apply: rets_bindT => ? b'.
  case: a' => // kl kr; apply: rets_bindT => ? [? ?]; apply: rets_bindT => ? [? ?].
  case: ifP => _; apply: rets_bindT => ? ?.
    apply: rets_bind (rk_kid _ _ _) _ => ? z nz; apply: rets_ret; rewrite (conv_ns nz); split; [exact isT|split; [by clear; case: (ta); case: (tb)|by clear; case: (ta); case: (tb)]].
  apply: rets_bind (rk_kai _ _ _) _ => ? z nz; apply: rets_ret; rewrite (conv_ns nz); split; [exact isT|split; [by clear; case: (ta); case: (tb)|by clear; case: (ta); case: (tb)]].
(* Kron @ Diag *)
- rewrite /warn; apply: rets_warn; apply: rets_bind (rk_densek _ _ _) _ => l z nz; rewrite mmNl //.
  apply: rets_conseq (IH _ _ ta tb (isT : ismat (mk_dense z)) hb isT nb) _ => l' c [k1 [k2 k3]].
  split=> //; split=> //; move: k2; clear; case: (ta); case: (tb); by case: (T c).
(* Kron @ Kron *)
- by do 4 apply: rets_bindT => ? ?; apply: rets_ret; split=> //; clear; case: (ta); case: (tb).
Qed.
(** Products of equally transposed triangular matrices stay triangular. *)
Lemma SPlt n (x y : tensor) t : ns x -> ns y -> rets (o_matmul (run n) (LT x) (LT y) t t) (fun _ c => isty c (trt TLT t)).
Proof.
move=> nx ny; have k m (x' y' : tensor) : rets (o_matmul (run m) (UT x') (UT y') false false) (fun _ c => isty c TUT).
  by case: m => [//|m]; change (o_matmul (run m.+1)) with (matmul_step (run m));
  rewrite /matmul_step /to_matrix [T _]/= [T _]/= mm_selE [selof _ _ _]/= bind_ret /mm_body; apply: rets_bindT => ? ?; exact: rk_ut.
case: n => [//|n]; change (o_matmul (run n.+1)) with (matmul_step (run n)).
rewrite /matmul_step /to_matrix [T _]/= [T _]/= mm_selE [selof _ _ _]/= bind_ret /mm_body; case: t => /=.
  apply: rets_bind (rk_trn true (isT : ismat (LT x)) nx) _ => ? c [/andP[m1 /tyP e1] n1].
  apply: rets_bind (rk_trn true (isT : ismat (LT y)) ny) _ => ? c' [/andP[m1' /tyP e1'] n1'].
  case: c m1 e1 n1 => // t _ _ _; case: c' m1' e1' n1' => // t' _ _ _; exact: k.
by apply: rets_bindT => ? ?; exact: rk_lt.
Qed.
Lemma SPut n (x y : tensor) t : ns x -> ns y -> rets (o_matmul (run n) (UT x) (UT y) t t) (fun _ c => isty c (trt TUT t)).
Proof.
move=> nx ny; have k m (x' y' : tensor) : rets (o_matmul (run m) (LT x') (LT y') false false) (fun _ c => isty c TLT).
  by case: m => [//|m]; change (o_matmul (run m.+1)) with (matmul_step (run m));
  rewrite /matmul_step /to_matrix [T _]/= [T _]/= mm_selE [selof _ _ _]/= bind_ret /mm_body; apply: rets_bindT => ? ?; exact: rk_lt.
case: n => [//|n]; change (o_matmul (run n.+1)) with (matmul_step (run n)).
rewrite /matmul_step /to_matrix [T _]/= [T _]/= mm_selE [selof _ _ _]/= bind_ret /mm_body; case: t => /=.
  apply: rets_bind (rk_trn true (isT : ismat (UT x)) nx) _ => ? c [/andP[m1 /tyP e1] n1].
  apply: rets_bind (rk_trn true (isT : ismat (UT y)) ny) _ => ? c' [/andP[m1' /tyP e1'] n1'].
  case: c m1 e1 n1 => // t _ _ _; case: c' m1' e1' n1' => // t' _ _ _; exact: k.
by apply: rets_bindT => ? ?; exact: rk_ut.
Qed.
End Types.
