(** * C33: the caches of dense arrays, Cholesky factors and Schur complements are transparent *)
From mathcomp Require Import all_ssreflect all_algebra.
From Verif Require Import Outcome Shape Tensor Mat Dispatch Ops Ops2 Block Backend Solve Cache CacheThy CacheThy2 CacheThy3.
From Verif Require Import Spec TensorThy2 SpecLA Monad Api LinAlg MxThy InvThy PropsInv CholThy PropsLA Samples.
Set Implicit Arguments. Unset Strict Implicit. Unset Printing Implicit Defensive.
Import GRing.Theory Num.Theory.
Local Open Scope ring_scope.

(** ** Specification *)
(** What the caller sees: a value or an exception. *)
Definition seen A (m : outcome A) : A + exn := match m with Ret _ v => inl v | RaiseL _ e => inr e end.
(** At every large enough recursion limit the call gives [r]. *)
Definition gives A (f : nat -> outcome A) (r : A + exn) : Prop := exists n0, forall n, (n0 <= n)%N -> seen (f n) = r.
(** Two calls agree: what either gives at some recursion limit (other than running into the limit), the other gives at every
    large enough limit.  The argument is the recursion limit. *)
Definition agree A (f g : nat -> outcome A) : Prop :=
  (forall n, seen (f n) <> inr RecursionError -> gives g (seen (f n))) /\
  (forall n, seen (g n) <> inr RecursionError -> gives f (seen (g n))).

Lemma ev_seen A (m : outcome A) f : ev m f -> seen m <> inr RecursionError -> gives f (seen m).
Proof.
case: m => [l v|l e] /=; first by case=> n0 h _; exists n0 => n /h[l' ->].
by case=> [->|[n0 h] _]; [case|exists n0 => n /h[l' ->]].
Qed.
Lemma agreeI A (f g : nat -> outcome A) : (forall n, ev (f n) g) -> (forall n, ev (g n) f) -> agree f g.
Proof. by move=> h1 h2; split=> n; [move: (h1 n)|move: (h2 n)] => /ev_seen. Qed.
Lemma ev_eql A (m m' : outcome A) f f' : m = m' -> (forall n, f n = f' n) -> ev m f -> ev m' f'.
Proof. by move=> -> e; exact: ev_eq. Qed.
(** The agreement determines the outcome: a call which settles does so with the same outcome. *)
Lemma agree_gives A (f g : nat -> outcome A) r : agree f g -> r <> inr RecursionError -> gives f r <-> gives g r.
Proof. by case=> h1 h2 nr; split=> -[n0 h]; have e := h n0 (leqnn _); [rewrite -e; apply: h1|rewrite -e; apply: h2]; rewrite e. Qed.

Section PropsCache.
Variable F : rcfType.
Notation tensor := (tensor F).
Notation mat := (mat F).
Variable argsort : seq F -> seq nat.
Notation fresh n := (ops_n argsort n).
Section Reachable.
Variable mix : bool.
(** The slots hold what any history of calls has stored. *)
Variable w : caches F.
Hypothesis reach : reachable argsort mix w.
Notation with_caches n := (cops argsort w n).
Let sd := reach_d reach.
Let sc := reach_c reach.
Let hc n : evo (with_caches n) (fun n => fresh n) := evo_cf sd n.
Let hf n : evo (fresh n) (fun n => with_caches n) := evo_fc sd n.

(** Any call which is a function of the core operations. *)
Lemma core_agree A (f : ops F -> outcome A) :
  (forall o g, evo o g -> ev (f o) (fun n => f (g n))) -> agree (fun n => f (with_caches n)) (fun n => f (fresh n)).
Proof. by move=> H; apply: agreeI => n; [exact: (H _ _ (hc n))|exact: (H _ _ (hf n))]. Qed.
(** dense, matmul, add, multiply, sum, diag, with any history of calls of dense, cholesky, schur, pd_schur. *)
Theorem C33_core a b ta tb ax :
  [/\ agree (fun n => o_dense (with_caches n) a) (fun n => o_dense (fresh n) a),
      agree (fun n => o_matmul (with_caches n) a b ta tb) (fun n => o_matmul (fresh n) a b ta tb),
      agree (fun n => o_add (with_caches n) a b) (fun n => o_add (fresh n) a b),
      agree (fun n => o_mul (with_caches n) a b) (fun n => o_mul (fresh n) a b) &
      [/\ agree (fun n => sum_op (with_caches n) a ax) (fun n => sum_op (fresh n) a ax) &
          agree (fun n => o_diag (with_caches n) a) (fun n => o_diag (fresh n) a)]].
Proof.
split; last split.
- exact: (core_agree (f := fun o => o_dense o a) (fun o g h => ev_dense h a)).
- exact: (core_agree (f := fun o => o_matmul o a b ta tb) (fun o g h => ev_mm h a b ta tb)).
- exact: (core_agree (f := fun o => o_add o a b) (fun o g h => ev_add h a b)).
- exact: (core_agree (f := fun o => o_mul o a b) (fun o g h => ev_mul h a b)).
- exact: (core_agree (f := fun o => sum_op o a ax) (fun o g h => ev_sum_op h a ax)).
- exact: (core_agree (f := fun o => o_diag o a) (fun o g h => ev_diag h a)).
Qed.
(** The other operations built on them ([kron] calls none of them). *)
Theorem C33_derived a b ta tb (p : int) axis f x reps ds xs rows :
  [/\ agree (fun n => subtract (with_caches n) a b) (fun n => subtract (fresh n) a b),
      agree (fun n => divide (with_caches n) a b) (fun n => divide (fresh n) a b),
      agree (fun n => mean_op (with_caches n) a axis) (fun n => mean_op (fresh n) a axis),
      agree (fun n => trace (with_caches n) a) (fun n => trace (fresh n) a) &
      agree (fun n => elementwise (with_caches n) f a) (fun n => elementwise (fresh n) f a)] /\
  [/\ agree (fun n => matmul_diag (with_caches n) a b ta tb) (fun n => matmul_diag (fresh n) a b ta tb),
      agree (fun n => tile_op (with_caches n) a reps) (fun n => tile_op (fresh n) a reps),
      agree (fun n => concat_op (with_caches n) xs p) (fun n => concat_op (fresh n) xs p),
      agree (fun n => reshape_op (with_caches n) a ds) (fun n => reshape_op (fresh n) a ds) &
      agree (fun n => squeeze_op (with_caches n) a) (fun n => squeeze_op (fresh n) a)] /\
  [/\ agree (fun n => take_op (with_caches n) a x p) (fun n => take_op (fresh n) a x p),
      agree (fun n => submatrix (with_caches n) a x) (fun n => submatrix (fresh n) a x),
      agree (fun n => block (with_caches n) rows) (fun n => block (fresh n) rows) &
      agree (fun n => block_diag (with_caches n) xs) (fun n => block_diag (fresh n) xs)].
Proof.
split; [split|split; split].
- exact: (core_agree (f := fun o => subtract o a b) (fun o g h => ev_subtract h a b)).
- exact: (core_agree (f := fun o => divide o a b) (fun o g h => ev_divide h a b)).
- exact: (core_agree (f := fun o => mean_op o a axis) (fun o g h => ev_mean h a axis)).
- exact: (core_agree (f := fun o => trace o a) (fun o g h => ev_trace h a)).
- exact: (core_agree (f := fun o => elementwise o f a) (fun o g h => ev_elementwise h f a)).
- exact: (core_agree (f := fun o => matmul_diag o a b ta tb) (fun o g h => ev_matmul_diag h a b ta tb)).
- exact: (core_agree (f := fun o => tile_op o a reps) (fun o g h => ev_tile h a reps)).
- exact: (core_agree (f := fun o => concat_op o xs p) (fun o g h => ev_concat h xs p)).
- exact: (core_agree (f := fun o => reshape_op o a ds) (fun o g h => ev_reshape h a ds)).
- exact: (core_agree (f := fun o => squeeze_op o a) (fun o g h => ev_squeeze h a)).
- exact: (core_agree (f := fun o => take_op o a x p) (fun o g h => ev_take h a x p)).
- exact: (core_agree (f := fun o => submatrix o a x) (fun o g h => ev_submatrix h a x)).
- exact: (core_agree (f := fun o => block o rows) (fun o g h => ev_block h rows)).
- exact: (core_agree (f := fun o => block_diag o xs) (fun o g h => ev_block_diag h xs)).
Qed.
(** cholesky, root, sample. *)
Theorem C33_cholesky a :
  agree (fun n => cholesky_c w (with_caches n) a) (fun n => cholesky (fresh n) a).
Proof.
apply: agreeI => n.
  exact: ev_eql erefl (fun m => cholesky_cN (fresh m) a) (f_chol (hc n) sc a).
exact: ev_eql (cholesky_cN _ _) (fun=> erefl) (b_chol sd n sc a).
Qed.
Theorem C33_root svd a : agree (fun n => root_c w (with_caches n) svd a) (fun n => root (fresh n) svd a).
Proof.
apply: agreeI => n.
  exact: ev_eql erefl (fun m => root_cN (fresh m) svd a) (f_root (hc n) sc svd a).
exact: ev_eql (root_cN _ _ _) (fun=> erefl) (b_root sd n sc svd a).
Qed.
Theorem C33_sample state (randn : state -> dtype -> shape -> state * tensor) st a num :
  agree (fun n => sample_c w (with_caches n) randn st a num) (fun n => sample (fresh n) randn st a num).
Proof.
apply: agreeI => n.
  exact: ev_eql erefl (fun m => sample_cN (fresh m) randn st a num) (f_sample (hc n) sc randn st a num).
exact: ev_eql (sample_cN _ _ _ _ _) (fun=> erefl) (b_sample sd n sc randn st a num).
Qed.
End Reachable.

Section Unmixed.
(** Histories in which schur and pd_schur are not both called on the same object. *)
Variable w : caches F.
Hypothesis reach : reachable argsort false w.
Notation with_caches n := (cops argsort w n).
Let sd := reach_d reach.
Let sc := reach_c reach.
Let ss := reach_s reach.
Let hc n : evo (with_caches n) (fun n => fresh n) := evo_cf sd n.
Let ti := tends_id.
Theorem C33_schur a : agree (fun n => schur_c w (with_caches n) n a) (fun n => schur_n (fresh n) n a).
Proof.
apply: agreeI => n.
  exact: ev_eql erefl (fun m => schur_cN (fresh m) m a) (f_schur (hc n) ss n a ti).
exact: ev_eql (schur_cN _ _ _) (fun=> erefl) (b_schur sd n ss n a ti).
Qed.
Theorem C33_pd_schur a : agree (fun n => pd_schur_c w (with_caches n) n a) (fun n => pd_schur_n (fresh n) n a).
Proof.
apply: agreeI => n.
  exact: ev_eql erefl (fun m => pd_schur_cN (fresh m) m a) (f_pd_schur (hc n) ss sc n a ti).
exact: ev_eql (pd_schur_cN _ _ _) (fun=> erefl) (b_pd_schur sd n ss sc n a ti).
Qed.
Theorem C33_inv a : agree (fun n => inv_c w (with_caches n) n a) (fun n => inv_n (fresh n) n a).
Proof.
apply: agreeI => n.
  exact: ev_eql erefl (fun m => inv_cN (fresh m) m a) (f_inv (hc n) ss n a ti).
exact: ev_eql (inv_cN _ _ _) (fun=> erefl) (b_inv sd n ss n a ti).
Qed.
Theorem C33_pd_inv a : agree (fun n => pd_inv_c w (with_caches n) n a) (fun n => pd_inv_n (fresh n) n a).
Proof.
apply: agreeI => n.
  exact: ev_eql erefl (fun m => pd_inv_cN (fresh m) m a) (f_pd_inv (hc n) ss sc n a ti).
exact: ev_eql (pd_inv_cN _ _ _) (fun=> erefl) (b_pd_inv sd n ss sc n a ti).
Qed.
Theorem C33_solve a b : agree (fun n => solve_k w (with_caches n) n a b) (fun n => solve (fresh n) n a b).
Proof.
apply: agreeI => n.
  exact: ev_eql erefl (fun m => solve_cN a b (inv_cN (fresh m) m)) (f_solve (hc n) ss n a b ti).
exact: ev_eql (solve_cN _ _ (inv_cN _ _)) (fun=> erefl) (b_solve sd n ss n a b ti).
Qed.
Theorem C33_cholesky_solve a b :
  agree (fun n => cholesky_solve_c (with_caches n) (inv_c w (with_caches n) n) a b) (fun n => cholesky_solve (fresh n) n a b).
Proof.
apply: agreeI => n.
  exact: ev_eql erefl (fun m => csolve_cN a b (inv_cN (fresh m) m)) (f_csolve (hc n) ss n a b ti).
exact: ev_eql (csolve_cN _ _ (inv_cN _ _)) (fun=> erefl) (b_csolve sd n ss n a b ti).
Qed.
Theorem C33_logdet log a : agree (fun n => logdet_c log w (with_caches n) n a) (fun n => logdet_n (fresh n) log n a).
Proof.
apply: agreeI => n.
  exact: ev_eql erefl (fun m => logdet_cN (fresh m) log m a) (f_logdet (hc n) ss sc log n a ti).
exact: ev_eql (logdet_cN _ _ _ _) (fun=> erefl) (b_logdet sd n ss sc log n a ti).
Qed.
Theorem C33_iqf a b c same : agree (fun n => iqf_c w (with_caches n) n a b c same) (fun n => iqf (fresh n) n a b c same).
Proof.
apply: agreeI => n.
  exact: ev_eql erefl (fun m => iqf_cN (fresh m) m a b c same) (f_iqf (hc n) ss sc n a b c same ti).
exact: ev_eql (iqf_cN _ _ _ _ _ _) (fun=> erefl) (b_iqf sd n ss sc n a b c same ti).
Qed.
Theorem C33_iqf_diag a b c same :
  agree (fun n => iqf_diag_c w (with_caches n) n a b c same) (fun n => iqf_diag (fresh n) n a b c same).
Proof.
apply: agreeI => n.
  exact: ev_eql erefl (fun m => iqf_diag_cN (fresh m) m a b c same) (f_iqf_diag (hc n) ss sc n a b c same ti).
exact: ev_eql (iqf_diag_cN _ _ _ _ _ _) (fun=> erefl) (b_iqf_diag sd n ss sc n a b c same ti).
Qed.
Theorem C33_ratio a b : agree (fun n => ratio_c w (with_caches n) n a b) (fun n => ratio (fresh n) n a b).
Proof.
apply: agreeI => n.
  exact: ev_eql erefl (fun m => ratio_cN (fresh m) m a b) (f_ratio (hc n) ss sc n a b ti).
exact: ev_eql (ratio_cN _ _ _ _) (fun=> erefl) (b_ratio sd n ss sc n a b ti).
Qed.
End Unmixed.
End PropsCache.

(** ** Non-vacuity and the shared slot *)
Section Examples.
Variable F : rcfType.
Notation tensor := (tensor F).
Notation mat := (mat F).
Variable argsort : seq F -> seq nat.
Notation fresh n := (ops_n argsort n).
Definition found A (m : outcome A) : option A := if m is Ret _ v then Some v else None.
(** Every slot is filled. *)
Definition full (N : nat) : caches F := Caches (fun _ a => found (o_dense (fresh N) a)) (fun a => found (cholesky (fresh N) a))
  (fun p a => omap (pair p) (found (if p then pd_schur_n (fresh N) N a else schur_n (fresh N) N a))).
Lemma reach0 mix : reachable argsort mix no_caches. Proof. by split=> // _ p a q s. Qed.
Lemma store mix a e l N : match e with
    | EDense t => o_dense (fresh N) a = Ret l t
    | EChol c => cholesky (fresh N) a = Ret l c
    | ESchur false s => schur_n (fresh N) N a = Ret l s
    | ESchur true s => pd_schur_n (fresh N) N a = Ret l s
    end -> stored argsort mix a e.
Proof.
move=> h; apply: (@Stored _ _ mix no_caches a e N N l) => //.
by case: e h => [t|c|[|] s] h; rewrite copsN ?cholesky_cN ?schur_cN ?pd_schur_cN.
Qed.
Lemma foundP A (m : outcome A) v : found m = Some v -> exists l, m = Ret l v.
Proof. by case: m => //= l a [<-]; exists l. Qed.
Lemma full_reach mix N : reachable argsort mix (full N).
Proof.
split=> /=.
- by move=> _ a t h0; case: (foundP h0) => l h; exact: (@store mix a (EDense t) l N).
- by move=> a c h0; case: (foundP h0) => l h; exact: (@store mix a (EChol c) l N).
- move=> p a q s; case e: (found _) => [s'|] //= [<- <-]; case: (foundP e) => l h.
  by case: p h {e} => h; [exact: (@store mix a (ESchur true s') l N)|exact: (@store mix a (ESchur false s') l N)].
- by move=> _ p a q s /=; case: (found _) => //= s' [-> _].
Qed.
(** The Woodbury matrix [1 + 1 m 1^T] of size 1 with [m = -1]. *)
Definition x_m : mat := Dense (t_full DFloat64 [:: 1; 1]%N (-1)).
Definition x_wb : mat := Wb (t_ones DFloat64 [:: 1]%N) (Dense (t_ones DFloat64 [:: 1; 1]%N)) (Dense (t_ones DFloat64 [:: 1; 1]%N)) x_m.
Lemma x_m_inv : exists u, inv_n (fresh 6) 6 x_m = ret (mk_dense u) /\ sh u = [:: 1; 1]%N.
Proof.
have e : t_inv (t_full DFloat64 [:: 1; 1]%N (-1) : tensor) = ret (Tensor DFloat64 [:: 1; 1]%N
    (fun idx => if idx is j :: i :: be then mget (invmx (gmx 1 1 (mx (t_full DFloat64 [:: 1; 1]%N (-1) : tensor) be))) i j else 0)).
  rewrite /t_inv /t_square; case: ifP => // /negP[]; apply/andP; split=> //; apply: allidxI => -[|//] _.
  have -> : gmx 1 1 (mx (t_full DFloat64 [:: 1%N; 1%N] (-1) : tensor) [::]) = (-1)%:M by apply/matrixP => i j; rewrite !mxE !ord1.
  by rewrite unitmxE det_scalar unitfE expf_neq0 // oppr_eq0 oner_eq0.
by eexists; split; [rewrite /x_m; cbn [inv_n]; rewrite e bind_ret|].
Qed.
Lemma x_schur : exists l s, schur_n (fresh 6) 6 x_wb = Ret l s.
Proof.
have [u [e1 e2]] := x_m_inv; rewrite /x_wb /schur_n /schur_with e1; clear e1.
case: u e2 => d0 s0 f0 /= ->.
by eexists; eexists; vm_compute; reflexivity.
Qed.
Lemma x_pd_schur : exists l, pd_schur_n (fresh 6) 6 x_wb = RaiseL l LinAlgError.
Proof.
have e : pd_inv_n (fresh 6) 6 x_m = Raise LinAlgError.
  have e : t_chol (t_full DFloat64 [:: 1; 1]%N (-1) : tensor) = Raise LinAlgError.
    rewrite /t_chol /t_square; case: ifP => // /andP[_ h]; have := allidxP h (isT : okb [::] [::]).
    by rewrite /= !mxE /= ltr0N1.
  by rewrite /x_m; cbn [pd_inv_n to_matrix cholesky]; rewrite e.
rewrite /x_wb /pd_schur_n /schur_with e; clear e; eexists; vm_compute; reflexivity.
Qed.
(** The histories of the theorems may fill every slot. *)
Example C33_ex : reachable argsort false (full 6) /\ exists s, c_schur (full 6) false x_wb = Some (false, s).
Proof. by split; [exact: full_reach|have [l [s e]] := x_schur; exists s; rewrite /full /c_schur e]. Qed.
(** schur and pd_schur share one slot: after schur has been called, pd_schur returns a value although a fresh call
    raises. *)
Definition after_schur : caches F := Caches (fun _ _ => None) (fun _ => None)
  (fun p a => if p then omap (pair false) (found (schur_n (fresh 6) 6 a)) else None).
Theorem C33_shared_slot_refuted : reachable argsort true after_schur /\
  ~ agree (fun n => pd_schur_c after_schur (cops argsort after_schur n) n x_wb) (fun n => pd_schur_n (fresh n) n x_wb).
Proof.
split.
  split=> // p a q s /=; case: p => //; case e: (found _) => [s'|] //= [<- <-]; case: (foundP e) => l h.
  exact: (@store true a (ESchur false s') l 6).
have [l [s e]] := x_schur; have [l' e'] := x_pd_schur.
have nr : seen (RaiseL l' LinAlgError : outcome mat) <> inr RecursionError by [].
case=> _ h; have {}h := h 6%N; rewrite e' in h; have [n0 h0] := h nr; have {h0} := h0 n0 (leqnn _).
by rewrite /pd_schur_c /after_schur /c_schur e.
Qed.
End Examples.
Print Assumptions C33_core. Print Assumptions C33_derived. Print Assumptions C33_cholesky. Print Assumptions C33_root.
Print Assumptions C33_sample. Print Assumptions C33_schur. Print Assumptions C33_pd_schur. Print Assumptions C33_inv. Print Assumptions C33_pd_inv.
Print Assumptions C33_solve. Print Assumptions C33_cholesky_solve. Print Assumptions C33_logdet. Print Assumptions C33_iqf.
Print Assumptions C33_iqf_diag. Print Assumptions C33_ratio. Print Assumptions C33_shared_slot_refuted.
