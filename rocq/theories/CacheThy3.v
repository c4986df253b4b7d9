(** * Caches do not change results (proof support for C33) *)
From mathcomp Require Import all_ssreflect all_algebra.
From Verif Require Import Outcome Shape Tensor Mat Dispatch Ops Ops2 Block Backend Solve Cache CacheThy CacheThy2.
Set Implicit Arguments. Unset Strict Implicit. Unset Printing Implicit Defensive.
Import GRing.Theory Num.Theory.
Local Open Scope ring_scope.
Local Opaque lookup.
Local Arguments bind : simpl never.
Local Arguments ev : simpl never.
Local Arguments warn_if : simpl never.
Local Arguments mk_const : simpl never.
Local Arguments solve_c : simpl never.

Definition tends (phi : nat -> nat) : Prop := forall k, exists n0, forall n, (n0 <= n)%N -> (k <= phi n)%N.
Lemma tends_id : tends id. Proof. by move=> k; exists k. Qed.
Lemma tends_pred phi : tends phi -> tends (fun n => (phi n).-1).
Proof. by move=> h k; case: (h k.+1) => n0 H; exists n0 => n /H; case: (phi n). Qed.
Lemma ev_ge A (m : outcome A) (f f' : nat -> outcome A) n0 : (forall n, (n0 <= n)%N -> f n = f' n) -> ev m f -> ev m f'.
Proof.
move=> e; case: m => [l a|l x]; rewrite /ev.
  by case=> n1 h; exists (maxn n0 n1) => n; rewrite geq_max => /andP[/e <- /h].
by case=> [->|[n1 h]]; [left|right; exists (maxn n0 n1) => n; rewrite geq_max => /andP[/e <- /h]].
Qed.
Lemma ev_eq A (m : outcome A) (f f' : nat -> outcome A) : (forall n, f n = f' n) -> ev m f -> ev m f'.
Proof. by move=> e; apply: (@ev_ge _ _ _ _ 0%N) => n _; exact: e. Qed.
Lemma ev_fuel A (m : outcome A) (f : nat -> nat -> outcome A) phi : tends phi ->
  ev m (fun n => f n (phi n).-1.+1) -> ev m (fun n => f n (phi n)).
Proof. by move=> h; case: (h 1%N) => n0 H; apply: (@ev_ge _ _ _ _ n0) => n /H; case: (phi n). Qed.
Lemma ev_bot A l (f : nat -> outcome A) : ev (RaiseL l RecursionError) f. Proof. by left. Qed.
(** A hit on the left, on the right. *)
Lemma ev_cached_l A (slot : option A) m fr : (forall v, slot = Some v -> ev (ret v) fr) -> ev m fr -> ev (cached slot m) fr.
Proof. by case: slot => [v|] h hm //=; apply: h. Qed.
Lemma ev_cached_r A (slot : nat -> option A) m f fr :
  (forall n v, slot n = Some v -> ev (ret v) fr) -> ev m fr -> ev m f -> ev m (fun n => cached (slot n) (f n)).
Proof.
move=> hs; case: m => [l a|l e]; rewrite /ev.
  case=> n1 h1 [n2 h2]; exists n2 => n hn; case es: (slot n) => [v|] /=; last exact: h2.
  case: (hs _ _ es) => n3 h3; have [l1] := h1 _ (leq_maxl n1 n3); have [l3 ->] := h3 _ (leq_maxr n1 n3).
  by case=> _ ->; exists log0.
case=> [->|[n1 h1]]; first by left.
case=> [->|[n2 h2]]; first by left.
right; exists n2 => n hn; case es: (slot n) => [v|] /=; last exact: h2.
by case: (hs _ _ es) => n3 h3; have [l1] := h1 _ (leq_maxl n1 n3); have [l3 ->] := h3 _ (leq_maxr n1 n3).
Qed.

Section Sound.
Variable F : rcfType.
Notation tensor := (tensor F).
Notation mat := (mat F).
Variable argsort : seq F -> seq nat.
Notation fresh n := (ops_n argsort n).

(** ** Empty caches *)
Lemma copsN n : cops argsort no_caches n = fresh n.
Proof. by elim: n => //= n ->. Qed.
Lemma cholesky_cN (o : ops F) a : cholesky_c no_caches o a = cholesky o a.
Proof. by elim: a => //= [l _ r _ m ->|l -> r ->]. Qed.
Lemma wi_eq (o : ops F) s s' inv inv' d l r m : s = s' -> (forall x, inv x = inv' x) ->
  woodbury_inv_body o s inv d l r m = woodbury_inv_body o s' inv' d l r m.
Proof.
by move=> -> e; rewrite /woodbury_inv_body; do 4!apply: eq_bind => // ?; rewrite e.
Qed.
Lemma inv_cN (o : ops F) k a : inv_c no_caches o k a = inv_n o k a.
Proof.
elim: k a => // k IH [t|d b r c|t|t|t r c|t|t|l r m|d l r m|l r] //=; last by rewrite !IH.
rewrite /woodbury_inv; apply: wi_eq => //=; rewrite /schur_with; do 2!apply: eq_bind => // ?; by rewrite IH.
Qed.
Lemma schur_cN (o : ops F) k a : schur_c no_caches o k a = schur_n o k a.
Proof. by case: a => //= d l r m; rewrite /schur_c /= /schur_with; do 2!apply: eq_bind => // ?; rewrite inv_cN. Qed.
Lemma solve_cN (o : ops F) k inv a b : (forall x, inv x = inv_n o k x) -> solve_c o inv a b = solve o k a b.
Proof.
move=> e; have H a' b' : solve_m_c o inv a' b' = solve_m o k a' b'.
  by apply: eq_bind => // i; case: i => //=; rewrite e.
by rewrite /solve_c /solve; case: a => *; case: b => *; rewrite ?H.
Qed.
Lemma csolve_cN (o : ops F) k inv a b : (forall x, inv x = inv_n o k x) -> cholesky_solve_c o inv a b = cholesky_solve o k a b.
Proof.
move=> e; elim: a b => [t|d b0 r c|t|t|t r c|t|t|l IHl r IHr m IHm|d l IHl r IHr m IHm|l IHl r IHr] b /=;
  apply: eq_bind => // i; case: i => //; rewrite ?(solve_cN _ _ e); try by apply: eq_bind => // ?; apply: eq_bind => // ?; exact: solve_cN.
by case: b => // l' r'; rewrite IHl; apply: eq_bind => // ?; rewrite IHr.
Qed.
Lemma pd_inv_cN (o : ops F) k a : pd_inv_c no_caches o k a = pd_inv_n o k a.
Proof.
elim: k a => // k IH a.
have H x : (do c <- cholesky_c no_caches o x; do e <- eye_of x; do t <- o_dense o e; cholesky_solve_c o (inv_c no_caches o k) c (Nm t)) =
  (do c <- cholesky o x; do e <- eye_of x; do t <- o_dense o e; cholesky_solve o k c (Nm t)).
  rewrite cholesky_cN; do 3!apply: eq_bind => // ?; apply: csolve_cN; exact: inv_cN.
case: a => [t|d b r c|t|t|t r c|t|t|l r m|d l r m|l r] /=; try by [|exact: H].
  rewrite /woodbury_inv; apply: wi_eq => //=; rewrite /schur_with; do 2!apply: eq_bind => // ?; by rewrite IH.
by rewrite !IH.
Qed.
Lemma pd_schur_cN (o : ops F) k a : pd_schur_c no_caches o k a = pd_schur_n o k a.
Proof. by case: a => //= d l r m; rewrite /pd_schur_c /= /schur_with; do 2!apply: eq_bind => // ?; rewrite pd_inv_cN. Qed.
Lemma logdet_cN (o : ops F) log k a : logdet_c log no_caches o k a = logdet_n o log k a.
Proof.
elim: k a => // k IH [t|d b r c|t|t|t r c|t|t|l r m|d l r m|l r] //=; rewrite ?cholesky_cN ?IH //.
- by apply: eq_bind => // ?; rewrite IH.
- by apply: eq_bind => // ?; rewrite IH.
- by apply: eq_bind => // ?; rewrite IH.
- by apply: eq_bind => // ?; rewrite IH.
- do 3!apply: eq_bind => // ?; apply: eq_bind => [|?]; [exact: pd_schur_cN|by rewrite IH].
Qed.
Lemma parts_cN (o : ops F) k a b c same : iqf_parts_c no_caches o k a b c same = iqf_parts o k a b c same.
Proof.
rewrite /iqf_parts_c cholesky_cN; apply: eq_bind => // ch; rewrite /solve_k (solve_cN _ _ (inv_cN o k)); apply: eq_bind => // cb.
by case: same => //; rewrite (solve_cN _ _ (inv_cN o k)).
Qed.
Lemma iqf_cN (o : ops F) k a b c same : iqf_c no_caches o k a b c same = iqf o k a b c same.
Proof. by rewrite /iqf_c /iqf; case: a => *; rewrite ?parts_cN ?pd_inv_cN. Qed.
Lemma iqf_diag_cN (o : ops F) k a b c same : iqf_diag_c no_caches o k a b c same = iqf_diag o k a b c same.
Proof. by rewrite /iqf_diag_c /iqf_diag; case: a => *; rewrite ?parts_cN ?pd_inv_cN. Qed.
Lemma ratio_cN (o : ops F) k a b : ratio_c no_caches o k a b = ratio o k a b.
Proof.
by rewrite /ratio_c /ratio; case: b => *; rewrite ?cholesky_cN ?pd_inv_cN //; apply: eq_bind => // ?; rewrite iqf_diag_cN.
Qed.
Lemma root_cN (o : ops F) svd a : root_c no_caches o svd a = root o svd a.
Proof. by elim: a => //= l -> r ->. Qed.
Lemma sample_gen_cN (o : ops F) state (randn : state -> dtype -> shape -> state * tensor) st a num :
  sample_gen_c no_caches o randn st a num = sample_gen o randn st a num.
Proof. by rewrite /sample_gen_c /sample_gen cholesky_cN. Qed.
Lemma sample_cN (o : ops F) state (randn : state -> dtype -> shape -> state * tensor) st a num :
  sample_c no_caches o randn st a num = sample o randn st a num.
Proof.
rewrite /sample_c /sample; case: a => *; rewrite ?sample_gen_cN //.
Qed.

(** ** Sound slots *)
Definition sound_d (w : caches F) : Prop := forall i a t, c_dense w i a = Some t -> ev (ret t) (fun n => o_dense (fresh n) a).
Definition sound_c (w : caches F) : Prop := forall a c, c_chol w a = Some c -> ev (ret c) (fun n => cholesky_c no_caches (fresh n) a).
Definition sound_s (w : caches F) : Prop := forall (p : bool) a q s, c_schur w p a = Some (q, s) -> forall phi, tends phi ->
  ev (ret s) (fun n => if p then pd_schur_c no_caches (fresh n) (phi n) a else schur_c no_caches (fresh n) (phi n) a).
Lemma sound_d0 : sound_d no_caches. Proof. by []. Qed.
Lemma sound_c0 : sound_c no_caches. Proof. by []. Qed.
Lemma sound_s0 : sound_s no_caches. Proof. by []. Qed.

(** The core operations. *)
Lemma evo_cf w : sound_d w -> forall n, evo (cops argsort w n) (fun n => fresh n).
Proof.
move=> sd; elim=> [|n IH]; first by split=> *; exact: ev_bot.
split=> *; [apply: ev_cached_l => [v /sd //|]|..]; apply: ev_shift.
- exact: ev_dense_step.
- exact: ev_mm_step.
- exact: ev_add_step.
- exact: ev_mul_step.
- exact: ev_sumax_step.
- exact: ev_sumall_step.
- exact: ev_diag_step.
Qed.
Lemma evo_ff n : evo (fresh n) (fun n => fresh n). Proof. by rewrite -copsN; exact: evo_cf. Qed.
Lemma evo_fc w : sound_d w -> forall n, evo (fresh n) (cops argsort w).
Proof.
move=> sd; elim=> [|n IH]; first by split=> *; exact: ev_bot.
split=> [a|a b ta tb|a b|a b|a ax|a|a]; apply: ev_shift.
- apply: (@ev_cached_r _ _ _ _ (fun n => o_dense (fresh n) a)) => [m v /sd //||]; first exact: (ev_dense (evo_ff n.+1)).
  exact: ev_dense_step.
- exact: ev_mm_step.
- exact: ev_add_step.
- exact: ev_mul_step.
- exact: ev_sumax_step.
- exact: ev_sumall_step.
- exact: ev_diag_step.
Qed.

Ltac evs h ext := repeat first
  [ match goal with |- ev ?m (fun _ => ?m) => exact (ev_const m) end
  | match goal with
    | |- ev (o_dense _ _) _ => exact: (ev_dense h)
    | |- ev (o_matmul _ _ _ _ _) _ => exact: (ev_mm h)
    | |- ev (o_add _ _ _) _ => exact: (ev_add h)
    | |- ev (mm3 _ _ _ _ _ _ _) _ => exact: (ev_mm3 h)
    | |- ev (matmul_diag _ _ _ _ _) _ => exact: (ev_matmul_diag h)
    | |- ev (trace _ _) _ => exact: (ev_trace h)
    | |- ev (bind _ (fun x => let '(_, _) := x in _)) _ => apply: ev_bind => [|[? ?]]
    | |- ev (bind _ _) _ => apply: ev_bind => [|?]
    end
  | ext
  | match goal with
    | |- ev (if ?b then _ else _) _ => destruct b
    | |- ev (match ?x with _ => _ end) _ => destruct x
    end ].

(** ** A call in the presence of caches has the outcome of the fresh call *)
Section Forward.
Variable w : caches F.
Variable o : ops F.
Hypothesis h : evo o (fun n => fresh n).
Section Chol.
Hypothesis sc : sound_c w.
Lemma f_chol a : ev (cholesky_c w o a) (fun n => cholesky_c no_caches (fresh n) a).
Proof.
elim: a => [t|d b0 r c|t|t|t r c|t|t|l IHl r IHr m IHm|d l IHl r IHr m IHm|l IHl r IHr] /=;
  (apply: ev_cached_l => [v /sc //|]); evs h ltac:(first [simple apply IHm|simple apply IHl|simple apply IHr]).
Qed.
Variable svd : forall n, 'M[F]_n -> 'M[F]_n * 'rV[F]_n * 'M[F]_n.
Lemma f_root a : ev (root_c w o svd a) (fun n => root_c no_caches (fresh n) svd a).
Proof.
elim: a => [t|d b0 r c|t|t|t r c|t|t|l IHl r IHr m IHm|d l IHl r IHr m IHm|l IHl r IHr];
  rewrite -/(root_c w o svd) /=; evs h ltac:(first [simple apply IHl|simple apply IHr|exact: (f_chol (Diag t))|exact: (f_chol (Const t r c))]).
Qed.
Lemma f_sample_gen state (randn : state -> dtype -> shape -> state * tensor) st a num :
  ev (sample_gen_c w o randn st a num) (fun n => sample_gen_c no_caches (fresh n) randn st a num).
Proof. by rewrite /sample_gen_c; evs h ltac:(simple apply f_chol). Qed.
Lemma f_sample state (randn : state -> dtype -> shape -> state * tensor) st a num :
  ev (sample_c w o randn st a num) (fun n => sample_c no_caches (fresh n) randn st a num).
Proof. by rewrite /sample_c; case: a => *; evs h ltac:(simple apply f_sample_gen). Qed.
End Chol.
Section Schur.
Hypothesis ss : sound_s w.
Lemma f_inv k a phi : tends phi -> ev (inv_c w o k a) (fun n => inv_c no_caches (fresh n) (phi n) a).
Proof.
elim: k a phi => [|k IH] a phi tp; first exact: ev_bot.
apply: (@ev_fuel _ _ (fun n f => inv_c no_caches (fresh n) f a)) => //=; have tp' := tends_pred tp.
apply: (ev_inv_body h) => [x|x]; first exact: (IH _ _ tp').
apply: ev_cached_l => [v|]; first by case e: (c_schur w false x) => [[q s]|] //= [<-]; have := ss e tp'.
by apply: (ev_schur_body h) => y; exact: IH.
Qed.
Lemma f_schur k a phi : tends phi -> ev (schur_c w o k a) (fun n => schur_c no_caches (fresh n) (phi n) a).
Proof.
move=> tp; apply: ev_cached_l => [v|]; first by case e: (c_schur w false a) => [[q s]|] //= [<-]; have := ss e tp.
by apply: (ev_schur_body h) => y; exact: f_inv.
Qed.
Lemma f_solve k a b phi : tends phi -> ev (solve_k w o k a b) (fun n => solve_k no_caches (fresh n) (phi n) a b).
Proof. by move=> tp; apply: (ev_solve h) => x; exact: f_inv. Qed.
Lemma f_csolve k a b phi : tends phi ->
  ev (cholesky_solve_c o (inv_c w o k) a b) (fun n => cholesky_solve_c (fresh n) (inv_c no_caches (fresh n) (phi n)) a b).
Proof. by move=> tp; apply: (ev_csolve h) => x; exact: f_inv. Qed.
Hypothesis sc : sound_c w.
Lemma f_pd_inv k a phi : tends phi -> ev (pd_inv_c w o k a) (fun n => pd_inv_c no_caches (fresh n) (phi n) a).
Proof.
elim: k a phi => [|k IH] a phi tp; first exact: ev_bot.
apply: (@ev_fuel _ _ (fun n f => pd_inv_c no_caches (fresh n) f a)) => //=; have tp' := tends_pred tp.
apply: (ev_pd_inv_body h) => [x|x|x|x]; [exact: f_chol|exact: f_inv| |exact: IH].
apply: ev_cached_l => [v|]; first by case e: (c_schur w true x) => [[q s]|] //= [<-]; have := ss e tp'.
by apply: (ev_schur_body h) => y; exact: IH.
Qed.
Lemma f_pd_schur k a phi : tends phi -> ev (pd_schur_c w o k a) (fun n => pd_schur_c no_caches (fresh n) (phi n) a).
Proof.
move=> tp; apply: ev_cached_l => [v|]; first by case e: (c_schur w true a) => [[q s]|] //= [<-]; have := ss e tp.
by apply: (ev_schur_body h) => y; exact: f_pd_inv.
Qed.
Lemma f_logdet log k a phi : tends phi -> ev (logdet_c log w o k a) (fun n => logdet_c log no_caches (fresh n) (phi n) a).
Proof.
elim: k a phi => [|k IH] a phi tp; first exact: ev_bot.
apply: (@ev_fuel _ _ (fun n f => logdet_c log no_caches (fresh n) f a)) => //=; have tp' := tends_pred tp.
by apply: (ev_logdet_body h) => [x|x|x]; [exact: f_chol|exact: f_pd_schur|exact: IH].
Qed.
Lemma f_parts k a b c same phi : tends phi ->
  ev (iqf_parts_c w o k a b c same) (fun n => iqf_parts_c no_caches (fresh n) (phi n) a b c same).
Proof. by move=> tp; rewrite /iqf_parts_c; evs h ltac:(first [exact: f_chol|exact: f_solve]). Qed.
Lemma f_iqf k a b c same phi : tends phi -> ev (iqf_c w o k a b c same) (fun n => iqf_c no_caches (fresh n) (phi n) a b c same).
Proof. by move=> tp; rewrite /iqf_c; case: a => *; evs h ltac:(first [exact: f_parts|exact: f_pd_inv]). Qed.
Lemma f_iqf_diag k a b c same phi : tends phi ->
  ev (iqf_diag_c w o k a b c same) (fun n => iqf_diag_c no_caches (fresh n) (phi n) a b c same).
Proof. by move=> tp; rewrite /iqf_diag_c; case: a => *; evs h ltac:(first [exact: f_parts|exact: f_pd_inv]). Qed.
Lemma f_ratio k a b phi : tends phi -> ev (ratio_c w o k a b) (fun n => ratio_c no_caches (fresh n) (phi n) a b).
Proof.
by move=> tp; rewrite /ratio_c /trace_mm; case: b => *; evs h ltac:(first [exact: f_chol|exact: f_pd_inv|exact: f_iqf_diag]).
Qed.
End Schur.
End Forward.

(** ** The fresh call has the outcome of the call in the presence of caches *)
Section Backward.
Variable w : caches F.
Hypothesis sd : sound_d w.
Notation cop n := (cops argsort w n).
Variable n0 : nat.
Notation o := (fresh n0).
Let h : evo o (fun n => cop n) := evo_fc sd n0.
Let hf : evo o (fun n => fresh n) := evo_ff n0.
Lemma cholesky_cE (v : caches F) p a : cholesky_c v p a = cached (c_chol v a) (cholesky_body p (cholesky_c v p) a).
Proof. by case: a. Qed.
Section Chol.
Hypothesis sc : sound_c w.
Lemma b_chol a : ev (cholesky_c no_caches o a) (fun n => cholesky_c w (cop n) a).
Proof.
elim: a => [t|d b0 r c|t|t|t r c|t|t|l IHl r IHr m IHm|d l IHl r IHr m IHm|l IHl r IHr];
  (apply: (ev_eq (fun n => esym (cholesky_cE w (cop n) _))));
  (apply: ev_cached_r; [by move=> n v /sc; exact: id|exact: (f_chol hf sound_c0)|]); rewrite /=;
  evs h ltac:(first [simple apply IHm|simple apply IHl|simple apply IHr]).
Qed.
Variable svd : forall n, 'M[F]_n -> 'M[F]_n * 'rV[F]_n * 'M[F]_n.
Lemma b_root a : ev (root_c no_caches o svd a) (fun n => root_c w (cop n) svd a).
Proof.
elim: a => [t|d b0 r c|t|t|t r c|t|t|l IHl r IHr m IHm|d l IHl r IHr m IHm|l IHl r IHr];
  rewrite -/(root_c w) /=; evs h ltac:(first [simple apply IHl|simple apply IHr|exact: (b_chol (Diag t))|exact: (b_chol (Const t r c))]).
Qed.
Lemma b_sample_gen state (randn : state -> dtype -> shape -> state * tensor) st a num :
  ev (sample_gen_c no_caches o randn st a num) (fun n => sample_gen_c w (cop n) randn st a num).
Proof. by rewrite /sample_gen_c; evs h ltac:(simple apply b_chol). Qed.
Lemma b_sample state (randn : state -> dtype -> shape -> state * tensor) st a num :
  ev (sample_c no_caches o randn st a num) (fun n => sample_c w (cop n) randn st a num).
Proof. by rewrite /sample_c; case: a => *; evs h ltac:(simple apply b_sample_gen). Qed.
End Chol.
Section Schur.
Hypothesis ss : sound_s w.
Lemma b_inv k a phi : tends phi -> ev (inv_c no_caches o k a) (fun n => inv_c w (cop n) (phi n) a).
Proof.
elim: k a phi => [|k IH] a phi tp; first exact: ev_bot.
apply: (@ev_fuel _ _ (fun n f => inv_c w (cop n) f a)) => //=; have tp' := tends_pred tp.
apply: (ev_inv_body h) => [x|x]; first exact: (IH _ _ tp').
apply: ev_cached_r => [n v||].
- by case e: (c_schur w false x) => [[q s]|] //= [<-]; exact: (ss e tends_id).
- exact: (f_schur hf sound_s0 k x tends_id).
- by apply: (ev_schur_body h) => y; exact: IH.
Qed.
Lemma b_schur k a phi : tends phi -> ev (schur_c no_caches o k a) (fun n => schur_c w (cop n) (phi n) a).
Proof.
move=> tp; apply: ev_cached_r => [n v||].
- by case e: (c_schur w false a) => [[q s]|] //= [<-]; exact: (ss e tends_id).
- exact: (f_schur hf sound_s0 k a tends_id).
- by apply: (ev_schur_body h) => y; exact: b_inv.
Qed.
Lemma b_solve k a b phi : tends phi -> ev (solve_k no_caches o k a b) (fun n => solve_k w (cop n) (phi n) a b).
Proof. by move=> tp; apply: (ev_solve h) => x; exact: b_inv. Qed.
Lemma b_csolve k a b phi : tends phi ->
  ev (cholesky_solve_c o (inv_c no_caches o k) a b) (fun n => cholesky_solve_c (cop n) (inv_c w (cop n) (phi n)) a b).
Proof. by move=> tp; apply: (ev_csolve h) => x; exact: b_inv. Qed.
Hypothesis sc : sound_c w.
Lemma b_pd_inv k a phi : tends phi -> ev (pd_inv_c no_caches o k a) (fun n => pd_inv_c w (cop n) (phi n) a).
Proof.
elim: k a phi => [|k IH] a phi tp; first exact: ev_bot.
apply: (@ev_fuel _ _ (fun n f => pd_inv_c w (cop n) f a)) => //=; have tp' := tends_pred tp.
apply: (ev_pd_inv_body h) => [x|x|x|x]; [exact: b_chol|exact: b_inv| |exact: IH].
apply: ev_cached_r => [n v||].
- by case e: (c_schur w true x) => [[q s]|] //= [<-]; exact: (ss e tends_id).
- exact: (f_pd_schur hf sound_s0 sound_c0 k x tends_id).
- by apply: (ev_schur_body h) => y; exact: IH.
Qed.
Lemma b_pd_schur k a phi : tends phi -> ev (pd_schur_c no_caches o k a) (fun n => pd_schur_c w (cop n) (phi n) a).
Proof.
move=> tp; apply: ev_cached_r => [n v||].
- by case e: (c_schur w true a) => [[q s]|] //= [<-]; exact: (ss e tends_id).
- exact: (f_pd_schur hf sound_s0 sound_c0 k a tends_id).
- by apply: (ev_schur_body h) => y; exact: b_pd_inv.
Qed.
Lemma b_logdet log k a phi : tends phi -> ev (logdet_c log no_caches o k a) (fun n => logdet_c log w (cop n) (phi n) a).
Proof.
elim: k a phi => [|k IH] a phi tp; first exact: ev_bot.
apply: (@ev_fuel _ _ (fun n f => logdet_c log w (cop n) f a)) => //=; have tp' := tends_pred tp.
by apply: (ev_logdet_body h) => [x|x|x]; [exact: b_chol|exact: b_pd_schur|exact: IH].
Qed.
Lemma b_parts k a b c same phi : tends phi ->
  ev (iqf_parts_c no_caches o k a b c same) (fun n => iqf_parts_c w (cop n) (phi n) a b c same).
Proof. by move=> tp; rewrite /iqf_parts_c; evs h ltac:(first [exact: b_chol|exact: b_solve]). Qed.
Lemma b_iqf k a b c same phi : tends phi -> ev (iqf_c no_caches o k a b c same) (fun n => iqf_c w (cop n) (phi n) a b c same).
Proof. by move=> tp; rewrite /iqf_c; case: a => *; evs h ltac:(first [exact: b_parts|exact: b_pd_inv]). Qed.
Lemma b_iqf_diag k a b c same phi : tends phi ->
  ev (iqf_diag_c no_caches o k a b c same) (fun n => iqf_diag_c w (cop n) (phi n) a b c same).
Proof. by move=> tp; rewrite /iqf_diag_c; case: a => *; evs h ltac:(first [exact: b_parts|exact: b_pd_inv]). Qed.
Lemma b_ratio k a b phi : tends phi -> ev (ratio_c no_caches o k a b) (fun n => ratio_c w (cop n) (phi n) a b).
Proof.
by move=> tp; rewrite /ratio_c /trace_mm; case: b => *; evs h ltac:(first [exact: b_chol|exact: b_pd_inv|exact: b_iqf_diag]).
Qed.
End Schur.
End Backward.

(** ** What histories store is sound *)
Definition sound_e (a : mat) (e : entry F) : Prop :=
  match e with
  | EDense t => ev (ret t) (fun n => o_dense (fresh n) a)
  | EChol c => ev (ret c) (fun n => cholesky_c no_caches (fresh n) a)
  | ESchur p s => forall phi, tends phi ->
      ev (ret s) (fun n => if p then pd_schur_c no_caches (fresh n) (phi n) a else schur_c no_caches (fresh n) (phi n) a)
  end.
Lemma ev_ret A l (v : A) f : ev (Ret l v) f -> ev (ret v) f. Proof. by []. Qed.
(** [dense] and [cholesky] do not use the slot of the Schur complement. *)
Lemma stored_sound mix a e : stored argsort mix a e -> (if e is ESchur _ _ then ~~ mix else true) -> sound_e a e.
Proof.
elim=> {a e} w a e n k l _ Hd _ Hc _ Hs un he ok.
have sd : sound_d w by move=> i x t E; exact: (Hd _ _ _ E).
have sc : sound_c w by move=> x c E; exact: (Hc _ _ E).
case: e he ok => [t|c|[|] s] he ok.
- by apply: (@ev_ret _ l); rewrite -he; exact: (ev_dense (evo_cf sd n)).
- by apply: (@ev_ret _ l); rewrite -he; exact: (f_chol (evo_cf sd n) sc).
- have ss : sound_s w.
    by move=> p x q s' E phi tp; have eq := un ok _ _ _ _ E; subst q; exact: (Hs _ _ _ _ E ok phi tp).
  by move=> phi tp; apply: (@ev_ret _ l); rewrite -he; exact: (f_pd_schur (evo_cf sd n) ss sc).
- have ss : sound_s w.
    by move=> p x q s' E phi tp; have eq := un ok _ _ _ _ E; subst q; exact: (Hs _ _ _ _ E ok phi tp).
  by move=> phi tp; apply: (@ev_ret _ l); rewrite -he; exact: (f_schur (evo_cf sd n) ss).
Qed.
Lemma reach_d mix w : reachable argsort mix w -> sound_d w.
Proof. by case=> H _ _ _ i a t /H/stored_sound; exact. Qed.
Lemma reach_c mix w : reachable argsort mix w -> sound_c w.
Proof. by case=> _ H _ _ a c /H/stored_sound; exact. Qed.
Lemma reach_s w : reachable argsort false w -> sound_s w.
Proof. by case=> _ _ H un p a q s e; move: (un isT _ _ _ _ e) (H _ _ _ _ e) => <- /stored_sound; exact. Qed.
End Sound.
