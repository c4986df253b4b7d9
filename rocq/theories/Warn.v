(** * Which calls warn: kinds of operands, and the tables of results with their warnings

    Proof support for [PropsWarn.v]. *)
From mathcomp Require Import all_ssreflect all_algebra.
From Verif Require Import Outcome Monad Shape Tensor Mat Dispatch Ops Spec LookThy Term Calm Types.
Set Implicit Arguments. Unset Strict Implicit. Unset Printing Implicit Defensive.
Import GRing.Theory.

(** ** Kinds
    The class of an operand; for low-rank and Woodbury matrices also whether
    the middle factor is structured. *)
Inductive kind := KNum | KZero | KDense | KDiag | KConst | KLT | KUT | KLR (s : bool) | KWb (s : bool) | KKron.
Definition kcode k : nat * bool :=
  match k with KNum => (0, false) | KZero => (1, false) | KDense => (2, false) | KDiag => (3, false) | KConst => (4, false)
  | KLT => (5, false) | KUT => (6, false) | KLR s => (7, s) | KWb s => (8, s) | KKron => (9, false) end.
Definition kdec (p : nat * bool) : kind :=
  match p.1 with 0 => KNum | 1 => KZero | 2 => KDense | 3 => KDiag | 4 => KConst | 5 => KLT | 6 => KUT
  | 7 => KLR p.2 | 8 => KWb p.2 | _ => KKron end.
Lemma kcodeK : cancel kcode kdec. Proof. by case. Qed.
Definition kind_eqMixin := CanEqMixin kcodeK.
Canonical kind_eqType := Eval hnf in EqType kind kind_eqMixin.

Definition skind (k : kind) : bool := match k with KNum | KDense => false | _ => true end.
(** A numeric array which meets a matrix becomes a dense matrix. *)
Definition kmat (k : kind) : kind := if k is KNum then KDense else k.

(** ** The tables: possible pairs (kind of the result, warned) *)
Definition addk (x y : kind) : seq (kind * bool) :=
  match x, y with
  | KNum, _ | _, KNum => [::]
  | KZero, KZero => [:: (KZero, false)]
  | KZero, KConst | KConst, KZero => [:: (KConst, false)]
  | KZero, KDense | KDense, KZero => [:: (KDense, false)]
  | KZero, z | z, KZero => [:: (z, false); (KDense, true)]
  | KDiag, KDiag => [:: (KDiag, false)]
  | KConst, KConst => [:: (KConst, false)]
  | KLT, KLT | KLT, KDiag | KDiag, KLT => [:: (KLT, false)]
  | KUT, KUT | KUT, KDiag | KDiag, KUT => [:: (KUT, false)]
  | KLT, KUT | KUT, KLT => [:: (KDense, false)]
  | KDiag, KConst | KConst, KDiag => [:: (KWb true, false)]
  | KDiag, (KLR s | KWb s) | (KLR s | KWb s), KDiag => [:: (KWb s, false)]
  | KLR s, KLR s' => [:: (KLR false, s || s'); (KZero, s || s')]
  | KLR _, KConst | KConst, KLR _ => [:: (KLR false, true); (KZero, true)]
  | KWb s, (KLR s' | KWb s') | KLR s, KWb s' => [:: (KWb false, s || s'); (KDiag, s || s'); (KDense, true)]
  | KWb _, KConst | KConst, KWb _ => [:: (KWb false, true); (KDiag, true); (KDense, true)]
  | _, _ => [:: (KDense, skind x && skind y)]
  end.
Definition mulk (x y : kind) : seq (kind * bool) :=
  match x, y with
  | KNum, _ | _, KNum => [::]
  | KZero, _ | _, KZero => [:: (KZero, false)]
  | KDiag, _ | _, KDiag => [:: (KDiag, false)]
  | KLT, KUT | KUT, KLT => [:: (KDiag, false)]
  | KLT, _ | _, KLT => [:: (KLT, false)]
  | KUT, _ | _, KUT => [:: (KUT, false)]
  | KConst, z | z, KConst => [:: (z, false)]
  | KLR _, KLR _ => [:: (KLR false, false)]
  | KWb _, (KLR _ | KWb _) | KLR _, KWb _ => [:: (KWb false, false)]
  | KKron, KKron => [:: (KKron, false)]
  | _, _ => [:: (KDense, skind x || skind y)]
  end.
(** Matrix products, after transposition of the operands. *)
Definition mmk (x y : kind) : seq (kind * bool) :=
  match x, y with
  | KNum, _ | _, KNum => [::]
  | KZero, _ | _, KZero => [:: (KZero, false)]
  | KDiag, KDiag => [:: (KDiag, false)]
  | KConst, KConst => [:: (KConst, false)]
  | KConst, KLR _ | KLR _, KConst | KLR _, KLR _ => [:: (KLR true, false); (KLR false, false)]
  | KWb _, KConst | KConst, KWb _ => [:: (KLR false, true); (KZero, true)]
  | KWb _, KLR s | KLR s, KWb _ => [:: (KLR false, true); (KZero, true); (KLR false, s); (KZero, s)]
  | KConst, _ | _, KConst => [:: (KLR true, false)]
  | KLR s, _ | _, KLR s => [:: (KLR s, false)]
  | KWb s, KWb s' => [:: (KDense, true); (KWb false, true); (KDiag, true); (KWb s', true); (KWb false, s || s'); (KDiag, s || s'); (KWb s', s)]
  | KDiag, KWb s | KWb s, KDiag => [:: (KWb s, false)]
  | KDiag, KLT | KLT, KDiag => [:: (KLT, false)]
  | KDiag, KUT | KUT, KDiag => [:: (KUT, false)]
  | KLT, KLT => [:: (KLT, false); (KDense, true)]
  | KUT, KUT => [:: (KUT, false); (KDense, true)]
  | KKron, KKron => [:: (KKron, false)]
  | _, _ => [:: (KDense, skind x && skind y)]
  end.
Definition trk (t : bool) (k : kind) : kind := if t then match k with KLT => KUT | KUT => KLT | _ => k end else k.
Definition bin (f : kind -> kind -> seq (kind * bool)) (x y : kind) : seq (kind * bool) :=
  if (x == KNum) && (y == KNum) then [:: (KNum, false)] else f (kmat x) (kmat y).

(** ** Whatever is returned, with the warnings so far *)
Definition W A (w : bool) (m : outcome A) (Q : bool -> A -> Prop) : Prop := rets m (fun l a => Q (w || lw l) a).
Lemma W_conseq A w m (P Q : bool -> A -> Prop) : W w m P -> (forall w' a, P w' a -> Q w' a) -> W w m Q.
Proof. by move=> h k; apply: rets_conseq h _ => l a; exact: k. Qed.
Lemma W_bind A B w (m : outcome A) (k : A -> outcome B) P Q :
  W w m P -> (forall w' a, P w' a -> W w' (k a) Q) -> W w (bind m k) Q.
Proof.
move=> h H; apply: rets_bind h _ => l a /H; rewrite /W => h; apply: rets_conseq h _ => l' b.
by rewrite /ljoin /= orbA.
Qed.
Definition sil A (m : outcome A) (P : A -> Prop) : Prop := rets m (fun l a => ~~ lw l /\ P a).
Lemma silW A (m : outcome A) P w : sil m P -> W w m (fun w' a => w' = w /\ P a).
Proof. by move=> h; apply: rets_conseq h _ => l a [/negbTE -> h]; rewrite orbF. Qed.
Lemma W_sil A B w (m : outcome A) (k : A -> outcome B) P Q :
  sil m P -> (forall a, P a -> W w (k a) Q) -> W w (bind m k) Q.
Proof. by move=> h H; apply: W_bind (silW w h) _ => w' a [-> ha]; exact: H. Qed.
Lemma W_warn B w b (k : unit -> outcome B) Q : W (w || b) (k tt) Q -> W w (bind (warn_if b) k) Q.
Proof. by move=> h; apply: rets_warn; apply: rets_conseq h _ => l a; rewrite /ljoin /= orbA. Qed.
Lemma W_ret A w (a : A) (Q : bool -> A -> Prop) : Q w a -> W w (ret a) Q. Proof. by rewrite /W /= orbF. Qed.
Lemma W_or A w (m : outcome A) (P Q : bool -> A -> Prop) : W false m P -> (forall w' a, P w' a -> Q (w || w') a) -> W w m Q.
Proof. by move=> h H; apply: rets_conseq h _ => l a; exact: H. Qed.
Lemma sil_bind A B (m : outcome A) (k : A -> outcome B) P Q :
  sil m P -> (forall a, P a -> sil (k a) Q) -> sil (bind m k) Q.
Proof.
move=> h H; apply: rets_bind h _ => l a [n1 /H h]; apply: rets_conseq h _ => l' b [n2 q].
by rewrite /ljoin /= negb_or n1 n2.
Qed.
Lemma sil_calm A (m : outcome A) : calm m -> sil m (fun _ => True). Proof. by case: m => //= l a ->. Qed.
Lemma sil_calmP A (m : outcome A) (P : A -> Prop) : calm m -> rets m (fun _ a => P a) -> sil m P.
Proof. by case: m => //= l a ->. Qed.
Lemma sil_ret A (a : A) (P : A -> Prop) : P a -> sil (ret a) P. Proof. by []. Qed.
Lemma sil_conseq A (m : outcome A) (P Q : A -> Prop) : sil m P -> (forall a, P a -> Q a) -> sil m Q.
Proof. by move=> h H; apply: rets_conseq h _ => l a [n /H]. Qed.
Lemma sil_warn B b (k : unit -> outcome B) Q : b = false -> sil (k tt) Q -> sil (bind (warn_if b) k) Q.
Proof. by move=> -> h; apply: rets_warn; apply: rets_conseq h _. Qed.
Lemma sil_mapM A B (f : A -> outcome B) s (P : B -> Prop) : (forall x, sil (f x) P) -> sil (mapM f s) (fun _ => True).
Proof. by move=> h; elim: s => //= x s IH; apply: sil_bind (h x) _ => y _; apply: sil_bind IH _. Qed.

Section Warn.
Variable F : rcfType.
Notation tensor := (tensor F).
Notation mat := (mat F).
Variable argsort : seq F -> seq nat.
Notation run n := (ops_n argsort n).
Definition nz (t : tensor) : Prop := ns t.

(** ** Standard operands *)
Definition pl (a : mat) : bool := match a with Nm t | Dense t => ns t | _ => false end.
Definition md (a : mat) : bool := match a with Diag _ => true | LT t | UT t => ns t | _ => pl a end.
Definition std (a : mat) : bool :=
  match a with
  | Nm t | Dense t | LT t | UT t => ns t
  | Zero _ _ _ _ | Diag _ | Const _ _ _ => true
  | LR l r m | Wb _ l r m => [&& pl l, pl r & md m]
  | Kron l r => pl l && pl r
  end.
Definition kd (a : mat) : kind :=
  match a with
  | Nm _ => KNum | Zero _ _ _ _ => KZero | Dense _ => KDense | Diag _ => KDiag | Const _ _ _ => KConst
  | LT _ => KLT | UT _ => KUT | LR _ _ m => KLR (structured m) | Wb _ _ _ m => KWb (structured m) | Kron _ _ => KKron
  end.
Definition inS (S : seq (kind * bool)) (w : bool) (c : mat) : Prop := std c && ((kd c, w) \in S).

(** ** Ranks *)
Lemma ns_up (t : tensor) : ns (t_uprank t).
Proof. by rewrite /t_uprank /ns; case E: (sh t) => [|? [|? ?]] //=; rewrite E. Qed.
Lemma ns_e2 (t : tensor) : ns (t_expand2 t). Proof. by rewrite /ns /t_expand2 /ins /=; case: (sh t). Qed.
Lemma s_map2 f (x y : tensor) : ns x || ns y -> sil (t_map2 f x y) nz.
Proof.
move=> h; apply: sil_calmP; first exact: cm_map2; rewrite /t_map2; case E: (bc _ _) => [s|//] /=.
move: E h; rewrite /nz /ns /=; case: (sh x) => [|a s1]; case: (sh y) => [|b s2] //=.
- by move=> [<-].
- by move=> [<-].
- by case: s => [|? ?] //; case: (bcd _ _) => // ?; case: (bc _ _).
Qed.
Lemma s_mm (x y : tensor) ta tb : sil (t_matmul x y ta tb) nz.
Proof.
apply: sil_calmP; first exact: cm_matmul; rewrite /t_matmul; do 2 apply: rets_bindT => ? ?.
rewrite /t_matmul_nn; case: (sh _) => [|? [|? ?]] //; case: (sh _) => [|? [|? ?]] //.
by case: ifP => // _; case: (bc _ _).
Qed.
Lemma s_tr (t : tensor) : sil (t_transpose t) nz.
Proof. by apply: sil_calmP; [exact: cm_transpose|rewrite /t_transpose; case: (sh t) => [|? []]]. Qed.
Lemma s_bto (t : tensor) s : ns t -> sil (t_broadcast_to t s) nz.
Proof.
move=> h; apply: sil_calmP; first exact: cm_bto; move: h; rewrite /t_broadcast_to /ns; case: (sh t) => [//|c b] _.
by case: s => [|? ?] //=; case: ifP.
Qed.
Lemma s_bbto (t : tensor) s : sil (t_broadcast_batch_to t s) nz.
Proof.
rewrite /t_broadcast_batch_to; case E: (sh t) => [|c [|r b]] //; apply: s_bto; by rewrite /ns E.
Qed.
Lemma s_dc (t : tensor) : sil (t_diag_construct t) nz.
Proof. by apply: sil_calmP; [exact: cm_dc|rewrite /t_diag_construct; case: (sh t)]. Qed.
Lemma s_k2 (x y : tensor) : sil (t_kron2 x y) nz.
Proof.
apply: sil_calmP; [exact: cm_k2|rewrite /t_kron2 /ns; case: (sh _) => [|? [|? ?]] //; case: (sh _) => [|? [|? ?]] //].
by case: ifP.
Qed.
Lemma s_reshape (t : tensor) d ds : sil (t_reshape t (d :: ds)) nz.
Proof. by apply: sil_calmP; [exact: cm_reshape|exact: rk_reshape]. Qed.
Lemma s_diag (t : tensor) : sil (mk_diag t) (fun c => exists t', c = Diag t').
Proof. by apply: sil_calmP; [exact: cm_mk_diag|rewrite /mk_diag /require; case: ifP => //= _; exists t]. Qed.
Lemma s_lt (t : tensor) : sil (mk_lt t) (fun c => exists2 t', c = LT t' & ns t').
Proof.
apply: sil_calmP; [exact: cm_mk_lt|rewrite /mk_lt /require /trank; case: ifP => //= h; exists t => //].
by move: h; rewrite /ns; case: (sh t).
Qed.
Lemma s_ut (t : tensor) : sil (mk_ut t) (fun c => exists2 t', c = UT t' & ns t').
Proof.
apply: sil_calmP; [exact: cm_mk_ut|rewrite /mk_ut /require /trank; case: ifP => //= h; exists t => //].
by move: h; rewrite /ns; case: (sh t).
Qed.
Lemma s_const (t : tensor) s : sil (mk_const t s) (fun c => exists t' r k, c = Const t' r k).
Proof.
apply: sil_calmP; first exact: cm_mk_const.
case: s => [|? [|? [|? ?]]] //=; first by do 3 eexists.
by rewrite /mk_const; do 2 apply: rets_bindT => ? ?; apply: rets_ret; do 3 eexists.
Qed.
Lemma s_zero d s : sil (mk_zero d s) (fun c : mat => exists d' b r k, c = Zero d' b r k).
Proof. by apply: sil_calmP; [exact: cm_mk_zero|case: s => [|? [|? ?]] //=; do 4 eexists]. Qed.
Lemma s_zeros (a : mat) : sil (zeros_of a) (fun c : mat => exists d' b r k, c = Zero d' b r k).
Proof. by apply: sil_bind (sil_calm (cm_sh a)) _ => s _; exact: s_zero. Qed.
Lemma s_fill (t : tensor) n : sil (fill_diag t n) (fun c => exists t', c = Diag t').
Proof. by apply: sil_bind (sil_calm (cm_map2 _ _ _)) _ => ? _; exact: s_diag. Qed.
Lemma s_lowrank (l r m : mat) : sil (mk_lowrank l (Some r) (Some m)) (fun c => c = LR l r m).
Proof. by apply: sil_calmP; [exact: cm_mk_lowrank|rewrite /mk_lowrank; apply: rets_bindT => ? ?; apply: rets_bindT => ? [? ?]; do 2 apply: rets_bindT => ? ?]. Qed.
Lemma s_lowrankN (l m : mat) : sil (mk_lowrank l None (Some m)) (fun c => c = LR l l m).
Proof. by apply: sil_calmP; [exact: cm_mk_lowrank|rewrite /mk_lowrank; apply: rets_bindT => ? ?; apply: rets_bindT => ? [? ?]; do 2 apply: rets_bindT => ? ?]. Qed.
Lemma s_c2l (t : tensor) r c : sil (const_to_lowrank t r c) (fun a => std a /\ kd a = KLR true).
Proof.
apply: sil_bind (s_fill _ _) _ => m [t' ->]; case: ifP => _.
  by apply: sil_conseq (s_lowrankN _ _) _ => a ->.
by apply: sil_conseq (s_lowrank _ _ _) _ => a ->.
Qed.
Lemma s_woodbury (t : tensor) (l r m : mat) : sil (mk_woodbury (Diag t) (LR l r m)) (fun c => c = Wb t l r m).
Proof. by apply: sil_bind (sil_calm (cm_ac _ _)) _. Qed.
Lemma s_tr_pl (a : mat) : pl a -> sil (transpose a) (fun c => pl c && (kd c == kd a)).
Proof.
case: a => // t _; apply: sil_bind (s_tr t) _ => u hu; apply: sil_ret => /=; last by rewrite ns_up eqxx.
by rewrite hu eqxx.
Qed.
Lemma s_tr_md (a : mat) : md a -> sil (transpose a) (fun c => md c && (structured c == structured a)).
Proof.
case: a => // t h; cbn [transpose].
- by apply: sil_bind (s_tr t) _ => u hu; apply: sil_ret; rewrite /= hu.
- by apply: sil_bind (s_tr t) _ => u hu; apply: sil_ret; rewrite /= ns_up.
- by apply: sil_bind (s_tr t) _ => u hu; apply: sil_conseq (s_ut u) _ => c [t' -> /= ->].
- by apply: sil_bind (s_tr t) _ => u hu; apply: sil_conseq (s_lt u) _ => c [t' -> /= ->].
Qed.
Lemma s_trM (a : mat) : std a -> sil (transpose a) (fun c => std c && (kd c == trk true (kd a))).
Proof.
case: a => [t|d b r c|t|t|t r c|t|t|l r m|d l r m|l r] h; cbn [transpose].
- by apply: sil_bind (s_tr t) _ => u hu; apply: sil_ret; rewrite /= hu.
- by apply: sil_ret.
- by apply: sil_bind (s_tr t) _ => u hu; apply: sil_ret; rewrite /= ns_up.
- by apply: sil_ret.
- by apply: sil_conseq (s_const t [:: r, c & sh t]) _ => x [t' [r' [k ->]]].
- by apply: sil_bind (s_tr t) _ => u hu; apply: sil_conseq (s_ut u) _ => c [t' -> /= ->].
- by apply: sil_bind (s_tr t) _ => u hu; apply: sil_conseq (s_lt u) _ => c [t' -> /= ->].
- case/and3P: h => hl hr hm; apply: sil_bind (s_tr_md hm) _ => m' /andP[hm' /eqP e].
  by apply: sil_conseq (s_lowrank _ _ _) _ => c ->; rewrite /= hl hr hm' e eqxx.
- case/and3P: h => hl hr hm; apply: sil_bind (s_tr_md hm) _ => m' /andP[hm' /eqP e].
  apply: sil_bind (s_lowrank _ _ _) _ => c ->; apply: sil_conseq (s_woodbury _ _ _ _) _ => c' ->.
  by rewrite /= hl hr hm' e eqxx.
- case/andP: h => hl hr; apply: sil_bind (s_tr_pl hl) _ => x /andP[hx _]; apply: sil_bind (s_tr_pl hr) _ => y /andP[hy _].
  by apply: sil_ret; rewrite /= hx hy.
Qed.
Lemma s_trm (a : mat) t : std a -> sil (tr a t) (fun c => std c && (kd c == trk t (kd a))).
Proof. by case: t => h; [exact: s_trM|apply: sil_ret; rewrite h eqxx]. Qed.
Lemma s_bb_pl (a : mat) s : pl a -> sil (broadcast_batch_to a s) (fun c => pl c && (kd c == kd a)).
Proof.
case: a => // t _; apply: sil_bind (s_bbto t s) _ => u hu; apply: sil_ret => /=; last by rewrite ns_up eqxx.
by rewrite hu eqxx.
Qed.
Lemma s_bb_md (a : mat) s : md a -> sil (broadcast_batch_to a s) (fun c => md c && (structured c == structured a)).
Proof.
case: a => // t h; cbn [broadcast_batch_to].
- by apply: sil_bind (s_bbto t s) _ => u hu; apply: sil_ret; rewrite /= hu.
- by apply: sil_bind (s_bbto t s) _ => u hu; apply: sil_ret; rewrite /= ns_up.
- by apply: sil_bind (sil_calm (cm_bto _ _)) _ => u _; apply: sil_conseq (s_diag u) _ => c [t' ->].
- by apply: sil_bind (s_bbto t s) _ => u hu; apply: sil_conseq (s_lt u) _ => c [t' -> /= ->].
- by apply: sil_bind (s_bbto t s) _ => u hu; apply: sil_conseq (s_ut u) _ => c [t' -> /= ->].
Qed.
Lemma s_bbM (a : mat) s : std a -> sil (broadcast_batch_to a s) (fun c => std c && (kd c == kd a)).
Proof.
case: a => [t|d b r c|t|t|t r c|t|t|l r m|d l r m|l r] h; cbn [broadcast_batch_to].
- by apply: sil_bind (s_bbto t s) _ => u hu; apply: sil_ret; rewrite /= hu.
- by apply: sil_ret.
- by apply: sil_bind (s_bbto t s) _ => u hu; apply: sil_ret; rewrite /= ns_up.
- by apply: sil_bind (sil_calm (cm_bto _ _)) _ => u _; apply: sil_conseq (s_diag u) _ => c [t' ->].
- by apply: sil_bind (sil_calm (cm_bto _ _)) _ => u _; apply: sil_conseq (s_const u [:: c; r]) _ => x [t' [r' [k ->]]].
- by apply: sil_bind (s_bbto t s) _ => u hu; apply: sil_conseq (s_lt u) _ => c [t' -> /= ->].
- by apply: sil_bind (s_bbto t s) _ => u hu; apply: sil_conseq (s_ut u) _ => c [t' -> /= ->].
- case/and3P: h => hl hr hm; apply: sil_bind (s_bb_pl s hl) _ => l' /andP[hl' _]; apply: sil_bind (s_bb_pl s hr) _ => r' /andP[hr' _].
  apply: sil_bind (s_bb_md s hm) _ => m' /andP[hm' /eqP e].
  by apply: sil_conseq (s_lowrank _ _ _) _ => c ->; rewrite /= hl' hr' hm' e eqxx.
- case/and3P: h => hl hr hm; apply: sil_bind (sil_calm (cm_bto _ _)) _ => u _; apply: sil_bind (s_diag u) _ => d' [t' ->].
  apply: sil_bind (s_bb_pl s hl) _ => l' /andP[hl' _]; apply: sil_bind (s_bb_pl s hr) _ => r' /andP[hr' _].
  apply: sil_bind (s_bb_md s hm) _ => m' /andP[hm' /eqP e].
  apply: sil_bind (s_lowrank _ _ _) _ => c ->; apply: sil_conseq (s_woodbury _ _ _ _) _ => c' ->.
  by rewrite /= hl' hr' hm' e eqxx.
- case/andP: h => hl hr; apply: sil_bind (s_bb_pl s hl) _ => x /andP[hx _]; apply: sil_bind (s_bb_pl s hr) _ => y /andP[hy _].
  by apply: sil_ret; rewrite /= hx hy.
Qed.
End Warn.
