(** * Warnings of the core operations (proof support) *)
From mathcomp Require Import all_ssreflect all_algebra.
From Verif Require Import Outcome Monad Shape Tensor Mat Dispatch Ops Spec LookThy Term Calm Types Warn.
Set Implicit Arguments. Unset Strict Implicit. Unset Printing Implicit Defensive.
Import GRing.Theory.

Section Warn2.
Variable F : rcfType.
Notation tensor := (tensor F).
Notation mat := (mat F).
Variable argsort : seq F -> seq nat.
Notation run n := (ops_n argsort n).
Local Notation nz := (@nz F).
Local Notation plP := (fun c : mat => is_true (pl c)).

Definition nzs (t : tensor) : bool := ns t || (tget t [::] != 0)%R.
Definition nzc (a : mat) : bool := if a is Const t _ _ then nzs t else true.
Record inv (o : ops F) : Prop := Inv {
  v_dense : forall a, std a -> sil (o_dense o a) nz;
  v_sumax : forall a x, std a -> sil (o_sumax o a x) (fun _ => True);
  v_sumall : forall a, std a -> sil (o_sumall o a) (fun _ => True);
  v_diag : forall a, std a -> sil (o_diag o a) (fun _ => True);
  v_add : forall a b, std a -> std b -> W false (o_add o a b) (inS (bin addk (kd a) (kd b)));
  v_mul : forall a b, std a -> std b -> nzc a -> nzc b -> W false (o_mul o a b) (inS (bin mulk (kd a) (kd b)));
  v_scal : forall x b, nzs x -> md b -> W false (o_mul o (Nm x) b) (inS [:: (kd b, false)]);
  v_matmul : forall a b ta tb, std a -> std b ->
    W false (o_matmul o a b ta tb) (inS (bin mmk (trk ta (kd a)) (trk tb (kd b)))) }.

(** ** Rules for results of the operations *)
Lemma W_fin w (m : outcome mat) S1 S2 : W false m (inS S1) -> all (fun p => (p.1, w || p.2) \in S2) S1 -> W w m (inS S2).
Proof.
by move=> h /allP H; apply: W_or h _ => w' a /andP[h1 /H h2]; rewrite /inS h1.
Qed.
Lemma W_bindS A w (m : outcome mat) (k : mat -> outcome A) S Q :
  W false m (inS S) -> (forall w1 c, inS S w1 c -> W (w || w1) (k c) Q) -> W w (bind m k) Q.
Proof.
move=> h H; apply: rets_bind h _ => l a /H h; apply: rets_conseq h _ => l' b.
by rewrite /ljoin /= orbA.
Qed.
Lemma W_2 w (m : outcome mat) (k : mat -> outcome mat) S0 S2 (f : kind -> seq (kind * bool)) :
  W false m (inS S0) -> (forall c, std c -> has (fun p => p.1 == kd c) S0 -> W false (k c) (inS (f (kd c)))) ->
  all (fun p => all (fun q => (q.1, w || p.2 || q.2) \in S2) (f p.1)) S0 -> W w (bind m k) (inS S2).
Proof.
move=> h H /allP C; apply: W_bindS h _ => w1 c /andP[h1 h2]; apply: W_fin (H c h1 _) _; first by apply/hasP; exists (kd c, w1).
exact: C h2.
Qed.
Lemma W_3 w (m m' : outcome mat) (k : mat -> mat -> outcome mat) S0 S1 S2 (f : kind -> kind -> seq (kind * bool)) :
  W false m (inS S0) -> W false m' (inS S1) -> (forall c d, std c -> std d -> W false (k c d) (inS (f (kd c) (kd d)))) ->
  all (fun p => all (fun p' => all (fun q => (q.1, w || p.2 || p'.2 || q.2) \in S2) (f p.1 p'.1)) S1) S0 ->
  W w (do x <- m; do y <- m'; k x y) (inS S2).
Proof.
move=> h h' H /allP C; apply: W_bindS h _ => w1 c /andP[h1 h2]; apply: W_2 h' _ _ => [d h3 _|]; first exact: H.
exact: C h2.
Qed.
Lemma W_pl A w (m : outcome mat) (k : mat -> outcome A) S Q :
  W false m (inS S) -> all (fun p => ~~ skind p.1 && ~~ p.2) S -> (forall c, pl c -> W w (k c) Q) -> W w (bind m k) Q.
Proof.
move=> h /allP C H; apply: (W_sil (P := plP)) => //; apply: rets_conseq h _ => l c /andP[h1 h2].
have /andP[h3 h4] := C _ h2; split=> //; by move: h1 h3; clear; case: c.
Qed.
Lemma sil_of (m : outcome mat) S : W false m (inS S) -> all (fun p => ~~ p.2) S -> sil m (fun c => std c && has (fun p => p.1 == kd c) S).
Proof.
move=> h /allP C; apply: rets_conseq h _ => l c /andP[h1 h2]; split; first exact: C h2.
by rewrite h1; apply/hasP; exists (kd c, false || lw l).
Qed.
Lemma sil_pl (m : outcome mat) S : W false m (inS S) -> all (fun p => ~~ skind p.1 && ~~ p.2) S -> sil m plP.
Proof.
move=> h /allP C; apply: rets_conseq h _ => l c /andP[h1 h2].
have /andP[h3 h4] := C _ h2; split=> //; by move: h1 h3; clear; case: c.
Qed.
Lemma std_pl (a : mat) : pl a -> std a. Proof. by case: a. Qed.
Lemma std_md (a : mat) : md a -> std a. Proof. by case: a. Qed.
Lemma pl_md (a : mat) : pl a -> md a. Proof. by case: a. Qed.
Lemma pl_st (a : mat) : pl a -> structured a = false. Proof. by case: a. Qed.
Lemma pl_nzc (a : mat) : pl a -> nzc a. Proof. by case: a. Qed.
Lemma md_nzc (a : mat) : md a -> nzc a. Proof. by case: a. Qed.
Lemma W_silM w (m : outcome mat) S P : sil m P -> (forall c, P c -> inS S w c) -> W w m (inS S).
Proof. by move=> h H; apply: W_conseq (silW w h) _ => w' c [-> /H]. Qed.
Lemma s_concat (t z : tensor) p : sil (t_concat_pos [:: t; z] p) (fun u => ns t -> nz u).
Proof.
apply: sil_calmP; first exact: cm_concat; rewrite /t_concat_pos; case: ifP => //= h.
by rewrite /nz /ns; case: (sh t) => //= a s; case: p {h}.
Qed.
Lemma s_takep (t : tensor) x p : sil (t_take_pos t x p) (fun u => ns t -> nz u).
Proof.
apply: sil_calmP; first exact: cm_takepos; rewrite /t_take_pos; case: ifP => //= h.
by apply: rets_bindT => ? ?; rewrite /rets /ret /nz /ns /=; case: (sh t) => //= a s; case: p {h}.
Qed.
Lemma s_stack (ts : seq tensor) p : sil (t_stack ts p) nz.
Proof.
apply: sil_calmP; first exact: cm_stack; rewrite /t_stack; case: ts => // t ts; case: ifP => //= h.
by rewrite /nz /ns /ins /=; case: (sh t) => [|? ?]; case: p {h}.
Qed.

Lemma nzs_e11 t : nzs t -> nzs (t_expand11_is t).
Proof. by rewrite /t_expand11_is; case E: (sh t). Qed.
Section Step.
Variable o : ops F.
Hypothesis hv : inv o.

Lemma s_concat_num a z p : pl a -> sil (concat_num o a z p) plP.
Proof.
case: a => // t h.
- by apply: sil_bind (s_concat _ _ _) _ => u hu; apply: sil_ret; exact: hu.
- apply: sil_warn => //; apply: sil_bind (v_dense hv (a := Dense t) h) _ => u hu.
  by apply: sil_bind (s_concat _ _ _) _ => u' _; apply: sil_ret; exact: ns_up.
Qed.
Lemma w_concat_num a z p w : md a -> W w (concat_num o a z p) (fun w' c => pl c /\ w' = w || structured a).
Proof.
move=> h; case E: (pl a).
  by apply: W_conseq (silW w (s_concat_num z p E)) _ => w' c [-> h2]; rewrite (pl_st E) orbF.
case: a h E => // t h E; rewrite /concat_num.
1-2: by move: h E => /= ->.
all: apply: W_warn; apply: W_sil (v_dense hv _) _ => [|u hu]; first exact h.
all: by apply: W_sil (s_concat _ _ _) _ => u' _; apply: W_ret; split=> //; exact: ns_up.
Qed.
Lemma s_take_num a l p : pl a -> sil (take_num o a l p) plP.
Proof.
case: a => // t h.
- by apply: sil_bind (s_takep _ _ _) _ => u hu; apply: sil_ret; exact: hu.
- apply: sil_warn => //; apply: sil_bind (v_dense hv (a := Dense t) h) _ => u hu.
  by apply: sil_bind (s_takep _ _ _) _ => u' _; apply: sil_ret; exact: ns_up.
Qed.
Lemma s_padcol a : pl a -> sil (pad_zero_col o a) plP.
Proof.
by move=> h; apply: sil_bind (sil_calm (cm_sb _)) _ => ? _; apply: sil_bind (sil_calm (cm_sh _)) _ => ? _; exact: s_concat_num.
Qed.
Lemma w_mid a (f g : seq int) w : md a ->
  W w (do x <- pad_zero_both o a; do y <- take_num o x f 1; take_num o y g 0) (fun w' c => pl c /\ w' = w || structured a).
Proof.
move=> h; rewrite /pad_zero_both /pad_zero_row.
apply: (W_bind (P := fun w' c => pl c /\ w' = w || structured a)) => [|w' x [hx ->]].
  apply: (W_bind (P := fun w' c => pl c /\ w' = w || structured a)) => [|w' x [hx ->]].
    by apply: W_sil (sil_calm (cm_sb _)) _ => ? _; apply: W_sil (sil_calm (cm_sh _)) _ => ? _; exact: w_concat_num.
  by apply: W_conseq (silW _ (s_padcol hx)) _ => w2 c [-> ?].
apply: W_sil (s_take_num _ _ hx) _ => y hy.
by apply: W_conseq (silW _ (s_take_num _ _ hy)) _ => w2 c [-> ?].
Qed.
Lemma s_getd a : pl a -> sil (getitem_dense o a) (fun _ => True).
Proof. by move=> h; apply: sil_warn; [exact: pl_st|apply: sil_conseq (v_dense hv (std_pl h)) _]. Qed.
Lemma s_loop k eq same na nb sa sb : (forall i j, sil (eq i j) (fun _ => True)) ->
  sil (align_loop (F := F) k eq same na nb sa sb) (fun _ => True).
Proof.
move=> he; elim: k sa sb => [|k IH] [|i sa] [|j sb] //=.
apply: sil_bind (he i j) _ => e _; case: e; last by case: ifP => _; apply: sil_bind (IH _ _) _.
by apply: (sil_bind (P := fun _ => True)) => [|_ _]; [|apply: sil_bind (IH _ _) _].
Qed.
Lemma s_align a b : pl a -> pl b -> sil (align argsort o a b) (fun _ => True).
Proof.
move=> ha hb; apply: sil_bind (s_getd ha) _ => ? _; apply: sil_bind (sil_calm (cm_first _)) _ => ? _.
apply: sil_bind (s_getd hb) _ => ? _; apply: sil_bind (sil_calm (cm_first _)) _ => ? _.
by apply: s_loop => i j; apply: sil_bind (sil_calm (cm_map2 _ _ _)) _.
Qed.
Lemma s_addpl a b : pl a -> pl b -> sil (o_add o a b) plP.
Proof. by move=> ha hb; apply: sil_pl (v_add hv (std_pl ha) (std_pl hb)) _; case: a ha => //; case: b hb. Qed.
Lemma s_mmpl a b ta tb : pl a -> pl b -> sil (o_matmul o a b ta tb) plP.
Proof.
move=> ha hb; apply: sil_pl (v_matmul hv ta tb (std_pl ha) (std_pl hb)) _.
by case: a ha => //; case: b hb => // *; case: ta; case: tb.
Qed.
Lemma s_mmpm a b ta tb : pl a -> md b -> sil (o_matmul o a b ta tb) plP.
Proof.
move=> ha hb; apply: sil_pl (v_matmul hv ta tb (std_pl ha) (std_md hb)) _.
by case: a ha => //; case: b hb => // *; case: ta; case: tb.
Qed.
Lemma s_mmmp a b ta tb : md a -> pl b -> sil (o_matmul o a b ta tb) plP.
Proof.
move=> ha hb; apply: sil_pl (v_matmul hv ta tb (std_md ha) (std_pl hb)) _.
by case: a ha => //; case: b hb => // *; case: ta; case: tb.
Qed.
Lemma w_addlr la ra ma lb rb mb : pl la -> pl ra -> md ma -> pl lb -> pl rb -> md mb ->
  W false (add_lr_lr argsort o la ra ma lb rb mb) (inS (addk (KLR (structured ma)) (KLR (structured mb)))).
Proof.
move=> h1 h2 h3 h4 h5 h6; rewrite /add_lr_lr.
apply: W_sil (sil_calm (cm_ac _ _)) _ => ? _.
apply: W_sil (s_align h1 h4) _ => pl_ _; apply: W_sil (s_align h2 h5) _ => pr_ _.
have pt a (l : seq int) : pl a -> sil (do x <- pad_zero_col o a; take_num o x l 0) plP.
  by move=> h; apply: sil_bind (s_padcol h) _ => x hx; exact: s_take_num.
apply: W_sil (pt _ _ h1) _ => xl hxl; apply: W_sil (pt _ _ h4) _ => yl hyl; apply: W_sil (s_addpl hxl hyl) _ => jl hjl.
apply: W_sil (pt _ _ h2) _ => xr hxr; apply: W_sil (pt _ _ h5) _ => yr hyr; apply: W_sil (s_addpl hxr hyr) _ => jr hjr.
apply: W_bind (w_mid _ _ _ h3) _ => w1 xm [hxm ->]; apply: W_bind (w_mid _ _ _ h6) _ => w2 ym [hym ->].
apply: W_sil (s_addpl hxm hym) _ => jm hjm; apply: W_sil (s_lowrank _ _ _) _ => lr ->.
apply: W_sil (v_dense hv (std_pl hjm)) _ => t _.
apply: (W_sil (P := fun _ => True)) => // _ _; case: ifP => _.
  by apply: W_silM (s_zeros _) _ => c [? [? [? [? ->]]]]; rewrite /inS /= !inE eqxx orbT.
by apply: W_ret; rewrite /inS /= hjl hjr pl_md //= (pl_st hjm) !inE eqxx.
Qed.
Lemma s_mul1 (p : tensor * tensor) : sil (t_mul p.1 p.2) (fun _ => True). Proof. exact: sil_calm (cm_map2 _ _ _). Qed.
Lemma w_mullr la ra ma lb rb mb : pl la -> pl ra -> md ma -> pl lb -> pl rb -> md mb ->
  W false (mul_lr_lr o la ra ma lb rb mb) (inS [:: (KLR false, false)]).
Proof.
move=> h1 h2 h3 h4 h5 h6; rewrite /mul_lr_lr.
apply: W_sil (sil_calm (cm_ac _ _)) _ => ? _.
apply: W_warn; rewrite !pl_st //=.
apply: W_sil (v_dense hv (std_pl h1)) _ => ? _; apply: W_sil (v_dense hv (std_md h3)) _ => ? _.
apply: W_sil (v_dense hv (std_pl h2)) _ => ? _; apply: W_sil (v_dense hv (std_pl h4)) _ => ? _.
apply: W_sil (v_dense hv (std_md h6)) _ => ? _; apply: W_sil (v_dense hv (std_pl h5)) _ => ? _.
apply: W_sil (sil_calm (cm_sbb _)) _ => ? _.
do 6![apply: W_sil (sil_calm (cm_bbto _ _)) _ => ? _].
do 4![apply: W_sil (sil_calm (cm_unstack _ _)) _ => ? _].
have u2 (t : tensor) : sil (do rows <- t_unstack t 1; mapM (fun x => t_unstack x 0) rows) (fun _ => True).
  by apply: sil_bind (sil_calm (cm_unstack _ _)) _ => ? _; apply: sil_mapM => ?; exact: sil_calm (cm_unstack _ _).
do 2![apply: W_sil (u2 _) _ => ? _].
have st (s : seq (tensor * tensor)) : sil (do xs <- mapM (fun p => t_mul p.1 p.2) s; t_stack xs 0) nz.
  by apply: (sil_bind (P := fun _ => True)) => [|? _]; [apply: sil_mapM => ?; exact: s_mul1|exact: s_stack].
do 2![apply: W_sil (st _) _ => ? ?].
apply: (W_sil (P := nz)) => [|? ?].
  apply: (sil_bind (P := fun _ => True)) => [|? _]; last exact: s_stack.
  by apply: sil_mapM => ?; apply: (sil_bind (P := fun _ => True)) => [|? _]; [apply: sil_mapM => ?; exact: s_mul1|exact: s_stack].
by apply: W_silM (s_lowrank _ _ _) _ => c ->; rewrite /inS /= !inE eqxx andbT; apply/and3P; split.
Qed.
Lemma s_mm3 a b c ta tb tc : pl a -> md b -> pl c -> sil (mm3 o a b c ta tb tc) plP.
Proof.
move=> ha hb hc; rewrite /mm3; do 3![apply: sil_bind (sil_calm (cm_sm _)) _ => ? _].
do 3![case: (if _ then _ else _) => ? ?]; case: ifP => _.
  by apply: sil_bind (s_mmpm _ _ ha hb) _ => x hx; exact: s_mmpl.
by apply: sil_bind (s_mmmp _ _ hb hc) _ => x hx; exact: s_mmpl.
Qed.
Lemma s_mm3m a b c : md a -> pl b -> md c -> sil (mm3 o a b c false false false) plP.
Proof.
move=> ha hb hc; rewrite /mm3; do 3![apply: sil_bind (sil_calm (cm_sm _)) _ => -[? ?] _].
case: ifP => _.
  by apply: sil_bind (s_mmmp _ _ ha hb) _ => x hx; exact: s_mmpm.
by apply: sil_bind (s_mmpm _ _ hb hc) _ => x hx; exact: s_mmmp.
Qed.

Lemma s_align2 (l r : mat) : pl l -> pl r -> sil (align_batch [:: l; r]) (fun s => exists x y : mat, [/\ s = [:: x; y], pl x & pl y]).
Proof.
move=> hl hr; apply: sil_bind (sil_calm (cm_sbb _)) _ => b _ /=.
apply: sil_bind (s_bb_pl b hl) _ => x /andP[hx _]; apply: (sil_bind (P := fun s => exists2 y, s = [:: y] & pl y)) => [|s [y -> hy]].
  by apply: sil_bind (s_bb_pl b hr) _ => y /andP[hy _]; apply: sil_ret; exists y.
by apply: sil_ret; exists x, y.
Qed.
Lemma t_dense a : std a -> sil (dense_step o a) nz.
Proof.
case: a => [t|d b r c|t|t|t r c|t|t|l r m|d l r m|l r] h; cbn [dense_step].
- exact: sil_ret.
- exact: sil_ret.
- exact: sil_ret.
- exact: s_dc.
- by apply: s_map2; rewrite orbT.
- exact: sil_ret.
- exact: sil_ret.
- case/and3P: h => hl hr hm; apply: sil_bind (s_mm3 _ _ _ hl hm hr) _ => x hx; exact: v_dense (std_pl hx).
- apply: sil_bind (v_dense hv (a := Diag d) isT) _ => x hx; apply: sil_bind (v_dense hv (a := LR l r m) h) _ => y hy.
  by apply: s_map2; rewrite hx.
- case/andP: h => hl hr; apply: sil_bind (s_align2 hl hr) _ => s [x [y [-> hx hy]]].
  apply: sil_bind (v_dense hv (std_pl hx)) _ => u hu; apply: sil_bind (v_dense hv (std_pl hy)) _ => u' hu'; exact: s_k2.
Qed.
Lemma s_mulpl a b : pl a -> pl b -> sil (o_mul o a b) plP.
Proof. by move=> ha hb; apply: sil_pl (v_mul hv (std_pl ha) (std_pl hb) (pl_nzc ha) (pl_nzc hb)) _; case: a ha => //; case: b hb. Qed.
Lemma t_sumax a x : std a -> sil (sumax_step o a x) (fun _ => True).
Proof.
have e2 (t : tensor) : pl (Nm (t_expand2 t)) by exact: ns_e2.
have sp (t : tensor) p : sil (t_sum_pos t p) (fun _ => True) by exact: sil_calm (cm_sumpos _ _).
case: a => [t|d b r c|t|t|t r c|t|t|l r m|d l r m|l r] h; cbn [sumax_step].
- exact: sp.
- exact: sil_ret.
- exact: sp.
- exact: sil_ret.
- exact: sil_calm (cm_map2 _ _ _).
- exact: sp.
- exact: sp.
- case/and3P: h => hl hr hm; case: x.
    apply: sil_bind (s_mmpm _ _ hl hm) _ => x hx; apply: sil_bind (v_sumax hv _ (std_pl hr)) _ => s _.
    by apply: sil_bind (s_mulpl hx (e2 s)) _ => y hy; exact: v_sumax (std_pl hy).
  apply: sil_bind (v_sumax hv _ (std_pl hl)) _ => s _; apply: sil_bind (s_mmpm _ _ hr hm) _ => x hx.
  by apply: sil_bind (s_mulpl (e2 s) hx) _ => y hy; exact: v_sumax (std_pl hy).
- apply: sil_bind (v_sumax hv (a := Diag d) x isT) _ => u _; apply: sil_bind (v_sumax hv (a := LR l r m) x h) _ => v _.
  exact: sil_calm (cm_map2 _ _ _).
- case/andP: h => hl hr; apply: sil_bind (v_sumax hv x (std_pl hl)) _ => u _; apply: sil_bind (v_sumax hv x (std_pl hr)) _ => v _.
  apply: sil_bind (sil_calm (cm_map2 _ _ _)) _ => z _; apply: sil_bind (sil_calm (cm_sb _)) _ => b _.
  apply: sil_bind (sil_calm (cm_sm _)) _ => -[rows cols] _; exact: sil_calm (cm_reshape _ _).
Qed.
Lemma t_sumall a : std a -> sil (sumall_step o a) (fun _ => True).
Proof.
have sp (t : tensor) p : sil (t_sum_pos t p) (fun _ => True) by exact: sil_calm (cm_sumpos _ _).
have mp g (s t : tensor) : sil (t_map2 g s t) (fun _ => True) by exact: sil_calm (cm_map2 _ _ _).
case: a => [t|d b r c|t|t|t r c|t|t|l r m|d l r m|l r] h; cbn [sumall_step]; try exact: sil_ret.
- case/and3P: h => hl hr hm; apply: sil_bind (s_mmpm _ _ hl hm) _ => x hx; apply: sil_bind (v_sumax hv _ (std_pl hx)) _ => s _.
  apply: sil_bind (v_sumax hv _ (std_pl hr)) _ => s' _; by apply: sil_bind (mp _ _ _) _.
- apply: sil_bind (v_sumax hv (a := Diag d) _ isT) _ => u _; apply: sil_bind (sp _ _) _ => u' _.
  apply: sil_bind (v_sumax hv (a := LR l r m) _ h) _ => v _; apply: sil_bind (sp _ _) _ => v' _.
  by apply: sil_bind (mp _ _ _) _.
- case/andP: h => hl hr; apply: sil_bind (v_sumax hv _ (std_pl hl)) _ => u _; apply: sil_bind (sp _ _) _ => u' _.
  apply: sil_bind (v_sumax hv _ (std_pl hr)) _ => v _; apply: sil_bind (sp _ _) _ => v' _.
  by apply: sil_bind (mp _ _ _) _.
Qed.
Lemma t_diag a : std a -> sil (diag_step o a) (fun _ => True).
Proof.
have dx (t : tensor) : sil (t_diag_extract t) (fun _ => True) by exact: sil_calm (cm_dx _).
have mp g (s t : tensor) : sil (t_map2 g s t) (fun _ => True) by exact: sil_calm (cm_map2 _ _ _).
case: a => [t|d b r c|t|t|t r c|t|t|l r m|d l r m|l r] h; cbn [diag_step]; try exact: sil_ret; try exact: dx.
- by apply: sil_bind (sil_calm (cm_dlen _)) _ => n _; exact: mp.
- case/and3P: h => hl hr hm; apply: sil_warn; first by rewrite !pl_st.
  apply: sil_bind (sil_calm (cm_dlen _)) _ => n _.
  apply: sil_bind (s_mmpm _ _ hl hm) _ => x hx; apply: sil_bind (v_dense hv (std_pl hx)) _ => u _.
  apply: sil_bind (v_dense hv (std_pl hr)) _ => v _; apply: sil_bind (mp _ _ _) _ => z _; exact: sil_calm (cm_sumpos _ _).
- apply: sil_bind (v_diag hv (a := Diag d) isT) _ => u _; apply: sil_bind (v_diag hv (a := LR l r m) h) _ => v _; exact: mp.
- case/andP: h => hl hr; apply: sil_bind (s_align2 hl hr) _ => s [x [y [-> hx hy]]].
  apply: sil_bind (v_diag hv (std_pl hx)) _ => u hu; apply: sil_bind (v_diag hv (std_pl hy)) _ => u' hu'; exact: sil_calm (cm_k1 _ _).
Qed.

Definition btk k := match k with KZero | KConst | KDense => [:: (k, false)] | _ => [:: (k, false); (KDense, true)] end.
Lemma t_bt a s : ismat a -> std a -> W false (broadcast_to_step o a s)
  (inS (btk (kd a))).
Proof.
move=> ma h; rewrite /broadcast_to_step; apply: W_sil (sil_calm (cm_sh _)) _ => sa _.
case: ifP => _; first by apply: W_ret; rewrite /inS h /=; case: (kd a) => //= ?; rewrite inE eqxx.
have gen : W false (if take 2 sa == take 2 s then broadcast_batch_to a (drop 2 s)
     else do _ <- warn_if (structured a); do t <- o_dense o a; do u <- t_broadcast_to t s; ret (mk_dense u))
  (inS [:: (kd a, false); (KDense, structured a)]).
  case: ifP => _.
    by apply: W_silM (s_bbM _ h) _ => c /andP[h1 /eqP h2]; rewrite /inS h1 h2 inE eqxx.
  apply: W_warn; apply: W_sil (v_dense hv h) _ => t ht; apply: W_sil (s_bto _ ht) _ => u hu.
  by apply: W_ret; rewrite /inS /= ns_up !inE eqxx orbT.
case: a ma h gen => [t|d b r c|t|t|t r c|t|t|l r m|d l r m|l r] // _ h gen.
- apply: W_sil (sil_calm (cm_eb _)) _ => s' _.
  by apply: W_silM (s_zero _ _ _) _ => c' [? [? [? [? ->]]]].
- by apply: W_conseq gen _ => w c /andP[h1 h2]; rewrite /inS h1 /=; move: h2; rewrite !inE orbb.
- apply: W_sil (sil_calm (cm_eb _)) _ => s' _.
  by apply: W_silM (s_const _ _) _ => c' [? [? [? ->]]].
Qed.
Ltac fin := rewrite /inS /=; rewrite ?ns_up ?eqxx ?inE ?eqxx ?orbT ?andbT //=.
Ltac chk := clear; cbn [kd]; repeat match goal with |- context [structured ?m] => case: (structured m) end; vm_compute; exact isT.
Lemma t_addM a b : ismat a -> ismat b -> std a -> std b -> W false (add_step argsort o a b) (inS (addk (kd a) (kd b))).
Proof.
move=> ma mb sa sb.
have gen (x y : mat) S : std x -> std y -> S = [:: (KDense, structured x && structured y)] ->
    W false (do _ <- warn_if (structured x && structured y); do t <- o_dense o x; do t' <- o_dense o y;
          do z <- t_add t t'; ret (mk_dense z)) (inS S).
  move=> hx hy ->; apply: W_warn; apply: W_sil (v_dense hv hx) _ => t _; apply: W_sil (v_dense hv hy) _ => t' _.
  by apply: W_sil (sil_calm (cm_map2 _ _ _)) _ => z _; apply: W_ret; fin.
have cgen (x : mat) (t : tensor) (m : outcome shape) S : std x -> calm m -> S = [:: (KDense, structured x)] ->
    W false (do _ <- warn_if (structured x); do y <- o_dense o x; do z <- t_add (t_expand11_is t) y;
    do s <- m; do u <- t_broadcast_to z s; ret (mk_dense u)) (inS S).
  move=> hx hm ->; apply: W_warn; apply: W_sil (v_dense hv hx) _ => u _; apply: W_sil (sil_calm (cm_map2 _ _ _)) _ => z _.
  by apply: W_sil (sil_calm hm) _ => s _; apply: W_sil (sil_calm (cm_bto _ _)) _ => v _; apply: W_ret; fin.
have mp g (s t : tensor) : sil (t_map2 g s t) (fun _ => True) by exact: sil_calm (cm_map2 _ _ _).
have V := v_add hv.
case: a ma sa => [?|? ? ? ?|?|?|? ? ?|?|?|la ra mma|da la ra mma|? ?] ma sa; [discriminate ma|..];
(case: b mb sb => [?|? ? ? ?|?|?|? ? ?|?|?|? ? ?|? ? ? ?|? ?] mb sb; [discriminate mb|..]);
 rewrite /add_step /to_matrix [ty_of_matrix _]/= [ty_of_matrix _]/= add_selE [selof _ _ _]/= bind_ret /add_body;
 lazymatch goal with
 | |- W _ (o_add _ ?x ?y) _ => apply: W_fin (V x y sb sa) _; chk
 | |- W _ (add_lr_lr _ _ _ _ _ _ _ _) _ => case/and3P: sa => ? ? ?; case/and3P: sb => ? ? ?; exact: w_addlr
 | |- W _ (bind (warn_if (structured ?x && structured ?y)) _) _ => exact (gen x y _ sa sb erefl)
 | |- W _ (bind (warn_if (structured ?x)) _) _ => exact (cgen x _ _ _ sb (cm_sb2 _ _) erefl)
 | |- W _ (bind _ (fun _ => bind _ (fun _ => broadcast_to_step _ ?x _))) _ =>
     apply: W_sil (sil_calm (cm_ac _ _)) _ => ? _; apply: W_sil (sil_calm (cm_sb2 _ _)) _ => ? _;
     first [apply: W_fin (t_bt (a := x) _ isT sa) _; chk | apply: W_fin (t_bt (a := x) _ isT sb) _; chk]
 | |- W _ (bind (t_add _ _) (fun _ => ret _)) _ => apply: W_sil (mp _ _ _) _ => ? _; apply: W_ret; by fin
 | |- W _ (bind _ (fun _ => mk_diag _)) _ => apply: W_sil (mp _ _ _) _ => ? _; apply: W_silM (s_diag _) _ => ? [? ->]; by fin
 | |- W _ (bind (t_add _ _) (fun _ => mk_lt _)) _ => apply: W_sil (mp _ _ _) _ => ? _; apply: W_silM (s_lt _) _ => ? [? -> h]; fin
 | |- W _ (bind (t_add _ _) (fun _ => mk_ut _)) _ => apply: W_sil (mp _ _ _) _ => ? _; apply: W_silM (s_ut _) _ => ? [? -> h]; fin
 | |- W _ (bind (o_dense _ ?y) (fun _ => bind _ (fun _ => mk_lt _))) _ => apply: W_sil (v_dense hv (a := y) isT) _ => ? _;
     apply: W_sil (mp _ _ _) _ => ? _; apply: W_silM (s_lt _) _ => ? [? -> h]; fin
 | |- W _ (bind (o_dense _ ?y) (fun _ => bind _ (fun _ => mk_ut _))) _ => apply: W_sil (v_dense hv (a := y) isT) _ => ? _;
     apply: W_sil (mp _ _ _) _ => ? _; apply: W_silM (s_ut _) _ => ? [? -> h]; fin
 | |- W _ (mk_woodbury _ _) _ => apply: W_silM (s_woodbury _ _ _ _) _ => ? ->; rewrite /inS; first [rewrite [std _]sa|rewrite [std _]sb]; by fin
 | |- _ => idtac
 end.
(* Const + Diag *)
- apply: W_sil (sil_calm (cm_ac _ _)) _ => ? _; apply: W_sil (sil_calm (cm_smb _ _)) _ => -[r c] _.
  apply: W_sil (s_c2l _ _ _) _ => x [h1 h2]; apply: W_fin (V x _ h1 sb) _; rewrite h2; chk.
(* Const + Const *)
- apply: W_sil (sil_calm (cm_ac _ _)) _ => ? _; apply: W_sil (mp _ _ _) _ => ? _; apply: W_sil (sil_calm (cm_sb2 _ _)) _ => ? _.
  by apply: W_silM (s_const _ _) _ => ? [? [? [? ->]]].
(* LR + Const *)
- apply: W_sil (sil_calm (cm_smb _ _)) _ => -[r c] _.
  apply: W_sil (s_c2l _ _ _) _ => x [h1 h2]; apply: W_fin (V _ x sa h1) _; rewrite h2; chk.
(* Wb + Diag, Const, LR *)
- apply: (W_2 (f := fun k => bin addk k (KLR (structured mma)))) (V (Diag da) (Diag _) isT isT) _ _ => [c h _|]; last by chk.
  exact: V c (LR la ra mma) h sa.
- apply: (W_2 (f := bin addk KDiag)) (V (LR la ra mma) (Const _ _ _) sa isT) _ _ => [c h _|]; last by chk.
  exact: V (Diag da) c isT h.
- apply: (W_2 (f := bin addk KDiag)) (V (LR la ra mma) (LR _ _ _) sa sb) _ _ => [c h _|]; last by chk.
  exact: V (Diag da) c isT h.
(* Wb + Wb *)
- apply: (W_3 (f := bin addk)) (V (Diag da) (Diag _) isT isT) (V (LR la ra mma) (LR _ _ _) sa sb) _ _ => [c d h1 h2|]; last by chk.
  exact: V c d h1 h2.
Qed.
Lemma kmatd (t : tensor) : kd (mk_dense t) = KDense. Proof. by []. Qed.
Lemma bin_mm f (a b : mat) : ismat a -> ismat b -> bin f (kd a) (kd b) = f (kd a) (kd b).
Proof. by case: a => //; case: b. Qed.
Lemma bin_mn f (a : mat) (t u : tensor) : ismat a -> bin f (kd a) (kd (Nm t)) = f (kd a) (kd (mk_dense u)).
Proof. by case: a. Qed.
Lemma bin_nm f (a : mat) (t u : tensor) : ismat a -> bin f (kd (Nm t)) (kd a) = f (kd (mk_dense u)) (kd a).
Proof. by case: a. Qed.
Lemma isnum (a : mat) : ismat a = false -> exists t, a = Nm t. Proof. by case: a => // t _; exists t. Qed.
Lemma t_add a b : std a -> std b -> W false (add_step argsort o a b) (inS (bin addk (kd a) (kd b))).
Proof.
move=> sa sb; case Ea: (ismat a); case Eb: (ismat b).
- by rewrite bin_mm //; exact: t_addM.
- case/isnum: Eb sb => t -> sb.
  have -> : add_step argsort o a (Nm t) = add_step argsort o a (mk_dense t) by case: a Ea {sa} => [? h|*|*|*|*|*|*|*|*|*]; [discriminate h|..]; rewrite /add_step /to_matrix conv_ns.
  by rewrite (bin_mn _ _ t Ea); exact: (@t_addM a (mk_dense t) Ea isT sa (ns_up _)).
- case/isnum: Ea sa => t -> sa.
  have -> : add_step argsort o (Nm t) b = add_step argsort o (mk_dense t) b by case: b Eb {sb} => [? h|*|*|*|*|*|*|*|*|*]; [discriminate h|..]; rewrite /add_step /to_matrix conv_ns.
  by rewrite (bin_nm _ _ t Eb); exact: (@t_addM (mk_dense t) b isT Eb (ns_up _) sb).
- case/isnum: Ea sa => t -> sa; case/isnum: Eb sb => u -> sb; rewrite /add_step.
  apply: (W_sil (s_map2 _ (x := t) (y := u) _)) => [|z hz]; first by rewrite [ns t]sa.
  by apply: W_ret; rewrite /inS /= hz.
Qed.

Lemma t_mulM a b : ismat a -> ismat b -> std a -> std b -> nzc a -> nzc b -> W false (mul_step o a b) (inS (mulk (kd a) (kd b))).
Proof.
move=> ma mb sa sb na nb.
have gen (x y : mat) S : std x -> std y -> S = [:: (KDense, structured x || structured y)] ->
    W false (do _ <- warn_if (structured x || structured y); do t <- o_dense o x; do t' <- o_dense o y;
          do z <- t_mul t t'; ret (mk_dense z)) (inS S).
  move=> hx hy ->; apply: W_warn; apply: W_sil (v_dense hv hx) _ => t _; apply: W_sil (v_dense hv hy) _ => t' _.
  by apply: W_sil (sil_calm (cm_map2 _ _ _)) _ => z _; apply: W_ret; fin.
have mp g (s t : tensor) : sil (t_map2 g s t) (fun _ => True) by exact: sil_calm (cm_map2 _ _ _).
have V := v_mul hv. have VA := v_add hv.
case: a ma sa na => [?|? ? ? ?|?|?|? ? ?|?|?|la ra mma|da la ra mma|? ?] ma sa na; [discriminate ma|..];
(case: b mb sb nb => [?|? ? ? ?|?|?|? ? ?|?|?|lb rb mmb|db lb rb mmb|lb rb] mb sb nb; [discriminate mb|..]);
 rewrite /mul_step /to_matrix [ty_of_matrix _]/= [ty_of_matrix _]/= mul_selE [selof _ _ _]/= bind_ret /mul_body;
 lazymatch goal with
 | |- W _ (o_mul _ ?x ?y) _ => apply: W_fin (V x y sb sa nb na) _; chk
 | |- W _ (mul_lr_lr _ _ _ _ _ _ _) _ => case/and3P: sa => ? ? ?; case/and3P: sb => ? ? ?; exact: w_mullr
 | |- W _ (bind (warn_if (structured ?x || structured ?y)) _) _ => exact (gen x y _ sa sb erefl)
 | |- W _ (bind _ (fun _ => bind _ (fun _ => broadcast_to_step _ ?x _))) _ =>
     apply: W_sil (sil_calm (cm_ac _ _)) _ => ? _; apply: W_sil (sil_calm (cm_sb2 _ _)) _ => ? _;
     first [apply: W_fin (t_bt (a := x) _ isT sa) _; chk | apply: W_fin (t_bt (a := x) _ isT sb) _; chk]
 | |- W _ (bind (t_mul _ _) (fun _ => ret _)) _ => apply: W_sil (mp _ _ _) _ => ? _; apply: W_ret; by fin
 | |- W _ (bind (t_mul _ _) (fun _ => mk_diag _)) _ => apply: W_sil (mp _ _ _) _ => ? _; apply: W_silM (s_diag _) _ => ? [? ->]; by fin
 | |- W _ (bind (t_mul _ _) (fun _ => mk_lt _)) _ => apply: W_sil (mp _ _ _) _ => ? _; apply: W_silM (s_lt _) _ => ? [? -> h]; fin
 | |- W _ (bind (t_mul _ _) (fun _ => mk_ut _)) _ => apply: W_sil (mp _ _ _) _ => ? _; apply: W_silM (s_ut _) _ => ? [? -> h]; fin
 | |- W _ (bind (o_dense _ ?y) (fun _ => bind _ (fun _ => mk_lt _))) _ => apply: W_sil (v_dense hv (a := y) sb) _ => ? _;
     apply: W_sil (mp _ _ _) _ => ? _; apply: W_silM (s_lt _) _ => ? [? -> h]; fin
 | |- W _ (bind (o_dense _ ?y) (fun _ => bind _ (fun _ => mk_ut _))) _ => apply: W_sil (v_dense hv (a := y) sb) _ => ? _;
     apply: W_sil (mp _ _ _) _ => ? _; apply: W_silM (s_ut _) _ => ? [? -> h]; fin
 | |- _ => idtac
 end.
1-6: apply: W_sil (sil_calm (cm_ac _ _)) _ => ? _; apply: W_sil (sil_calm (cm_sm _)) _ => -[rows cols] _;
  (apply: (W_sil (P := fun _ => True)); [|move=> ? _; apply: W_sil (mp _ _ _) _ => ? _; apply: W_silM (s_diag _) _ => ? [? ->]; by fin]);
  case: ifP => _; [|case: ifP => _]; first [exact: (v_diag hv sb) | apply: sil_bind (v_dense hv sb) _ => ? _];
  first [exact: sil_calm (cm_sq1 _)|exact: sil_calm (cm_sq2 _)].
(* Const * Dense *)
- apply: W_sil (sil_calm (cm_ac _ _)) _ => ? _; apply: W_warn; apply: W_sil (v_dense hv sb) _ => ? _; apply: W_sil (mp _ _ _) _ => ? _.
  by apply: W_sil (sil_calm (cm_sb2 _ _)) _ => ? _; apply: W_sil (sil_calm (cm_bto _ _)) _ => ? _; apply: W_ret; fin.
(* Const * Diag *)
- by apply: W_sil (sil_calm (cm_ac _ _)) _ => ? _; apply: W_sil (mp _ _ _) _ => ? _; apply: W_silM (s_diag _) _ => ? [? ->]; fin.
(* Const * Const *)
- apply: W_sil (sil_calm (cm_ac _ _)) _ => ? _; apply: W_sil (mp _ _ _) _ => ? _; apply: W_sil (sil_calm (cm_sb2 _ _)) _ => ? _.
  by apply: W_silM (s_const _ _) _ => ? [? [? [? ->]]].
(* Const * LR, Kron *)
- case/and3P: sb => hl hr hm; apply: W_sil (sil_calm (cm_ac _ _)) _ => ? _.
  apply: W_bindS (v_scal hv (nzs_e11 na) hm) _ => w1 c; rewrite /inS inE => /andP[h1 /eqP[h2 ->]].
  have h3 : md c by move: h1 hm h2; clear; case: c => //; case: mmb.
  have h4 : structured c = structured mmb by move: hm h2; clear; case: c; case: mmb.
  by apply: W_silM (s_lowrank _ _ _) _ => ? ->; rewrite /inS /= hl hr h3 h4 inE eqxx.
- case/andP: sb => hl hr; apply: W_sil (sil_calm (cm_ac _ _)) _ => ? _.
  apply: W_bindS (v_scal hv (nzs_e11 na) (pl_md hl)) _ => w1 c; rewrite /inS inE => /andP[h1 /eqP[h2 ->]].
  have h3 : pl c by move: h1 hl h2; clear; case: c => //; case: lb.
  by apply: W_ret; rewrite /inS /= h3 hr.
(* UT * LT *)
- by apply: W_sil (v_diag hv sa) _ => ? _; apply: W_sil (v_diag hv sb) _ => ? _; apply: W_sil (mp _ _ _) _ => ? _; apply: W_silM (s_diag _) _ => ? [? ->]; fin.
(* Wb *)
1-7: apply: (W_3 (f := bin addk)) (V (Diag da) _ isT sb isT nb) (V (LR la ra mma) _ sa sb isT nb) (fun c d h1 h2 => VA c d h1 h2) _; chk.
(* Kron * Kron *)
case/andP: sa => ha1 ha2; case/andP: sb => hb1 hb2.
do 4![apply: W_sil (sil_calm (cm_sm _)) _ => ? _]; apply: (W_sil (P := fun _ => True)) => [|? _]; first by rewrite /require; case: ifP.
apply: W_sil (s_mulpl ha1 hb1) _ => ? h1; apply: W_sil (s_mulpl ha2 hb2) _ => ? h2.
by apply: W_ret; rewrite /inS /= h1 h2.
Qed.
Lemma t_mul a b : std a -> std b -> nzc a -> nzc b -> W false (mul_step o a b) (inS (bin mulk (kd a) (kd b))).
Proof.
move=> sa sb na nb; case Ea: (ismat a); case Eb: (ismat b).
- by rewrite bin_mm //; exact: t_mulM.
- case/isnum: Eb sb nb => t -> sb nb.
  have -> : mul_step o a (Nm t) = mul_step o a (mk_dense t) by case: a Ea {sa na} => [? h|*|*|*|*|*|*|*|*|*]; [discriminate h|..]; rewrite /mul_step /to_matrix conv_ns.
  by rewrite (bin_mn _ _ t Ea); exact: (@t_mulM a (mk_dense t) Ea isT sa (ns_up _) na isT).
- case/isnum: Ea sa na => t -> sa na.
  have -> : mul_step o (Nm t) b = mul_step o (mk_dense t) b by case: b Eb {sb nb} => [? h|*|*|*|*|*|*|*|*|*]; [discriminate h|..]; rewrite /mul_step /to_matrix conv_ns.
  rewrite (bin_nm _ _ t Eb); exact (@t_mulM (mk_dense t) b isT Eb (ns_up _) sb isT nb).
- case/isnum: Ea sa => t -> sa; case/isnum: Eb sb => u -> sb; rewrite /mul_step.
  apply: (W_sil (s_map2 _ (x := t) (y := u) _)) => [|z hz]; first by rewrite [ns t]sa.
  by apply: W_ret; rewrite /inS /= hz.
Qed.
Lemma t_scal x b : nzs x -> md b -> W false (mul_step o (Nm x) b) (inS [:: (kd b, false)]).
Proof.
move=> hx hb; case Eb: (ismat b); last first.
  case/isnum: Eb hb => t -> hb; rewrite /mul_step.
  apply: (W_sil (s_map2 _ (x := x) (y := t) _)) => [|z hz]; first by rewrite [ns t]hb orbT.
  by apply: W_ret; rewrite /inS /= hz.
case E: (ns x).
  by apply: W_fin (@t_mul (Nm x) b E (std_md hb) isT (md_nzc hb)) _; move: hb Eb; clear; case: b => //.
have e : mul_step o (Nm x) b = mul_step o (Const x 1 1) b.
  have c : convert_num x = Const x 1 1 by move: hx; rewrite /nzs /convert_num E /=; move: E; rewrite /ns; case: (sh x) => // _ /negbTE ->.
  by case: b Eb {hb} => [? h|*|*|*|*|*|*|*|*|*]; [discriminate h|..]; rewrite /mul_step /to_matrix c.
have K := @t_mulM (Const x 1 1) b isT Eb isT (std_md hb) hx (md_nzc hb).
have C : all (fun p => (p.1, false || p.2) \in [:: (kd b, false)]) (mulk (kd (Const x 1 1)) (kd b)) by move: hb Eb; clear; case: b.
rewrite e; exact (W_fin K C).
Qed.
End Step.
End Warn2.
