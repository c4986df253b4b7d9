(** * Warnings of matrix products, and the induction on the recursion limit (proof support) *)
From mathcomp Require Import all_ssreflect all_algebra.
From Verif Require Import Outcome Monad Shape Tensor Mat Dispatch Ops Spec LookThy Term Calm Types Warn Warn2.
Set Implicit Arguments. Unset Strict Implicit. Unset Printing Implicit Defensive.
Import GRing.Theory.

Section Warn3.
Variable F : rcfType.
Notation tensor := (tensor F).
Notation mat := (mat F).
Variable argsort : seq F -> seq nat.
Notation run n := (ops_n argsort n).
Local Notation nz := (@nz F).
Local Notation plP := (fun c : mat => is_true (pl c)).
Ltac fin := rewrite /inS /=; rewrite ?ns_up ?eqxx ?inE ?eqxx ?orbT ?andbT //=.
Ltac chk := clear; cbn [kd]; repeat match goal with |- context [structured ?m] => case: (structured m) end; vm_compute; exact isT.
Ltac chkt := clear; cbn [kd structured];
  repeat match goal with |- context [structured ?m] => case: (structured m) | |- context [trk ?t _] => is_var t; case: t end; vm_compute; exact isT.

Section Step.
Variable o : ops F.
Hypothesis hv : inv o.
Lemma s_reshm a d ds : pl a -> sil (reshape_mat o a (d :: ds)) nz.
Proof. by move=> h; apply: sil_warn; [exact: pl_st|apply: sil_bind (v_dense hv (std_pl h)) _ => t _; exact: s_reshape]. Qed.
Lemma s_cols a i j : pl a -> sil (reshape_cols o a i j) nz.
Proof.
move=> h; apply: sil_bind (sil_calm (cm_sb _)) _ => b _; apply: sil_bind (s_tr_pl h) _ => x /andP[hx _].
by apply: sil_bind (s_reshm _ _ hx) _ => t _; exact: s_tr.
Qed.
Lemma s_rows a i j : pl a -> sil (reshape_rows o a i j) nz.
Proof. by move=> h; apply: sil_bind (sil_calm (cm_sb _)) _ => b _; exact: s_reshm. Qed.
Lemma s_kid a b : pl a -> pl b -> sil (kron_id_a_b o a b) nz.
Proof.
move=> ha hb; do 2![apply: sil_bind (sil_calm (cm_sh _)) _ => ? _]; apply: sil_bind (s_cols _ _ hb) _ => t ht.
by apply: sil_bind (s_mmpl hv false false ha (b := Nm t) ht) _ => x hx; exact: s_cols.
Qed.
Lemma s_kai a b : pl a -> pl b -> sil (kron_a_id_b o a b) nz.
Proof.
move=> ha hb; do 2![apply: sil_bind (sil_calm (cm_sh _)) _ => ? _]; apply: sil_bind (s_rows _ _ hb) _ => t ht.
by apply: sil_bind (s_mmpl hv false false ha (b := Nm t) ht) _ => x hx; exact: s_rows.
Qed.
Lemma bin_num (f : kind -> kind -> seq (kind * bool)) k : k != KNum -> bin f KNum k = f KDense k.
Proof. by case: k. Qed.
Lemma W_trs A w (a : mat) t (k : mat -> outcome A) Q : std a ->
  (forall c, std c -> kd c = trk t (kd a) -> W w (k c) Q) -> W w (bind (tr a t) k) Q.
Proof. by move=> h H; apply: W_sil (s_trm t h) _ => c /andP[h1 /eqP h2]; exact: H. Qed.
Lemma nzc_k (a : mat) : kd a != KConst -> nzc a. Proof. by case: a. Qed.
Lemma s_mxpl a p ta tb : std a -> kd a \in [:: KDense; KDiag; KLT; KUT; KKron] -> pl p -> sil (o_matmul o a p ta tb) plP.
Proof.
move=> ha hk hp; apply: sil_pl (v_matmul hv ta tb ha (std_pl hp)) _.
by move: hk hp; rewrite !inE; clear; case: p => // t; (do ![case/orP]) => /eqP ->; case: ta; case: tb.
Qed.
Lemma W_fill w (t : tensor) n S (k : mat -> outcome mat) : (forall t', W w (k (Diag t')) (inS S)) -> W w (bind (fill_diag t n) k) (inS S).
Proof. by move=> H; apply: W_sil (s_fill t n) _ => c [t' ->]. Qed.
Lemma w_lowrank w (l r m : mat) S : std (LR l r m) -> (KLR (structured m), w) \in S -> W w (mk_lowrank l (Some r) (Some m)) (inS S).
Proof. by move=> h1 h2; apply: W_silM (s_lowrank _ _ _) _ => c ->; rewrite /inS h1. Qed.
Lemma w_ltm w (m : outcome mat) : sil m plP -> W w (bind m (mk_lt_mat o)) (inS [:: (KLT, w)]).
Proof.
move=> h; apply: W_sil h _ => c hc; apply: W_sil (sil_calm (cm_am _)) _ => _ _; apply: W_sil (v_dense hv (std_pl hc)) _ => t ht.
by apply: W_ret; rewrite /inS /= ht inE eqxx.
Qed.
Lemma w_utm w (m : outcome mat) : sil m plP -> W w (bind m (mk_ut_mat o)) (inS [:: (KUT, w)]).
Proof.
move=> h; apply: W_sil h _ => c hc; apply: W_sil (sil_calm (cm_am _)) _ => _ _; apply: W_sil (v_dense hv (std_pl hc)) _ => t ht.
by apply: W_ret; rewrite /inS /= ht inE eqxx.
Qed.
Lemma is_const (c : mat) : kd c = KConst -> exists t r k, c = Const t r k. Proof. by case: c => // ? ? ? _; do 3 eexists. Qed.
Lemma is_lr (c : mat) s : std c -> kd c = KLR s -> exists l r m, [/\ c = LR l r m, pl l, pl r, md m & structured m = s].
Proof. by case: c => // l r m /and3P[h1 h2 h3] [h4]; exists l, r, m. Qed.
Lemma is_kron (c : mat) : std c -> kd c = KKron -> exists l r, [/\ c = Kron l r, pl l & pl r].
Proof. by case: c => // l r /andP[h1 h2] _; exists l, r. Qed.
Lemma is_dense (c : mat) : std c -> kd c = KDense -> pl c. Proof. by case: c. Qed.
Ltac goTR V sa sb := apply: W_trs; [assumption|]; let c := fresh "c" in let hc := fresh "hc" in let ec := fresh "ec" in move=> c hc ec;
     first [ apply: (W_fin (V c _ false _ hc sb)); rewrite ec; chkt | apply: (W_fin (V _ c _ false sa hc)); rewrite ec; chkt ].
Ltac goTM sa sb := match goal with
  | |- context [o_matmul _ (Nm ?x) (Diag ?y) false false] => 
      let h := constr:(s_mmpm hv false false (a := Nm x) (b := Diag y) sa isT) in
      first [apply: W_fin (w_ltm false h) _; chkt | apply: W_fin (w_utm false h) _; chkt]
  | |- context [o_matmul _ (Diag ?y) (Nm ?x) false false] => 
      let h := constr:(s_mmmp hv false false (b := Nm x) (a := Diag y) isT sb) in
      first [apply: W_fin (w_ltm false h) _; chkt | apply: W_fin (w_utm false h) _; chkt]
  end.
Ltac goTT := apply: W_sil (s_mm _ _ _ _) _ => ? ?; let h := fresh "h" in 
     first [apply: W_silM (s_lt _) _ => ? [? -> h] | apply: W_silM (s_ut _) _ => ? [? -> h]]; rewrite /inS; cbn [std]; rewrite h; chkt.
Ltac goT2 V := apply: W_trs; [assumption|]; let c := fresh "c" in let h := fresh "h" in let e := fresh "e" in move=> c h e;
     apply: W_trs; [assumption|]; let c' := fresh "c" in let h' := fresh "h" in let e' := fresh "e" in move=> c' h' e';
     apply: (W_fin (V c c' false false h h')); rewrite e e'; chkt.
Lemma t_mmM a b ta tb : ismat a -> ismat b -> std a -> std b ->
  W false (matmul_step o a b ta tb) (inS (mmk (trk ta (kd a)) (trk tb (kd b)))).
Proof.
move=> ma mb sa sb.
have mp g (s t : tensor) : sil (t_map2 g s t) (fun _ => True) by exact: sil_calm (cm_map2 _ _ _).
have V := v_matmul hv. have VM := v_mul hv. have VA := v_add hv.
case: a ma sa => [?|? ? ? ?|?|?|? ? ?|?|?|la ra mma|da la ra mma|la ra] ma sa; [discriminate ma|..];
(case: b mb sb => [?|? ? ? ?|?|?|? ? ?|?|?|lb rb mmb|db lb rb mmb|lb rb] mb sb; [discriminate mb|..]);
rewrite /matmul_step /to_matrix [ty_of_matrix _]/= [ty_of_matrix _]/= mm_selE [selof _ _ _]/= bind_ret /mm_body;
 lazymatch goal with
 | |- W _ (bind _ (fun _ => bind _ (fun _ => bind _ (fun _ => bind _ (fun _ => ret (Zero _ _ _ _)))))) _ =>
     apply: W_sil (sil_calm (cm_comp _ _ _ _)) _ => ? _; do 2![apply: W_sil (sil_calm (cm_smt _ _)) _ => ? _];
     apply: W_sil (sil_calm (cm_sbb _)) _ => ? _; apply: W_ret; rewrite /inS; cbn [std]; chkt
 | |- W _ (bind (warn_if _) (fun _ => bind (o_dense _ ?x) (fun t => o_matmul _ (Nm t) ?b _ _))) _ =>
     apply: W_warn; apply: W_sil (v_dense hv sa) _ => t ht; apply: W_fin (V (Nm t) b ta tb ht sb) _; chkt
 | |- W _ (bind (warn_if _) (fun _ => bind (o_dense _ ?x) (fun t => o_matmul _ ?a (Nm t) _ _))) _ =>
     apply: W_warn; apply: W_sil (v_dense hv sb) _ => t ht; apply: W_fin (V a (Nm t) ta tb sa ht) _; chkt
 | |- W _ (bind warn (fun _ => bind (o_dense _ ?x) (fun t => o_matmul _ (Nm t) ?b _ _))) _ =>
     rewrite /warn; apply: W_warn; apply: W_sil (v_dense hv sa) _ => t ht; apply: W_fin (V (Nm t) b ta tb ht sb) _; chkt
 | |- W _ (bind warn (fun _ => bind (o_dense _ ?x) (fun t => o_matmul _ ?a (Nm t) _ _))) _ =>
     rewrite /warn; apply: W_warn; apply: W_sil (v_dense hv sb) _ => t ht; apply: W_fin (V a (Nm t) ta tb sa ht) _; chkt
 | |- W _ (bind (o_matmul _ (wb_diag ?d) ?b _ _) (fun _ => bind (o_matmul _ (wb_lr ?l ?r ?m) _ _ _) _)) _ =>
     refine (W_3 (f := bin addk) (V (Diag d) b ta tb isT sb) (V (LR l r m) b ta tb sa sb) (fun c d h1 h2 => VA c d h1 h2) _); chkt
 | |- W _ (bind (o_matmul _ ?a (wb_diag ?d) _ _) (fun _ => bind (o_matmul _ _ (wb_lr ?l ?r ?m) _ _) _)) _ =>
     refine (W_3 (f := bin addk) (V a (Diag d) ta tb sa isT) (V a (LR l r m) ta tb sa sb) (fun c d h1 h2 => VA c d h1 h2) _); chkt
 | |- W _ (bind (t_matmul _ _ _ _) (fun _ => ret _)) _ => apply: W_sil (s_mm _ _ _ _) _ => ? _; apply: W_ret; rewrite /inS; cbn [std mk_dense]; rewrite ns_up; chkt
 | |- W _ (bind _ (fun _ => bind (tr ?x _) (fun _ => o_mul _ _ _))) _ =>
     apply: W_sil (sil_calm (cm_comp _ _ _ _)) _ => ? _; apply: W_trs; [assumption|]; let c := fresh "c" in let hc := fresh "hc" in let ec := fresh "ec" in
     move=> c hc ec;
     first [ apply: (W_fin (VM (mk_dense _) c (ns_up _) hc isT _)); [apply: nzc_k; rewrite ec; chkt|rewrite ec; chkt]
           | apply: (W_fin (VM c (mk_dense _) hc (ns_up _) _ isT)); [apply: nzc_k; rewrite ec; chkt|rewrite ec; chkt]]
 | |- W _ (bind _ (fun _ => bind (t_mul _ _) (fun _ => mk_diag _))) _ =>
     apply: W_sil (sil_calm (cm_comp _ _ _ _)) _ => ? _; apply: W_sil (mp _ _ _) _ => ? _; apply: W_silM (s_diag _) _ => ? [? ->]; rewrite /inS; cbn [std]; chkt
 | |- W _ (bind (const_to_lowrank _ _ _) (fun _ => o_matmul _ ?a _ _ _)) _ =>
     apply: W_sil (s_c2l _ _ _) _ => x [hx ex];
     first [apply: (W_fin (V x _ ta tb hx sb)); rewrite ex; chkt | apply: (W_fin (V a x ta tb sa hx)); rewrite ex; chkt]
 | |- W _ (bind (const_to_lowrank _ _ _) _) _ =>
     apply: W_sil (s_c2l _ _ _) _ => x [hx ex]; apply: (W_fin (V x _ ta tb hx sb)); rewrite ex; chkt
 | |- W _ (bind (o_matmul _ ?b ?a _ _) (fun _ => transpose _)) _ =>
     apply: (W_2 (f := fun k => [:: (trk true k, false)])) (V b a (~~ tb) (~~ ta) sb sa) _ _ =>
       [c hc _|]; [apply: W_silM (s_trM hc) _ => c' /andP[h1 /eqP h2]; rewrite /inS h1 h2 inE eqxx //|chkt]
 | |- W _ (bind _ (fun _ => bind _ (fun _ => bind (o_matmul _ _ _ _ _) (fun _ => bind (o_matmul _ _ _ _ _) (fun _ => ret (Kron _ _)))))) _ =>
     case/andP: sa => ha1 ha2; case/andP: sb => hb1 hb2; do 2![apply: W_sil (sil_calm (cm_comp _ _ _ _)) _ => ? _];
     apply: W_sil (s_mmpl hv _ _ ha1 hb1) _ => ? h1; apply: W_sil (s_mmpl hv _ _ ha2 hb2) _ => ? h2;
     apply: W_ret; rewrite /inS; cbn [std]; rewrite h1 h2; chkt
 | |- _ => idtac
 end.


all: lazymatch goal with
 | |- W _ (bind _ (fun _ => bind _ (fun _ => bind _ _))) _ =>
   apply: W_sil (sil_calm (cm_comp _ _ _ _)) _ => ? _; apply: W_trs; [exact sa|move=> a' ha ea; apply: W_trs; [exact sb|move=> b' hb eb]]
 | |- context [mk_lt_mat _ _] => first [case: ta; cbn [negb]; [goTR V sa sb|goTM sa sb] | case: tb; cbn [negb]; [goTR V sa sb|goTM sa sb]]
 | |- context [mk_ut_mat _ _] => first [case: ta; cbn [negb]; [goTR V sa sb|goTM sa sb] | case: tb; cbn [negb]; [goTR V sa sb|goTM sa sb]]
 | |- context [if ~~ _ && _ then _ else _] => case: ta; case: tb; cbn [negb andb]; [goT2 V|goT2 V|goT2 V|goTT]
 | |- _ => idtac
 end.
all: try (have {eb}[y [? [? eb]]] : exists t r k, b' = Const t r k by (apply: is_const; rewrite eb; clear; case: tb));
     try (have {ea}[x [? [? ea]]] : exists t r k, a' = Const t r k by (apply: is_const; rewrite ea; clear; case: ta)); subst.
all: lazymatch goal with
 | |- W _ (bind (o_sumax _ _ _) _) _ => idtac
 | |- W _ (bind _ (fun _ => mk_const _ _)) _ => apply: W_sil (mp _ _ _) _ => ? _; apply: W_silM (s_const _ _) _ => ? [? [? [? ->]]]; rewrite /inS; cbn [std]; chkt
 | |- _ => idtac
 end.
all: try (apply: (W_sil (v_sumax hv _ _)); [assumption|move=> ? _; apply: W_fill => ?; apply: w_lowrank; [by []|chkt]]).
all: try (case: (@is_lr b' (structured mmb) hb); [rewrite eb; clear; by case: tb|move=> lb' [rb' [mb' [? h1 h2 h3 h4]]]; subst]).
all: try (case: (@is_lr a' (structured mma) ha); [rewrite ea; clear; by case: ta|move=> la' [ra' [ma' [? k1 k2 k3 k4]]]; subst]).
all: try (apply: (W_sil (s_mxpl _ _ _ _ _)); [|rewrite ?ea ?eb; clear; by repeat match goal with t : bool |- _ => case: t end| |]; try eassumption;
   move=> z hz; apply: w_lowrank; [rewrite /std; apply/and3P; split; assumption|first [rewrite h4|rewrite k4]; chkt]).
- apply: W_sil (sil_calm (cm_comp _ _ _ _)) _ => ? _; apply: W_sil (mp _ _ _) _ => ? _; apply: W_silM (s_diag _) _ => ? [? ->]; rewrite /inS; cbn [std]; chkt.
- apply: W_sil (s_mmpl hv _ _ k2 h1) _ => m hm; apply: W_sil (s_mm3m hv k3 hm h3) _ => m0 hm0; apply: W_sil (sil_calm (cm_sm _)) _ => s _.
  apply: (W_sil (P := fun c : mat => md c)) => [|c hc].
    case: ifP => _; last by apply: sil_ret; exact: pl_md.
    apply: sil_bind (s_getd hv hm0) _ => t _; apply: sil_bind (sil_calm (cm_get00 _)) _ => x _.
    by apply: sil_conseq (s_diag _) _ => c [t' ->].
  apply: w_lowrank; first by rewrite /std; apply/and3P; split.
  by move: (structured c) => b; clear; cbn [kd]; case: (structured mma); case: (structured mmb); case: ta; case: tb; case: b.
- have {}eb : pl b' by apply: is_dense => //; rewrite eb; clear; case: tb.
  case: (@is_kron a' ha); first by rewrite ea; clear; case: ta.
  move=> kl [kr [? k1 k2]]; subst; do 2![apply: W_sil (sil_calm (cm_sm _)) _ => -[? ?] _].
  case: ifP => _.
    apply: W_sil (s_kai k1 eb) _ => x hx; apply: W_sil (s_kid (b := Nm x) k2 hx) _ => y hy.
    by apply: W_ret; rewrite conv_ns // /inS; cbn [std mk_dense]; rewrite ns_up; chkt.
  apply: W_sil (s_kid k2 eb) _ => x hx; apply: W_sil (s_kai (b := Nm x) k1 hx) _ => y hy.
  by apply: W_ret; rewrite conv_ns // /inS; cbn [std mk_dense]; rewrite ns_up; chkt.
Qed.
Lemma kdt t (x : tensor) : trk t (kd (Nm x)) = KNum. Proof. by case: t. Qed.
Lemma t_mm a b ta tb : std a -> std b -> W false (matmul_step o a b ta tb) (inS (bin mmk (trk ta (kd a)) (trk tb (kd b)))).
Proof.
have D t (x : tensor) : trk t (kd (mk_dense x)) = KDense by case: t.
have M t (x : mat) : ismat x -> trk t (kd x) != KNum by case: x => // *; case: t.
move=> sa sb; case Ea: (ismat a); case Eb: (ismat b).
- have -> : bin mmk (trk ta (kd a)) (trk tb (kd b)) = mmk (trk ta (kd a)) (trk tb (kd b)).
    by move: (M ta a Ea) (M tb b Eb); case: (trk _ _) => //; case: (trk _ _).
  exact (t_mmM ta tb Ea Eb sa sb).
- case/isnum: Eb sb => t -> sb.
  have -> : matmul_step o a (Nm t) ta tb = matmul_step o a (mk_dense t) ta tb by case: a Ea {sa} => [? h|*|*|*|*|*|*|*|*|*]; [discriminate h|..]; rewrite /matmul_step /to_matrix conv_ns.
  have -> : bin mmk (trk ta (kd a)) (trk tb (kd (Nm t))) = mmk (trk ta (kd a)) (trk tb (kd (mk_dense t))).
    by rewrite D kdt; move: (M ta a Ea); case: (trk _ _).
  exact (@t_mmM a (mk_dense t) ta tb Ea isT sa (ns_up _)).
- case/isnum: Ea sa => t -> sa.
  have -> : matmul_step o (Nm t) b ta tb = matmul_step o (mk_dense t) b ta tb by case: b Eb {sb} => [? h|*|*|*|*|*|*|*|*|*]; [discriminate h|..]; rewrite /matmul_step /to_matrix conv_ns.
  have -> : bin mmk (trk ta (kd (Nm t))) (trk tb (kd b)) = mmk (trk ta (kd (mk_dense t))) (trk tb (kd b)).
    by rewrite D kdt; move: (M tb b Eb); case: (trk _ _).
  exact (@t_mmM (mk_dense t) b ta tb isT Eb (ns_up _) sb).
- case/isnum: Ea sa => t -> sa; case/isnum: Eb sb => u -> sb; rewrite /matmul_step.
  apply: (W_sil (s_mm _ _ _ _)) => z hz.
  by apply: W_ret; rewrite /inS !kdt /= hz.
Qed.
End Step.
Lemma inv_n n : inv (run n).
Proof.
elim: n => [|n IH]; first by split.
split.
- exact (t_dense IH).
- exact (t_sumax IH).
- exact (t_sumall IH).
- exact (t_diag IH).
- exact (t_add argsort IH).
- exact (t_mul IH).
- exact (t_scal IH).
- exact (t_mm IH).
Qed.
End Warn3.
