(** * From entries to arrays (proof support) *)
From mathcomp Require Import all_ssreflect all_algebra.
From Verif Require Import Outcome Monad Shape Tensor Mat Dispatch Ops Spec ShapeThy TensorThy MatThy OpsOk Term Exact Calm Api.
Set Implicit Arguments. Unset Strict Implicit. Unset Printing Implicit Defensive.
Import GRing.Theory.
Local Open Scope ring_scope.

Section Bridge.
Variable F : rcfType.
Notation tensor := (tensor F).
Notation mat := (mat F).
Implicit Types (a l m : mat) (t x y : tensor).

Lemma teq_refl t : teq t t. Proof. by []. Qed.
Lemma teq_sym t x : teq t x -> teq x t.
Proof. by case=> h1 h2; split=> // idx; rewrite -h1 => /h2. Qed.
Lemma teq_trans t x y : teq t x -> teq x y -> teq t y.
Proof. by case=> h1 h2 [h3 h4]; split=> [|idx hi]; [rewrite h1|rewrite h2 // h4 // -h1]. Qed.

Lemma tmat_teq t x r c b g : tmat t r c b g -> tmat x r c b g -> teq t x.
Proof.
case=> h1 h2 h3 [k1 k2 k3]; split; first by rewrite h1.
move=> [|j [|i be]]; rewrite h1 //= ?andbF // => /and3P[hj hi hb].
have hb' := okb_inb hb; have e := clamp_id hb.
by have := h3 be i j hb' hi hj; rewrite -(k3 be i j) // /mx h1 k1 /= !drop0 e.
Qed.
Lemma tvec_teq t x n b g : tvec t n b g -> tvec x n b g -> teq t x.
Proof.
case=> h1 h2 h3 [k1 k2 k3]; split; first by rewrite h1.
move=> [|i be]; rewrite h1 //= => /andP[hi hb].
have hb' := okb_inb hb; have e := clamp_id hb.
by have := h3 be i hb' hi; rewrite -(k3 be i) // /vx h1 k1 /= e.
Qed.
Lemma tsca_teq t x b g : tsca t b g -> tsca x b g -> teq t x.
Proof.
case=> h1 h2 h3 [k1 k2 k3]; split; first by rewrite h1.
move=> be; rewrite h1 => hb; have hb' := okb_inb hb; have e := clamp_id hb.
by have := h3 be hb'; rewrite -(k3 be) // /sx /bat h1 k1 /= e.
Qed.
Lemma teq_tmat t x r c b g : teq t x -> tmat x r c b g -> tmat t r c b g.
Proof.
case=> h1 h2 [k1 k2 k3]; split=> //; first by rewrite h1.
move=> be i j hb hi hj; rewrite -k3 // /mx h1 h2 // h1 k1 /= drop0 hj hi; exact: hb.
Qed.
Lemma teq_tvec t x n b g : teq t x -> tvec x n b g -> tvec t n b g.
Proof.
case=> h1 h2 [k1 k2 k3]; split=> //; first by rewrite h1.
move=> be i hb hi; rewrite -k3 // /vx h1 h2 // h1 k1 /= hi; exact: hb.
Qed.

Lemma den_tmat a : wf a -> tmat (den a) (mrows a) (mcols a) (mbatch a) (ent a).
Proof.
move=> w; split=> //; first exact: wf_posn.
by move=> be i j hb hi hj; rewrite /mx /= drop0 ent_clamp // bto_refl.
Qed.
Lemma den_tmat_o a : wfo a -> tmat (den a) (mrows a) (mcols a) (mbatch a) (ent a).
Proof.
case=> [|h]; first exact: den_tmat.
case: a h => // t /eqP h; have [h1 h2 h3 h4] := scal_facts h.
split; first by rewrite /den /mshape.
  by rewrite h1 h2 h3.
by move=> be i j hb hi hj; rewrite /mx /den; rewrite [tget _ _]h4.
Qed.
Lemma res_tmat (c : mat) r k b (f : seq nat -> nat -> nat -> F) : is_res c r k b f -> tmat (den c) r k b f.
Proof. by case=> w [h1 h2] h3 h; rewrite -h1 -h2 -h3 in h *; apply: tmat_ext (den_tmat w) _. Qed.

Lemma value_tmat (m : outcome tensor) t r c b g : calm m -> hoare m (fun z => tmat z r c b g) ->
  tmat t r c b g -> is_value m t.
Proof. by move=> h1 h2 ht; have [z -> hz] := calm_hoare h1 h2; exists z => //; apply: tmat_teq ht hz. Qed.
Lemma value_tvec (m : outcome tensor) t n b g : calm m -> hoare m (fun z => tvec z n b g) ->
  tvec t n b g -> is_value m t.
Proof. by move=> h1 h2 ht; have [z -> hz] := calm_hoare h1 h2; exists z => //; apply: tvec_teq ht hz. Qed.
Lemma value_tsca (m : outcome tensor) t b g : calm m -> hoare m (fun z => tsca z b g) ->
  tsca t b g -> is_value m t.
Proof. by move=> h1 h2 ht; have [z -> hz] := calm_hoare h1 h2; exists z => //; apply: tsca_teq ht hz. Qed.

Lemma shapes_bcok (a b : mat) : shapes_ok a b = bcok (mshape a) (mshape b).
Proof. by rewrite /shapes_ok /mshape !bcok_cons andbCA. Qed.
Lemma value_map2 (f : F -> F -> F) (a b c : mat) : wfo a -> wfo b -> shapes_ok a b -> res2 f a b c ->
  is_value (t_map2 f (den a) (den b)) (den c).
Proof.
move=> wa wb /and3P[h1 h2 h3] /res_tmat hc.
exact: value_tmat (cm_map2 _ _ _) (tmat_map2 f (den_tmat_o wa) (den_tmat_o wb) h1 h2 h3) hc.
Qed.
Lemma value_matmul (a b : mat) (ta tb : bool) c : wf a -> wf b -> mcolst a ta = mrowst b tb ->
  bcok (mbatch a) (mbatch b) -> resm a b ta tb c -> is_value (t_matmul (den a) (den b) ta tb) (den c).
Proof.
move=> wa wb h1 h2 /res_tmat hc.
apply: value_tmat (cm_matmul _ _ _ _) (tmat_matmul (den_tmat wa) (den_tmat wb) h2 h1) _.
exact: hc.
Qed.
(** Numeric operations respect equality of arrays. *)
Lemma bat_teq x y idx : teq x y -> inb (sh x) (clamp (sh x) idx) -> bat x idx = bat y idx.
Proof. by case=> h1 h2 h; rewrite /bat -h1 h2. Qed.
Lemma is_value_teq (m : outcome tensor) t x : is_value m t -> teq x t -> is_value m x.
Proof. by case=> z -> h1 h2; exists z => //; apply: teq_trans h2 h1. Qed.
End Bridge.
