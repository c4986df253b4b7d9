(** * Rules for outcomes and Hoare triples (proof support) *)
From mathcomp Require Import all_ssreflect.
From Verif Require Import Outcome.
Set Implicit Arguments. Unset Strict Implicit. Unset Printing Implicit Defensive.

Lemma log0l l : ljoin log0 l = l. Proof. by case: l. Qed.
Lemma log0r l : ljoin l log0 = l. Proof. by case: l => w x; rewrite /ljoin /= !orbF. Qed.
Lemma ljoinA l1 l2 l3 : ljoin l1 (ljoin l2 l3) = ljoin (ljoin l1 l2) l3.
Proof. by case: l1 l2 l3 => ??[??][??]; rewrite /ljoin /= !orbA. Qed.
Lemma exact_join l1 l2 : exact (ljoin l1 l2) = exact l1 && exact l2.
Proof. by rewrite /exact /= negb_or. Qed.

Section Rules.
Variables A B C : Type.

Lemma bind_ret (a : A) (f : A -> outcome B) : bind (ret a) f = f a.
Proof. by rewrite /bind /ret; case: (f a) => l ?; rewrite log0l. Qed.
Lemma bind_Ret l (a : A) (f : A -> outcome B) :
  bind (Ret l a) f = match f a with RaiseL l' e => RaiseL (ljoin l l') e | Ret l' b => Ret (ljoin l l') b end.
Proof. by []. Qed.
Lemma bind_raise e (f : A -> outcome B) : bind (Raise e) f = Raise e.
Proof. by []. Qed.
Lemma ret_bind (m : outcome A) : bind m (@ret A) = m.
Proof. by case: m => l x //=; rewrite log0r. Qed.
Lemma bindA (m : outcome A) (f : A -> outcome B) (g : B -> outcome C) :
  bind (bind m f) g = bind m (fun x => bind (f x) g).
Proof.
case: m => [l a|l e] //=; case: (f a) => [l1 b|l1 e] //=.
by case: (g b) => [l2 c|l2 e] /=; rewrite ljoinA.
Qed.
End Rules.

Section Triples.
Variables A B : Type.

Lemma hoare_ret (a : A) (P : A -> Prop) : P a -> hoare (ret a) P.
Proof. by move=> h /= _. Qed.
Lemma hoare_raise (P : A -> Prop) : hoare (Raise RecursionError) P.
Proof. by []. Qed.
Lemma hoare_conseq (m : outcome A) (P Q : A -> Prop) :
  hoare m P -> (forall a, P a -> Q a) -> hoare m Q.
Proof. by case: m => [l a|l e] //= h hpq hl; apply/hpq/h. Qed.
Lemma hoare_bind (m : outcome A) (f : A -> outcome B) (P : A -> Prop) (Q : B -> Prop) :
  hoare m P -> (forall a, P a -> hoare (f a) Q) -> hoare (bind m f) Q.
Proof.
case: m => [l a|l e] //= h hf.
case E: (f a) => [l' b|l' e] /=; rewrite exact_join => /andP[/h pa hl'];
  by move: (hf a pa); rewrite E; apply.
Qed.
Lemma hoare_and (m : outcome A) (P Q : A -> Prop) :
  hoare m P -> hoare m Q -> hoare m (fun a => P a /\ Q a).
Proof. by case: m => [l a|l e] //= hp hq hl; split; [apply: hp|apply: hq]. Qed.
Lemma hoare_true (m : outcome A) (P : A -> Prop) : hoare m P -> hoare m (fun _ => True).
Proof. by move=> h; apply: hoare_conseq h _. Qed.

Lemma phoare_ret (a : A) (P : A -> Prop) : P a -> phoare (ret a) P.
Proof. by move=> h /= _. Qed.
Lemma phoare_conseq (m : outcome A) (P Q : A -> Prop) :
  phoare m P -> (forall a, P a -> Q a) -> phoare m Q.
Proof. by case: m => [l a|l e] //= h hpq hl; apply/hpq/h. Qed.
Lemma phoare_bind (m : outcome A) (f : A -> outcome B) (P : A -> Prop) (Q : B -> Prop) :
  phoare m P -> (forall a, P a -> phoare (f a) Q) -> phoare (bind m f) Q.
Proof.
case: m => [l a|l e] //= h hf.
case E: (f a) => [l' b|l' e] //=; rewrite exact_join => /andP[/h pa hl'].
by move: (hf a pa); rewrite E; apply.
Qed.
Lemma hoare_phoare (m : outcome A) (P : A -> Prop) : hoare m P -> phoare m P.
Proof. by case: m. Qed.
End Triples.

Lemma hoare_warn_if A b (f : unit -> outcome A) P : hoare (f tt) P -> hoare (bind (warn_if b) f) P.
Proof. by move=> h; apply: (@hoare_bind _ _ _ _ (fun _ => True)) => // -[]. Qed.
Lemma hoare_mark A b (f : unit -> outcome A) P :
  (b = false -> hoare (f tt) P) -> hoare (bind (mark_inexact b) f) P.
Proof. by move=> h; apply: (@hoare_bind _ _ _ _ (fun _ => b = false)) => [|[]] //=; case: b {h}. Qed.
Lemma bind_require A (b : bool) e (f : unit -> outcome A) : b -> bind (require b e) f = f tt.
Proof. by move=> hb; rewrite /require hb bind_ret. Qed.

Lemma mapM_ret A B (f : A -> outcome B) (g : A -> B) s :
  (forall x, f x = ret (g x)) -> mapM f s = ret (map g s).
Proof. by move=> h; elim: s => //= x s ->; rewrite h !bind_ret. Qed.
Lemma mapM_ret_in (A : eqType) B (f : A -> outcome B) (g : A -> B) (s : seq A) :
  (forall x, x \in s -> f x = ret (g x)) -> mapM f s = ret (map g s).
Proof.
elim: s => //= x s IH h; rewrite h ?mem_head // bind_ret IH ?bind_ret // => y hy.
by apply: h; rewrite inE hy orbT.
Qed.

Global Arguments bind : simpl never.
