(** * Precomputed method lookups (proof support) *)
From mathcomp Require Import all_ssreflect.
From Verif Require Import Outcome Dispatch.
Set Implicit Arguments. Unset Strict Implicit. Unset Printing Implicit Defensive.

Definition rowsof (id : Type) (tbl : option (table id)) : seq (seq (outcome id)) :=
  [seq [seq lookup tbl x y | y <- all_ty] | x <- all_ty].
Definition selof (id : Type) (rows : seq (seq (outcome id))) (x y : ty) : outcome id :=
  nth (Raise NotFoundLookup) (nth [::] rows (ty_id x)) (ty_id y).
Lemma selofE (id : Type) (tbl : option (table id)) x y : selof (rowsof tbl) x y = lookup tbl x y.
Proof. by case: x; case: y. Qed.

Definition add_rows := Eval vm_compute in rowsof add_table.
Definition mul_rows := Eval vm_compute in rowsof mul_table.
Definition mm_rows := Eval vm_compute in rowsof mm_table.
Lemma add_rowsE : add_rows = rowsof add_table. Proof. by vm_compute. Qed.
Lemma mul_rowsE : mul_rows = rowsof mul_table. Proof. by vm_compute. Qed.
Lemma mm_rowsE : mm_rows = rowsof mm_table. Proof. by vm_compute. Qed.

Lemma add_selE x y : lookup add_table x y = selof add_rows x y.
Proof. by rewrite add_rowsE selofE. Qed.
Lemma mul_selE x y : lookup mul_table x y = selof mul_rows x y.
Proof. by rewrite mul_rowsE selofE. Qed.
Lemma mm_selE x y : lookup mm_table x y = selof mm_rows x y.
Proof. by rewrite mm_rowsE selofE. Qed.
Global Arguments lookup : simpl never.
