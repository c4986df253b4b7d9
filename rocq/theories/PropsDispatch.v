(** * C13: dispatch is total and unambiguous

    [lookup table a b] is plum's resolution (Dispatch.v) of a call with
    operands of the concrete types [a], [b]. *)
From mathcomp Require Import all_ssreflect.
From Verif Require Import Outcome Dispatch.
Set Implicit Arguments. Unset Strict Implicit. Unset Printing Implicit Defensive.

(** No method is missing and no call is ambiguous. *)
Definition resolves (id : Type) (tbl : option (table id)) (a b : ty) : Prop :=
  exists i, lookup tbl a b = ret i.
(** The pairs without a [matmul] method. *)
Definition mm_missing (a b : ty) : bool :=
  match a, b with
  | TDense, TTiled | TTiled, TDense | TTiled, TTiled => true
  | _, _ => false
  end.

Theorem C13_add_total a b : resolves add_table a b.
Proof. by case: a; case: b; eexists; vm_compute; reflexivity. Qed.
Print Assumptions C13_add_total.

Theorem C13_multiply_total a b : resolves mul_table a b.
Proof. by case: a; case: b; eexists; vm_compute; reflexivity. Qed.
Print Assumptions C13_multiply_total.

Theorem C13_matmul_total a b : ~~ mm_missing a b -> resolves mm_table a b.
Proof. by case: a; case: b => // _; eexists; vm_compute; reflexivity. Qed.
Print Assumptions C13_matmul_total.

Theorem C13_matmul_missing a b : mm_missing a b -> lookup mm_table a b = Raise NotFoundLookup.
Proof. by case: a; case: b => // _; vm_compute. Qed.
Print Assumptions C13_matmul_missing.

Example C13_ex : ~~ mm_missing TLT TKron /\ mm_missing TTiled TDense.
Proof. by []. Qed.
