(** * The theorems are not vacuous: real closed fields and argsort exist

    [realalg] (the real algebraic numbers) is a concrete instance of the field
    parameter [F : rcfType] of all theorems, and sorting is a concrete
    instance of the parameter [argsort]. *)
From mathcomp Require Import all_ssreflect all_algebra.
From mathcomp.real_closed Require Import realalg.
From Verif Require Import Api.
Set Implicit Arguments. Unset Strict Implicit. Unset Printing Implicit Defensive.
Definition a_field : rcfType := [rcfType of realalg].
Definition an_argsort (F : rcfType) (s : seq F) : seq nat :=
  sort (fun i j => nth 0%R s i <= nth 0%R s j)%R (iota 0 (size s)).
Lemma an_argsort_ok (F : rcfType) : argsort_ok (@an_argsort F).
Proof. by move=> s; rewrite /an_argsort perm_sort. Qed.
