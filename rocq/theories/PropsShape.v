(** * C15: shape broadcasting is NumPy's rule

    Read [PyShape.v] first: [py_*] model matrix/shape.py in Python order,
    [np_rule] and [np_clash] are NumPy's rule. *)
From mathcomp Require Import all_ssreflect.
From Verif Require Import Outcome Monad Shape Spec ShapeThy PyShape.
Set Implicit Arguments. Unset Strict Implicit. Unset Printing Implicit Defensive.

Theorem C15_expand_and_broadcast s1 s2 s :
  py_expand_and_broadcast2 s1 s2 = ret s <-> np_rule s1 s2 s.
Proof. exact (py_expand_ok s1 s2 s). Qed.
Print Assumptions C15_expand_and_broadcast.

Theorem C15_raises s1 s2 :
  py_expand_and_broadcast2 s1 s2 = Raise RuntimeError <-> np_clash s1 s2.
Proof. exact (py_expand_raise s1 s2). Qed.
Print Assumptions C15_raises.

Theorem C15_total s1 s2 :
  (exists s, py_expand_and_broadcast2 s1 s2 = ret s) \/
  py_expand_and_broadcast2 s1 s2 = Raise RuntimeError.
Proof. exact (py_expand_total s1 s2). Qed.
Print Assumptions C15_total.

Theorem C15_commutative s1 s2 :
  py_expand_and_broadcast2 s1 s2 = py_expand_and_broadcast2 s2 s1.
Proof. exact (py_expandC s1 s2). Qed.
Print Assumptions C15_commutative.

Theorem C15_associative s1 s2 s3 :
  (do s <- py_expand_and_broadcast2 s1 s2; py_expand_and_broadcast2 s s3) =
  (do s <- py_expand_and_broadcast2 s2 s3; py_expand_and_broadcast2 s1 s).
Proof. exact (py_expandA s1 s2 s3). Qed.
Print Assumptions C15_associative.

Theorem C15_idempotent s : py_expand_and_broadcast2 s s = ret s.
Proof. exact (py_expand_idem s). Qed.
Print Assumptions C15_idempotent.

(** The variadic form: the least shape to which all given shapes broadcast
    (shapes innermost first for [bto]), or [RuntimeError]. *)
Theorem C15_variadic s ss :
  (exists r, py_expand_and_broadcast (s :: ss) = ret r /\
             forall u, bto (rev r) (rev u) = all (fun x => bto (rev x) (rev u)) (s :: ss)) \/
  py_expand_and_broadcast (s :: ss) = Raise RuntimeError.
Proof. exact (py_expand_fold s ss). Qed.
Print Assumptions C15_variadic.

Theorem C15_compatible s1 s2 :
  py_compatible s1 s2 = ret true /\ (exists s, np_rule s1 s2 s) \/
  py_compatible s1 s2 = ret false /\ np_clash s1 s2.
Proof. exact (py_compatibleP s1 s2). Qed.
Print Assumptions C15_compatible.

Theorem C15_assert_compatible s1 s2 :
  py_assert_compatible s1 s2 = ret tt /\ (exists s, np_rule s1 s2 s) \/
  py_assert_compatible s1 s2 = Raise AssertionError /\ np_clash s1 s2.
Proof. exact (py_assert_compatibleP s1 s2). Qed.
Print Assumptions C15_assert_compatible.

Theorem C15_broadcast_equal_rank s1 s2 : py_broadcast2 s1 s2 =
  if size s1 == size s2 then py_expand_and_broadcast2 s1 s2 else Raise RuntimeError.
Proof. exact (py_broadcast2P s1 s2). Qed.
Print Assumptions C15_broadcast_equal_rank.

(** The reversed-order functions used by the rest of the model are the same. *)
Theorem C15_reversed_model s1 s2 :
  expand_and_broadcast2 (rev s1) (rev s2) = omap_out rev (py_expand_and_broadcast2 s1 s2).
Proof. exact (expand_rev s1 s2). Qed.
Print Assumptions C15_reversed_model.

Example C15_ex1 : py_expand_and_broadcast2 [:: 5; 1; 3] [:: 4; 1] = ret [:: 5; 4; 3].
Proof. by []. Qed.
Example C15_ex2 : np_clash [:: 2; 3] [:: 4; 3].
Proof. by exists 1. Qed.
Example C15_ex3 : py_expand_and_broadcast [:: [:: 2; 1]; [:: 3]; [:: 7; 1; 1]] = ret [:: 7; 2; 3].
Proof. by []. Qed.
