(** * The control-flow cache for just-in-time compilation

    Under [B.jit] a function is run once on concrete arguments, recording the outcomes of the data-dependent
    decisions, and then traced with abstract arguments, replaying them (LAB's [B.control_flow]).  The decisions
    of this library are the permutations of [align] (align.py:17-22, 81-84) and the zero test of the sum of two
    low-rank matrices (add.py:186-192). *)
From mathcomp Require Import all_ssreflect all_algebra.
From Verif Require Import Outcome Shape Tensor Mat Dispatch Ops.
Set Implicit Arguments. Unset Strict Implicit. Unset Printing Implicit Defensive.
Import GRing.Theory Num.Theory.
Local Open Scope ring_scope.

(** The outcomes of one name are kept in the order in which they were recorded, and replayed in this order.  The
    four outcomes of [align] are recorded and replayed together, hence kept in one list. *)
Record ctl := Ctl { c_align : seq alignment; c_zero : seq bool }.

Section Replay.
Variable F : rcfType.
Notation tensor := (tensor F).
Notation mat := (mat F).
Variable argsort : seq F -> seq nat.
Variable self : ops F.

(** add.py:171-184: everything between the calls of [align] and the zero test; the result and the middle
    factor. *)
Definition join_lr (pl pr : alignment) (la ra ma lb rb mb : mat) : outcome (mat * mat) :=
  do a_left <- (do x <- pad_zero_col self la; take_num self x (al_ja pl) 0);
  do b_left <- (do x <- pad_zero_col self lb; take_num self x (al_jb pl) 0);
  do join_left <- o_add self a_left b_left;
  do a_right <- (do x <- pad_zero_col self ra; take_num self x (al_ja pr) 0);
  do b_right <- (do x <- pad_zero_col self rb; take_num self x (al_jb pr) 0);
  do join_right <- o_add self a_right b_right;
  do a_mid <- (do x <- pad_zero_both self ma; do y <- take_num self x (al_a pl) 1; take_num self y (al_a pr) 0);
  do b_mid <- (do x <- pad_zero_both self mb; do y <- take_num self x (al_b pl) 1; take_num self y (al_b pr) 0);
  do join_middle <- o_add self a_mid b_mid;
  do lr <- mk_lowrank join_left (Some join_right) (Some join_middle);
  ret (lr, join_middle).

(** add.py:163-201 while recording ([B.control_flow.caching], not [use_cache]): the sum, and what is recorded. *)
Definition add_lr_record (la ra ma lb rb mb : mat) : outcome (mat * ctl) :=
  do _ <- assert_shapes_compatible (LR la ra ma) (LR lb rb mb);
  do pl <- align argsort self la lb;
  do pr <- align argsort self ra rb;
  do ' (lr, join_middle) <- join_lr pl pr la ra ma lb rb mb;
  do jm <- o_dense self join_middle;
  let is_zero := t_mean_lt (t_map (fun x => `|x|) jm) (tol F) in
  do _ <- mark_inexact (is_zero && ~~ allidx (sh jm) (fun idx => tget jm idx == 0));
  do c <- (if is_zero then zeros_of lr else ret lr);
  ret (c, Ctl [:: pl; pr] [:: is_zero]).

(** [B.control_flow.get_outcome]; without a recorded outcome LAB raises. *)
Definition get_align (q : ctl) : outcome (alignment * ctl) :=
  if c_align q is x :: s then ret (x, Ctl s (c_zero q)) else Raise RuntimeError.
Definition get_zero (q : ctl) : outcome (bool * ctl) :=
  if c_zero q is x :: s then ret (x, Ctl (c_align q) s) else Raise RuntimeError.
(** add.py:163-201 while replaying ([use_cache]): the sum, and what is left of the record. *)
Definition add_lr_replay (q : ctl) (la ra ma lb rb mb : mat) : outcome (mat * ctl) :=
  do _ <- assert_shapes_compatible (LR la ra ma) (LR lb rb mb);
  do ' (pl, q1) <- get_align q;
  do ' (pr, q2) <- get_align q1;
  do ' (lr, join_middle) <- join_lr pl pr la ra ma lb rb mb;
  do ' (is_zero, q3) <- get_zero q2;
  do c <- (if is_zero then zeros_of lr else ret lr);
  ret (c, q3).
End Replay.
