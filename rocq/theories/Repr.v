(** * Texts: [__str__] and [__repr__]

    Model of matrix/util.py:15-42 ([indent], [dtype_str]), of [repr_format] (matrix/matrix.py:136-152) and of the methods
    [__str__] and [__repr__] of all matrix classes.  [Shape] is printed by LAB like a Python tuple.  Strings are lists of
    characters. *)
From mathcomp Require Import all_ssreflect all_algebra.
From Coq Require Import Ascii String DecimalString.
From Verif Require Import Outcome Shape Tensor Mat Dispatch Ops Tiled.
Set Implicit Arguments. Unset Strict Implicit. Unset Printing Implicit Defensive.

Definition str := seq ascii.
Definition lit (s : string) : str := list_ascii_of_string s.
Definition newline : ascii := "010"%char.
Definition space : ascii := " "%char.

(** [str.strip] removes white space at both ends. *)
Definition is_space (c : ascii) : bool := let n := nat_of_ascii c in (8 < n < 14) || (27 < n < 33).
Fixpoint lstrip (x : str) : str := if x is c :: x' then if is_space c then lstrip x' else x else [::].
Definition rstrip (x : str) : str := rev (lstrip (rev x)).
Definition strip (x : str) : str := rstrip (lstrip x).
(** [indent]: util.py:15-25 *)
Definition indent (ind x : str) : str :=
  ind ++ flatten [seq if Ascii.eqb c newline then newline :: ind else [:: c] | c <- x].
(** Decimal numerals, and [str] of a tuple of them. *)
Definition dec (n : nat) : str := lit (NilEmpty.string_of_uint (Nat.to_uint n)).
Fixpoint items (s : seq nat) : str :=
  match s with [::] => [::] | [:: n] => dec n | n :: s' => dec n ++ lit ", " ++ items s' end.
Definition tuple_str (s : seq nat) : str :=
  lit "(" ++ (if s is [:: n] then dec n ++ lit "," else items s) ++ lit ")".
(** [dtype_str]: util.py:28-42, for the data types of NumPy.  (Python's own types, which a [Zero] may be given, are
    printed as "int" and "float"; the model identifies them with NumPy's.) *)
Definition dtype_str (d : dtype) : str :=
  lit match d with DBool => "bool" | DInt => "int64" | DFloat32 => "float32" | DFloat64 => "float64" end.
(** The text before the colon: the first lines of the methods [__str__]. *)
Definition class_name (k : ty) : str :=
  lit match k with
  | TZero => "zero matrix" (* constant.py:45 *) | TConst => "constant matrix" (* constant.py:94 *)
  | TDense => "dense matrix" (* matrix.py:116 *) | TDiag => "diagonal matrix" (* diagonal.py:44 *)
  | TLT => "lower-triangular matrix" (* triangular.py:31 *) | TUT => "upper-triangular matrix" (* triangular.py:67 *)
  | TLR => "low-rank matrix" (* lowrank.py:107 *) | TWb => "Woodbury matrix" (* woodbury.py:48 *)
  | TKron => "Kronecker product" (* kronecker.py:37 *) | TTiled => "tile of blocks" (* tiledblocks.py:64 *)
  end.

Section Repr.
Variable F : rcfType.
Notation tensor := (tensor F).
Notation mat := (mat F).

(** [str(a)]: e.g. diagonal.py:42-48; lowrank.py:105-112 adds the rank, which is the smallest dimension of the middle
    factor (lowrank.py:81-84; the default middle factor is square). *)
Definition str_of (a : mat) : outcome str :=
  if ty_of a is Some k then
    do b <- shape_batch a; do ' (r, c) <- shape_matrix a;
    do rk <- (if a is LR _ _ m then do ' (mr, mc) <- shape_matrix m; ret (lit ", rank=" ++ dec (minn mr mc)) else ret [::]);
    ret (lit "<" ++ class_name k ++ lit ": batch=" ++ tuple_str (rev b) ++ lit ", shape=" ++ tuple_str [:: r; c] ++
         lit ", dtype=" ++ dtype_str (mdtype a) ++ rk ++ lit ">")
  else Raise AttributeError.

(** [str(self)[:-1]] *)
Definition chop (x : str) : str := take (size x).-1 x.
(** ["\n" + " name=" + indent(x, " " * n).strip()] *)
Definition field (name : string) (n : nat) (x : str) : str := newline :: lit name ++ strip (indent (nseq n space) x).

(** [repr(a)]; [fmt] is wbml's text of an array (matrix.py:136-147), [given a] tells whether the middle and the right factor
    of a low-rank matrix were given to its constructor. *)
Variable fmt : tensor -> str.
Variable given : mat -> bool * bool.
(** Python's [repr] of an array. *)
Variable npr : tensor -> str.
(** lowrank.py:114-127 *)
Definition repr_lr (a : mat) (x y z : str) : outcome str :=
  do s <- str_of a;
  ret (chop s ++ field " left=" 6 x ++ (if (given a).1 then field " middle=" 8 z else [::]) ++
       (if (given a).2 then field " right=" 7 y else [::]) ++ lit ">").
(** constant.py:51-52, 100-107; diagonal.py:50-57; kronecker.py:43-53; matrix.py:122-129; triangular.py:37-44, 73-80;
    woodbury.py:54-64 *)
Fixpoint repr (a : mat) : outcome str :=
  match a with
  | Nm t => ret (fmt t)
  | Zero _ _ _ _ => str_of a
  | Dense t | LT t | UT t => do s <- str_of a; ret (chop s ++ field " mat=" 5 (fmt t) ++ lit ">")
  | Diag t => do s <- str_of a; ret (chop s ++ field " diag=" 6 (fmt t) ++ lit ">")
  | Const t _ _ => do s <- str_of a; ret (chop s ++ field " const=" 7 (fmt t) ++ lit ">")
  | LR l r m => do x <- repr l; do y <- repr r; do z <- repr m; repr_lr a x y z
  | Wb d l r m =>
      do s <- str_of a;
      do s1 <- str_of (wb_diag d); let u := chop s1 ++ field " diag=" 6 (fmt d) ++ lit ">" in
      do x <- repr l; do y <- repr r; do z <- repr m; do v <- repr_lr (wb_lr l r m) x y z;
      ret (chop s ++ field " diag=" 6 u ++ field " lr=" 4 v ++ lit ">")
  | Kron l r =>
      do s <- str_of a; do x <- repr l; do y <- repr r;
      ret (chop s ++ field " left=" 6 x ++ field " right=" 7 y ++ lit ">")
  end.

(** [TiledBlocks.__str__]: tiledblocks.py:62-69; [tl_shape] is what [shape_batch] and [shape_matrix] read. *)
Definition int_str (i : int) : str := match i with Posz n => dec n | Negz n => "-"%char :: dec n.+1 end.
Definition tl_str (a : tiled F) : outcome str :=
  do b <- tl_shape_batch a; do ' (r, c) <- tl_shape_matrix a;
  ret (lit "<tile of blocks: batch=" ++ tuple_str (rev b) ++ lit ", shape=" ++ tuple_str [:: r; c] ++
       lit ", axis=" ++ int_str (tl_axis a) ++ lit ", dtype=" ++ dtype_str (tl_dtype a) ++ lit ">").
(** [TiledBlocks.__repr__]: tiledblocks.py:71-78.  wbml's text of a string is the string. *)
Definition block_repr (q : mat * nat) : outcome str :=
  do x <- (if q.1 is Nm t then ret (npr t) else repr q.1);
  ret (lit " <block: reps=" ++ dec q.2 ++ newline :: lit "  matrix=" ++ strip (indent (nseq 10 space) x) ++ [:: newline]).
Definition tl_repr (a : tiled F) : outcome str :=
  do s <- tl_str a; do xs <- mapM block_repr (tl_items a);
  ret (chop (chop s ++ newline :: flatten xs) ++ lit ">").
End Repr.
