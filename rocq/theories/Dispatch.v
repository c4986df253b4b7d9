(** * Multiple dispatch: plum's method resolution and the method tables

    plum is an external dependency.  [resolve] models
    [plum.Resolver.resolve]: among the methods whose signature matches keep
    the most specific ones; if more than one is left, the one with the
    highest precedence is taken if it is unique, otherwise the call is
    ambiguous.  The tables are those which the import of matrix/ops builds,
    statement by statement.  [proven()] (package [algebra]) returns a new
    positive precedence on every call, larger than the previous ones. *)
From mathcomp Require Import all_ssreflect.
From Verif Require Import Outcome.
Set Implicit Arguments. Unset Strict Implicit. Unset Printing Implicit Defensive.

(** The concrete matrix types. *)
Inductive ty := TZero | TDense | TDiag | TConst | TLT | TUT | TLR | TWb | TKron | TTiled.
Definition ty_id (t : ty) : nat :=
  match t with TZero => 0 | TDense => 1 | TDiag => 2 | TConst => 3 | TLT => 4
  | TUT => 5 | TLR => 6 | TWb => 7 | TKron => 8 | TTiled => 9 end.
Definition ty_eqb (a b : ty) : bool := ty_id a == ty_id b.
Definition all_ty := [:: TZero; TDense; TDiag; TConst; TLT; TUT; TLR; TWb; TKron; TTiled].

(** A parameter annotation: [AbstractMatrix] or a concrete type. *)
Inductive pat := PAny | PT (t : ty).
Definition pat_eqb (p q : pat) : bool :=
  match p, q with
  | PAny, PAny => true | PT a, PT b => ty_eqb a b | _, _ => false
  end.
(** [p] is at least as specific as [q]. *)
Definition pat_le (p q : pat) : bool :=
  match q with PAny => true | PT b => if p is PT a then ty_eqb a b else false end.

Section Tables.
Variable id : Type.
Record meth := Meth { m1 : pat; m2 : pat; mprec : nat; mid : id }.
Definition table := seq meth.

Definition sig_le (m m' : meth) : bool := pat_le (m1 m) (m1 m') && pat_le (m2 m) (m2 m').
Definition sig_lt (m m' : meth) : bool := sig_le m m' && ~~ sig_le m' m.

(** Methods which accept arguments annotated [p], [q]. *)
Definition candidates (tbl : table) (p q : pat) : table :=
  [seq m <- tbl | pat_le p (m1 m) && pat_le q (m2 m)].
Definition most_specific (c : table) : table :=
  [seq m <- c | ~~ has (fun m' => sig_lt m' m) c].
Definition maxprec (c : table) : nat := foldr (fun m n => maxn (mprec m) n) 0 c.

(** [plum.Function.resolve_method] *)
Definition resolve_pat (tbl : table) (p q : pat) : outcome id :=
  match most_specific (candidates tbl p q) with
  | [::] => Raise NotFoundLookup
  | [:: m] => ret (mid m)
  | c =>
      match [seq m <- c | mprec m == maxprec c] with
      | [:: m] => ret (mid m)
      | _ => Raise AmbiguousLookup
      end
  end.
Definition resolve (tbl : table) (a b : ty) : outcome id := resolve_pat tbl (PT a) (PT b).

(** Registering a method; an existing method with the same signature is replaced. *)
Definition register (m : meth) (tbl : table) : table :=
  rcons [seq m' <- tbl | ~~ (sig_le m m' && sig_le m' m)] m.
(** [redirect(f, types_from, types_to, reverse)]: matrix/util.py:45-61.  A
    failing [invoke] at import time would make the import fail; the table is
    then [None]. *)
Definition redirect1 (f1 f2 t1 t2 : pat) (tbl : table) : option table :=
  match resolve_pat tbl t1 t2 with
  | Ret _ i => Some (register (Meth f1 f2 0 i) tbl)
  | RaiseL _ _ => None
  end.
Definition redirect (rev : bool) (f1 f2 t1 t2 : pat) (tbl : option table) : option table :=
  match tbl with
  | None => None
  | Some tb =>
      match redirect1 f1 f2 t1 t2 tb with
      | None => None
      | Some tb' => if rev then redirect1 f2 f1 t2 t1 tb' else Some tb'
      end
  end.
Definition reg (p q : pat) (prec : nat) (i : id) (tbl : option table) : option table :=
  omap (register (Meth p q prec i)) tbl.
End Tables.

Notation "x |> f" := (f x) (at level 59, left associativity, only parsing).

(** ** add: matrix/ops/add.py *)
Inductive add_id :=
| AZeroR      (* add.py:33-36  AbstractMatrix, Zero *)
| AZeroL      (* add.py:39-42  Zero, AbstractMatrix *)
| AGen        (* add.py:48-54  AbstractMatrix, AbstractMatrix *)
| ADense      (* add.py:57-59 *)
| ADiag       (* add.py:65-67 *)
| AConst      (* add.py:73-76 *)
| AConstGen   (* add.py:79-93  Constant, AbstractMatrix *)
| AConstDiag  (* add.py:96-100 *)
| ARev        (* add.py:24-27  _reverse_call, and the explicitly swapped methods *)
| ALT         (* add.py:110-112 *)
| ALTDiag     (* add.py:115-118 *)
| AUT         (* add.py:127-129 *)
| AUTLT       (* add.py:132-134 *)
| AUTDiag     (* add.py:137-139 *)
| ALR         (* add.py:163-201 *)
| ALRConst    (* add.py:204-207 *)
| ALRDiag     (* add.py:215-217 *)
| ADiagLR     (* add.py:220-222 *)
| AWb         (* add.py:228-230 *)
| AWbDiag     (* add.py:233-235 *)
| AWbLR.      (* add.py:243-245 Woodbury, Constant or LowRank *)

Definition add_table : option (table add_id) :=
  Some [::]
  |> reg PAny (PT TZero) 1 AZeroR
  |> reg (PT TZero) PAny 2 AZeroL
  |> reg PAny PAny 0 AGen
  |> reg (PT TDense) (PT TDense) 0 ADense
  |> reg (PT TDiag) (PT TDiag) 0 ADiag
  |> reg (PT TConst) (PT TConst) 0 AConst
  |> reg (PT TConst) PAny 0 AConstGen
  |> reg (PT TConst) (PT TDiag) 0 AConstDiag
  |> reg PAny (PT TConst) 0 ARev
  |> reg (PT TDiag) (PT TConst) 0 ARev
  |> reg (PT TLT) (PT TLT) 0 ALT
  |> reg (PT TLT) (PT TDiag) 0 ALTDiag
  |> reg (PT TDiag) (PT TLT) 0 ARev
  |> reg (PT TUT) (PT TUT) 0 AUT
  |> reg (PT TUT) (PT TLT) 0 AUTLT
  |> reg (PT TUT) (PT TDiag) 0 AUTDiag
  |> reg (PT TDiag) (PT TUT) 0 ARev
  |> reg (PT TLT) (PT TUT) 0 ARev
  |> reg (PT TLR) (PT TLR) 0 ALR
  |> reg (PT TLR) (PT TConst) 0 ALRConst
  |> reg (PT TConst) (PT TLR) 0 ARev
  |> reg (PT TLR) (PT TDiag) 0 ALRDiag
  |> reg (PT TDiag) (PT TLR) 0 ADiagLR
  |> reg (PT TWb) (PT TWb) 0 AWb
  |> reg (PT TWb) (PT TDiag) 0 AWbDiag
  |> reg (PT TDiag) (PT TWb) 0 ARev
  |> reg (PT TWb) (PT TConst) 0 AWbLR
  |> reg (PT TWb) (PT TLR) 0 AWbLR
  |> reg (PT TConst) (PT TWb) 0 ARev
  |> reg (PT TLR) (PT TWb) 0 ARev.

(** ** multiply: matrix/ops/multiply.py *)
Inductive mul_id :=
| MZeroR      (* multiply.py:28-31 *)
| MZeroL      (* multiply.py:34-37 *)
| MGen        (* multiply.py:43-49 *)
| MDense      (* multiply.py:52-54 *)
| MDiag       (* multiply.py:60-62 *)
| MDiagGen    (* multiply.py:65-80 *)
| MRev        (* multiply.py:19-22, and the explicitly swapped methods *)
| MConst      (* multiply.py:89-92 *)
| MConstGen   (* multiply.py:95-110 *)
| MConstDiag  (* multiply.py:113-118 *)
| MLT         (* multiply.py:128-130 *)
| MLTGen      (* multiply.py:133-136 *)
| MLTConst    (* multiply.py:139-143 *)
| MUT         (* multiply.py:155-157 *)
| MUTLT       (* multiply.py:160-162 *)
| MUTGen      (* multiply.py:165-168 *)
| MUTConst    (* multiply.py:171-175 *)
| MLR         (* multiply.py:188-228 *)
| MConstLR    (* multiply.py:231-241 *)
| MWbGen      (* multiply.py:252-255 *)
| MKron       (* multiply.py:273-281 *)
| MConstKron. (* multiply.py:284-292 *)

Definition mul_table : option (table mul_id) :=
  Some [::]
  |> reg PAny (PT TZero) 1 MZeroR
  |> reg (PT TZero) PAny 2 MZeroL
  |> reg PAny PAny 0 MGen
  |> reg (PT TDense) (PT TDense) 0 MDense
  |> reg (PT TDiag) (PT TDiag) 0 MDiag
  |> reg (PT TDiag) PAny 0 MDiagGen
  |> reg PAny (PT TDiag) 0 MRev
  |> reg (PT TConst) (PT TConst) 0 MConst
  |> reg (PT TConst) PAny 0 MConstGen
  |> reg (PT TConst) (PT TDiag) 0 MConstDiag
  |> reg PAny (PT TConst) 0 MRev
  |> reg (PT TDiag) (PT TConst) 0 MRev
  |> reg (PT TLT) (PT TLT) 0 MLT
  |> reg (PT TLT) PAny 0 MLTGen
  |> reg (PT TLT) (PT TConst) 0 MLTConst
  |> reg PAny (PT TLT) 0 MRev
  |> reg (PT TConst) (PT TLT) 0 MRev
  |> redirect true (PT TLT) (PT TDiag) PAny (PT TDiag)
  |> reg (PT TUT) (PT TUT) 0 MUT
  |> reg (PT TUT) (PT TLT) 0 MUTLT
  |> reg (PT TUT) PAny 0 MUTGen
  |> reg (PT TUT) (PT TConst) 0 MUTConst
  |> reg (PT TLT) (PT TUT) 0 MRev
  |> reg PAny (PT TUT) 0 MRev
  |> reg (PT TConst) (PT TUT) 0 MRev
  |> redirect true (PT TUT) (PT TDiag) PAny (PT TDiag)
  |> reg (PT TLR) (PT TLR) 0 MLR
  |> reg (PT TConst) (PT TLR) 0 MConstLR
  |> reg (PT TLR) (PT TConst) 0 MRev
  |> reg (PT TWb) PAny 0 MWbGen
  |> reg PAny (PT TWb) 0 MRev
  |> redirect false (PT TWb) (PT TWb) (PT TWb) PAny
  |> redirect true (PT TWb) (PT TDiag) PAny (PT TDiag)
  |> redirect true (PT TWb) (PT TConst) (PT TWb) PAny
  |> redirect true (PT TWb) (PT TLT) (PT TWb) PAny
  |> redirect true (PT TWb) (PT TUT) (PT TWb) PAny
  |> reg (PT TKron) (PT TKron) 0 MKron
  |> reg (PT TConst) (PT TKron) 0 MConstKron
  |> reg (PT TKron) (PT TConst) 0 MRev.

(** ** matmul: matrix/ops/matmul.py *)
Inductive mm_id :=
| PZeroR      (* matmul.py:43-48 *)
| PZeroL      (* matmul.py:51-56 *)
| PDense      (* matmul.py:80-82 *)
| PDiag       (* matmul.py:88-91 *)
| PDiagGen    (* matmul.py:94-97 *)
| PGenDiag    (* matmul.py:100-103 *)
| PConst      (* matmul.py:109-114 *)
| PConstGen   (* matmul.py:117-126 *)
| PGenConst   (* matmul.py:129-138 *)
| PLT         (* matmul.py:147-154 *)
| PLTGen      (* matmul.py:157-166 *)
| PGenLT      (* matmul.py:169-178 *)
| PLTDiag     (* matmul.py:181-186 *)
| PDiagLT     (* matmul.py:189-194 *)
| PUT         (* matmul.py:203-210 *)
| PUTDiag     (* matmul.py:213-218 *)
| PDiagUT     (* matmul.py:221-226 *)
| PLR         (* matmul.py:239-249 *)
| PLRGen      (* matmul.py:252-257 *)
| PGenLR      (* matmul.py:260-265 *)
| PLRConst    (* matmul.py:268-270 *)
| PConstLR    (* matmul.py:273-275 *)
| PWbGen      (* matmul.py:286-292 *)
| PGenWb      (* matmul.py:295-301 *)
| PKron       (* matmul.py:315-322 *)
| PKronGen    (* matmul.py:343-361 *)
| PGenKron    (* matmul.py:364-366 *)
| PKronDiag   (* matmul.py:369-376 *)
| PDiagKron.  (* matmul.py:379-386 *)

Definition mm_table : option (table mm_id) :=
  Some [::]
  |> reg PAny (PT TZero) 1 PZeroR
  |> reg (PT TZero) PAny 2 PZeroL
  |> reg (PT TDense) (PT TDense) 0 PDense
  |> reg (PT TDiag) (PT TDiag) 0 PDiag
  |> reg (PT TDiag) PAny 0 PDiagGen
  |> reg PAny (PT TDiag) 0 PGenDiag
  |> reg (PT TConst) (PT TConst) 0 PConst
  |> reg (PT TConst) PAny 0 PConstGen
  |> reg PAny (PT TConst) 0 PGenConst
  |> redirect true (PT TConst) (PT TDiag) (PT TConst) PAny
  |> reg (PT TLT) (PT TLT) 0 PLT
  |> reg (PT TLT) PAny 0 PLTGen
  |> reg PAny (PT TLT) 0 PGenLT
  |> reg (PT TLT) (PT TDiag) 0 PLTDiag
  |> reg (PT TDiag) (PT TLT) 0 PDiagLT
  |> redirect true (PT TLT) (PT TConst) PAny (PT TConst)
  |> reg (PT TUT) (PT TUT) 0 PUT
  |> reg (PT TUT) (PT TDiag) 0 PUTDiag
  |> reg (PT TDiag) (PT TUT) 0 PDiagUT
  |> redirect true (PT TUT) PAny (PT TLT) PAny
  |> redirect true (PT TUT) (PT TConst) PAny (PT TConst)
  |> redirect true (PT TUT) (PT TLT) PAny (PT TLT)
  |> reg (PT TLR) (PT TLR) 0 PLR
  |> reg (PT TLR) PAny 0 PLRGen
  |> reg PAny (PT TLR) 0 PGenLR
  |> reg (PT TLR) (PT TConst) 0 PLRConst
  |> reg (PT TConst) (PT TLR) 0 PConstLR
  |> redirect true (PT TLR) (PT TDiag) (PT TLR) PAny
  |> redirect true (PT TLR) (PT TLT) (PT TLR) PAny
  |> redirect true (PT TLR) (PT TUT) (PT TLR) PAny
  |> reg (PT TWb) PAny 0 PWbGen
  |> reg PAny (PT TWb) 0 PGenWb
  |> redirect false (PT TWb) (PT TWb) (PT TWb) PAny
  |> redirect true (PT TWb) (PT TDiag) (PT TWb) PAny
  |> redirect true (PT TWb) (PT TConst) (PT TWb) PAny
  |> redirect true (PT TWb) (PT TLR) (PT TWb) PAny
  |> redirect true (PT TWb) (PT TLT) (PT TWb) PAny
  |> redirect true (PT TWb) (PT TUT) (PT TWb) PAny
  |> reg (PT TKron) (PT TKron) 0 PKron
  |> reg (PT TKron) PAny 0 PKronGen
  |> reg PAny (PT TKron) 0 PGenKron
  |> reg (PT TKron) (PT TDiag) 0 PKronDiag
  |> reg (PT TDiag) (PT TKron) 0 PDiagKron
  |> redirect true (PT TKron) (PT TConst) PAny (PT TConst)
  |> redirect true (PT TKron) (PT TLR) PAny (PT TLR)
  |> redirect true (PT TKron) (PT TWb) PAny (PT TWb)
  |> redirect true (PT TKron) (PT TLT) PAny (PT TLT)
  |> redirect true (PT TKron) (PT TUT) PAny (PT TUT).

(** Look up in a table which may have failed to build. *)
Definition lookup (id : Type) (tbl : option (table id)) (a b : ty) : outcome id :=
  if tbl is Some t then resolve t a b else Raise NotFoundLookup.
