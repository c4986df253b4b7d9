(** * Sample matrices, used to show that hypotheses can be met *)
From mathcomp Require Import all_ssreflect all_algebra.
From Verif Require Import Outcome Shape Tensor Mat Spec.
Set Implicit Arguments. Unset Strict Implicit. Unset Printing Implicit Defensive.
Import GRing.Theory.
Local Open Scope ring_scope.

Section Samples.
Variable F : rcfType.
Notation tensor := (tensor F).
Notation mat := (mat F).
(** A batch of 3 lower-triangular 2x2 matrices, with different entries. *)
Definition s_lt_t : tensor := Tensor DFloat64 [:: 2; 2; 3]%N
  (fun idx => if idx is [:: j; i; k] then (if (i < j)%N then 0 else (i + 2 * j + k)%N.+1%:R) else 0).
Definition s_lt : mat := LT s_lt_t.
(** diag(1, 2) *)
Definition s_diag : mat := Diag (Tensor DFloat32 [:: 2]%N (fun idx => (head 0%N idx).+1%:R)).
(** A low-rank 2x2 matrix [u v^T] with a dense left factor and a constant right factor. *)
Definition s_lr : mat := LR (Dense (Tensor DFloat64 [:: 1; 2]%N (fun idx => (nth 0%N idx 1).+1%:R)))
  (Const (t_scalar DFloat64 3%:R) 2 1) (Diag (t_ones DFloat64 [:: 1]%N)).
Definition s_wb : mat := Wb (Tensor DFloat32 [:: 2]%N (fun idx => (head 0%N idx).+1%:R))
  (Dense (Tensor DFloat64 [:: 1; 2]%N (fun idx => (nth 0%N idx 1).+1%:R)))
  (Const (t_scalar DFloat64 3%:R) 2 1) (Diag (t_ones DFloat64 [:: 1]%N)).
(** A Kronecker product of the batch of triangular matrices and the Woodbury matrix. *)
Definition s_kron : mat := Kron s_lt s_wb.
Definition s_dense4 : mat := Dense (Tensor DFloat64 [:: 4; 4]%N (fun idx => (head 0%N idx + 3 * nth 0%N idx 1)%N%:R)).
Definition s_dense23 : mat := Dense (Tensor DFloat64 [:: 3; 2]%N (fun idx => (head 0%N idx + 3 * nth 0%N idx 1)%N%:R)).
Definition s_scal : mat := Nm (t_scalar DInt 7%:R).

Lemma s_lt_wf : wf s_lt.
Proof. by split=> // -[|k be] i j _ _ _ h; rewrite /mx /= h. Qed.
Lemma s_diag_wf : wf s_diag. Proof. by []. Qed.
Lemma s_lr_wf : wf s_lr. Proof. by []. Qed.
Lemma s_wb_wf : wf s_wb. Proof. by []. Qed.
Lemma s_kron_wf : wf s_kron. Proof. by split=> //; apply: s_lt_wf. Qed.
Lemma s_dense4_wf : wf s_dense4. Proof. by []. Qed.
Lemma s_dense23_wf : wf s_dense23. Proof. by []. Qed.
Lemma s_scal_wfo : wfo s_scal. Proof. by right. Qed.
End Samples.
