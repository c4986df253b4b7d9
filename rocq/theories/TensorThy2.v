(** * More facts about tensors: reshape, take, concat, stack (proof support) *)
From mathcomp Require Import all_ssreflect all_algebra.
From mathcomp Require Import zify.
From Verif Require Import Outcome Monad Shape Tensor Mat Spec ShapeThy TensorThy.
Set Implicit Arguments. Unset Strict Implicit. Unset Printing Implicit Defensive.
Import GRing.Theory.
Local Open Scope ring_scope.

Section TensorThy2.
Variable F : rcfType.
Notation tensor := (tensor F).
Implicit Types (t : tensor) (b s u be : seq nat) (f : F -> F -> F).

(** ** reshape *)
Lemma unravelK s be : inb s be -> unravel s (ravel s be) = be.
Proof.
elim: s be => [|d s IH] [|i be] //= /andP[hi hb].
by rewrite [(i + _)%N]addnC mulnC modnMDl modn_small // divnMDl ?(leq_ltn_trans _ hi) // divn_small // addn0 IH.
Qed.
Lemma pmap_some (s : seq nat) : pmap id (map Some s) = s.
Proof. by elim: s => //= x s ->. Qed.
Lemma count_some (s : seq nat) : count (fun d : option nat => ~~ isSome d) (map Some s) = 0%N.
Proof. by elim: s. Qed.
Lemma prodn_gt0 s : posn s -> (0 < prodn s)%N.
Proof. by elim: s => //= d s IH /andP[h1 /IH h2]; rewrite muln_gt0 h1. Qed.
Lemma resolve_some n s : prodn s = n -> resolve_dims n (map Some s) = ret s.
Proof. by move=> h; rewrite /resolve_dims count_some pmap_some /= h eqxx. Qed.

Lemma okb_clampb b be : okb b be -> inb b (clamp b be). Proof. by []. Qed.

Lemma tmat_reshape_vec (x : tensor) r c b g n : tmat x r c b g -> n = (r * c)%N ->
  hoare (t_reshape x (map Some (n :: b))) (fun z : tensor => tvec z n b (fun be i => g be (i %/ c)%N (i %% c)%N)).
Proof.
move=> tx En; case: (tx) => s p e; have [c0 r0 pb] := posn3 p; rewrite /t_reshape resolve_some; last first.
  by rewrite s /= En mulnA [(c * r)%N]mulnC.
rewrite bind_ret; apply: hoare_ret; split=> //=; first by rewrite posn_cons En muln_gt0 r0 c0.
move=> be i hbe; rewrite En => hi; rewrite -e ?ltn_mod ?ltn_divLR //.
rewrite /vx /= s /= /mx s /= drop0.
have -> : (i + r * c * ravel b (clamp b be) = (r * ravel b (clamp b be) * c) + i)%N by nia.
rewrite modnMDl divnMDl // [(r * _)%N]mulnC modnMDl [((i %/ c) %% r)%N]modn_small ?ltn_divLR //.
by rewrite divnMDl // [((i %/ c) %/ r)%N]divn_small ?ltn_divLR // addn0 unravelK //.
Qed.

Lemma tmat_reshape (x : tensor) r c b g R C : tmat x r c b g -> (R * C = r * c)%N ->
  hoare (t_reshape x (map Some [:: C, R & b]))
    (fun z : tensor => tmat z R C b (fun be i j => g be ((i * C + j) %/ c)%N ((i * C + j) %% c)%N)).
Proof.
move=> tx En; case: (tx) => s p e; have [c0 r0 pb] := posn3 p; rewrite /t_reshape resolve_some; last first.
  by rewrite s /= mulnA [(C * R)%N]mulnC En mulnA [(c * r)%N]mulnC.
have /andP[R0 C0] : (0 < R)%N && (0 < C)%N by rewrite -muln_gt0 En muln_gt0 r0.
rewrite bind_ret; apply: hoare_ret; split=> //=; first by rewrite !posn_cons C0 R0 pb.
move=> be i j hbe hi hj.
have hk : (i * C + j < r * c)%N by rewrite -En; nia.
rewrite -e ?ltn_mod ?ltn_divLR //.
rewrite /mx /= drop0 s /= drop0.
have -> : (j + C * (i + R * ravel b (clamp b be)) = (r * ravel b (clamp b be)) * c + (i * C + j))%N by nia.
rewrite modnMDl divnMDl // [(r * _)%N]mulnC modnMDl [(((i * C + j) %/ c) %% r)%N]modn_small ?ltn_divLR //.
by rewrite divnMDl // [(((i * C + j) %/ c) %/ r)%N]divn_small ?ltn_divLR // addn0 unravelK.
Qed.
(** With one dimension left to be inferred. *)
Lemma reshape_infer0 (x : tensor) r c b g R C : tmat x r c b g -> (R * C = r * c)%N ->
  t_reshape x [:: None, Some R & map Some b] = t_reshape x (map Some [:: C, R & b]).
Proof.
move=> tx En; case: (tx) => s p e; have [c0 r0 pb] := posn3 p; rewrite /t_reshape; congr (bind _ _).
have /andP[R0 C0] : (0 < R)%N && (0 < C)%N by rewrite -muln_gt0 En muln_gt0 r0.
rewrite resolve_some; last by rewrite s /= mulnA [(C * R)%N]mulnC En mulnA [(c * r)%N]mulnC.
have pp := prodn_gt0 pb.
rewrite /resolve_dims /= count_some /= pmap_some s /=.
have -> : (c * (r * prodn b) = C * (R * prodn b))%N by nia.
rewrite -lt0n muln_gt0 R0 pp /= dvdn_mull // mulnK ?muln_gt0 ?R0 //.
by congr (ret [:: _, _ & _]); rewrite -map_comp -[RHS]map_id; apply: eq_map.
Qed.
Lemma reshape_infer1 (x : tensor) r c b g R C : tmat x r c b g -> (R * C = r * c)%N ->
  t_reshape x [:: Some C, None & map Some b] = t_reshape x (map Some [:: C, R & b]).
Proof.
move=> tx En; case: (tx) => s p e; have [c0 r0 pb] := posn3 p; rewrite /t_reshape; congr (bind _ _).
have /andP[R0 C0] : (0 < R)%N && (0 < C)%N by rewrite -muln_gt0 En muln_gt0 r0.
rewrite resolve_some; last by rewrite s /= mulnA [(C * R)%N]mulnC En mulnA [(c * r)%N]mulnC.
have pp := prodn_gt0 pb.
rewrite /resolve_dims /= count_some /= pmap_some s /=.
have -> : (c * (r * prodn b) = R * (C * prodn b))%N by nia.
rewrite -lt0n muln_gt0 C0 pp /= dvdn_mull // mulnK ?muln_gt0 ?C0 //.
by congr (ret [:: _, _ & _]); rewrite -map_comp -[RHS]map_id; apply: eq_map.
Qed.

(** ** take *)
Lemma tmat_take_nat0 (x : tensor) r c b g ns : tmat x r c b g -> (0 < size ns)%N -> all (fun n => n < c)%N ns ->
  tmat (t_take_nat x ns 0) r (size ns) b (fun be i j => g be i (nth 0%N ns j)).
Proof.
move=> tx n0 al; case: (tx) => s p e; have [c0 r0 pb] := posn3 p; split=> /=.
- by rewrite s.
- by rewrite !posn_cons n0 r0.
move=> be i j hbe hi hj; rewrite -e //; last by move/allP: al; apply; apply: mem_nth.
by rewrite /mx /= s /= !drop0.
Qed.
Lemma tmat_take_nat1 (x : tensor) r c b g ns : tmat x r c b g -> (0 < size ns)%N -> all (fun n => n < r)%N ns ->
  tmat (t_take_nat x ns 1) (size ns) c b (fun be i j => g be (nth 0%N ns i) j).
Proof.
move=> tx n0 al; case: (tx) => s p e; have [c0 r0 pb] := posn3 p; split=> /=.
- by rewrite s.
- by rewrite !posn_cons n0 c0.
move=> be i j hbe hi hj; rewrite -e //; last by move/allP: al; apply; apply: mem_nth.
by rewrite /mx /= s /= !drop0.
Qed.
Lemma tvec_take_nat0 (x : tensor) n b g ns : tvec x n b g -> (0 < size ns)%N -> all (fun k => k < n)%N ns ->
  tvec (t_take_nat x ns 0) (size ns) b (fun be i => g be (nth 0%N ns i)).
Proof.
move=> tx n0 al; case: (tx) => s /andP[_ pb] e; split=> /=.
- by rewrite s.
- by rewrite posn_cons n0.
move=> be i hbe hi; rewrite -e //; last by move/allP: al; apply; apply: mem_nth.
by rewrite /vx /= s.
Qed.
Lemma tmat_take0 (x : tensor) r c b g y ns : tmat x r c b g -> resolve_iom c y = ret ns ->
  (0 < size ns)%N -> all (fun n => n < c)%N ns ->
  hoare (t_take_pos x y 0) (fun z => tmat z r (size ns) b (fun be i j => g be i (nth 0%N ns j))).
Proof.
move=> tx R n0 al; case: (tx) => s p e; rewrite /t_take_pos s /= R bind_ret.
by apply: hoare_ret; apply: (tmat_take_nat0 tx).
Qed.
Lemma tmat_take1 (x : tensor) r c b g y ns : tmat x r c b g -> resolve_iom r y = ret ns ->
  (0 < size ns)%N -> all (fun n => n < r)%N ns ->
  hoare (t_take_pos x y 1) (fun z => tmat z (size ns) c b (fun be i j => g be (nth 0%N ns i) j)).
Proof.
move=> tx R n0 al; case: (tx) => s p e; rewrite /t_take_pos s /= R bind_ret.
by apply: hoare_ret; apply: (tmat_take_nat1 tx).
Qed.

(** ** concat of two *)
Lemma tmat_concat0 (x y : tensor) r c c' b g h : tmat x r c b g -> tmat y r c' b h ->
  hoare (t_concat_pos [:: x; y] 0) (fun z => tmat z r (c + c') b
    (fun be i j => if (j < c)%N then g be i j else h be i (j - c)%N)).
Proof.
move=> tx ty; case: (tx) => s p e; have [c0 r0 pb] := posn3 p; case: (ty) => s' p' e'.
rewrite /t_concat_pos /= s s' /= !eqxx; apply: hoare_ret; split=> //=.
- by rewrite addn0.
- by rewrite !posn_cons addn_gt0 c0 r0 pb.
move=> be i j hbe hi hj; rewrite {1}/mx /= drop0 ?s ?s' /=; case: ltnP => hjc.
  by rewrite -e // /mx s /= drop0.
have h1 : (j - c < c')%N by rewrite ltn_subLR.
by rewrite h1 -e' // /mx s' /= drop0.
Qed.
Lemma tmat_concat1 (x y : tensor) r r' c b g h : tmat x r c b g -> tmat y r' c b h ->
  hoare (t_concat_pos [:: x; y] 1) (fun z => tmat z (r + r') c b
    (fun be i j => if (i < r)%N then g be i j else h be (i - r)%N j)).
Proof.
move=> tx ty; case: (tx) => s p e; have [c0 r0 pb] := posn3 p; case: (ty) => s' p' e'.
rewrite /t_concat_pos /= s s' /= !eqxx; apply: hoare_ret; split=> //=.
- by rewrite addn0.
- by rewrite !posn_cons addn_gt0 c0 r0 pb.
move=> be i j hbe hi hj; rewrite {1}/mx /= drop0 ?s ?s' /=; case: ltnP => hjc.
  by rewrite -e // /mx s /= drop0.
have h1 : (i - r < r')%N by rewrite ltn_subLR.
by rewrite h1 -e' // /mx s' /= drop0.
Qed.
(** ** first matrix of a batch *)
Lemma tmat_first (x : tensor) r c b g : tmat x r c b g ->
  hoare (t_first x) (fun z => sh z = [:: c; r]).
Proof.
case=> s p e; have [c0 r0 pb] := posn3 p; rewrite /t_first s.
have -> : all (fun d => 0 < d)%N b by exact: pb.
exact: hoare_ret.
Qed.
Lemma allidxP s (f : seq nat -> bool) idx : allidx s f -> inb s idx -> f idx.
Proof.
elim: s f idx => [|d s IH] f [|i idx] //= /allP h /andP[hi hb].
by apply: (IH (fun idx => f (i :: idx))) hb; apply: h; rewrite mem_iota.
Qed.

(** Sums over the elements selected from a list. *)
Lemma sumf_nth (T : Type) (x0 : T) (s : seq T) (G : T -> F) :
  sumf (size s) (fun k => G (nth x0 s k)) = \sum_(x <- s) G x.
Proof. by rewrite sumfE (big_nth x0). Qed.
Lemma sum_pmap (T : Type) (f : T -> option nat) (s : seq T) (G : nat -> F) :
  \sum_(x <- s) oapp G 0 (f x) = \sum_(i <- pmap f s) G i.
Proof.
elim: s => [|x s IH] /=; first by rewrite !big_nil.
by rewrite big_cons IH; case: (f x) => [i|] /=; rewrite ?big_cons ?add0r.
Qed.
Lemma sumf_pmap (T : Type) (x0 : T) (f : T -> option nat) (s : seq T) (G : nat -> F) p :
  perm_eq (pmap f s) (iota 0 p) -> sumf (size s) (fun k => oapp G 0 (f (nth x0 s k))) = sumf p G.
Proof.
move=> h; rewrite (sumf_nth x0 s (fun x => oapp G 0 (f x))) sum_pmap (perm_big _ h) /=.
by rewrite sumfE /index_iota subn0.
Qed.
End TensorThy2.
