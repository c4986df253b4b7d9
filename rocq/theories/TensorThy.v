(** * Facts about numeric tensors (proof support) *)
From mathcomp Require Import all_ssreflect all_algebra.
From Verif Require Import Outcome Monad Shape Tensor Mat Spec ShapeThy.
Set Implicit Arguments. Unset Strict Implicit. Unset Printing Implicit Defensive.
Import GRing.Theory.
Local Open Scope ring_scope.

Global Arguments mx : simpl never.
Global Arguments vx : simpl never.
Global Arguments sx : simpl never.
Global Arguments bat : simpl never.

Section TensorThy.
Variable F : rcfType.
Notation tensor := (tensor F).
Implicit Types (t : tensor) (b s u be : seq nat) (f : F -> F -> F).

(** ** Sums *)
Lemma sumfE n (f : nat -> F) : sumf n f = \sum_(0 <= k < n) f k.
Proof. by rewrite /sumf /index_iota subn0 unlock. Qed.
Lemma eq_sumf n (f g : nat -> F) : (forall k, (k < n)%N -> f k = g k) -> sumf n f = sumf n g.
Proof. by move=> h; rewrite !sumfE; apply: eq_big_nat => k /andP[_]; apply: h. Qed.
Lemma sumf0 n : sumf n (fun _ => 0 : F) = 0.
Proof. by rewrite sumfE big1. Qed.
Lemma sumf_add n (f g : nat -> F) : sumf n (fun k => f k + g k) = sumf n f + sumf n g.
Proof. by rewrite !sumfE big_split. Qed.
Lemma sumf_mull n (f : nat -> F) x : x * sumf n f = sumf n (fun k => x * f k).
Proof. by rewrite !sumfE big_distrr. Qed.
Lemma sumf_mulr n (f : nat -> F) x : sumf n f * x = sumf n (fun k => f k * x).
Proof. by rewrite !sumfE big_distrl. Qed.
Lemma sumf_opp n (f : nat -> F) : sumf n (fun k => - f k) = - sumf n f.
Proof. by rewrite !sumfE sumrN. Qed.
Lemma sumf_exch n m (f : nat -> nat -> F) :
  sumf n (fun i => sumf m (fun j => f i j)) = sumf m (fun j => sumf n (fun i => f i j)).
Proof.
transitivity (\sum_(0 <= i < n) \sum_(0 <= j < m) f i j).
  by rewrite sumfE; apply: eq_bigr => i _; rewrite sumfE.
rewrite exchange_big /= sumfE; apply: eq_bigr => j _; by rewrite sumfE.
Qed.
Lemma sumf_const n (x : F) : sumf n (fun _ => x) = x *+ n.
Proof. by rewrite sumfE sumr_const_nat subn0. Qed.
Lemma sumf1 (f : nat -> F) : sumf 1 f = f 0%N.
Proof. by rewrite /sumf /= addr0. Qed.
Lemma sumfS n (f : nat -> F) : sumf n.+1 f = f 0%N + sumf n (fun k => f k.+1).
Proof. by rewrite !sumfE big_nat_recl. Qed.
Lemma sumfSr n (f : nat -> F) : sumf n.+1 f = sumf n f + f n.
Proof. by rewrite !sumfE big_nat_recr. Qed.
Lemma sumf_cat n m (f : nat -> F) : sumf (n + m) f = sumf n f + sumf m (fun k => f (n + k)%N).
Proof.
rewrite !sumfE (@big_cat_nat _ _ _ n) ?leq_addr //=; congr (_ + _).
by rewrite -{1}[n]add0n big_addn addKn; apply: eq_bigr => i _; rewrite addnC.
Qed.
Lemma sumf_delta n i (f : nat -> F) : (i < n)%N ->
  sumf n (fun k => if i == k then f k else 0) = f i.
Proof.
move=> h; rewrite sumfE big_mkord (bigD1 (Ordinal h)) //= eqxx big1 ?addr0 // => j hj.
by case: eqP => // e; case/eqP: hj; apply: val_inj.
Qed.
Lemma sumf_delta' n i (f : nat -> F) : (i < n)%N ->
  sumf n (fun k => if k == i then f k else 0) = f i.
Proof. by move=> h; rewrite -[RHS](sumf_delta f h); apply: eq_sumf => k _; rewrite eq_sym. Qed.
Lemma sumf_prod n m (f : nat -> F) :
  sumf (n * m) f = sumf n (fun i => sumf m (fun j => f (i * m + j)%N)).
Proof.
elim: n => [|n IH]; first by rewrite mul0n.
by rewrite mulSn addnC sumf_cat sumfSr IH.
Qed.
Lemma sumf_prod_dm n m (f : nat -> nat -> F) :
  sumf (n * m) (fun k => f (k %/ m) (k %% m))%N = sumf n (fun i => sumf m (fun j => f i j)).
Proof.
rewrite sumf_prod; apply: eq_sumf => i _; apply: eq_sumf => j hj.
have m0 : (0 < m)%N by apply: leq_ltn_trans hj.
by rewrite divnMDl // divn_small // addn0 modnMDl modn_small.
Qed.
Lemma sumf_sumf_mul n m (f g : nat -> F) :
  sumf n f * sumf m g = sumf n (fun i => sumf m (fun j => f i * g j)).
Proof. by rewrite sumf_mulr; apply: eq_sumf => i _; rewrite sumf_mull. Qed.

Lemma ins0 A (s : seq A) x : ins s 0 x = x :: s.
Proof. by case: s. Qed.
(** ** Views *)
(** [t] is an array of shape [b + (r, c)] with entries [g]. *)
Definition tmat t (r c : nat) (b : shape) (g : seq nat -> nat -> nat -> F) : Prop :=
  [/\ sh t = [:: c, r & b], posn [:: c, r & b] &
      forall be i j, okb b be -> (i < r)%N -> (j < c)%N -> mx t be i j = g be i j].
Definition tvec t (n : nat) (b : shape) (g : seq nat -> nat -> F) : Prop :=
  [/\ sh t = n :: b, posn (n :: b) &
      forall be i, okb b be -> (i < n)%N -> vx t be i = g be i].
Definition tsca t (b : shape) (g : seq nat -> F) : Prop :=
  [/\ sh t = b, posn b & forall be, okb b be -> sx t be = g be].

Lemma wft_sh t : wft t -> sh t = [:: tcols t, trows t & tbatch t].
Proof. by rewrite /wft /trank /tcols /trows /tbatch; case: (sh t) => [|c [|r b]] //=; rewrite drop0. Qed.
Lemma wfv_sh t : wfv t -> sh t = tcols t :: behead (sh t).
Proof. by rewrite /wfv /trank /tcols; case: (sh t). Qed.
Lemma tmat_wft t : wft t -> tmat t (trows t) (tcols t) (tbatch t) (mx t).
Proof. by move=> h; split=> //; [apply: wft_sh|rewrite -wft_sh //; case/andP: h]. Qed.
Lemma tvec_wfv t : wfv t -> tvec t (tcols t) (behead (sh t)) (vx t).
Proof. by move=> h; split=> //; [apply: wfv_sh|rewrite -wfv_sh //; case/andP: h]. Qed.
Lemma tsca_posn t : posn (sh t) -> tsca t (sh t) (sx t).
Proof. by []. Qed.
Lemma tmat_is t r c b g : tmat t r c b g -> wft t.
Proof. by case=> h1 h2 _; rewrite /wft /trank h1. Qed.
Lemma tvec_is t n b g : tvec t n b g -> wfv t.
Proof. by case=> h1 h2 _; rewrite /wfv /trank h1. Qed.
Lemma tmat_rows t r c b g : tmat t r c b g -> trows t = r. Proof. by rewrite /trows; case=> ->. Qed.
Lemma tmat_cols t r c b g : tmat t r c b g -> tcols t = c. Proof. by rewrite /tcols; case=> ->. Qed.
Lemma tmat_batch t r c b g : tmat t r c b g -> tbatch t = b.
Proof. by rewrite /tbatch; case=> ->; rewrite /= drop0. Qed.
Lemma tvec_len t n b g : tvec t n b g -> tcols t = n. Proof. by rewrite /tcols; case=> ->. Qed.
Lemma tvec_batch t n b g : tvec t n b g -> behead (sh t) = b. Proof. by case=> ->. Qed.
Lemma tmat_ent t r c b g be i j : tmat t r c b g -> okb b be -> (i < r)%N -> (j < c)%N -> mx t be i j = g be i j.
Proof. by case=> _ _ h /h h1 /h1 h2 /h2. Qed.
Lemma tvec_ent t n b g be i : tvec t n b g -> okb b be -> (i < n)%N -> vx t be i = g be i.
Proof. by case=> _ _ h /h h1 /h1. Qed.
Lemma tsca_ent t b g be : tsca t b g -> okb b be -> sx t be = g be.
Proof. by case=> _ _ h /h h1. Qed.
Lemma tmat_ext t r c b g g' : tmat t r c b g ->
  (forall be i j, okb b be -> (i < r)%N -> (j < c)%N -> g be i j = g' be i j) -> tmat t r c b g'.
Proof. by case=> h1 h2 h3 h; split=> // be i j hb hi hj; rewrite h3 // h. Qed.
Lemma tvec_ext t n b g g' : tvec t n b g ->
  (forall be i, okb b be -> (i < n)%N -> g be i = g' be i) -> tvec t n b g'.
Proof. by case=> h1 h2 h3 h; split=> // be i hb hi; rewrite h3 // h. Qed.
Lemma tsca_ext t b g g' : tsca t b g ->
  (forall be, okb b be -> g be = g' be) -> tsca t b g'.
Proof. by case=> h1 h2 h3 h; split=> // be hb; rewrite h3 // h. Qed.

Lemma mx_bat t r c b be i j : sh t = [:: c, r & b] -> (i < r)%N -> (j < c)%N ->
  mx t be i j = bat t [:: j, i & be].
Proof. by move=> h hi hj; rewrite /mx /bat h /= drop0 !clid. Qed.
Lemma bat_mx t r c b be i j : sh t = [:: c, r & b] ->
  bat t [:: j, i & be] = mx t be (cl r i) (cl c j).
Proof. by move=> h; rewrite /mx /bat h /= drop0. Qed.
Lemma vx_bat t n b be i : sh t = n :: b -> (i < n)%N -> vx t be i = bat t (i :: be).
Proof. by move=> h hi; rewrite /vx /bat h /= clid. Qed.
Lemma bat_vx t n b be i : sh t = n :: b -> bat t (i :: be) = vx t be (cl n i).
Proof. by move=> h; rewrite /vx /bat h /=. Qed.
Lemma bat_clamp t s idx : bto (sh t) s -> bat t (clamp s idx) = bat t idx.
Proof. by move=> h; rewrite /bat clamp_clamp. Qed.
Lemma mx_clamp t s be i j : bto (tbatch t) s -> mx t (clamp s be) i j = mx t be i j.
Proof. by move=> h; rewrite /mx clamp_clamp. Qed.
Lemma vx_clamp t s be i : bto (behead (sh t)) s -> vx t (clamp s be) i = vx t be i.
Proof. by move=> h; rewrite /vx clamp_clamp. Qed.

(** ** Elementwise functions *)
Lemma t_map2P f x y : bcok (sh x) (sh y) -> exists z,
  [/\ t_map2 f x y = ret z, sh z = bct (sh x) (sh y), dt z = promote (dt x) (dt y) &
      forall idx, bat z idx = f (bat x idx) (bat y idx)].
Proof.
move=> h; rewrite /t_map2 (bcsE h); eexists; split; try reflexivity.
move=> idx; rewrite {1}/bat /=.
by rewrite !bat_clamp // ?bct_ubl ?bct_ubr.
Qed.

Lemma tmat_map2 f x y rx cx bx gx ry cy by' gy :
  tmat x rx cx bx gx -> tmat y ry cy by' gy -> bcnok rx ry -> bcnok cx cy -> bcok bx by' ->
  hoare (t_map2 f x y) (fun z => tmat z (bcn rx ry) (bcn cx cy) (bct bx by')
    (fun be i j => f (gx be (cl rx i) (cl cx j)) (gy be (cl ry i) (cl cy j)))).
Proof.
move=> tx ty hr hc hb; case: (tx) => sx px ex; case: (ty) => sy py ey.
have hs : bcok (sh x) (sh y) by rewrite sx sy !bcok_cons hr hc.
have hsE : bct (sh x) (sh y) = [:: bcn cx cy, bcn rx ry & bct bx by'].
  by rewrite sx sy !bct_cons // bcok_cons hr.
have [z [-> sz _ ez]] := t_map2P f hs; apply: hoare_ret; split; first by rewrite sz hsE.
  by rewrite -hsE; apply: posn_bct; rewrite ?sx ?sy.
rewrite hsE in sz; move=> be i j; rewrite okb_bct // => /andP[obx oby] hi hj.
rewrite (mx_bat _ sz) // ez (bat_mx _ _ _ sx) (bat_mx _ _ _ sy).
move: px py => /and3P[cx0 rx0 _] /and3P[cy0 ry0 _].
by rewrite ex ?ey ?(cl_bcn_lt hr) ?(cl_bcn_lt hc) ?(cl_bcn_ltr hr) ?(cl_bcn_ltr hc).
Qed.

Lemma tvec_map2 f x y nx bx gx ny by' gy :
  tvec x nx bx gx -> tvec y ny by' gy -> bcnok nx ny -> bcok bx by' ->
  hoare (t_map2 f x y) (fun z => tvec z (bcn nx ny) (bct bx by')
    (fun be i => f (gx be (cl nx i)) (gy be (cl ny i)))).
Proof.
move=> tx ty hr hb; case: (tx) => sx px ex; case: (ty) => sy py ey.
have hs : bcok (sh x) (sh y) by rewrite sx sy !bcok_cons hr.
have hsE : bct (sh x) (sh y) = bcn nx ny :: bct bx by' by rewrite sx sy bct_cons.
have [z [-> sz _ ez]] := t_map2P f hs; apply: hoare_ret; split; first by rewrite sz hsE.
  by rewrite -hsE; apply: posn_bct; rewrite ?sx ?sy.
rewrite hsE in sz; move=> be i; rewrite okb_bct // => /andP[obx oby] hi.
rewrite (vx_bat _ sz) // ez (bat_vx _ _ sx) (bat_vx _ _ sy).
move: px py => /andP[nx0 _] /andP[ny0 _].
by rewrite ex ?ey ?(cl_bcn_lt hr) ?(cl_bcn_ltr hr).
Qed.

(** equal lengths *)
Lemma tvec_map2e f x y n bx gx by' gy :
  tvec x n bx gx -> tvec y n by' gy -> bcok bx by' ->
  hoare (t_map2 f x y) (fun z => tvec z n (bct bx by') (fun be i => f (gx be i) (gy be i))).
Proof.
move=> tx ty hb; apply: hoare_conseq (tvec_map2 f tx ty (bcnokn n) hb) _ => z.
by rewrite bcnn => tz; apply: tvec_ext tz _ => be i _ hi; rewrite clid.
Qed.
Lemma tmat_map2e f x y r c bx gx by' gy :
  tmat x r c bx gx -> tmat y r c by' gy -> bcok bx by' ->
  hoare (t_map2 f x y) (fun z => tmat z r c (bct bx by') (fun be i j => f (gx be i j) (gy be i j))).
Proof.
move=> tx ty hb; apply: hoare_conseq (tmat_map2 f tx ty (bcnokn r) (bcnokn c) hb) _ => z.
by rewrite !bcnn => tz; apply: tmat_ext tz _ => be i j _ hi hj; rewrite !clid.
Qed.

Lemma tsca_map2 f x y bx gx by' gy :
  tsca x bx gx -> tsca y by' gy -> bcok bx by' ->
  hoare (t_map2 f x y) (fun z => tsca z (bct bx by') (fun be => f (gx be) (gy be))).
Proof.
move=> tx ty hb; case: (tx) => sx px ex; case: (ty) => sy py ey.
have hs : bcok (sh x) (sh y) by rewrite sx sy.
have [z [-> sz _ ez]] := t_map2P f hs; apply: hoare_ret; split; first by rewrite sz sx sy.
  exact: posn_bct.
by move=> be; rewrite okb_bct // => /andP[o1 o2]; rewrite /Tensor.sx ez -/(Tensor.sx x be) -/(Tensor.sx y be) ex ?ey.
Qed.

(** a scalar batch against a matrix / vector *)
Lemma tmat_exp11 x b g : tsca x b g -> b != [::] -> tmat (t_expand11_is x) 1 1 b (fun be _ _ => g be).
Proof.
case=> sx px ex hb; rewrite /t_expand11_is sx; case: b sx px ex hb => // d b sx px ex _.
split; rewrite /= ?sx // => be [|i] [|j] // hbe _ _.
by rewrite -ex // /Tensor.sx /bat /mx /= sx /= ?drop0 ?sx.
Qed.
Lemma exp11_0 x g : tsca x [::] g -> sh (t_expand11_is x) = [::] /\ forall idx, bat (t_expand11_is x) idx = g [::].
Proof.
case=> sx px ex; rewrite /t_expand11_is sx; split=> // idx.
by rewrite -ex // /Tensor.sx /bat sx.
Qed.
Lemma tmat_map2_sl f x y b g r c by' gy :
  tsca x b g -> tmat y r c by' gy -> bcok b by' ->
  hoare (t_map2 f (t_expand11_is x) y) (fun z => tmat z r c (bct b by') (fun be i j => f (g be) (gy be i j))).
Proof.
move=> tx ty hb; have [b0|b0] := eqVneq b [::]; last first.
  apply: hoare_conseq (tmat_map2 f (tmat_exp11 tx b0) ty (bc1nok _) (bc1nok _) hb) _ => z.
  by rewrite !bc1n => tz; apply: tmat_ext tz _ => be i j hbe hi hj; rewrite !(@clid _ i) ?(@clid _ j).
subst b; have [sx ex] := exp11_0 tx; case: (tx) (ty) => s0 _ e0 [sy py ey].
have hs : bcok (sh (t_expand11_is x)) (sh y) by rewrite sx.
have [z [-> sz _ ez]] := t_map2P f hs; apply: hoare_ret.
have sz' : sh z = [:: c, r & by'] by rewrite sz sx sy.
split; rewrite ?sz' ?bct0s // => be i j hbe hi hj.
rewrite (mx_bat _ sz') // ez ex (bat_mx _ _ _ sy) !clid // ey //.
by rewrite -e0 // -(e0 be) // /Tensor.sx /bat s0.
Qed.
Lemma tmat_map2_sr f x y b g r c by' gy :
  tsca x b g -> tmat y r c by' gy -> bcok by' b ->
  hoare (t_map2 f y (t_expand11_is x)) (fun z => tmat z r c (bct by' b) (fun be i j => f (gy be i j) (g be))).
Proof.
move=> tx ty hb; have [b0|b0] := eqVneq b [::]; last first.
  apply: hoare_conseq (tmat_map2 f ty (tmat_exp11 tx b0) (bcnok1 _) (bcnok1 _) hb) _ => z.
  by rewrite !bcn1 => tz; apply: tmat_ext tz _ => be i j hbe hi hj; rewrite !(@clid _ i) ?(@clid _ j).
subst b; have [sx ex] := exp11_0 tx; case: (tx) (ty) => s0 _ e0 [sy py ey].
have hs : bcok (sh y) (sh (t_expand11_is x)) by rewrite sx bcoks0.
have [z [-> sz _ ez]] := t_map2P f hs; apply: hoare_ret.
have sz' : sh z = [:: c, r & by'] by rewrite sz sx sy bcts0.
split; rewrite ?sz' ?bcts0 // => be i j hbe hi hj.
rewrite (mx_bat _ sz') // ez ex (bat_mx _ _ _ sy) !clid // ey //.
by rewrite -e0 // -(e0 be) // /Tensor.sx /bat s0.
Qed.
Lemma tvec_map2_sl f x y b g n by' gy :
  tsca x b g -> tvec y n by' gy -> bcok b by' ->
  hoare (t_map2 f (t_expand1_is x) y) (fun z => tvec z n (bct b by') (fun be i => f (g be) (gy be i))).
Proof.
move=> tx ty hb; case: (tx) (ty) => sx px e0 [sy py ey].
have hs : bcok (sh (t_expand1_is x)) (sh y).
  rewrite /t_expand1_is sx sy; case: b {tx px e0} sx hb => [|d b] sx hb /=; by rewrite sx ?bcok_cons.
have hsE : bct (sh (t_expand1_is x)) (sh y) = n :: bct b by'.
  rewrite /t_expand1_is sx sy; case: b {tx hs px e0} sx hb => [|d b] sx hb /=; first by rewrite sx.
  by rewrite sx bct_cons.
have [z [-> sz _ ez]] := t_map2P f hs; apply: hoare_ret; rewrite hsE in sz; split=> //.
  by case/andP: py => n0 p0; rewrite posn_cons n0 posn_bct.
move=> be i; rewrite okb_bct // => /andP[h1 h2] hi.
rewrite (vx_bat _ sz) // ez (bat_vx _ _ sy) !clid // ey //; congr (f _ _).
rewrite -e0 // /Tensor.sx /bat /t_expand1_is sx; by case: b {tx hb px e0 hs hsE sz h1} sx => [|d b] sx /=; rewrite sx.
Qed.

Lemma tmat_map (f : F -> F) x r c b g : tmat x r c b g ->
  tmat (t_map f x) r c b (fun be i j => f (g be i j)).
Proof. by case=> h1 h2 h3; split=> // be i j hb hi hj; rewrite -h3. Qed.
Lemma tvec_map (f : F -> F) x n b g : tvec x n b g ->
  tvec (t_map f x) n b (fun be i => f (g be i)).
Proof. by case=> h1 h2 h3; split=> // be i hb hi; rewrite -h3. Qed.
Lemma tsca_map (f : F -> F) x b g : tsca x b g ->
  tsca (t_map f x) b (fun be => f (g be)).
Proof. by case=> h1 h2 h3; split=> // be hb; rewrite -h3. Qed.

(** ** Constant tensors, expansions *)
Lemma tmat_full d r c b (x : F) : posn [:: c, r & b] -> tmat (t_full d [:: c, r & b] x) r c b (fun _ _ _ => x).
Proof. by []. Qed.
Lemma tvec_full d n b (x : F) : posn (n :: b) -> tvec (t_full d (n :: b) x) n b (fun _ _ => x).
Proof. by []. Qed.

Lemma tmat_expand1 x n b g : tvec x n b g -> tmat (t_expand1 x) n 1 b (fun be i _ => g be i).
Proof.
case=> h1 h2 h3; split; rewrite /= ?h1 // => be i [|j] // hb hi _.
by rewrite -h3 // /mx /vx /= ?h1 /= ?drop0.
Qed.
Lemma tmat_expand2 x n b g : tvec x n b g -> tmat (t_expand2 x) 1 n b (fun be _ j => g be j).
Proof.
case=> h1 h2 h3; split; rewrite /= ?h1 /= ?ins0 //.
by move=> be [|i] j // hb hi hj; rewrite -h3 // /mx /vx /= ?h1 /= ?ins0 /= ?drop0.
Qed.
Lemma tvec_expand1 x b g : tsca x b g -> tvec (t_expand1 x) 1 b (fun be _ => g be).
Proof.
case=> h1 h2 h3; split; rewrite /= ?h1 // => be [|i] // hb _.
by rewrite -h3 // /vx /sx /bat /= ?h1.
Qed.
Lemma tmat_squeeze1 x r b g : tmat x r 1 b g ->
  hoare (t_squeeze1 x) (fun z => tvec z r b (fun be i => g be i 0%N)).
Proof.
case=> h1 h2 h3; rewrite /t_squeeze1 h1; apply: hoare_ret; split=> // be i hb hi.
by rewrite /vx /= -h3 // /mx h1 /= drop0.
Qed.
Lemma tmat_squeeze2 x c b g : tmat x 1 c b g ->
  hoare (t_squeeze2 x) (fun z => tvec z c b (fun be j => g be 0%N j)).
Proof.
case=> h1 h2 h3; rewrite /t_squeeze2 h1; apply: hoare_ret; split=> //.
by move=> be j hb hj; rewrite -h3 // /mx /vx /= ?h1 /= ?drop0 ?ins0.
Qed.

(** ** Transposition, product *)
Lemma tmat_transpose x r c b g : tmat x r c b g ->
  hoare (t_transpose x) (fun z => tmat z c r b (fun be i j => g be j i)).
Proof.
case=> h1 h2 h3; rewrite /t_transpose h1; apply: hoare_ret; split=> //=.
  by move: h2; rewrite !posn_cons andbCA.
by move=> be i j hb hi hj; rewrite /mx /= drop0 -h3 // /mx h1 /= drop0.
Qed.
Lemma tmat_tr x r c b g ta : tmat x r c b g ->
  hoare (t_tr x ta) (fun z => tmat z (if ta then c else r) (if ta then r else c) b
     (fun be i j => if ta then g be j i else g be i j)).
Proof. by case: ta => tx; [apply: tmat_transpose|apply: hoare_ret]. Qed.
Lemma tmat_matmul_nn x y rx k bx gx cy by' gy :
  tmat x rx k bx gx -> tmat y k cy by' gy -> bcok bx by' ->
  hoare (t_matmul_nn x y) (fun z => tmat z rx cy (bct bx by')
    (fun be i j => sumf k (fun p => gx be i p * gy be p j))).
Proof.
case=> sx px ex [sy py ey] hb; rewrite /t_matmul_nn sx sy eqxx (bcsE hb); apply: hoare_ret.
split=> //=.
  by move: px py => /and3P[? ? ?] /and3P[? ? ?]; rewrite !posn_cons posn_bct //; apply/and3P.
move=> be i j; rewrite okb_bct // => /andP[o1 o2] hi hj.
rewrite {1}/mx /= drop0; apply: eq_sumf => p hp.
have h1 : bto (tbatch x) (bct bx by') by rewrite /tbatch sx /= drop0 bct_ubl.
have h2 : bto (tbatch y) (bct bx by') by rewrite /tbatch sy /= drop0 bct_ubr.
by rewrite -/(mx x _ _ _) !mx_clamp // ex // ey.
Qed.
Lemma tmat_matmul x y (ta tb : bool) rx cx bx gx ry cy by' gy :
  tmat x rx cx bx gx -> tmat y ry cy by' gy -> bcok bx by' ->
  (if ta then rx else cx) = (if tb then cy else ry) ->
  hoare (t_matmul x y ta tb) (fun z => tmat z (if ta then cx else rx) (if tb then ry else cy) (bct bx by')
    (fun be i j => sumf (if ta then rx else cx)
       (fun p => (if ta then gx be p i else gx be i p) * (if tb then gy be j p else gy be p j)))).
Proof.
move=> tx ty hb hk; apply: (hoare_bind (tmat_tr ta tx)) => x' tx'.
apply: (hoare_bind (tmat_tr tb ty)) => y' ty'; rewrite -hk in ty'.
exact: tmat_matmul_nn tx' ty' hb.
Qed.

(** ** Sums over axes *)
Lemma tmat_sum0 x r c b g : tmat x r c b g ->
  hoare (t_sum_pos x 0) (fun z => tvec z r b (fun be i => sumf c (fun j => g be i j))).
Proof.
case=> h1 h2 h3; rewrite /t_sum_pos h1; apply: hoare_ret; split=> //=; first by case/andP: h2.
move=> be i hb hi; rewrite /vx /=; apply: eq_sumf => j hj.
by rewrite -h3 // /mx h1 /= ?drop0 ?ins0.
Qed.
Lemma tmat_sum1 x r c b g : tmat x r c b g ->
  hoare (t_sum_pos x 1) (fun z => tvec z c b (fun be j => sumf r (fun i => g be i j))).
Proof.
case=> h1 h2 h3; rewrite /t_sum_pos h1; apply: hoare_ret; split=> //=.
  by case/and3P: h2 => ? _ ?; apply/andP.
move=> be j hb hj; rewrite /vx /=; apply: eq_sumf => i hi.
by rewrite -h3 // /mx h1 /= ?drop0 ?ins0.
Qed.
Lemma tvec_sum0 x n b g : tvec x n b g ->
  hoare (t_sum_pos x 0) (fun z => tsca z b (fun be => sumf n (fun i => g be i))).
Proof.
case=> h1 h2 h3; rewrite /t_sum_pos h1; apply: hoare_ret; split=> //=; first by case/andP: h2.
move=> be hb; rewrite /sx /bat /=; apply: eq_sumf => i hi.
by rewrite -h3 // /vx h1 ?ins0.
Qed.
Lemma eq_sumall s (f g : seq nat -> F) : (forall idx, inb s idx -> f idx = g idx) -> sumall s f = sumall s g.
Proof.
elim: s f g => [|d s IH] f g h /=; first exact: h.
by apply: eq_sumf => i hi; apply: IH => idx hidx; apply: h; rewrite /= hi.
Qed.
Lemma tsca_sumall x b g : tsca x b g -> sumall (sh x) (tget x) = sumall b g.
Proof.
case=> h1 h2 h3; rewrite h1; apply: eq_sumall => idx hidx.
by rewrite -h3 ?okb_inb // /sx /bat h1 clamp_id.
Qed.
Lemma sumall_exch n s (f : nat -> seq nat -> F) :
  sumf n (fun i => sumall s (f i)) = sumall s (fun idx => sumf n (fun i => f i idx)).
Proof.
elim: s f => [|d s IH] f //=; rewrite sumf_exch; apply: eq_sumf => j _.
by rewrite (IH (fun i idx => f i (j :: idx))).
Qed.
Lemma tvec_sumall x n b g : tvec x n b g ->
  sumall (sh x) (tget x) = sumall b (fun be => sumf n (fun i => g be i)).
Proof.
case=> h1 h2 h3; rewrite h1 /= sumall_exch; apply: eq_sumall => be hbe; apply: eq_sumf => i hi.
by rewrite -h3 ?okb_inb // /vx h1 /= clamp_id.
Qed.
Lemma tmat_sumall x r c b g : tmat x r c b g ->
  sumall (sh x) (tget x) = sumall b (fun be => sumf r (fun i => sumf c (fun j => g be i j))).
Proof.
case=> h1 h2 h3; rewrite h1 /= sumf_exch.
rewrite (eq_sumf (g := fun i => sumall b (fun be => sumf c (fun j => g be i j)))) ?sumall_exch //.
move=> i hi; rewrite sumall_exch; apply: eq_sumall => be hbe; apply: eq_sumf => j hj.
by rewrite -h3 ?okb_inb // /mx h1 /= drop0 clamp_id.
Qed.
Lemma sumall_add s (f g : seq nat -> F) : sumall s (fun i => f i + g i) = sumall s f + sumall s g.
Proof.
elim: s f g => //= d s IH f g; rewrite -sumf_add; apply: eq_sumf => i _.
exact: IH (fun idx => f (i :: idx)) (fun idx => g (i :: idx)).
Qed.
Lemma sumall_mulr s (f : seq nat -> F) x : sumall s (fun i => f i * x) = sumall s f * x.
Proof.
elim: s f => //= d s IH f; rewrite sumf_mulr; apply: eq_sumf => i _.
exact: IH (fun idx => f (i :: idx)).
Qed.
Lemma sumall0 s : sumall s (fun _ => 0 : F) = 0.
Proof. by elim: s => //= d s IH; rewrite (eq_sumf (g := fun _ => 0)) ?sumf0. Qed.

(** ** Diagonals *)
Lemma tvec_diag_construct x n b g : tvec x n b g ->
  hoare (t_diag_construct x) (fun z => tmat z n n b (fun be i j => if i == j then g be i else 0)).
Proof.
case=> h1 h2 h3; rewrite /t_diag_construct h1; apply: hoare_ret; split=> //=.
  by case/andP: h2 => n0 b0; rewrite !posn_cons n0.
move=> be i j hb hi hj; rewrite /mx /= drop0; case: eqP => // e.
by rewrite -h3 // /vx h1.
Qed.
Lemma tmat_diag_extract x r c b g : tmat x r c b g ->
  hoare (t_diag_extract x) (fun z => tvec z (minn r c) b (fun be i => g be i i)).
Proof.
case=> h1 h2 h3; rewrite /t_diag_extract h1; apply: hoare_ret; split=> //=.
  by case/and3P: h2 => c0 r0 b0; rewrite posn_cons leq_min r0 c0.
move=> be i hb; rewrite leq_min => /andP[hi hj].
by rewrite /vx /= -h3 // /mx h1 /= drop0.
Qed.

(** ** Kronecker products *)
Lemma tmat_kron2 x y rx cx ry cy b gx gy :
  tmat x rx cx b gx -> tmat y ry cy b gy ->
  hoare (t_kron2 x y) (fun z => tmat z (rx * ry) (cx * cy) b
    (fun be i j => gx be (i %/ ry)%N (j %/ cy)%N * gy be (i %% ry)%N (j %% cy)%N)).
Proof.
case=> sx px ex [sy py ey]; rewrite /t_kron2 sx sy eqxx; apply: hoare_ret.
move: px py => /and3P[cx0 rx0 b0] /and3P[cy0 ry0 _].
split=> //=; first by rewrite !posn_cons !muln_gt0 cx0 rx0 cy0 ry0.
move=> be i j hb hi hj; rewrite -ex -?ey ?ltn_divLR ?ltn_mod //.
by rewrite /mx ?sx ?sy /= !drop0.
Qed.
Lemma tvec_kron1 x y nx ny b gx gy :
  tvec x nx b gx -> tvec y ny b gy ->
  hoare (t_kron1 x y) (fun z => tvec z (nx * ny) b
    (fun be i => gx be (i %/ ny)%N * gy be (i %% ny)%N)).
Proof.
case=> sx px ex [sy py ey]; rewrite /t_kron1 sx sy eqxx; apply: hoare_ret.
move: px py => /andP[nx0 b0] /andP[ny0 _].
split=> //=; first by rewrite !posn_cons !muln_gt0 nx0 ny0.
move=> be i hb hi; rewrite -ex -?ey ?ltn_divLR ?ltn_mod //.
by rewrite /vx ?sx ?sy /=.
Qed.

(** ** Broadcasting *)
Lemma tmat_broadcast x r c b g R C B : tmat x r c b g -> posn [:: C, R & B] ->
  bto [:: c, r & b] [:: C, R & B] ->
  hoare (t_broadcast_to x [:: C, R & B]) (fun z => tmat z R C B (fun be i j => g be (cl r i) (cl c j))).
Proof.
case=> h1 h2 h3 hp hb; rewrite /t_broadcast_to h1 hb; apply: hoare_ret; split=> //= be i j hbe hi hj.
case/and3P: hb => hc hr hb.
rewrite {1}/mx /= drop0 (bat_mx _ _ _ h1) mx_clamp; last by rewrite /tbatch h1 /= drop0.
by rewrite h3 ?(okb_mono hb) // ?(cl_lt hi) ?(cl_lt hj) /= ?andbT.
Qed.
Lemma tmat_broadcast_batch x r c b g B : tmat x r c b g -> posn B -> bto b B ->
  hoare (t_broadcast_batch_to x B) (fun z => tmat z r c B g).
Proof.
move=> tx hp hb; case: (tx) => h1 h2 _; rewrite /t_broadcast_batch_to h1.
have hp' : posn [:: c, r & B] by move: h2; rewrite !posn_cons => /and3P[-> ->].
have hb' : bto [:: c, r & b] [:: c, r & B] by rewrite /= !eqxx !orbT.
apply: hoare_conseq (tmat_broadcast tx hp' hb') _ => z tz; apply: tmat_ext tz _ => be i j hbe hi hj.
by rewrite !clid.
Qed.
Lemma tvec_broadcast x n b g B : tvec x n b g -> posn B -> bto b B ->
  hoare (t_broadcast_to x (n :: B)) (fun z => tvec z n B g).
Proof.
case=> h1 h2 h3 hp hb; rewrite /t_broadcast_to h1 /= eqxx orbT hb; apply: hoare_ret; split=> //=.
  by case/andP: h2 => n0 _; rewrite posn_cons n0.
move=> be i hbe hi; rewrite {1}/vx /= (bat_vx _ _ h1) vx_clamp ?h1 // clid // h3 //.
exact: okb_mono hbe.
Qed.
Lemma tsca_broadcast x b g B : tsca x b g -> posn B -> bto b B ->
  hoare (t_broadcast_to x B) (fun z => tsca z B g).
Proof.
case=> h1 h2 h3 hp hb; rewrite /t_broadcast_to h1 hb; apply: hoare_ret; split=> //= be hbe.
by rewrite -h3 ?(okb_mono hb) // /sx /bat /= clamp_clamp ?h1.
Qed.

(** ** Small accessors *)
Lemma tmat_firstrows x r c b g k : tmat x r c b g -> (0 < k)%N ->
  tmat (t_firstrows x k) (minn k r) c b g.
Proof.
case=> h1 h2 h3 hk; split; rewrite /= ?h1 /= ?(tmat_rows (And3 h1 h2 h3)) //.
  by move: h2; rewrite !posn_cons leq_min hk.
move=> be i j hb; rewrite leq_min => /andP[_ hi] hj.
by rewrite -h3 // /mx /= h1 /=.
Qed.
Lemma tmat_get00 x r c b g : tmat x r c b g ->
  hoare (t_get00 x) (fun z => tsca z b (fun be => g be 0%N 0%N)).
Proof.
case=> h1 h2 h3; case/and3P: (h2) => c0 r0 b0; rewrite /t_get00 h1 c0 r0; apply: hoare_ret.
by split=> // be hb; rewrite /sx /bat /= -h3 // /mx h1 /= drop0.
Qed.

End TensorThy.
