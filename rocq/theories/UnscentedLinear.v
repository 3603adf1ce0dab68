(** The components that move linearly: prediction as a Kalman filter would. *)
From Coq Require Import Reals Lra Lia ZArith.
From mathcomp Require Import all_ssreflect all_algebra ring.
From Verif Require Import Base Uuid DynObj RealField PosDef Motion RealArith MotionThms StateVec StateVecThms
  CovInt CovIntThms PiBounds PiTight FusionThms Unscented UnscentedThms UnscentedShift UnscentedLoss UnscentedDefinite.
Set Implicit Arguments.
Unset Strict Implicit.
Unset Printing Implicit Defensive.
Import Order.Theory GRing.Theory Num.Theory.
Local Open Scope ring_scope.

(** ** Points that are almost where they should be *)
Section Perturbed.
Variables (F : realFieldType) (n : nat) (S : 'M[F]_((2 * n).+1, n)) (L : 'M[F]_n) (alpha beta lambda : F).
Variables (x : 'cV[F]_n) (eps : 'I_n -> F).
Let W := generate_weights n alpha beta lambda.
Let out := compute_unscented_transform S W.1 W.2.
Let e (i : 'I_(2 * n).+1) j := S i j - (x j 0 + offset L i j).
Hypothesis q0 : 0 < n%:R + lambda.

Lemma off_mean j : out.1 j 0 - x j 0 = \sum_i W.1 i 0 * e i j.
Proof.
pose S0 : 'M[F]_((2 * n).+1, n) := \matrix_(i, j) (x j 0 + offset L i j).
have h : n%:R + lambda != 0 by rewrite gt_eqF.
have E0 : (compute_unscented_transform S0 W.1 W.2).1 j 0 = x j 0.
  by apply: recover_mean => // i; rewrite mxE.
rewrite -[X in _ - X]E0 !ut_mean -sumrB; apply: eq_bigr => i _.
by rewrite /e !mxE mulrBr.
Qed.

Hypothesis l0 : 0 <= lambda.
Lemma mean_weight_ge0 i : 0 <= W.1 i 0.
Proof.
have qg : 0 <= n%:R + lambda by exact: ltW.
rewrite !mxE; case: ifP => _; first by rewrite divr_ge0.
by rewrite mulr_ge0 ?invr_ge0 ?divr_ge0 ?ler0n ?ler01.
Qed.
Lemma near_mean j : (forall i, `|e i j| <= eps j) -> `|out.1 j 0 - x j 0| <= eps j.
Proof.
move=> H; rewrite off_mean; apply: le_trans (ler_norm_sum _ _ _) _.
have h : n%:R + lambda != 0 by rewrite gt_eqF.
rewrite -[eps j]mul1r -(mean_weights alpha beta h) mulr_suml; apply: ler_sum => i _.
by rewrite normrM (ger0_norm (mean_weight_ge0 i)) ler_wpmul2l ?mean_weight_ge0.
Qed.

Hypothesis w0 : 0 <= lambda / (n%:R + lambda) + (1 - alpha * alpha + beta).
Lemma cov_weight_ge0 i : 0 <= W.2 i 0.
Proof.
have qg : 0 <= n%:R + lambda by exact: ltW.
rewrite !mxE; case: ifP => _ //.
by rewrite mulr_ge0 ?invr_ge0 ?divr_ge0 ?ler0n ?ler01.
Qed.
Let G := (n%:R + lambda)^-1 *: (L *m L^T).
Let C := \sum_i W.2 i 0.
Lemma near_cov j k : (forall i, `|e i j| <= eps j) -> (forall i, `|e i k| <= eps k) ->
  `|out.2 j k - G j k| <= eps k * (C + G j j) + eps j * (C + G k k) + 4%:R * C * (eps j * eps k).
Proof.
move=> Hj Hk.
have h : n%:R + lambda != 0 by rewrite gt_eqF.
pose S0 : 'M[F]_((2 * n).+1, n) := \matrix_(i, j) (x j 0 + offset L i j).
have E0 a b : G a b = \sum_i W.2 i 0 * (offset L i a * offset L i b).
  have Sx c : forall i, S0 i c = x c 0 + offset L i c by move=> i; rewrite mxE.
  rewrite scalemxE -(recover_cov alpha beta h (Sx a) (Sx b)) ut_cov.
  rewrite (recover_mean _ _ _ h (Sx a)) (recover_mean _ _ _ h (Sx b)).
  by apply: eq_bigr => i _; rewrite !Sx !(addrC (x _ _)) !addrK.
pose f i c := e i c - (out.1 c 0 - x c 0).
have fb c i : (forall i, `|e i c| <= eps c) -> `|f i c| <= 2%:R * eps c.
  move=> H; apply: le_trans (ler_norm_sub _ _) _.
  by rewrite (_ : 2%:R * eps c = eps c + eps c); [rewrite ler_add // near_mean|ring].
have -> : out.2 j k - G j k = \sum_i W.2 i 0 * (offset L i j * f i k + f i j * offset L i k + f i j * f i k).
  rewrite ut_cov E0 -sumrB; apply: eq_bigr => i _; rewrite /f /e -/out; ring.
apply: le_trans (ler_norm_sum _ _ _) _.
have -> : eps k * (C + G j j) + eps j * (C + G k k) + 4%:R * C * (eps j * eps k) =
  \sum_i W.2 i 0 * (eps k * (1 + offset L i j ^+ 2) + eps j * (1 + offset L i k ^+ 2) + 4%:R * (eps j * eps k)).
  under eq_bigr do rewrite !mulrDr !mulr1.
  rewrite !big_split /= !E0 -!mulr_suml -/C.
  have Ex a c : \sum_i W.2 i 0 * (a * offset L i c ^+ 2) = a * \sum_i W.2 i 0 * (offset L i c * offset L i c).
    by rewrite mulr_sumr; apply: eq_bigr => i _; ring.
  rewrite !Ex; ring.
apply: ler_sum => i _; rewrite normrM (ger0_norm (cov_weight_ge0 i)) ler_wpmul2l ?cov_weight_ge0 //.
have ej : 0 <= eps j by apply: le_trans (Hj i).
have ek : 0 <= eps k by apply: le_trans (Hk i).
have am (y : F) : 2%:R * `|y| <= 1 + y ^+ 2.
  rewrite -[y ^+ 2]real_normK ?num_real // -subr_ge0.
  have -> : 1 + `|y| ^+ 2 - 2%:R * `|y| = (1 - `|y|) ^+ 2 by ring.
  exact: sqr_ge0.
apply: le_trans (ler_norm_add _ _) _; apply: ler_add.
  apply: le_trans (ler_norm_add _ _) _; rewrite !normrM; apply: ler_add.
    apply: le_trans (_ : `|offset L i j| * (2%:R * eps k) <= _); first by rewrite ler_wpmul2l ?fb.
    by rewrite mulrA mulrC ler_wpmul2l // mulrC.
  apply: le_trans (_ : (2%:R * eps j) * `|offset L i k| <= _); first by rewrite ler_wpmul2r ?fb.
  by rewrite (mulrC 2%:R) -mulrA ler_wpmul2l.
rewrite normrM (_ : 4%:R * _ = (2%:R * eps j) * (2%:R * eps k)); last by ring.
by rewrite ler_pmul ?fb.
Qed.
End Perturbed.

Section Rows.
Variables (n : nat) (ST : state_type n).
Notation S := (st_car ST).
Implicit Types (s : S) (P A : 'M[R]_n) (dt alpha beta kappa : R).

(** If the points move as the matrix [A] says, up to [eps] in each component of
    [J], then mean and covariance do. *)
Lemma predict_near s P A dt alpha beta kappa (x : 'cV[R]_n) (eps : 'I_n -> R) (J : pred 'I_n) :
  spd (P : 'M[R_rcfType]_n) ->
  let q : R_realFieldType := (alpha * alpha * (n%:R + kappa))%coqR in
  (0 < q)%coqR -> (n%:R <= q)%coqR -> (0 <= 2 - n%:R / q - alpha * alpha + beta)%coqR ->
  (forall j, J j -> (Rabs (entry dt s j - (x j 0)%R) <= eps j)%coqR) ->
  (forall j c, J j -> let v := col c (spread P (generate_lambda n (alpha : R_realFieldType) kappa)) in
     (Rabs (entry dt (st_add ST s (st_from ST v)) j - ((x j 0)%R + ((A *m v) j 0)%R)) <= eps j)%coqR /\
     (Rabs (entry dt (st_sub ST s (st_from ST v)) j - ((x j 0)%R - ((A *m v) j 0)%R)) <= eps j)%coqR) ->
  let out := unscented_kalman_filter_predict s P dt alpha beta kappa in
  let G : 'M[R]_n := A *m P *m A^T in
  let C := (2 - alpha * alpha + beta)%coqR in
  exists y : 'cV[R]_n, out.1 = st_from ST y /\
    (forall j, J j -> (Rabs ((y j 0)%R - (x j 0)%R) <= eps j)%coqR) /\
    (forall j k, J j -> J k -> (Rabs (out.2 j k - G j k) <=
       eps k * (C + G j j) + eps j * (C + G k k) + 4 * C * (eps j * eps k))%coqR).
Proof.
move=> sP q q0 ql w Hs Hc out G C.
set lambda := generate_lambda _ _ _ in Hc.
pose W := generate_weights n (alpha : R_realFieldType) beta lambda.
pose M : 'M[R_realFieldType]_(_, _) := rows s P dt lambda.
exists (compute_unscented_transform M W.1 W.2).1; split=> //.
have El : (n%:R + lambda : R) = q by rewrite /lambda /generate_lambda addrC subrK.
have qp : (0 : R_realFieldType) < n%:R + lambda by rewrite El; apply/RltP.
have l0 : (0 : R_realFieldType) <= lambda.
  by have -> : (lambda : R) = q - n%:R; [rewrite -El addrC addKr|rewrite subr_ge0; apply/RleP].
have qn : (q : R) <> 0%coqR by apply: Rgt_not_eq.
have two : (2%:R : R) = 2%coqR by rewrite natR /=; lra.
have w0 : (0 : R_realFieldType) <= lambda / (n%:R + lambda) + (1 - alpha * alpha + beta).
  have -> : (lambda / (n%:R + lambda) : R_realFieldType) = 1 - n%:R / q.
    rewrite El; have -> : (lambda : R_realFieldType) = q - n%:R by rewrite -El addrC addKr.
    by rewrite mulrBl divff //; apply/eqP.
  apply/RleP; move: w; rewrite /Rdiv RinvE // -/q.
  have -> : (2 - n%:R * (q : R)^-1 - alpha * alpha + beta)%coqR =
     (1 - n%:R * (q : R)^-1 + (1 - alpha * alpha + beta))%coqR by lra.
  by [].
pose L := A *m spread P lambda.
have Lc j c : L j c = (A *m col c (spread P lambda)) j 0.
  by rewrite !mxE; apply: eq_bigr => k _; rewrite [in RHS]mxE.
have He j : J j -> forall i, `|M i j - (x j 0 + offset (L : 'M[R_realFieldType]_n) i j)| <= (eps j : R_realFieldType).
  move=> jj i; case: (rows_entry s P dt lambda j i) => [[Ei Er]|[c Hr]].
    by rewrite Er Ei /= addr0; apply/RleP; exact: Hs.
  have [H1 H2] := Hc j c jj.
  case: Hr => -[Ei Er]; rewrite Er Ei ?offset_even ?offset_odd Lc; apply/RleP; [exact: H1|exact: H2].
have EG : ((n%:R + lambda)^-1 : R_realFieldType) *: (L *m L^T) = G.
  rewrite /L trmx_mul !mulmxA -(mulmxA A) (spread_sq sP); last by apply/RltP.
  rewrite El.
  by rewrite -scalemxAr -scalemxAl scalerA mulVf ?scale1r //; apply/eqP.
have EC : (\sum_i W.2 i 0 : R) = C.
  by rewrite /W cov_weights ?gt_eqF // two.
split; [move=> j jj|move=> j k jj kk].
  apply/RleP; exact: (@near_mean R_realFieldType n M L alpha beta lambda x eps qp l0 j (He j jj)).
have := @near_cov R_realFieldType n M L alpha beta lambda x eps qp l0 w0 j k (He j jj) (He k kk); rewrite EG -/W EC.
have -> : (4%:R : R_realFieldType) = 4%coqR by rewrite natR /=; lra.
by move/RleP.
Qed.

Lemma row_norm (L : 'M[R]_n) (y r : R) (j c : 'I_n) : (L *m L^T) j j = y ->
  (0 <= r)%coqR -> (y <= r * r)%coqR -> (Rabs (L j c) <= r)%coqR.
Proof.
move=> E r0 H.
have E' : (L j c * L j c + \sum_(i < n | i != c) L j i * L j i = y :> R).
  rewrite -E mxE [RHS](bigD1 c) //=; congr (_ + _); first by rewrite mxE.
  by apply: eq_bigr => i _; rewrite mxE.
have T0 : 0 <= \sum_(i < n | i != c) L j i * L j i.
  by apply: sumr_ge0 => i _; rewrite -expr2; apply: sqr_ge0.
have : (L j c * L j c <= r * r)%coqR.
  by apply: Rle_trans H; rewrite -E'; apply/RleP; rewrite ler_addl.
move: (L j c) => z; split_Rabs; nra.
Qed.
End Rows.

Lemma wrapped_near (a : R) : (Rabs a <= 3.14)%coqR -> (Rabs (wrapped a - a) <= 0.0000000002)%coqR.
Proof.
move=> H; have [PB1 PB2] := pi_tight; have E := pi11_R.
have [[A0 A1] [k SA]] := get_angle_spec a.
rewrite /wrapped wrap_R; case: Rlt_dec => /= h; rewrite ?E in h *.
- have k1 : k = 1%coqZ.
    have : (0 < IZR k < 2)%coqR by move: H; split_Rabs; nra.
    case=> /(lt_IZR 0) ? /(lt_IZR _ 2) ?; lia.
  rewrite k1 in SA; split_Rabs; lra.
- have k0 : k = 0%coqZ.
    have : (-1 < IZR k < 1)%coqR by move: H; split_Rabs; nra.
    case=> /(lt_IZR (-1)) ? /(lt_IZR _ 1) ?; lia.
  rewrite k0 in SA; split_Rabs; lra.
Qed.

(** The same without error, for all parameters *)
Lemma predict_exact_factored n (ST : state_type n) (s : st_car ST) (P A : 'M[R]_n) (dt alpha beta kappa : R)
    (x : 'cV[R]_n) (J : pred 'I_n) :
  (0 < alpha * alpha * (n%:R + kappa))%coqR ->
  (forall j, J j -> entry dt s j = x j 0) ->
  (forall j c, J j -> let v := col c (spread P (generate_lambda n (alpha : R_realFieldType) kappa)) in
     entry dt (st_add ST s (st_from ST v)) j = x j 0 + (A *m v) j 0 /\
     entry dt (st_sub ST s (st_from ST v)) j = x j 0 - (A *m v) j 0) ->
  let out := unscented_kalman_filter_predict s P dt alpha beta kappa in
  exists y : 'cV[R]_n, out.1 = st_from ST y /\ (forall j, J j -> y j 0 = x j 0) /\
    (forall j k, J j -> J k -> out.2 j k = (A *m factored P *m A^T) j k).
Proof.
move=> q0 Hs Hc out.
set lambda := generate_lambda _ _ _ in Hc.
pose W := generate_weights n (alpha : R_realFieldType) beta lambda.
pose M : 'M[R_realFieldType]_(_, _) := rows s P dt lambda.
exists (compute_unscented_transform M W.1 W.2).1; split=> //.
have El : (n%:R + lambda : R) = (alpha * alpha * (n%:R + kappa))%coqR.
  by rewrite /lambda /generate_lambda addrC subrK.
have qn : (n%:R + lambda : R_realFieldType) != 0 by rewrite El; apply/eqP; apply: Rgt_not_eq.
pose L := A *m spread P lambda.
have Lc j c : L j c = (A *m col c (spread P lambda)) j 0.
  by rewrite !mxE; apply: eq_bigr => k _; rewrite [in RHS]mxE.
have He j : J j -> forall i, M i j = x j 0 + offset (L : 'M[R_realFieldType]_n) i j.
  move=> jj i; case: (rows_entry s P dt lambda j i) => [[Ei Er]|[c Hr]].
    by rewrite /M Er Ei /= addr0 Hs.
  have [H1 H2] := Hc j c jj.
  by case: Hr => -[Ei Er]; rewrite /M Er Ei ?offset_even ?offset_odd Lc.
split=> [j jj|j k jj kk].
  exact: (@recover_mean _ _ _ _ _ _ _ _ _ j qn (He j jj)).
rewrite -[out.2]/(compute_unscented_transform M W.1 W.2).2 (recover_cov _ _ qn (He j jj) (He k kk)).
have EG : ((n%:R + lambda)^-1 : R_realFieldType) *: (L *m L^T) = A *m factored P *m A^T.
  rewrite /L trmx_mul !mulmxA -(mulmxA A) spread_factored; last by move: q0; rewrite -El.
  by rewrite -scalemxAr -scalemxAl scalerA mulVf // scale1r /factored !mulmxA.
by rewrite -EG scalemxE.
Qed.
Lemma predict_exact n (ST : state_type n) (s : st_car ST) (P A : 'M[R]_n) (dt alpha beta kappa : R)
    (x : 'cV[R]_n) (J : pred 'I_n) :
  spd (P : 'M[R_rcfType]_n) -> (0 < alpha * alpha * (n%:R + kappa))%coqR ->
  (forall j, J j -> entry dt s j = x j 0) ->
  (forall j c, J j -> let v := col c (spread P (generate_lambda n (alpha : R_realFieldType) kappa)) in
     entry dt (st_add ST s (st_from ST v)) j = x j 0 + (A *m v) j 0 /\
     entry dt (st_sub ST s (st_from ST v)) j = x j 0 - (A *m v) j 0) ->
  let out := unscented_kalman_filter_predict s P dt alpha beta kappa in
  exists y : 'cV[R]_n, out.1 = st_from ST y /\ (forall j, J j -> y j 0 = x j 0) /\
    (forall j k, J j -> J k -> out.2 j k = (A *m P *m A^T) j k).
Proof. by move=> sP q0 Hs Hc; have := predict_exact_factored beta q0 Hs Hc; rewrite factored_spd. Qed.

(** ** The linear part of the two motion models *)
(** Velocity, heading, rate and acceleration after time [dt]: the velocity (2)
    changes by the acceleration (5), if there is one, the heading (3) by the rate
    (4).  The rows of the position (0 and 1) are not used. *)
Definition linear_step n (dt : R) : 'M[R]_n :=
  \matrix_(i, j) if i == j then 1%coqR
    else if ((i : nat) == 3%N) && ((j : nat) == 4%N) then dt
    else if ((i : nat) == 2%N) && ((j : nat) == 5%N) then dt else 0%coqR.

Lemma step_sum n (dt : R) (v : 'cV[R]_n.+1) (j : nat) : (j <= n)%N ->
  (linear_step n.+1 dt *m v) (inord j) 0 = \sum_(k < n.+1) (if j == k then 1%coqR
    else if (j == 3%N) && ((k : nat) == 4%N) then dt
    else if (j == 2%N) && ((k : nat) == 5%N) then dt else 0%coqR) * ent v k.
Proof.
by move=> jn; rewrite mxE; apply: eq_bigr => k _; rewrite mxE entP -(inj_eq val_inj) /= inordK.
Qed.
Lemma step5 (dt : R) (v : 'cV[R]_5) :
  (linear_step 5 dt *m v) (inord 2) 0 = ent v 2 /\
  (linear_step 5 dt *m v) (inord 3) 0 = (ent v 3 + ent v 4 * dt)%coqR /\
  (linear_step 5 dt *m v) (inord 4) 0 = ent v 4.
Proof.
rewrite !step_sum // !big_ord_recr !big_ord0 /= -!RaddE -!RmulE.
split; [|split]; change (0 : R) with 0%coqR; lra.
Qed.
Lemma step6 (dt : R) (v : 'cV[R]_6) :
  (linear_step 6 dt *m v) (inord 2) 0 = (ent v 2 + ent v 5 * dt)%coqR /\
  (linear_step 6 dt *m v) (inord 3) 0 = (ent v 3 + ent v 4 * dt)%coqR /\
  (linear_step 6 dt *m v) (inord 4) 0 = ent v 4 /\
  (linear_step 6 dt *m v) (inord 5) 0 = ent v 5.
Proof.
rewrite !step_sum // !big_ord_recr !big_ord0 /= -!RaddE -!RmulE.
split; [|split; [|split]]; change (0 : R) with 0%coqR; lra.
Qed.
Lemma cases5 (j : 'I_5) : (1 < j)%N -> j = inord 2 \/ j = inord 3 \/ j = inord 4.
Proof.
case: j => [[|[|[|[|[|?]]]]] h] //= _; [left|right; left|right; right]; by apply: val_inj; rewrite /= inordK.
Qed.
Lemma cases6 (j : 'I_6) : (1 < j)%N -> j = inord 2 \/ j = inord 3 \/ j = inord 4 \/ j = inord 5.
Proof.
case: j => [[|[|[|[|[|[|?]]]]]] h] //= _; [left|right; left|right; right; left|right; right; right];
  by apply: val_inj; rewrite /= inordK.
Qed.
Definition x5 (s : ctrvR) (h : R) : 'cV[R]_5 := vec_of 5 [:: 0%coqR; 0%coqR; v_vel s; h; v_rate s].
Definition x6 (s : ctraR) (h dt : R) : 'cV[R]_6 :=
  vec_of 6 [:: 0%coqR; 0%coqR; (a_vel s + a_acc s * dt)%coqR; h; a_rate s; a_acc s].

Lemma mean5 (s : ctrvR) h (dt : R) :
  entry dt (s : st_car ctrv_type) (inord 2) = x5 s h (inord 2) 0 /\
  entry dt (s : st_car ctrv_type) (inord 4) = x5 s h (inord 4) 0.
Proof.
have [A [B _]] := ctrv_fields s dt.
by rewrite /entry !mxE !inordK //= !mxE !inordK //= A B.
Qed.
Lemma mean6 (s : ctraR) h (dt : R) :
  entry dt (s : st_car ctra_type) (inord 2) = x6 s h dt (inord 2) 0 /\
  entry dt (s : st_car ctra_type) (inord 4) = x6 s h dt (inord 4) 0 /\
  entry dt (s : st_car ctra_type) (inord 5) = x6 s h dt (inord 5) 0.
Proof.
have [A [B [C _]]] := ctra_fields s dt.
by rewrite /entry !mxE !inordK //= !mxE !inordK //= A B C.
Qed.
Lemma moved5 (s : ctrvR) h (dt : R) v (j : 'I_5) : (1 < j)%N -> (j : nat) <> 3%N ->
  entry dt (st_add ctrv_type s (st_from ctrv_type v)) j = x5 s h j 0 + (linear_step 5 dt *m v) j 0 /\
  entry dt (st_sub ctrv_type s (st_from ctrv_type v)) j = x5 s h j 0 - (linear_step 5 dt *m v) j 0.
Proof.
move=> j1 j3; have [[A B] [C D]] := ctrv_entries s v dt; have [S2 [_ S4]] := step5 dt v.
case: (cases5 j1) j3 => [->|[->|->]] j3; last 1 first.
- by rewrite C D S4 !mxE !inordK.
- by rewrite A B S2 !mxE !inordK.
- by case: j3; rewrite inordK.
Qed.
Lemma moved6 (s : ctraR) h (dt : R) v (j : 'I_6) : (1 < j)%N -> (j : nat) <> 3%N ->
  entry dt (st_add ctra_type s (st_from ctra_type v)) j = x6 s h dt j 0 + (linear_step 6 dt *m v) j 0 /\
  entry dt (st_sub ctra_type s (st_from ctra_type v)) j = x6 s h dt j 0 - (linear_step 6 dt *m v) j 0.
Proof.
move=> j1 j3; have [[A B] [[C D] [E F]]] := ctra_entries s v dt; have [S2 [_ [S4 S5]]] := step6 dt v.
case: (cases6 j1) j3 => [->|[->|[->|->]]] j3; last 2 first.
- by rewrite C D S4 !mxE !inordK.
- by rewrite E F S5 !mxE !inordK.
- rewrite A B S2 !mxE !inordK //= -!RaddE -!RoppE; split; lra.
- by case: j3; rewrite inordK.
Qed.

Lemma ctrv_linear (s : ctrvR) (P : 'M[R]_5) (dt alpha beta kappa : R) :
  spd (P : 'M[R_rcfType]_5) -> (0 < alpha * alpha * (5 + kappa))%coqR ->
  let out := @unscented_kalman_filter_predict 5 ctrv_type s P dt alpha beta kappa in
  let G := linear_step 5 dt *m P *m (linear_step 5 dt)^T in
  v_vel out.1 = v_vel s /\ v_rate out.1 = v_rate s /\
  (forall j k : 'I_5, (1 < j)%N -> (j : nat) <> 3%N -> (1 < k)%N -> (k : nat) <> 3%N -> out.2 j k = G j k).
Proof.
move=> sP q0 out G.
have q0' : (0 < alpha * alpha * (5%:R + kappa))%coqR by rewrite natR /=; lra.
have [A2 A4] := mean5 s 0 dt.
have [j jj|j c /andP [j1 /eqP j3]|y [Ey [Hm HG]]] :=
  @predict_exact 5 ctrv_type s P (linear_step 5 dt) dt alpha beta kappa (x5 s 0)
    (fun j => (1 < j)%N && ((j : nat) != 3%N)) sP q0'.
- case/andP: jj => j1 /eqP j3; case: (cases5 j1) j3 => [->|[->|->]] j3 //.
  by case: j3; rewrite inordK.
- exact: moved5.
rewrite /out Ey; split; [|split].
- by rewrite /= /ent Hm ?inordK // !mxE inordK.
- by rewrite /= /ent Hm ?inordK // !mxE inordK.
by move=> j k j1 j3 k1 k3; apply: HG; apply/andP; split=> //; apply/eqP.
Qed.
Lemma ctra_linear (s : ctraR) (P : 'M[R]_6) (dt alpha beta kappa : R) :
  spd (P : 'M[R_rcfType]_6) -> (0 < alpha * alpha * (6 + kappa))%coqR ->
  let out := @unscented_kalman_filter_predict 6 ctra_type s P dt alpha beta kappa in
  let G := linear_step 6 dt *m P *m (linear_step 6 dt)^T in
  a_vel out.1 = (a_vel s + a_acc s * dt)%coqR /\ a_rate out.1 = a_rate s /\ a_acc out.1 = a_acc s /\
  (forall j k : 'I_6, (1 < j)%N -> (j : nat) <> 3%N -> (1 < k)%N -> (k : nat) <> 3%N -> out.2 j k = G j k).
Proof.
move=> sP q0 out G.
have q0' : (0 < alpha * alpha * (6%:R + kappa))%coqR by rewrite natR /=; lra.
have [A2 [A4 A5]] := mean6 s 0 dt.
have [j jj|j c /andP [j1 /eqP j3]|y [Ey [Hm HG]]] :=
  @predict_exact 6 ctra_type s P (linear_step 6 dt) dt alpha beta kappa (x6 s 0 dt)
    (fun j => (1 < j)%N && ((j : nat) != 3%N)) sP q0'.
- case/andP: jj => j1 /eqP j3; case: (cases6 j1) j3 => [->|[->|[->|->]]] j3 //.
  by case: j3; rewrite inordK.
- exact: moved6.
rewrite /out Ey; split; [|split; [|split]].
- by rewrite /= /ent Hm ?inordK // !mxE inordK.
- by rewrite /= /ent Hm ?inordK // !mxE inordK.
- by rewrite /= /ent Hm ?inordK // !mxE inordK.
by move=> j k j1 j3 k1 k3; apply: HG; apply/andP; split=> //; apply/eqP.
Qed.

(** The heading, while the points stay away from the seam *)
Lemma wrapped_turn (a b : R) : same_turn a b -> wrapped a = wrapped b.
Proof. by move=> H; rewrite /wrapped (angle_of_turn _ _ H). Qed.
Lemma shifted (psi a : R) : same_turn (get_angle (angleR psi) + a)%coqR (psi + a)%coqR.
Proof. by have [_] := get_angle_spec psi; move=> H; apply: same_turn_add => //; exact: same_turn_refl. Qed.

Lemma step_bound n (P A : 'M[R]_n) (lambda r : R) (j c : 'I_n) :
  spd (P : 'M[R_rcfType]_n) -> (0 < n%:R + lambda)%coqR -> (0 <= r)%coqR ->
  ((n%:R + lambda) * (A *m P *m A^T)%R j j <= r * r)%coqR ->
  (Rabs ((A *m col c (spread P lambda)) j 0)%R <= r)%coqR.
Proof.
move=> sP q0 r0 H; have -> : (A *m col c (spread P lambda)) j 0 = (A *m spread P lambda) j c.
  by rewrite !mxE; apply: eq_bigr => k _; rewrite [in LHS]mxE.
apply: (@row_norm n _ _ r j c _ r0 H).
by rewrite trmx_mul !mulmxA -(mulmxA A) (spread_sq sP) // -scalemxAr -scalemxAl scalemxE.
Qed.

Definition heading_eps n (j : 'I_n) : R := if (j : nat) == 3%N then 0.0000000002%coqR else 0%coqR.
Lemma near_bound n (G : 'M[R]_n) (d : R) (j k : 'I_n) : (0 <= G j j)%coqR -> (0 <= G k k)%coqR ->
  (d <= heading_eps k * (2 - 1 * 1 + 1 + G j j) + heading_eps j * (2 - 1 * 1 + 1 + G k k) +
        4 * (2 - 1 * 1 + 1) * (heading_eps j * heading_eps k))%coqR ->
  (d <= 0.000000001 * (1 + G j j + G k k))%coqR.
Proof. rewrite /heading_eps; case: eqP => _; case: eqP => _; lra. Qed.
Lemma step_psd n (P A : 'M[R]_n) (j : 'I_n) : spd (P : 'M[R_rcfType]_n) -> (0 <= (A *m P *m A^T)%R j j)%coqR.
Proof.
move=> sP; have [_ H] := psd_congr A^T (spd_psd sP); rewrite trmxK in H.
have := H (delta_mx j 0); rewrite /qf trmx_delta -rowE -colE => /RleP; by rewrite !mxE.
Qed.

Lemma ctrv_heading (s : ctrvR) (P : 'M[R]_5) (dt psi r : R) :
  v_yaw s = angleR psi -> spd (P : 'M[R_rcfType]_5) ->
  let G := linear_step 5 dt *m P *m (linear_step 5 dt)^T in
  (0 <= r)%coqR -> (7 * G (inord 3) (inord 3) <= r * r)%coqR -> (Rabs (psi + v_rate s * dt) + r <= 3.14)%coqR ->
  let out := @default_unscented_transform 5 ctrv_type s P dt in
  (exists h, v_yaw out.1 = angleR h /\ (Rabs (h - (psi + v_rate s * dt)) <= 0.000000001)%coqR) /\
  (forall j k : 'I_5, (1 < j)%N -> (1 < k)%N ->
     (Rabs (out.2 j k - G j k) <= 0.000000001 * (1 + G j j + G k k))%coqR).
Proof.
move=> Ey sP G r0 Hr Hp out; set h := (psi + v_rate s * dt)%coqR in Hp *.
have C : on_circle (v_yaw s) by rewrite Ey; exact: circle_of.
have Eq : (1 * 1 * (5%:R + 2) = 7)%coqR by rewrite natR /=; lra.
have El : ((5%:R + generate_lambda 5 (1%coqR : R_realFieldType) 2%coqR)%coqR = 7)%coqR.
  by rewrite -Eq; exact: (etrans (addrC _ _) (subrK _ _)).
have [A2 A4] := mean5 s h dt.
have Hw a : (Rabs a <= r)%coqR -> (Rabs (wrapped (h + a) - (h + a)) <= 0.0000000002)%coqR.
  by move=> Ha; apply: wrapped_near; move: Ha Hp; split_Rabs; lra.
have r00 : (Rabs 0 <= r)%coqR by rewrite Rabs_R0.
have N : forall y : R, (Rabs (y - y) <= 0)%coqR by move=> y; split_Rabs; lra.
have [| | |j j1|j c j1 v|y [Eo [Hm HG]]] :=
  @predict_near 5 ctrv_type s P (linear_step 5 dt) dt 1%coqR 1%coqR 2%coqR (x5 s h) (@heading_eps 5)
    (fun j => (1 < j)%N) sP.
- by rewrite Eq; lra.
- by rewrite Eq natR /=; lra.
- by rewrite Eq natR /=; lra.
- case: (cases5 j1) => [->|[->|->]]; rewrite /heading_eps inordK //=.
  + by rewrite A2; exact: N.
  + have [-> _] := ctrv_headings 0 dt C; rewrite !mxE inordK //= Ey.
    rewrite (wrapped_turn (shifted _ _)) -/h; have := Hw _ r00; rewrite Rplus_0_r //.
  + by rewrite A4; exact: N.
- case: (eqVneq (j : nat) 3%N) => [j3|/eqP j3]; last first.
    have [-> ->] := moved5 s h dt v j1 j3; rewrite /heading_eps; case: eqP => // _; split; exact: N.
  have -> : j = inord 3 by apply: val_inj; rewrite /= inordK.
  have [_ [-> ->]] := ctrv_headings v dt C; have [_ [-> _]] := step5 dt v.
  rewrite /heading_eps inordK //= !mxE inordK //= Ey.
  have B : (Rabs (ent v 3 + ent v 4 * dt) <= r)%coqR.
    have [_ [<- _]] := step5 dt v; apply: step_bound => //; rewrite El //; lra.
  have B' : (Rabs (- (ent v 3 + ent v 4 * dt)) <= r)%coqR by rewrite Rabs_Ropp.
  split.
  + have := Hw _ B; rewrite (_ : wrapped (h + _) = wrapped (get_angle (angleR psi) + ent v 3 + (v_rate s + ent v 4) * dt)) //.
    apply: wrapped_turn; apply: same_turn_sym.
    have := shifted psi (ent v 3 + (v_rate s + ent v 4) * dt)%coqR; rewrite /h.
    by congr same_turn; lra.
  + have := Hw _ B'; rewrite (_ : wrapped (h + _) = wrapped (get_angle (angleR psi) - ent v 3 + (v_rate s - ent v 4) * dt)) //.
    apply: wrapped_turn; apply: same_turn_sym.
    have := shifted psi (- ent v 3 + (v_rate s - ent v 4) * dt)%coqR; rewrite /h.
    by congr same_turn; lra.
have Eout : out = @unscented_kalman_filter_predict 5 ctrv_type s P dt 1%coqR 1%coqR 2%coqR by [].
split.
- exists (ent y 3); rewrite Eout Eo; split=> //.
  have := Hm (inord 3); rewrite /heading_eps inordK //= !mxE inordK //= => /(_ isT).
  by rewrite /ent => H; apply: Rle_trans H _; lra.
- move=> j k j1 k1; rewrite Eout; apply: near_bound; [exact: step_psd|exact: step_psd|exact: HG].
Qed.
Lemma ctra_heading (s : ctraR) (P : 'M[R]_6) (dt psi r : R) :
  a_yaw s = angleR psi -> spd (P : 'M[R_rcfType]_6) ->
  let G := linear_step 6 dt *m P *m (linear_step 6 dt)^T in
  (0 <= r)%coqR -> (8 * G (inord 3) (inord 3) <= r * r)%coqR -> (Rabs (psi + a_rate s * dt) + r <= 3.14)%coqR ->
  let out := @default_unscented_transform 6 ctra_type s P dt in
  (exists h, a_yaw out.1 = angleR h /\ (Rabs (h - (psi + a_rate s * dt)) <= 0.000000001)%coqR) /\
  (forall j k : 'I_6, (1 < j)%N -> (1 < k)%N ->
     (Rabs (out.2 j k - G j k) <= 0.000000001 * (1 + G j j + G k k))%coqR).
Proof.
move=> Ey sP G r0 Hr Hp out; set h := (psi + a_rate s * dt)%coqR in Hp *.
have C : on_circle (a_yaw s) by rewrite Ey; exact: circle_of.
have Eq : (1 * 1 * (6%:R + 2) = 8)%coqR by rewrite natR /=; lra.
have El : ((6%:R + generate_lambda 6 (1%coqR : R_realFieldType) 2%coqR)%coqR = 8)%coqR.
  by rewrite -Eq; exact: (etrans (addrC _ _) (subrK _ _)).
have [A2 [A4 A5]] := mean6 s h dt.
have Hw a : (Rabs a <= r)%coqR -> (Rabs (wrapped (h + a) - (h + a)) <= 0.0000000002)%coqR.
  by move=> Ha; apply: wrapped_near; move: Ha Hp; split_Rabs; lra.
have r00 : (Rabs 0 <= r)%coqR by rewrite Rabs_R0.
have N : forall y : R, (Rabs (y - y) <= 0)%coqR by move=> y; split_Rabs; lra.
have [| | |j j1|j c j1 v|y [Eo [Hm HG]]] :=
  @predict_near 6 ctra_type s P (linear_step 6 dt) dt 1%coqR 1%coqR 2%coqR (x6 s h dt) (@heading_eps 6)
    (fun j => (1 < j)%N) sP.
- by rewrite Eq; lra.
- by rewrite Eq natR /=; lra.
- by rewrite Eq natR /=; lra.
- case: (cases6 j1) => [->|[->|[->|->]]]; rewrite /heading_eps inordK //=.
  + by rewrite A2; exact: N.
  + have [-> _] := ctra_headings 0 dt C; rewrite !mxE inordK //= Ey.
    rewrite (wrapped_turn (shifted _ _)) -/h; have := Hw _ r00; rewrite Rplus_0_r //.
  + by rewrite A4; exact: N.
  + by rewrite A5; exact: N.
- case: (eqVneq (j : nat) 3%N) => [j3|/eqP j3]; last first.
    have [-> ->] := moved6 s h dt v j1 j3; rewrite /heading_eps; case: eqP => // _; split; exact: N.
  have -> : j = inord 3 by apply: val_inj; rewrite /= inordK.
  have [_ [-> ->]] := ctra_headings v dt C; have [_ [-> _]] := step6 dt v.
  rewrite /heading_eps inordK //= !mxE inordK //= Ey.
  have B : (Rabs (ent v 3 + ent v 4 * dt) <= r)%coqR.
    have [_ [<- _]] := step6 dt v; apply: step_bound => //; rewrite El //; lra.
  have B' : (Rabs (- (ent v 3 + ent v 4 * dt)) <= r)%coqR by rewrite Rabs_Ropp.
  split.
  + have := Hw _ B; rewrite (_ : wrapped (h + _) = wrapped (get_angle (angleR psi) + ent v 3 + (a_rate s + ent v 4) * dt)) //.
    apply: wrapped_turn; apply: same_turn_sym.
    have := shifted psi (ent v 3 + (a_rate s + ent v 4) * dt)%coqR; rewrite /h.
    by congr same_turn; lra.
  + have := Hw _ B'; rewrite (_ : wrapped (h + _) = wrapped (get_angle (angleR psi) - ent v 3 + (a_rate s - ent v 4) * dt)) //.
    apply: wrapped_turn; apply: same_turn_sym.
    have := shifted psi (- ent v 3 + (a_rate s - ent v 4) * dt)%coqR; rewrite /h.
    by congr same_turn; lra.
have Eout : out = @unscented_kalman_filter_predict 6 ctra_type s P dt 1%coqR 1%coqR 2%coqR by [].
split.
- exists (ent y 3); rewrite Eout Eo; split=> //.
  have := Hm (inord 3); rewrite /heading_eps inordK //= !mxE inordK //= => /(_ isT).
  by rewrite /ent => H; apply: Rle_trans H _; lra.
- move=> j k j1 k1; rewrite Eout; apply: near_bound; [exact: step_psd|exact: step_psd|exact: HG].
Qed.
