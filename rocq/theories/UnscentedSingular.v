(** Predictions from covariances that are not positive definite. *)
From Coq Require Import Reals Lra.
From mathcomp Require Import all_ssreflect all_algebra.
From Verif Require Import Base Uuid DynObj RealField PosDef EigenLlt Motion RealArith MotionThms StateVec StateVecThms
  CovInt CovIntThms PiBounds FusionThms Unscented UnscentedThms UnscentedSeam UnscentedShift Propagation PredictionThms
  UnscentedLoss UnscentedDefinite UnscentedLinear.
Set Implicit Arguments.
Unset Strict Implicit.
Unset Printing Implicit Defensive.
Import Order.Theory GRing.Theory Num.Theory.
Local Open Scope ring_scope.

Section Any.
Variables (F : rcfType) (n : nat).
Implicit Types (P : 'M[F]_n) (d : 'rV[F]_n).

Lemma llt_definite P : spd P ->
  let L := llt_matrixL P in lower L /\ pos_diag L /\ L *m L^T = P.
Proof.
move=> sP L; split; first exact: llt_lower.
rewrite /L (llt_cholesky sP).2; split; first exact: cholesky_diag.
exact: choleskyK.
Qed.

Lemma llt_stops P : symmetric P -> ~ spd P ->
  let L := llt_matrixL P in
  exists k : 'I_n,
    lower L /\
    (forall j : 'I_n, (j < k)%N -> 0 < L j j) /\
    (forall i j : 'I_n, (j < k)%N -> (j <= i)%N -> (L *m L^T) i j = P i j) /\
    P k k <= \sum_(l < n | (l < k)%N) L k l ^+ 2 /\
    (forall i j : 'I_n, (k <= j)%N -> (j <= i)%N -> L i j = P i j).
Proof.
move=> sy nP L; case: (llt_cases P) => [[b _]|[_ [k [H p]]]]; first by case: nP; exact: llt_success.
have [H1 H2 H3] := half_lower H; exists k; split; first exact: llt_lower.
split=> //; split=> [i j jk ji|]; first by rewrite lower_prod ?H3 //; exact: llt_lower.
split=> [|i j kj ji]; last exact: H1.
move: p; rewrite pivot_lower /llt_pivot H1 // subr_le0.
by under eq_bigr do rewrite -expr2.
Qed.

(** A factorisation with pivots [D] of either sign tells where it stops. *)
Lemma ldl_entry P (U : 'M[F]_n) (D : 'rV[F]_n) (i j : 'I_n) : lower U -> (forall i, U i i = 1) ->
  P = U *m diag_mx D *m U^T -> (j <= i)%N ->
  P i j = \sum_(l < n | (l < j)%N) U i l * D 0 l * U j l + U i j * D 0 j.
Proof.
move=> lU dU -> ji; rewrite mxE (bigID (fun l : 'I_n => (l < j)%N)) /=; congr (_ + _).
  by apply: eq_bigr => l _; rewrite mul_mx_diag !mxE.
rewrite (bigD1 j) ?ltnn //= mul_mx_diag !mxE dU mulr1 big1 ?addr0 // => l /andP [h1 h2].
by rewrite [X in _ * X]mxE lU ?mulr0 // ltn_neqAle [(j <= l)%N]leqNgt h1 andbT eq_sym.
Qed.
Lemma llt_ldl P (U : 'M[F]_n) (D : 'rV[F]_n) (k : 'I_n) : lower U -> (forall i, U i i = 1) ->
  P = U *m diag_mx D *m U^T -> (forall j : 'I_n, (j < k)%N -> 0 < D 0 j) -> D 0 k <= 0 ->
  let L := llt_matrixL P in
  (forall i j : 'I_n, (j < k)%N -> (j <= i)%N -> L i j = U i j * Num.sqrt (D 0 j)) /\
  (forall i j : 'I_n, (k <= j)%N -> (j <= i)%N -> L i j = P i j).
Proof.
move=> lU dU EP Dp Dk L.
pose C : 'M[F]_n := \matrix_(i, j) (U i j * Num.sqrt (D 0 j)).
have pC (j : 'I_n) : (j < k)%N -> 0 < C j j by move=> jk; rewrite mxE dU mul1r sqrtr_gt0 Dp.
have CC (i j l : 'I_n) : (l < k)%N -> C i l * C j l = U i l * D 0 l * U j l.
  move=> lk; rewrite !mxE mulrACA -expr2 sqr_sqrtr; last by rewrite ltW // Dp.
  by rewrite -mulrA [U j l * _]mulrC mulrA.
have SC (i j : 'I_n) : (j <= k)%N -> \sum_(l < n | (l < j)%N) C i l * C j l = \sum_(l < n | (l < j)%N) U i l * D 0 l * U j l.
  by move=> jk; apply: eq_bigr => l lj; apply: CC; apply: leq_trans jk.
have EC (i j : 'I_n) : (j < k)%N -> (j <= i)%N -> \sum_(l < n | (l < j)%N) C i l * C j l + C i j * C j j = P i j.
  by move=> jk ji; rewrite SC ?(ltnW jk) // CC // (ldl_entry lU dU EP ji) dU mulr1.
have Q (m : nat) (H : half_done P L m) (i j : 'I_n) : (j < m)%N -> (j < k)%N -> (j <= i)%N -> L i j = C i j.
  move=> jm jk; case: H => _ h2 h3; apply: (@half_unique _ _ P L C (minn m k)); last by rewrite leq_min jm jk.
  - by move=> l; rewrite leq_min => /andP [lm _]; exact: h2.
  - by move=> i' l; rewrite leq_min => /andP [lm _]; exact: h3.
  - by move=> l; rewrite leq_min => /andP [_ lk]; exact: pC.
  - by move=> i' l; rewrite leq_min => /andP [_ lk]; exact: EC.
(* the pivot at [j] is [D j] *)
have V (j : 'I_n) : (j <= k)%N -> P j j = \sum_(l < n | (l < j)%N) C j l * C j l + D 0 j.
  by move=> jk; rewrite SC // (ldl_entry lU dU EP (leqnn j)) dU mul1r.
have late (m : nat) : half_done P L m -> (k < m)%N -> False.
  move=> H km; have := V k (leqnn k); case: (H) => _ h2 h3; rewrite -(h3 k k km (leqnn k)).
  rewrite (eq_bigr (fun l : 'I_n => C k l * C k l)); last first.
    by move=> l lk; rewrite !(Q m) // ?(ltn_trans lk) // ltnW.
  by move/addrI => E; move: Dk; rewrite -E leNgt mulr_gt0 ?h2.
case: (llt_cases P) => [[_ H0]|[_ [k' [H0 p]]]]; have H := half_lower H0; clear H0.
  by case: (late n H).
have Ek : k' = k.
  apply: val_inj; case: (ltngtP k' k) => // h; last by case: (late k' H).
  move: p; rewrite pivot_lower /llt_pivot; case: (H) => h1 _ _; rewrite h1 // V; last exact: ltnW.
  rewrite [X in _ - X](eq_bigr (fun l : 'I_n => C k' l * C k' l)); last first.
    by move=> l lk; rewrite !(Q k') // ?(ltn_trans lk) // ltnW.
  by rewrite addrC addKr leNgt Dp.
subst k'; split=> [i j jk ji|i j kj ji]; first by rewrite (Q k) // mxE.
by case: H => h1 _ _; exact: h1.
Qed.
Lemma ldl_variance P (U : 'M[F]_n) (D : 'rV[F]_n) (k : 'I_n) : lower U -> (forall i, U i i = 1) ->
  P = U *m diag_mx D *m U^T -> (forall j : 'I_n, (j < k)%N -> 0 < D 0 j) -> D 0 k <= 0 ->
  let L := llt_matrixL P in (L *m L^T) k k = P k k - D 0 k + P k k ^+ 2.
Proof.
move=> lU dU EP Dp Dk L; have [H1 H2] := llt_ldl lU dU EP Dp Dk.
rewrite lower_prod //; last exact: llt_lower.
rewrite !H2 // -expr2; congr (_ + _); rewrite (ldl_entry lU dU EP (leqnn k)) dU mul1r addrK.
apply: eq_bigr => l lk; rewrite H1 ?(ltnW lk) // mulrACA -[Num.sqrt _ * _]expr2 sqr_sqrtr; last by rewrite ltW // Dp.
by rewrite mulrAC.
Qed.

(** Diagonal matrices *)
Lemma half_diagonal d (L : 'M[F]_n) (k : nat) : half_done (diag_mx d) L k ->
  forall i j : 'I_n, (j < k)%N -> (j <= i)%N -> L i j = if i == j then L j j else 0.
Proof.
case=> _ H2 H3 i j; move: {2}(j : nat) (leqnn j) => m; elim/ltn_ind: m i j => m IH i j jm jk ji.
case: eqP => [->//|/eqP ij].
have := H3 i j jk ji; rewrite mxE (negbTE ij) mulr0n big1 ?add0r.
  by move/eqP; rewrite mulf_eq0 [X in _ || X]gt_eqF ?H2 // orbF => /eqP.
move=> l lj; rewrite [L j l](IH l) ?(leq_trans lj) //; try exact: ltnW.
by rewrite -(inj_eq val_inj) /= gtn_eqF // mulr0.
Qed.
Lemma half_square d (L : 'M[F]_n) (k : nat) (j : 'I_n) : half_done (diag_mx d) L k -> (j < k)%N ->
  L j j ^+ 2 = d 0 j.
Proof.
move=> H jk; have D := half_diagonal H; case: (H) => _ _ H3.
have := H3 j j jk (leqnn j); rewrite mxE eqxx mulr1n -expr2 big1 ?add0r // => l lj.
by rewrite D ?(ltnW lj) ?(ltn_trans lj) // -(inj_eq val_inj) /= gtn_eqF // mulr0.
Qed.

Lemma llt_diagonal_stops d (k : 'I_n) : (forall j : 'I_n, (j < k)%N -> 0 < d 0 j) -> d 0 k <= 0 ->
  llt_matrixL (diag_mx d) = diag_mx (\row_j if (j < k)%N then Num.sqrt (d 0 j) else d 0 j).
Proof.
move=> dp dk; have lL := llt_lower (diag_mx d).
have S m (H : half_done (diag_mx d) (llt_matrixL (diag_mx d)) m) (j : 'I_n) (jm : (j < m)%N) : 0 < d 0 j.
  by rewrite -(half_square H jm) exprn_gt0 //; case: H => _ H2 _; exact: H2.
case: (llt_cases (diag_mx d)) => [[_ H0]|[_ [k' [H0 p]]]]; have H := half_lower H0; clear H0.
  by have := S _ H k (ltn_ord k); rewrite ltNge dk.
have D := half_diagonal H; have Q := half_square H.
have dk' : d 0 k' <= 0.
  move: p; rewrite pivot_lower /llt_pivot big1 ?subr0; first by case: H => H1 _ _; rewrite H1 // mxE eqxx mulr1n.
  by move=> l lk; rewrite D ?(ltnW lk) // -(inj_eq val_inj) /= gtn_eqF // mulr0.
have E : k' = k.
  apply: val_inj; case: (ltngtP k' k) => // h.
    by have := dp _ h; rewrite ltNge dk'.
  by have := S _ H _ h; rewrite ltNge dk.
subst k'; apply/matrixP => i j; rewrite [RHS]mxE [X in _ = X *+ _]mxE.
case: (leqP j i) => ji; last first.
  rewrite lL //; case: eqP => [E|]; last by rewrite mulr0n.
  by rewrite E ltnn in ji.
case: (ltnP j k) => jk.
  rewrite D //; case: eqP => [->|_]; last by rewrite mulr0n.
  rewrite jk mulr1n -Q // sqrtr_sqr ger0_norm //.
  by case: H => _ H2 _; apply: ltW; exact: H2.
case: H => H1 _ _; rewrite (H1 i j ji jk) mxE; case: eqP => [->|_]; last by rewrite !mulr0n.
by rewrite ltnNge jk.
Qed.

Lemma gram_diagonal d (k : 'I_n) : (forall j : 'I_n, (j < k)%N -> 0 < d 0 j) -> d 0 k <= 0 ->
  llt_matrixL (diag_mx d) *m (llt_matrixL (diag_mx d))^T =
  diag_mx (\row_j if (j < k)%N then d 0 j else d 0 j ^+ 2).
Proof.
move=> dp dk; rewrite (llt_diagonal_stops dp dk) tr_diag_mx mulmx_diag; congr diag_mx.
apply/rowP => j; rewrite !mxE; case: ifP => jk; last by rewrite expr2.
by rewrite -expr2 sqr_sqrtr // ltW // dp.
Qed.
End Any.

Lemma predict_same_lower n (ST : state_type n) s (P Q : 'M[R]_n) dt alpha beta kappa :
  (forall i j : 'I_n, (j <= i)%N -> P i j = Q i j) ->
  @unscented_kalman_filter_predict n ST s P dt alpha beta kappa =
  @unscented_kalman_filter_predict n ST s Q dt alpha beta kappa.
Proof.
move=> H; rewrite /unscented_kalman_filter_predict /generate_sigma_points_and_weights /generate_sigma_points.
by rewrite (@llt_same R_rcfType n P Q H).
Qed.

(** Zero seconds *)
Lemma ctrv_still_any s P (alpha beta kappa r : R) :
  let L : 'M[R]_5 := llt_matrixL (P : 'M[R_rcfType]_5) in
  let i3 : 'I_5 := inord 3 in let h := get_angle (v_yaw s) in
  on_circle (v_yaw s) ->
  (0 < alpha * alpha * (5 + kappa))%coqR -> (alpha * alpha * (5 + kappa) * (L *m L^T) i3 i3 <= r * r)%coqR ->
  (0 <= r)%coqR -> (r <= h)%coqR -> (h + r <= 3.14159265359)%coqR ->
  @unscented_kalman_filter_predict 5 ctrv_type s P 0%coqR alpha beta kappa = (s, L *m L^T).
Proof.
move=> L i3 h C q0 Hr r0 H1 H2.
have E : ctrv_to_vec s i3 0 = h by rewrite /i3 mxE inordK.
apply: (@predict_zero_factored 5 ctrv_type _ _ ctrv_tame s P alpha beta kappa r) => //; first by rewrite five_R.
rewrite /roomy [st_to _ _ _ _]E RaddE lambdaE five_R pi11_R; split=> //.
Qed.
Lemma ctra_still_any s P (alpha beta kappa r : R) :
  let L : 'M[R]_6 := llt_matrixL (P : 'M[R_rcfType]_6) in
  let i3 : 'I_6 := inord 3 in let h := get_angle (a_yaw s) in
  on_circle (a_yaw s) ->
  (0 < alpha * alpha * (6 + kappa))%coqR -> (alpha * alpha * (6 + kappa) * (L *m L^T) i3 i3 <= r * r)%coqR ->
  (0 <= r)%coqR -> (r <= h)%coqR -> (h + r <= 3.14159265359)%coqR ->
  @unscented_kalman_filter_predict 6 ctra_type s P 0%coqR alpha beta kappa = (s, L *m L^T).
Proof.
move=> L i3 h C q0 Hr r0 H1 H2.
have E : ctra_to_vec s i3 0 = h by rewrite /i3 mxE inordK.
apply: (@predict_zero_factored 6 ctra_type _ _ ctra_tame s P alpha beta kappa r) => //; first by rewrite six_R.
rewrite /roomy [st_to _ _ _ _]E RaddE lambdaE six_R pi11_R; split=> //.
Qed.

(** ... for a diagonal covariance *)
Lemma diagonal_entries n (d : 'I_n -> R) (k : 'I_n) : (forall j : 'I_n, (j < k)%N -> (0 < d j)%coqR) -> (d k <= 0)%coqR ->
  let L : 'M[R]_n := llt_matrixL (diag_mx (\row_j d j) : 'M[R_rcfType]_n) in
  L *m L^T = diag_mx (\row_j if (j < k)%N then d j else (d j * d j)%coqR).
Proof.
move=> dp dk L.
have dp' (j : 'I_n) : (j < k)%N -> 0 < (\row_j (d j : R_rcfType)) 0 j by move=> jk; rewrite mxE; apply/RltP; exact: dp.
have dk' : (\row_j (d j : R_rcfType)) 0 k <= 0 by rewrite mxE; apply/RleP.
rewrite /L (gram_diagonal dp' dk'); congr diag_mx; apply/rowP => j; rewrite !mxE.
by case: ifP => // _; rewrite expr2.
Qed.
Lemma ctrv_still_diagonal (s : ctrvR) (d : 'I_5 -> R) (k : 'I_5) (alpha beta kappa r : R) :
  let d' (j : 'I_5) := if (j < k)%N then d j else (d j * d j)%coqR in
  let h := get_angle (v_yaw s) in let q := (alpha * alpha * (5 + kappa))%coqR in
  on_circle (v_yaw s) -> (0 < q)%coqR -> (forall j : 'I_5, (j < k)%N -> (0 < d j)%coqR) -> (d k <= 0)%coqR ->
  (q * d' (inord 3) <= r * r)%coqR -> (0 <= r <= h)%coqR -> (h + r <= 3.14159265359)%coqR ->
  @unscented_kalman_filter_predict 5 ctrv_type s (diag_mx (\row_j d j)) 0%coqR alpha beta kappa =
  (s, diag_mx (\row_j d' j)).
Proof.
move=> d' h q C q0 dp dk Hr [r0 r1] r2; have E := diagonal_entries dp dk; cbv zeta in E.
have := @ctrv_still_any s (diag_mx (\row_j d j)) alpha beta kappa r; cbv zeta; rewrite E; apply=> //.
by rewrite mxE eqxx mulr1n mxE.
Qed.
Lemma ctra_still_diagonal (s : ctraR) (d : 'I_6 -> R) (k : 'I_6) (alpha beta kappa r : R) :
  let d' (j : 'I_6) := if (j < k)%N then d j else (d j * d j)%coqR in
  let h := get_angle (a_yaw s) in let q := (alpha * alpha * (6 + kappa))%coqR in
  on_circle (a_yaw s) -> (0 < q)%coqR -> (forall j : 'I_6, (j < k)%N -> (0 < d j)%coqR) -> (d k <= 0)%coqR ->
  (q * d' (inord 3) <= r * r)%coqR -> (0 <= r <= h)%coqR -> (h + r <= 3.14159265359)%coqR ->
  @unscented_kalman_filter_predict 6 ctra_type s (diag_mx (\row_j d j)) 0%coqR alpha beta kappa =
  (s, diag_mx (\row_j d' j)).
Proof.
move=> d' h q C q0 dp dk Hr [r0 r1] r2; have E := diagonal_entries dp dk; cbv zeta in E.
have := @ctra_still_any s (diag_mx (\row_j d j)) alpha beta kappa r; cbv zeta; rewrite E; apply=> //.
by rewrite mxE eqxx mulr1n mxE.
Qed.

Lemma semidefinite_changes : exists (s : ctrvR) (P : 'M[R]_5),
  on_circle (v_yaw s) /\ P^T = P /\ (forall v : 'cV[R_realFieldType]_5, 0 <= (v^T *m (P : 'M[R_realFieldType]_5) *m v) 0 0) /\
  let Q := (@default_unscented_transform 5 ctrv_type s P 0%coqR).2 in
  P (inord 1) (inord 1) = 9%coqR /\ Q (inord 1) (inord 1) = 81%coqR /\
  P (inord 2) (inord 2) = (/ 100)%coqR /\ Q (inord 2) (inord 2) = (/ 10000)%coqR.
Proof.
have [PB1 PB2] := pi_bounds.
pose s : ctrvR := CtrvState (A := reals) 3%coqR 4%coqR 5%coqR (angleR 1%coqR) (0.5)%coqR.
pose d (j : 'I_5) : R := nth 0%coqR [:: 0; 9; / 100; / 100; 1]%coqR j.
have C : on_circle (v_yaw s) by exact: circle_of.
exists s, (diag_mx (\row_j d j)); split=> //; split; first exact: tr_diag_mx.
split.
  move=> v; have := @qf_diag R_realFieldType 5 (\row_j d j) v; rewrite /qf => ->.
  have d0 i : (0 <= d i)%coqR by rewrite /d; case: i => -[|[|[|[|[|//]]]]] h /=; lra.
  by apply: sumr_ge0 => i _; rewrite mulr_ge0 ?sqr_ge0 // mxE; apply/RleP; exact: d0.
have Eh : get_angle (v_yaw s) = 1%coqR by apply: get_angle_canonical; lra.
have T k (h : (k < 5)%N) : d (inord k) = nth 0%coqR [:: 0; 9; / 100; / 100; 1]%coqR k by rewrite /d inordK.
have E := @ctrv_still_diagonal s d ord0 1%coqR 1%coqR 2%coqR 1%coqR C.
rewrite /default_unscented_transform /unscented_transform.
rewrite E //=; last first.
- by rewrite Eh; lra.
- by rewrite Eh; lra.
- by rewrite !T //=; lra.
- by rewrite /d /=; lra.
- lra.
by rewrite !mxE !eqxx !mulr1n !T //=; lra.
Qed.

(** ** The covariance of the CTRA test, /repo/test/test_unscented_kalman_filter.cpp:79-84, and its pivots *)
Section Tested.
Local Open Scope R_scope.
Definition tested_rows : seq (seq R) :=
  [:: [:: 0.0043; -0.0013; 0.0030; -0.0022; -0.0020; 0.5];
      [:: -0.0013; 0.0077; 0.0011; 0.0071; 0.0060; 0.123];
      [:: 0.0030; 0.0011; 0.0054; 0.0007; 0.0008; -0.34];
      [:: -0.0022; 0.0071; 0.0007; 0.0098; 0.0100; 0.009];
      [:: -0.0020; 0.0060; 0.0008; 0.0100; 0.0123; 0.0021];
      [:: 0.5; 0.123; -0.34; 0.009; 0.0021; -0.8701] ].
Definition tested_U : seq (seq R) :=
  [:: [:: 1; 0; 0; 0; 0; 0];
      [:: -13/43; 1; 0; 0; 0; 0];
      [:: 30/43; 863/3142; 1; 0; 0; 0];
      [:: -22/43; 2767/3142; 14687/86585; 1; 0; 0];
      [:: -20/43; 1160/1571; 22416/86585; 888431/633857; 1; 0];
      [:: 5000/43; 58945/1571; -4801858/17317; 33116635/633857; 32990539/3060493; 1] ].
Definition tested_D : seq R :=
  [:: 43/10000; 3142/43/10000; 86585/3142/10000; 2535428/86585/10000; 9181479/633857/10000; -8855461725552/3060493/10000].
End Tested.
Definition square_of n (rows : seq (seq R)) : 'M[R]_n := \matrix_(i, j) nth 0%coqR (nth [::] rows i) j.

Lemma tested_factors : (square_of 6 tested_rows : 'M[R_rcfType]_6) =
  square_of 6 tested_U *m diag_mx (\row_(j < 6) (nth 0%coqR tested_D j : R_rcfType)) *m (square_of 6 tested_U)^T.
Proof.
apply/matrixP => i j; rewrite [RHS]mxE; under eq_bigr do rewrite mul_mx_diag !mxE.
rewrite mxE !big_ord_recr big_ord0 /=.
case: i => -[|[|[|[|[|[|//]]]]]] hi; case: j => -[|[|[|[|[|[|//]]]]]] hj;
  cbn [nth nat_of_ord tested_rows tested_U tested_D]; rewrite -!RmulE -!RaddE; change (0 : R) with 0%coqR; lra.
Qed.

Lemma ctra_tested (s : ctraR) (dt alpha beta kappa : R) : (0 < alpha * alpha * (6 + kappa))%coqR ->
  let Q := (@unscented_kalman_filter_predict 6 ctra_type s (square_of 6 tested_rows) dt alpha beta kappa).2 in
  (Rabs (Q (inord 5) (inord 5) - 289.23456) < 0.0001)%coqR.
Proof.
move=> q0 Q.
have q0' : (0 < alpha * alpha * (6%:R + kappa))%coqR by rewrite natR /=; lra.
have [A2 [A4 A5]] := mean6 s 0 dt.
have [j /eqP ->|j c /eqP ->|y [_ [_ HG]]] :=
  @predict_exact_factored 6 ctra_type s (square_of 6 tested_rows) 1%:M dt alpha beta kappa (x6 s 0 dt)
    (fun j => j == inord 5) q0'; first exact: A5.
  move=> v; rewrite mul1mx; have [_ [_ [E F]]] := ctra_entries s v dt.
  by rewrite E F; have -> : x6 s 0 dt (inord 5) 0 = a_acc s by rewrite mxE inordK.
rewrite /Q HG // mul1mx trmx1 mulmx1 /factored.
have lU : lower (square_of 6 tested_U : 'M[R_rcfType]_6).
  by move=> i j; rewrite mxE; case: i => -[|[|[|[|[|[|//]]]]]] hi; case: j => -[|[|[|[|[|[|//]]]]]] hj.
have dU (i : 'I_6) : (square_of 6 tested_U : 'M[R_rcfType]_6) i i = 1.
  by rewrite mxE; case: i => -[|[|[|[|[|[|//]]]]]] hi.
have Dp (j : 'I_6) : (j < (inord 5 : 'I_6))%N -> 0 < (\row_(j < 6) (nth 0%coqR tested_D j : R_rcfType)) 0 j.
  rewrite inordK // mxE => h; apply/RltP.
  have: (0 < nth 0 tested_D j)%coqR by case: j h => -[|[|[|[|[|//]]]]] hj _; rewrite /tested_D /=; lra.
  by [].
have Dk : (\row_(j < 6) (nth 0%coqR tested_D j : R_rcfType)) 0 (inord 5) <= 0.
  rewrite mxE inordK //; apply/RleP.
  have: (nth 0 tested_D 5 <= 0)%coqR by rewrite /tested_D /=; lra.
  by [].
rewrite (ldl_variance lU dU tested_factors Dp Dk) !mxE inordK // expr2 -!RmulE -!RoppE -!RaddE.
by rewrite /tested_rows /tested_D /=; split_Rabs; lra.
Qed.
