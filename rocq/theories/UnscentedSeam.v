(** Prediction by zero seconds across the seam of the heading. *)
From Coq Require Import Reals Lra Lia ZArith.
From mathcomp Require Import all_ssreflect all_algebra ring.
From Verif Require Import Base Uuid DynObj RealField PosDef EigenLlt Motion RealArith MotionThms StateVec StateVecThms
  CovInt CovIntThms PiBounds FusionThms Unscented UnscentedThms.
Set Implicit Arguments.
Unset Strict Implicit.
Unset Printing Implicit Defensive.
Import Order.Theory GRing.Theory Num.Theory.
Local Open Scope ring_scope.

Lemma cholesky_scalar (F : rcfType) n (x : F) : 0 < x -> cholesky (x%:M : 'M[F]_n) = (Num.sqrt x)%:M.
Proof.
move=> x0; have sx := spd_scalar n x0; have r0 : 0 < Num.sqrt x by rewrite sqrtr_gt0.
apply: cholesky_unique.
- exact: cholesky_lower.
- exact: cholesky_diag.
- by move=> i j ij; rewrite mxE; case: eqP => [E|//]; rewrite E ltnn in ij.
- by move=> i; rewrite mxE eqxx mulr1n.
- by rewrite choleskyK // tr_scalar_mx -scalar_mxM -expr2 sqr_sqrtr // ltW.
Qed.

(** [q] is n + lambda, [p] the variance of every coordinate: the heading sigma
    points are [h], [h + sqrt (q p)] and [h - sqrt (q p)]; only the second one is
    beyond the constant. *)
Section Seam.
Variables (p q h alpha beta kappa : R) (x y vel rate : R).
Hypotheses (Hq : (5 + generate_lambda 5 (alpha : R_realFieldType) kappa)%coqR = q)
  (Hq0 : (0 < q)%coqR) (Hp0 : (0 < p)%coqR).
Let s := CtrvState (A := reals) x y vel (angleR h) rate.
Let P : 'M[R]_5 := (p : R_rcfType)%:M.
Let sg := sqrt (q * p)%coqR.
Hypotheses (H1 : (0 <= h - sg)%coqR) (H2 : (h <= pi11 R_realFieldType)%coqR)
  (H3 : (pi11 R_realFieldType < h + sg)%coqR) (H4 : (h + sg < 2 * PI)%coqR).

Lemma seam_predict :
  let out := @unscented_kalman_filter_predict 5 ctrv_type s P 0%coqR alpha beta kappa in
  out.1 = CtrvState (A := reals) x y vel (angleR (h - pi11 R_realFieldType / q)%coqR) rate.
Proof.
have [PB1 PB2] := pi_bounds; have QB := pi11_bounds.
have five : (5%:R : R) = 5%coqR by rewrite natR /=; lra.
have sg0 : (0 <= sg)%coqR by apply: sqrt_pos.
have C : on_circle (v_yaw s) by apply: circle_of.
have Eh : get_angle (v_yaw s) = h by apply: get_angle_canonical; lra.
have sP : spd (P : 'M[R_rcfType]_5) by apply: spd_scalar; apply/RltP.
rewrite /unscented_kalman_filter_predict /generate_sigma_points_and_weights /=.
have Hq1 := Hq; set lambda := generate_lambda _ _ _ in Hq1 *.
have Hql : (5%:R + lambda : R) = q by rewrite five.
have l0 : (0 < 5%:R + lambda)%coqR by rewrite RaddE Hql.
have h0 : (5%:R + lambda : R) != 0 by apply/eqP; exact: Rgt_not_eq _ _ l0.
have -> : [seq @ctrv_next reals p0 0%coqR | p0 <- @generate_sigma_points 5 ctrv_type s P lambda] =
  @generate_sigma_points 5 ctrv_type s P lambda.
  rewrite /generate_sigma_points map_flatten -map_comp; congr flatten; apply: eq_map => c /=.
  by rewrite !ctrv_zero //; apply: circle_of.
rewrite ctrv_zero //.
have Esp : spread P lambda = (sg : R_rcfType)%:M.
  rewrite /spread /P (llt_cholesky sP).2 cholesky_scalar; last by apply/RltP.
  rewrite -sqrtrE; last exact: Rlt_le.
  rewrite scale_scalar_mx; congr (_%:M); rewrite (Hql : (5%:R + lambda)%coqR = q) /sg.
  by rewrite sqrt_mult; [|exact: Rlt_le|exact: Rlt_le].
set M := mean_and_sigma_points_to_matrix_xf _ _ _.
have Mrow (j : 'I_5) i : M i j = ctrv_to_vec s j 0 + offset ((sg : R_realFieldType)%:M) i j.
  have := @rows_offset 5 ctrv_type s P lambda id (ctrv_to_vec s j 0) j erefl.
  rewrite map_id => ->; first by rewrite Esp.
  move=> c; cbv zeta.
  case: (eqVneq (j : nat) 3%N) => [E|/eqP nj]; last exact: (tame_linear ctrv_tame s _ nj).
  have -> : j = inord 3 by apply: val_inj; rewrite /= E inordK.
  have [h1 h2] := tame_heading ctrv_tame (col c (spread P lambda)) C; move: h1 h2.
  have -> : st_to ctrv_type s (inord 3) 0 = h.
    rewrite /= mxE inordK //; exact: Eh.
  have -> : col c (spread P lambda) (inord 3) 0 = if inord 3 == c then sg else 0%coqR.
    by rewrite Esp !mxE; case: eqP.
  by case: eqP => _ h1 h2; split; (apply: h1 || apply: h2); lra.
have Wrow (j : 'I_5) i : wrap_rows M i j =
  M i j - (if ((j : nat) == 3%N) && ((i : nat) == 7%N) then 2%:R * pi11 R_realFieldType else 0).
  rewrite mxE; case: eqP => [j3|]; last by rewrite subr0.
  have Ej : ctrv_to_vec s j 0 = h by rewrite mxE j3; exact: Eh.
  rewrite andTb Mrow Ej.
  have lo : wrap (h : R_realFieldType) = h - 0.
    by rewrite subr0 wrap_below //; apply/RleP.
  have c0 (c : 'I_5) : (c : nat) != 3%N -> j == c = false.
    by move=> c3; apply/eqP => Ejc; rewrite -Ejc j3 in c3.
  case: (row_cases i) => [Ei|[c [Ei|Ei]]].
  - by rewrite Ei /= addr0 lo.
  - rewrite Ei offset_even mxE; case: (eqVneq (c : nat) 3%N) => c3.
      rewrite c3 eqxx (_ : j == c = true); last by apply/eqP/val_inj; rewrite /= c3.
      by rewrite mulr1n /wrap; move/RltP: H3 => ->.
    rewrite c0 // [_ *+ _]mulr0n addr0 lo (_ : _ == 7%N = false) //.
    by apply/eqP => -[E]; move: c3; rewrite -(eqn_pmul2l (isT : (0 < 2)%N)) E.
  - rewrite Ei offset_odd mxE (_ : _ == 7%N = false); last first.
      by apply/eqP => -[E]; have := congr1 odd E; rewrite mul2n odd_double.
    rewrite subr0; case: (j == c); rewrite ?mulr1n ?mulr0n ?oppr0 ?addr0; apply: wrap_below; apply/RleP=> //.
    by rewrite -RoppE -RaddE; lra.
pose W := generate_weights 5 (alpha : R_realFieldType) beta lambda.
have mean (j : 'I_5) : ((W.1)^T *m wrap_rows M)^T j 0 =
    ctrv_to_vec s j 0 - (if (j : nat) == 3%N then pi11 R_realFieldType / q else 0).
  have E1 := recover_mean (S := M) (x := ctrv_to_vec s j 0) alpha beta W.2 h0 (Mrow j).
  rewrite ut_mean in E1.
  rewrite [LHS]mxE [LHS]mxE; under eq_bigr do rewrite [(W.1)^T _ _]mxE Wrow mulrBr.
  rewrite sumrB E1; congr (_ - _); case: (eqVneq (j : nat) 3%N) => j3 /=; last by rewrite big1 // => i _; rewrite mulr0.
  have h7 : (7 < (2 * 5).+1)%N by [].
  rewrite (bigD1 (Ordinal h7)) //= big1; last first.
    by move=> i /eqP ni; case: eqP => [E|]; [case: ni; apply: val_inj|rewrite mulr0].
  rewrite mxE /= addr0 Hql div1r; have t := two_neq0 R_realFieldType.
  by rewrite mulrACA mulVf // mul1r mulrC.
transitivity (ctrv_from_vec ((W.1)^T *m wrap_rows M)^T); first by [].
rewrite /ctrv_from_vec; congr CtrvState; rewrite /ent mean !mxE !inordK // ?subr0 //.
congr (angle_of _); rewrite eqxx; rewrite [nth _ _ _](Eh : _ = h) //.
by rewrite -RoppE -RaddE -RinvE //; exact: Rgt_not_eq.
Qed.
End Seam.

Lemma five_R : (5%:R : R) = 5%coqR. Proof. by rewrite natR /=; lra. Qed.
Lemma lambda5 (alpha kappa : R) :
  (5 + generate_lambda 5 (alpha : R_realFieldType) kappa)%coqR = (alpha * alpha * (5 + kappa))%coqR.
Proof. by rewrite /generate_lambda five_R -!RmulE -RoppE -!RaddE; lra. Qed.

(** A state at the constant and a small multiple of the identity *)
Definition at_constant : ctrvR :=
  CtrvState (A := reals) 0%coqR 0%coqR 1%coqR (angleR (pi11 R_realFieldType)) 0%coqR.

Lemma constant_predict (p alpha beta kappa : R) :
  let q := (alpha * alpha * (5 + kappa))%coqR in (0 < p)%coqR -> (1 <= q)%coqR -> (q * p <= 7)%coqR ->
  v_yaw (@unscented_kalman_filter_predict 5 ctrv_type at_constant (p : R_rcfType)%:M 0%coqR alpha beta kappa).1 =
  angleR (pi11 R_realFieldType - pi11 R_realFieldType / q)%coqR.
Proof.
move=> q p0 q1 qp.
have [PB1 PB2] := pi_bounds; have QB := pi11_bounds.
have s0 : (0 < sqrt (q * p))%coqR by apply: sqrt_lt_R0; nra.
have s1 : (sqrt (q * p) < 2.7)%coqR.
  rewrite -(sqrt_square 2.7); last lra.
  by apply: sqrt_lt_1; nra.
rewrite (@seam_predict p q) //; try lra.
exact: lambda5.
Qed.

Lemma get_below (q : R) : (1 <= q)%coqR ->
  get_angle (angleR (pi11 R_realFieldType - pi11 R_realFieldType / q)%coqR) =
  (pi11 R_realFieldType - pi11 R_realFieldType / q)%coqR.
Proof.
move=> q1; have [PB1 PB2] := pi_bounds; have QB := pi11_bounds.
apply: get_angle_canonical; have i0 := Rinv_0_lt_compat q (Rlt_le_trans _ _ _ Rlt_0_1 q1).
have i1 : (/ q <= 1)%coqR by rewrite -Rinv_1; apply: Rinv_le_contravar; lra.
rewrite /Rdiv; nra.
Qed.

(** The heading changes by more than 0.4 in zero seconds, however small the covariance. *)
Lemma zero_time_jump (eps : R) : (0 < eps)%coqR -> exists (s : ctrvR) (p : R),
  on_circle (v_yaw s) /\ (0 < p <= eps)%coqR /\
  let out := @default_unscented_transform 5 ctrv_type s (p : R_rcfType)%:M 0%coqR in
  forall k : Z, (0.4 < Rabs (get_angle (v_yaw out.1) - get_angle (v_yaw s) + IZR k * (2 * PI)))%coqR.
Proof.
move=> e0; have [PB1 PB2] := pi_bounds; have QB := pi11_bounds.
exists at_constant, (Rmin eps 1); split; first exact: circle_of.
have m0 : (0 < Rmin eps 1)%coqR by apply: Rmin_glb_lt; lra.
have m1 := Rmin_r eps 1; split; first by split=> //; apply: Rmin_l.
rewrite /default_unscented_transform /unscented_transform => k.
rewrite constant_predict //; try lra.
have -> : (1 * 1 * (5 + 2) = 7)%coqR by lra.
rewrite get_below; last lra.
rewrite [get_angle (v_yaw at_constant)]get_angle_canonical; last lra.
set a := pi11 _ in QB *.
case: (Z_lt_le_dec k 0) => hk.
  have : (IZR k <= -1)%coqR by apply: (IZR_le k (Zneg xH)); lia.
  move=> hk'; rewrite Rabs_left; nra.
case: (Z.eq_dec k 0) => [->|nk]; first by rewrite Rabs_left; lra.
have : (1 <= IZR k)%coqR by apply: (IZR_le (Zpos xH) k); lia.
by move=> hk'; rewrite Rabs_pos_eq; nra.
Qed.

(** The exchange of beta and kappa makes a difference. *)
Lemma swap_matters (alpha beta kappa : R) : (1 <= alpha * alpha * (5 + beta))%coqR ->
  (1 <= alpha * alpha * (5 + kappa))%coqR -> beta <> kappa ->
  exists (s : ctrvR) (P : 'M[R]_5), on_circle (v_yaw s) /\ spd (P : 'M[R_rcfType]_5) /\
    v_yaw (@unscented_transform 5 ctrv_type alpha beta kappa s P 0%coqR).1 <>
    v_yaw (@unscented_kalman_filter_predict 5 ctrv_type s P 0%coqR alpha beta kappa).1.
Proof.
set q1 := (_ * (5 + beta))%coqR; set q2 := (_ * (5 + kappa))%coqR => h1 h2 ne.
pose p := (/ (q1 + q2))%coqR.
have p0 : (0 < p)%coqR by apply: Rinv_0_lt_compat; lra.
have pq : ((q1 + q2) * p = 1)%coqR by apply: Rinv_r; lra.
exists at_constant, ((p : R_rcfType)%:M); split; first exact: circle_of.
split; first by apply: spd_scalar; apply/RltP.
rewrite /unscented_transform !constant_predict //; try by [nra | rewrite -/q1; nra | rewrite -/q2; nra].
rewrite -/q1 -/q2 => /(congr1 (@get_angle reals)); rewrite !get_below // => E.
have QB := pi11_bounds; have E' : (/ q1 = / q2)%coqR by rewrite /Rdiv in E; nra.
have {}E : q1 = q2 by rewrite -(Rinv_inv q1) E' Rinv_inv.
apply: ne; apply: (Rplus_eq_reg_l 5); apply: (Rmult_eq_reg_l (alpha * alpha)); first exact: E.
by move=> z; rewrite /q1 z in h1; lra.
Qed.
