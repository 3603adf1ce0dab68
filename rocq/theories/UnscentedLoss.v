(** What prediction does to the uncertainty of the heading. *)
From Coq Require Import Reals Lra Lia ZArith.
From mathcomp Require Import all_ssreflect all_algebra ring.
From Verif Require Import Base Uuid DynObj RealField PosDef EigenLlt Motion RealArith MotionThms StateVec StateVecThms
  CovInt CovIntThms PiBounds FusionThms Unscented UnscentedThms UnscentedShift.
Set Implicit Arguments.
Unset Strict Implicit.
Unset Printing Implicit Defensive.
Import Order.Theory GRing.Theory Num.Theory.
Local Open Scope ring_scope.
Delimit Scope Z_scope with coqZ.

(** ** Diagonal covariances *)
Lemma qf_diag (F : realFieldType) n (d : 'rV[F]_n) v : qf (diag_mx d) v = \sum_i d 0 i * v i 0 ^+ 2.
Proof.
rewrite /qf mxE; apply: eq_bigr => i _.
by rewrite mul_mx_diag !mxE expr2 mulrAC mulrC.
Qed.
Lemma spd_diagonal (F : realFieldType) n (d : 'rV[F]_n) : (forall i, 0 < d 0 i) -> spd (diag_mx d).
Proof.
move=> d0; split; first exact: tr_diag_mx.
move=> v v0; rewrite qf_diag.
have [i vi] : exists i, v i 0 != 0.
  apply/existsP; apply: contra_neqT v0; rewrite negb_exists => /forallP h.
  by apply/matrixP => i j; rewrite ord1 mxE; apply/eqP; move: (h i); rewrite negbK.
rewrite (bigD1 i) //=; apply: ltr_paddr.
  by apply: sumr_ge0 => j _; rewrite mulr_ge0 ?sqr_ge0 // ltW.
by rewrite mulr_gt0 // lt_neqAle sqr_ge0 andbT eq_sym sqrf_eq0.
Qed.
Lemma cholesky_diagonal (F : rcfType) n (d : 'rV[F]_n) : (forall i, 0 < d 0 i) ->
  cholesky (diag_mx d) = diag_mx (\row_i Num.sqrt (d 0 i)).
Proof.
move=> d0; have sx := spd_diagonal d0.
apply: cholesky_unique.
- exact: cholesky_lower.
- exact: cholesky_diag.
- by move=> i j ij; rewrite mxE; case: eqP => [E|//]; rewrite E ltnn in ij.
- by move=> i; rewrite !mxE eqxx mulr1n sqrtr_gt0.
- rewrite choleskyK // tr_diag_mx mul_diag_mx; apply/matrixP => i j; rewrite !mxE.
  by case: eqP => [->|]; rewrite ?mulr0n ?mulr0 // !mulr1n -expr2 sqr_sqrtr // ltW.
Qed.

Lemma llt_diagonal (F : rcfType) n (d : 'rV[F]_n) : (forall i, 0 < d 0 i) ->
  llt_matrixL (diag_mx d) = diag_mx (\row_i Num.sqrt (d 0 i)).
Proof. by move=> d0; rewrite (llt_cholesky (spd_diagonal d0)).2 cholesky_diagonal. Qed.

(** ** The predicted matrix of points *)
Section Rows.
Variables (n : nat) (ST : state_type n).
Notation S := (st_car ST).
Implicit Types (s : S) (P : 'M[R]_n) (dt alpha beta kappa : R).

Definition rows s P dt (lambda : R) : 'M[R]_((2 * n).+1, n) :=
  wrap_rows (mean_and_sigma_points_to_matrix_xf (2 * n) (st_next ST s dt)
    [seq st_next ST p dt | p <- generate_sigma_points s P lambda]).

Lemma predict_rows s P dt alpha beta kappa :
  let lambda := generate_lambda n (alpha : R_realFieldType) kappa in
  let W := generate_weights n (alpha : R_realFieldType) beta lambda in
  (unscented_kalman_filter_predict s P dt alpha beta kappa).2 =
  (compute_unscented_transform (rows s P dt lambda : 'M[R_realFieldType]_(_, _)) W.1 W.2).2.
Proof. by []. Qed.

(** The entry of column [j] that state [p] contributes *)
Definition entry dt (p : S) (j : 'I_n) : R :=
  let x := st_to ST (st_next ST p dt) j 0 in if (j : nat) == 3%N then wrap (x : R_realFieldType) else x.

Lemma rows_entry s P dt lambda (j : 'I_n) (i : 'I_(2 * n).+1) :
  (i = 0%N :> nat /\ rows s P dt lambda i j = entry dt s j) \/
  exists c : 'I_n, let r := st_from ST (col c (spread P lambda)) in
    (i = (2 * c)%N.+1 :> nat /\ rows s P dt lambda i j = entry dt (st_add ST s r) j) \/
    (i = (2 * c)%N.+2 :> nat /\ rows s P dt lambda i j = entry dt (st_sub ST s r) j).
Proof.
case: (row_cases i) => [Ei|[c Ei]]; [left|right; exists c => r].
  by split=> //; rewrite /rows /entry mxE mxE Ei.
have [N1 N2] := sigma_nth s P lambda s c; rewrite -/r in N1 N2.
case: Ei => Ei; [left|right]; split=> //; rewrite /rows /entry mxE mxE Ei [nth _ _ _]/=.
  by rewrite (nth_map s) ?sigma_size ?N1 // ltn_mul2l ltn_ord.
by rewrite (nth_map s) ?sigma_size ?N2 // !mul2n -doubleS leq_double ltn_ord.
Qed.

(** A column that is the same for all points has no variance. *)
Lemma constant_column s P dt alpha beta kappa (j : 'I_n) (x : R) :
  (0 < alpha * alpha * (n%:R + kappa))%coqR ->
  entry dt s j = x ->
  (forall c, let r := st_from ST (col c (spread P (generate_lambda n (alpha : R_realFieldType) kappa))) in
     entry dt (st_add ST s r) j = x /\ entry dt (st_sub ST s r) j = x) ->
  let out := (unscented_kalman_filter_predict s P dt alpha beta kappa).2 in
  forall k, out j k = 0 /\ out k j = 0.
Proof.
move=> a0 H0 Hc out k; rewrite /out predict_rows; cbv zeta.
set lambda := generate_lambda _ _ _ in Hc *; set M := rows _ _ _ _.
have El : (n%:R + lambda : R) = (alpha * alpha * (n%:R + kappa))%coqR.
  by rewrite /lambda /generate_lambda addrC subrK.
have h : (n%:R + lambda : R) != 0 by rewrite El; apply/eqP; exact: Rgt_not_eq _ _ a0.
have Mx i : M i j = x.
  case: (rows_entry s P dt lambda j i) => [[_ ->] //|[c [[_ ->]|[_ ->]]]]; by have [] := Hc c.
set W := generate_weights _ _ _ _.
have m0 : (compute_unscented_transform (M : 'M[R_realFieldType]_(_, _)) W.1 W.2).1 j 0 = x.
  rewrite ut_mean; under eq_bigr do rewrite Mx.
  by rewrite -mulr_suml mean_weights // mul1r.
have Z k' : (compute_unscented_transform (M : 'M[R_realFieldType]_(_, _)) W.1 W.2).2 j k' = 0.
  by rewrite ut_cov m0 big1 // => i _; rewrite Mx subrr mul0r mulr0.
split; first exact: Z.
have := ut_sym (M : 'M[R_realFieldType]_(_, _)) W.1 W.2 => /matrixP /(_ j k); rewrite mxE => ->; exact: Z.
Qed.

Lemma row_zero_det (M : 'M[R_realFieldType]_n) j : (forall k, M j k = 0) -> \det M = 0.
Proof. by move=> H; rewrite (expand_det_row _ j) big1 // => k _; rewrite H mul0r. Qed.
Lemma row_zero_not_spd (M : 'M[R_realFieldType]_n) j : (forall k, M j k = 0) -> ~ spd M.
Proof. by move=> H /det_spd; rewrite (row_zero_det H) ltxx. Qed.
End Rows.

(** ** Headings that differ by whole turns *)
Lemma wrap_get (a b : R) : same_turn a b ->
  wrap (get_angle (angleR a) : R_realFieldType) = wrap (get_angle (angleR b) : R_realFieldType).
Proof. by move=> H; rewrite (angle_of_turn _ _ H). Qed.

Lemma turns (a b : R) (k : Z) : a = (b + IZR k * (2 * PI))%coqR -> same_turn a b.
Proof. by move=> ->; exists k. Qed.

(** Variances whose sigma points are a whole turn away: of the heading, and of the
    yaw rate when it acts for time [dt]. *)
Definition whole_turns n (q dt : R) : 'M[R]_n := diag_mx (\row_(i < n)
  if (i : nat) == 3%N then ((2 * PI) ^ 2 / q)%coqR
  else if ((i : nat) == 4%N) && ~~ eqr dt 0%coqR then ((2 * PI / dt) ^ 2 / q)%coqR else 1%coqR).

Lemma whole_turns_pos n (q dt : R) (i : 'I_n) : (0 < q)%coqR ->
  (0 < (if (i : nat) == 3%N then ((2 * PI) ^ 2 / q)
  else if ((i : nat) == 4%N) && ~~ eqr dt 0%coqR then ((2 * PI / dt) ^ 2 / q) else 1))%coqR.
Proof.
move=> q0; have P0 := PI_RGT_0.
case: eqP => _; first by apply: Rdiv_lt_0_compat => //; nra.
case: eqP => //= _; last lra.
case: eqrP => //= d0; [lra|].
apply: Rdiv_lt_0_compat => //.
have d1 : (2 * PI / dt <> 0)%coqR.
  rewrite /Rdiv => /Rmult_integral [H|H]; first lra.
  by have := Rinv_neq_0_compat _ d0.
by move: d1; move: (2 * PI / dt)%coqR => x ?; nra.
Qed.
Lemma whole_turns_spd n (q dt : R) : (0 < q)%coqR -> spd (whole_turns n q dt : 'M[R_rcfType]_n).
Proof. by move=> q0; apply: spd_diagonal => i; rewrite mxE; apply/RltP; exact: whole_turns_pos. Qed.

Lemma sqrt_ratio (q x : R) : (0 < q)%coqR -> (sqrt q * sqrt (x ^ 2 / q) = Rabs x)%coqR.
Proof.
move=> q0; rewrite -sqrt_mult; [|lra|].
  rewrite (_ : (q * (x ^ 2 / q) = Rsqr x)%coqR); first exact: sqrt_Rsqr_abs.
  rewrite /Rsqr /Rdiv -Rmult_assoc (Rmult_comm q) Rmult_assoc Rinv_r; last lra.
  by rewrite /= Rmult_1_r Rmult_1_r.
by apply: Rmult_le_pos; [nra|apply/Rlt_le/Rinv_0_lt_compat].
Qed.

Lemma whole_turns_spread n (lambda dt : R) (c j : 'I_n) : (0 < n%:R + lambda)%coqR ->
  spread (whole_turns n (n%:R + lambda)%coqR dt) lambda j c =
  if j == c then (if (j : nat) == 3%N then (2 * PI)%coqR else
    if ((j : nat) == 4%N) && ~~ eqr dt 0%coqR then Rabs (2 * PI / dt)%coqR else sqrt (n%:R + lambda)%coqR) else 0%coqR.
Proof.
move=> l0; have P0 := PI_RGT_0.
rewrite /spread /whole_turns llt_diagonal; last first.
  by move=> i; rewrite mxE; apply/RltP; exact: whole_turns_pos.
rewrite scalemxE mxE; case: eqP => _; last by rewrite mulr0n mulr0.
rewrite mulr1n mxE -sqrtrE; last by rewrite mxE; apply/Rlt_le; exact: whole_turns_pos.
rewrite mxE -RmulE; case: eqP => _.
  rewrite (sqrt_ratio _ l0) Rabs_right //; lra.
case: (_ && _); first exact: sqrt_ratio.
by rewrite sqrt_1 Rmult_1_r.
Qed.

(** ** The predicted headings of the sigma points *)
Lemma turned (z : rangle) (a b : R) : on_circle z ->
  angle_add (angle_add z (angleR a)) (angleR b) = angleR (get_angle z + a + b)%coqR.
Proof.
move=> C; rewrite angle_add_of; last exact: circle_of.
apply: angle_of_turn; apply: same_turn_add; last exact: same_turn_refl.
by rewrite angle_add_of //; have [_] := get_angle_spec (get_angle z + a).
Qed.
Lemma turned_back (z : rangle) (a b : R) : on_circle z ->
  angle_add (angle_sub z (angleR a)) (angleR b) = angleR (get_angle z - a + b)%coqR.
Proof.
move=> C; rewrite angle_add_of; last exact: circle_of.
apply: angle_of_turn; apply: same_turn_add; last exact: same_turn_refl.
by rewrite angle_sub_of //; have [_] := get_angle_spec (get_angle z - a).
Qed.

Definition wrapped (a : R) : R := wrap (get_angle (angleR a) : R_realFieldType).

Lemma ctrv_headings (s : ctrvR) (v : 'cV[R]_5) (dt : R) : on_circle (v_yaw s) ->
  let h := get_angle (v_yaw s) in
  entry dt (s : st_car ctrv_type) (inord 3) = wrapped (h + v_rate s * dt) /\
  entry dt (st_add ctrv_type s (st_from ctrv_type v)) (inord 3) = wrapped (h + ent v 3 + (v_rate s + ent v 4) * dt) /\
  entry dt (st_sub ctrv_type s (st_from ctrv_type v)) (inord 3) = wrapped (h - ent v 3 + (v_rate s - ent v 4) * dt).
Proof.
move=> C h; have i3 : ((inord 3 : 'I_5) : nat) = 3%N by rewrite inordK.
have E (p : ctrvR) : entry dt (p : st_car ctrv_type) (inord 3) =
    wrap (get_angle (v_yaw (ctrv_next p dt)) : R_realFieldType).
  by rewrite /entry i3 eqxx /= mxE i3.
have N (p : ctrvR) := proj2 (proj2 (ctrv_fields p dt)).
split; [|split]; rewrite E N.
- by rewrite angle_add_of.
- by rewrite /= turned.
- by rewrite /= turned_back.
Qed.
Lemma ctra_headings (s : ctraR) (v : 'cV[R]_6) (dt : R) : on_circle (a_yaw s) ->
  let h := get_angle (a_yaw s) in
  entry dt (s : st_car ctra_type) (inord 3) = wrapped (h + a_rate s * dt) /\
  entry dt (st_add ctra_type s (st_from ctra_type v)) (inord 3) = wrapped (h + ent v 3 + (a_rate s + ent v 4) * dt) /\
  entry dt (st_sub ctra_type s (st_from ctra_type v)) (inord 3) = wrapped (h - ent v 3 + (a_rate s - ent v 4) * dt).
Proof.
move=> C h; have i3 : ((inord 3 : 'I_6) : nat) = 3%N by rewrite inordK.
have E (p : ctraR) : entry dt (p : st_car ctra_type) (inord 3) =
    wrap (get_angle (a_yaw (ctra_next p dt)) : R_realFieldType).
  by rewrite /entry i3 eqxx /= mxE i3.
have N (p : ctraR) := proj2 (proj2 (proj2 (ctra_fields p dt))).
split; [|split]; rewrite E N.
- by rewrite angle_add_of.
- by rewrite /= turned.
- by rewrite /= turned_back.
Qed.

(** All sigma points of [whole_turns] end with the same heading. *)
Lemma turn_columns n (lambda dt h w : R) (c : 'I_n.+1) : (4 <= n)%N -> (0 < n.+1%:R + lambda)%coqR ->
  let v := col c (spread (whole_turns n.+1 (n.+1%:R + lambda)%coqR dt) lambda) in
  wrapped (h + ent v 3 + (w + ent v 4) * dt) = wrapped (h + w * dt) /\
  wrapped (h - ent v 3 + (w - ent v 4) * dt) = wrapped (h + w * dt).
Proof.
move=> n4 l0 v; have P0 := PI_RGT_0.
have n3 : (3 < n.+1)%N by rewrite ltnS; apply: leq_trans n4.
have E3 : ent v 3 = if (c : nat) == 3%N then (2 * PI)%coqR else 0%coqR.
  rewrite /ent /v mxE whole_turns_spread // inordK //=.
  by rewrite -(inj_eq val_inj) /= inordK // eq_sym.
have E4 : exists k : Z, (ent v 4 * dt = IZR k * (2 * PI))%coqR.
  rewrite /ent /v mxE whole_turns_spread // inordK //=.
  rewrite -(inj_eq val_inj) /= inordK //.
  case: eqP => _; last by exists 0%coqZ; lra.
  case: eqrP => d0 /=; first by exists 0%coqZ; rewrite d0; lra.
  have dd : (2 * PI / dt * dt = 2 * PI)%coqR by rewrite /Rdiv Rmult_assoc Rinv_l //; lra.
  case: (Rcase_abs (2 * PI / dt)) => H.
    by exists (-1)%coqZ; rewrite Rabs_left //; lra.
  by exists 1%coqZ; rewrite Rabs_right //; lra.
have [k Ek] := E4.
have [m Em] : exists m : Z, (ent v 3 = IZR m * (2 * PI))%coqR.
  by rewrite E3; case: eqP => _; [exists 1%coqZ|exists 0%coqZ]; lra.
split; apply: wrap_get.
- by apply: (@turns _ _ (m + k)%coqZ); rewrite plus_IZR; lra.
- by apply: (@turns _ _ (- m - k)%coqZ); rewrite minus_IZR opp_IZR; lra.
Qed.

Lemma ctrv_lost (s : ctrvR) (dt alpha beta kappa : R) : on_circle (v_yaw s) ->
  let q := (alpha * alpha * (5 + kappa))%coqR in (0 < q)%coqR ->
  let out := (@unscented_kalman_filter_predict 5 ctrv_type s (whole_turns 5 q dt) dt alpha beta kappa).2 in
  forall k, out (inord 3) k = 0 /\ out k (inord 3) = 0.
Proof.
move=> C q q0 out k.
have n5 : (5%:R : R) = 5%coqR by rewrite natR /=; lra.
have El : (5%:R + generate_lambda 5 (alpha : R_realFieldType) kappa)%coqR = q.
  by rewrite /q -n5 /generate_lambda RaddE addrC subrK.
have [H0 _] := ctrv_headings 0 dt C.
apply: (constant_column _ _ H0) => [|c r]; first by rewrite n5.
have := @turn_columns 4 (generate_lambda 5 (alpha : R_realFieldType) kappa) dt (get_angle (v_yaw s)) (v_rate s) c isT.
rewrite El => /(_ q0); cbv zeta; set v := col _ _ => -[T1 T2].
have [_ [H1 H2]] := ctrv_headings v dt C.
by rewrite /r; split; [rewrite H1|rewrite H2].
Qed.
Lemma ctra_lost (s : ctraR) (dt alpha beta kappa : R) : on_circle (a_yaw s) ->
  let q := (alpha * alpha * (6 + kappa))%coqR in (0 < q)%coqR ->
  let out := (@unscented_kalman_filter_predict 6 ctra_type s (whole_turns 6 q dt) dt alpha beta kappa).2 in
  forall k, out (inord 3) k = 0 /\ out k (inord 3) = 0.
Proof.
move=> C q q0 out k.
have n6 : (6%:R : R) = 6%coqR by rewrite natR /=; lra.
have El : (6%:R + generate_lambda 6 (alpha : R_realFieldType) kappa)%coqR = q.
  by rewrite /q -n6 /generate_lambda RaddE addrC subrK.
have [H0 _] := ctra_headings 0 dt C.
apply: (constant_column _ _ H0) => [|c r]; first by rewrite n6.
have := @turn_columns 5 (generate_lambda 6 (alpha : R_realFieldType) kappa) dt (get_angle (a_yaw s)) (a_rate s) c isT.
rewrite El => /(_ q0); cbv zeta; set v := col _ _ => -[T1 T2].
have [_ [H1 H2]] := ctra_headings v dt C.
by rewrite /r; split; [rewrite H1|rewrite H2].
Qed.

(** ** Bounded headings have bounded variance *)
Lemma weighted_variance (F : realFieldType) (I : finType) (w x : I -> F) (b : F) :
  (forall i, 0 <= w i) -> \sum_i w i = 1 -> (forall i, `|x i| <= b) ->
  let m := \sum_i w i * x i in
  `|m| <= b /\ \sum_i w i * ((x i - m) * (x i - m)) <= b ^+ 2.
Proof.
move=> w0 w1 xb m; split.
  rewrite /m; apply: le_trans (ler_norm_sum _ _ _) _.
  have -> : b = \sum_i w i * b by rewrite -mulr_suml w1 mul1r.
  by apply: ler_sum => i _; rewrite normrM (ger0_norm (w0 i)); apply: ler_wpmul2l.
have -> : \sum_i w i * ((x i - m) * (x i - m)) = \sum_i w i * x i ^+ 2 - m ^+ 2.
  have E i : w i * ((x i - m) * (x i - m)) = w i * x i ^+ 2 + (- (2%:R * m) * (w i * x i) + m ^+ 2 * w i) by ring.
  under eq_bigr do rewrite E.
  rewrite big_split big_split /= -!mulr_sumr w1 -/m; ring.
rewrite ler_subl_addr; apply: le_trans (_ : b ^+ 2 <= _); last by rewrite ler_addl sqr_ge0.
have -> : b ^+ 2 = \sum_i w i * b ^+ 2 by rewrite -mulr_suml w1 mul1r.
apply: ler_sum => i _; apply: ler_wpmul2l => //.
rewrite -(real_normK (num_real (x i))); apply: ler_expn2r; rewrite ?nnegrE ?normr_ge0 //.
by apply: le_trans (xb i).
Qed.

Lemma wrapped_bound (a : R) : `|wrapped a : R_realFieldType| <= pi11 R_realFieldType.
Proof.
have [PB1 PB2] := pi_bounds; have QB := pi11_bounds.
have [[G0 G1] _] := get_angle_spec a.
rewrite /wrapped /wrap ler_norml; case: ifP => H.
  move/RltP: H => H; apply/andP; split; apply/RleP; rewrite -?RoppE.
    by change (- pi11 R_realFieldType <= get_angle (angleR a) + - ((1 + 1) * pi11 R_realFieldType))%coqR; lra.
  by change (get_angle (angleR a) + - ((1 + 1) * pi11 R_realFieldType) <= pi11 R_realFieldType)%coqR; lra.
move/negbT: H; rewrite -leNgt => /RleP H; apply/andP; split; apply/RleP => //.
by rewrite -RoppE; lra.
Qed.

Lemma ctrv_entry_bound (p : ctrvR) (dt : R) :
  `|entry dt (p : st_car ctrv_type) (inord 3) : R_realFieldType| <= pi11 R_realFieldType.
Proof.
have i3 : ((inord 3 : 'I_5) : nat) = 3%N by rewrite inordK.
rewrite /entry i3 eqxx /= mxE i3 [nth _ _ _]/= (proj2 (proj2 (ctrv_fields p dt))).
exact: wrapped_bound.
Qed.
Lemma ctra_entry_bound (p : ctraR) (dt : R) :
  `|entry dt (p : st_car ctra_type) (inord 3) : R_realFieldType| <= pi11 R_realFieldType.
Proof.
have i3 : ((inord 3 : 'I_6) : nat) = 3%N by rewrite inordK.
rewrite /entry i3 eqxx /= mxE i3 [nth _ _ _]/= (proj2 (proj2 (proj2 (ctra_fields p dt)))).
exact: wrapped_bound.
Qed.

Lemma variance_bound n (ST : state_type n) s P dt (alpha beta kappa : R) (j : 'I_n) (b : R) :
  (0 < alpha * alpha * (n%:R + kappa))%coqR -> (n%:R <= alpha * alpha * (n%:R + kappa))%coqR ->
  (0 <= 1 - alpha * alpha + beta)%coqR ->
  (forall p : st_car ST, `|entry dt p j : R_realFieldType| <= b) ->
  ((@unscented_kalman_filter_predict n ST s P dt alpha beta kappa).2 j j
     <= (1 + 4 * (1 - alpha * alpha + beta)) * (b * b))%coqR.
Proof.
move=> q0 nq e0 B; rewrite predict_rows; cbv zeta.
set lambda := generate_lambda _ _ _; set M := rows _ _ _ _.
have Mb i : `|M i j : R_realFieldType| <= b.
  by case: (rows_entry s P dt lambda j i) => [[_ ->] //|[c [[_ ->]|[_ ->]]]].
have a0 : (alpha : R) != 0 by apply/eqP => E; move: q0; rewrite E !Rmult_0_l => /Rlt_irrefl.
have k0 : (n%:R + kappa : R) != 0.
  apply/eqP => E; move: q0; rewrite (_ : (n%:R + kappa)%coqR = 0%coqR) // Rmult_0_r => /Rlt_irrefl //.
have [El [_ _]] := @weights_value R_realFieldType n alpha beta kappa a0 k0.
set q := (alpha * alpha * (n%:R + kappa))%coqR in q0 nq.
have Eq : (alpha : R_realFieldType) ^+ 2 * (n%:R + kappa) = q by rewrite expr2.
rewrite Eq -/lambda in El.
set W := generate_weights _ _ _ _.
have h : (n%:R + lambda : R) != 0 by rewrite El; apply/eqP; exact: Rgt_not_eq _ _ q0.
have qp : 0 < (q : R_realFieldType) by apply/RltP.
have W1 (i : 'I_(2 * n).+1) : 0 <= W.1 i 0.
  rewrite mxE El; case: eqP => _; last by rewrite mulr_ge0 // ?invr_ge0 ?ler0n // div1r invr_ge0 ltW.
  rewrite divr_ge0 ?(ltW qp) // -[lambda](addKr n%:R) El addrC subr_ge0; exact/RleP.
have W2 (i : 'I_(2 * n).+1) : W.2 i 0 = W.1 i 0 + (if (i : nat) == 0%N then 1 - alpha * alpha + beta else 0).
  by rewrite !mxE; case: (i == 0 :> nat)%N; rewrite ?addr0.
have [mb vb] := weighted_variance W1 (mean_weights _ _ h) Mb.
rewrite ut_cov ut_mean; set m := \sum_i _ in mb vb *.
have -> : \sum_i W.2 i 0 * ((M i j - m) * (M i j - m)) = \sum_i W.1 i 0 * ((M i j - m) * (M i j - m)) +
    (1 - alpha * alpha + beta) * ((M ord0 j - m) * (M ord0 j - m)).
  under eq_bigr do rewrite W2 mulrDl.
  rewrite big_split; congr (_ + _); rewrite (bigD1 ord0) // big1; first by rewrite [LHS]addr0.
  by case=> -[|i] hi ni; [|rewrite [_ == 0%N]/= mul0r].
set x := M ord0 j; have xb : `|x : R_realFieldType| <= b := Mb ord0.
move: vb; set V := \sum_i _ => vb.
have {vb} vb : (V <= b * b)%coqR by apply/RleP; rewrite RmulE -expr2.
move: xb mb; rewrite !ler_norml => /andP[/RleP x1 /RleP x2] /andP[/RleP m1 /RleP m2].
move: x1 m1; rewrite -RoppE => x1 m1.
change (V + (1 + - (alpha * alpha) + beta) * ((x + - m) * (x + - m)) <= (1 + 4 * (1 - alpha * alpha + beta)) * (b * b))%coqR.
have : ((x + - m) * (x + - m) <= 4 * (b * b))%coqR by nra.
move: e0 vb; move: (1 - alpha * alpha + beta)%coqR (erefl (1 - alpha * alpha + beta)%coqR) => e Ee e0 vb H.
by nra.
Qed.

Lemma default_bound :
  (forall s P dt, ((@default_unscented_transform 5 ctrv_type s P dt).2 (inord 3) (inord 3) <= 50)%coqR) /\
  (forall s P dt, ((@default_unscented_transform 6 ctra_type s P dt).2 (inord 3) (inord 3) <= 50)%coqR).
Proof.
have pb : (pi11 R_realFieldType * pi11 R_realFieldType < 9.9)%coqR by rewrite pi11_R; lra.
split=> s P dt; rewrite /default_unscented_transform /unscented_transform.
- apply: Rle_trans (@variance_bound 5 ctrv_type s P dt 1 1 2 (inord 3) (pi11 R_realFieldType) _ _ _ _) _;
    rewrite ?natR /=; [lra|lra|lra|move=> p; exact: ctrv_entry_bound|lra].
- apply: Rle_trans (@variance_bound 6 ctra_type s P dt 1 1 2 (inord 3) (pi11 R_realFieldType) _ _ _ _) _;
    rewrite ?natR /=; [lra|lra|lra|move=> p; exact: ctra_entry_bound|lra].
Qed.
