(** When prediction keeps a covariance positive definite. *)
From Coq Require Import Reals Lra Lia ZArith.
From mathcomp Require Import all_ssreflect all_algebra ring.
From Verif Require Import Base Uuid DynObj RealField PosDef EigenLlt Motion RealArith MotionThms StateVec StateVecThms
  CovInt CovIntThms PiBounds PiTight FusionThms Unscented UnscentedThms UnscentedShift UnscentedLoss.
Set Implicit Arguments.
Unset Strict Implicit.
Unset Printing Implicit Defensive.
Import Order.Theory GRing.Theory Num.Theory.
Local Open Scope ring_scope.

(** ** The transform of points that span *)
Lemma ut_qf (F : realFieldType) m n (S : 'M[F]_(m, n)) (Wm Wc : 'cV[F]_m) v :
  let out := compute_unscented_transform S Wm Wc in
  qf out.2 v = \sum_i Wc i 0 * (\sum_j (S i j - out.1 j 0) * v j 0) ^+ 2.
Proof.
rewrite /compute_unscented_transform /=; set x := (Wm^T *m S)^T; set y := S - _.
rewrite mulmxA; have -> : qf (y^T *m diag_mx Wc^T *m y) v = qf (diag_mx Wc^T) (y *m v) by apply: qf_congr.
rewrite qf_diag; apply: eq_bigr => i _; rewrite !mxE; congr (_ * _ ^+ 2).
by apply: eq_bigr => j _; rewrite !mxE.
Qed.

Lemma ut_definite (F : realFieldType) m n (S : 'M[F]_(m, n)) (Wm Wc : 'cV[F]_m) (Q : pred 'I_m) :
  (forall i, 0 <= Wc i 0) -> (forall i, Q i -> 0 < Wc i 0) ->
  (forall v : 'cV_n, (forall i k, Q i -> Q k -> \sum_j (S i j - S k j) * v j 0 = 0) -> v = 0) ->
  spd (compute_unscented_transform S Wm Wc).2.
Proof.
move=> W0 WQ span; have [sy ge0] := @ut_psd F m n S Wm Wc W0; split=> // v v0.
rewrite lt_neqAle ge0 andbT eq_sym; apply: contra_neq v0; rewrite ut_qf; set x := (compute_unscented_transform S Wm Wc).1.
move=> /eqP; rewrite psumr_eq0; last by move=> i _; rewrite mulr_ge0 ?sqr_ge0.
move=> /allP H; apply: span => i k qi qk.
have Z l : Q l -> \sum_j (S l j - x j 0) * v j 0 = 0.
  move=> ql; have := H l (mem_index_enum _); rewrite implyTb mulf_eq0 gt_eqF ?WQ //= sqrf_eq0.
  by move/eqP.
have -> : \sum_j (S i j - S k j) * v j 0 = \sum_j (S i j - x j 0) * v j 0 - \sum_j (S k j - x j 0) * v j 0.
  rewrite -sumrB; apply: eq_bigr => j _; mxring.
by rewrite !Z // subrr.
Qed.

Lemma triangular_zero (F : fieldType) n (D : 'M[F]_n) (v : 'cV[F]_n) :
  (forall c j : 'I_n, (c < j)%N -> D c j = 0) -> (forall c, D c c != 0) ->
  (forall c, \sum_j D c j * v j 0 = 0) -> v = 0.
Proof.
move=> up dg H; apply/colP => j; rewrite mxE.
move: {2}(j : nat) (leqnn j) => k; elim/ltn_ind: k j => k IH j jk.
have := H j; rewrite (bigD1 j) //= big1 ?addr0.
  by move/eqP; rewrite mulf_eq0 (negbTE (dg j)) => /eqP.
move=> i ij; case: (ltngtP i j) => [lt|gt|E].
- by rewrite (IH i) ?mulr0 //; apply: leq_trans lt jk.
- by rewrite up ?mul0r.
- by case/eqP: ij; apply: val_inj.
Qed.

Section Definite.
Variables (n : nat) (ST : state_type n).
Implicit Types (s : st_car ST) (P : 'M[R]_n) (dt alpha beta kappa : R).

Lemma predict_definite s P dt alpha beta kappa :
  (0 < alpha * alpha * (n%:R + kappa))%coqR ->
  (0 <= 2 - n%:R / (alpha * alpha * (n%:R + kappa)) - alpha * alpha + beta)%coqR ->
  let L := spread P (generate_lambda n (alpha : R_realFieldType) kappa) in
  let D : 'M[R]_n := \matrix_(c, j) (entry dt (st_add ST s (st_from ST (col c L))) j -
    entry dt (st_sub ST s (st_from ST (col c L))) j) in
  (forall c j : 'I_n, (c < j)%N -> D c j = 0) -> (forall c, D c c != 0) ->
  spd ((unscented_kalman_filter_predict s P dt alpha beta kappa).2 : 'M[R_realFieldType]_n).
Proof.
move=> q0 w0 L D up dg; rewrite predict_rows; cbv zeta; rewrite -/L.
set lambda := generate_lambda _ _ _ in L D up dg *; set M := rows _ _ _ _.
set W := generate_weights _ _ _ _.
have a0 : (alpha : R) != 0 by apply/eqP => E; move: q0; rewrite E !Rmult_0_l => /Rlt_irrefl.
have k0 : (n%:R + kappa : R) != 0.
  apply/eqP => E; move: q0; rewrite (_ : (n%:R + kappa)%coqR = 0%coqR) // Rmult_0_r => /Rlt_irrefl //.
have [_ [_ EW]] := @weights_value R_realFieldType n alpha beta kappa a0 k0.
set q := (alpha * alpha * (n%:R + kappa))%coqR in q0 w0.
have Eq : (alpha : R_realFieldType) ^+ 2 * (n%:R + kappa) = q by rewrite expr2.
have qp : 0 < (q : R_realFieldType) by apply/RltP.
have two : (2%:R : R) = 2%coqR by rewrite natR /=; lra.
apply: (@ut_definite R_realFieldType _ _ _ _ _ (fun i : 'I_(2 * n).+1 => (i : nat) != 0%N)).
- move=> i; rewrite EW Eq; case: eqP => _; last by rewrite invr_ge0 mulr_ge0 ?ler0n // ltW.
  apply/RleP; move: w0; rewrite /Rdiv RinvE; last exact: Rgt_not_eq.
  by rewrite -two expr2.
- by move=> i ni; rewrite EW Eq (negbTE ni) invr_gt0 mulr_gt0 ?ltr0n.
move=> v H; apply: (triangular_zero up dg) => c.
have c1 : ((2 * c).+1 < (2 * n).+1)%N by rewrite ltnS ltn_mul2l ltn_ord.
have c2 : ((2 * c).+2 < (2 * n).+1)%N by rewrite ltnS !mul2n -doubleS leq_double ltn_ord.
rewrite -[RHS](H (Ordinal c1) (Ordinal c2) isT isT); apply: eq_bigr => j _; rewrite mxE; congr ((_ - _) * _).
- case: (rows_entry s P dt lambda j (Ordinal c1)) => [[//]|[c' [[/= E ->]|[/= E _]]]].
    by move: E => -[] /eqP; rewrite eqn_mul2l /= => /eqP /val_inj ->.
  by exfalso; move: E => -[] E; have := congr1 odd E; rewrite /= !mul2n !odd_double.
- case: (rows_entry s P dt lambda j (Ordinal c2)) => [[//]|[c' [[/= E _]|[/= E ->]]]].
    by exfalso; move: E => -[] E; have := congr1 odd E; rewrite /= !mul2n !odd_double.
  by move: E => -[] /eqP; rewrite eqn_mul2l /= => /eqP /val_inj ->.
Qed.
End Definite.

(** ** The two motion models *)
Lemma wrapped_inj (a b : R) : wrapped a = wrapped b -> same_turn a b.
Proof.
have [PB1 PB2] := pi_tight; have QB := pi11_bounds.
have [[A0 A1] SA] := get_angle_spec a; have [[B0 B1] SB] := get_angle_spec b.
rewrite /wrapped !wrap_R => H.
suff E : get_angle (angleR a) = get_angle (angleR b).
  by apply: same_turn_trans SB; rewrite -E; exact: same_turn_sym.
move: H; case: Rlt_dec => Ha; case: Rlt_dec => Hb; rewrite ?pi11_R in Ha Hb * => /= H; lra.
Qed.
Lemma not_half_turns (a b : R) : (0 < a - b < 2 * PI)%coqR -> wrapped a <> wrapped b.
Proof.
move=> H /wrapped_inj [k E].
have P0 := PI_RGT_0.
have k1 : (0 < IZR k < 1)%coqR by nra.
case: k1 => /(lt_IZR 0) k0 /(lt_IZR _ 1) k1; lia.
Qed.

Lemma ctrv_entries (s : ctrvR) (v : 'cV[R]_5) (dt : R) :
  let p : st_car ctrv_type := st_add ctrv_type s (st_from ctrv_type v) in
  let m : st_car ctrv_type := st_sub ctrv_type s (st_from ctrv_type v) in
  (entry dt p (inord 2) = v_vel s + ent v 2 /\ entry dt m (inord 2) = v_vel s - ent v 2) /\
  (entry dt p (inord 4) = v_rate s + ent v 4 /\ entry dt m (inord 4) = v_rate s - ent v 4).
Proof.
have [V [W _]] : (forall p : ctrvR, v_vel (ctrv_next p dt) = v_vel p) /\ (forall p : ctrvR, v_rate (ctrv_next p dt) = v_rate p) /\ True.
  by split; [|split] => // p; have [A [B _]] := ctrv_fields p dt.
by rewrite /entry !inordK //= !mxE !inordK //= !V !W.
Qed.
Lemma ctra_entries (s : ctraR) (v : 'cV[R]_6) (dt : R) :
  let p : st_car ctra_type := st_add ctra_type s (st_from ctra_type v) in
  let m : st_car ctra_type := st_sub ctra_type s (st_from ctra_type v) in
  (entry dt p (inord 2) = (a_vel s + ent v 2 + (a_acc s + ent v 5) * dt)%coqR /\
   entry dt m (inord 2) = (a_vel s - ent v 2 + (a_acc s - ent v 5) * dt)%coqR) /\
  (entry dt p (inord 4) = a_rate s + ent v 4 /\ entry dt m (inord 4) = a_rate s - ent v 4) /\
  (entry dt p (inord 5) = a_acc s + ent v 5 /\ entry dt m (inord 5) = a_acc s - ent v 5).
Proof.
have [V [W A]] : (forall p : ctraR, a_vel (ctra_next p dt) = (a_vel p + a_acc p * dt)%coqR) /\
    (forall p : ctraR, a_rate (ctra_next p dt) = a_rate p) /\ (forall p : ctraR, a_acc (ctra_next p dt) = a_acc p).
  by split; [|split] => p; have [A [B [C _]]] := ctra_fields p dt.
by rewrite /entry !inordK //= !mxE !inordK //= !V !W !A.
Qed.

(** Sigma points that only move *)
Lemma ctrv_moved (s : ctrvR) (v : 'cV[R]_5) (dt : R) (j : 'I_5) : on_circle (v_yaw s) ->
  ent v 2 = 0 -> ent v 3 = 0 -> ent v 4 = 0 -> (j < 2)%N ->
  entry dt (st_add ctrv_type s (st_from ctrv_type v)) j = entry dt (s : st_car ctrv_type) j + ent v j /\
  entry dt (st_sub ctrv_type s (st_from ctrv_type v)) j = entry dt (s : st_car ctrv_type) j - ent v j.
Proof.
move=> C v2 v3 v4 j2.
have Ep : st_add ctrv_type s (st_from ctrv_type v) = ctrv_move (ent v 0) (ent v 1) s.
  rewrite /= /ctrv_add /ctrv_from_vec /ctrv_move /= v2 v3 v4; congr CtrvState; rewrite ?Rplus_0_r //.
  exact: angle_add_0.
have Em : st_sub ctrv_type s (st_from ctrv_type v) = ctrv_move (- ent v 0)%coqR (- ent v 1)%coqR s.
  rewrite /= /ctrv_sub /ctrv_from_vec /ctrv_move /= v2 v3 v4; congr CtrvState; rewrite ?Rminus_0_r //.
  by have := angle_sub_add (v_yaw s) (angleR 0) C; rewrite angle_add_0.
rewrite /entry Ep Em /= !ctrv_next_move.
by case: j j2 => -[|[|//]] hj _; rewrite !mxE.
Qed.
Lemma ctra_moved (s : ctraR) (v : 'cV[R]_6) (dt : R) (j : 'I_6) : on_circle (a_yaw s) ->
  ent v 2 = 0 -> ent v 3 = 0 -> ent v 4 = 0 -> ent v 5 = 0 -> (j < 2)%N ->
  entry dt (st_add ctra_type s (st_from ctra_type v)) j = entry dt (s : st_car ctra_type) j + ent v j /\
  entry dt (st_sub ctra_type s (st_from ctra_type v)) j = entry dt (s : st_car ctra_type) j - ent v j.
Proof.
move=> C v2 v3 v4 v5 j2.
have Ep : st_add ctra_type s (st_from ctra_type v) = ctra_move (ent v 0) (ent v 1) s.
  rewrite /= /ctra_add /ctra_from_vec /ctra_move /= v2 v3 v4 v5; congr CtraState; rewrite ?Rplus_0_r //.
  exact: angle_add_0.
have Em : st_sub ctra_type s (st_from ctra_type v) = ctra_move (- ent v 0)%coqR (- ent v 1)%coqR s.
  rewrite /= /ctra_sub /ctra_from_vec /ctra_move /= v2 v3 v4 v5; congr CtraState; rewrite ?Rminus_0_r //.
  by have := angle_sub_add (a_yaw s) (angleR 0) C; rewrite angle_add_0.
rewrite /entry Ep Em /= !ctra_next_move.
by case: j j2 => -[|[|//]] hj _; rewrite !mxE.
Qed.

(** The spread of a diagonal covariance *)
Lemma diagonal_spread n (d : 'rV[R]_n) (lambda : R) (j c : 'I_n) : (forall i, (0 < d ord0 i)%coqR) ->
  (0 < n%:R + lambda)%coqR ->
  spread (diag_mx d) lambda j c = if j == c then sqrt ((n%:R + lambda) * d ord0 c)%coqR else 0%coqR.
Proof.
move=> d0 l0; rewrite /spread llt_diagonal; last by move=> i; apply/RltP.
rewrite scalemxE mxE; case: eqP => [->|_]; last by rewrite mulr0n mulr0.
rewrite mulr1n mxE -sqrtrE; last exact: Rlt_le.
by rewrite -RmulE -sqrt_mult //; exact: Rlt_le.
Qed.

Lemma ent_col n (L : 'M[R]_n.+1) (c : 'I_n.+1) (x : R) k : (k < n.+1)%N ->
  (forall j, L j c = if j == c then x else 0%coqR) -> ent (col c L) k = if k == c :> nat then x else 0%coqR.
Proof. by move=> hk H; rewrite /ent mxE H -(inj_eq val_inj) /= inordK. Qed.
Lemma ord_inord n k (h : (k < n.+1)%N) : Ordinal h = inord k.
Proof. by apply: val_inj; rewrite /= inordK. Qed.

Lemma twice (x : R) : x <> 0%coqR -> x - - x != 0.
Proof. by move=> x0; apply/eqP => E; change ((x - - x)%coqR = 0%coqR) in E; lra. Qed.
Lemma spread_diff (a x : R) : (a + x) - (a - x) = x - - x :> R.
Proof. by change ((a + x - (a - x))%coqR = (x - - x)%coqR); lra. Qed.

Section Diagonal.
Variables (dt alpha beta kappa : R).

Lemma ctrv_definite (s : ctrvR) (d : 'rV[R]_5) : on_circle (v_yaw s) ->
  let q := (alpha * alpha * (5 + kappa))%coqR in (0 < q)%coqR ->
  (0 <= 2 - 5 / q - alpha * alpha + beta)%coqR ->
  (forall i, (0 < d ord0 i)%coqR) -> (q * d ord0 (inord 3) < PI * PI)%coqR ->
  spd ((@unscented_kalman_filter_predict 5 ctrv_type s (diag_mx d) dt alpha beta kappa).2 : 'M[R_realFieldType]_5).
Proof.
move=> C q q0 w0 d0 d3; have P0 := PI_RGT_0.
have n5 : (5%:R : R) = 5%coqR by rewrite natR /=; lra.
apply: predict_definite; rewrite ?n5 //; set lambda := generate_lambda _ _ _; set L := spread _ _.
all: have El : (5%:R + lambda)%coqR = q by rewrite /q -n5 /lambda /generate_lambda RaddE addrC subrK.
all: have LE j c : L j c = if j == c then sqrt (q * d ord0 c)%coqR else 0%coqR
  by rewrite /L diagonal_spread // El.
all: have E k (c : 'I_5) : (k < 5)%N -> ent (col c L) k = if k == c :> nat then sqrt (q * d ord0 c)%coqR else 0%coqR
  by move=> hk; apply: ent_col => // j; rewrite LE.
- move=> c j cj; rewrite mxE; set v := col c L.
  have Z k : (c < k)%N -> (k < 5)%N -> ent v k = 0.
    by move=> ck k5; rewrite E // (gtn_eqF ck).
  have [[e2 e2'] [e4 e4']] := ctrv_entries s v dt; have [_ [e3 e3']] := ctrv_headings v dt C.
  case: j cj => -[|[|[|[|[|//]]]]] hj // cj.
  + have [-> ->] := @ctrv_moved s v dt (Ordinal hj) C (Z 2%N (leqW cj) isT) (Z 3%N (leqW (leqW cj)) isT) (Z 4%N (leqW (leqW (leqW cj))) isT) isT.
    by rewrite (Z 1%N cj isT) addr0 subr0 subrr.
  + by rewrite ord_inord e2 e2' (Z 2%N cj isT) addr0 subr0 subrr.
  + by rewrite ord_inord e3 e3' (Z 3%N cj isT) (Z 4%N (leqW cj) isT) Rplus_0_r Rminus_0_r Rplus_0_r Rminus_0_r subrr.
  + by rewrite ord_inord e4 e4' (Z 4%N cj isT) addr0 subr0 subrr.
- move=> c; rewrite mxE; set v := col c L.
  have x0 : (0 < sqrt (q * d ord0 c))%coqR by apply: sqrt_lt_R0; apply: Rmult_lt_0_compat.
  have Z k : (c != k :> nat)%N -> (k < 5)%N -> ent v k = 0.
    by move=> ck k5; rewrite E // eq_sym (negbTE ck).
  have Ec : ent v c = sqrt (q * d ord0 c)%coqR by rewrite E // eqxx.
  have [[e2 e2'] [e4 e4']] := ctrv_entries s v dt; have [_ [e3 e3']] := ctrv_headings v dt C.
  have xn : ent v c <> 0%coqR by rewrite Ec; exact: Rgt_not_eq.
  have T (a b c0 : R) : a = c0 + ent v c -> b = c0 - ent v c -> a - b != 0.
    by move=> -> ->; rewrite spread_diff; exact: twice.
  case: c v x0 Z Ec e2 e2' e3 e3' e4 e4' xn T => -[|[|[|[|[|//]]]]] hc v x0 Z Ec e2 e2' e3 e3' e4 e4' xn T.
  + by have [a b] := @ctrv_moved s v dt (Ordinal hc) C (Z 2%N isT isT) (Z 3%N isT isT) (Z 4%N isT isT) isT; exact: T a b.
  + by have [a b] := @ctrv_moved s v dt (Ordinal hc) C (Z 2%N isT isT) (Z 3%N isT isT) (Z 4%N isT isT) isT; exact: T a b.
  + by rewrite -(ord_inord hc) in e2 e2'; exact: T e2 e2'.
  + rewrite -(ord_inord hc) in e3 e3'; rewrite e3 e3' (Z 4%N isT isT) Rplus_0_r Rminus_0_r.
    apply/eqP => /eqP; rewrite subr_eq0 => /eqP; apply: not_half_turns.
    rewrite Ec ord_inord in x0 *.
    have : (sqrt (q * d ord0 (inord 3)) < PI)%coqR.
      rewrite -(sqrt_square PI); last exact: Rlt_le.
      by apply: sqrt_lt_1_alt; split=> //; apply: Rlt_le; apply: Rmult_lt_0_compat.
    lra.
  + by rewrite -(ord_inord hc) in e4 e4'; exact: T e4 e4'.
Qed.
Lemma ctra_definite (s : ctraR) (d : 'rV[R]_6) : on_circle (a_yaw s) ->
  let q := (alpha * alpha * (6 + kappa))%coqR in (0 < q)%coqR ->
  (0 <= 2 - 6 / q - alpha * alpha + beta)%coqR ->
  (forall i, (0 < d ord0 i)%coqR) -> (q * d ord0 (inord 3) < PI * PI)%coqR ->
  spd ((@unscented_kalman_filter_predict 6 ctra_type s (diag_mx d) dt alpha beta kappa).2 : 'M[R_realFieldType]_6).
Proof.
move=> C q q0 w0 d0 d3; have P0 := PI_RGT_0.
have n6 : (6%:R : R) = 6%coqR by rewrite natR /=; lra.
apply: predict_definite; rewrite ?n6 //; set lambda := generate_lambda _ _ _; set L := spread _ _.
all: have El : (6%:R + lambda)%coqR = q by rewrite /q -n6 /lambda /generate_lambda RaddE addrC subrK.
all: have LE j c : L j c = if j == c then sqrt (q * d ord0 c)%coqR else 0%coqR
  by rewrite /L diagonal_spread // El.
all: have E k (c : 'I_6) : (k < 6)%N -> ent (col c L) k = if k == c :> nat then sqrt (q * d ord0 c)%coqR else 0%coqR
  by move=> hk; apply: ent_col => // j; rewrite LE.
- move=> c j cj; rewrite mxE; set v := col c L.
  have Z k : (c < k)%N -> (k < 6)%N -> ent v k = 0.
    by move=> ck k6; rewrite E // (gtn_eqF ck).
  have [[e2 e2'] [[e4 e4'] [e5 e5']]] := ctra_entries s v dt; have [_ [e3 e3']] := ctra_headings v dt C.
  case: j cj => -[|[|[|[|[|[|//]]]]]] hj // cj.
  + have [-> ->] := @ctra_moved s v dt (Ordinal hj) C (Z 2%N (leqW cj) isT) (Z 3%N (leqW (leqW cj)) isT) (Z 4%N (leqW (leqW (leqW cj))) isT) (Z 5%N (leqW (leqW (leqW (leqW cj)))) isT) isT.
    by rewrite (Z 1%N cj isT) addr0 subr0 subrr.
  + by rewrite ord_inord e2 e2' (Z 2%N cj isT) (Z 5%N (leqW (leqW (leqW cj))) isT) !Rplus_0_r !Rminus_0_r subrr.
  + by rewrite ord_inord e3 e3' (Z 3%N cj isT) (Z 4%N (leqW cj) isT) Rplus_0_r Rminus_0_r Rplus_0_r Rminus_0_r subrr.
  + by rewrite ord_inord e4 e4' (Z 4%N cj isT) addr0 subr0 subrr.
  + by rewrite ord_inord e5 e5' (Z 5%N cj isT) addr0 subr0 subrr.
- move=> c; rewrite mxE; set v := col c L.
  have x0 : (0 < sqrt (q * d ord0 c))%coqR by apply: sqrt_lt_R0; apply: Rmult_lt_0_compat.
  have Z k : (c != k :> nat)%N -> (k < 6)%N -> ent v k = 0.
    by move=> ck k6; rewrite E // eq_sym (negbTE ck).
  have Ec : ent v c = sqrt (q * d ord0 c)%coqR by rewrite E // eqxx.
  have [[e2 e2'] [[e4 e4'] [e5 e5']]] := ctra_entries s v dt; have [_ [e3 e3']] := ctra_headings v dt C.
  have xn : ent v c <> 0%coqR by rewrite Ec; exact: Rgt_not_eq.
  have T (a b c0 : R) : a = c0 + ent v c -> b = c0 - ent v c -> a - b != 0.
    by move=> -> ->; rewrite spread_diff; exact: twice.
  case: c v x0 Z Ec e2 e2' e3 e3' e4 e4' e5 e5' xn T => -[|[|[|[|[|[|//]]]]]] hc v x0 Z Ec e2 e2' e3 e3' e4 e4' e5 e5' xn T.
  + by have [a b] := @ctra_moved s v dt (Ordinal hc) C (Z 2%N isT isT) (Z 3%N isT isT) (Z 4%N isT isT) (Z 5%N isT isT) isT; exact: T a b.
  + by have [a b] := @ctra_moved s v dt (Ordinal hc) C (Z 2%N isT isT) (Z 3%N isT isT) (Z 4%N isT isT) (Z 5%N isT isT) isT; exact: T a b.
  + by rewrite -(ord_inord hc) in e2 e2'; rewrite (Z 5%N isT isT) Rplus_0_r Rminus_0_r in e2 e2'; rewrite e2 e2'; apply: (T _ _ (a_vel s + a_acc s * dt)%coqR); [change (a_vel s + ent v 2 + a_acc s * dt = a_vel s + a_acc s * dt + ent v 2)%coqR|change (a_vel s - ent v 2 + a_acc s * dt = a_vel s + a_acc s * dt - ent v 2)%coqR]; lra.
  + rewrite -(ord_inord hc) in e3 e3'; rewrite e3 e3' (Z 4%N isT isT) Rplus_0_r Rminus_0_r.
    apply/eqP => /eqP; rewrite subr_eq0 => /eqP; apply: not_half_turns.
    rewrite Ec ord_inord in x0 *.
    have : (sqrt (q * d ord0 (inord 3)) < PI)%coqR.
      rewrite -(sqrt_square PI); last exact: Rlt_le.
      by apply: sqrt_lt_1_alt; split=> //; apply: Rlt_le; apply: Rmult_lt_0_compat.
    lra.
  + by rewrite -(ord_inord hc) in e4 e4'; exact: T e4 e4'.
  + by rewrite -(ord_inord hc) in e5 e5'; exact: T e5 e5'.
Qed.
End Diagonal.
