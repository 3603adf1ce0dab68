(** The prediction in exact arithmetic (Unscented.v), in terms of the displacements of the
    sigma points and of weighted sums. *)
From Coq Require Import ZArith Reals Lra Lia.
From mathcomp Require Import all_ssreflect all_algebra.
From Verif Require Import RealField PosDef EigenLlt Motion RealArith StateVec CovInt FusionThms Unscented UnscentedThms.
From Flocq Require Import IEEE754.BinarySingleNaN.
From Verif Require Import Float FloatUnscentedThms FloatLltThms Properties_FloatUnscented Properties_FloatCovariance Displacement SigmaAccuracy PredictSpec.
Set Implicit Arguments.
Unset Strict Implicit.
Unset Printing Implicit Defensive.
Import Order.Theory GRing.Theory Num.Theory.
Local Open Scope ring_scope.

Lemma sum_total n (f : nat -> R) : \sum_(i < n) f i = total f (List.seq 0 n).
Proof.
elim: n f => [|n IH] f; first by rewrite big_ord0.
rewrite big_ord_recl /= (IH (fun i => f i.+1)) -List.seq_shift total_map; reflexivity.
Qed.
Lemma total_from1 n (f : nat -> R) : \sum_(i < n) f i.+1 = total f (List.seq 1 n).
Proof. by rewrite (sum_total n (fun i => f i.+1)) -List.seq_shift total_map. Qed.

(** ** The factor of the covariance the displacements stand for *)
Section Factor.
Variables (n : nat) (d : nat -> nat -> f32).
Hypotheses (up : forall i c, (i < c)%N -> B2R (d c i) = 0%coqR) (dia : forall i, (i < n)%N -> (0 < B2R (d i i))%coqR).
Notation root := (sqrt (INR n + 2)%coqR).
Definition effective_mx : 'M[R]_n := \matrix_(i, j) effective n d i j.
Definition factor_mx : 'M[R]_n := \matrix_(i, j) (B2R (d j i) / root)%coqR.
Lemma root_pos : (0 < root)%coqR.
Proof. by apply: sqrt_lt_R0; have := pos_INR n; lra. Qed.
Lemma factor_prod : (factor_mx : 'M[R_rcfType]_n) *m (factor_mx : 'M[R_rcfType]_n)^T = effective_mx.
Proof.
apply/matrixP => i j; rewrite !mxE.
rewrite (eq_bigr (fun c : 'I_n => (/ (INR n + 2) * (B2R (d c i) * B2R (d c j)))%coqR)); last first.
  move=> c _; rewrite !mxE.
  have r0 := root_pos; have rr : (root * root = INR n + 2)%coqR by apply: sqrt_sqrt; have := pos_INR n; lra.
  change (B2R (d c i) / root * (B2R (d c j) / root) = / (INR n + 2) * (B2R (d c i) * B2R (d c j)))%coqR.
  set r := root in r0 rr *; rewrite -rr; field; lra.
rewrite (sum_total n (fun c => (/ (INR n + 2) * (B2R (d c i) * B2R (d c j)))%coqR)) total_scale /effective /Rdiv.
by rewrite Rmult_comm.
Qed.
Lemma factor_lower : lower (factor_mx : 'M[R_rcfType]_n).
Proof. by move=> i j ij; rewrite mxE up // /Rdiv Rmult_0_l. Qed.
Lemma factor_diag : pos_diag (factor_mx : 'M[R_rcfType]_n).
Proof.
move=> i; rewrite mxE; apply/RltP; apply: Rdiv_lt_0_compat; [exact: dia|exact: root_pos].
Qed.
Lemma effective_spd : spd (effective_mx : 'M[R_rcfType]_n).
Proof. rewrite -factor_prod; apply: gram_spd; [exact: factor_lower|exact: factor_diag]. Qed.
Lemma effective_llt : llt_matrixL (effective_mx : 'M[R_rcfType]_n) = factor_mx.
Proof.
have [_ ->] := llt_cholesky effective_spd.
apply: cholesky_unique; [exact: cholesky_lower|exact: cholesky_diag effective_spd|exact: factor_lower|exact: factor_diag|].
by rewrite choleskyK ?factor_prod //; exact: effective_spd.
Qed.
Lemma effective_column (c : 'I_n) :
  (sqrt (n%:R + 2%coqR)%R : R) *: col c (llt_matrixL (effective_mx : 'M[R_rcfType]_n)) = \col_i B2R (d c i).
Proof.
rewrite effective_llt; apply/matrixP => i j; rewrite !mxE natR.
change (root * (B2R (d c i) / root) = B2R (d c i))%coqR.
have := root_pos; set r := root => r0; field; lra.
Qed.
End Factor.

(** ** The transform with the parameters of the library *)
Section Transform.
Variables (n : nat) (e : nat -> nat -> R).
Notation N := (Z.of_nat n).
Lemma lambda_two : generate_lambda n (1%coqR : R_realFieldType) 2%coqR = 2%coqR.
Proof. by rewrite /generate_lambda natR; change ((1 * 1 * (INR n + 2) - INR n)%coqR = 2%coqR); lra. Qed.
Lemma n_Z : (n%:R : R) = IZR N.
Proof. by rewrite natR INR_IZR_INZ. Qed.
Lemma N_pos : (0 < IZR N + 2)%coqR.
Proof. by rewrite -INR_IZR_INZ; have := pos_INR n; lra. Qed.
Let W := generate_weights n (1%coqR : R_realFieldType) 1%coqR 2%coqR.
Let S : 'M[R_realFieldType]_((2 * n).+1, n) := \matrix_(i, j) e i j.
Let out := compute_unscented_transform S W.1 W.2.
Lemma two_R : (2%:R : R) = 2%coqR.
Proof. by rewrite natR /=; lra. Qed.
Lemma weight_0 : (2%coqR / (n%:R + 2%coqR) : R_realFieldType) = (2 / (IZR N + 2))%coqR.
Proof. have := N_pos => H; rewrite n_Z -RinvE //; change (IZR N + 2 <> 0)%coqR; lra. Qed.
Lemma weight_i : (2%:R^-1 * (1 / (n%:R + 2%coqR)) : R_realFieldType) = (/ (2 * (IZR N + 2)))%coqR.
Proof.
have H := N_pos; rewrite n_Z two_R -!RinvE; [|change (IZR N + 2 <> 0)%coqR; lra|lra].
by change (/ 2 * (1 * / (IZR N + 2)) = / (2 * (IZR N + 2)))%coqR; field; lra.
Qed.
Lemma two_n : (2 * n)%N = Z.to_nat (2 * N).
Proof. lia. Qed.
Lemma mean_exact (j : 'I_n) : out.1 j 0 = exact_mean N e j.
Proof.
rewrite /out ut_mean big_ord_recl /W /= !mxE /= weight_0 /exact_mean; congr (_ + _)%coqR.
rewrite (eq_bigr (fun i : 'I_(2 * n) => (/ (2 * (IZR N + 2)) * e i.+1 j)%coqR)); last by move=> i _; rewrite !mxE /= weight_i.
rewrite (total_from1 (2 * n) (fun i => (/ (2 * (IZR N + 2)) * e i j)%coqR)) total_scale -two_n; reflexivity.
Qed.
Lemma cov_exact (j k : 'I_n) : out.2 j k = exact_covariance N e j k.
Proof.
rewrite /out ut_cov -/out !mean_exact big_ord_recl /W /= !mxE /= weight_0 /exact_covariance; congr (_ + _)%coqR.
  congr (_ * _)%coqR; change ((2 / (IZR N + 2) + (1 - 1 * 1 + 1) = 2 / (IZR N + 2) + 1)%coqR); ring.
set f := fun i : nat => (/ (2 * (IZR N + 2)) * ((e i j - exact_mean N e j) * (e i k - exact_mean N e k)))%coqR.
rewrite (eq_bigr (fun i : 'I_(2 * n) => f i.+1)); last by move=> i _; rewrite !mxE /= weight_i.
rewrite (total_from1 (2 * n) f) /f total_scale -two_n; reflexivity.
Qed.
End Transform.

(** ** The prediction *)
Section Predict.
Variables (n : nat) (ST : state_type n.+1) (s : st_car ST) (d : nat -> nat -> f32) (dt : R).
Hypotheses (up : forall i c, (i < c)%N -> B2R (d c i) = 0%coqR) (dia : forall i, (i < n.+1)%N -> (0 < B2R (d i i))%coqR).
Notation P := (effective_mx n.+1 d).
(** The displaced states *)
Definition shift (c : nat) : st_car ST := st_from ST (\col_i B2R (d c i)).
Definition displaced : seq (st_car ST) :=
  flatten [seq [:: st_add ST s (shift c); st_sub ST s (shift c)] | c <- iota 0 n.+1].
Lemma sigma_displaced : generate_sigma_points s P 2%coqR = displaced.
Proof.
rewrite /generate_sigma_points /displaced -val_enum_ord; congr flatten; rewrite -[RHS]map_comp.
by apply: eq_map => c; rewrite /sigma_pair /= (effective_column up dia) /shift.
Qed.
(** Entry j of a predicted state in the matrix of points, the heading wrapped *)
Definition cell (x : st_car ST) (j : nat) : R :=
  if j == 3%N then wrap (ent (st_to ST x) j : R_realFieldType) else ent (st_to ST x) j.
Definition rows (i j : nat) : R := cell (st_next ST (nth s (s :: displaced) i) dt) j.
Lemma predict_exact :
  unscented_kalman_filter_predict s P dt 1%coqR 1%coqR 2%coqR =
  (st_from ST (\col_j exact_mean (Z.of_nat n.+1) rows j), \matrix_(j, k) exact_covariance (Z.of_nat n.+1) rows j k).
Proof.
rewrite /unscented_kalman_filter_predict /generate_sigma_points_and_weights lambda_two sigma_displaced.
set W := generate_weights _ _ _ _; rewrite [W]surjective_pairing.
set M := wrap_rows _.
have -> : M = \matrix_(i, j) rows i j.
  apply/matrixP => i j; rewrite /M !mxE /rows /cell /ent.
  have -> : inord (j : nat) = j by apply: val_inj; rewrite /= inordK.
  have -> : nth (st_next ST s dt) (st_next ST s dt :: [seq st_next ST sigma_point dt | sigma_point <- displaced]) i =
    st_next ST (nth s (s :: displaced) i) dt.
    rewrite -[_ :: map _ _]/(map (fun x => st_next ST x dt) (s :: displaced)).
    case: (ltnP i (size (s :: displaced))) => h; first by rewrite (nth_map s).
    by rewrite !nth_default ?size_map.
  by [].
have ME (j : 'I_n.+1) := mean_exact rows j; have CE (j k : 'I_n.+1) := cov_exact rows j k.
rewrite /W in ME CE *.
rewrite [compute_unscented_transform _ _ _]surjective_pairing; congr (st_from ST _, _).
  by apply/matrixP => j k; rewrite (ord1 k) mxE ME.
by apply/matrixP => j k; rewrite mxE CE.
Qed.
End Predict.

(** ** CTRV *)
Lemma ent_col n (f : nat -> R) k : (k < n.+1)%N -> ent (\col_(i < n.+1) f i) k = f k.
Proof. by move=> h; rewrite /ent mxE inordK. Qed.
Lemma shift_ctrv d c : @shift 4 ctrv_type d c = exact_from (d c).
Proof. by rewrite /shift /= /ctrv_from_vec !(ent_col (fun i => B2R (d c i))). Qed.
Lemma wrap_signed (a : R) : wrap (a : R_realFieldType) = signed a.
Proof.
rewrite /wrap /signed pi11_R two_R; have E : (314159265359 / 100000000000 = 3.14159265359)%coqR by lra.
rewrite E; case: Rlt_dec => h; first by move/RltP: (h) => ->.
by case: ifP => // /RltP.
Qed.
Lemma cell_ctrv (x : ctrvR) j : (j < 5)%N -> @cell 4 ctrv_type x j = component x j.
Proof.
by case: j => [|[|[|[|[|j]]]]] // _; rewrite /cell /ent /= ?wrap_signed mxE inordK.
Qed.
Lemma displaced_ctrv (s : ctrvR) d : @displaced 4 ctrv_type s d =
  List.flat_map (fun c => [:: @ctrv_add reals s (exact_from (d c)); @ctrv_sub reals s (exact_from (d c))]) (List.seq 0 5).
Proof.
rewrite /displaced.
have -> : [seq [:: st_add ctrv_type s (shift ctrv_type d c); st_sub ctrv_type s (shift ctrv_type d c)] | c <- iota 0 5] =
  [seq [:: @ctrv_add reals s (exact_from (d c)); @ctrv_sub reals s (exact_from (d c))] | c <- iota 0 5].
  by apply: eq_map => c; rewrite shift_ctrv.
by [].
Qed.
Lemma from_ctrv (f : nat -> R) : ctrv_from_vec (\col_j f j) =
  CtrvState (A := reals) (f 0%N) (f 1%N) (f 2%N) (angleR (f 3%N)) (f 4%N).
Proof. by rewrite /ctrv_from_vec !(ent_col f). Qed.
