(** Proofs about the covariance intersection. *)
From mathcomp Require Import all_ssreflect all_algebra ring.
From Verif Require Import PosDef CovInt.
Set Implicit Arguments.
Unset Strict Implicit.
Unset Printing Implicit Defensive.
Import Order.Theory GRing.Theory Num.Theory.
Local Open Scope ring_scope.

Section Thms.
Variable F : realFieldType.
Implicit Types (n : nat) (w : F).

(** ** The weight *)
Lemma two_neq0 : 2%:R != 0 :> F. Proof. by rewrite pnatr_eq0. Qed.

Lemma weight_swap n (A B : 'M[F]_n) : \det (A + B) != 0 ->
  generate_weight A B + generate_weight B A = 1.
Proof.
move=> d0; rewrite /generate_weight [B + A]addrC.
rewrite -mulrDl; set D := \det (A + B).
have -> : D - \det B + \det A + (D - \det A + \det B) = 2%:R * D by ring.
by rewrite divff // mulf_neq0 ?two_neq0.
Qed.

Lemma weight_self n (A : 'M[F]_n) : A \in unitmx -> generate_weight A A = 2%:R^-1.
Proof.
move=> uA; rewrite /generate_weight subrK invfM mulrCA divff ?mulr1 //.
have -> : A + A = 2%:R *: A by rewrite scaler_nat mulr2n.
by rewrite detZ mulf_neq0 ?expf_neq0 ?two_neq0 // -unitfE -unitmxE.
Qed.

Lemma weight_bounds n (A B : 'M[F]_n) : spd A -> spd B -> 0 < generate_weight A B < 1.
Proof.
move=> sA sB; rewrite /generate_weight.
have dA := det_spd sA; have dB := det_spd sB.
have lA := det_spd_add sA (spd_psd sB).
have lB : \det B <= \det (A + B) by rewrite addrC; apply: det_spd_add sB (spd_psd sA).
set D := \det (A + B) in lA lB *.
have D0 : 0 < D by apply: lt_le_trans lA.
have DD : 0 < 2%:R * D by rewrite mulr_gt0 // ltr0n.
apply/andP; split; first by rewrite divr_gt0 // ltr_paddl ?subr_ge0.
rewrite ltr_pdivr_mulr // mul1r -subr_gt0.
have -> : 2%:R * D - (D - \det B + \det A) = (D - \det A) + \det B by ring.
by rewrite ltr_paddl ?subr_ge0.
Qed.

Lemma weight_order n (A B : 'M[F]_n) : spd A -> spd B ->
  (2%:R^-1 <= generate_weight A B) = (\det B <= \det A).
Proof.
move=> sA sB; rewrite /generate_weight.
have dA := det_spd sA; have lA := det_spd_add sA (spd_psd sB).
set D := \det (A + B) in lA *.
have D0 : 0 < D by apply: lt_le_trans lA.
rewrite invfM mulrA ler_pdivl_mulr // mulrC ler_pdivl_mulr ?ltr0n //.
rewrite mulrAC mulfK ?two_neq0 // -subr_ge0.
have -> : D - \det B + \det A - D = \det A - \det B by ring.
by rewrite subr_ge0.
Qed.

(** ** The combination *)
Definition fused n (m1 : 'cV[F]_n) (A : 'M[F]_n) (m2 : 'cV[F]_n) (B : 'M[F]_n) w :=
  compute_covariance_intersection m1 A m2 B w.

Lemma fused_cov n m1 (A : 'M[F]_n) m2 B w :
  (fused m1 A m2 B w).2 = invmx (w *: A + (1 - w) *: B).
Proof. by []. Qed.

Lemma fused_cov_spd n m1 (A : 'M[F]_n) m2 B w : spd A -> spd B -> 0 <= w <= 1 ->
  spd (fused m1 A m2 B w).2.
Proof. by move=> sA sB w01; rewrite fused_cov; apply/spd_inv/spd_convex. Qed.

Lemma fused_cov_inv n m1 (A : 'M[F]_n) m2 B w : spd A -> spd B -> 0 <= w <= 1 ->
  (fused m1 A m2 B w).2 *m (w *: A + (1 - w) *: B) = 1%:M /\
  invmx (fused m1 A m2 B w).2 = w *: A + (1 - w) *: B.
Proof.
move=> sA sB w01; rewrite fused_cov invmxK; split=> //; apply: mulVmx.
exact/spd_unit/spd_convex.
Qed.

(** The fused mean, in terms of any reference point. *)
Lemma fused_mean_dev n m1 (A : 'M[F]_n) m2 B w (x : 'cV_n) : spd A -> spd B -> 0 <= w <= 1 ->
  (fused m1 A m2 B w).1 = x + (fused m1 A m2 B w).2 *m
    (w *: (A *m (wrap_heading m1 - x)) + (1 - w) *: (B *m (wrap_heading m2 - x))).
Proof.
move=> sA sB w01; have [CM _] := fused_cov_inv m1 m2 sA sB w01.
rewrite {1}/fused /compute_covariance_intersection /=.
rewrite fused_cov in CM *; set C := invmx _ in CM *.
have Ex : x = C *m ((w *: A + (1 - w) *: B) *m x) by rewrite mulmxA CM mul1mx.
rewrite {1}Ex -mulmxDr; congr (_ *m _).
rewrite mulmxDl -!scalemxAl !mulmxBr.
by apply/matrixP => i j; rewrite !entE; mxring.
Qed.

Lemma wrap_below (x : F) : x <= pi11 F -> wrap x = x.
Proof. by rewrite /wrap ltNge => ->. Qed.
Lemma wrap_heading_below n (m : 'cV[F]_n) : (forall i : 'I_n, (i : nat) = 3%N -> m i 0 <= pi11 F) ->
  wrap_heading m = m.
Proof.
move=> H; apply/colP => i; rewrite mxE; case: eqP => // /H; exact: wrap_below.
Qed.

Lemma fused_mean_same n (m : 'cV[F]_n) (A B : 'M[F]_n) w : spd A -> spd B -> 0 <= w <= 1 ->
  (forall i : 'I_n, (i : nat) = 3%N -> m i 0 <= pi11 F) -> (fused m A m B w).1 = m.
Proof.
move=> sA sB w01 H; rewrite (fused_mean_dev _ _ m) // wrap_heading_below // subrr !mulmx0 !scaler0.
by rewrite addr0 mulmx0 addr0.
Qed.

Lemma fused_self n (m : 'cV[F]_n) (A : 'M[F]_n) w : spd A -> 0 <= w <= 1 ->
  (forall i : 'I_n, (i : nat) = 3%N -> m i 0 <= pi11 F) -> fused m A m A w = (m, invmx A).
Proof.
move=> sA w01 H; rewrite [LHS]surjective_pairing fused_mean_same // fused_cov.
by rewrite -scalerDl addrC subrK scale1r.
Qed.

(** ** Bounds in every direction *)
Lemma convex_between (w x y : F) : 0 <= w <= 1 ->
  Num.min x y <= w * x + (1 - w) * y <= Num.max x y.
Proof.
move=> /andP[w0 w1]; have w1' : 0 <= 1 - w by rewrite subr_ge0.
apply/andP; split.
  have -> : Num.min x y = w * Num.min x y + (1 - w) * Num.min x y by ring.
  by rewrite ler_add // ler_wpmul2l // ?le_minl lexx ?orbT.
have E : Num.max x y = w * Num.max x y + (1 - w) * Num.max x y by ring.
rewrite [X in _ <= X]E.
by rewrite ler_add // ler_wpmul2l // ?le_maxr lexx ?orbT.
Qed.

Lemma information_between n m1 (A : 'M[F]_n) m2 B w v : spd A -> spd B -> 0 <= w <= 1 ->
  Num.min (qf A v) (qf B v) <= qf (invmx (fused m1 A m2 B w).2) v <= Num.max (qf A v) (qf B v).
Proof.
move=> sA sB w01; have [_ ->] := fused_cov_inv m1 m2 sA sB w01.
by rewrite qfD !qfZ; apply: convex_between.
Qed.

Lemma young n (A : 'M[F]_n) (u v : 'cV_n) : spd A ->
  2%:R * (u^T *m v) 0 0 - qf A u <= qf (invmx A) v.
Proof.
move=> sA; have uA := spd_unit sA; case: (sA) => syA _.
have [_ P] := spd_psd sA; have := P (u - invmx A *m v).
rewrite -[- (_ *m v)]scaleN1r qf_add // qf_scale -qf_inv // sqrrN expr1n mul1r.
rewrite -scalemxAr entE -!mulmxA mulKVmx // => H.
rewrite -subr_ge0; apply: le_trans H _; rewrite le_eqVlt; apply/orP; left; apply/eqP.
by move: (qf A u) (qf _ v) => a b; mxring.
Qed.

Lemma qf_cancel n (A : 'M[F]_n) u : spd A -> qf (invmx A) (A *m u) = qf A u.
Proof.
move=> sA; rewrite qf_inv; [|by case: sA|exact: spd_unit].
by rewrite mulKmx //; apply: spd_unit.
Qed.

(** The fused covariance is at most the same mixture of the covariances. *)
Lemma covariance_mixture n m1 (A : 'M[F]_n) m2 B w v : spd A -> spd B -> 0 <= w <= 1 ->
  qf (fused m1 A m2 B w).2 v <= w * qf (invmx A) v + (1 - w) * qf (invmx B) v.
Proof.
move=> sA sB w01; have sM := spd_convex w01 sA sB; have uM := spd_unit sM.
case/andP: (w01) => w0 w1; have w1' : 0 <= 1 - w by rewrite subr_ge0.
rewrite fused_cov; set M := w *: A + _ in sM uM *; set u := invmx M *m v.
have Ev : qf (invmx M) v = qf M u by rewrite qf_inv //; case: sM.
have Eu : (u^T *m v) 0 0 = qf M u.
  by rewrite /qf -mulmxA /u mulKVmx.
have yA := ler_wpmul2l w0 (young u v sA).
have yB := ler_wpmul2l w1' (young u v sB).
apply: le_trans (ler_add yA yB); rewrite Ev Eu {1 3}/M.
have -> : qf M u = w * qf A u + (1 - w) * qf B u by rewrite /M qfD !qfZ.
by move: (qf A u) (qf B u) => a b; rewrite le_eqVlt; apply/orP; left; apply/eqP; ring.
Qed.

(** ** Consistency: whatever the unknown correlation *)
Lemma consistent n m1 (A : 'M[F]_n) m2 B w (P : 'M_n) (X : 'M_n) (Q : 'M_n) v :
  spd A -> spd B -> 0 <= w <= 1 ->
  psd (block_mx P X X^T Q) ->
  (forall u, qf P u <= qf (invmx A) u) -> (forall u, qf Q u <= qf (invmx B) u) ->
  let C := (fused m1 A m2 B w).2 in
  let W := row_mx (w *: (C *m A)) ((1 - w) *: (C *m B)) in
  is_true (qf (W *m block_mx P X X^T Q *m W^T) v <= qf C v).
Proof.
move=> sA sB w01 sJ HP HQ C W; have sM := spd_convex w01 sA sB; have uM := spd_unit sM.
case/andP: (w01) => w0 w1; have w1' : 0 <= 1 - w by rewrite subr_ge0.
have sC : symmetric C by case: (fused_cov_spd m1 m2 sA sB w01).
set J := block_mx P X X^T Q in sJ *; set u := C *m v.
have -> : qf (W *m J *m W^T) v = qf J (W^T *m v).
  by have := qf_congr J W^T v; rewrite trmxK.
have EW : W^T *m v = w *: col_mx (A *m u) 0 + (1 - w) *: col_mx 0 (B *m u).
  rewrite /W tr_row_mx mul_col_mx !scale_col_mx add_col_mx !scaler0 addr0 add0r.
  have [syA _] := sA; have [syB _] := sB.
  rewrite (_ : (w *: (C *m A))^T = w *: (A *m C)); last first.
    by rewrite linearZ /= trmx_mul syA sC.
  rewrite (_ : ((1 - w) *: (C *m B))^T = (1 - w) *: (B *m C)); last first.
    by rewrite linearZ /= trmx_mul syB sC.
  by rewrite -!scalemxAl -!mulmxA.
rewrite EW; apply: le_trans (qf_convex _ _ sJ w01) _.
have E1 : qf J (col_mx (A *m u) 0) = qf P (A *m u).
  rewrite /qf tr_col_mx trmx0 /J mul_row_block !mul0mx !addr0 mul_row_col mulmx0 addr0 //.
have E2 : qf J (col_mx 0 (B *m u)) = qf Q (B *m u).
  rewrite /qf tr_col_mx trmx0 /J mul_row_block !mul0mx !add0r mul_row_col mulmx0 add0r //.
rewrite E1 E2.
have -> : qf C v = w * qf A u + (1 - w) * qf B u.
  rewrite -!qfZ -qfD /C fused_cov qf_inv //; by case: sM.
by rewrite ler_add // ler_wpmul2l // -?(qf_cancel _ sA) -?(qf_cancel _ sB).
Qed.

(** The same for random estimates on a finite probability space. *)
Definition second_moment (I : finType) n (p : I -> F) (e : I -> 'cV_n) : 'M_n :=
  \sum_i p i *: (e i *m (e i)^T).

Lemma second_moment_lin (I : finType) n k (p : I -> F) (e : I -> 'cV_n) (W : 'M_(k, n)) :
  second_moment p (fun i => W *m e i) = W *m second_moment p e *m W^T.
Proof.
rewrite /second_moment mulmx_sumr mulmx_suml; apply: eq_bigr => i _.
by rewrite -scalemxAr -scalemxAl trmx_mul !mulmxA.
Qed.

Lemma second_moment_psd (I : finType) n (p : I -> F) (e : I -> 'cV_n) : (forall i, 0 <= p i) ->
  psd (second_moment p e).
Proof.
move=> p0; split.
  rewrite /symmetric /second_moment raddf_sum /=; apply: eq_bigr => i _.
  by rewrite linearZ /= trmx_mul trmxK.
move=> v; rewrite /qf /second_moment mulmx_sumr mulmx_suml summxE.
apply: sumr_ge0 => i _; rewrite -scalemxAr -scalemxAl scalemxE mulr_ge0 //.
have -> : v^T *m (e i *m (e i)^T) *m v = v^T *m e i *m (v^T *m e i)^T.
  by rewrite trmx_mul trmxK !mulmxA.
set s := v^T *m e i.
by rewrite trv [s]mx11_scalar -scalar_mxM mxE mulr1n -expr2 sqr_ge0.
Qed.

Lemma block_mx_sum (I : Type) (r : seq I) n (a b c d : I -> 'M[F]_n) :
  \sum_(i <- r) block_mx (a i) (b i) (c i) (d i) =
  block_mx (\sum_(i <- r) a i) (\sum_(i <- r) b i) (\sum_(i <- r) c i) (\sum_(i <- r) d i).
Proof.
elim: r => [|i r IH]; first by rewrite !big_nil block_mx0.
by rewrite !big_cons IH add_block_mx.
Qed.

Lemma second_moment_pair (I : finType) n (p : I -> F) (e1 e2 : I -> 'cV_n) :
  second_moment p (fun i => col_mx (e1 i) (e2 i)) =
  block_mx (second_moment p e1) (\sum_i p i *: (e1 i *m (e2 i)^T))
           (\sum_i p i *: (e1 i *m (e2 i)^T))^T (second_moment p e2).
Proof.
rewrite /second_moment raddf_sum /= -block_mx_sum; apply: eq_bigr => i _.
rewrite tr_col_mx mul_col_row scale_block_mx; congr block_mx.
by rewrite linearZ /= trmx_mul trmxK.
Qed.

Lemma consistent_estimates (I : finType) n (p : I -> F) (x m1 m2 : I -> 'cV_n) (A B : 'M_n) w :
  spd A -> spd B -> 0 <= w <= 1 -> (forall i, 0 <= p i) ->
  (forall i (k : 'I_n), (k : nat) = 3%N -> m1 i k 0 <= pi11 F /\ m2 i k 0 <= pi11 F) ->
  (forall v, qf (second_moment p (fun i => m1 i - x i)) v <= qf (invmx A) v) ->
  (forall v, qf (second_moment p (fun i => m2 i - x i)) v <= qf (invmx B) v) ->
  forall i v, qf (second_moment p (fun i => (fused (m1 i) A (m2 i) B w).1 - x i)) v <=
              qf (fused (m1 i) A (m2 i) B w).2 v.
Proof.
move=> sA sB w01 p0 Hw H1 H2 i0 v.
set e1 := (fun i => m1 i - x i) in H1; set e2 := (fun i => m2 i - x i) in H2.
have sJ := second_moment_psd (fun i => col_mx (e1 i) (e2 i)) p0.
rewrite second_moment_pair in sJ.
have := @consistent n (m1 i0) A (m2 i0) B w _ _ _ v sA sB w01 sJ H1 H2.
rewrite /= -second_moment_pair -second_moment_lin; set C := invmx _.
congr (qf _ v <= _); rewrite /second_moment; apply: eq_bigr => i _.
suff -> : (fused (m1 i) A (m2 i) B w).1 - x i =
  row_mx (w *: (C *m A)) ((1 - w) *: (C *m B)) *m col_mx (e1 i) (e2 i) by [].
rewrite (fused_mean_dev _ _ (x i)) // addrC addKr fused_cov -/C mul_row_col.
rewrite !wrap_heading_below; try by move=> k /(Hw i k) [].
by rewrite mulmxDr -!scalemxAr -!scalemxAl !mulmxA.
Qed.

End Thms.
