(** When prediction keeps a covariance positive definite, if the position is not
    correlated with the rest. *)
From Coq Require Import Reals Lra Lia ZArith.
From mathcomp Require Import all_ssreflect all_algebra ring.
From Verif Require Import Base Uuid DynObj RealField PosDef EigenLlt Motion RealArith MotionThms StateVec StateVecThms
  CovInt CovIntThms PiBounds PiTight FusionThms Unscented UnscentedThms UnscentedShift UnscentedLoss UnscentedDefinite
  UnscentedLinear.
Set Implicit Arguments.
Unset Strict Implicit.
Unset Printing Implicit Defensive.
Import Order.Theory GRing.Theory Num.Theory.
Local Open Scope ring_scope.

(** Headings on both sides that balance are not torn apart by the seam. *)
Lemma wrapped_balance (h d : R) : (Rabs d < PI)%coqR ->
  (wrapped (h + d) + wrapped (h - d) = 2 * wrapped h)%coqR -> (wrapped (h + d) - wrapped h = d)%coqR.
Proof.
move=> Hd; have [PB1 PB2] := pi_tight; have P11 := pi11_R.
have [[A0 A1] [k SA]] := get_angle_spec h.
have [[B0 B1] [l SB]] := get_angle_spec (h + d)%coqR.
have [[C0 C1] [m SC]] := get_angle_spec (h - d)%coqR.
rewrite /wrapped !wrap_R.
set a := get_angle (angleR h) in A0 A1 SA *; set b := get_angle (angleR (h + d)%coqR) in B0 B1 SB *.
set c := get_angle (angleR (h - d)%coqR) in C0 C1 SC *.
have E1 : (b = a + d + IZR (l - k) * (2 * PI))%coqR by rewrite minus_IZR; lra.
have E2 : (c = a - d + IZR (m - k) * (2 * PI))%coqR by rewrite minus_IZR; lra.
have : ((l - k = -1 \/ l - k = 0 \/ l - k = 1) /\ (m - k = -1 \/ m - k = 0 \/ m - k = 1))%coqZ.
  have H1 : (-2 < IZR (l - k) < 2)%coqR by move: Hd; split_Rabs; nra.
  have H2 : (-2 < IZR (m - k) < 2)%coqR by move: Hd; split_Rabs; nra.
  case: H1 => /(lt_IZR (-2)) ? /(lt_IZR _ 2) ?; case: H2 => /(lt_IZR (-2)) ? /(lt_IZR _ 2) ?; lia.
move=> [Hl Hm]; have Hd' : (- PI < d < PI)%coqR by move: Hd; split_Rabs; lra.
case: Hl E1 => [->|[->|->]] E1; case: Hm E2 => [->|[->|->]] E2;
  case: Rlt_dec => /= Q1; case: Rlt_dec => /= Q2; case: Rlt_dec => /= Q3; rewrite ?P11 in Q1 Q2 Q3 * => H; lra.
Qed.

Section Block.
Variables (n : nat) (ST : state_type n).
Variables (s : st_car ST) (P A : 'M[R]_n) (dt alpha beta kappa h : R) (x e : 'cV[R]_n).
Variables (i0 i1 i3 : 'I_n).
Hypotheses (E0 : (i0 : nat) = 0%N) (E1 : (i1 : nat) = 1%N) (E3 : (i3 : nat) = 3%N).
Hypotheses (sP : spd (P : 'M[R_rcfType]_n)) (blk : forall i j : 'I_n, (i < 2)%N -> (2 <= j)%N -> P i j = 0).
Let q : R := (alpha * alpha * (n%:R + kappa))%coqR.
Hypotheses (q0 : (0 < q)%coqR) (w0 : (0 <= 2 - n%:R / q - alpha * alpha + beta)%coqR).
Hypotheses (uA : (A : 'M[R_realFieldType]_n) \in unitmx) (zA : forall i j : 'I_n, (2 <= i)%N -> (j < 2)%N -> A i j = 0).
Let L : 'M[R]_n := spread P (generate_lambda n (alpha : R_realFieldType) kappa).
Let plus c := st_add ST s (st_from ST (col c L)).
Let minus c := st_sub ST s (st_from ST (col c L)).
Hypothesis others : forall (c j : 'I_n), (2 <= j)%N -> (j : nat) <> 3%N ->
  entry dt (plus c) j = x j 0 + (A *m L) j c /\ entry dt (minus c) j = x j 0 - (A *m L) j c.
Hypothesis heading : forall c : 'I_n,
  entry dt (plus c) i3 = wrapped (h + (A *m L)%R i3 c)%coqR /\ entry dt (minus c) i3 = wrapped (h - (A *m L)%R i3 c)%coqR.
Hypothesis moved : forall (c j : 'I_n), (forall k : 'I_n, (2 <= k)%N -> L k c = 0) -> (j < 2)%N ->
  entry dt (plus c) j = e j 0 + L j c /\ entry dt (minus c) j = e j 0 - L j c.
Hypothesis small : (q * (A *m P *m A^T)%R i3 i3 < PI * PI)%coqR.

Lemma block_lambda : (n%:R + generate_lambda n (alpha : R_realFieldType) kappa : R) = q.
Proof. by rewrite /generate_lambda addrC subrK. Qed.
Lemma block_square : (L *m L^T : 'M[R]_n) = q *: P.
Proof. by rewrite /L spread_sq // ?block_lambda //; move: q0; rewrite -block_lambda. Qed.
Lemma block_lower (i j : 'I_n) : (i < j)%N -> L i j = 0.
Proof. by move=> ij; rewrite /L /spread mxE (llt_lower (P : 'M[R_rcfType]_n) ij) mulr0. Qed.
Lemma block_diag i : L i i <> 0.
Proof.
have := cholesky_diag sP i; rewrite -(llt_cholesky sP).2 /L /spread scalemxE => H.
have Q : (0 < sqrt q)%coqR by apply: sqrt_lt_R0.
rewrite (_ : (n%:R + _)%coqR = q); last exact: block_lambda.
move=> /eqP; rewrite mulf_eq0 => /orP[/eqP E|/eqP E].
  by move: Q; rewrite E => /Rlt_irrefl.
by move: H; rewrite E ltxx.
Qed.
Lemma block_zero (j c : 'I_n) : (2 <= j)%N -> (c < 2)%N -> L j c = 0.
Proof.
move=> j2 c2.
have S (k : 'I_n) : (k < 2)%N -> \sum_i L j i * L k i = 0.
  move=> k2; have E : (L *m L^T) j k = (q *: P) j k by rewrite block_square.
  rewrite mxE [RHS]scalemxE in E; transitivity (q * P j k : R).
    by rewrite -E; apply: eq_bigr => i _; rewrite [L^T _ _]mxE.
  have [sy _] := sP; have -> : P j k = P k j by rewrite -[in LHS]sy mxE.
  by rewrite blk // mulr0.
have Z0 : L j i0 = 0.
  have := S i0; rewrite E0 => /(_ isT); rewrite (bigD1 i0) //= big1; last first.
    move=> i ni; rewrite (@block_lower i0 i) ?mulr0 // E0 lt0n; apply: contra ni => /eqP E.
    by apply/eqP; apply: val_inj; rewrite /= E E0.
  rewrite addr0 => /eqP; rewrite mulf_eq0 => /orP[/eqP //|/eqP E]; by case: (@block_diag i0).
have Z1 : L j i1 = 0.
  have := S i1; rewrite E1 => /(_ isT); rewrite (bigD1 i1) //= big1; last first.
    move=> i ni; case: (ltngtP 1%N i) => H.
    - by rewrite (@block_lower i1 i) ?mulr0 // E1.
    - have -> : i = i0 by apply: val_inj; rewrite /= E0; case: (i : nat) H => // -[].
      by rewrite Z0 mul0r.
    - by case/eqP: ni; apply: val_inj; rewrite /= E1.
  rewrite addr0 => /eqP; rewrite mulf_eq0 => /orP[/eqP //|/eqP E]; by case: (@block_diag i1).
case: (ltngtP 1%N c) => H.
- by move: c2; rewrite ltnNge H.
- have -> // : c = i0 by apply: val_inj; rewrite /= E0; case: (c : nat) H => // -[].
- by have -> // : c = i1 by apply: val_inj; rewrite /= E1.
Qed.
Let K : 'M[R]_n := A *m L.
Lemma block_K (j c : 'I_n) : (2 <= j)%N -> (c < 2)%N -> K j c = 0.
Proof.
move=> j2 c2; rewrite mxE big1 // => k _; case: (ltnP k 2) => k2; first by rewrite zA // mul0r.
by rewrite block_zero // mulr0.
Qed.
Lemma block_small c : (Rabs (K i3 c) < PI)%coqR.
Proof.
have P0 := PI_RGT_0.
have EK : (K *m K^T) i3 i3 = (q * (A *m P *m A^T)%R i3 i3)%coqR.
  rewrite /K trmx_mul !mulmxA -(mulmxA A) block_square -scalemxAr -scalemxAl.
  by rewrite scalemxE.
have sm := small; set y := (q * _)%coqR in EK sm.
have y0 : (0 <= y)%coqR.
  rewrite -EK; apply/RleP; rewrite mxE; apply: sumr_ge0 => i _; rewrite [_^T _ _]mxE -expr2; exact: sqr_ge0.
have := @row_norm n K y (sqrt y) i3 c EK (sqrt_pos _); rewrite sqrt_sqrt // => /(_ (Rle_refl _)) H.
apply: Rle_lt_trans H _; rewrite -(sqrt_square PI); last exact: Rlt_le.
by apply: sqrt_lt_1_alt.
Qed.
Lemma block_unit : (K : 'M[R_realFieldType]_n) \in unitmx.
Proof.
rewrite /K unitmx_mul uA /=.
have : ((q : R_realFieldType) *: (P : 'M[R_realFieldType]_n)) \in unitmx.
  rewrite unitmxZ ?unitfE; last by apply/eqP; exact: Rgt_not_eq.
  exact: (spd_unit sP).
by rewrite -block_square unitmx_mul => /andP[].
Qed.

Lemma predict_block : spd ((unscented_kalman_filter_predict s P dt alpha beta kappa).2 : 'M[R_realFieldType]_n).
Proof.
rewrite predict_rows; cbv zeta.
set lambda := generate_lambda _ _ _; set M := rows _ _ _ _; set W := generate_weights _ _ _ _.
have a0 : (alpha : R) != 0 by apply/eqP => E; move: q0; rewrite /q E !Rmult_0_l => /Rlt_irrefl.
have k0 : (n%:R + kappa : R) != 0.
  apply/eqP => E; move: q0; rewrite /q (_ : (n%:R + kappa)%coqR = 0%coqR) // Rmult_0_r => /Rlt_irrefl //.
have [_ [_ EW]] := @weights_value R_realFieldType n alpha beta kappa a0 k0.
have Eq : (alpha : R_realFieldType) ^+ 2 * (n%:R + kappa) = q by rewrite expr2.
have qp : 0 < (q : R_realFieldType) by apply/RltP.
have two : (2%:R : R) = 2%coqR by rewrite natR /=; lra.
apply: (@ut_definite R_realFieldType _ _ _ _ _ (fun i : 'I_(2 * n).+1 => (i : nat) != 0%N)).
- move=> i; rewrite EW Eq; case: eqP => _; last by rewrite invr_ge0 mulr_ge0 ?ler0n // ltW.
  apply/RleP; move: w0; rewrite /Rdiv RinvE; last exact: Rgt_not_eq.
  by rewrite -two expr2.
- by move=> i ni; rewrite EW Eq (negbTE ni) invr_gt0 mulr_gt0 ?ltr0n.
move=> v H.
have c1 (c : 'I_n) : ((2 * c).+1 < (2 * n).+1)%N by rewrite ltnS ltn_mul2l ltn_ord.
have c2 (c : 'I_n) : ((2 * c).+2 < (2 * n).+1)%N by rewrite ltnS !mul2n -doubleS leq_double ltn_ord.
have Rp (c j : 'I_n) : M (Ordinal (c1 c)) j = entry dt (plus c) j.
  case: (rows_entry s P dt lambda j (Ordinal (c1 c))) => [[//]|[c' [[/= E ->]|[/= E _]]]].
    by move: E => -[] /eqP; rewrite eqn_mul2l /= => /eqP /val_inj ->.
  by exfalso; move: E => -[] E; have := congr1 odd E; rewrite /= !mul2n !odd_double.
have Rm (c j : 'I_n) : M (Ordinal (c2 c)) j = entry dt (minus c) j.
  case: (rows_entry s P dt lambda j (Ordinal (c2 c))) => [[//]|[c' [[/= E _]|[/= E ->]]]].
    by exfalso; move: E => -[] E; have := congr1 odd E; rewrite /= !mul2n !odd_double.
  by move: E => -[] /eqP; rewrite eqn_mul2l /= => /eqP /val_inj ->.
have LZ (c : 'I_n) : (c < 2)%N -> forall k : 'I_n, (2 <= k)%N -> L k c = 0 by move=> c2' k k2; exact: block_zero.
(* the rest of a point in column 0 or 1 *)
have rest (c j : 'I_n) : (c < 2)%N -> (2 <= j)%N ->
    entry dt (plus c) j = (if j == i3 then wrapped h else x j 0) /\
    entry dt (minus c) j = (if j == i3 then wrapped h else x j 0).
  move=> cc jj; have Kz := block_K jj cc; case: eqP => [Ej|/eqP nj].
    subst j; have [-> ->] := heading c; rewrite -/K Kz.
    by rewrite Rplus_0_r Rminus_0_r.
  have j3 : (j : nat) <> 3%N by move=> E; case/eqP: nj; apply: val_inj; rewrite /= E E3.
  by have [-> ->] := others c jj j3; rewrite -/K Kz addr0 subr0.
have pairs (c : 'I_n) : (c < 2)%N -> \sum_(j : 'I_n | (j < 2)%N) L j c * v j 0 = 0.
  move=> cc; have := H (Ordinal (c1 c)) (Ordinal (c2 c)) isT isT.
  rewrite (bigID (fun j : 'I_n => (j < 2)%N)) /= [X in _ + X]big1 ?addr0; last first.
    move=> j; rewrite -leqNgt => jj; rewrite Rp Rm.
    by have [-> ->] := rest c j cc jj; rewrite subrr mul0r.
  move=> E; have {}E : \sum_(j : 'I_n | (j < 2)%N) 2%:R * (L j c * v j 0) = 0 :> R_realFieldType.
    rewrite -[RHS]E; apply: eq_bigr => j jj; rewrite Rp Rm.
    have [-> ->] := moved (LZ c cc) jj; rewrite two.
    move: (e j 0) (L j c) (v j 0) => a b z; change ((2 * (b * z) = (a + b - (a - b)) * z)%coqR); lra.
  move: E; rewrite -mulr_sumr => /eqP; rewrite mulf_eq0 pnatr_eq0 /= => /eqP //.
have lt2 (j : 'I_n) : (j < 2)%N -> j = i0 \/ j = i1.
  case E: (j : nat) => [|[|//]] _; [left|right]; apply: val_inj; by rewrite /= E ?E0 ?E1.
have n01 : i0 != i1 by rewrite -(inj_eq val_inj) /= E0 E1.
have v1 : v i1 0 = 0.
  have := pairs i1; rewrite E1 => /(_ isT); rewrite (bigD1 i1) ?E1 //= big1 => [|j /andP[jj nj]].
    rewrite addr0 => /eqP; rewrite mulf_eq0 => /orP[/eqP E|/eqP //]; by case: (@block_diag i1).
  case: (lt2 j jj) nj => -> nj; last by rewrite eqxx in nj.
  by rewrite block_lower ?mul0r // E0 E1.
have v0 : v i0 0 = 0.
  have := pairs i0; rewrite E0 => /(_ isT); rewrite (bigD1 i0) ?E0 //= big1 => [|j /andP[jj nj]].
    rewrite addr0 => /eqP; rewrite mulf_eq0 => /orP[/eqP E|/eqP //]; by case: (@block_diag i0).
  by case: (lt2 j jj) nj => -> nj; [rewrite eqxx in nj|rewrite v1 mulr0].
have vz (j : 'I_n) : (j < 2)%N -> v j 0 = 0 by case/lt2 => ->.
have i32 : (2 <= i3)%N by rewrite E3.
have columns (c : 'I_n) : \sum_j v j 0 * K j c = 0.
  case: (ltnP c 2) => cc.
    apply: big1 => j _; case: (ltnP j 2) => jj; first by rewrite vz // mul0r.
    by rewrite block_K // mulr0.
  pose T : R := \sum_(j | j != i3) v j 0 * K j c.
  have sums (y z : 'I_n -> R) : \sum_j (y j - z j) * v j 0 = 0 ->
      (forall j : 'I_n, (2 <= j)%N -> j != i3 -> (y j - z j) * v j 0 = v j 0 * K j c) ->
      (y i3 - z i3) * v i3 0 + T = 0.
    move=> E Q; rewrite -[RHS]E (bigD1 i3) //=; congr (_ + _); apply: eq_bigr => j nj.
    by case: (ltnP j 2) => jj; [rewrite vz // mulr0 mul0r|rewrite Q].
  have i02 : (i0 < 2)%N by rewrite E0.
  have n3 (j : 'I_n) : j != i3 -> (j : nat) <> 3%N.
    by move=> nj E; case/eqP: nj; apply: val_inj; rewrite /= E E3.
  have := sums _ _ (H (Ordinal (c1 c)) (Ordinal (c1 i0)) isT isT); rewrite !Rp => /(_ _) Hp.
  have := sums _ _ (H (Ordinal (c1 i0)) (Ordinal (c2 c)) isT isT); rewrite Rp Rm => /(_ _) Hm.
  have {}Hp : (wrapped (h + K i3 c)%coqR - wrapped h) * v i3 0 + T = 0.
    have [<- _] := heading c; have := rest i0 i3 i02 i32; rewrite eqxx => -[<- _]; apply: Hp => j jj nj.
    rewrite !Rp; have [-> _] := rest i0 j i02 jj; rewrite (negbTE nj); have [-> _] := others c jj (n3 j nj).
    by rewrite addrC addKr mulrC.
  have {}Hm : (wrapped h - wrapped (h - K i3 c)%coqR) * v i3 0 + T = 0.
    have [_ <-] := heading c; have := rest i0 i3 i02 i32; rewrite eqxx => -[<- _]; apply: Hm => j jj nj.
    rewrite Rp Rm; have [-> _] := rest i0 j i02 jj; rewrite (negbTE nj); have [_ ->] := others c jj (n3 j nj).
    by rewrite opprB addrC subrK mulrC.
  rewrite (bigD1 i3) //= -/T.
  have B := @wrapped_balance h (K i3 c) (block_small c).
  clear sums; move: Hp Hm B; set a := wrapped h; set b := wrapped _; set d := wrapped _; move: (v i3 0) T (K i3 c) => z t k Hp Hm B.
  change ((b - a) * z + t = 0)%coqR in Hp; change ((a - d) * z + t = 0)%coqR in Hm; change (z * k + t = 0)%coqR.
  case: (Req_dec z 0) => [E|nz]; first by rewrite E in Hp *; lra.
  have : (b + d = 2 * a)%coqR by apply: (Rmult_eq_reg_r z) => //; lra.
  by move=> /B Ek; rewrite -Ek; lra.
suff : v^T *m K = 0.
  move=> E; apply: trmx_inj; rewrite trmx0 -[v^T]mulmx1 -(mulmxV block_unit) mulmxA.
  by rewrite [v^T *m K]E mul0mx.
by apply/rowP => c; rewrite !mxE -[RHS](columns c); apply: eq_bigr => j _; rewrite mxE.
Qed.
End Block.

Lemma step_unit n (dt : R) : (linear_step n dt : 'M[R_realFieldType]_n) \in unitmx.
Proof.
rewrite unitmxE -det_tr det_trig.
  rewrite big1 ?unitr1 // => i _; by rewrite !mxE eqxx.
apply/is_trig_mxP => i j ij; rewrite !mxE -(inj_eq val_inj) /= (gtn_eqF ij).
by case: (_ && _) / andP => [[/eqP Ei /eqP Ej]|_]; [rewrite Ei Ej in ij|case: (_ && _) / andP => [[/eqP Ei /eqP Ej]|_ //]; rewrite Ei Ej in ij].
Qed.
Lemma step_zero n (dt : R) (i j : 'I_n) : (2 <= i)%N -> (j < 2)%N -> linear_step n dt i j = 0.
Proof.
move=> i2 j2; rewrite mxE; case: eqP => [E|_]; first by rewrite E leqNgt j2 in i2.
by move: j2; case: (j : nat) => [|[|//]] _; rewrite !andbF.
Qed.
Lemma mul_col n (A L : 'M[R]_n) (j c : 'I_n) : (A *m col c L) j 0 = (A *m L) j c.
Proof. by rewrite !mxE; apply: eq_bigr => k _; rewrite [col _ _ _ _]mxE. Qed.

Section Models.
Variables (dt alpha beta kappa : R).
Lemma ctrv_block (s : ctrvR) (P : 'M[R]_5) : on_circle (v_yaw s) ->
  let q := (alpha * alpha * (5 + kappa))%coqR in (0 < q)%coqR ->
  (0 <= 2 - 5 / q - alpha * alpha + beta)%coqR -> spd (P : 'M[R_rcfType]_5) ->
  (forall i j : 'I_5, (i < 2)%N -> (2 <= j)%N -> P i j = 0) ->
  (q * (linear_step 5 dt *m P *m (linear_step 5 dt)^T)%R (inord 3) (inord 3) < PI * PI)%coqR ->
  spd ((@unscented_kalman_filter_predict 5 ctrv_type s P dt alpha beta kappa).2 : 'M[R_realFieldType]_5).
Proof.
move=> C q q0 w0 sP blk sm.
have n5 : (5%:R : R) = 5%coqR by rewrite natR /=; lra.
apply: (@predict_block 5 ctrv_type s P (linear_step 5 dt) dt alpha beta kappa (get_angle (v_yaw s) + v_rate s * dt)%coqR
  (x5 s 0) (\col_j entry dt (s : st_car ctrv_type) j) (inord 0) (inord 1) (inord 3)); rewrite ?inordK ?n5 //.
- exact: step_unit.
- exact: step_zero.
- by move=> c j j2 j3; rewrite -mul_col; exact: moved5.
- move=> c; set v := col c _; have [_ [-> ->]] := ctrv_headings v dt C.
  rewrite -mul_col -/v; have [_ [-> _]] := step5 dt v.
  by split; congr (wrapped _); lra.
- move=> c j; move: (spread P _) => L Z j2; set v := col c L.
  have Zk k : (2 <= k)%N -> (k < 5)%N -> ent v k = 0 by move=> k2 k5; rewrite /ent mxE Z // inordK.
  have [-> ->] := @ctrv_moved s v dt j C (Zk 2%N isT isT) (Zk 3%N isT isT) (Zk 4%N isT isT) j2.
  by rewrite !mxE /ent inord_val mxE.
Qed.
Lemma ctra_block (s : ctraR) (P : 'M[R]_6) : on_circle (a_yaw s) ->
  let q := (alpha * alpha * (6 + kappa))%coqR in (0 < q)%coqR ->
  (0 <= 2 - 6 / q - alpha * alpha + beta)%coqR -> spd (P : 'M[R_rcfType]_6) ->
  (forall i j : 'I_6, (i < 2)%N -> (2 <= j)%N -> P i j = 0) ->
  (q * (linear_step 6 dt *m P *m (linear_step 6 dt)^T)%R (inord 3) (inord 3) < PI * PI)%coqR ->
  spd ((@unscented_kalman_filter_predict 6 ctra_type s P dt alpha beta kappa).2 : 'M[R_realFieldType]_6).
Proof.
move=> C q q0 w0 sP blk sm.
have n6 : (6%:R : R) = 6%coqR by rewrite natR /=; lra.
apply: (@predict_block 6 ctra_type s P (linear_step 6 dt) dt alpha beta kappa (get_angle (a_yaw s) + a_rate s * dt)%coqR
  (x6 s 0 dt) (\col_j entry dt (s : st_car ctra_type) j) (inord 0) (inord 1) (inord 3)); rewrite ?inordK ?n6 //.
- exact: step_unit.
- exact: step_zero.
- by move=> c j j2 j3; rewrite -mul_col; exact: moved6.
- move=> c; set v := col c _; have [_ [-> ->]] := ctra_headings v dt C.
  rewrite -mul_col -/v; have [_ [-> _]] := step6 dt v.
  by split; congr (wrapped _); lra.
- move=> c j; move: (spread P _) => L Z j2; set v := col c L.
  have Zk k : (2 <= k)%N -> (k < 6)%N -> ent v k = 0 by move=> k2 k6; rewrite /ent mxE Z // inordK.
  have [-> ->] := @ctra_moved s v dt j C (Zk 2%N isT isT) (Zk 3%N isT isT) (Zk 4%N isT isT) (Zk 5%N isT isT) j2.
  by rewrite !mxE /ent inord_val mxE.
Qed.
End Models.

(** ** Points in a plane *)
Lemma ut_plane (F : realFieldType) m n (S : 'M[F]_(m, n)) (Wm Wc : 'cV[F]_m) (a : 'cV[F]_n) (k : F) :
  \sum_i Wm i 0 = 1 -> (forall i, \sum_j S i j * a j 0 = k) -> (compute_unscented_transform S Wm Wc).2 *m a = 0.
Proof.
move=> W1 H; rewrite /compute_unscented_transform /=; set x := (Wm^T *m S)^T.
rewrite -!mulmxA; suff -> : (S - stack_vector_into_matrix x m) *m a = 0 by rewrite !mulmx0.
apply/colP => i; rewrite mulmxBl !mxE H.
suff -> : \sum_j stack_vector_into_matrix x m i j * a j 0 = k by rewrite subrr.
transitivity (\sum_l Wm l 0 * \sum_j S l j * a j 0); last first.
  by under eq_bigr do rewrite H; rewrite -mulr_suml W1 mul1r.
transitivity (\sum_j \sum_l Wm l 0 * S l j * a j 0).
  by apply: eq_bigr => j _; rewrite !mxE mulr_suml; apply: eq_bigr => l _; rewrite mxE.
by rewrite exchange_big; apply: eq_bigr => l _; rewrite mulr_sumr; apply: eq_bigr => j _; rewrite mulrA.
Qed.
Lemma predict_plane n (ST : state_type n) s P dt alpha beta kappa (a : 'cV[R]_n) (k : R) :
  (0 < alpha * alpha * (n%:R + kappa))%coqR -> a != 0 ->
  \sum_j entry dt s j * a j 0 = k ->
  (forall c, let r := st_from ST (col c (spread P (generate_lambda n (alpha : R_realFieldType) kappa))) in
     \sum_j entry dt (st_add ST s r) j * a j 0 = k /\ \sum_j entry dt (st_sub ST s r) j * a j 0 = k) ->
  let out := (unscented_kalman_filter_predict s P dt alpha beta kappa).2 in
  out *m a = 0 /\ \det (out : 'M[R_realFieldType]_n) = 0.
Proof.
move=> q0 a0 H0 Hc out.
set lambda := generate_lambda _ _ _ in Hc.
have El : (n%:R + lambda : R) = (alpha * alpha * (n%:R + kappa))%coqR.
  by rewrite /lambda /generate_lambda addrC subrK.
have h : (n%:R + lambda : R) != 0 by rewrite El; apply/eqP; exact: Rgt_not_eq _ _ q0.
set W := generate_weights n (alpha : R_realFieldType) beta lambda.
pose M : 'M[R_realFieldType]_(_, _) := rows s P dt lambda.
have E : (out : 'M[R_realFieldType]_n) *m a = 0.
  rewrite /out predict_rows; apply: (@ut_plane R_realFieldType _ _ _ _ _ _ k); first exact: mean_weights.
  move=> i; case: (eqVneq (i : nat) 0%N) => Ei.
    rewrite -[RHS]H0; apply: eq_bigr => j _; congr (_ * _).
    by case: (rows_entry s P dt lambda j i) => [[_ ->] //|[c [[E _]|[E _]]]]; rewrite Ei in E.
  case: (row_cases i) => [E|[c E]]; first by rewrite E in Ei.
  have [Hp Hm] := Hc c.
  case: E => E; [rewrite -[RHS]Hp|rewrite -[RHS]Hm]; apply: eq_bigr => j _; congr (_ * _);
    case: (rows_entry s P dt lambda j i) => [[E' _]|[c' [[E' ->]|[E' ->]]]]; rewrite ?E // in E' *.
  + by move: E' => -[] /eqP; rewrite eqn_mul2l /= => /eqP /val_inj ->.
  + by exfalso; move: E' => -[] E'; have := congr1 odd E'; rewrite /= !mul2n !odd_double.
  + by exfalso; move: E' => -[] E'; have := congr1 odd E'; rewrite /= !mul2n !odd_double.
  + by move: E' => -[] /eqP; rewrite eqn_mul2l /= => /eqP /val_inj ->.
split=> //; apply/eqP/det0P; exists (a^T); first by rewrite trmx_eq0.
apply: trmx_inj; rewrite trmx_mul trmxK trmx0.
by rewrite /out predict_rows ut_sym -predict_rows.
Qed.

(** A covariance made from its factor *)
Lemma factor_spd n (N : 'M[R]_n) (q : R) : lower (N : 'M[R_rcfType]_n) -> pos_diag (N : 'M[R_rcfType]_n) -> (0 < q)%coqR ->
  let P : 'M[R]_n := (q^-1 : R) *: (N *m N^T) in
  spd (P : 'M[R_rcfType]_n) /\
  forall lambda : R, (n%:R + lambda)%coqR = q -> spread P lambda = N.
Proof.
move=> lN pN q0 P.
have uN : (N : 'M[R_rcfType]_n) \in unitmx.
  rewrite unitmxE det_trig; last by apply/is_trig_mxP.
  by rewrite unitfE prodf_seq_neq0; apply/allP => i _; rewrite implyTb gt_eqF.
have sP : spd (P : 'M[R_rcfType]_n).
  apply: spd_scale; first by rewrite invr_gt0; apply/RltP.
  split; first by rewrite /symmetric trmx_mul trmxK.
  move=> v v0; have -> : qf ((N : 'M[R_rcfType]_n) *m N^T) v = qf 1%:M (N^T *m v).
    by rewrite -qf_congr trmxK mulmx1.
  have [_] := @spd_id [realFieldType of R_rcfType] n; apply; apply: contra v0 => /eqP E.
  by rewrite -[v]mul1mx -(mulVmx (_ : N^T \in unitmx)) ?unitmx_tr // -mulmxA E mulmx0.
split=> // lambda El.
have r0 : (0 < sqrt q)%coqR by apply: sqrt_lt_R0.
have rn : (sqrt q : R) != 0 by apply/eqP; exact: Rgt_not_eq.
have Ec : llt_matrixL (P : 'M[R_rcfType]_n) = ((sqrt q)^-1 : R) *: N.
  rewrite (llt_cholesky sP).2.
  apply: cholesky_unique; [exact: cholesky_lower|exact: cholesky_diag| | |].
  - by move=> i j ij; rewrite scalemxE lN // mulr0.
  - by move=> i; rewrite scalemxE mulr_gt0 // invr_gt0; apply/RltP.
  rewrite choleskyK // linearZ /= -scalemxAl -scalemxAr scalerA /P; congr (_ *: _).
  by rewrite -invfM -RmulE sqrt_sqrt //; exact: Rlt_le.
by rewrite /spread Ec El scalerA divff ?scale1r.
Qed.

(** ** A parked car *)
Definition parked_factor (dt eta : R) : 'M[R]_5 := \matrix_(i, j)
  if i == j then (if (i : nat) == 0%N then (dt * (1 - cos eta))%coqR else if (i : nat) == 3%N then eta else 1%coqR)
  else if (j : nat) == 0%N then (if (i : nat) == 2%N then 1%coqR else if (i : nat) == 3%N then eta else 0%coqR)
  else 0%coqR.
Definition parked_normal (dt : R) : 'cV[R]_5 := vec_of 5 [:: 1%coqR; 0%coqR; (- dt)%coqR; 0%coqR; 0%coqR].

Lemma parked_value (dt : R) (p : ctrvR) :
  \sum_j entry dt (p : st_car ctrv_type) j * parked_normal dt j 0 = (v_x (ctrv_next p dt) - dt * v_vel p)%coqR.
Proof.
rewrite !big_ord_recr big_ord0 /= /entry /= !mxE /=.
have [-> _] := ctrv_fields p dt.
rewrite -!RaddE -!RmulE; change (0 : R) with 0%coqR; lra.
Qed.
Lemma parked_still (dt : R) (p : ctrvR) : v_vel p = 0%coqR -> v_x (ctrv_next p dt) = v_x p.
Proof.
move=> E; case N: (nnear0 reals (v_rate p)).
- by rewrite (ctrv_next_straight _ _ N) /= E; lra.
- by rewrite (ctrv_next_turn _ _ N) /= E /Rdiv; lra.
Qed.
Lemma parked_moving (dt d : R) (p : ctrvR) : v_rate p = 0%coqR -> v_yaw p = angleR d ->
  v_x (ctrv_next p dt) = (v_x p + v_vel p * cos d * dt)%coqR.
Proof.
move=> E Y; have N : nnear0 reals (v_rate p) = true by rewrite E; exact: near0_zero.
rewrite (ctrv_next_straight _ _ N) /= Y.
by have [_ /same_turn_cos ->] := get_angle_spec d.
Qed.

Lemma parked_lost (x y dt alpha beta kappa eta : R) : (0 < dt)%coqR -> (0 < eta < PI)%coqR ->
  let q := (alpha * alpha * (5 + kappa))%coqR in (0 < q)%coqR ->
  let s : ctrvR := CtrvState (A := reals) x y 0%coqR (angleR 0) 0%coqR in
  let P : 'M[R]_5 := (q^-1 : R) *: (parked_factor dt eta *m (parked_factor dt eta)^T) in
  spd (P : 'M[R_rcfType]_5) /\ P (inord 3) (inord 3) = (2 * (eta * eta) / q)%coqR /\
  \det ((@unscented_kalman_filter_predict 5 ctrv_type s P dt alpha beta kappa).2 : 'M[R_realFieldType]_5) = 0.
Proof.
move=> dt0 [e0 e1] q q0 s P.
have n5 : (5%:R : R) = 5%coqR by rewrite natR /=; lra.
have El : (5%:R + generate_lambda 5 (alpha : R_realFieldType) kappa)%coqR = q.
  by rewrite /q -n5 /generate_lambda RaddE addrC subrK.
have c1 : (0 < 1 - cos eta)%coqR.
  by have := cos_decreasing_1 0 eta; rewrite cos_0; lra.
have lN : lower (parked_factor dt eta : 'M[R_rcfType]_5).
  move=> i j ij; rewrite mxE -(inj_eq val_inj) /= (ltn_eqF ij).
  by case: (j : nat) ij.
have pN : pos_diag (parked_factor dt eta : 'M[R_rcfType]_5).
  move=> i; rewrite mxE eqxx; apply/RltP; case: eqP => _; first exact: Rmult_lt_0_compat.
  by case: eqP => _ //; change (0 < 1)%coqR; lra.
have [sP SP] := factor_spd lN pN q0.
split=> //; split.
  rewrite /P scalemxE mxE !big_ord_recr big_ord0 /= !mxE -!(inj_eq val_inj) /= !inordK //= -!RaddE -!RmulE.
  rewrite -RinvE; last exact: Rgt_not_eq.
  change (0 : R) with 0%coqR; rewrite /Rdiv; lra.
have C0 : on_circle (angleR 0) by exact: circle_of.
apply: (proj2 (@predict_plane 5 ctrv_type s P dt alpha beta kappa (parked_normal dt) x _ _ _ _)).
- by rewrite n5.
- by apply/eqP => /matrixP /(_ 0 0); rewrite !mxE /= => E; change (1 = 0)%coqR in E; lra.
- by rewrite parked_value parked_still //=; lra.
move=> c; rewrite (SP _ El).
set v := col c _; cbv zeta; rewrite !parked_value.
have V k : (k < 5)%N -> ent v k = parked_factor dt eta (inord k) c by move=> k5; rewrite /ent mxE.
have Yp d : angle_add (angleR 0) (angleR d) = angleR d by rewrite angle_add_of // heading_zero Rplus_0_l.
have Ym d : angle_sub (angleR 0) (angleR d) = angleR (- d)%coqR by rewrite angle_sub_of // heading_zero Rminus_0_l.
have W k : (k < 5)%N -> ent v k = if k == c :> nat then (if k == 0%N then (dt * (1 - cos eta))%coqR else if k == 3%N then eta else 1%coqR)
  else if (c : nat) == 0%N then (if k == 2%N then 1%coqR else if k == 3%N then eta else 0%coqR) else 0%coqR.
  by move=> k5; rewrite V // mxE -(inj_eq val_inj) /= inordK.
case: (boolP (((c : nat) == 0%N) || ((c : nat) == 2%N))) => [H|].
  have r4 : ent v 4 = 0%coqR by rewrite W //; case/orP: H => /eqP ->.
  rewrite (@parked_moving dt (ent v 3)) ?(@parked_moving dt (- ent v 3)%coqR) /= ?r4 ?Rplus_0_r ?Rminus_0_r //.
  rewrite cos_neg; case/orP: H => /eqP H; rewrite !W // H /= ?cos_0; split; lra.
rewrite negb_or => /andP[/negbTE c0 /negbTE c2].
have v2 : ent v 2 = 0%coqR by rewrite W // eq_sym c2 c0.
have v0 : ent v 0 = 0%coqR by rewrite W // eq_sym c0.
by rewrite !parked_still /= ?v2 ?v0 ?Rplus_0_r ?Rminus_0_r //; split; lra.
Qed.

(** The predicted heading variance *)
Lemma turned_variance5 (P : 'M[R]_5) (dt : R) : P^T = P ->
  (linear_step 5 dt *m P *m (linear_step 5 dt)^T) (inord 3) (inord 3) =
  (P (inord 3) (inord 3) + 2 * dt * P (inord 3) (inord 4) + dt * dt * P (inord 4) (inord 4))%coqR.
Proof.
move=> sy; set A := linear_step 5 dt.
have row (v : 'cV[R]_5) : (A *m v) (inord 3) 0 = (v (inord 3) ord0 + v (inord 4) ord0 * dt)%coqR.
  by have [_ [-> _]] := step5 dt v.
have E j : (A *m P) (inord 3) j = (P (inord 3) j + P (inord 4) j * dt)%coqR.
  by rewrite -mul_col row !mxE.
have -> : (A *m P *m A^T) (inord 3) (inord 3) = (A *m (A *m P)^T) (inord 3) (inord 3).
  by have -> : A *m (A *m P)^T = (A *m P *m A^T)^T; [rewrite [RHS]trmx_mul trmxK|rewrite [RHS]mxE].
rewrite -mul_col row ![col _ _ _ _]mxE ![(_ *m _)^T _ _]mxE !E.
have S i j : P i j = P j i by rewrite -[in LHS]sy mxE.
rewrite (S (inord 4) (inord 3)); lra.
Qed.
Lemma turned_variance6 (P : 'M[R]_6) (dt : R) : P^T = P ->
  (linear_step 6 dt *m P *m (linear_step 6 dt)^T) (inord 3) (inord 3) =
  (P (inord 3) (inord 3) + 2 * dt * P (inord 3) (inord 4) + dt * dt * P (inord 4) (inord 4))%coqR.
Proof.
move=> sy; set A := linear_step 6 dt.
have row (v : 'cV[R]_6) : (A *m v) (inord 3) 0 = (v (inord 3) ord0 + v (inord 4) ord0 * dt)%coqR.
  by have [_ [-> _]] := step6 dt v.
have E j : (A *m P) (inord 3) j = (P (inord 3) j + P (inord 4) j * dt)%coqR.
  by rewrite -mul_col row !mxE.
have -> : (A *m P *m A^T) (inord 3) (inord 3) = (A *m (A *m P)^T) (inord 3) (inord 3).
  by have -> : A *m (A *m P)^T = (A *m P *m A^T)^T; [rewrite [RHS]trmx_mul trmxK|rewrite [RHS]mxE].
rewrite -mul_col row ![col _ _ _ _]mxE ![(_ *m _)^T _ _]mxE !E.
have S i j : P i j = P j i by rewrite -[in LHS]sy mxE.
rewrite (S (inord 4) (inord 3)); lra.
Qed.
