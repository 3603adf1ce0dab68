(** CTRA predictions with tiny turn rates in double precision. *)
From Coq Require Import ZArith Reals Lra Lia Bool Psatz.
From Flocq Require Import Core IEEE754.BinarySingleNaN.
From Verif Require Import Float FloatProofs Motion RealArith MotionThms DoubleArith DoubleThms SumSquares64 PiDouble TrigSpec AngleAccuracy
  MotionAccuracy MotionMany CtraAccuracy.
Local Open Scope R_scope.

(** ** The square of the rate underflows *)
Lemma mult_inf_not_finite (x y : f64) : is_finite x = false -> is_finite (Bmult mode_NE x y) = false.
Proof. destruct x as [s|s| |s m e B]; try discriminate; destruct y; reflexivity. Qed.
Lemma div_by_zero (x y : f64) : is_finite x = true -> B2R x <> 0 -> is_finite y = true -> B2R y = 0 -> is_finite (Bdiv mode_NE x y) = false.
Proof.
  intros Fx Nx Fy Ey. destruct y as [sy|sy| |sy my ey By]; try discriminate.
  - destruct x as [sx|sx| |sx mx ex Bx]; try discriminate; [|reflexivity]. now destruct Nx.
  - exfalso. cbn in Ey. apply eq_0_F2R in Ey. destruct sy; discriminate.
Qed.
Lemma square_underflow (w : f64) : is_finite w = true -> Rabs (B2R w) <= bpow radix2 (-538) ->
  is_finite (Bmult mode_NE w w) = true /\ B2R (Bmult mode_NE w w) = 0.
Proof.
  intros F W. assert (Q : Rabs (B2R w * B2R w) <= bpow radix2 (-1076)).
  { rewrite Rabs_mult. change (-1076)%Z with (-538 + -538)%Z. rewrite bpow_plus. apply Rmult_le_compat; auto using Rabs_pos. }
  destruct (mult64_value w w 0 ltac:(lia) F F) as [E Fm].
  { eapply Rle_trans; [exact Q|]. apply bpow_le. lia. }
  split; [exact Fm|]. rewrite E. unfold rnd64.
  destruct (Req_dec (B2R w * B2R w) 0) as [Z|NZ]; [rewrite Z; apply round_0; typeclasses eauto|].
  set (r := B2R w * B2R w) in *.
  apply round_N_small with (mag radix2 r).
  - split.
    + apply bpow_mag_le; exact NZ.
    + apply bpow_mag_gt.
  - assert (H : (mag radix2 r <= -1075)%Z).
    { apply mag_le_bpow; [exact NZ|]. eapply Rle_lt_trans; [exact Q|]. apply bpow_lt. lia. }
    unfold SpecFloat.fexp, SpecFloat.emin. lia.
Qed.

Section Tiny.
Variables (sine cosine : f64 -> f64) (phase : f64 -> f64 -> f64).
Notation D := (doubles sine cosine phase).
Notation val x := (B2R (x : f64)).
Local Opaque Bplus Bminus Bmult Bdiv Bopp get_angle f64_of_Z.

Lemma ctra_not_finite (s : ctra_state D) (dt : f64) : is_finite (a_rate s : f64) = true ->
  bpow radix2 (-1022) <= Rabs (val (a_rate s)) <= bpow radix2 (-538) ->
  is_finite (a_x (ctra_next s dt) : f64) = false /\ is_finite (a_y (ctra_next s dt) : f64) = false.
Proof.
  intros F [W1 W2].
  assert (N0 : nnear0 D (a_rate s) = false).
  { rewrite (near0_double _ _ _ _ F), dbl_min_bpow. destruct (Rlt_dec _ _); [lra|reflexivity]. }
  destruct (square_underflow _ F W2) as [Fq Eq]. destruct (int64_value 1 ltac:(lia)) as [E1 F1].
  assert (K : is_finite (Bdiv mode_NE (f64_of_Z 1) (Bmult mode_NE (a_rate s : f64) (a_rate s : f64))) = false).
  { apply div_by_zero; try assumption. rewrite E1. lra. }
  unfold ctra_next. rewrite N0. cbn [a_x a_y nadd nmul ndiv n1 doubles].
  split; apply plus_not_finite; right; apply mult_inf_not_finite; exact K.
Qed.

(** ** Absorption at any size *)
Lemma absorbed_pos m u d : fmt u -> bpow radix2 m <= u -> (-900 <= m)%Z -> Rabs d < bpow radix2 (m - 54) -> rnd64 (u + d) = u.
Proof.
  intros Fu Hu Hm Hd. apply Rabs_lt_inv in Hd. pose proof (bpow_gt_0 radix2 m) as M0.
  assert (Lu : forall v e, bpow radix2 e <= v -> bpow radix2 (fexp64 (e + 1)) <= ulp radix2 fexp64 v).
  { intros v e H. rewrite <- (ulp_bpow radix2 fexp64 e). apply ulp_le; [typeclasses eauto|typeclasses eauto|].
    pose proof (bpow_gt_0 radix2 e). rewrite !Rabs_pos_eq; lra. }
  assert (X1 : fexp64 (m + 1) = (m - 54 + 1 + 1)%Z) by (unfold SpecFloat.fexp, SpecFloat.emin; lia).
  assert (X2 : fexp64 (m - 1 + 1) = (m - 54 + 1)%Z) by (unfold SpecFloat.fexp, SpecFloat.emin; lia).
  pose proof (bpow_gt_0 radix2 (m - 54)) as D0.
  apply Rle_antisym.
  - apply round_N_le_midp; [typeclasses eauto|exact Fu|].
    rewrite succ_eq_pos by lra. specialize (Lu u m Hu). rewrite X1, !double_bpow in Lu. lra.
  - apply round_N_ge_midp; [typeclasses eauto|exact Fu|].
    set (q := pred radix2 fexp64 u).
    assert (H2 : bpow radix2 m = 2 * bpow radix2 (m - 1)) by (rewrite <- double_bpow; f_equal; lia).
    pose proof (bpow_gt_0 radix2 (m - 1)) as D1.
    assert (Q : bpow radix2 (m - 1) <= q).
    { apply pred_ge_gt; [typeclasses eauto| |exact Fu|lra]. apply fmt64_bpow. lia. }
    assert (S : succ radix2 fexp64 q = u) by (apply succ_pred; [typeclasses eauto|exact Fu]).
    rewrite succ_eq_pos in S by lra. specialize (Lu q (m - 1)%Z Q). rewrite X2, double_bpow in Lu. lra.
Qed.
Lemma absorbed_any m u d : fmt u -> bpow radix2 m <= Rabs u -> (-900 <= m)%Z -> Rabs d < bpow radix2 (m - 54) -> rnd64 (u + d) = u.
Proof.
  intros Fu Hu Hm Hd. destruct (Rle_dec 0 u) as [P|N].
  - rewrite Rabs_pos_eq in Hu by exact P. now apply (absorbed_pos m).
  - rewrite Rabs_left in Hu by lra. assert (E : rnd64 (- u + - d) = - u).
    { apply (absorbed_pos m); try assumption; [now apply generic_format_opp|now rewrite Rabs_Ropp]. }
    replace (u + d) with (- (- u + - d)) by ring. unfold rnd64 in *. rewrite round_NE_opp, E. ring.
Qed.

Lemma rnd64_ge x k : (-1074 <= k)%Z -> bpow radix2 k <= Rabs x -> bpow radix2 k <= Rabs (rnd64 x).
Proof.
  intros Hk H. unfold rnd64. apply abs_round_ge_generic; [typeclasses eauto|typeclasses eauto|now apply fmt64_bpow|exact H].
Qed.

(** A double of at least 2^-11 is a multiple of 2^-63 *)
Lemma multiple63 (x : R) : fmt x -> bpow radix2 (-11) <= Rabs x -> exists m : Z, x = IZR m * bpow radix2 (-63).
Proof.
  intros F H. assert (NZ : x <> 0) by (intros ->; rewrite Rabs_R0 in H; pose proof (bpow_gt_0 radix2 (-11)); lra).
  assert (M : (-10 <= mag radix2 x)%Z) by (pose proof (mag_ge_bpow radix2 x (-10) H); lia).
  set (e := cexp radix2 fexp64 x).
  assert (E : (-63 <= e)%Z) by (unfold e, cexp, SpecFloat.fexp, SpecFloat.emin; lia).
  unfold generic_format in F. unfold F2R in F. cbn [Fnum Fexp] in F. fold e in F.
  exists (Ztrunc (scaled_mantissa radix2 fexp64 x) * 2 ^ (e + 63))%Z. rewrite mult_IZR.
  replace (IZR (2 ^ (e + 63))) with (bpow radix2 (e + 63)) by (rewrite <- IZR_Zpower by lia; reflexivity).
  rewrite Rmult_assoc, <- bpow_plus. replace (e + 63 + -63)%Z with e by lia. exact F.
Qed.

Lemma apart63 (x y : R) : fmt x -> fmt y -> bpow radix2 (-11) <= Rabs x -> bpow radix2 (-11) <= Rabs y -> x <> y ->
  bpow radix2 (-63) <= Rabs (x - y).
Proof.
  intros Fx Fy Hx Hy N. destruct (multiple63 x Fx Hx) as [m Em]. destruct (multiple63 y Fy Hy) as [n En].
  rewrite Em, En, <- Rmult_minus_distr_r, <- minus_IZR, Rabs_mult, <- abs_IZR, (Rabs_pos_eq (bpow _ _)) by apply bpow_ge_0.
  assert (D : m <> n) by (intros ->; apply N; now rewrite Em, En).
  assert (1 <= IZR (Z.abs (m - n))) by (apply IZR_le; lia). pose proof (bpow_ge_0 radix2 (-63)). nra.
Qed.

Lemma le12 (x y : R) : Rabs x <= bpow radix2 11 -> Rabs y <= bpow radix2 11 -> Rabs (x - y) <= bpow radix2 12.
Proof.
  intros. change 12%Z with (11 + 1)%Z. rewrite double_bpow. unfold Rminus. eapply Rle_trans; [apply Rabs_triang|]. rewrite Rabs_Ropp. lra.
Qed.

(** ((p1 + P') -/+ p3) - P with p1 and p3 tiny *)
Lemma bracket_tiny (p1 P' p3 P : f64) (third : f64 -> f64 -> f64) : third = Bminus mode_NE \/ third = Bplus mode_NE ->
  is_finite p1 = true -> is_finite P' = true -> is_finite p3 = true -> is_finite P = true ->
  bpow radix2 (-11) <= Rabs (B2R P') <= bpow radix2 11 -> bpow radix2 (-11) <= Rabs (B2R P) <= bpow radix2 11 ->
  Rabs (B2R p1) < bpow radix2 (-65) -> Rabs (B2R p3) < bpow radix2 (-65) ->
  let b := Bminus mode_NE (third (Bplus mode_NE p1 P') p3) P in
  is_finite b = true /\ (B2R b = 0 \/ bpow radix2 (-63) <= Rabs (B2R b) <= bpow radix2 12).
Proof.
  intros HT F1 F2 F3 F4 [L2 U2] [L4 U4] H1 H3 b.
  assert (T0 : bpow radix2 (-65) <= bpow radix2 11) by (apply bpow_le; lia).
  assert (A1 : Rabs (B2R p1 + B2R P') <= bpow radix2 12).
  { eapply Rle_trans; [apply Rabs_triang|]. change 12%Z with (11 + 1)%Z. rewrite double_bpow. lra. }
  destruct (plus64_value p1 P' 12 ltac:(lia) F1 F2 A1) as [E5 F5].
  rewrite (Rplus_comm (B2R p1)), (absorbed_any (-11)) in E5; [|apply fmt_B2R|exact L2|lia|exact H1].
  set (q := Bplus mode_NE p1 P') in *.
  assert (E6 : B2R (third q p3) = B2R P' /\ is_finite (third q p3) = true).
  { destruct HT as [-> | ->].
    - destruct (minus64_value q p3 12 ltac:(lia) F5 F3) as [E F].
      { rewrite E5. apply le12; lra. }
      split; [|exact F]. rewrite E, E5. unfold Rminus. apply (absorbed_any (-11)); [apply fmt_B2R|exact L2|lia|now rewrite Rabs_Ropp].
    - destruct (plus64_value q p3 12 ltac:(lia) F5 F3) as [E F].
      { rewrite E5. eapply Rle_trans; [apply Rabs_triang|]. change 12%Z with (11 + 1)%Z. rewrite double_bpow. lra. }
      split; [|exact F]. rewrite E, E5. apply (absorbed_any (-11)); [apply fmt_B2R|exact L2|lia|exact H3]. }
  destruct E6 as [E6 F6].
  assert (A3 : Rabs (B2R (third q p3) - B2R P) <= bpow radix2 12) by (rewrite E6; now apply le12).
  destruct (minus64_value (third q p3) P 12 ltac:(lia) F6 F4 A3) as [E7 F7]. fold b in E7, F7. rewrite E6 in E7, A3.
  split; [exact F7|]. destruct (Req_dec (B2R P') (B2R P)) as [EQ|NE].
  - left. rewrite E7, EQ. replace (B2R P - B2R P) with 0 by ring. apply round_0. typeclasses eauto.
  - right. rewrite E7. split; [apply rnd64_ge; [lia|]|now apply rnd64_bound].
    apply apart63; try assumption; apply fmt_B2R.
Qed.

Lemma last_tiny (x w b : f64) : is_finite x = true -> Rabs (B2R x) <= bpow radix2 60 ->
  is_finite w = true -> bpow radix2 (-500) <= Rabs (B2R w) <= bpow radix2 (-100) ->
  is_finite b = true -> B2R b = 0 \/ bpow radix2 (-63) <= Rabs (B2R b) <= bpow radix2 12 ->
  let r := Bplus mode_NE x (Bmult mode_NE (Bdiv mode_NE (f64_of_Z 1) (Bmult mode_NE w w)) b) in
  is_finite r = true /\ (B2R r = B2R x \/ bpow radix2 136 <= Rabs (B2R r)).
Proof.
  intros Fx Bx Fw [W1 W2] Fb Hb r.
  assert (Q2 : Rabs (B2R w * B2R w) <= bpow radix2 (-200)).
  { rewrite Rabs_mult. change (-200)%Z with (-100 + -100)%Z. rewrite bpow_plus. apply Rmult_le_compat; auto using Rabs_pos. }
  assert (Q1 : bpow radix2 (-1000) <= Rabs (B2R w * B2R w)).
  { rewrite Rabs_mult. change (-1000)%Z with (-500 + -500)%Z. rewrite bpow_plus. apply Rmult_le_compat; auto using bpow_ge_0. }
  destruct (mult64_value w w (-200) ltac:(lia) Fw Fw Q2) as [Ey Fy].
  assert (Y1 : bpow radix2 (-1000) <= Rabs (B2R (Bmult mode_NE w w))) by (rewrite Ey; apply rnd64_ge; [lia|exact Q1]).
  assert (Y2 : Rabs (B2R (Bmult mode_NE w w)) <= bpow radix2 (-200)) by (rewrite Ey; apply rnd64_bound; [lia|exact Q2]).
  set (y := Bmult mode_NE w w) in *. pose proof (bpow_gt_0 radix2 (-1000)) as P0.
  assert (NY : B2R y <> 0) by (intros E; rewrite E, Rabs_R0 in Y1; lra).
  destruct (int64_value 1 ltac:(lia)) as [E1 F1].
  assert (EI : Rabs (B2R (f64_of_Z 1) / B2R y) = / Rabs (B2R y)).
  { rewrite E1. unfold Rdiv. rewrite Rmult_1_l. now apply Rabs_inv. }
  assert (K2 : Rabs (B2R (f64_of_Z 1) / B2R y) <= bpow radix2 1000).
  { rewrite EI. change 1000%Z with (- (-1000))%Z. rewrite bpow_opp. apply Rinv_le; lra. }
  assert (K1 : bpow radix2 200 <= Rabs (B2R (f64_of_Z 1) / B2R y)).
  { rewrite EI. change 200%Z with (- (-200))%Z. rewrite bpow_opp. apply Rinv_le; lra. }
  destruct (div64_value _ y 1000 ltac:(lia) F1 NY K2) as [Ek Fk].
  set (k := Bdiv mode_NE (f64_of_Z 1) y) in *.
  assert (K3 : Rabs (B2R k) <= bpow radix2 1000) by (rewrite Ek; apply rnd64_bound; [lia|exact K2]).
  assert (K4 : bpow radix2 200 <= Rabs (B2R k)) by (rewrite Ek; apply rnd64_ge; [lia|exact K1]).
  destruct Hb as [Z|[B1 B2]].
  - destruct (mul_zero_r sine cosine phase k b Fk Fb Z) as [Fm Em].
    assert (A : Rabs (B2R x + B2R (Bmult mode_NE k b)) <= bpow radix2 60) by (rewrite Em, Rplus_0_r; exact Bx).
    destruct (plus64_value x _ 60 ltac:(lia) Fx Fm A) as [_ Fr]. split; [exact Fr|]. left. apply add_zero_r; assumption.
  - assert (M2 : Rabs (B2R k * B2R b) <= bpow radix2 1012).
    { rewrite Rabs_mult. change 1012%Z with (1000 + 12)%Z. rewrite bpow_plus. apply Rmult_le_compat; auto using Rabs_pos. }
    assert (M1 : bpow radix2 137 <= Rabs (B2R k * B2R b)).
    { rewrite Rabs_mult. change 137%Z with (200 + -63)%Z. rewrite bpow_plus. apply Rmult_le_compat; auto using bpow_ge_0. }
    destruct (mult64_value k b 1012 ltac:(lia) Fk Fb M2) as [Em Fm].
    assert (N2 : Rabs (B2R (Bmult mode_NE k b)) <= bpow radix2 1012) by (rewrite Em; apply rnd64_bound; [lia|exact M2]).
    assert (N1 : bpow radix2 137 <= Rabs (B2R (Bmult mode_NE k b))) by (rewrite Em; apply rnd64_ge; [lia|exact M1]).
    set (z := Bmult mode_NE k b) in *.
    assert (S2 : Rabs (B2R x + B2R z) <= bpow radix2 1013).
    { eapply Rle_trans; [apply Rabs_triang|]. change 1013%Z with (1012 + 1)%Z. rewrite double_bpow.
      assert (bpow radix2 60 <= bpow radix2 1012) by (apply bpow_le; lia). lra. }
    destruct (plus64_value x z 1013 ltac:(lia) Fx Fm S2) as [Er Fr]. split; [exact Fr|]. right. unfold r. rewrite Er.
    apply rnd64_ge; [lia|]. assert (H137 : bpow radix2 137 = 2 * bpow radix2 136) by (change 137%Z with (136 + 1)%Z; apply double_bpow).
    assert (bpow radix2 60 <= bpow radix2 136) by (apply bpow_le; lia).
    pose proof (Rabs_triang (B2R x + B2R z) (- B2R x)) as T. rewrite Rabs_Ropp in T.
    replace (B2R x + B2R z + - B2R x) with (B2R z) in T by ring. lra.
Qed.

(** The products *)
Lemma tiny_term (v w s : f64) : is_finite v = true -> is_finite w = true -> is_finite s = true ->
  Rabs (B2R v) <= bpow radix2 22 -> Rabs (B2R w) <= bpow radix2 (-100) -> Rabs (B2R s) <= 1 ->
  is_finite (Bmult mode_NE (Bmult mode_NE v w) s) = true /\ Rabs (B2R (Bmult mode_NE (Bmult mode_NE v w) s)) < bpow radix2 (-65).
Proof.
  intros Fv Fw Fs Hv Hw Hs.
  assert (M : Rabs (B2R v * B2R w) <= bpow radix2 (-78)).
  { rewrite Rabs_mult. change (-78)%Z with (22 + -100)%Z. rewrite bpow_plus. apply Rmult_le_compat; auto using Rabs_pos. }
  destruct (mult64_value v w (-78) ltac:(lia) Fv Fw M) as [E F].
  assert (M' : Rabs (B2R (Bmult mode_NE v w)) <= bpow radix2 (-78)) by (rewrite E; apply rnd64_bound; [lia|exact M]).
  assert (N : Rabs (B2R (Bmult mode_NE v w) * B2R s) <= bpow radix2 (-78)).
  { rewrite Rabs_mult. pose proof (Rabs_pos (B2R (Bmult mode_NE v w))). pose proof (Rabs_pos (B2R s)). nra. }
  destruct (mult64_value _ s (-78) ltac:(lia) F Fs N) as [E' F']. split; [exact F'|].
  rewrite E'. eapply Rle_lt_trans; [apply rnd64_bound; [|exact N]; lia|]. apply bpow_lt. lia.
Qed.
Lemma large_term (a c : f64) : is_finite a = true -> is_finite c = true ->
  bpow radix2 (-10) <= Rabs (B2R a) <= bpow radix2 10 -> / 2 <= Rabs (B2R c) <= 1 ->
  is_finite (Bmult mode_NE (Bmult mode_NE a c) (f64_of_Z 1)) = true /\
  bpow radix2 (-11) <= Rabs (B2R (Bmult mode_NE (Bmult mode_NE a c) (f64_of_Z 1))) <= bpow radix2 11.
Proof.
  intros Fa Fc [A1 A2] [C1 C2]. pose proof (bpow_gt_0 radix2 (-10)) as P0.
  assert (M2 : Rabs (B2R a * B2R c) <= bpow radix2 11).
  { rewrite Rabs_mult. apply Rle_trans with (bpow radix2 10 * 1); [apply Rmult_le_compat; auto using Rabs_pos|].
    rewrite Rmult_1_r. apply bpow_le. lia. }
  assert (M1 : bpow radix2 (-11) <= Rabs (B2R a * B2R c)).
  { rewrite Rabs_mult. change (-11)%Z with (-10 + -1)%Z. rewrite bpow_plus. apply Rmult_le_compat; auto using bpow_ge_0. }
  destruct (mult64_value a c 11 ltac:(lia) Fa Fc M2) as [E F].
  assert (N2 : Rabs (B2R (Bmult mode_NE a c)) <= bpow radix2 11) by (rewrite E; apply rnd64_bound; [lia|exact M2]).
  assert (N1 : bpow radix2 (-11) <= Rabs (B2R (Bmult mode_NE a c))) by (rewrite E; apply rnd64_ge; [lia|exact M1]).
  destruct (int64_value 1 ltac:(lia)) as [E1 F1].
  assert (N3 : Rabs (B2R (Bmult mode_NE a c) * B2R (f64_of_Z 1)) <= bpow radix2 11) by (rewrite E1, Rmult_1_r; exact N2).
  destruct (mult64_value _ (f64_of_Z 1) 11 ltac:(lia) F F1 N3) as [E' F']. split; [exact F'|].
  rewrite E', E1, Rmult_1_r. split; [apply rnd64_ge; [lia|exact N1]|apply rnd64_bound; [lia|exact N2]].
Qed.

(** Either no motion at all, or a jump: x where the cosines are not small, y where
    the sines are not small *)
Lemma ctra_dichotomy (s : ctra_state D) (dt : f64) :
  (forall x, is_finite x = true -> is_finite (sine x) = true /\ is_finite (cosine x) = true /\
     Rabs (B2R (sine x)) <= 1 /\ Rabs (B2R (cosine x)) <= 1) ->
  is_finite (a_x s : f64) = true -> Rabs (val (a_x s)) <= bpow radix2 60 ->
  is_finite (a_y s : f64) = true -> Rabs (val (a_y s)) <= bpow radix2 60 ->
  is_finite (a_vel s : f64) = true -> Rabs (val (a_vel s)) <= bpow radix2 10 ->
  is_finite (a_rate s : f64) = true -> bpow radix2 (-500) <= Rabs (val (a_rate s)) <= bpow radix2 (-100) ->
  is_finite (a_acc s : f64) = true -> bpow radix2 (-10) <= Rabs (val (a_acc s)) <= bpow radix2 10 ->
  is_finite dt = true -> Rabs (B2R dt) <= bpow radix2 10 ->
  let psi := get_angle (a_yaw s) : f64 in let psi' := get_angle (a_yaw (ctra_next s dt)) : f64 in
  is_finite psi = true -> is_finite psi' = true ->
  (/ 2 <= Rabs (B2R (cosine psi)) -> / 2 <= Rabs (B2R (cosine psi')) ->
   val (a_x (ctra_next s dt)) = val (a_x s) \/ bpow radix2 136 <= Rabs (val (a_x (ctra_next s dt)))) /\
  (/ 2 <= Rabs (B2R (sine psi)) -> / 2 <= Rabs (B2R (sine psi')) ->
   val (a_y (ctra_next s dt)) = val (a_y s) \/ bpow radix2 136 <= Rabs (val (a_y (ctra_next s dt)))).
Proof.
  intros TR Fx Bx Fy By Fv Bv Fw Bw Fa Ba Fd Bd psi psi' Fp Fp'.
  assert (N0 : nnear0 D (a_rate s) = false).
  { rewrite (near0_double _ _ _ _ Fw), dbl_min_bpow.
    assert (bpow radix2 (-1022) <= bpow radix2 (-500)) by (apply bpow_le; lia). destruct (Rlt_dec _ _); [lra|reflexivity]. }
  destruct (TR psi Fp) as (Fs & Fc & Bs & Bc). destruct (TR psi' Fp') as (Fs' & Fc' & Bs' & Bc').
  set (v := a_vel s : f64) in *. set (w := a_rate s : f64) in *. set (a := a_acc s : f64) in *.
  set (v' := Bplus mode_NE v (Bmult mode_NE a dt)).
  assert (V : is_finite v' = true /\ Rabs (B2R v') <= bpow radix2 22).
  { assert (M : Rabs (B2R a * B2R dt) <= bpow radix2 20).
    { rewrite Rabs_mult. change 20%Z with (10 + 10)%Z. rewrite bpow_plus. apply Rmult_le_compat; try apply Ba; auto using Rabs_pos. }
    destruct (mult64_value a dt 20 ltac:(lia) Fa Fd M) as [E F].
    assert (M' : Rabs (B2R (Bmult mode_NE a dt)) <= bpow radix2 20) by (rewrite E; apply rnd64_bound; [lia|exact M]).
    assert (A : Rabs (B2R v + B2R (Bmult mode_NE a dt)) <= bpow radix2 22).
    { eapply Rle_trans; [apply Rabs_triang|]. assert (bpow radix2 10 <= bpow radix2 20) by (apply bpow_le; lia).
      change 22%Z with (20 + 1 + 1)%Z. rewrite !double_bpow. pose proof (bpow_gt_0 radix2 20). lra. }
    destruct (plus64_value v _ 22 ltac:(lia) Fv F A) as [E2 F2]. split; [exact F2|]. unfold v'. rewrite E2. apply rnd64_bound; [lia|exact A]. }
  destruct V as [Fv' Bv'].
  assert (Bv2 : Rabs (B2R v) <= bpow radix2 22) by (eapply Rle_trans; [exact Bv|apply bpow_le; lia]).
  assert (Fo : is_finite (Bopp v') = true) by now rewrite is_finite_Bopp.
  assert (Bo : Rabs (B2R (Bopp v')) <= bpow radix2 22) by now rewrite B2R_Bopp, Rabs_Ropp.
  assert (EX : a_x (ctra_next s dt) = Bplus mode_NE (a_x s : f64) (Bmult mode_NE (Bdiv mode_NE (f64_of_Z 1) (Bmult mode_NE w w))
         (Bminus mode_NE (Bminus mode_NE (Bplus mode_NE (Bmult mode_NE (Bmult mode_NE v' w) (sine psi'))
             (Bmult mode_NE (Bmult mode_NE a (cosine psi')) (f64_of_Z 1)))
             (Bmult mode_NE (Bmult mode_NE v w) (sine psi))) (Bmult mode_NE (Bmult mode_NE a (cosine psi)) (f64_of_Z 1))))
      /\ a_y (ctra_next s dt) = Bplus mode_NE (a_y s : f64) (Bmult mode_NE (Bdiv mode_NE (f64_of_Z 1) (Bmult mode_NE w w))
         (Bminus mode_NE (Bplus mode_NE (Bplus mode_NE (Bmult mode_NE (Bmult mode_NE (Bopp v') w) (cosine psi'))
             (Bmult mode_NE (Bmult mode_NE a (sine psi')) (f64_of_Z 1)))
             (Bmult mode_NE (Bmult mode_NE v w) (cosine psi))) (Bmult mode_NE (Bmult mode_NE a (sine psi)) (f64_of_Z 1))))).
  { unfold psi', ctra_next. change (nnear0 D (a_rate s) = false) in N0. rewrite N0. split; reflexivity. }
  destruct EX as [-> ->]. split; intros H H'.
  - destruct (tiny_term v' w (sine psi') Fv' Fw Fs' Bv' (proj2 Bw) Bs') as [F1 B1].
    destruct (tiny_term v w (sine psi) Fv Fw Fs Bv2 (proj2 Bw) Bs) as [F3 B3].
    destruct (large_term a (cosine psi') Fa Fc' Ba (conj H' Bc')) as [F2 B2].
    destruct (large_term a (cosine psi) Fa Fc Ba (conj H Bc)) as [F4 B4].
    destruct (bracket_tiny _ _ _ _ _ (or_introl eq_refl) F1 F2 F3 F4 B2 B4 B1 B3) as [Fb Bb].
    exact (proj2 (last_tiny (a_x s) w _ Fx Bx Fw Bw Fb Bb)).
  - destruct (tiny_term (Bopp v') w (cosine psi') Fo Fw Fc' Bo (proj2 Bw) Bc') as [F1 B1].
    destruct (tiny_term v w (cosine psi) Fv Fw Fc Bv2 (proj2 Bw) Bc) as [F3 B3].
    destruct (large_term a (sine psi') Fa Fs' Ba (conj H' Bs')) as [F2 B2].
    destruct (large_term a (sine psi) Fa Fs Ba (conj H Bs)) as [F4 B4].
    destruct (bracket_tiny _ _ _ _ _ (or_intror eq_refl) F1 F2 F3 F4 B2 B4 B1 B3) as [Fb Bb].
    exact (proj2 (last_tiny (a_y s) w _ Fy By Fw Bw Fb Bb)).
Qed.
End Tiny.

(** ** What exact arithmetic says about such a state *)
Lemma cos_near_one t : 1 - t * t / 2 <= cos t.
Proof.
  replace t with (2 * (t / 2)) at 3 by field. rewrite cos_2a_sin. pose proof (sin_lipschitz (t / 2) 0) as H.
  rewrite sin_0, !Rminus_0_r in H. pose proof (Rabs_pos (sin (t / 2))) as P.
  assert (Q : sin (t / 2) * sin (t / 2) <= t / 2 * (t / 2)).
  { rewrite <- (Rabs_pos_eq (sin (t / 2) * sin (t / 2))) by apply Rle_0_sqr.
    rewrite <- (Rabs_pos_eq (t / 2 * (t / 2))) by apply Rle_0_sqr. rewrite !Rabs_mult. apply Rmult_le_compat; assumption. }
  nra.
Qed.
Lemma ctra_exact_motion (s : ctra_state reals) (psi t : R) : a_yaw s = angleR psi -> dbl_min <= Rabs (a_rate s) ->
  0 <= psi <= 1 -> 0 < t -> Rabs (a_rate s) * t <= / 10 -> 0 <= a_vel s -> 0 <= a_acc s ->
  a_vel s * t / 3 <= a_x (ctra_next s t) - a_x s <= (a_vel s + a_acc s * t) * t.
Proof.
  intros Y W Hp Ht HW Hv Ha.
  assert (OC : on_circle (a_yaw s)) by (rewrite Y; apply circle_of).
  assert (RR : regular_rate (a_rate s)) by (right; exact W).
  destruct (ctra_solves s OC RR) as [Z Hd].
  destruct (MVT_cor2 (fun u => a_x (ctra_next s u)) (fun u => a_vel (ctra_next s u) * cos (get_angle (a_yaw (ctra_next s u)))) 0 t Ht) as (c & E & Hc).
  { intros u _. exact (proj1 (Hd u)). }
  rewrite Z, Rminus_0_r in E. cbv beta in E. rewrite E. destruct (Hd c) as (_ & _ & EV & _ & _ & k & Ek).
  rewrite EV, Ek.
  assert (EC : cos (get_angle (a_yaw s) + a_rate s * c + IZR k * (2 * PI)) = cos (psi + a_rate s * c)).
  { rewrite Y. destruct (get_angle_spec psi) as [_ [j Ej]]. apply same_turn_cos. exists (j + k)%Z. rewrite Ej, plus_IZR. ring. }
  rewrite EC. set (th := psi + a_rate s * c).
  assert (B : - / 10 <= a_rate s * c <= / 10).
  { apply Rabs_le_inv. rewrite Rabs_mult, (Rabs_pos_eq c) by lra. pose proof (Rabs_pos (a_rate s)). nra. }
  assert (C1 : / 3 <= cos th <= 1).
  { split; [|apply COS_bound]. pose proof (cos_near_one th). assert (th * th <= 1.1 * 1.1 + 0) by (unfold th; nra). lra. }
  assert (0 <= a_acc s * c <= a_acc s * t) by (split; [apply Rmult_le_pos; lra|apply Rmult_le_compat_l; lra]).
  split; [|apply Rmult_le_compat_r; [lra|nra]].
  replace (a_vel s * t / 3) with (a_vel s * / 3 * t) by field. apply Rmult_le_compat_r; [lra|]. nra.
Qed.

Lemma ctra_exact_velocity (s : ctra_state reals) (t : R) : a_vel (ctra_next s t) = a_vel s + a_acc s * t.
Proof. unfold ctra_next. destruct (nnear0 reals (a_rate s)); reflexivity. Qed.

(** ** The two side by side *)
Lemma cos_enough t : Rabs t <= 0.95 -> / 2 + / 1000 <= cos t.
Proof.
  intros H. pose proof (cos_near_one t). assert (t * t <= 0.95 * 0.95 + 0).
  { rewrite <- (Rabs_pos_eq (t * t)) by apply Rle_0_sqr. rewrite Rabs_mult. pose proof (Rabs_pos t). nra. }
  lra.
Qed.
Lemma ctra_slow sine cosine phase (s : ctra_state (doubles sine cosine phase)) (dt : f64) :
  accurate sine cosine phase -> ordinary_ctra _ _ _ s -> is_finite dt = true ->
  0 < B2R dt <= bpow radix2 10 -> 0 <= B2R (a_vel s : f64) <= bpow radix2 10 -> bpow radix2 (-10) <= B2R (a_acc s : f64) <= bpow radix2 10 ->
  bpow radix2 (-500) <= Rabs (B2R (a_rate s : f64)) <= bpow radix2 (-100) -> B2R (get_angle (a_yaw s) : f64) <= 0.9 ->
  let s' := ctra_next s dt in let e := ctra_next (exact_ctra _ _ _ s) (B2R dt) in
  (B2R (a_x s' : f64) = B2R (a_x s : f64) \/ bpow radix2 136 <= Rabs (B2R (a_x s' : f64))) /\
  B2R (a_vel s : f64) * B2R dt / 3 <= a_x e - B2R (a_x s : f64) <= (B2R (a_vel s : f64) + B2R (a_acc s : f64) * B2R dt) * B2R dt.
Proof.
  intros ACC O Fd [D1 D2] [V1 V2] [A1 A2] [W1 W2] HP s' e.
  pose proof (bpow_gt_0 radix2 (-10)) as P10. pose proof (oa_yaw _ _ _ _ O) as [Fp Rp].
  assert (ED : Rabs (B2R dt) = B2R dt) by (apply Rabs_pos_eq; lra).
  assert (BW : Rabs (B2R (a_rate s : f64)) * B2R dt <= / 1000).
  { apply Rle_trans with (bpow radix2 (-100) * bpow radix2 10); [apply Rmult_le_compat; auto using Rabs_pos; lra|].
    rewrite <- bpow_plus. apply Rle_trans with (bpow radix2 (-10)); [apply bpow_le; lia|]. change (bpow radix2 (-10)) with (/ 1024). lra. }
  assert (B8 : Rabs (B2R (a_rate s : f64) * B2R dt) < 8) by (rewrite Rabs_mult, ED; lra).
  assert (D30 : Rabs (B2R dt) <= bpow radix2 30).
  { rewrite ED. apply Rle_trans with (bpow radix2 10); [exact D2|]. apply bpow_le. lia. }
  destruct (ctra_rest_accurate _ _ _ ACC s dt O Fd D30 B8) as (_ & _ & [Fp' Rp'] & TC & _). fold s' in Fp', TC. fold e in TC.
  set (psi := B2R (get_angle (a_yaw s) : f64)) in *. split.
  - assert (EE : exists k : Z, get_angle (a_yaw e) = psi + B2R (a_rate s : f64) * B2R dt + IZR k * (2 * PI)).
    { destruct (ctra_solves (exact_ctra _ _ _ s) (circle_of psi)) as [_ Hd].
      { right. cbn. rewrite dbl_min_bpow. eapply Rle_trans; [|exact W1]. apply bpow_le. lia. }
      destruct (Hd (B2R dt)) as (_ & _ & _ & _ & _ & k & Ek). destruct (get_angle_spec psi) as [_ [j Ej]]. exists (j + k)%Z.
      unfold e. rewrite Ek. cbn [exact_ctra a_yaw a_rate]. fold psi. rewrite Ej, plus_IZR. cbn [num reals]. ring. }
    destruct EE as [k Ek].
    assert (C' : / 2 <= Rabs (B2R (cosine (get_angle (a_yaw s') : f64)))).
    { destruct (acc_cos _ _ _ ACC _ Fp') as (_ & _ & H). pose proof (turn_close_cos _ _ _ TC) as T.
      assert (E2 : cos (get_angle (a_yaw e)) = cos (psi + B2R (a_rate s : f64) * B2R dt)).
      { apply same_turn_cos. exists k. exact Ek. }
      rewrite E2 in T.
      assert (C : / 2 + / 1000 <= cos (psi + B2R (a_rate s : f64) * B2R dt)).
      { apply cos_enough. eapply Rle_trans; [apply Rabs_triang|]. rewrite Rabs_mult, ED, (Rabs_pos_eq psi); lra. }
      change (bpow radix2 (-52)) with (/ 4503599627370496) in H. change (bpow radix2 (-47)) with (/ 140737488355328) in T.
      apply Rabs_le_inv in H, T. eapply Rle_trans; [|apply Rle_abs]. lra. }
    assert (C : / 2 <= Rabs (B2R (cosine (get_angle (a_yaw s) : f64)))).
    { destruct (acc_cos _ _ _ ACC _ Fp) as (_ & _ & H). fold psi in H.
      assert (C : / 2 + / 1000 <= cos psi) by (apply cos_enough; rewrite Rabs_pos_eq; lra).
      change (bpow radix2 (-52)) with (/ 4503599627370496) in H. apply Rabs_le_inv in H. eapply Rle_trans; [|apply Rle_abs]. lra. }
    assert (TR : forall x, is_finite x = true -> is_finite (sine x) = true /\ is_finite (cosine x) = true /\
      Rabs (B2R (sine x)) <= 1 /\ Rabs (B2R (cosine x)) <= 1).
    { intros x F. destruct (acc_sin _ _ _ ACC x F) as (? & ? & _). destruct (acc_cos _ _ _ ACC x F) as (? & ? & _). tauto. }
    refine (proj1 (ctra_dichotomy sine cosine phase s dt TR (oa_fx _ _ _ _ O) (oa_x _ _ _ _ O) (oa_fy _ _ _ _ O) (oa_y _ _ _ _ O)
      (oa_fv _ _ _ _ O) _ (oa_fw _ _ _ _ O) (conj W1 W2) (oa_fa _ _ _ _ O) _ Fd _ Fp Fp') C C').
    + rewrite Rabs_pos_eq; lra.
    + rewrite Rabs_pos_eq; lra.
    + lra.
  - apply (ctra_exact_motion (exact_ctra _ _ _ s) psi (B2R dt)); cbn [exact_ctra a_yaw a_rate a_vel a_acc]; try lra.
    + reflexivity.
    + rewrite dbl_min_bpow. eapply Rle_trans; [|exact W1]. apply bpow_le. lia.
Qed.
