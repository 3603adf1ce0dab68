(** How accurate sigma points and their predictions are in double precision. *)
From Coq Require Import ZArith Reals Lra Lia Bool List Arith Psatz.
From Flocq Require Import Core IEEE754.BinarySingleNaN.
From Verif Require Import Float FloatProofs Motion RealArith DoubleArith DoubleThms SumSquares64 PiDouble TrigSpec
  AngleAccuracy MotionAccuracy EqDouble CtraTiny FloatPredict.
Local Open Scope R_scope.

(** A rounded number and an exact one *)
Definition rel64 (x : f64) (r : R) : Prop := is_finite x = true /\ exists e, Rabs e <= u64 /\ B2R x = r * (1 + e).
Lemma rel64_refl (x : f64) : is_finite x = true -> rel64 x (B2R x).
Proof. intros F. split; [exact F|]. exists 0. split; [rewrite Rabs_R0; apply bpow_ge_0|ring]. Qed.
Lemma rel64_near (x : f64) r : rel64 x r -> Rabs (B2R x - r) <= u64 * Rabs r.
Proof.
  intros (_ & e & He & ->). replace (r * (1 + e) - r) with (e * r) by ring. rewrite Rabs_mult.
  apply Rmult_le_compat_r; [apply Rabs_pos|exact He].
Qed.
Lemma rel64_size (x : f64) r : rel64 x r -> Rabs (B2R x) <= (1 + u64) * Rabs r.
Proof.
  intros H. pose proof (rel64_near x r H) as N. replace (B2R x) with (r + (B2R x - r)) by ring.
  eapply Rle_trans; [apply Rabs_triang|]. lra.
Qed.

Section Sums.
Variables (x y : f64).
Hypotheses (Fx : is_finite x = true) (Fy : is_finite y = true)
  (Bx : Rabs (B2R x) <= bpow radix2 60) (By : Rabs (B2R y) <= bpow radix2 60).
Lemma size61 a b : Rabs a <= bpow radix2 60 -> Rabs b <= bpow radix2 60 -> Rabs (a + b) <= bpow radix2 61.
Proof.
  intros Ha Hb. eapply Rle_trans; [apply Rabs_triang|]. change 61%Z with (60 + 1)%Z. rewrite bpow_plus.
  change (bpow radix2 1) with 2. lra.
Qed.
Lemma plus_rel : rel64 (Bplus mode_NE x y) (B2R x + B2R y).
Proof.
  destruct (plus64_value x y 61 ltac:(lia) Fx Fy (size61 _ _ Bx By)) as [E F]. split; [exact F|].
  rewrite E. apply rnd64_add; apply fmt_B2R.
Qed.
Lemma minus_rel : rel64 (Bminus mode_NE x y) (B2R x - B2R y).
Proof.
  assert (By' : Rabs (- B2R y) <= bpow radix2 60) by now rewrite Rabs_Ropp.
  destruct (minus64_value x y 61 ltac:(lia) Fx Fy (size61 _ _ Bx By')) as [E F]. split; [exact F|].
  rewrite E. apply rnd64_add; [apply fmt_B2R|apply generic_format_opp, fmt_B2R].
Qed.
Lemma plus_small : Rabs (B2R (Bplus mode_NE x y)) < dbl_min <-> Rabs (B2R x + B2R y) < dbl_min.
Proof.
  destruct (plus64_value x y 61 ltac:(lia) Fx Fy (size61 _ _ Bx By)) as [E _]. rewrite E, dbl_min_bpow.
  split; intros H.
  - apply Rnot_le_lt. intros G. apply (rnd64_ge _ (-1022) ltac:(lia)) in G. lra.
  - pose proof (diff_exact x (Bopp y)) as DE. rewrite B2R_Bopp in DE. unfold Rminus in DE. rewrite Ropp_involutive in DE.
    now rewrite DE.
Qed.
Lemma minus_small : Rabs (B2R (Bminus mode_NE x y)) < dbl_min <-> Rabs (B2R x - B2R y) < dbl_min.
Proof.
  assert (By' : Rabs (- B2R y) <= bpow radix2 60) by now rewrite Rabs_Ropp.
  destruct (minus64_value x y 61 ltac:(lia) Fx Fy (size61 _ _ Bx By')) as [E _]. rewrite E, dbl_min_bpow.
  split; intros H.
  - apply Rnot_le_lt. intros G. apply (rnd64_ge _ (-1022) ltac:(lia)) in G. lra.
  - now rewrite diff_exact.
Qed.
End Sums.

(** ** The exact prediction from two states close to each other *)
Lemma ratio_close v w v' w' a b : v = v' * (1 + a) -> w = w' * (1 + b) -> Rabs a <= u64 -> Rabs b <= u64 -> w' <> 0 ->
  exists c, Rabs c <= 3 * u64 /\ v / w = v' / w' * (1 + c).
Proof.
  intros -> -> Ha Hb Hw. assert (U : 0 < u64 <= / 1000000000) by (unfold u64; cbn; lra).
  apply Rabs_le_inv in Ha, Hb. exists ((a - b) / (1 + b)). split.
  - unfold Rdiv. rewrite Rabs_mult, (Rabs_pos_eq (/ (1 + b))) by (left; apply Rinv_0_lt_compat; lra).
    apply Rmult_le_reg_r with (1 + b); [lra|]. rewrite Rmult_assoc, Rinv_l, Rmult_1_r by lra.
    assert (Rabs (a - b) <= 2 * u64) by (apply Rabs_le; lra). nra.
  - field. split; [lra|exact Hw].
Qed.
Definition wave (f : R -> R) : Prop :=
  (forall x y, Rabs (f x - f y) <= Rabs (x - y)) /\ (forall x, Rabs (f x) <= 1) /\ (forall x y, same_turn x y -> f x = f y).
Lemma wave_sin : wave sin.
Proof. split; [apply sin_lipschitz|]. split; [intros; apply Rabs_le, SIN_bound|apply same_turn_sin]. Qed.
Lemma wave_cos : wave cos.
Proof. split; [apply cos_lipschitz|]. split; [intros; apply Rabs_le, COS_bound|apply same_turn_cos]. Qed.
Lemma wave_close f d x y : wave f -> turn_close d x y -> Rabs (f x - f y) <= d.
Proof.
  intros (L & _ & T) [k H]. rewrite (T y (y + IZR k * (2 * PI))); [|exists (- k)%Z; rewrite opp_IZR; ring].
  eapply Rle_trans; [apply L|exact H].
Qed.
Lemma arc_close f d v w v' w' psi psi' t a b : wave f -> v = v' * (1 + a) -> w = w' * (1 + b) -> Rabs a <= u64 -> Rabs b <= u64 ->
  w' <> 0 -> turn_close d psi psi' -> Rabs (w' * t) <= 8 ->
  Rabs (v / w * (f (psi + w * t) - f psi) - v' / w' * (f (psi' + w' * t) - f psi')) <= Rabs (v' / w') * (2 * d + 14 * u64).
Proof.
  intros W Hv Hw Ha Hb W0 HT Bt. destruct (ratio_close v w v' w' a b Hv Hw Ha Hb W0) as (c & Hc & ->).
  assert (T2 : turn_close (d + 8 * u64) (psi + w * t) (psi' + w' * t)).
  { replace (psi + w * t) with (psi + (w' * t + w' * t * b)) by (rewrite Hw; ring).
    apply turn_close_add; [exact HT|]. exists 0%Z.
    replace (w' * t + w' * t * b - (w' * t + 0 * (2 * PI))) with (w' * t * b) by ring. rewrite Rabs_mult.
    apply Rmult_le_compat; try apply Rabs_pos; assumption. }
  pose proof (wave_close f _ _ _ W T2) as S1. pose proof (wave_close f _ _ _ W HT) as S2.
  destruct W as (_ & B & _). pose proof (B (psi + w * t)) as B1. pose proof (B psi) as B2.
  set (p := f (psi + w * t)) in *. set (q := f psi) in *. set (p' := f (psi' + w' * t)) in *. set (q' := f psi') in *.
  replace (v' / w' * (1 + c) * (p - q) - v' / w' * (p' - q')) with (v' / w' * ((p - p') - (q - q') + c * (p - q))) by ring.
  rewrite Rabs_mult. apply Rmult_le_compat_l; [apply Rabs_pos|].
  eapply Rle_trans; [apply Rabs_triang|]. rewrite Rabs_mult.
  assert (Rabs (p - p' - (q - q')) <= 2 * d + 8 * u64).
  { apply Rabs_le_inv in S1, S2. apply Rabs_le. lra. }
  assert (Rabs (p - q) <= 2) by (apply Rabs_le_inv in B1, B2; apply Rabs_le; lra).
  assert (Rabs c * Rabs (p - q) <= 3 * u64 * 2) by (apply Rmult_le_compat; auto using Rabs_pos).
  lra.
Qed.
Lemma line_close f d v v' psi psi' t a : wave f -> v = v' * (1 + a) -> Rabs a <= u64 -> turn_close d psi psi' ->
  Rabs (v * f psi * t - v' * f psi' * t) <= Rabs (v' * t) * (d + u64).
Proof.
  intros W -> Ha HT. pose proof (wave_close f _ _ _ W HT) as S. destruct W as (_ & B & _). pose proof (B psi) as B1.
  replace (v' * (1 + a) * f psi * t - v' * f psi' * t) with (v' * t * ((f psi - f psi') + a * f psi)) by ring.
  rewrite Rabs_mult. apply Rmult_le_compat_l; [apply Rabs_pos|]. eapply Rle_trans; [apply Rabs_triang|].
  rewrite Rabs_mult. assert (Rabs a * Rabs (f psi) <= u64 * 1) by (apply Rmult_le_compat; auto using Rabs_pos). lra.
Qed.

Lemma next_turn (e : ctrv_state reals) (t : R) : dbl_min <= Rabs (v_rate e : R) ->
  v_x (ctrv_next e t) = (v_x e : R) + (v_vel e : R) / (v_rate e : R) * (sin (get_angle (v_yaw e) + (v_rate e : R) * t) - sin (get_angle (v_yaw e))) /\
  v_y (ctrv_next e t) = (v_y e : R) - (v_vel e : R) / (v_rate e : R) * (cos (get_angle (v_yaw e) + (v_rate e : R) * t) - cos (get_angle (v_yaw e))) /\
  v_vel (ctrv_next e t) = v_vel e /\ v_rate (ctrv_next e t) = v_rate e.
Proof.
  intros H. unfold ctrv_next. cbn [nnear0 reals]. destruct (Rlt_dec _ _) as [L|_]; [lra|].
  cbn [v_x v_y v_vel v_rate nadd nsub nmul ndiv nsin ncos n1 num reals]. repeat split; ring.
Qed.
Lemma next_line (e : ctrv_state reals) (t : R) : Rabs (v_rate e : R) < dbl_min ->
  v_x (ctrv_next e t) = (v_x e : R) + (v_vel e : R) * cos (get_angle (v_yaw e)) * t /\
  v_y (ctrv_next e t) = (v_y e : R) + (v_vel e : R) * sin (get_angle (v_yaw e)) * t /\
  v_vel (ctrv_next e t) = v_vel e /\ v_rate (ctrv_next e t) = v_rate e.
Proof.
  intros H. unfold ctrv_next. cbn [nnear0 reals]. destruct (Rlt_dec _ _) as [_|L]; [|lra]. repeat split.
Qed.
Lemma next_yaw (e : ctrv_state reals) (t : R) :
  same_turn (get_angle (v_yaw (ctrv_next e t))) (get_angle (v_yaw e) + (v_rate e : R) * t).
Proof.
  assert (E : v_yaw (ctrv_next e t) = angle_add (v_yaw e) (angleR ((v_rate e : R) * t))).
  { unfold ctrv_next. cbn [nnear0 reals]. destruct (Rlt_dec _ _); reflexivity. }
  rewrite E. eapply same_turn_trans; [apply angle_add_spec|]. apply same_turn_add; [apply same_turn_refl|apply get_angle_spec].
Qed.
Lemma turn_close_same d x y z : turn_close d x y -> same_turn z y -> turn_close d x z.
Proof.
  intros [k H] [j E]. exists (k - j)%Z. rewrite E, minus_IZR.
  replace (x - (y + IZR j * (2 * PI) + (IZR k - IZR j) * (2 * PI))) with (x - (y + IZR k * (2 * PI))) by ring. exact H.
Qed.
Lemma turn_close_sym d x y : turn_close d x y -> turn_close d y x.
Proof.
  intros [k H]. exists (- k)%Z. rewrite opp_IZR, <- Rabs_Ropp.
  replace (- (y - (x + - IZR k * (2 * PI)))) with (x - (y + IZR k * (2 * PI))) by ring. exact H.
Qed.

Section Sigma.
Variables (sine cosine : f64 -> f64) (phase : f64 -> f64 -> f64).
Hypothesis ACC : accurate sine cosine phase.
Notation D := (doubles sine cosine phase).
Notation val x := (B2R (x : f64)).
Notation exact_ctrv := (exact_ctrv sine cosine phase).
Notation ordinary_ctrv := (ordinary_ctrv sine cosine phase).

(** The heading of an angle and an exact one *)
Definition near_angle (d : R) (z : angle D) (a : rangle) : Prop :=
  proper sine cosine phase z /\ turn_close d (val (get_angle z)) (get_angle a).
Lemma near_sum (z : angle D) (f : f32) : proper sine cosine phase z -> is_finite f = true ->
  near_angle (bpow radix2 (-47)) (angle_add z (angle_of (A := D) (f64_of_f32 f)))
    (angle_add (angleR (val (get_angle z))) (angleR (B2R f))) /\
  near_angle (bpow radix2 (-47)) (angle_sub z (angle_of (A := D) (f64_of_f32 f)))
    (angle_sub (angleR (val (get_angle z))) (angleR (B2R f))).
Proof.
  intros P Ff. destruct (conv64 f Ff) as [Ef Ff']. pose proof (angle_of_proper _ _ _ ACC _ Ff') as Pf.
  destruct (angle_roundtrip _ _ _ ACC _ Ff') as (_ & _ & T). rewrite Ef in T.
  destruct (angle_add_accurate _ _ _ ACC _ _ P Pf) as [P1 H1].
  destruct (angle_sub_accurate _ _ _ ACC _ _ P Pf) as [P2 H2].
  set (g := get_angle (angle_of (A := D) (f64_of_f32 f)) : f64) in *. set (a := val (get_angle z)) in *.
  assert (U : 20.2 * u52 + 0 <= bpow radix2 (-47)).
  { rewrite u52_value. change (bpow radix2 (-47)) with (/ 140737488355328). lra. }
  destruct T as [k Hk]. destruct (get_angle_spec a) as [_ [ka Ea]]. destruct (get_angle_spec (B2R f)) as [_ [kf Ef']].
  split; (split; [assumption|]); (eapply turn_close_le; [exact U|]).
  - eapply turn_close_trans2.
    + apply turn_close_le with (12.1 * u52 + 8.1 * u52); [lra|]. eapply turn_close_trans2; [exact H1|].
      exists k. replace (a + B2R g - (a + B2R f + IZR k * (2 * PI))) with (B2R g - (B2R f + IZR k * (2 * PI))) by ring. exact Hk.
    + destruct (angle_add_spec (angleR a) (angleR (B2R f))) as [j Ej]. rewrite Ej, Ea, Ef'.
      exists (- ka - kf - j)%Z. rewrite !minus_IZR, opp_IZR. apply Req_le. rewrite <- Rabs_R0. f_equal. ring.
  - eapply turn_close_trans2.
    + apply turn_close_le with (10.1 * u52 + 8.1 * u52); [rewrite u52_value; lra|]. eapply turn_close_trans2; [exact H2|].
      exists (- k)%Z. rewrite opp_IZR.
      replace (a - B2R g - (a - B2R f + - IZR k * (2 * PI))) with (- (B2R g - (B2R f + IZR k * (2 * PI)))) by ring.
      rewrite Rabs_Ropp. exact Hk.
    + assert (S : same_turn (get_angle (angle_sub (angleR a) (angleR (B2R f)))) (get_angle (angleR a) - get_angle (angleR (B2R f))))
        by apply get_angle_spec.
      destruct S as [j Ej]. rewrite Ej, Ea, Ef'.
      exists (- ka + kf - j)%Z. rewrite !minus_IZR, plus_IZR, opp_IZR. apply Req_le. rewrite <- Rabs_R0. f_equal. ring.
Qed.

Record near_ctrv (s : ctrv_state D) (e : ctrv_state reals) : Prop := {
  nc_x : rel64 (v_x s) (v_x e); nc_y : rel64 (v_y s) (v_y e); nc_v : rel64 (v_vel s) (v_vel e); nc_w : rel64 (v_rate s) (v_rate e);
  nc_0 : Rabs (val (v_rate s)) < dbl_min <-> Rabs (v_rate e : R) < dbl_min;
  nc_yaw : near_angle (bpow radix2 (-47)) (v_yaw s) (v_yaw e)
}.
Definition exact_from (d : nat -> f32) : ctrv_state reals :=
  CtrvState (A := reals) (B2R (d 0%nat)) (B2R (d 1%nat)) (B2R (d 2%nat)) (angleR (B2R (d 3%nat))) (B2R (d 4%nat)).

Lemma exact_near s : ordinary_ctrv s -> near_ctrv s (exact_ctrv s).
Proof.
  intros [Fx Bx Fy By Fv Fw P]. constructor; cbn [exact_ctrv v_x v_y v_vel v_rate v_yaw]; try now apply rel64_refl.
  - reflexivity.
  - split; [exact P|]. destruct (get_angle_spec (val (get_angle (v_yaw s)))) as [_ [k E]]. rewrite E.
    exists (- k)%Z. rewrite opp_IZR.
    match goal with |- Rabs ?a <= _ => replace a with 0 by ring end. rewrite Rabs_R0. apply bpow_ge_0.
Qed.
Lemma sigma_near s (d : nat -> f32) : ordinary_ctrv s ->
  Rabs (val (v_vel s)) <= bpow radix2 60 -> Rabs (val (v_rate s)) <= bpow radix2 60 ->
  (forall i, (i < 5)%nat -> is_finite (d i) = true /\ Rabs (B2R (d i)) <= bpow radix2 60) ->
  near_ctrv (ctrv_add s (ctrv_from32 sine cosine phase d)) (ctrv_add (exact_ctrv s) (exact_from d)) /\
  near_ctrv (ctrv_sub s (ctrv_from32 sine cosine phase d)) (ctrv_sub (exact_ctrv s) (exact_from d)).
Proof.
  intros [Fx Bx Fy By Fv Fw P] Bv Bw Hd.
  assert (C : forall i, (i < 5)%nat -> is_finite (f64_of_f32 (d i)) = true /\ B2R (f64_of_f32 (d i)) = B2R (d i) /\
    Rabs (B2R (f64_of_f32 (d i))) <= bpow radix2 60).
  { intros i Hi. destruct (Hd i Hi) as [F B]. destruct (conv64 (d i) F) as [E F']. rewrite E. auto. }
  destruct (C 0%nat) as (F0 & E0 & B0); [lia|]. destruct (C 1%nat) as (F1 & E1 & B1); [lia|].
  destruct (C 2%nat) as (F2 & E2 & B2); [lia|]. destruct (C 4%nat) as (F4 & E4 & B4); [lia|].
  destruct (near_sum (v_yaw s) (d 3%nat) P) as [N1 N2]; [apply Hd; lia|].
  split.
  - constructor; cbn [ctrv_add exact_ctrv exact_from ctrv_from32 v_x v_y v_vel v_rate v_yaw]; [| | | | |exact N1].
    + change (nadd reals (val (v_x s)) (B2R (d 0%nat))) with (val (v_x s) + B2R (d 0%nat)). rewrite <- E0. now apply plus_rel.
    + change (nadd reals (val (v_y s)) (B2R (d 1%nat))) with (val (v_y s) + B2R (d 1%nat)). rewrite <- E1. now apply plus_rel.
    + change (nadd reals (val (v_vel s)) (B2R (d 2%nat))) with (val (v_vel s) + B2R (d 2%nat)). rewrite <- E2. now apply plus_rel.
    + change (nadd reals (val (v_rate s)) (B2R (d 4%nat))) with (val (v_rate s) + B2R (d 4%nat)). rewrite <- E4. now apply plus_rel.
    + change (nadd reals (val (v_rate s)) (B2R (d 4%nat))) with (val (v_rate s) + B2R (d 4%nat)). rewrite <- E4. now apply plus_small.
  - constructor; cbn [ctrv_sub exact_ctrv exact_from ctrv_from32 v_x v_y v_vel v_rate v_yaw]; [| | | | |exact N2].
    + change (nsub reals (val (v_x s)) (B2R (d 0%nat))) with (val (v_x s) - B2R (d 0%nat)). rewrite <- E0. now apply minus_rel.
    + change (nsub reals (val (v_y s)) (B2R (d 1%nat))) with (val (v_y s) - B2R (d 1%nat)). rewrite <- E1. now apply minus_rel.
    + change (nsub reals (val (v_vel s)) (B2R (d 2%nat))) with (val (v_vel s) - B2R (d 2%nat)). rewrite <- E2. now apply minus_rel.
    + change (nsub reals (val (v_rate s)) (B2R (d 4%nat))) with (val (v_rate s) - B2R (d 4%nat)). rewrite <- E4. now apply minus_rel.
    + change (nsub reals (val (v_rate s)) (B2R (d 4%nat))) with (val (v_rate s) - B2R (d 4%nat)). rewrite <- E4. now apply minus_small.
Qed.
(** The prediction from a state near an exact one *)
Lemma near_next s e (dt : f64) : near_ctrv s e -> is_finite dt = true -> Rabs (B2R dt) <= bpow radix2 30 ->
  Rabs (v_x e : R) <= bpow radix2 59 -> Rabs (v_y e : R) <= bpow radix2 59 -> Rabs (v_vel e : R) <= bpow radix2 59 ->
  Rabs ((v_rate e : R) * B2R dt) <= 7 ->
  let q := if Rlt_dec (Rabs (v_rate e : R)) dbl_min then Rabs ((v_vel e : R) * B2R dt) else Rabs ((v_vel e : R) / (v_rate e : R)) in
  q <= bpow radix2 59 ->
  let s' := ctrv_next s dt in let e' := ctrv_next e (B2R dt) in
  is_finite (v_x s' : f64) = true /\ is_finite (v_y s' : f64) = true /\
  Rabs (val (v_x s') - v_x e') <= bpow radix2 (-44) * (Rabs (v_x e : R) + q) + bpow radix2 (-1000) /\
  Rabs (val (v_y s') - v_y e') <= bpow radix2 (-44) * (Rabs (v_y e : R) + q) + bpow radix2 (-1000) /\
  rel64 (v_vel s') (v_vel e') /\ rel64 (v_rate s') (v_rate e') /\
  near_angle (bpow radix2 (-45)) (v_yaw s') (v_yaw e').
Proof.
  intros [Hx Hy Hv Hw H0 [P HT]] Fd Bd Bx By Bv Bt q Bq s' e'.
  assert (U : u64 = / 9007199254740992) by (unfold u64; cbn; lra).
  assert (U52 := u52_value).
  assert (E48 : bpow radix2 (-48) = / 281474976710656) by (cbn; lra).
  assert (E47 : bpow radix2 (-47) = / 140737488355328) by (cbn; lra).
  assert (E44 : bpow radix2 (-44) = / 17592186044416) by (cbn; lra).
  assert (E45 : bpow radix2 (-45) = / 35184372088832) by (cbn; lra).
  assert (K60 : bpow radix2 60 = 2 * bpow radix2 59) by (change 60%Z with (59 + 1)%Z; rewrite bpow_plus; change (bpow radix2 1) with 2; ring).
  pose proof (bpow_gt_0 radix2 59) as P59.
  pose proof (rel64_size _ _ Hx) as Sx. pose proof (rel64_size _ _ Hy) as Sy. pose proof (rel64_size _ _ Hv) as Sv.
  pose proof (rel64_near _ _ Hx) as Nx. pose proof (rel64_near _ _ Hy) as Ny.
  pose proof Hx as [Fx _]. pose proof Hy as [Fy _]. pose proof Hv as [Fv (a & Ha & Ev)]. pose proof Hw as [Fw (b & Hb & Ew)].
  pose proof (Rabs_pos (v_x e : R)) as Px. pose proof (Rabs_pos (v_y e : R)) as Py. pose proof (Rabs_pos (v_vel e : R)) as Pv.
  assert (O : ordinary_ctrv s).
  { constructor; try assumption; rewrite K60; rewrite U in *; lra. }
  assert (Bw8 : Rabs (val (v_rate s) * B2R dt) < 8).
  { rewrite Ew. replace ((v_rate e : R) * (1 + b) * B2R dt) with ((v_rate e : R) * B2R dt * (1 + b)) by ring. rewrite Rabs_mult.
    assert (Rabs (1 + b) <= 1 + u64) by (apply Rabs_le_inv in Hb; apply Rabs_le; rewrite U in *; lra).
    apply Rle_lt_trans with (7 * (1 + u64)); [apply Rmult_le_compat; auto using Rabs_pos|rewrite U; lra]. }
  destruct (ctrv_heading_accurate _ _ _ ACC s dt O Fd Bw8) as (V1 & W1 & P1 & T1).
  assert (HA : near_angle (bpow radix2 (-45)) (v_yaw s') (v_yaw e')).
  { split; [exact P1|]. apply turn_close_le with (bpow radix2 (-47) + (bpow radix2 (-47) + 8 * u64)); [rewrite E45, E47, U; lra|].
    eapply turn_close_trans2; [exact T1|]. eapply turn_close_same; [|apply next_yaw].
    apply turn_close_sym. eapply turn_close_same; [|apply next_yaw]. apply turn_close_sym.
    cbn [exact_ctrv v_yaw v_rate]. apply turn_close_add.
    - apply turn_close_sym. eapply turn_close_same; [|apply get_angle_spec]. apply turn_close_sym. exact HT.
    - exists 0%Z. rewrite Ew.
      match goal with |- Rabs ?z <= _ => replace z with ((v_rate e : R) * B2R dt * b) by ring end. rewrite Rabs_mult.
      apply Rmult_le_compat; try apply Rabs_pos; [lra|assumption]. }
  assert (VE : v_vel e' = v_vel e /\ v_rate e' = v_rate e).
  { unfold e', ctrv_next. destruct (nnear0 reals (v_rate e)); split; reflexivity. }
  destruct VE as [VE WE].
  assert (Tail : rel64 (v_vel s') (v_vel e') /\ rel64 (v_rate s') (v_rate e') /\ near_angle (bpow radix2 (-45)) (v_yaw s') (v_yaw e')).
  { unfold s'. rewrite V1, W1, VE, WE. split; [exact Hv|]. split; [exact Hw|exact HA]. }
  assert (HT' : turn_close (bpow radix2 (-47)) (get_angle (angleR (val (get_angle (v_yaw s))))) (get_angle (v_yaw e))).
  { apply turn_close_sym. eapply turn_close_same; [|apply get_angle_spec]. apply turn_close_sym. exact HT. }
  clear HA T1 P1 HT. revert q Bq.
  destruct (Rlt_dec (Rabs (v_rate e : R)) dbl_min) as [L|L]; intros q Bq.
  - assert (L' := proj2 H0 L).
    assert (N0 : nnear0 D (v_rate s) = true) by (rewrite (near0_double _ _ _ _ Fw); destruct (Rlt_dec _ _); [reflexivity|lra]).
    assert (Q' : Rabs (val (v_vel s) * B2R dt) <= (1 + u64) * q).
    { rewrite Rabs_mult. unfold q. rewrite Rabs_mult, <- Rmult_assoc. apply Rmult_le_compat_r; [apply Rabs_pos|exact Sv]. }
    assert (Pq : 0 <= q) by apply Rabs_pos.
    destruct (ctrv_straight_accurate _ _ _ ACC s dt O Fd N0) as (F1 & F2 & A1 & A2);
      [rewrite K60; rewrite U in *; lra|exact Bd|rewrite K60; rewrite U in *; lra|].
    destruct (next_line (exact_ctrv s) (B2R dt) L') as (X1 & Y1 & _). rewrite X1 in A1. rewrite Y1 in A2. clear X1 Y1.
    destruct (next_line e (B2R dt) L) as (X2 & Y2 & _). unfold e'. rewrite X2, Y2. clear X2 Y2.
    cbn [exact_ctrv v_x v_y v_vel v_yaw] in A1, A2.
    pose proof (line_close cos _ _ _ _ _ (B2R dt) a wave_cos Ev Ha HT') as C1.
    pose proof (line_close sin _ _ _ _ _ (B2R dt) a wave_sin Ev Ha HT') as C2.
    fold q in C1, C2. split; [exact F1|]. split; [exact F2|].
    change (ctrv_next s dt) with s' in A1, A2. rewrite E47, E48, U in *. apply Rabs_le_inv in A1, A2, C1, C2, Nx, Ny.
    split; [apply Rabs_le; rewrite E44; lra|]. split; [apply Rabs_le; rewrite E44; lra|]. exact Tail.
  - assert (L' : ~ Rabs (val (v_rate s)) < dbl_min) by now rewrite H0.
    assert (N0 : nnear0 D (v_rate s) = false) by (rewrite (near0_double _ _ _ _ Fw); destruct (Rlt_dec _ _); [lra|reflexivity]).
    assert (W0 : (v_rate e : R) <> 0).
    { intros Z. rewrite Z, Rabs_R0 in L. apply L. rewrite dbl_min_bpow. apply bpow_gt_0. }
    assert (Pq : 0 <= q) by apply Rabs_pos.
    assert (Q' : Rabs (val (v_vel s) / val (v_rate s)) <= (1 + 3 * u64) * q).
    { destruct (ratio_close _ _ _ _ a b Ev Ew Ha Hb W0) as (c & Hc & ->). rewrite Rabs_mult, Rmult_comm. fold q.
      apply Rmult_le_compat_r; [exact Pq|]. apply Rabs_le_inv in Hc. apply Rabs_le. rewrite U in *. lra. }
    destruct (ctrv_turn_accurate _ _ _ ACC s dt O Fd N0) as (F1 & F2 & A1 & A2); [rewrite K60; rewrite U in *; lra|exact Bw8|].
    destruct (next_turn (exact_ctrv s) (B2R dt)) as (X1 & Y1 & _); [cbn [exact_ctrv v_rate]; lra|]. rewrite X1 in A1. rewrite Y1 in A2. clear X1 Y1.
    destruct (next_turn e (B2R dt)) as (X2 & Y2 & _); [lra|]. unfold e'. rewrite X2, Y2. clear X2 Y2.
    cbn [exact_ctrv v_x v_y v_vel v_yaw v_rate] in A1, A2.
    assert (Bt8 : Rabs ((v_rate e : R) * B2R dt) <= 8) by lra.
    pose proof (arc_close sin _ _ _ _ _ _ _ (B2R dt) a b wave_sin Ev Ew Ha Hb W0 HT' Bt8) as C1.
    pose proof (arc_close cos _ _ _ _ _ _ _ (B2R dt) a b wave_cos Ev Ew Ha Hb W0 HT' Bt8) as C2.
    fold q in C1, C2. split; [exact F1|]. split; [exact F2|].
    change (ctrv_next s dt) with s' in A1, A2. rewrite E47, E48, U in *. apply Rabs_le_inv in A1, A2, C1, C2, Nx, Ny.
    split; [apply Rabs_le; rewrite E44; lra|]. split; [apply Rabs_le; rewrite E44; lra|]. exact Tail.
Qed.
End Sigma.
