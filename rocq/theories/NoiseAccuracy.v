(** One prediction with process noise in double precision against exact arithmetic. *)
From Coq Require Import ZArith Reals Lra Lia Bool Psatz.
From Flocq Require Import Core IEEE754.BinarySingleNaN.
From Verif Require Import Float FloatProofs Motion RealArith DoubleArith DoubleThms MotionThms SumSquares64 PiDouble TrigSpec AngleAccuracy
  MotionAccuracy MotionMany Approx64 CtraAccuracy.
Local Open Scope R_scope.

Lemma half64_value : B2R half64 = / 2 /\ is_finite half64 = true.
Proof.
  unfold half64. pose proof (binary_normalize_correct 53 1024 _ _ mode_NE 1 (-1) false) as C.
  cbn [Fnum Fexp] in C. unfold F2R in C. cbn [Fnum Fexp round_mode] in C. rewrite Rmult_1_l in C.
  rewrite round_generic in C; [|typeclasses eauto|apply fmt64_bpow; lia].
  rewrite Rlt_bool_true in C; [tauto|]. rewrite Rabs_pos_eq by apply bpow_ge_0. apply bpow_lt. lia.
Qed.

Section Noise.
Variables (sine cosine : f64 -> f64) (phase : f64 -> f64 -> f64).
Hypothesis ACC : accurate sine cosine phase.
Notation D := (doubles sine cosine phase).
Notation val x := (B2R (x : f64)).
Local Opaque Bplus Bminus Bmult Bdiv Bopp get_angle f64_of_Z half64.

(** half a times dt squared, as half a *)
Lemma half_near (a : f64) : is_finite a = true -> Rabs (B2R a) <= bpow radix2 60 ->
  near 1 (bpow radix2 (-1011)) (Rabs (B2R a) / 2) (B2R a / 2) (Bmult mode_NE half64 a).
Proof.
  intros Fa Ba. destruct half64_value as [Eh Fh].
  assert (B1 : Rabs (B2R half64) <= bpow radix2 60).
  { rewrite Eh, Rabs_pos_eq by lra. apply Rle_trans with (bpow radix2 0); [change (bpow radix2 0) with 1; lra|apply bpow_le; lia]. }
  pose proof (mul_near 0 0 (-1075) 60 _ _ _ _ half64 a (self_near 0 _ half64 Fh ltac:(lra)) (self_near 0 _ a Fa ltac:(lra)) ltac:(lra) ltac:(lra) ltac:(lra)
    ltac:(lia) ltac:(lia) B1 Ba) as N. rewrite Eh in N. rewrite (Rabs_pos_eq (/ 2)) in N by lra.
  replace (B2R a / 2) with (/ 2 * B2R a) by field. refine (raise _ _ _ _ _ _ _ _ N _ _ _); [lra|lia|lra].
Qed.
Lemma square_near (dt : f64) : is_finite dt = true -> Rabs (B2R dt) <= bpow radix2 30 ->
  near 1 (bpow radix2 (-1011)) (B2R dt * B2R dt) (B2R dt * B2R dt) (Bmult mode_NE dt dt).
Proof.
  intros Fd Bd.
  pose proof (mul_near 0 0 (-1075) 60 _ _ _ _ dt dt (self_near 0 _ dt Fd ltac:(lra)) (self_near 0 _ dt Fd ltac:(lra)) ltac:(lra) ltac:(lra) ltac:(lra)
    ltac:(lia) ltac:(lia) (le_bpow _ 30 60 Bd ltac:(lia)) (le_bpow _ 30 60 Bd ltac:(lia))) as N.
  assert (E : Rabs (B2R dt) * Rabs (B2R dt) = B2R dt * B2R dt) by (rewrite <- Rabs_mult; apply Rabs_pos_eq, Rle_0_sqr). rewrite E in N.
  refine (raise _ _ _ _ _ _ _ _ N _ _ _); [lra|lia|lra].
Qed.
Lemma square_size (dt : f64) : Rabs (B2R dt) <= bpow radix2 30 -> 0 <= B2R dt * B2R dt <= bpow radix2 60.
Proof.
  intros H. split; [apply Rle_0_sqr|]. change 60%Z with (30 + 30)%Z. rewrite bpow_plus.
  replace (B2R dt * B2R dt) with (Rabs (B2R dt) * Rabs (B2R dt)) by (rewrite <- Rabs_mult; apply Rabs_pos_eq, Rle_0_sqr).
  apply Rmult_le_compat; auto using Rabs_pos.
Qed.

(** The addition to a position *)
Lemma noise_position (x a c dt : f64) (C : R) : is_finite x = true -> Rabs (B2R x) <= bpow radix2 100 ->
  is_finite a = true -> Rabs (B2R a) <= bpow radix2 60 -> is_finite dt = true -> Rabs (B2R dt) <= bpow radix2 30 ->
  near 1 (bpow radix2 (-911)) 1 C c ->
  let r := Bplus mode_NE x (Bmult mode_NE (Bmult mode_NE (Bmult mode_NE half64 a) c) (Bmult mode_NE dt dt)) in
  is_finite r = true /\
  Rabs (B2R r - (B2R x + B2R a * B2R dt ^ 2 / 2 * C)) <=
    bpow radix2 (-49) * (Rabs (B2R x) + Rabs (B2R a) * B2R dt ^ 2 / 2) + bpow radix2 (-700).
Proof.
  intros Fx Bx Fa Ba Fd Bd Nc r. pose proof (half_near a Fa Ba) as Nh. pose proof (square_near dt Fd Bd) as Ns.
  destruct (square_size dt Bd) as [S0 S1]. pose proof (Rabs_pos (B2R a)) as Pa.
  assert (B1 : Rabs (B2R a) / 2 <= bpow radix2 60) by lra.
  assert (L1 : 1 <= bpow radix2 60) by (change 1 with (bpow radix2 0); apply bpow_le; lia).
  assert (Nh' : near 1 (bpow radix2 (-911)) (Rabs (B2R a) / 2) (B2R a / 2) (Bmult mode_NE half64 a)).
  { refine (raise _ _ _ _ _ _ _ _ Nh _ _ _); [lra|lia|lra]. }
  pose proof (mul_near _ _ (-911) 60 _ _ _ _ _ _ Nh' Nc ltac:(lra) ltac:(lra) ltac:(lra) ltac:(lia) ltac:(lia) B1 L1) as N1.
  assert (Ns' : near 1 (bpow radix2 (-911 + 60 + 4)) (B2R dt * B2R dt) (B2R dt * B2R dt) (Bmult mode_NE dt dt)).
  { refine (raise _ _ _ _ _ _ _ _ Ns _ _ _); [lra|lia|lra]. }
  assert (B2 : Rabs (B2R a) / 2 * 1 <= bpow radix2 60) by lra.
  pose proof (mul_near _ _ (-911 + 60 + 4) 60 _ _ _ _ _ _ N1 Ns' ltac:(lra) ltac:(lra) ltac:(lra) ltac:(lia) ltac:(lia) B2 S1) as N2.
  assert (B3 : Rabs (B2R a) / 2 * 1 * (B2R dt * B2R dt) <= bpow radix2 120).
  { change 120%Z with (60 + 60)%Z. rewrite bpow_plus. apply Rmult_le_compat; lra. }
  pose proof (add_near _ _ 120 _ _ _ _ x _ (self_near (1 + 1 + 1 + 1 + 1) _ x Fx ltac:(lra)) N2 ltac:(lra) ltac:(lia) ltac:(lia)
    (le_bpow _ 100 120 Bx ltac:(lia)) B3) as (F & _ & E).
  split; [exact F|].
  replace (B2R a * B2R dt ^ 2 / 2 * C) with (B2R a / 2 * C * (B2R dt * B2R dt)) by field.
  eapply Rle_trans; [exact E|].
  replace (Rabs (B2R a) * B2R dt ^ 2 / 2) with (Rabs (B2R a) / 2 * 1 * (B2R dt * B2R dt)) by field.
  apply Rplus_le_compat; [|apply bpow_le; lia]. apply Rmult_le_compat_r.
  { assert (0 <= Rabs (B2R a) / 2 * 1 * (B2R dt * B2R dt)) by (apply Rmult_le_pos; lra). pose proof (Rabs_pos (B2R x)). lra. }
  rewrite u52_value. change (bpow radix2 (-49)) with (/ 562949953421312). lra.
Qed.

(** The addition to a velocity or to a rate *)
Lemma noise_rate (v a dt : f64) : is_finite v = true -> is_finite a = true -> is_finite dt = true ->
  Rabs (B2R v) <= bpow radix2 100 -> Rabs (B2R a) <= bpow radix2 60 -> Rabs (B2R dt) <= bpow radix2 30 ->
  let r := Bplus mode_NE v (Bmult mode_NE a dt) in
  is_finite r = true /\
  Rabs (B2R r - (B2R v + B2R a * B2R dt)) <= bpow radix2 (-51) * (Rabs (B2R v) + Rabs (B2R a * B2R dt)) + bpow radix2 (-1000).
Proof.
  intros Fv Fa Fd Bv Ba Bd r.
  pose proof (mul_near 0 0 (-1075) 60 _ _ _ _ a dt (self_near 0 _ a Fa ltac:(lra)) (self_near 0 _ dt Fd ltac:(lra)) ltac:(lra) ltac:(lra) ltac:(lra)
    ltac:(lia) ltac:(lia) Ba (le_bpow _ 30 60 Bd ltac:(lia))) as N1.
  assert (B1 : Rabs (B2R a) * Rabs (B2R dt) <= bpow radix2 100).
  { apply Rle_trans with (bpow radix2 (60 + 30)); [|apply bpow_le; lia]. rewrite bpow_plus. apply Rmult_le_compat; auto using Rabs_pos. }
  pose proof (add_near (0 + 0 + 1) (-1075 + 60 + 4) 100 _ _ _ _ v _ (self_near (0 + 0 + 1) _ v Fv ltac:(lra)) N1 ltac:(lra) ltac:(lia) ltac:(lia)
    Bv B1) as (F & _ & E).
  split; [exact F|]. rewrite Rabs_mult. eapply Rle_trans; [exact E|].
  apply Rplus_le_compat; [|apply bpow_le; lia]. apply Rmult_le_compat_r.
  { pose proof (Rmult_le_pos _ _ (Rabs_pos (B2R a)) (Rabs_pos (B2R dt))). pose proof (Rabs_pos (B2R v)). lra. }
  rewrite u52_value. change (bpow radix2 (-51)) with (/ 2251799813685248). lra.
Qed.

(** The addition to a heading *)
Lemma noise_heading (z : angle D) (a dt : f64) (h : R) : proper _ _ _ z -> is_finite a = true -> is_finite dt = true ->
  Rabs (B2R a) <= bpow radix2 60 -> Rabs (B2R dt) <= bpow radix2 30 -> Rabs (B2R a) * B2R dt ^ 2 <= 16 ->
  turn_close (bpow radix2 (-47)) (val (get_angle z)) h ->
  let z' := angle_add z (angle_of (A := D) (Bmult mode_NE (Bmult mode_NE half64 a) (Bmult mode_NE dt dt))) in
  proper _ _ _ z' /\ turn_close (bpow radix2 (-45)) (val (get_angle z')) (h + B2R a * B2R dt ^ 2 / 2).
Proof.
  intros Pz Fa Fd Ba Bd B16 Hz z'. pose proof (half_near a Fa Ba) as Nh. pose proof (square_near dt Fd Bd) as Ns.
  destruct (square_size dt Bd) as [S0 S1]. pose proof (Rabs_pos (B2R a)) as Pa.
  assert (B1 : Rabs (B2R a) / 2 <= bpow radix2 60) by lra.
  pose proof (mul_near _ _ (-1011) 60 _ _ _ _ _ _ Nh Ns ltac:(lra) ltac:(lra) ltac:(lra) ltac:(lia) ltac:(lia) B1 S1) as (F & _ & E).
  set (m := Bmult mode_NE (Bmult mode_NE half64 a) (Bmult mode_NE dt dt)) in *.
  destruct (angle_add_accurate _ _ _ ACC z _ Pz (angle_of_proper _ _ _ ACC m F)) as [P H]. fold z' in P, H.
  split; [exact P|]. destruct (angle_roundtrip _ _ _ ACC m F) as (_ & _ & K).
  assert (Em : Rabs (B2R m - B2R a * B2R dt ^ 2 / 2) <= 25 * u52).
  { replace (B2R a * B2R dt ^ 2 / 2) with (B2R a / 2 * (B2R dt * B2R dt)) by field. eapply Rle_trans; [exact E|].
    assert (T : bpow radix2 (-1011 + 60 + 4) <= bpow radix2 (-52)) by (apply bpow_le; lia). fold u52 in T.
    replace (Rabs (B2R a) / 2 * (B2R dt * B2R dt)) with (Rabs (B2R a) * B2R dt ^ 2 / 2) by field. pose proof u52_small as U.
    assert (u52 * (Rabs (B2R a) * B2R dt ^ 2 / 2) <= u52 * 8) by (apply Rmult_le_compat_l; lra). lra. }
  apply turn_close_le with (12.1 * u52 + (bpow radix2 (-47) + (8.1 * u52 + 25 * u52))).
  { rewrite u52_value. change (bpow radix2 (-45)) with (/ 35184372088832). change (bpow radix2 (-47)) with (/ 140737488355328). lra. }
  eapply turn_close_trans2; [exact H|]. apply turn_close_add; [exact Hz|]. eapply turn_close_trans; [exact K|exact Em].
Qed.

Lemma same_close d x y z : turn_close d x y -> same_turn z y -> turn_close d x z.
Proof.
  intros H [k E]. rewrite <- (Rplus_0_r d). eapply turn_close_trans2; [exact H|]. exists (- k)%Z. rewrite E, opp_IZR.
  replace (y - (y + IZR k * (2 * PI) + - IZR k * (2 * PI))) with 0 by ring. rewrite Rabs_R0. lra.
Qed.
Lemma shift_error r x X y b : Rabs (r - (x + y)) <= b -> Rabs (r - (X + y)) <= Rabs (x - X) + b.
Proof.
  intros H. replace (r - (X + y)) with ((x - X) + (r - (x + y))) by ring. eapply Rle_trans; [apply Rabs_triang|]. lra.
Qed.
Lemma heading_trig (psi : f64) : is_finite psi = true ->
  near 1 (bpow radix2 (-911)) 1 (sin (get_angle (angleR (B2R psi)))) (sine psi) /\
  near 1 (bpow radix2 (-911)) 1 (cos (get_angle (angleR (B2R psi)))) (cosine psi).
Proof.
  intros F. pose proof (exact_heading (B2R psi) 0) as E2. rewrite !Rplus_0_r in E2.
  rewrite (same_turn_sin _ _ E2), (same_turn_cos _ _ E2).
  destruct (sine_near _ _ _ ACC psi (B2R psi) 0 F ltac:(lra)) as [S C].
  { rewrite Rmult_0_l. apply turn_close_refl. }
  rewrite Rplus_0_l in S, C. split; assumption.
Qed.

(** Reasonable noise *)
Lemma ctrv_noise_accurate (s : ctrv_state D) (la aa dt : f64) : ordinary_ctrv _ _ _ s -> is_finite dt = true ->
  Rabs (B2R dt) <= bpow radix2 30 -> Rabs (val (v_rate s) * B2R dt) < 8 ->
  is_finite la = true -> Rabs (B2R la) <= bpow radix2 60 -> is_finite aa = true -> Rabs (B2R aa) <= bpow radix2 60 ->
  Rabs (B2R aa) * B2R dt ^ 2 <= 16 ->
  Rabs (val (v_vel s)) <= bpow radix2 100 -> Rabs (val (v_rate s)) <= bpow radix2 100 ->
  let p := ctrv_next s dt in let r := ctrv_next_noise s dt (Noise (A := D) la aa) in
  let ep := ctrv_next (exact_ctrv _ _ _ s) (B2R dt) in
  let er := ctrv_next_noise (exact_ctrv _ _ _ s) (B2R dt) (Noise (A := reals) (B2R la) (B2R aa)) in
  let half := Rabs (B2R la) * B2R dt ^ 2 / 2 in
  is_finite (v_x p : f64) = true -> Rabs (val (v_x p)) <= bpow radix2 100 ->
  is_finite (v_y p : f64) = true -> Rabs (val (v_y p)) <= bpow radix2 100 ->
  is_finite (v_x r : f64) = true /\ is_finite (v_y r : f64) = true /\ is_finite (v_vel r : f64) = true /\ is_finite (v_rate r : f64) = true /\
  Rabs (val (v_x r) - v_x er) <= Rabs (val (v_x p) - v_x ep) + (bpow radix2 (-49) * (Rabs (val (v_x p)) + half) + bpow radix2 (-700)) /\
  Rabs (val (v_y r) - v_y er) <= Rabs (val (v_y p) - v_y ep) + (bpow radix2 (-49) * (Rabs (val (v_y p)) + half) + bpow radix2 (-700)) /\
  Rabs (val (v_vel r) - (val (v_vel s) + B2R la * B2R dt)) <=
    bpow radix2 (-51) * (Rabs (val (v_vel s)) + Rabs (B2R la * B2R dt)) + bpow radix2 (-1000) /\
  Rabs (val (v_rate r) - (val (v_rate s) + B2R aa * B2R dt)) <=
    bpow radix2 (-51) * (Rabs (val (v_rate s)) + Rabs (B2R aa * B2R dt)) + bpow radix2 (-1000) /\
  proper _ _ _ (v_yaw r) /\ turn_close (bpow radix2 (-45)) (val (get_angle (v_yaw r))) (get_angle (v_yaw er)).
Proof.
  intros O Fd Bd B8 Fl Bl Fa Ba B16 Bv Bw p r ep er half Fx Bx Fy By.
  destruct (noise_ctrv (exact_ctrv _ _ _ s) (B2R dt) (Noise (A := reals) (B2R la) (B2R aa))) as (Ex & Ey & _ & Eh & _).
  fold ep er in Ex, Ey, Eh. cbn [n_lin n_ang] in Ex, Ey, Eh. cbn [exact_ctrv v_yaw] in Ex, Ey.
  destruct (ctrv_heading_accurate _ _ _ ACC s dt O Fd B8) as (Ev & Ew & Pp & Hp). fold p ep in Ev, Ew, Pp, Hp.
  destruct (heading_trig (get_angle (v_yaw s)) (proj1 (oc_yaw _ _ _ _ O))) as [S C].
  destruct (noise_position (v_x p) la _ dt _ Fx Bx Fl Bl Fd Bd C) as [F1 E1].
  destruct (noise_position (v_y p) la _ dt _ Fy By Fl Bl Fd Bd S) as [F2 E2].
  destruct (noise_rate (v_vel s) la dt (oc_fv _ _ _ _ O) Fl Fd Bv Bl Bd) as [F3 E3].
  destruct (noise_rate (v_rate s) aa dt (oc_fw _ _ _ _ O) Fa Fd Bw Ba Bd) as [F4 E4].
  destruct (noise_heading (v_yaw p) aa dt _ Pp Fa Fd Ba Bd B16 Hp) as [P5 E5].
  assert (Rv : v_vel r = Bplus mode_NE (v_vel s : f64) (Bmult mode_NE la dt)) by (rewrite <- Ev; reflexivity).
  assert (Rw : v_rate r = Bplus mode_NE (v_rate s : f64) (Bmult mode_NE aa dt)) by (rewrite <- Ew; reflexivity).
  rewrite Rv, Rw, Ex, Ey. unfold half.
  repeat (split; [assumption|]). split; [|split; [|split; [|split; [|split]]]].
  - apply shift_error. exact E1.
  - apply shift_error. exact E2.
  - exact E3.
  - exact E4.
  - exact P5.
  - eapply same_close; [exact E5|exact Eh].
Qed.

Lemma ctra_noise_accurate (s : ctra_state D) (la aa dt : f64) : ordinary_ctra _ _ _ s -> is_finite dt = true ->
  Rabs (B2R dt) <= bpow radix2 30 -> Rabs (val (a_rate s) * B2R dt) < 8 ->
  is_finite la = true -> Rabs (B2R la) <= bpow radix2 60 -> is_finite aa = true -> Rabs (B2R aa) <= bpow radix2 60 ->
  Rabs (B2R aa) * B2R dt ^ 2 <= 16 ->
  let p := ctra_next s dt in let r := ctra_next_noise s dt (Noise (A := D) la aa) in
  let ep := ctra_next (exact_ctra _ _ _ s) (B2R dt) in
  let er := ctra_next_noise (exact_ctra _ _ _ s) (B2R dt) (Noise (A := reals) (B2R la) (B2R aa)) in
  let half := Rabs (B2R la) * B2R dt ^ 2 / 2 in
  is_finite (a_x p : f64) = true -> Rabs (val (a_x p)) <= bpow radix2 100 ->
  is_finite (a_y p : f64) = true -> Rabs (val (a_y p)) <= bpow radix2 100 ->
  is_finite (a_x r : f64) = true /\ is_finite (a_y r : f64) = true /\ is_finite (a_vel r : f64) = true /\ is_finite (a_rate r : f64) = true /\
  is_finite (a_acc r : f64) = true /\
  Rabs (val (a_x r) - a_x er) <= Rabs (val (a_x p) - a_x ep) + (bpow radix2 (-49) * (Rabs (val (a_x p)) + half) + bpow radix2 (-700)) /\
  Rabs (val (a_y r) - a_y er) <= Rabs (val (a_y p) - a_y ep) + (bpow radix2 (-49) * (Rabs (val (a_y p)) + half) + bpow radix2 (-700)) /\
  Rabs (val (a_vel r) - (val (a_vel s) + (val (a_acc s) + B2R la) * B2R dt)) <=
    bpow radix2 (-50) * (Rabs (val (a_vel s)) + Rabs (val (a_acc s) * B2R dt) + Rabs (B2R la * B2R dt)) + bpow radix2 (-900) /\
  Rabs (val (a_rate r) - (val (a_rate s) + B2R aa * B2R dt)) <=
    bpow radix2 (-51) * (Rabs (val (a_rate s)) + Rabs (B2R aa * B2R dt)) + bpow radix2 (-1000) /\
  Rabs (val (a_acc r) - (val (a_acc s) + B2R la)) <= bpow radix2 (-51) * (Rabs (val (a_acc s)) + Rabs (B2R la)) + bpow radix2 (-1000) /\
  proper _ _ _ (a_yaw r) /\ turn_close (bpow radix2 (-45)) (val (get_angle (a_yaw r))) (get_angle (a_yaw er)).
Proof.
  intros O Fd Bd B8 Fl Bl Fa Ba B16 p r ep er half Fx Bx Fy By.
  destruct (noise_ctra (exact_ctra _ _ _ s) (B2R dt) (Noise (A := reals) (B2R la) (B2R aa))) as (Ex & Ey & _ & Eh & _ & _).
  fold ep er in Ex, Ey, Eh. cbn [n_lin n_ang] in Ex, Ey, Eh. cbn [exact_ctra a_yaw] in Ex, Ey.
  destruct (ctra_rest_accurate _ _ _ ACC s dt O Fd Bd B8) as (_ & _ & Pp & Hp & Ew & Ec). fold p ep in Ew, Ec, Pp, Hp.
  destruct (heading_trig (get_angle (a_yaw s)) (proj1 (oa_yaw _ _ _ _ O))) as [S C].
  destruct (noise_position (a_x p) la _ dt _ Fx Bx Fl Bl Fd Bd C) as [F1 E1].
  destruct (noise_position (a_y p) la _ dt _ Fy By Fl Bl Fd Bd S) as [F2 E2].
  assert (L : bpow radix2 60 <= bpow radix2 100) by (apply bpow_le; lia).
  destruct (noise_rate (a_rate s) aa dt (oa_fw _ _ _ _ O) Fa Fd ltac:(pose proof (oa_w _ _ _ _ O); lra) Ba Bd) as [F4 E4].
  destruct (noise_heading (a_yaw p) aa dt _ Pp Fa Fd Ba Bd B16 Hp) as [P5 E5].
  pose proof (velocity_near (a_vel s) (a_acc s) dt (oa_fv _ _ _ _ O) (oa_fa _ _ _ _ O) Fd (oa_v _ _ _ _ O) (oa_a _ _ _ _ O) Bd) as Nv.
  pose proof (mul_near 0 0 (-1075) 60 _ _ _ _ la dt (self_near 0 _ la Fl ltac:(lra)) (self_near 0 _ dt Fd ltac:(lra)) ltac:(lra) ltac:(lra) ltac:(lra)
    ltac:(lia) ltac:(lia) Bl (le_bpow _ 30 60 Bd ltac:(lia))) as Nl.
  assert (Bq : forall a, Rabs a <= bpow radix2 60 -> 0 <= Rabs a * Rabs (B2R dt) <= bpow radix2 90).
  { intros a H. split; [apply Rmult_le_pos; apply Rabs_pos|]. change 90%Z with (60 + 30)%Z. rewrite bpow_plus.
    apply Rmult_le_compat; auto using Rabs_pos. }
  assert (Nl' : near 2 (bpow radix2 (-1008)) (Rabs (B2R la) * Rabs (B2R dt)) (B2R la * B2R dt) (Bmult mode_NE la dt)).
  { refine (raise _ _ _ _ _ _ _ _ Nl _ _ _); [lra|lia|lra]. }
  pose proof (Bq _ Bl) as Q1. pose proof (Bq _ (oa_a _ _ _ _ O)) as Q2.
  assert (L2 : bpow radix2 60 <= bpow radix2 90) by (apply bpow_le; lia).
  assert (BV : Rabs (val (a_vel s)) + Rabs (val (a_acc s)) * Rabs (B2R dt) <= bpow radix2 91).
  { change 91%Z with (90 + 1)%Z. rewrite double_bpow. pose proof (oa_v _ _ _ _ O). lra. }
  pose proof (add_near 2 (-1008) 91 _ _ _ _ _ _ Nv Nl' ltac:(lra) ltac:(lia) ltac:(lia) BV (le_bpow _ 90 91 (proj2 Q1) ltac:(lia))) as (F3 & _ & E3).
  pose proof (add_near 0 (-1075) 60 _ _ _ _ (a_acc s) la (self_near 0 _ _ (oa_fa _ _ _ _ O) ltac:(lra)) (self_near 0 _ la Fl ltac:(lra))
    ltac:(lra) ltac:(lia) ltac:(lia) (oa_a _ _ _ _ O) Bl) as (F6 & _ & E6).
  assert (Rw : a_rate r = Bplus mode_NE (a_rate s : f64) (Bmult mode_NE aa dt)) by (rewrite <- Ew; reflexivity).
  assert (Rc : a_acc r = Bplus mode_NE (a_acc s : f64) la) by (rewrite <- Ec; reflexivity).
  assert (Rv : a_vel r = Bplus mode_NE (Bplus mode_NE (a_vel s : f64) (Bmult mode_NE (a_acc s : f64) dt)) (Bmult mode_NE la dt)).
  { transitivity (Bplus mode_NE (a_vel p : f64) (Bmult mode_NE la dt)); [reflexivity|]. f_equal.
    unfold p, ctra_next. destruct (nnear0 D (a_rate s)); reflexivity. }
  rewrite Rv, Rw, Rc, Ex, Ey. unfold half.
  repeat (split; [assumption|]). split; [|split; [|split; [|split; [|split; [|split]]]]].
  - apply shift_error. exact E1.
  - apply shift_error. exact E2.
  - replace (val (a_vel s) + (val (a_acc s) + B2R la) * B2R dt) with (val (a_vel s) + val (a_acc s) * B2R dt + B2R la * B2R dt) by ring.
    rewrite !Rabs_mult. eapply Rle_trans; [exact E3|]. apply Rplus_le_compat; [|apply bpow_le; lia]. apply Rmult_le_compat_r.
    { pose proof (Rabs_pos (val (a_vel s))). lra. }
    rewrite u52_value. change (bpow radix2 (-50)) with (/ 1125899906842624). lra.
  - exact E4.
  - eapply Rle_trans; [exact E6|]. apply Rplus_le_compat; [|apply bpow_le; lia]. apply Rmult_le_compat_r.
    { pose proof (Rabs_pos (val (a_acc s))). pose proof (Rabs_pos (B2R la)). lra. }
    rewrite u52_value. change (bpow radix2 (-51)) with (/ 2251799813685248). lra.
  - exact P5.
  - eapply same_close; [exact E5|exact Eh].
Qed.
End Noise.
