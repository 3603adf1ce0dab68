(** Many CTRV predictions in a row in double precision against exact arithmetic. *)
From Coq Require Import ZArith Reals Lra Lia Bool Psatz.
From Flocq Require Import Core IEEE754.BinarySingleNaN.
From Verif Require Import Float FloatProofs Motion RealArith DoubleArith DoubleThms SumSquares64 PiDouble TrigSpec AngleAccuracy MotionAccuracy.
Local Open Scope R_scope.

Lemma turn_close_sin d x y : turn_close d x y -> Rabs (sin x - sin y) <= d.
Proof.
  intros [k H]. assert (E : sin (y + IZR k * (2 * PI)) = sin y).
  { apply same_turn_sin. exists k. reflexivity. }
  rewrite <- E. eapply Rle_trans; [apply sin_lipschitz|exact H].
Qed.
Lemma turn_close_cos d x y : turn_close d x y -> Rabs (cos x - cos y) <= d.
Proof.
  intros [k H]. assert (E : cos (y + IZR k * (2 * PI)) = cos y).
  { apply same_turn_cos. exists k. reflexivity. }
  rewrite <- E. eapply Rle_trans; [apply cos_lipschitz|exact H].
Qed.

Section Many.
Variables (sine cosine : f64 -> f64) (phase : f64 -> f64 -> f64).
Hypothesis ACC : accurate sine cosine phase.
Notation D := (doubles sine cosine phase).
Notation val x := (B2R (x : f64)).
Notation exact := (exact_ctrv sine cosine phase).
Local Opaque get_angle.

Lemma exact_turn (s : ctrv_state D) (t : R) : ~ Rabs (val (v_rate s)) < dbl_min ->
  let psi := val (get_angle (v_yaw s)) in let w := val (v_rate s) in
  v_x (ctrv_next (exact s) t) = val (v_x s) + val (v_vel s) / w * (sin (psi + w * t) - sin psi) /\
  v_y (ctrv_next (exact s) t) = val (v_y s) - val (v_vel s) / w * (cos (psi + w * t) - cos psi).
Proof.
  intros Nw psi w. unfold ctrv_next. cbn [exact_ctrv v_rate v_x v_y v_vel v_yaw nnear0 reals].
  destruct (Rlt_dec (Rabs (val (v_rate s))) dbl_min); [contradiction|]. cbn [v_x v_y nadd nsub nmul ndiv nsin ncos n1 reals].
  fold psi w. pose proof (exact_heading psi (w * t)) as E1. pose proof (exact_heading psi 0) as E2. rewrite !Rplus_0_r in E2.
  rewrite (same_turn_sin _ _ E1), (same_turn_sin _ _ E2), (same_turn_cos _ _ E1), (same_turn_cos _ _ E2). cbn [num reals]. split; ring.
Qed.
Lemma exact_straight (s : ctrv_state D) (t : R) : Rabs (val (v_rate s)) < dbl_min ->
  let psi := val (get_angle (v_yaw s)) in
  v_x (ctrv_next (exact s) t) = val (v_x s) + val (v_vel s) * cos psi * t /\
  v_y (ctrv_next (exact s) t) = val (v_y s) + val (v_vel s) * sin psi * t.
Proof.
  intros Nw psi. unfold ctrv_next. cbn [exact_ctrv v_rate v_x v_y v_vel v_yaw nnear0 reals].
  destruct (Rlt_dec (Rabs (val (v_rate s))) dbl_min); [|contradiction]. cbn [v_x v_y nadd nsub nmul ndiv nsin ncos n1 reals].
  fold psi. pose proof (exact_heading psi 0) as E2. rewrite !Rplus_0_r in E2.
  rewrite (same_turn_sin _ _ E2), (same_turn_cos _ _ E2). cbn [num reals]. split; ring.
Qed.

Notation steps := (steps sine cosine phase).

Lemma steps_heading n dt (s : ctrv_state D) :
  v_vel (steps n dt s) = v_vel s /\ v_rate (steps n dt s) = v_rate s /\
  v_yaw (steps n dt s) = Nat.iter n (turn_step sine cosine phase (v_rate s) dt) (v_yaw s).
Proof.
  induction n as [|n (I1 & I2 & I3)]; [now repeat split|].
  change (steps (S n) dt s) with (ctrv_next (steps n dt s) dt).
  assert (E : forall z : ctrv_state D, v_vel (ctrv_next z dt) = v_vel z /\ v_rate (ctrv_next z dt) = v_rate z /\
     v_yaw (ctrv_next z dt) = turn_step sine cosine phase (v_rate z) dt (v_yaw z)).
  { intros z. unfold ctrv_next. destruct (nnear0 D (v_rate z)); repeat split. }
  destruct (E (steps n dt s)) as (-> & -> & ->). rewrite I1, I2, I3. now repeat split.
Qed.

(** One step of the accumulation: [b] is the error of the heading per step. *)
Lemma grow (b X q E k loc : R) : 0 < b <= / 100000000000000 -> 0 <= X -> 0 <= q -> 0 <= k <= 1048576 ->
  0 <= E <= k * b * (X + (k + 4) * q) + k * bpow radix2 (-990) ->
  loc <= b / 2 * (X + 3 * q + E) + bpow radix2 (-1000) + 2 * q * (k * b) ->
  E + loc <= (k + 1) * b * (X + (k + 1 + 4) * q) + (k + 1) * bpow radix2 (-990).
Proof.
  intros Hb HX Hq Hk HE HL.
  assert (T : 4 * bpow radix2 (-1000) <= bpow radix2 (-990)).
  { change 4 with (bpow radix2 2). rewrite <- bpow_plus. apply bpow_le. lia. }
  pose proof (bpow_gt_0 radix2 (-1000)) as T0.
  assert (KB : 0 <= k * b <= / 10000000) by nra.
  assert (KX : 0 <= k * b * X <= / 10000000 * X) by (split; [apply Rmult_le_pos; lra|apply Rmult_le_compat_r; lra]).
  assert (KQ : 0 <= k * b * ((k + 4) * q) <= q).
  { assert (A : 0 <= (k + 4) * q <= 1048580 * q) by (split; [apply Rmult_le_pos; lra|apply Rmult_le_compat_r; lra]).
    split; [apply Rmult_le_pos; lra|].
    apply Rle_trans with (/ 10000000 * (1048580 * q)); [apply Rmult_le_compat; lra|lra]. }
  assert (EB : E <= X + q + k * bpow radix2 (-990)) by nra.
  assert (M : b / 2 * E <= b / 2 * (X + q) + bpow radix2 (-990) / 2).
  { assert (b * (k * bpow radix2 (-990)) <= bpow radix2 (-990)) by nra. nra. }
  assert (G : loc <= b * (X + (k + 4) * q) + (k + 1) * b * q + bpow radix2 (-990)) by nra.
  nra.
Qed.

Definition many_bound (n : nat) (X q : R) : R := INR n * bpow radix2 (-47) * (X + (INR n + 4) * q) + INR n * bpow radix2 (-990).
Lemma many_bound_size k X q : (k <= 2 ^ 20)%nat -> 0 <= X -> 0 <= q -> many_bound k X q <= X + q + 1.
Proof.
  intros Hk HX Hq. unfold many_bound. pose proof (pos_INR k).
  assert (K : INR k <= 1048576).
  { replace 1048576 with (INR (2 ^ 20)) by (rewrite pow_INR; cbn; lra). apply le_INR. exact Hk. }
  change (bpow radix2 (-47)) with (/ 140737488355328).
  assert (T : bpow radix2 (-990) <= / 10000000).
  { apply Rle_trans with (bpow radix2 (-53)); [apply bpow_le; lia|]. pose proof u64_small as U. unfold u64 in U. lra. }
  pose proof (bpow_gt_0 radix2 (-990)) as T0.
  set (b := / 140737488355328). assert (Hb : 0 < b <= / 100000000000000) by (unfold b; lra). clearbody b.
  assert (KB : 0 <= INR k * b <= / 10000000) by nra.
  assert (0 <= (INR k + 4) * q <= 1048580 * q) by nra.
  assert (INR k * bpow radix2 (-990) <= 1) by nra.
  assert (INR k * b * X <= X) by nra. assert (INR k * b * ((INR k + 4) * q) <= q) by nra. nra.
Qed.

Lemma sum_small X k q k' : Rabs X <= bpow radix2 50 -> 0 <= q <= bpow radix2 30 -> 0 <= k <= 1048576 -> 0 <= k' <= 1 + Rabs X + q ->
  Rabs X + (k + 2) * q + k' <= bpow radix2 60.
Proof.
  intros. change (bpow radix2 60) with 1152921504606846976. change (bpow radix2 50) with 1125899906842624 in *. change (bpow radix2 30) with 1073741824 in *. nra.
Qed.

Lemma ctrv_many_turn (s : ctrv_state D) (dt : f64) : ordinary_ctrv _ _ _ s -> is_finite dt = true ->
  nnear0 D (v_rate s) = false -> let q := Rabs (val (v_vel s) / val (v_rate s)) in
  q <= bpow radix2 30 -> Rabs (val (v_rate s) * B2R dt) < 8 ->
  Rabs (val (v_x s)) <= bpow radix2 50 -> Rabs (val (v_y s)) <= bpow radix2 50 ->
  forall n, (n <= 2 ^ 20)%nat ->
  let s' := steps n dt s in let e := ctrv_next (exact s) (INR n * B2R dt) in
  ordinary_ctrv _ _ _ s' /\
  Rabs (val (v_x s') - v_x e) <= many_bound n (Rabs (val (v_x s))) q /\
  Rabs (val (v_y s') - v_y e) <= many_bound n (Rabs (val (v_y s))) q.
Proof.
  intros O Fd N q Hq B BX BY. pose proof N as N0. rewrite (near0_double _ _ _ _ (oc_fw _ _ _ _ O)) in N.
  destruct (Rlt_dec (Rabs (val (v_rate s))) dbl_min) as [?|Nw]; [discriminate|]. clear N.
  assert (Q0 : 0 <= q) by apply Rabs_pos.
  assert (SC : forall psi w t, Rabs (sin (psi + w * t) - sin psi) <= 2 /\ Rabs (cos (psi + w * t) - cos psi) <= 2).
  { intros. pose proof (SIN_bound (psi + w * t)). pose proof (SIN_bound psi). pose proof (COS_bound (psi + w * t)). pose proof (COS_bound psi).
    split; apply Rabs_le; lra. }
  induction n as [|n IH]; intros Hn s' e.
  - split; [exact O|]. unfold s', e, many_bound. change (steps 0 dt s) with s.
    destruct (exact_turn s (INR 0 * B2R dt) Nw) as [-> ->]. cbn [INR]. rewrite !Rmult_0_l, !Rmult_0_r, !Rplus_0_r.
    split; match goal with |- Rabs ?x <= _ => replace x with 0 by ring end; rewrite Rabs_R0; lra.
  - destruct (IH ltac:(lia)) as (On & Ex & Ey). clear IH.
    set (z := steps n dt s) in *. destruct (steps_heading n dt s) as (Ev & Ew & Eyaw). fold z in Ev, Ew, Eyaw.
    set (k := INR n) in *.
    assert (K : 0 <= k <= 1048575).
    { unfold k. split; [apply pos_INR|]. replace 1048575 with (INR (2 ^ 20) - 1) by (rewrite pow_INR; cbn; lra).
      assert (H : INR (S n) <= INR (2 ^ 20)) by (apply le_INR; exact Hn). rewrite S_INR in H. lra. }
    destruct (turn_many _ _ _ ACC (v_rate s) dt (v_yaw s) n (oc_yaw _ _ _ _ O) (oc_fw _ _ _ _ O) Fd B) as [_ TC].
    rewrite <- Eyaw in TC. fold k in TC.
    destruct (exact_turn s (k * B2R dt) Nw) as [X1 Y1].
    destruct (exact_turn s (INR (S n) * B2R dt) Nw) as [X2 Y2].
    destruct (ctrv_turn_accurate _ _ _ ACC z dt On Fd) as (Fx' & Fy' & Lx & Ly).
    { rewrite Ew. exact N0. } { rewrite Ev, Ew. fold q. eapply Rle_trans; [exact Hq|apply bpow_le; lia]. } { rewrite Ew. exact B. }
    destruct (ctrv_heading_accurate _ _ _ ACC z dt On Fd) as (V' & W' & P' & _). { rewrite Ew. exact B. }
    destruct (exact_turn z (B2R dt)) as [X3 Y3]. { rewrite Ew. exact Nw. }
    rewrite Ev, Ew in Lx, Ly, X3, Y3. fold q in Lx, Ly.
    set (w := val (v_rate s)) in *. set (r := val (v_vel s) / w) in *. set (Psi := val (get_angle (v_yaw s))) in *.
    set (psi := val (get_angle (v_yaw z))) in *.
    set (b := bpow radix2 (-47)) in *.
    replace (Psi + w * (k * B2R dt)) with (Psi + k * (w * B2R dt)) in X1, Y1 by ring.
    replace (Psi + w * (INR (S n) * B2R dt)) with (Psi + k * (w * B2R dt) + w * B2R dt) in X2, Y2 by (rewrite S_INR; unfold k; ring).
    assert (TC2 : turn_close (k * b) (psi + w * B2R dt) (Psi + k * (w * B2R dt) + w * B2R dt)).
    { rewrite <- (Rplus_0_r (k * b)). apply turn_close_add; [exact TC|apply turn_close_refl]. }
    pose proof (turn_close_sin _ _ _ TC) as S1. pose proof (turn_close_sin _ _ _ TC2) as S2.
    pose proof (turn_close_cos _ _ _ TC) as C1. pose proof (turn_close_cos _ _ _ TC2) as C2.
    assert (Hb : 0 < b <= / 100000000000000) by (unfold b; change (bpow radix2 (-47)) with (/ 140737488355328); lra).
    assert (Hb2 : bpow radix2 (-48) = b / 2).
    { unfold b. change (bpow radix2 (-48)) with (/ 281474976710656). change (bpow radix2 (-47)) with (/ 140737488355328). lra. }
    rewrite Hb2 in Lx, Ly.
    change s' with (ctrv_next z dt). unfold e. rewrite X2, Y2. rewrite X3 in Lx. rewrite Y3 in Ly.
    rewrite X1 in Ex. rewrite Y1 in Ey.
    pose proof (many_bound_size n (Rabs (val (v_x s))) q ltac:(lia) (Rabs_pos _) Q0) as MX.
    pose proof (many_bound_size n (Rabs (val (v_y s))) q ltac:(lia) (Rabs_pos _) Q0) as MY.
    assert (GEN : forall (xz x x' f1 f2 f3 f4 : R), Rabs x <= bpow radix2 50 ->
       Rabs (xz - (x + r * (f1 - f2))) <= many_bound n (Rabs x) q -> many_bound n (Rabs x) q <= Rabs x + q + 1 ->
       Rabs (x' - (xz + r * (f3 - f4))) <= b / 2 * (Rabs xz + q) + bpow radix2 (-1000) ->
       Rabs (f1 - f2) <= 2 -> Rabs (f4 - f1) <= k * b -> forall f5, Rabs (f3 - f5) <= k * b -> Rabs (f5 - f2) <= 2 ->
       Rabs (x' - (x + r * (f5 - f2))) <= many_bound (S n) (Rabs x) q /\ 
       (many_bound (S n) (Rabs x) q <= Rabs x + q + 1 -> Rabs x' <= bpow radix2 60)).
    { intros xz x x' f1 f2 f3 f4 BX' E1 M1 L F12 F41 f5 F35 F52.
      assert (RQ : Rabs r = q) by reflexivity.
      set (E := Rabs (xz - (x + r * (f1 - f2)))) in *.
      assert (XZ : Rabs xz <= Rabs x + 2 * q + E).
      { replace xz with (x + r * (f1 - f2) + (xz - (x + r * (f1 - f2)))) by ring.
        eapply Rle_trans; [apply Rabs_triang|]. apply Rplus_le_compat_r. eapply Rle_trans; [apply Rabs_triang|].
        apply Rplus_le_compat_l. rewrite Rabs_mult, RQ. nra. }
      assert (R1 : Rabs (x' - (x + r * (f5 - f2))) <= E + (b / 2 * (Rabs xz + q) + bpow radix2 (-1000) + 2 * q * (k * b))).
      { replace (x' - (x + r * (f5 - f2))) with (xz - (x + r * (f1 - f2)) + ((x' - (xz + r * (f3 - f4))) + (r * (f3 - f5) - r * (f4 - f1)))) by ring.
        eapply Rle_trans; [apply Rabs_triang|]. fold E. apply Rplus_le_compat_l. eapply Rle_trans; [apply Rabs_triang|].
        apply Rplus_le_compat; [exact L|]. unfold Rminus at 1. eapply Rle_trans; [apply Rabs_triang|]. rewrite Rabs_Ropp, !Rabs_mult, RQ.
        nra. }
      assert (R2 : Rabs (x' - (x + r * (f5 - f2))) <= many_bound (S n) (Rabs x) q).
      { eapply Rle_trans; [exact R1|]. unfold many_bound. rewrite S_INR. fold k b.
        apply grow; try assumption; try (apply Rabs_pos); try lra.
        - split; [apply Rabs_pos|]. exact E1.
        - apply Rplus_le_compat_r, Rplus_le_compat_r, Rmult_le_compat_l; lra. }
      split; [exact R2|]. intros M2.
      replace x' with (x + r * (f5 - f2) + (x' - (x + r * (f5 - f2)))) by ring.
      eapply Rle_trans; [apply Rabs_triang|].
      assert (R3 : Rabs (x + r * (f5 - f2)) <= Rabs x + 2 * q).
      { eapply Rle_trans; [apply Rabs_triang|]. apply Rplus_le_compat_l. rewrite Rabs_mult, RQ. nra. }
      pose proof (sum_small x 0 q (Rabs x + q + 1) BX' (conj Q0 Hq) ltac:(lra)
        ltac:(split; [pose proof (Rabs_pos x); lra|lra])). lra. }
    pose proof (many_bound_size (S n) (Rabs (val (v_x s))) q Hn (Rabs_pos _) Q0) as MX'.
    pose proof (many_bound_size (S n) (Rabs (val (v_y s))) q Hn (Rabs_pos _) Q0) as MY'.
    destruct (GEN (val (v_x z)) (val (v_x s)) (val (v_x (ctrv_next z dt))) (sin (Psi + k * (w * B2R dt))) (sin Psi)
       (sin (psi + w * B2R dt)) (sin psi) BX Ex MX Lx) with (f5 := sin (Psi + k * (w * B2R dt) + w * B2R dt)) as [RX OX].
    { pose proof (SIN_bound (Psi + k * (w * B2R dt))). pose proof (SIN_bound Psi). apply Rabs_le; lra. }
    { exact S1. } { exact S2. }
    { pose proof (SIN_bound (Psi + k * (w * B2R dt) + w * B2R dt)). pose proof (SIN_bound Psi). apply Rabs_le; lra. }
    destruct (GEN (val (v_y z)) (val (v_y s)) (val (v_y (ctrv_next z dt))) (- cos (Psi + k * (w * B2R dt))) (- cos Psi)
       (- cos (psi + w * B2R dt)) (- cos psi) BY) with (f5 := - cos (Psi + k * (w * B2R dt) + w * B2R dt)) as [RY OY].
    { replace (val (v_y s) + r * (- cos (Psi + k * (w * B2R dt)) - - cos Psi)) with (val (v_y s) - r * (cos (Psi + k * (w * B2R dt)) - cos Psi)) by ring. exact Ey. }
    { exact MY. }
    { replace (val (v_y z) + r * (- cos (psi + w * B2R dt) - - cos psi)) with (val (v_y z) - r * (cos (psi + w * B2R dt) - cos psi)) by ring. exact Ly. }
    { pose proof (COS_bound (Psi + k * (w * B2R dt))). pose proof (COS_bound Psi). apply Rabs_le; lra. }
    { rewrite <- Rabs_Ropp. replace (- (- cos psi - - cos (Psi + k * (w * B2R dt)))) with (cos psi - cos (Psi + k * (w * B2R dt))) by ring. exact C1. }
    { rewrite <- Rabs_Ropp. replace (- (- cos (psi + w * B2R dt) - - cos (Psi + k * (w * B2R dt) + w * B2R dt))) with
        (cos (psi + w * B2R dt) - cos (Psi + k * (w * B2R dt) + w * B2R dt)) by ring. exact C2. }
    { pose proof (COS_bound (Psi + k * (w * B2R dt) + w * B2R dt)). pose proof (COS_bound Psi). apply Rabs_le; lra. }
    split; [|split].
    + constructor; auto.
      * rewrite V', Ev. exact (oc_fv _ _ _ _ O).
      * rewrite W', Ew. exact (oc_fw _ _ _ _ O).
    + exact RX.
    + replace (val (v_y s) - r * (cos (Psi + k * (w * B2R dt) + w * B2R dt) - cos Psi)) with
        (val (v_y s) + r * (- cos (Psi + k * (w * B2R dt) + w * B2R dt) - - cos Psi)) by ring. exact RY.
Qed.

Lemma ctrv_many_straight (s : ctrv_state D) (dt : f64) : ordinary_ctrv _ _ _ s -> is_finite dt = true ->
  nnear0 D (v_rate s) = true -> let q := Rabs (val (v_vel s) * B2R dt) in
  q <= bpow radix2 30 -> Rabs (val (v_vel s)) <= bpow radix2 60 -> Rabs (B2R dt) <= bpow radix2 30 ->
  Rabs (val (v_x s)) <= bpow radix2 50 -> Rabs (val (v_y s)) <= bpow radix2 50 ->
  forall n, (n <= 2 ^ 20)%nat ->
  let s' := steps n dt s in let e := ctrv_next (exact s) (INR n * B2R dt) in
  ordinary_ctrv _ _ _ s' /\
  Rabs (val (v_x s') - v_x e) <= many_bound n (Rabs (val (v_x s))) q /\
  Rabs (val (v_y s') - v_y e) <= many_bound n (Rabs (val (v_y s))) q.
Proof.
  intros O Fd N q Hq Bv Bd BX BY. pose proof N as N0. rewrite (near0_double _ _ _ _ (oc_fw _ _ _ _ O)) in N.
  destruct (Rlt_dec (Rabs (val (v_rate s))) dbl_min) as [Nw|?]; [|discriminate]. clear N.
  assert (Q0 : 0 <= q) by apply Rabs_pos.
  set (b := bpow radix2 (-47)).
  assert (Hb : 0 < b <= / 100000000000000) by (unfold b; change (bpow radix2 (-47)) with (/ 140737488355328); lra).
  assert (B : Rabs (val (v_rate s) * B2R dt) <= b / 8).
  { rewrite Rabs_mult. apply Rle_trans with (dbl_min * bpow radix2 30).
    - apply Rmult_le_compat; auto using Rabs_pos. lra.
    - replace dbl_min with (bpow radix2 (-1022)).
      + rewrite <- bpow_plus. unfold b. replace (bpow radix2 (-47) / 8) with (bpow radix2 (-50)).
        * apply bpow_le. lia.
        * change (-50)%Z with (-47 + -3)%Z. rewrite bpow_plus. change (bpow radix2 (-3)) with (/ 8). lra.
      + unfold dbl_min. change (-1022)%Z with (Z.opp 1022). rewrite bpow_opp. f_equal. rewrite pow_IZR.
        change (Z.of_nat 1022) with 1022%Z. symmetry. apply (IZR_Zpower radix2 1022). lia. }
  assert (B8 : Rabs (val (v_rate s) * B2R dt) < 8) by lra.
  induction n as [|n IH]; intros Hn s' e.
  - split; [exact O|]. unfold s', e, many_bound. change (steps 0 dt s) with s.
    destruct (exact_straight s (INR 0 * B2R dt) Nw) as [-> ->]. cbn [INR]. rewrite !Rmult_0_l, !Rmult_0_r, !Rplus_0_r.
    split; match goal with |- Rabs ?x <= _ => replace x with 0 by ring end; rewrite Rabs_R0; lra.
  - destruct (IH ltac:(lia)) as (On & Ex & Ey). clear IH.
    set (z := steps n dt s) in *. destruct (steps_heading n dt s) as (Ev & Ew & Eyaw). fold z in Ev, Ew, Eyaw.
    set (k := INR n) in *.
    assert (K : 0 <= k <= 1048575).
    { unfold k. split; [apply pos_INR|]. replace 1048575 with (INR (2 ^ 20) - 1) by (rewrite pow_INR; cbn; lra).
      assert (H : INR (S n) <= INR (2 ^ 20)) by (apply le_INR; exact Hn). rewrite S_INR in H. lra. }
    destruct (turn_many _ _ _ ACC (v_rate s) dt (v_yaw s) n (oc_yaw _ _ _ _ O) (oc_fw _ _ _ _ O) Fd B8) as [_ TC].
    rewrite <- Eyaw in TC. fold k b in TC.
    destruct (exact_straight s (k * B2R dt) Nw) as [X1 Y1].
    destruct (exact_straight s (INR (S n) * B2R dt) Nw) as [X2 Y2].
    destruct (ctrv_straight_accurate _ _ _ ACC z dt On Fd) as (Fx' & Fy' & Lx & Ly).
    { rewrite Ew. exact N0. } { rewrite Ev. exact Bv. } { exact Bd. }
    { rewrite Ev. fold q. eapply Rle_trans; [exact Hq|apply bpow_le; lia]. }
    destruct (ctrv_heading_accurate _ _ _ ACC z dt On Fd) as (V' & W' & P' & _). { rewrite Ew. exact B8. }
    destruct (exact_straight z (B2R dt)) as [X3 Y3]. { rewrite Ew. exact Nw. }
    rewrite Ev in Lx, Ly, X3, Y3. fold q in Lx, Ly.
    set (w := val (v_rate s)) in *. set (v := val (v_vel s)) in *. set (Psi := val (get_angle (v_yaw s))) in *.
    set (psi := val (get_angle (v_yaw z))) in *.
    assert (TC2 : turn_close (k * b + k * (b / 8)) psi Psi).
    { eapply turn_close_trans; [exact TC|]. replace (Psi + k * (w * B2R dt) - Psi) with (k * (w * B2R dt)) by ring.
      rewrite Rabs_mult, (Rabs_right k) by lra. apply Rmult_le_compat_l; [lra|exact B]. }
    pose proof (turn_close_sin _ _ _ TC2) as S2. pose proof (turn_close_cos _ _ _ TC2) as C2.
    assert (Hb2 : bpow radix2 (-48) = b / 2).
    { unfold b. change (bpow radix2 (-48)) with (/ 281474976710656). change (bpow radix2 (-47)) with (/ 140737488355328). lra. }
    rewrite Hb2 in Lx, Ly.
    change s' with (ctrv_next z dt). unfold e. rewrite X2, Y2. rewrite X3 in Lx. rewrite Y3 in Ly.
    rewrite X1 in Ex. rewrite Y1 in Ey. rewrite S_INR. fold k.
    assert (GEN : forall (xz x x' f1 f2 : R), Rabs x <= bpow radix2 50 -> Rabs f2 <= 1 ->
       Rabs (xz - (x + v * f2 * (k * B2R dt))) <= many_bound n (Rabs x) q ->
       Rabs (x' - (xz + v * f1 * B2R dt)) <= b / 2 * (Rabs xz + q) + bpow radix2 (-1000) ->
       Rabs (f1 - f2) <= k * b + k * (b / 8) ->
       Rabs (x' - (x + v * f2 * ((k + 1) * B2R dt))) <= many_bound (S n) (Rabs x) q /\ Rabs x' <= bpow radix2 60).
    { intros xz x x' f1 f2 BX' F2 E1 L F12.
      pose proof (many_bound_size (S n) (Rabs x) q Hn (Rabs_pos _) Q0) as M2.
      set (E := Rabs (xz - (x + v * f2 * (k * B2R dt)))) in *.
      assert (DI : forall j, 0 <= j -> Rabs (v * f2 * (j * B2R dt)) <= j * q).
      { intros j Hj. replace (v * f2 * (j * B2R dt)) with (j * ((v * B2R dt) * f2)) by ring. rewrite !Rabs_mult, (Rabs_right j) by lra.
        rewrite <- Rabs_mult. fold q. apply Rmult_le_compat_l; [exact Hj|]. nra. }
      assert (XZ : Rabs xz <= Rabs x + k * q + E).
      { replace xz with (x + v * f2 * (k * B2R dt) + (xz - (x + v * f2 * (k * B2R dt)))) by ring.
        eapply Rle_trans; [apply Rabs_triang|]. apply Rplus_le_compat_r. eapply Rle_trans; [apply Rabs_triang|].
        apply Rplus_le_compat_l, DI. lra. }
      assert (R1 : Rabs (x' - (x + v * f2 * ((k + 1) * B2R dt))) <= E + (b / 2 * (Rabs xz + q) + bpow radix2 (-1000) + q * (k * b + k * (b / 8)))).
      { replace (x' - (x + v * f2 * ((k + 1) * B2R dt))) with (xz - (x + v * f2 * (k * B2R dt)) + ((x' - (xz + v * f1 * B2R dt)) + (v * B2R dt) * (f1 - f2))) by ring.
        eapply Rle_trans; [apply Rabs_triang|]. fold E. apply Rplus_le_compat_l. eapply Rle_trans; [apply Rabs_triang|].
        apply Rplus_le_compat; [exact L|]. rewrite Rabs_mult. fold q. apply Rmult_le_compat_l; assumption. }
      assert (R2 : Rabs (x' - (x + v * f2 * ((k + 1) * B2R dt))) <= many_bound (S n) (Rabs x) q).
      { eapply Rle_trans; [exact R1|]. unfold many_bound. rewrite S_INR. fold k b.
        apply grow; try assumption; try (apply Rabs_pos); try lra.
        - split; [apply Rabs_pos|]. exact E1.
        - assert (KBQ : 0 <= q * (k * b)) by (apply Rmult_le_pos; [exact Q0|apply Rmult_le_pos; lra]).
          assert (b / 2 * (Rabs xz + q) <= b / 2 * (Rabs x + k * q + E + q)) by (apply Rmult_le_compat_l; lra).
          assert (0 <= b * q) by (apply Rmult_le_pos; lra). nra. }
      split; [exact R2|].
      replace x' with (x + v * f2 * ((k + 1) * B2R dt) + (x' - (x + v * f2 * ((k + 1) * B2R dt)))) by ring.
      eapply Rle_trans; [apply Rabs_triang|].
      assert (R3 : Rabs (x + v * f2 * ((k + 1) * B2R dt)) <= Rabs x + (k + 1) * q).
      { eapply Rle_trans; [apply Rabs_triang|]. apply Rplus_le_compat_l, DI. lra. }
      pose proof (sum_small x k q (Rabs x + q + 1) BX' (conj Q0 Hq) ltac:(lra)
        ltac:(split; [pose proof (Rabs_pos x); lra|lra])). lra. }
    assert (CB : Rabs (cos Psi) <= 1) by (pose proof (COS_bound Psi); apply Rabs_le; lra).
    assert (SB : Rabs (sin Psi) <= 1) by (pose proof (SIN_bound Psi); apply Rabs_le; lra).
    destruct (GEN _ _ _ _ _ BX CB Ex Lx C2) as [RX OX].
    destruct (GEN _ _ _ _ _ BY SB Ey Ly S2) as [RY OY].
    split; [|split; assumption].
    constructor; auto.
    * rewrite V', Ev. exact (oc_fv _ _ _ _ O).
    * rewrite W', Ew. exact (oc_fw _ _ _ _ O).
Qed.
End Many.
