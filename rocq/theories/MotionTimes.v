(** CTRV predictions for a sequence of durations and along a sequence of times in
    double precision against exact arithmetic. *)
From Coq Require Import ZArith Reals Lra Lia Bool Psatz List.
From Flocq Require Import Core IEEE754.BinarySingleNaN.
From Flocq Require Import Sterbenz.
From Verif Require Import Base Uuid DynObj Propagation Float FloatProofs Motion RealArith DoubleArith DoubleThms SumSquares64 PiDouble TrigSpec AngleAccuracy MotionAccuracy MotionMany TimesSpec.
Import ListNotations.
Local Open Scope R_scope.

(** The sum of durations *)
Definition duration (ds : list f64) : R := fold_left (fun t d => t + B2R d) ds 0.
Lemma duration_snoc ds d : duration (ds ++ [d]) = duration ds + B2R d.
Proof. unfold duration. now rewrite fold_left_app. Qed.

Section Times.
Variables (sine cosine : f64 -> f64) (phase : f64 -> f64 -> f64).
Hypothesis ACC : accurate sine cosine phase.
Notation D := (doubles sine cosine phase).
Notation val x := (B2R (x : f64)).
Notation exact := (exact_ctrv sine cosine phase).
Local Opaque get_angle.

Definition along (ds : list f64) (s : ctrv_state D) : ctrv_state D := fold_left (fun (z : ctrv_state D) d => ctrv_next z d) ds s.
Lemma along_snoc ds d s : along (ds ++ [d]) s = ctrv_next (along ds s) d.
Proof. unfold along. now rewrite fold_left_app. Qed.

Lemma along_heading (s : ctrv_state D) (ds : list f64) : proper _ _ _ (v_yaw s) -> is_finite (v_rate s : f64) = true ->
  (forall d, In d ds -> is_finite d = true /\ Rabs (val (v_rate s) * B2R d) < 8) ->
  v_vel (along ds s) = v_vel s /\ v_rate (along ds s) = v_rate s /\ proper _ _ _ (v_yaw (along ds s)) /\
  turn_close (INR (length ds) * bpow radix2 (-47)) (val (get_angle (v_yaw (along ds s)))) (val (get_angle (v_yaw s)) + val (v_rate s) * duration ds).
Proof.
  intros P F. induction ds as [|d ds IH] using rev_ind; intros H.
  - repeat split; try apply P. exists 0%Z. cbn. rewrite Rabs_right; lra.
  - destruct IH as (I1 & I2 & I3 & I4). { intros d' Hd. apply H, in_or_app. now left. }
    destruct (H d) as [Fd Bd]. { apply in_or_app. right. now left. }
    assert (E : forall z : ctrv_state D, v_vel (ctrv_next z d) = v_vel z /\ v_rate (ctrv_next z d) = v_rate z /\
     v_yaw (ctrv_next z d) = turn_step sine cosine phase (v_rate z) d (v_yaw z)).
    { intros z. unfold ctrv_next. destruct (nnear0 D (v_rate z)); repeat split. }
    rewrite along_snoc. destruct (E (along ds s)) as (-> & -> & ->). rewrite I1, I2.
    destruct (turn_step_accurate _ _ _ ACC (v_rate s) d _ I3 F Fd Bd) as [P' T].
    split; [reflexivity|]. split; [reflexivity|]. split; [exact P'|].
    rewrite app_length, duration_snoc, Nat.add_1_r, S_INR.
    replace (val (get_angle (v_yaw s)) + val (v_rate s) * (duration ds + B2R d)) with
      (val (get_angle (v_yaw s)) + val (v_rate s) * duration ds + val (v_rate s) * B2R d) by ring.
    apply turn_close_le with (22.2 * u52 + (INR (length ds) * bpow radix2 (-47) + 0)).
    { rewrite u52_value. change (bpow radix2 (-47)) with (/ 140737488355328). lra. }
    eapply turn_close_trans2; [exact T|]. apply turn_close_add; [exact I4|apply turn_close_refl].
Qed.

Lemma along_turn (s : ctrv_state D) : ordinary_ctrv _ _ _ s ->
  nnear0 D (v_rate s) = false -> let q := Rabs (val (v_vel s) / val (v_rate s)) in
  q <= bpow radix2 30 ->
  Rabs (val (v_x s)) <= bpow radix2 50 -> Rabs (val (v_y s)) <= bpow radix2 50 ->
  forall ds, (length ds <= 2 ^ 20)%nat ->
  (forall d, In d ds -> is_finite d = true /\ Rabs (val (v_rate s) * B2R d) < 8) ->
  let s' := along ds s in let e := ctrv_next (exact s) (duration ds) in
  ordinary_ctrv _ _ _ s' /\
  Rabs (val (v_x s') - v_x e) <= many_bound (length ds) (Rabs (val (v_x s))) q /\
  Rabs (val (v_y s') - v_y e) <= many_bound (length ds) (Rabs (val (v_y s))) q.
Proof.
  intros O N q Hq BX BY. pose proof N as N0. rewrite (near0_double _ _ _ _ (oc_fw _ _ _ _ O)) in N.
  destruct (Rlt_dec (Rabs (val (v_rate s))) dbl_min) as [?|Nw]; [discriminate|]. clear N.
  assert (Q0 : 0 <= q) by apply Rabs_pos.
  assert (SC : forall psi w t, Rabs (sin (psi + w * t) - sin psi) <= 2 /\ Rabs (cos (psi + w * t) - cos psi) <= 2).
  { intros. pose proof (SIN_bound (psi + w * t)). pose proof (SIN_bound psi). pose proof (COS_bound (psi + w * t)). pose proof (COS_bound psi).
    split; apply Rabs_le; lra. }
  induction ds as [|dt ds IH] using rev_ind; intros Hn HF s' e.
  - split; [exact O|]. unfold s', e, many_bound. change (along [] s) with s. cbn [length].
    destruct (exact_turn _ _ _ s 0 Nw) as [E1 E2]. unfold duration. cbn [fold_left]. rewrite E1, E2. cbn [INR]. rewrite !Rmult_0_l, !Rmult_0_r, !Rplus_0_r.
    split; match goal with |- Rabs ?x <= _ => replace x with 0 by ring end; rewrite Rabs_R0; lra.
  - rewrite app_length, Nat.add_1_r in *. set (n := length ds) in *.
    destruct (HF dt) as [Fd B]. { apply in_or_app. right. now left. }
    assert (HF' : forall d, In d ds -> is_finite d = true /\ Rabs (val (v_rate s) * B2R d) < 8) by (intros d Hd; apply HF, in_or_app; now left).
    destruct (IH ltac:(lia) HF') as (On & Ex & Ey). clear IH.
    set (z := along ds s) in *. destruct (along_heading s ds (oc_yaw _ _ _ _ O) (oc_fw _ _ _ _ O) HF') as (Ev & Ew & _ & TC). fold z n in Ev, Ew, TC.
    set (k := INR n) in *.
    assert (K : 0 <= k <= 1048575).
    { unfold k. split; [apply pos_INR|]. replace 1048575 with (INR (2 ^ 20) - 1) by (rewrite pow_INR; cbn; lra).
      assert (H : INR (S n) <= INR (2 ^ 20)) by (apply le_INR; exact Hn). rewrite S_INR in H. lra. }
    fold k in TC. set (T := duration ds) in *.
    destruct (exact_turn _ _ _ s T Nw) as [X1 Y1].
    destruct (exact_turn _ _ _ s (T + B2R dt) Nw) as [X2 Y2].
    destruct (ctrv_turn_accurate _ _ _ ACC z dt On Fd) as (Fx' & Fy' & Lx & Ly).
    { rewrite Ew. exact N0. } { rewrite Ev, Ew. fold q. eapply Rle_trans; [exact Hq|apply bpow_le; lia]. } { rewrite Ew. exact B. }
    destruct (ctrv_heading_accurate _ _ _ ACC z dt On Fd) as (V' & W' & P' & _). { rewrite Ew. exact B. }
    destruct (exact_turn _ _ _ z (B2R dt)) as [X3 Y3]. { rewrite Ew. exact Nw. }
    rewrite Ev, Ew in Lx, Ly, X3, Y3. fold q in Lx, Ly.
    set (w := val (v_rate s)) in *. set (r := val (v_vel s) / w) in *. set (Psi := val (get_angle (v_yaw s))) in *.
    set (psi := val (get_angle (v_yaw z))) in *.
    set (b := bpow radix2 (-47)) in *.
    replace (Psi + w * (T + B2R dt)) with (Psi + w * T + w * B2R dt) in X2, Y2 by ring.
    assert (TC2 : turn_close (k * b) (psi + w * B2R dt) (Psi + w * T + w * B2R dt)).
    { rewrite <- (Rplus_0_r (k * b)). apply turn_close_add; [exact TC|apply turn_close_refl]. }
    pose proof (turn_close_sin _ _ _ TC) as S1. pose proof (turn_close_sin _ _ _ TC2) as S2.
    pose proof (turn_close_cos _ _ _ TC) as C1. pose proof (turn_close_cos _ _ _ TC2) as C2.
    assert (Hb : 0 < b <= / 100000000000000) by (unfold b; change (bpow radix2 (-47)) with (/ 140737488355328); lra).
    assert (Hb2 : bpow radix2 (-48) = b / 2).
    { unfold b. change (bpow radix2 (-48)) with (/ 281474976710656). change (bpow radix2 (-47)) with (/ 140737488355328). lra. }
    rewrite Hb2 in Lx, Ly.
    unfold s', e. rewrite along_snoc, duration_snoc. fold z T. rewrite X2, Y2. rewrite X3 in Lx. rewrite Y3 in Ly.
    rewrite X1 in Ex. rewrite Y1 in Ey.
    pose proof (many_bound_size n (Rabs (val (v_x s))) q ltac:(lia) (Rabs_pos _) Q0) as MX.
    pose proof (many_bound_size n (Rabs (val (v_y s))) q ltac:(lia) (Rabs_pos _) Q0) as MY.
    assert (GEN : forall (xz x x' f1 f2 f3 f4 : R), Rabs x <= bpow radix2 50 ->
       Rabs (xz - (x + r * (f1 - f2))) <= many_bound n (Rabs x) q -> many_bound n (Rabs x) q <= Rabs x + q + 1 ->
       Rabs (x' - (xz + r * (f3 - f4))) <= b / 2 * (Rabs xz + q) + bpow radix2 (-1000) ->
       Rabs (f1 - f2) <= 2 -> Rabs (f4 - f1) <= k * b -> forall f5, Rabs (f3 - f5) <= k * b -> Rabs (f5 - f2) <= 2 ->
       Rabs (x' - (x + r * (f5 - f2))) <= many_bound (S n) (Rabs x) q /\ 
       (many_bound (S n) (Rabs x) q <= Rabs x + q + 1 -> Rabs x' <= bpow radix2 60)).
    { intros xz x x' f1 f2 f3 f4 BX' E1 M1 L F12 F41 f5 F35 F52.
      assert (RQ : Rabs r = q) by reflexivity.
      set (E := Rabs (xz - (x + r * (f1 - f2)))) in *.
      assert (XZ : Rabs xz <= Rabs x + 2 * q + E).
      { replace xz with (x + r * (f1 - f2) + (xz - (x + r * (f1 - f2)))) by ring.
        eapply Rle_trans; [apply Rabs_triang|]. apply Rplus_le_compat_r. eapply Rle_trans; [apply Rabs_triang|].
        apply Rplus_le_compat_l. rewrite Rabs_mult, RQ. nra. }
      assert (R1 : Rabs (x' - (x + r * (f5 - f2))) <= E + (b / 2 * (Rabs xz + q) + bpow radix2 (-1000) + 2 * q * (k * b))).
      { replace (x' - (x + r * (f5 - f2))) with (xz - (x + r * (f1 - f2)) + ((x' - (xz + r * (f3 - f4))) + (r * (f3 - f5) - r * (f4 - f1)))) by ring.
        eapply Rle_trans; [apply Rabs_triang|]. fold E. apply Rplus_le_compat_l. eapply Rle_trans; [apply Rabs_triang|].
        apply Rplus_le_compat; [exact L|]. unfold Rminus at 1. eapply Rle_trans; [apply Rabs_triang|]. rewrite Rabs_Ropp, !Rabs_mult, RQ.
        nra. }
      assert (R2 : Rabs (x' - (x + r * (f5 - f2))) <= many_bound (S n) (Rabs x) q).
      { eapply Rle_trans; [exact R1|]. unfold many_bound. rewrite S_INR. fold k b.
        apply grow; try assumption; try (apply Rabs_pos); try lra.
        - split; [apply Rabs_pos|]. exact E1.
        - apply Rplus_le_compat_r, Rplus_le_compat_r, Rmult_le_compat_l; lra. }
      split; [exact R2|]. intros M2.
      replace x' with (x + r * (f5 - f2) + (x' - (x + r * (f5 - f2)))) by ring.
      eapply Rle_trans; [apply Rabs_triang|].
      assert (R3 : Rabs (x + r * (f5 - f2)) <= Rabs x + 2 * q).
      { eapply Rle_trans; [apply Rabs_triang|]. apply Rplus_le_compat_l. rewrite Rabs_mult, RQ. nra. }
      pose proof (sum_small x 0 q (Rabs x + q + 1) BX' (conj Q0 Hq) ltac:(lra)
        ltac:(split; [pose proof (Rabs_pos x); lra|lra])). lra. }
    pose proof (many_bound_size (S n) (Rabs (val (v_x s))) q Hn (Rabs_pos _) Q0) as MX'.
    pose proof (many_bound_size (S n) (Rabs (val (v_y s))) q Hn (Rabs_pos _) Q0) as MY'.
    destruct (GEN (val (v_x z)) (val (v_x s)) (val (v_x (ctrv_next z dt))) (sin (Psi + w * T)) (sin Psi)
       (sin (psi + w * B2R dt)) (sin psi) BX Ex MX Lx) with (f5 := sin (Psi + w * T + w * B2R dt)) as [RX OX].
    { pose proof (SIN_bound (Psi + w * T)). pose proof (SIN_bound Psi). apply Rabs_le; lra. }
    { exact S1. } { exact S2. }
    { pose proof (SIN_bound (Psi + w * T + w * B2R dt)). pose proof (SIN_bound Psi). apply Rabs_le; lra. }
    destruct (GEN (val (v_y z)) (val (v_y s)) (val (v_y (ctrv_next z dt))) (- cos (Psi + w * T)) (- cos Psi)
       (- cos (psi + w * B2R dt)) (- cos psi) BY) with (f5 := - cos (Psi + w * T + w * B2R dt)) as [RY OY].
    { replace (val (v_y s) + r * (- cos (Psi + w * T) - - cos Psi)) with (val (v_y s) - r * (cos (Psi + w * T) - cos Psi)) by ring. exact Ey. }
    { exact MY. }
    { replace (val (v_y z) + r * (- cos (psi + w * B2R dt) - - cos psi)) with (val (v_y z) - r * (cos (psi + w * B2R dt) - cos psi)) by ring. exact Ly. }
    { pose proof (COS_bound (Psi + w * T)). pose proof (COS_bound Psi). apply Rabs_le; lra. }
    { rewrite <- Rabs_Ropp. replace (- (- cos psi - - cos (Psi + w * T))) with (cos psi - cos (Psi + w * T)) by ring. exact C1. }
    { rewrite <- Rabs_Ropp. replace (- (- cos (psi + w * B2R dt) - - cos (Psi + w * T + w * B2R dt))) with
        (cos (psi + w * B2R dt) - cos (Psi + w * T + w * B2R dt)) by ring. exact C2. }
    { pose proof (COS_bound (Psi + w * T + w * B2R dt)). pose proof (COS_bound Psi). apply Rabs_le; lra. }
    split; [|split].
    + constructor; auto.
      * rewrite V', Ev. exact (oc_fv _ _ _ _ O).
      * rewrite W', Ew. exact (oc_fw _ _ _ _ O).
    + exact RX.
    + replace (val (v_y s) - r * (cos (Psi + w * T + w * B2R dt) - cos Psi)) with
        (val (v_y s) + r * (- cos (Psi + w * T + w * B2R dt) - - cos Psi)) by ring. exact RY.
Qed.

Lemma along_straight (s : ctrv_state D) (q : R) : ordinary_ctrv _ _ _ s ->
  nnear0 D (v_rate s) = true -> 0 <= q <= bpow radix2 30 -> Rabs (val (v_vel s)) <= bpow radix2 60 ->
  Rabs (val (v_x s)) <= bpow radix2 50 -> Rabs (val (v_y s)) <= bpow radix2 50 ->
  forall ds, (length ds <= 2 ^ 20)%nat ->
  (forall d, In d ds -> is_finite d = true /\ Rabs (B2R d) <= bpow radix2 30 /\ Rabs (val (v_vel s) * B2R d) <= q) ->
  let s' := along ds s in let e := ctrv_next (exact s) (duration ds) in
  ordinary_ctrv _ _ _ s' /\
  Rabs (val (v_x s') - v_x e) <= many_bound (length ds) (Rabs (val (v_x s))) q /\
  Rabs (val (v_y s') - v_y e) <= many_bound (length ds) (Rabs (val (v_y s))) q.
Proof.
  intros O N Hq' Bv BX BY. pose proof N as N0. rewrite (near0_double _ _ _ _ (oc_fw _ _ _ _ O)) in N.
  destruct (Rlt_dec (Rabs (val (v_rate s))) dbl_min) as [Nw|?]; [|discriminate]. clear N.
  destruct Hq' as [Q0 Hq].
  set (b := bpow radix2 (-47)).
  assert (Hb : 0 < b <= / 100000000000000) by (unfold b; change (bpow radix2 (-47)) with (/ 140737488355328); lra).
  assert (B : forall dt : f64, Rabs (B2R dt) <= bpow radix2 30 -> Rabs (val (v_rate s) * B2R dt) <= b / 8).
  { intros dt Bd. rewrite Rabs_mult. apply Rle_trans with (dbl_min * bpow radix2 30).
    - apply Rmult_le_compat; auto using Rabs_pos. lra.
    - replace dbl_min with (bpow radix2 (-1022)).
      + rewrite <- bpow_plus. unfold b. replace (bpow radix2 (-47) / 8) with (bpow radix2 (-50)).
        * apply bpow_le. lia.
        * change (-50)%Z with (-47 + -3)%Z. rewrite bpow_plus. change (bpow radix2 (-3)) with (/ 8). lra.
      + unfold dbl_min. change (-1022)%Z with (Z.opp 1022). rewrite bpow_opp. f_equal. rewrite pow_IZR.
        change (Z.of_nat 1022) with 1022%Z. symmetry. apply (IZR_Zpower radix2 1022). lia. }
  induction ds as [|dt ds IH] using rev_ind; intros Hn HF s' e.
  - split; [exact O|]. unfold s', e, many_bound. change (along [] s) with s. cbn [length].
    destruct (exact_straight _ _ _ s 0 Nw) as [E1 E2]. unfold duration. cbn [fold_left]. rewrite E1, E2. cbn [INR]. rewrite !Rmult_0_l, !Rmult_0_r, !Rplus_0_r.
    split; match goal with |- Rabs ?x <= _ => replace x with 0 by ring end; rewrite Rabs_R0; lra.
  - rewrite app_length, Nat.add_1_r in *. set (n := length ds) in *.
    destruct (HF dt) as (Fd & Bd & Bq). { apply in_or_app. right. now left. }
    assert (HF' : forall d, In d ds -> is_finite d = true /\ Rabs (B2R d) <= bpow radix2 30 /\ Rabs (val (v_vel s) * B2R d) <= q) by (intros d Hd; apply HF, in_or_app; now left).
    destruct (IH ltac:(lia) HF') as (On & Ex & Ey). clear IH.
    assert (HF8 : forall d, In d ds -> is_finite d = true /\ Rabs (val (v_rate s) * B2R d) < 8).
    { intros d Hd. destruct (HF' d Hd) as (F1 & F2 & _). split; [exact F1|]. pose proof (B d F2). lra. }
    assert (B8 : Rabs (val (v_rate s) * B2R dt) < 8) by (pose proof (B dt Bd); lra).
    set (z := along ds s) in *. destruct (along_heading s ds (oc_yaw _ _ _ _ O) (oc_fw _ _ _ _ O) HF8) as (Ev & Ew & _ & TC). fold z n in Ev, Ew, TC.
    set (k := INR n) in *.
    assert (K : 0 <= k <= 1048575).
    { unfold k. split; [apply pos_INR|]. replace 1048575 with (INR (2 ^ 20) - 1) by (rewrite pow_INR; cbn; lra).
      assert (H : INR (S n) <= INR (2 ^ 20)) by (apply le_INR; exact Hn). rewrite S_INR in H. lra. }
    fold k b in TC.
    assert (TB : Rabs (val (v_rate s) * duration ds) <= k * (b / 8) /\ Rabs (val (v_vel s) * duration ds) <= k * q).
    { unfold k, n. clear -HF' B Q0 Hb. induction ds as [|d ds IH] using rev_ind.
      - cbn. rewrite !Rmult_0_r, Rabs_R0. lra.
      - destruct IH as [I1 I2]. { intros d' Hd. apply HF', in_or_app. now left. }
        destruct (HF' d) as (F1 & F2 & F3). { apply in_or_app. right. now left. }
        pose proof (B d F2) as BB. rewrite app_length, Nat.add_1_r, S_INR, duration_snoc.
        split; rewrite Rmult_plus_distr_l; (eapply Rle_trans; [apply Rabs_triang|]); lra. }
    destruct TB as [TB1 TB2]. set (T := duration ds) in *.
    destruct (exact_straight _ _ _ s T Nw) as [X1 Y1].
    destruct (exact_straight _ _ _ s (T + B2R dt) Nw) as [X2 Y2].
    destruct (ctrv_straight_accurate _ _ _ ACC z dt On Fd) as (Fx' & Fy' & Lx & Ly).
    { rewrite Ew. exact N0. } { rewrite Ev. exact Bv. } { exact Bd. }
    { rewrite Ev. eapply Rle_trans; [exact Bq|]. eapply Rle_trans; [exact Hq|apply bpow_le; lia]. }
    destruct (ctrv_heading_accurate _ _ _ ACC z dt On Fd) as (V' & W' & P' & _). { rewrite Ew. exact B8. }
    destruct (exact_straight _ _ _ z (B2R dt)) as [X3 Y3]. { rewrite Ew. exact Nw. }
    rewrite Ev in Lx, Ly, X3, Y3.
    set (w := val (v_rate s)) in *. set (v := val (v_vel s)) in *. set (Psi := val (get_angle (v_yaw s))) in *.
    set (psi := val (get_angle (v_yaw z))) in *.
    assert (TC2 : turn_close (k * b + k * (b / 8)) psi Psi).
    { eapply turn_close_trans; [exact TC|]. replace (Psi + w * T - Psi) with (w * T) by ring. exact TB1. }
    pose proof (turn_close_sin _ _ _ TC2) as S2. pose proof (turn_close_cos _ _ _ TC2) as C2.
    assert (Hb2 : bpow radix2 (-48) = b / 2).
    { unfold b. change (bpow radix2 (-48)) with (/ 281474976710656). change (bpow radix2 (-47)) with (/ 140737488355328). lra. }
    rewrite Hb2 in Lx, Ly.
    unfold s', e. rewrite along_snoc, duration_snoc. fold z T. rewrite X2, Y2. rewrite X3 in Lx. rewrite Y3 in Ly.
    rewrite X1 in Ex. rewrite Y1 in Ey.
    assert (LL : forall xx, b / 2 * (xx + Rabs (v * B2R dt)) <= b / 2 * (xx + q)) by (intros; apply Rmult_le_compat_l; lra).
    assert (GEN : forall (xz x x' f1 f2 : R), Rabs x <= bpow radix2 50 -> Rabs f2 <= 1 ->
       Rabs (xz - (x + v * f2 * T)) <= many_bound n (Rabs x) q ->
       Rabs (x' - (xz + v * f1 * B2R dt)) <= b / 2 * (Rabs xz + Rabs (v * B2R dt)) + bpow radix2 (-1000) ->
       Rabs (f1 - f2) <= k * b + k * (b / 8) ->
       Rabs (x' - (x + v * f2 * (T + B2R dt))) <= many_bound (S n) (Rabs x) q /\ Rabs x' <= bpow radix2 60).
    { intros xz x x' f1 f2 BX' F2 E1 L F12. pose proof (LL (Rabs xz)) as LL'.
      pose proof (many_bound_size (S n) (Rabs x) q Hn (Rabs_pos _) Q0) as M2.
      set (E := Rabs (xz - (x + v * f2 * T))) in *.
      assert (DI : Rabs (v * f2 * T) <= k * q /\ Rabs (v * f2 * (T + B2R dt)) <= (k + 1) * q).
      { assert (Z : forall t, Rabs (v * f2 * t) <= Rabs (v * t)).
        { intros t. replace (v * f2 * t) with (v * t * f2) by ring. rewrite Rabs_mult. pose proof (Rabs_pos (v * t)).
          rewrite <- (Rmult_1_r (Rabs (v * t))) at 2. apply Rmult_le_compat_l; assumption. }
        split; [eapply Rle_trans; [apply Z|exact TB2]|]. eapply Rle_trans; [apply Z|]. rewrite Rmult_plus_distr_l.
        eapply Rle_trans; [apply Rabs_triang|]. lra. }
      assert (XZ : Rabs xz <= Rabs x + k * q + E).
      { replace xz with (x + v * f2 * T + (xz - (x + v * f2 * T))) by ring.
        eapply Rle_trans; [apply Rabs_triang|]. apply Rplus_le_compat_r. eapply Rle_trans; [apply Rabs_triang|].
        apply Rplus_le_compat_l, DI. }
      assert (R1 : Rabs (x' - (x + v * f2 * (T + B2R dt))) <= E + (b / 2 * (Rabs xz + q) + bpow radix2 (-1000) + q * (k * b + k * (b / 8)))).
      { replace (x' - (x + v * f2 * (T + B2R dt))) with (xz - (x + v * f2 * T) + ((x' - (xz + v * f1 * B2R dt)) + (v * B2R dt) * (f1 - f2))) by ring.
        eapply Rle_trans; [apply Rabs_triang|]. fold E. apply Rplus_le_compat_l. eapply Rle_trans; [apply Rabs_triang|].
        apply Rplus_le_compat; [lra|]. rewrite Rabs_mult. apply Rmult_le_compat; try apply Rabs_pos; assumption. }
      assert (R2 : Rabs (x' - (x + v * f2 * (T + B2R dt))) <= many_bound (S n) (Rabs x) q).
      { eapply Rle_trans; [exact R1|]. unfold many_bound. rewrite S_INR. fold k b.
        apply grow; try assumption; try (apply Rabs_pos); try lra.
        - split; [apply Rabs_pos|]. exact E1.
        - assert (KBQ : 0 <= q * (k * b)) by (apply Rmult_le_pos; [exact Q0|apply Rmult_le_pos; lra]).
          assert (b / 2 * (Rabs xz + q) <= b / 2 * (Rabs x + k * q + E + q)) by (apply Rmult_le_compat_l; lra).
          assert (0 <= b * q) by (apply Rmult_le_pos; lra). nra. }
      split; [exact R2|].
      replace x' with (x + v * f2 * (T + B2R dt) + (x' - (x + v * f2 * (T + B2R dt)))) by ring.
      eapply Rle_trans; [apply Rabs_triang|].
      assert (R3 : Rabs (x + v * f2 * (T + B2R dt)) <= Rabs x + (k + 1) * q).
      { eapply Rle_trans; [apply Rabs_triang|]. apply Rplus_le_compat_l, DI. }
      pose proof (sum_small x k q (Rabs x + q + 1) BX' (conj Q0 Hq) ltac:(lra)
        ltac:(split; [pose proof (Rabs_pos x); lra|lra])). lra. }
    assert (CB : Rabs (cos Psi) <= 1) by (pose proof (COS_bound Psi); apply Rabs_le; lra).
    assert (SB : Rabs (sin Psi) <= 1) by (pose proof (SIN_bound Psi); apply Rabs_le; lra).
    destruct (GEN _ _ _ _ _ BX CB Ex Lx C2) as [RX OX].
    destruct (GEN _ _ _ _ _ BY SB Ey Ly S2) as [RY OY].
    split; [|split; assumption].
    constructor; auto.
    * rewrite V', Ev. exact (oc_fv _ _ _ _ O).
    * rewrite W', Ew. exact (oc_fw _ _ _ _ O).
Qed.

(** ** Along a sequence of times *)
Fixpoint gaps (t : f64) (ts : list f64) : list f64 :=
  match ts with [] => [] | b :: ts => Bminus mode_NE b t :: gaps b ts end.
Lemma gaps_length t ts : length (gaps t ts) = length ts.
Proof. revert t. induction ts as [|b ts IH]; intros t; [reflexivity|]. cbn. now rewrite IH. Qed.

Lemma visit_along {C} (p : ctrv_state D -> C -> f64 -> ctrv_state D * C) (o : dyn_obj f64 (ctrv_state D) C) (ts : list f64) :
  (forall s c d, fst (p s c d) = ctrv_next s d) ->
  let o' := fold_left (propagate_to_time (Bminus mode_NE) p) ts o in
  o_state o' = along (gaps (o_timestamp o) ts) (o_state o) /\ o_timestamp o' = last ts (o_timestamp o) /\
  o_uuid o' = o_uuid o /\ o_class o' = o_class o.
Proof.
  intros Hp. revert o. induction ts as [|b ts IH]; intros o; [now repeat split|]. cbn [fold_left gaps].
  pose (o1 := propagate_to_time (Bminus mode_NE) p o b : dyn_obj f64 (ctrv_state D) C).
  change (propagate_to_time (Bminus mode_NE) p o b) with o1.
  assert (E : o_state o1 = ctrv_next (o_state o) (Bminus mode_NE b (o_timestamp o)) /\ o_timestamp o1 = b /\ o_uuid o1 = o_uuid o /\ o_class o1 = o_class o).
  { unfold o1, propagate_to_time. pose proof (Hp (o_state o) (o_cov o) (Bminus mode_NE b (o_timestamp o))) as H.
    destruct (p _ _ _) as [s c]. cbn in *. now repeat split. }
  destruct E as (E1 & E2 & E3 & E4). destruct (IH o1) as (I1 & I2 & I3 & I4). cbn zeta.
  rewrite I1, I2, I3, I4, E1, E2, E3, E4. split; [reflexivity|]. split; [|now split].
  clear. revert b. induction ts as [|c ts IH]; intros b; [reflexivity|]. cbn [last]. destruct ts; [reflexivity|]. apply IH.
Qed.

(** The gaps of ascending times *)
Lemma gap_value (a b : f64) : is_finite a = true -> is_finite b = true -> Rabs (B2R a) <= bpow radix2 1000 -> Rabs (B2R b) <= bpow radix2 1000 ->
  B2R a <= B2R b -> is_finite (Bminus mode_NE b a) = true /\ 0 <= B2R (Bminus mode_NE b a) /\
  Rabs (B2R (Bminus mode_NE b a) - (B2R b - B2R a)) <= u64 * (B2R b - B2R a).
Proof.
  intros Fa Fb Ba Bb H.
  destruct (minus64_value b a 1010 ltac:(lia) Fb Fa) as [E F].
  { unfold Rminus. eapply Rle_trans; [apply Rabs_triang|]. rewrite Rabs_Ropp.
    apply Rle_trans with (bpow radix2 1001); [|apply bpow_le; lia]. change 1001%Z with (1000 + 1)%Z. rewrite bpow_plus. change (bpow radix2 1) with 2. lra. }
  split; [exact F|]. rewrite E.
  destruct (rnd64_add (B2R b) (- B2R a)) as (e & He & Ee); [apply generic_format_B2R|apply generic_format_opp, generic_format_B2R|].
  change (B2R b + - B2R a) with (B2R b - B2R a) in Ee. split.
  - rewrite <- rnd64_0. apply rnd64_le. lra.
  - rewrite Ee. replace ((B2R b - B2R a) * (1 + e) - (B2R b - B2R a)) with (e * (B2R b - B2R a)) by ring.
    rewrite Rabs_mult, (Rabs_pos_eq (B2R b - B2R a)) by lra. apply Rmult_le_compat_r; lra.
Qed.

Lemma successive_first {T} (a b : T) l : successive a b (a :: b :: l).
Proof. now exists [], l. Qed.
Lemma successive_later {T} (a b c : T) l : successive a b l -> successive a b (c :: l).
Proof. intros (l1 & l2 & ->). now exists (c :: l1), l2. Qed.

Lemma gaps_value (t0 : f64) ts : (forall t, In t (t0 :: ts) -> is_finite t = true /\ Rabs (B2R t) <= bpow radix2 1000) ->
  (forall a b, successive a b (t0 :: ts) -> B2R a <= B2R b) ->
  B2R t0 <= B2R (last ts t0) /\ Rabs (duration (gaps t0 ts) - (B2R (last ts t0) - B2R t0)) <= u64 * (B2R (last ts t0) - B2R t0) /\
  forall d, In d (gaps t0 ts) -> is_finite d = true /\ exists a b, successive a b (t0 :: ts) /\
    0 <= B2R d <= (1 + u64) * (B2R b - B2R a).
Proof.
  revert t0. induction ts as [|b ts IH]; intros t0 HF HS.
  - cbn. split; [lra|]. split; [|contradiction]. replace (0 - (B2R t0 - B2R t0)) with 0 by ring. rewrite Rabs_R0. lra.
  - destruct (IH b) as (I1 & I2 & I3). { intros t Ht. apply HF. now right. } { intros x y H. apply HS. now apply successive_later. }
    destruct (HF t0) as [F0 B0]; [now left|]. destruct (HF b) as [Fb Bb]; [right; now left|].
    pose proof (HS t0 b (successive_first _ _ _)) as L. destruct (gap_value t0 b F0 Fb B0 Bb L) as (G1 & G2 & G3).
    assert (EL : last (b :: ts) t0 = last ts b).
    { clear. revert b. induction ts as [|c ts IH]; intros b; [reflexivity|]. cbn [last]. destruct ts; [reflexivity|]. apply IH. }
    rewrite EL. split; [lra|]. split.
    + assert (ED : duration (gaps t0 (b :: ts)) = B2R (Bminus mode_NE b t0) + duration (gaps b ts)).
      { cbn [gaps]. unfold duration. cbn [fold_left]. generalize (B2R (Bminus mode_NE b t0)) as x. generalize (gaps b ts) as l. clear.
        assert (Q : forall l x y, fold_left (fun t d => t + B2R d) l (x + y) = x + fold_left (fun t (d : f64) => t + B2R d) l y).
        { induction l as [|c l IH]; intros x y; [reflexivity|]. cbn. rewrite Rplus_assoc. apply IH. }
        intros l x. rewrite Rplus_comm. apply Q. }
      rewrite ED. apply Rabs_le_inv in G3, I2. apply Rabs_le. lra.
    + intros d [<-|Hd].
      * split; [exact G1|]. exists t0, b. split; [apply successive_first|]. apply Rabs_le_inv in G3. lra.
      * destruct (I3 d Hd) as (X1 & x & y & X2 & X3). split; [exact X1|]. exists x, y. split; [now apply successive_later|exact X3].
Qed.

Lemma exact_later_turn (s : ctrv_state D) t1 t2 : ~ Rabs (val (v_rate s)) < dbl_min ->
  Rabs (v_x (ctrv_next (exact s) t1) - v_x (ctrv_next (exact s) t2)) <= Rabs (val (v_vel s)) * Rabs (t1 - t2) /\
  Rabs (v_y (ctrv_next (exact s) t1) - v_y (ctrv_next (exact s) t2)) <= Rabs (val (v_vel s)) * Rabs (t1 - t2).
Proof.
  intros Nw. destruct (exact_turn _ _ _ s t1 Nw) as [-> ->]. destruct (exact_turn _ _ _ s t2 Nw) as [-> ->].
  set (psi := val (get_angle (v_yaw s))). set (w := val (v_rate s)) in *. set (v := val (v_vel s)). set (x := val (v_x s)). set (y := val (v_y s)).
  assert (W : w <> 0). { intros E. rewrite E, Rabs_R0 in Nw. apply Nw. unfold dbl_min. apply Rinv_0_lt_compat, pow_lt. lra. }
  assert (A : Rabs v * Rabs (t1 - t2) = Rabs (v / w) * Rabs (psi + w * t1 - (psi + w * t2))).
  { rewrite <- !Rabs_mult. f_equal. field. exact W. }
  rewrite A. split.
  - replace (_ - _) with (v / w * (sin (psi + w * t1) - sin (psi + w * t2))) by ring. rewrite Rabs_mult.
    apply Rmult_le_compat_l; [apply Rabs_pos|apply sin_lipschitz].
  - replace (_ - _) with (- (v / w * (cos (psi + w * t1) - cos (psi + w * t2)))) by ring. rewrite Rabs_Ropp, Rabs_mult.
    apply Rmult_le_compat_l; [apply Rabs_pos|apply cos_lipschitz].
Qed.
Lemma exact_later_straight (s : ctrv_state D) t1 t2 : Rabs (val (v_rate s)) < dbl_min ->
  Rabs (v_x (ctrv_next (exact s) t1) - v_x (ctrv_next (exact s) t2)) <= Rabs (val (v_vel s)) * Rabs (t1 - t2) /\
  Rabs (v_y (ctrv_next (exact s) t1) - v_y (ctrv_next (exact s) t2)) <= Rabs (val (v_vel s)) * Rabs (t1 - t2).
Proof.
  intros Nw. destruct (exact_straight _ _ _ s t1 Nw) as [-> ->]. destruct (exact_straight _ _ _ s t2 Nw) as [-> ->].
  set (psi := val (get_angle (v_yaw s))). set (v := val (v_vel s)). set (x := val (v_x s)). set (y := val (v_y s)).
  assert (Z : forall f, Rabs f <= 1 -> Rabs (v * f * (t1 - t2)) <= Rabs v * Rabs (t1 - t2)).
  { intros f Hf. rewrite !Rabs_mult. apply Rmult_le_compat_r; [apply Rabs_pos|]. rewrite <- (Rmult_1_r (Rabs v)) at 2. apply Rmult_le_compat_l; [apply Rabs_pos|exact Hf]. }
  split.
  - replace (_ - _) with (v * cos psi * (t1 - t2)) by ring. apply Z. pose proof (COS_bound psi). apply Rabs_le; lra.
  - replace (_ - _) with (v * sin psi * (t1 - t2)) by ring. apply Z. pose proof (SIN_bound psi). apply Rabs_le; lra.
Qed.

Definition visited {C} (p : ctrv_state D -> C -> f64 -> ctrv_state D * C) (o : dyn_obj f64 (ctrv_state D) C) ts :=
  fold_left (propagate_to_time (Bminus mode_NE) p) ts o.

Lemma times_turn {C} (p : ctrv_state D -> C -> f64 -> ctrv_state D * C) (o : dyn_obj f64 (ctrv_state D) C) (ts : list f64) :
  (forall s c d, fst (p s c d) = ctrv_next s d) ->
  let s := o_state o in let t0 := o_timestamp o in let T := B2R (last ts t0) - B2R t0 in
  ordinary_ctrv _ _ _ s -> nnear0 D (v_rate s) = false -> let q := Rabs (val (v_vel s) / val (v_rate s)) in
  q <= bpow radix2 30 -> Rabs (val (v_x s)) <= bpow radix2 50 -> Rabs (val (v_y s)) <= bpow radix2 50 ->
  (length ts <= 2 ^ 20)%nat ->
  (forall t, In t (t0 :: ts) -> is_finite t = true /\ Rabs (B2R t) <= bpow radix2 1000) ->
  (forall a b, successive a b (t0 :: ts) -> B2R a <= B2R b /\ Rabs (val (v_rate s)) * (B2R b - B2R a) <= 4) ->
  let s' := o_state (visited p o ts) in let e := ctrv_next (exact s) T in
  ordinary_ctrv _ _ _ s' /\
  Rabs (val (v_x s') - v_x e) <= many_bound (length ts) (Rabs (val (v_x s))) q + u64 * Rabs (val (v_vel s)) * T /\
  Rabs (val (v_y s') - v_y e) <= many_bound (length ts) (Rabs (val (v_y s))) q + u64 * Rabs (val (v_vel s)) * T /\
  turn_close (INR (length ts) * bpow radix2 (-47) + u64 * Rabs (val (v_rate s)) * T)
    (val (get_angle (v_yaw s'))) (val (get_angle (v_yaw s)) + val (v_rate s) * T).
Proof.
  intros Hp s t0 T O N q Hq BX BY Hn HF HS s' e.
  destruct (visit_along p o ts Hp) as (E & _). change (o_state (fold_left _ ts o)) with s' in E. fold s t0 in E.
  destruct (gaps_value t0 ts HF) as (G1 & G2 & G3). { intros a b H. now apply HS. }
  fold T in G2. pose proof u64_small as U.
  assert (HG : forall d, In d (gaps t0 ts) -> is_finite d = true /\ Rabs (val (v_rate s) * B2R d) < 8).
  { intros d Hd. destruct (G3 d Hd) as (F & a & b & Hs & Hb). split; [exact F|]. destruct (HS a b Hs) as [Hab Hw].
    rewrite Rabs_mult, (Rabs_pos_eq (B2R d)) by lra.
    apply Rle_lt_trans with (Rabs (val (v_rate s)) * ((1 + u64) * (B2R b - B2R a))); [apply Rmult_le_compat_l; [apply Rabs_pos|lra]|].
    replace (Rabs (val (v_rate s)) * ((1 + u64) * (B2R b - B2R a))) with ((1 + u64) * (Rabs (val (v_rate s)) * (B2R b - B2R a))) by ring. nra. }
  destruct (along_turn s O N Hq BX BY (gaps t0 ts)) as (A1 & A2 & A3); [now rewrite gaps_length|exact HG|].
  destruct (along_heading s (gaps t0 ts) (oc_yaw _ _ _ _ O) (oc_fw _ _ _ _ O) HG) as (_ & _ & _ & A4).
  rewrite gaps_length in A2, A3, A4. fold q in A2, A3. rewrite E. split; [exact A1|].
  rewrite (near0_double _ _ _ _ (oc_fw _ _ _ _ O)) in N. destruct (Rlt_dec (Rabs (val (v_rate s))) dbl_min) as [?|Nw]; [discriminate|].
  destruct (exact_later_turn s (duration (gaps t0 ts)) T Nw) as [L1 L2].
  assert (V : Rabs (val (v_vel s)) * Rabs (duration (gaps t0 ts) - T) <= u64 * Rabs (val (v_vel s)) * T).
  { replace (u64 * Rabs (val (v_vel s)) * T) with (Rabs (val (v_vel s)) * (u64 * T)) by ring. apply Rmult_le_compat_l; [apply Rabs_pos|exact G2]. }
  fold e in L1, L2. set (e1 := ctrv_next (exact s) (duration (gaps t0 ts))) in *. set (z := along (gaps t0 ts) s) in *.
  split; [|split].
  - replace (val (v_x z) - v_x e) with ((val (v_x z) - v_x e1) + (v_x e1 - v_x e)) by (cbn [num reals]; ring).
    eapply Rle_trans; [apply Rabs_triang|]. apply Rplus_le_compat; [exact A2|]. eapply Rle_trans; [exact L1|exact V].
  - replace (val (v_y z) - v_y e) with ((val (v_y z) - v_y e1) + (v_y e1 - v_y e)) by (cbn [num reals]; ring).
    eapply Rle_trans; [apply Rabs_triang|]. apply Rplus_le_compat; [exact A3|]. eapply Rle_trans; [exact L2|exact V].
  - eapply turn_close_trans; [exact A4|].
    replace (val (get_angle (v_yaw s)) + val (v_rate s) * duration (gaps t0 ts) - (val (get_angle (v_yaw s)) + val (v_rate s) * T)) with
      (val (v_rate s) * (duration (gaps t0 ts) - T)) by ring.
    rewrite Rabs_mult. replace (u64 * Rabs (val (v_rate s)) * T) with (Rabs (val (v_rate s)) * (u64 * T)) by ring.
    apply Rmult_le_compat_l; [apply Rabs_pos|exact G2].
Qed.

Lemma times_straight {C} (p : ctrv_state D -> C -> f64 -> ctrv_state D * C) (o : dyn_obj f64 (ctrv_state D) C) (ts : list f64) (q : R) :
  (forall s c d, fst (p s c d) = ctrv_next s d) ->
  let s := o_state o in let t0 := o_timestamp o in let T := B2R (last ts t0) - B2R t0 in
  ordinary_ctrv _ _ _ s -> nnear0 D (v_rate s) = true -> 0 <= q <= bpow radix2 29 ->
  Rabs (val (v_vel s)) <= bpow radix2 60 -> Rabs (val (v_x s)) <= bpow radix2 50 -> Rabs (val (v_y s)) <= bpow radix2 50 ->
  (length ts <= 2 ^ 20)%nat ->
  (forall t, In t (t0 :: ts) -> is_finite t = true /\ Rabs (B2R t) <= bpow radix2 1000) ->
  (forall a b, successive a b (t0 :: ts) -> 0 <= B2R b - B2R a <= bpow radix2 29 /\ Rabs (val (v_vel s)) * (B2R b - B2R a) <= q) ->
  let s' := o_state (visited p o ts) in let e := ctrv_next (exact s) T in
  ordinary_ctrv _ _ _ s' /\
  Rabs (val (v_x s') - v_x e) <= many_bound (length ts) (Rabs (val (v_x s))) (2 * q) + u64 * Rabs (val (v_vel s)) * T /\
  Rabs (val (v_y s') - v_y e) <= many_bound (length ts) (Rabs (val (v_y s))) (2 * q) + u64 * Rabs (val (v_vel s)) * T.
Proof.
  intros Hp s t0 T O N Hq Bv BX BY Hn HF HS s' e.
  destruct (visit_along p o ts Hp) as (E & _). change (o_state (fold_left _ ts o)) with s' in E. fold s t0 in E.
  destruct (gaps_value t0 ts HF) as (G1 & G2 & G3). { intros a b H. destruct (HS a b H) as [H1 _]. lra. }
  fold T in G2. pose proof u64_small as U.
  assert (E30 : bpow radix2 30 = 2 * bpow radix2 29) by (change 30%Z with (1 + 29)%Z; rewrite bpow_plus; reflexivity).
  assert (HG : forall d, In d (gaps t0 ts) -> is_finite d = true /\ Rabs (B2R d) <= bpow radix2 30 /\ Rabs (val (v_vel s) * B2R d) <= 2 * q).
  { intros d Hd. destruct (G3 d Hd) as (F & a & b & Hs & Hb). split; [exact F|]. destruct (HS a b Hs) as [Hab Hw].
    assert (H2 : B2R d <= 2 * (B2R b - B2R a)) by nra.
    split; [rewrite Rabs_pos_eq; lra|].
    rewrite Rabs_mult, (Rabs_pos_eq (B2R d)) by lra.
    apply Rle_trans with (Rabs (val (v_vel s)) * (2 * (B2R b - B2R a))); [apply Rmult_le_compat_l; [apply Rabs_pos|lra]|]. lra. }
  destruct (along_straight s (2 * q) O N ltac:(lra) Bv BX BY (gaps t0 ts)) as (A1 & A2 & A3); [now rewrite gaps_length|exact HG|].
  rewrite gaps_length in A2, A3. rewrite E. split; [exact A1|].
  rewrite (near0_double _ _ _ _ (oc_fw _ _ _ _ O)) in N. destruct (Rlt_dec (Rabs (val (v_rate s))) dbl_min) as [Nw|?]; [|discriminate].
  destruct (exact_later_straight s (duration (gaps t0 ts)) T Nw) as [L1 L2].
  assert (V : Rabs (val (v_vel s)) * Rabs (duration (gaps t0 ts) - T) <= u64 * Rabs (val (v_vel s)) * T).
  { replace (u64 * Rabs (val (v_vel s)) * T) with (Rabs (val (v_vel s)) * (u64 * T)) by ring. apply Rmult_le_compat_l; [apply Rabs_pos|exact G2]. }
  fold e in L1, L2. set (e1 := ctrv_next (exact s) (duration (gaps t0 ts))) in *. set (z := along (gaps t0 ts) s) in *.
  split.
  - replace (val (v_x z) - v_x e) with ((val (v_x z) - v_x e1) + (v_x e1 - v_x e)) by (cbn [num reals]; ring).
    eapply Rle_trans; [apply Rabs_triang|]. apply Rplus_le_compat; [exact A2|]. eapply Rle_trans; [exact L1|exact V].
  - replace (val (v_y z) - v_y e) with ((val (v_y z) - v_y e1) + (v_y e1 - v_y e)) by (cbn [num reals]; ring).
    eapply Rle_trans; [apply Rabs_triang|]. apply Rplus_le_compat; [exact A3|]. eapply Rle_trans; [exact L2|exact V].
Qed.
End Times.

(** Differences of times within a factor of two are exact. *)
Lemma gap_exact (a b : f64) : is_finite a = true -> is_finite b = true -> B2R a / 2 <= B2R b <= 2 * B2R a ->
  B2R (Bminus mode_NE b a) = B2R b - B2R a /\ is_finite (Bminus mode_NE b a) = true.
Proof.
  intros Fa Fb H. pose proof (Bminus_correct 53 1024 _ _ mode_NE b a Fb Fa) as C.
  assert (F : format64 (B2R b - B2R a)) by (apply sterbenz; try typeclasses eauto; try apply generic_format_B2R; lra).
  assert (R : round radix2 fexp64 (round_mode mode_NE) (B2R b - B2R a) = B2R b - B2R a) by (apply round_generic; [typeclasses eauto|exact F]).
  rewrite R in C. rewrite Rlt_bool_true in C.
  - destruct C as (C1 & C2 & _). now split.
  - apply Rle_lt_trans with (Rmax (Rabs (B2R a)) (Rabs (B2R b))).
    + assert (0 <= B2R a) by lra. assert (0 <= B2R b) by lra. rewrite (Rabs_pos_eq (B2R a)), (Rabs_pos_eq (B2R b)) by lra.
      unfold Rmax. destruct (Rle_dec _ _); apply Rabs_le; lra.
    + apply Rmax_lub_lt; apply abs_B2R_lt_emax.
Qed.
