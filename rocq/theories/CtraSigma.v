(** How accurate sigma points of CTRA states and their predictions are in double precision;
    SigmaAccuracy.v is about CTRV states. *)
From Coq Require Import ZArith Reals Lra Lia Bool List Arith Psatz.
From Flocq Require Import Core IEEE754.BinarySingleNaN.
From Verif Require Import Float FloatProofs Motion RealArith DoubleArith DoubleThms SumSquares64 PiDouble TrigSpec
  AngleAccuracy MotionAccuracy CtraAccuracy EqDouble CtraTiny FloatPredict SigmaAccuracy CtraPredictSpec.
Local Open Scope R_scope.

(** ** The exact prediction from two states close to each other *)
Lemma wave_term f c d A A' e psi psi' : wave f -> A = A' * (1 + e) -> Rabs e <= c -> turn_close d psi psi' ->
  Rabs (A * f psi - A' * f psi') <= Rabs A' * (d + c).
Proof.
  intros W -> He HT. pose proof (wave_close f _ _ _ W HT) as S. destruct W as (_ & B & _). pose proof (B psi) as B1.
  replace (A' * (1 + e) * f psi - A' * f psi') with (A' * ((f psi - f psi') + e * f psi)) by ring.
  rewrite Rabs_mult. apply Rmult_le_compat_l; [apply Rabs_pos|]. eapply Rle_trans; [apply Rabs_triang|].
  rewrite Rabs_mult. assert (Rabs e * Rabs (f psi) <= c * 1) by (apply Rmult_le_compat; auto using Rabs_pos). lra.
Qed.
Lemma square_close a w a' w' g b : a = a' * (1 + g) -> w = w' * (1 + b) -> Rabs g <= u64 -> Rabs b <= u64 -> w' <> 0 ->
  exists c, Rabs c <= 5 * u64 /\ a / (w * w) = a' / (w' * w') * (1 + c).
Proof.
  intros -> -> Hg Hb Hw. assert (U : 0 < u64 <= / 1000000000) by (unfold u64; cbn; lra).
  apply Rabs_le_inv in Hg, Hb. exists ((g - 2 * b - b * b) / ((1 + b) * (1 + b))).
  assert (B2 : 0 <= b * b <= u64 * u64) by nra.
  assert (P : 0.999 <= (1 + b) * (1 + b)) by nra. split.
  - unfold Rdiv. rewrite Rabs_mult, (Rabs_pos_eq (/ ((1 + b) * (1 + b)))) by (left; apply Rinv_0_lt_compat; lra).
    apply Rmult_le_reg_r with ((1 + b) * (1 + b)); [lra|]. rewrite Rmult_assoc, Rinv_l, Rmult_1_r by lra.
    assert (Rabs (g - 2 * b - b * b) <= 3 * u64 + u64 * u64) by (apply Rabs_le; lra). nra.
  - field. split; [lra|exact Hw].
Qed.

Lemma next_turn6 (e : ctra_state reals) (t : R) : dbl_min <= Rabs (a_rate e : R) ->
  let v := a_vel e : R in let a := a_acc e : R in let w := a_rate e : R in
  let p := get_angle (a_yaw e) in let p' := get_angle (a_yaw (ctra_next e t)) in
  a_x (ctra_next e t) = (a_x e : R) + (v / w * sin p' + a * t / w * sin p' + a / (w * w) * cos p' - v / w * sin p - a / (w * w) * cos p) /\
  a_y (ctra_next e t) = (a_y e : R) + (- (v / w * cos p') - a * t / w * cos p' + a / (w * w) * sin p' + v / w * cos p - a / (w * w) * sin p).
Proof.
  intros H v a w p p'. assert (W : w <> 0).
  { intros Z. unfold w in Z. rewrite Z, Rabs_R0, dbl_min_bpow in H. pose proof (bpow_gt_0 radix2 (-1022)). lra. }
  assert (E : p' = get_angle (angle_add (a_yaw e) (angleR (w * t)))).
  { unfold p', ctra_next. cbn [nnear0 reals]. destruct (Rlt_dec _ _); reflexivity. }
  unfold ctra_next. cbn [nnear0 reals]. destruct (Rlt_dec _ _) as [L|_]; [lra|].
  cbn [a_x a_y nadd nsub nmul ndiv nsin ncos nneg n1 n2 num reals].
  change (get_angle (angle_add (a_yaw e) (angle_of (A := reals) (a_rate e * t)))) with (get_angle (angle_add (a_yaw e) (angleR (w * t)))).
  rewrite <- E. change (get_angle (a_yaw e)) with p. fold v a w. split; field; exact W.
Qed.
Lemma next_line6 (e : ctra_state reals) (t : R) : Rabs (a_rate e : R) < dbl_min ->
  let v := a_vel e : R in let a := a_acc e : R in let p := get_angle (a_yaw e) in
  a_x (ctra_next e t) = (a_x e : R) + (v * t * cos p + a * t * t / 2 * cos p) /\
  a_y (ctra_next e t) = (a_y e : R) + (v * t * sin p + a * t * t / 2 * sin p).
Proof.
  intros H v a p. unfold ctra_next. cbn [nnear0 reals]. destruct (Rlt_dec _ _) as [_|L]; [|lra].
  cbn [a_x a_y nadd nsub nmul ndiv nsin ncos nneg n1 n2 num reals]. change (get_angle (a_yaw e)) with p. fold v a. split; field.
Qed.
Lemma next_yaw6 (e : ctra_state reals) (t : R) :
  a_yaw (ctra_next e t) = angle_add (a_yaw e) (angleR ((a_rate e : R) * t)) /\
  same_turn (get_angle (a_yaw (ctra_next e t))) (get_angle (a_yaw e) + (a_rate e : R) * t).
Proof.
  assert (E : a_yaw (ctra_next e t) = angle_add (a_yaw e) (angleR ((a_rate e : R) * t))).
  { unfold ctra_next. cbn [nnear0 reals]. destruct (Rlt_dec _ _); reflexivity. }
  split; [exact E|].
  rewrite E. eapply same_turn_trans; [apply angle_add_spec|]. apply same_turn_add; [apply same_turn_refl|apply get_angle_spec].
Qed.
Lemma next_same6 (e : ctra_state reals) (t : R) : a_vel (ctra_next e t) = (a_vel e : R) + (a_acc e : R) * t /\
  a_rate (ctra_next e t) = a_rate e /\ a_acc (ctra_next e t) = a_acc e.
Proof. unfold ctra_next. destruct (nnear0 reals (a_rate e)); repeat split. Qed.

Section Sigma.
Variables (sine cosine : f64 -> f64) (phase : f64 -> f64 -> f64).
Hypothesis ACC : accurate sine cosine phase.
Notation D := (doubles sine cosine phase).
Notation val x := (B2R (x : f64)).
Notation exact_ctra := (exact_ctra sine cosine phase).
Notation ordinary_ctra := (ordinary_ctra sine cosine phase).
Notation near_angle := (near_angle sine cosine phase).

Record near_ctra (s : ctra_state D) (e : ctra_state reals) : Prop := {
  na_x : rel64 (a_x s) (a_x e); na_y : rel64 (a_y s) (a_y e); na_v : rel64 (a_vel s) (a_vel e); na_w : rel64 (a_rate s) (a_rate e);
  na_a : rel64 (a_acc s) (a_acc e);
  na_0 : Rabs (val (a_rate s)) < dbl_min <-> Rabs (a_rate e : R) < dbl_min;
  na_yaw : near_angle (bpow radix2 (-47)) (a_yaw s) (a_yaw e)
}.
Definition exact_from6 (d : nat -> f32) : ctra_state reals :=
  CtraState (A := reals) (B2R (d 0%nat)) (B2R (d 1%nat)) (B2R (d 2%nat)) (angleR (B2R (d 3%nat))) (B2R (d 4%nat)) (B2R (d 5%nat)).

Lemma exact_near6 s : ordinary_ctra s -> near_ctra s (exact_ctra s).
Proof.
  intros [Fx Bx Fy By Fv Bv Fw Bw Fa Ba P]. constructor; cbn [TrigSpec.exact_ctra a_x a_y a_vel a_rate a_acc a_yaw]; try now apply rel64_refl.
  - reflexivity.
  - split; [exact P|]. destruct (get_angle_spec (val (get_angle (a_yaw s)))) as [_ [k E]]. rewrite E.
    exists (- k)%Z. rewrite opp_IZR.
    match goal with |- Rabs ?a <= _ => replace a with 0 by ring end. rewrite Rabs_R0. apply bpow_ge_0.
Qed.
Lemma sigma_near6 s (d : nat -> f32) : ordinary_ctra s ->
  (forall i, (i < 6)%nat -> is_finite (d i) = true /\ Rabs (B2R (d i)) <= bpow radix2 60) ->
  near_ctra (ctra_add s (ctra_from32 sine cosine phase d)) (ctra_add (exact_ctra s) (exact_from6 d)) /\
  near_ctra (ctra_sub s (ctra_from32 sine cosine phase d)) (ctra_sub (exact_ctra s) (exact_from6 d)).
Proof.
  intros [Fx Bx Fy By Fv Bv Fw Bw Fa Ba P] Hd.
  assert (C : forall i, (i < 6)%nat -> is_finite (f64_of_f32 (d i)) = true /\ B2R (f64_of_f32 (d i)) = B2R (d i) /\
    Rabs (B2R (f64_of_f32 (d i))) <= bpow radix2 60).
  { intros i Hi. destruct (Hd i Hi) as [F B]. destruct (conv64 (d i) F) as [E F']. rewrite E. auto. }
  assert (S : forall (x : f64) i, (i < 6)%nat -> is_finite x = true -> Rabs (B2R x) <= bpow radix2 60 ->
    rel64 (Bplus mode_NE x (f64_of_f32 (d i))) (B2R x + B2R (d i)) /\
    rel64 (Bminus mode_NE x (f64_of_f32 (d i))) (B2R x - B2R (d i))).
  { intros x i Hi F B. destruct (C i Hi) as (Fi & Ei & Bi). rewrite <- Ei. split; [now apply plus_rel|now apply minus_rel]. }
  destruct (near_sum sine cosine phase ACC (a_yaw s) (d 3%nat) P) as [N1 N2]; [apply Hd; lia|].
  destruct (C 4%nat) as (F4 & E4 & B4); [lia|].
  split.
  - constructor; [apply S; [lia|assumption..]|apply S; [lia|assumption..]|apply S; [lia|assumption..]|apply S; [lia|assumption..]|apply S; [lia|assumption..]| |exact N1].
    cbn [ctra_add TrigSpec.exact_ctra exact_from6 ctra_from32 a_rate].
    change (nadd reals (val (a_rate s)) (B2R (d 4%nat))) with (val (a_rate s) + B2R (d 4%nat)). rewrite <- E4. now apply plus_small.
  - constructor; [apply S; [lia|assumption..]|apply S; [lia|assumption..]|apply S; [lia|assumption..]|apply S; [lia|assumption..]|apply S; [lia|assumption..]| |exact N2].
    cbn [ctra_sub TrigSpec.exact_ctra exact_from6 ctra_from32 a_rate].
    change (nsub reals (val (a_rate s)) (B2R (d 4%nat))) with (val (a_rate s) - B2R (d 4%nat)). rewrite <- E4. now apply minus_small.
Qed.

(** The prediction from a state near an exact one *)
Lemma near_next6 s e (dt : f64) : near_ctra s e -> is_finite dt = true -> Rabs (B2R dt) <= bpow radix2 30 ->
  Rabs (a_x e : R) <= bpow radix2 59 -> Rabs (a_y e : R) <= bpow radix2 59 -> Rabs (a_vel e : R) <= bpow radix2 59 ->
  Rabs (a_rate e : R) <= bpow radix2 59 -> Rabs (a_acc e : R) <= bpow radix2 59 ->
  Rabs ((a_rate e : R) * B2R dt) <= 7 -> straight_or_turning6 (bpow radix2 (-99)) e ->
  let q := way6 e (B2R dt) in let s' := ctra_next s dt in let e' := ctra_next e (B2R dt) in
  is_finite (a_x s' : f64) = true /\ is_finite (a_y s' : f64) = true /\ is_finite (a_vel s' : f64) = true /\
  Rabs (val (a_x s') - a_x e') <= bpow radix2 (-44) * (Rabs (a_x e : R) + q) + bpow radix2 (-500) /\
  Rabs (val (a_y s') - a_y e') <= bpow radix2 (-44) * (Rabs (a_y e : R) + q) + bpow radix2 (-500) /\
  Rabs (val (a_vel s') - a_vel e') <=
    bpow radix2 (-50) * (Rabs (a_vel e : R) + Rabs (a_acc e : R) * Rabs (B2R dt)) + bpow radix2 (-500) /\
  rel64 (a_rate s') (a_rate e') /\ rel64 (a_acc s') (a_acc e') /\
  near_angle (bpow radix2 (-45)) (a_yaw s') (a_yaw e').
Proof.
  intros [Hx Hy Hv Hw Ha H0 [P HT]] Fd Bd Bx By Bv Bw Ba Bt Sp q s' e'.
  assert (U : u64 = / 9007199254740992) by (unfold u64; cbn; lra).
  assert (E47 : bpow radix2 (-47) = / 140737488355328) by (cbn; lra).
  assert (E44 : bpow radix2 (-44) = / 17592186044416) by (cbn; lra).
  assert (E45 : bpow radix2 (-45) = / 35184372088832) by (cbn; lra).
  assert (E50 : bpow radix2 (-50) = / 1125899906842624) by (cbn; lra).
  assert (E51 : bpow radix2 (-51) = / 2251799813685248) by (cbn; lra).
  assert (K60 : bpow radix2 60 = 2 * bpow radix2 59) by (change 60%Z with (59 + 1)%Z; rewrite bpow_plus; change (bpow radix2 1) with 2; ring).
  pose proof (bpow_gt_0 radix2 59) as P59.
  pose proof (rel64_size _ _ Hx) as Sx. pose proof (rel64_size _ _ Hy) as Sy. pose proof (rel64_size _ _ Hv) as Sv.
  pose proof (rel64_size _ _ Hw) as Sw. pose proof (rel64_size _ _ Ha) as Sa.
  pose proof (rel64_near _ _ Hx) as Nx. pose proof (rel64_near _ _ Hy) as Ny.
  pose proof Hx as [Fx _]. pose proof Hy as [Fy _]. pose proof Hv as [Fv (a & Ba1 & Ev)]. pose proof Hw as [Fw (b & Bb & Ew)].
  pose proof Ha as [Fa (g & Bg & Eg)].
  pose proof (Rabs_pos (a_x e : R)) as Px. pose proof (Rabs_pos (a_y e : R)) as Py. pose proof (Rabs_pos (a_vel e : R)) as Pv.
  pose proof (Rabs_pos (a_rate e : R)) as Pw. pose proof (Rabs_pos (a_acc e : R)) as Pa. pose proof (Rabs_pos (B2R dt)) as Pt.
  assert (O : ordinary_ctra s).
  { constructor; try assumption; rewrite K60; rewrite U in *; lra. }
  assert (Bw8 : Rabs (val (a_rate s) * B2R dt) < 8).
  { rewrite Ew. replace ((a_rate e : R) * (1 + b) * B2R dt) with ((a_rate e : R) * B2R dt * (1 + b)) by ring. rewrite Rabs_mult.
    assert (Rabs (1 + b) <= 1 + u64) by (apply Rabs_le_inv in Bb; apply Rabs_le; rewrite U in *; lra).
    apply Rle_lt_trans with (7 * (1 + u64)); [apply Rmult_le_compat; auto using Rabs_pos|rewrite U; lra]. }
  destruct (ctra_rest_accurate _ _ _ ACC s dt O Fd Bd Bw8) as (F3 & V1 & P1 & T1 & W1 & A1).
  destruct (next_same6 e (B2R dt)) as (VE & WE & AE).
  assert (HT' : turn_close (bpow radix2 (-47)) (get_angle (angleR (val (get_angle (a_yaw s))))) (get_angle (a_yaw e))).
  { apply turn_close_sym. eapply turn_close_same; [|apply get_angle_spec]. apply turn_close_sym. exact HT. }
  (* the headings after the prediction, exactly from the doubles and from e *)
  assert (T2 : turn_close (bpow radix2 (-47) + 8 * u64) (get_angle (a_yaw (ctra_next (exact_ctra s) (B2R dt)))) (get_angle (a_yaw e'))).
  { eapply turn_close_same; [|apply next_yaw6].
    apply turn_close_sym. eapply turn_close_same; [|apply next_yaw6]. apply turn_close_sym.
    cbn [TrigSpec.exact_ctra a_yaw a_rate]. apply turn_close_add; [exact HT'|].
    exists 0%Z. rewrite Ew.
    match goal with |- Rabs ?z <= _ => replace z with ((a_rate e : R) * B2R dt * b) by ring end. rewrite Rabs_mult.
    apply Rmult_le_compat; try apply Rabs_pos; [lra|assumption]. }
  assert (HA : near_angle (bpow radix2 (-45)) (a_yaw s') (a_yaw e')).
  { split; [exact P1|]. apply turn_close_le with (bpow radix2 (-47) + (bpow radix2 (-47) + 8 * u64)); [rewrite E45, E47, U; lra|].
    eapply turn_close_trans2; [exact T1|exact T2]. }
  assert (Vel : Rabs (val (a_vel s') - a_vel e') <=
    bpow radix2 (-50) * (Rabs (a_vel e : R) + Rabs (a_acc e : R) * Rabs (B2R dt)) + bpow radix2 (-500)).
  { change (ctra_next s dt) with s' in V1. rewrite (ctra_exact_velocity (exact_ctra s) (B2R dt)) in V1. unfold e'. rewrite VE.
    cbn [TrigSpec.exact_ctra a_vel a_acc] in V1.
    assert (C1 : Rabs (val (a_vel s) - a_vel e) <= u64 * Rabs (a_vel e)) by apply (rel64_near _ _ Hv).
    assert (C2 : Rabs (val (a_acc s) * B2R dt - (a_acc e : R) * B2R dt) <= u64 * (Rabs (a_acc e) * Rabs (B2R dt))).
    { replace (val (a_acc s) * B2R dt - (a_acc e : R) * B2R dt) with ((val (a_acc s) - a_acc e) * B2R dt) by ring.
      rewrite Rabs_mult, <- Rmult_assoc. apply Rmult_le_compat_r; [apply Rabs_pos|apply (rel64_near _ _ Ha)]. }
    assert (C3 : Rabs (val (a_acc s)) * Rabs (B2R dt) <= (1 + u64) * (Rabs (a_acc e) * Rabs (B2R dt))).
    { rewrite <- Rmult_assoc. apply Rmult_le_compat_r; assumption. }
    assert (L : bpow radix2 (-1000) <= bpow radix2 (-500)) by (apply bpow_le; lia).
    assert (Q0 : 0 <= Rabs (a_acc e) * Rabs (B2R dt)) by (apply Rmult_le_pos; assumption).
    rewrite E51, U in *. rewrite E50. apply Rabs_le_inv in V1, C1, C2. apply Rabs_le. lra. }
  assert (Tail : Rabs (val (a_vel s') - a_vel e') <=
      bpow radix2 (-50) * (Rabs (a_vel e : R) + Rabs (a_acc e : R) * Rabs (B2R dt)) + bpow radix2 (-500) /\
    rel64 (a_rate s') (a_rate e') /\ rel64 (a_acc s') (a_acc e') /\ near_angle (bpow radix2 (-45)) (a_yaw s') (a_yaw e')).
  { split; [exact Vel|]. unfold s', e'. rewrite W1, A1, WE, AE. split; [exact Hw|]. split; [exact Ha|exact HA]. }
  clear HA Vel V1 T1 P1 HT W1 A1 VE WE AE.
  set (t := B2R dt) in *. unfold way6 in q.
  destruct (Rlt_dec (Rabs (a_rate e : R)) (bpow radix2 (-1022))) as [L|L].
  - rewrite dbl_min_bpow in H0. assert (L' := proj2 H0 L).
    destruct (ctra_straight_accurate _ _ _ ACC s dt O Fd Bd L') as (F1 & F2 & A1 & A2).
    split; [exact F1|]. split; [exact F2|]. split; [exact F3|].
    destruct (next_line6 (exact_ctra s) t) as [X1 Y1]; [now rewrite dbl_min_bpow|]. fold t in A1, A2. rewrite X1 in A1. rewrite Y1 in A2. clear X1 Y1.
    destruct (next_line6 e t) as [X2 Y2]; [now rewrite dbl_min_bpow|]. unfold e'. rewrite X2, Y2. clear X2 Y2.
    cbn [TrigSpec.exact_ctra a_x a_y a_vel a_yaw a_acc] in A1, A2. unfold reach_straight in A1, A2. fold t in A1, A2.
    change (ctra_next s dt) with s' in A1, A2.
    assert (G1 : val (a_vel s) * t = (a_vel e : R) * t * (1 + a)) by (rewrite Ev; ring).
    assert (G2 : val (a_acc s) * t * t / 2 = (a_acc e : R) * t * t / 2 * (1 + g)) by (rewrite Eg; field).
    pose proof (wave_term cos u64 _ _ _ _ _ _ wave_cos G1 Ba1 HT') as C1.
    pose proof (wave_term cos u64 _ _ _ _ _ _ wave_cos G2 Bg HT') as C2.
    pose proof (wave_term sin u64 _ _ _ _ _ _ wave_sin G1 Ba1 HT') as D1.
    pose proof (wave_term sin u64 _ _ _ _ _ _ wave_sin G2 Bg HT') as D2. clear G1 G2.
    set (p := get_angle (angleR (val (get_angle (a_yaw s))))) in *. set (p' := get_angle (a_yaw e)) in *.
    replace (Rabs (a_vel e * t)) with (Rabs (a_vel e) * Rabs t) in C1, D1 by (symmetry; apply Rabs_mult).
    replace (Rabs (a_acc e * t * t / 2)) with (Rabs (a_acc e) * Rabs t * Rabs t / 2) in C2, D2.
    2:{ unfold Rdiv. rewrite !Rabs_mult. rewrite (Rabs_pos_eq (/ 2)) by lra. reflexivity. }
    assert (Q1 : 0 <= Rabs (a_vel e) * Rabs t) by (apply Rmult_le_pos; assumption).
    assert (Q2 : 0 <= Rabs (a_acc e) * Rabs t * Rabs t / 2) by (apply Rmult_le_pos; [|lra]; repeat apply Rmult_le_pos; assumption).
    assert (S1 : Rabs (val (a_vel s)) * Rabs t <= (1 + u64) * (Rabs (a_vel e) * Rabs t)) by (rewrite <- Rmult_assoc; apply Rmult_le_compat_r; assumption).
    assert (S2 : Rabs (val (a_acc s)) * Rabs t * Rabs t / 2 <= (1 + u64) * (Rabs (a_acc e) * Rabs t * Rabs t / 2)).
    { replace ((1 + u64) * (Rabs (a_acc e) * Rabs t * Rabs t / 2)) with ((1 + u64) * Rabs (a_acc e) * Rabs t * Rabs t / 2) by field.
      unfold Rdiv. apply Rmult_le_compat_r; [lra|]. apply Rmult_le_compat_r; [exact Pt|]. apply Rmult_le_compat_r; [exact Pt|exact Sa]. }
    set (q1 := Rabs (a_vel e) * Rabs t) in *. set (q2 := Rabs (a_acc e) * Rabs t * Rabs t / 2) in *.
    set (r1 := Rabs (val (a_vel s)) * Rabs t) in *. set (r2 := Rabs (val (a_acc s)) * Rabs t * Rabs t / 2) in *.
    unfold q. clear q Sp Bt Bw8 L L' H0 T2 K60 Bd.
    set (Z1 := val (a_vel s) * t * cos p) in *. set (Z2 := val (a_acc s) * t * t / 2 * cos p) in *.
    set (Z3 := val (a_vel s) * t * sin p) in *. set (Z4 := val (a_acc s) * t * t / 2 * sin p) in *.
    set (Y1 := (a_vel e : R) * t * cos p') in *. set (Y2 := (a_acc e : R) * t * t / 2 * cos p') in *.
    set (Y3 := (a_vel e : R) * t * sin p') in *. set (Y4 := (a_acc e : R) * t * t / 2 * sin p') in *.
    set (tiny := bpow radix2 (-500)) in *.
    rewrite E45, U in *. rewrite E44. rewrite E47 in *. apply Rabs_le_inv in A1, A2, C1, C2, D1, D2, Nx, Ny.
    split; [apply Rabs_le; lra|]. split; [apply Rabs_le; lra|]. exact Tail.
  - destruct Sp as [Sp|Sp]; [contradiction|].
    assert (W0 : (a_rate e : R) <> 0).
    { intros Z. rewrite Z, Rabs_R0 in Sp. pose proof (bpow_gt_0 radix2 (-99)). lra. }
    assert (B100 : bpow radix2 (-99) = 2 * bpow radix2 (-100)) by (change (-99)%Z with (-100 + 1)%Z; rewrite bpow_plus; change (bpow radix2 1) with 2; ring).
    pose proof (bpow_gt_0 radix2 (-100)) as P100.
    assert (W' : bpow radix2 (-100) <= Rabs (val (a_rate s))).
    { rewrite Ew, Rabs_mult. assert (1 - u64 <= Rabs (1 + b)) by (apply Rabs_le_inv in Bb; rewrite U in *; rewrite Rabs_pos_eq; lra).
      assert (Rabs (a_rate e : R) * (1 - u64) <= Rabs (a_rate e : R) * Rabs (1 + b)) by (apply Rmult_le_compat_l; assumption).
      rewrite U in *. lra. }
    destruct (ctra_turn_accurate _ _ _ ACC s dt O Fd Bd W' Bw8) as (F1 & F2 & A1 & A2).
    split; [exact F1|]. split; [exact F2|]. split; [exact F3|].
    assert (M1 : bpow radix2 (-1022) <= bpow radix2 (-100)) by (apply bpow_le; lia).
    destruct (next_turn6 (exact_ctra s) t) as [X1 Y1]; [rewrite dbl_min_bpow; cbn [TrigSpec.exact_ctra a_rate]; lra|].
    fold t in A1, A2. rewrite X1 in A1. rewrite Y1 in A2. clear X1 Y1.
    destruct (next_turn6 e t) as [X2 Y2]; [rewrite dbl_min_bpow; lra|]. unfold e' in *. rewrite X2, Y2. clear X2 Y2.
    set (p1 := get_angle (a_yaw (ctra_next (exact_ctra s) t))) in *. set (p1' := get_angle (a_yaw (ctra_next e t))) in *.
    cbn [TrigSpec.exact_ctra a_x a_y a_vel a_yaw a_acc a_rate] in A1, A2. unfold reach_turn in A1, A2. fold t in A1, A2.
    change (ctra_next s dt) with s' in A1, A2.
    set (p := get_angle (angleR (val (get_angle (a_yaw s))))) in *. set (p' := get_angle (a_yaw e)) in *.
    destruct (ratio_close _ _ _ _ a b Ev Ew Ba1 Bb W0) as (c1 & Hc1 & R1).
    destruct (ratio_close (val (a_acc s) * t) (val (a_rate s)) ((a_acc e : R) * t) (a_rate e : R) g b) as (c2 & Hc2 & R2);
      [rewrite Eg; ring|exact Ew|exact Bg|exact Bb|exact W0|].
    destruct (square_close _ _ _ _ g b Eg Ew Bg Bb W0) as (c3 & Hc3 & R3).
    pose proof (wave_term sin _ _ _ _ _ _ _ wave_sin R1 Hc1 T2) as C1. pose proof (wave_term sin _ _ _ _ _ _ _ wave_sin R2 Hc2 T2) as C2.
    pose proof (wave_term cos _ _ _ _ _ _ _ wave_cos R3 Hc3 T2) as C3.
    pose proof (wave_term sin _ _ _ _ _ _ _ wave_sin R1 Hc1 HT') as C4. pose proof (wave_term cos _ _ _ _ _ _ _ wave_cos R3 Hc3 HT') as C5.
    pose proof (wave_term cos _ _ _ _ _ _ _ wave_cos R1 Hc1 T2) as D1. pose proof (wave_term cos _ _ _ _ _ _ _ wave_cos R2 Hc2 T2) as D2.
    pose proof (wave_term sin _ _ _ _ _ _ _ wave_sin R3 Hc3 T2) as D3.
    pose proof (wave_term cos _ _ _ _ _ _ _ wave_cos R1 Hc1 HT') as D4. pose proof (wave_term sin _ _ _ _ _ _ _ wave_sin R3 Hc3 HT') as D5.
    assert (Wpos : 0 < Rabs (a_rate e : R)) by now apply Rabs_pos_lt.
    assert (Q1 : Rabs (a_vel e / a_rate e) = Rabs (a_vel e) / Rabs (a_rate e)) by (unfold Rdiv; now rewrite Rabs_mult, Rabs_inv).
    assert (Q2 : Rabs (a_acc e * t / a_rate e) = Rabs (a_acc e) * Rabs t / Rabs (a_rate e)) by (unfold Rdiv; now rewrite !Rabs_mult, Rabs_inv).
    assert (Q3 : Rabs (a_acc e / (a_rate e * a_rate e)) = Rabs (a_acc e) / (Rabs (a_rate e) * Rabs (a_rate e))).
    { unfold Rdiv. now rewrite Rabs_mult, Rabs_inv, Rabs_mult. }
    assert (Qs : (Rabs (val (a_vel s)) + Rabs (val (a_acc s)) * Rabs t) / Rabs (val (a_rate s)) + Rabs (val (a_acc s)) / (val (a_rate s) * val (a_rate s)) =
      Rabs (val (a_vel s) / val (a_rate s)) + Rabs (val (a_acc s) * t / val (a_rate s)) + Rabs (val (a_acc s) / (val (a_rate s) * val (a_rate s)))).
    { unfold Rdiv. rewrite !Rabs_mult, !Rabs_inv, Rabs_mult.
      assert (Rabs (val (a_rate s)) * Rabs (val (a_rate s)) = val (a_rate s) * val (a_rate s)) by (rewrite <- Rabs_mult; apply Rabs_pos_eq, Rle_0_sqr).
      rewrite H. ring. }
    rewrite Qs in A1, A2. clear Qs.
    assert (Rel : forall A A' c : R, A = A' * (1 + c) -> Rabs c <= 5 * u64 -> Rabs A <= Rabs A' * (1 + 5 * u64)).
    { intros A A' c -> Hc. rewrite Rabs_mult. apply Rmult_le_compat_l; [apply Rabs_pos|]. apply Rabs_le_inv in Hc. apply Rabs_le. rewrite U in *. lra. }
    assert (H1 : Rabs c1 <= 5 * u64) by (rewrite U in *; lra). assert (H2 : Rabs c2 <= 5 * u64) by (rewrite U in *; lra).
    pose proof (Rel _ _ _ R1 H1) as S1. pose proof (Rel _ _ _ R2 H2) as S2. pose proof (Rel _ _ _ R3 Hc3) as S3. clear Rel.
    assert (Qe : q = Rabs (a_vel e / a_rate e) + Rabs (a_acc e * t / a_rate e) + Rabs (a_acc e / (a_rate e * a_rate e))).
    { unfold q. rewrite Q1, Q2, Q3. unfold Rdiv. ring. }
    rewrite Qe. clear Qe q Q1 Q2 Q3 R1 R2 R3.
    pose proof (Rabs_pos (a_vel e / a_rate e)) as O1. pose proof (Rabs_pos (a_acc e * t / a_rate e)) as O2.
    pose proof (Rabs_pos (a_acc e / (a_rate e * a_rate e))) as O3.
    set (q1 := Rabs (a_vel e / a_rate e)) in *. set (q2 := Rabs (a_acc e * t / a_rate e)) in *. set (q3 := Rabs (a_acc e / (a_rate e * a_rate e))) in *.
    set (r1 := Rabs (val (a_vel s) / val (a_rate s))) in *. set (r2 := Rabs (val (a_acc s) * t / val (a_rate s))) in *.
    set (r3 := Rabs (val (a_acc s) / (val (a_rate s) * val (a_rate s)))) in *.
    set (Z1 := val (a_vel s) / val (a_rate s) * sin p1) in *. set (Z2 := val (a_acc s) * t / val (a_rate s) * sin p1) in *.
    set (Z3 := val (a_acc s) / (val (a_rate s) * val (a_rate s)) * cos p1) in *. set (Z4 := val (a_vel s) / val (a_rate s) * sin p) in *.
    set (Z5 := val (a_acc s) / (val (a_rate s) * val (a_rate s)) * cos p) in *.
    set (Y1 := val (a_vel s) / val (a_rate s) * cos p1) in *. set (Y2 := val (a_acc s) * t / val (a_rate s) * cos p1) in *.
    set (Y3 := val (a_acc s) / (val (a_rate s) * val (a_rate s)) * sin p1) in *. set (Y4 := val (a_vel s) / val (a_rate s) * cos p) in *.
    set (Y5 := val (a_acc s) / (val (a_rate s) * val (a_rate s)) * sin p) in *.
    set (X1 := a_vel e / a_rate e * sin p1') in *. set (X2 := a_acc e * t / a_rate e * sin p1') in *.
    set (X3 := a_acc e / (a_rate e * a_rate e) * cos p1') in *. set (X4 := a_vel e / a_rate e * sin p') in *.
    set (X5 := a_acc e / (a_rate e * a_rate e) * cos p') in *.
    set (V1 := a_vel e / a_rate e * cos p1') in *. set (V2 := a_acc e * t / a_rate e * cos p1') in *.
    set (V3 := a_acc e / (a_rate e * a_rate e) * sin p1') in *. set (V4 := a_vel e / a_rate e * cos p') in *.
    set (V5 := a_acc e / (a_rate e * a_rate e) * sin p') in *.
    set (tiny := bpow radix2 (-500)) in *.
    clear H1 H2 Hc1 Hc2 Hc3 T2 HT' W' Bw8 M1 B100 P100 Sp Bt Bd K60 Bx By Bv Bw Ba Sv Sw Sa Ev Ew Eg.
    rewrite E45, U in *. rewrite E44. rewrite E47 in *. apply Rabs_le_inv in A1, A2, C1, C2, C3, C4, C5, D1, D2, D3, D4, D5, Nx, Ny.
    split; [apply Rabs_le; lra|]. split; [apply Rabs_le; lra|]. exact Tail.
Qed.
End Sigma.
