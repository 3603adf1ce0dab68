(** When the sigma points of a CTRA state are calm, in terms of the state and of its
    standard deviations; as PredictInput.v for CTRV. *)
From Coq Require Import ZArith Reals Lra Lia Bool List Arith Psatz.
From Flocq Require Import Core IEEE754.BinarySingleNaN.
From Verif Require Import Float Motion RealArith DoubleThms PiDouble TrigSpec AngleAccuracy MotionAccuracy CtraAccuracy SigmaAccuracy PredictSpec
  PredictInput CtraPredictSpec CtraSigma CtraPredictAccuracy.
Import ListNotations.
Local Open Scope R_scope.

(** The second order part of the way *)
Lemma bend_cos p b : Rabs (b * sin (p + b) + cos (p + b) - cos p) <= Rabs b * Rabs b.
Proof.
  destruct (MVT_abs (fun x => cos x + x * sin (p + b)) (fun x => - sin x + 1 * sin (p + b)) p (p + b)) as (c & E & Hc).
  { intros x _. apply derivable_pt_lim_plus; [apply derivable_pt_lim_cos|].
    apply (derivable_pt_lim_scal_right (fun x => x) x 1 (sin (p + b))), derivable_pt_lim_id. }
  replace (b * sin (p + b) + cos (p + b) - cos p) with (cos (p + b) + (p + b) * sin (p + b) - (cos p + p * sin (p + b))) by ring.
  rewrite E. replace (p + b - p) with b by ring. apply Rmult_le_compat_r; [apply Rabs_pos|].
  replace (- sin c + 1 * sin (p + b)) with (sin (p + b) - sin c) by ring. eapply Rle_trans; [apply sin_lip|].
  unfold Rmin, Rmax, Rabs in *. destruct (Rle_dec p (p + b)), (Rcase_abs (p + b - c)), (Rcase_abs b); lra.
Qed.
Lemma bend_sin p b : Rabs (- (b * cos (p + b)) + sin (p + b) - sin p) <= Rabs b * Rabs b.
Proof.
  destruct (MVT_abs (fun x => sin x + x * - cos (p + b)) (fun x => cos x + 1 * - cos (p + b)) p (p + b)) as (c & E & Hc).
  { intros x _. apply derivable_pt_lim_plus; [apply derivable_pt_lim_sin|].
    apply (derivable_pt_lim_scal_right (fun x => x) x 1 (- cos (p + b))), derivable_pt_lim_id. }
  replace (- (b * cos (p + b)) + sin (p + b) - sin p) with (sin (p + b) + (p + b) * - cos (p + b) - (sin p + p * - cos (p + b))) by ring.
  rewrite E. replace (p + b - p) with b by ring. apply Rmult_le_compat_r; [apply Rabs_pos|].
  replace (cos c + 1 * - cos (p + b)) with (cos c - cos (p + b)) by ring. eapply Rle_trans; [apply cos_lip|].
  unfold Rmin, Rmax, Rabs in *. destruct (Rle_dec p (p + b)), (Rcase_abs (c - (p + b))), (Rcase_abs b); lra.
Qed.
(** No CTRA prediction is farther away than the largest speed and the time allow. *)
Lemma way_bound (e : ctra_state reals) (t : R) :
  Rabs (a_x (ctra_next e t) - a_x e) <= (Rabs (a_vel e) + Rabs (a_acc e) * Rabs t) * Rabs t /\
  Rabs (a_y (ctra_next e t) - a_y e) <= (Rabs (a_vel e) + Rabs (a_acc e) * Rabs t) * Rabs t.
Proof.
  set (v := a_vel e : R). set (a := a_acc e : R). set (w := a_rate e : R). set (p := get_angle (a_yaw e) : R).
  pose proof (Rabs_pos v) as Pv. pose proof (Rabs_pos a) as Pa. pose proof (Rabs_pos t) as Pt.
  assert (Add : forall A B, Rabs A <= Rabs v * Rabs t -> Rabs B <= Rabs a * Rabs t * Rabs t -> Rabs (A + B) <= (Rabs v + Rabs a * Rabs t) * Rabs t).
  { intros A B HA HB. eapply Rle_trans; [apply Rabs_triang|]. lra. }
  destruct (Rlt_dec (Rabs w) dbl_min) as [L|L].
  - destruct (next_line6 e t L) as [X Y]. rewrite X, Y. fold v a p.
    assert (T1 : forall c, Rabs c <= 1 -> Rabs (v * t * c) <= Rabs v * Rabs t).
    { intros c Hc. rewrite !Rabs_mult. rewrite <- (Rmult_1_r (Rabs v * Rabs t)) at 2.
      apply Rmult_le_compat_l; [apply Rmult_le_pos; assumption|exact Hc]. }
    assert (T2 : forall c, Rabs c <= 1 -> Rabs (a * t * t / 2 * c) <= Rabs a * Rabs t * Rabs t).
    { intros c Hc. unfold Rdiv. rewrite !Rabs_mult, (Rabs_pos_eq (/ 2)) by lra.
      assert (0 <= Rabs a * Rabs t * Rabs t) by (repeat apply Rmult_le_pos; assumption).
      assert (0 <= Rabs c) by apply Rabs_pos. nra. }
    assert (C : Rabs (cos p) <= 1) by apply Rabs_le, COS_bound. assert (S : Rabs (sin p) <= 1) by apply Rabs_le, SIN_bound.
    split; match goal with |- Rabs ?z <= _ => match z with ?x0 + ?y0 - ?x0 => replace z with y0 by ring end end; apply Add; auto.
  - assert (W0 : w <> 0).
    { intros Z. rewrite Z, Rabs_R0, dbl_min_bpow in L. apply L, bpow_gt_0. }
    assert (Wp : 0 < Rabs w) by now apply Rabs_pos_lt.
    destruct (next_turn6 e t) as [X Y]; [fold w; lra|]. rewrite X, Y. clear X Y. fold v a w p.
    destruct (next_yaw6 e t) as [_ T]. fold p w in T.
    rewrite (same_turn_sin _ _ T), (same_turn_cos _ _ T). clear T.
    assert (K : forall B, Rabs B <= Rabs (w * t) * Rabs (w * t) -> Rabs (a / (w * w) * B) <= Rabs a * Rabs t * Rabs t).
    { intros B HB. unfold Rdiv. rewrite !Rabs_mult, Rabs_inv, Rabs_mult. rewrite !Rabs_mult in HB.
      rewrite !Rmult_assoc. apply Rmult_le_compat_l; [exact Pa|].
      apply Rmult_le_reg_l with (Rabs w * Rabs w); [apply Rmult_lt_0_compat; assumption|].
      rewrite <- Rmult_assoc, Rinv_r, Rmult_1_l by (apply Rgt_not_eq; apply Rmult_lt_0_compat; assumption).
      eapply Rle_trans; [exact HB|]. right. ring. }
    split.
    + match goal with |- Rabs ?z <= _ => replace z with
        (v / w * (sin (p + w * t) - sin p) + a / (w * w) * (w * t * sin (p + w * t) + cos (p + w * t) - cos p)) by (field; exact W0) end.
      apply Add; [rewrite <- Rabs_mult; now apply arc_chord; [apply sin_lip|]|]. apply K, bend_cos.
    + match goal with |- Rabs ?z <= _ => replace z with
        (- (v / w * (cos (p + w * t) - cos p)) + a / (w * w) * (- (w * t * cos (p + w * t)) + sin (p + w * t) - sin p)) by (field; exact W0) end.
      apply Add; [rewrite Rabs_Ropp, <- Rabs_mult; now apply arc_chord; [apply cos_lip|]|]. apply K, bend_sin.
Qed.

Section Steady.
Variables (e0 : ctra_state reals) (t h : R) (dev : nat -> R) (w0 : R).
Notation dx := (dev 0%nat). Notation dy := (dev 1%nat). Notation dv := (dev 2%nat).
Notation dpsi := (dev 3%nat). Notation dw := (dev 4%nat). Notation da := (dev 5%nat).
Notation t_size := (extent6 e0 t h dev). Notation t_center := (center6 e0 t h). Notation t_radius := (spread6 e0 t dev).
Notation reach := (reach6 e0 t dev). Notation radius := (radius6 e0 t dev w0). Notation speed := (speed6 e0 t dev).
Hypothesis Hd : forall j, 0 <= dev j.
Hypothesis TU : steady6 e0 t h dev w0.

Lemma speed_pos : 0 <= speed.
Proof.
  unfold speed6. pose proof (Hd 2%nat). pose proof (Hd 5%nat). pose proof (Rabs_pos (a_vel e0)). pose proof (Rabs_pos (a_acc e0)).
  assert (0 <= (Rabs (a_acc e0) + da) * Rabs t) by (apply Rmult_le_pos; [lra|apply Rabs_pos]). lra.
Qed.
Lemma reach6_pos : 0 <= reach.
Proof. unfold reach6. apply Rmult_le_pos; [apply speed_pos|apply Rabs_pos]. Qed.
Lemma w0_pos : 0 < w0.
Proof. pose proof (st6_rate _ _ _ _ _ TU). pose proof (bpow_gt_0 radix2 (-99)). lra. Qed.
Lemma radius6_pos : 0 <= radius.
Proof.
  pose proof w0_pos as W. pose proof speed_pos. pose proof (Hd 5%nat). pose proof (Rabs_pos (a_acc e0)). unfold radius6.
  apply Rplus_le_le_0_compat; apply Rmult_le_pos; try lra; left; apply Rinv_0_lt_compat; [lra|now apply Rmult_lt_0_compat].
Qed.
Lemma steady_frame6 : frame6 t_size t_center t_radius.
Proof.
  pose proof TU as [Slow Turn Hh Hs Hx Hy Hv Hsize]. pose proof (Rabs_pos t) as T0.
  pose proof reach6_pos as R0. pose proof (Hd 0%nat). pose proof (Hd 1%nat). pose proof (Hd 2%nat). pose proof (Hd 3%nat).
  pose proof (Hd 4%nat). pose proof (Hd 5%nat).
  assert (W0 : 0 <= dw * Rabs t) by (apply Rmult_le_pos; lra).
  assert (V0 : 0 <= da * Rabs t) by (apply Rmult_le_pos; lra).
  pose proof (bpow_gt_0 radix2 (-40)) as B40.
  constructor; [exact Hsize|cbn; lra|].
  intros [|[|[|[|[|[|j]]]]]] Hj; [| | | | | |lia]; cbn [extent6 center6 spread6]; try (split; lra).
  split; [lra|]. change (bpow radix2 (-40)) with (/ 1099511627776) in *. change (bpow radix2 (-18)) with (/ 262144) in Hs. lra.
Qed.

Lemma steady_way6 (e : ctra_state reals) : Rabs (a_vel e - a_vel e0) <= dv -> Rabs (a_acc e - a_acc e0) <= da ->
  straight_or_turning6 w0 e ->
  way6 e t <= reach + radius /\ Rabs (a_vel e) + Rabs (a_acc e) * Rabs t <= speed.
Proof.
  intros Ev Ea Sp. pose proof reach6_pos as R0. pose proof radius6_pos as R1. pose proof w0_pos as W.
  assert (Tri : forall a b d, Rabs (a - b) <= d -> Rabs a <= Rabs b + d).
  { intros a b d H. unfold Rabs in *. destruct (Rcase_abs (a - b)), (Rcase_abs a), (Rcase_abs b); lra. }
  pose proof (Tri _ _ _ Ev) as Bv. pose proof (Tri _ _ _ Ea) as Ba. clear Tri.
  pose proof (Rabs_pos (a_vel e)) as Pv. pose proof (Rabs_pos (a_acc e)) as Pa. pose proof (Rabs_pos t) as Pt.
  assert (A0 : Rabs (a_acc e) * Rabs t <= (Rabs (a_acc e0) + da) * Rabs t) by (apply Rmult_le_compat_r; assumption).
  assert (A1 : Rabs (a_vel e) + Rabs (a_acc e) * Rabs t <= speed) by (unfold speed6; lra).
  assert (A2 : 0 <= Rabs (a_acc e) * Rabs t) by (apply Rmult_le_pos; assumption).
  split; [|exact A1]. unfold way6. pose proof (st6_rate _ _ _ _ _ TU) as Slow.
  destruct (Rlt_dec (Rabs (a_rate e)) (bpow radix2 (-1022))) as [N|N].
  - assert ((Rabs (a_vel e) + Rabs (a_acc e) * Rabs t) * Rabs t <= reach) by (unfold reach6; apply Rmult_le_compat_r; assumption).
    assert (0 <= Rabs (a_acc e) * Rabs t * Rabs t) by (apply Rmult_le_pos; assumption). lra.
  - destruct Sp as [Sp|Sp]; [contradiction|].
    assert (I : / Rabs (a_rate e) <= / w0) by (apply Rinv_le_contravar; assumption).
    assert (I0 : 0 < / Rabs (a_rate e)) by (apply Rinv_0_lt_compat; lra).
    assert (B1 : (Rabs (a_vel e) + Rabs (a_acc e) * Rabs t) / Rabs (a_rate e) <= speed / w0).
    { unfold Rdiv. apply Rmult_le_compat; lra. }
    assert (B2 : Rabs (a_acc e) / (Rabs (a_rate e) * Rabs (a_rate e)) <= (Rabs (a_acc e0) + da) / (w0 * w0)).
    { unfold Rdiv. rewrite !Rinv_mult. apply Rmult_le_compat; [lra| |lra|apply Rmult_le_compat; lra].
      apply Rmult_le_pos; lra. }
    unfold radius6 in *. lra.
Qed.

Lemma steady_calm6 (e : ctra_state reals) : Rabs (a_x e - a_x e0) <= dx -> Rabs (a_y e - a_y e0) <= dy ->
  Rabs (a_vel e - a_vel e0) <= dv -> Rabs (a_rate e - a_rate e0) <= dw -> Rabs (a_acc e - a_acc e0) <= da ->
  turn_close dpsi (get_angle (a_yaw e)) (get_angle (a_yaw e0)) -> straight_or_turning6 w0 e -> calm6 t_size t_center t_radius t e.
Proof.
  intros Ex Ey Ev Ew Eac Ea Sp. pose proof TU as [Slow Turn Hh Hs Hx Hy Hv Hsize]. pose proof (Rabs_pos t) as T0.
  assert (Tri : forall a b d, Rabs (a - b) <= d -> Rabs a <= Rabs b + d).
  { intros a b d H. unfold Rabs in *. destruct (Rcase_abs (a - b)), (Rcase_abs a), (Rcase_abs b); lra. }
  pose proof (Tri _ _ _ Ex) as Bx. pose proof (Tri _ _ _ Ey) as By. pose proof (Tri _ _ _ Ew) as Bw. clear Tri.
  destruct (steady_way6 e Ev Eac Sp) as [Way A1].
  pose proof reach6_pos as R0. pose proof radius6_pos as R1. pose proof (Hd 0%nat) as D0. pose proof (Hd 1%nat) as D1.
  pose proof (Hd 3%nat) as D3. pose proof (Hd 4%nat) as D4.
  assert (Wt : Rabs (a_rate e * t) <= 7).
  { eapply Rle_trans; [right; apply Rabs_mult|]. eapply Rle_trans; [|exact Turn]. apply Rmult_le_compat_r; [exact T0|exact Bw]. }
  destruct (way_bound e t) as [X Y].
  assert (XR : (Rabs (a_vel e) + Rabs (a_acc e) * Rabs t) * Rabs t <= reach) by (unfold reach6; apply Rmult_le_compat_r; assumption).
  assert (X' : Rabs (a_x (ctra_next e t) - a_x e) <= reach) by (eapply Rle_trans; [exact X|exact XR]).
  assert (Y' : Rabs (a_y (ctra_next e t) - a_y e) <= reach) by (eapply Rle_trans; [exact Y|exact XR]).
  clear X Y XR.
  assert (Yaw : turn_close (dpsi + dw * Rabs t) (get_angle (a_yaw (ctra_next e t))) h).
  { apply turn_close_sym. eapply turn_close_same; [|apply next_yaw6]. apply turn_close_sym.
    eapply turn_close_same; [|exact Hh]. apply turn_close_add; [exact Ea|].
    exists 0%Z. match goal with |- Rabs ?z <= _ => replace z with (((a_rate e : R) - (a_rate e0 : R)) * t) by ring end.
    rewrite Rabs_mult. apply Rmult_le_compat_r; assumption. }
  assert (Wd : 0 <= dpsi + dw * Rabs t) by (assert (0 <= dw * Rabs t) by (apply Rmult_le_pos; lra); lra).
  destruct (signed_near _ _ _ (yaw_range6 e t) Yaw Wd Hs) as [Seam Near].
  change (bpow radix2 17) with 131072 in Hx, Hy.
  destruct (next_same6 e t) as (VE & WE & AE).
  constructor.
  - change (bpow radix2 18) with 262144. unfold extent6 in *. cbn [center6 spread6] in *. pose proof (Rabs_pos (a_x e0)). lra.
  - change (bpow radix2 18) with 262144. unfold extent6 in *. cbn [center6 spread6] in *. pose proof (Rabs_pos (a_y e0)). lra.
  - eapply Rle_trans; [exact A1|exact Hv].
  - exact Wt.
  - destruct Sp as [Sp|Sp]; [now left|right]. eapply Rle_trans; [exact Slow|exact Sp].
  - exact Seam.
  - intros [|[|[|[|[|[|j]]]]]] Hj; [| | | | | |lia]; cbn [component6 center6 spread6].
    + replace (a_x (ctra_next e t) - a_x e0) with ((a_x e - a_x e0) + (a_x (ctra_next e t) - a_x e)) by (cbn; ring).
      eapply Rle_trans; [apply Rabs_triang|]. now apply Rplus_le_compat.
    + replace (a_y (ctra_next e t) - a_y e0) with ((a_y e - a_y e0) + (a_y (ctra_next e t) - a_y e)) by (cbn; ring).
      eapply Rle_trans; [apply Rabs_triang|]. now apply Rplus_le_compat.
    + rewrite VE. match goal with |- Rabs ?z <= _ => replace z with (((a_vel e : R) - (a_vel e0 : R)) + ((a_acc e : R) - (a_acc e0 : R)) * t) by ring end.
      eapply Rle_trans; [apply Rabs_triang|]. apply Rplus_le_compat; [exact Ev|]. rewrite Rabs_mult. apply Rmult_le_compat_r; assumption.
    + exact Near.
    + rewrite WE. exact Ew.
    + rewrite AE. exact Eac.
Qed.
End Steady.
