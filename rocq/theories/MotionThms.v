(** Proofs about the motion models over exact arithmetic. *)
From Coq Require Import Reals Lra Lia ZArith.
From Coquelicot Require Import Coquelicot.
From Verif Require Import Motion RealArith MotionSpec.
Open Scope R_scope.

(** ** The differential equations have at most one solution *)
Lemma const_of_zero (f : R -> R) : (forall t, derivable_pt_lim f t 0) -> forall t, f t = f 0.
Proof.
  intros H t.
  assert (D : forall u, is_derive f u 0) by (intros u; apply is_derive_Reals, H).
  destruct (Req_dec t 0) as [->|N]; [reflexivity|].
  destruct (MVT_gen f 0 t (fun _ => 0)) as (c & _ & E).
  - intros; apply D.
  - intros u _. apply continuity_pt_filterlim, (ex_derive_continuous f). exists 0. apply D.
  - lra.
Qed.

Lemma same_derivative (f g d : R -> R) :
  (forall t, derivable_pt_lim f t (d t)) -> (forall t, derivable_pt_lim g t (d t)) ->
  f 0 = g 0 -> forall t, f t = g t.
Proof.
  intros Hf Hg E t.
  assert (H : forall u, derivable_pt_lim (fun u => f u - g u) u 0).
  { intros u. replace 0 with (d u - d u) by ring. now apply derivable_pt_lim_minus. }
  pose proof (const_of_zero _ H t) as C. cbv beta in C. lra.
Qed.

Lemma turn_motion_unique T U : turn_motion T -> turn_motion U -> agree_at T U 0 ->
  forall t, agree_at T U t.
Proof.
  intros HT HU (Ex & Ey & Ev & Ec & Es & Ew & Ea).
  assert (Wt : forall t, w_ T t = w_ T 0) by (apply const_of_zero; intros t; apply HT).
  assert (Wu : forall t, w_ U t = w_ T 0) by (rewrite Ew; apply const_of_zero; intros t; apply HU).
  assert (At : forall t, a_ T t = a_ T 0) by (apply const_of_zero; intros t; apply HT).
  assert (Au : forall t, a_ U t = a_ T 0) by (rewrite Ea; apply const_of_zero; intros t; apply HU).
  set (w := w_ T 0) in *.
  assert (V : forall t, v_ T t = v_ U t).
  { apply (same_derivative _ _ (fun _ => a_ T 0)); [| |exact Ev].
    - intros t. rewrite <- (At t). apply HT.
    - intros t. rewrite <- (Au t). apply HU. }
  (* the heading, in a frame turning with rate w, is constant *)
  assert (Rot : forall S, (forall t, derivable_pt_lim (c_ S) t (- (w * s_ S t)) /\
                                     derivable_pt_lim (s_ S) t (w * c_ S t)) ->
     forall t, c_ S t * cos (w * t) + s_ S t * sin (w * t) = c_ S 0 /\
               s_ S t * cos (w * t) - c_ S t * sin (w * t) = s_ S 0).
  { intros S H t.
    assert (Dc : forall u, is_derive (c_ S) u (- (w * s_ S u))) by (intros u; apply is_derive_Reals, H).
    assert (Ds : forall u, is_derive (s_ S) u (w * c_ S u)) by (intros u; apply is_derive_Reals, H).
    assert (Uc : forall u, Derive (fun x : R => c_ S x) u = - (w * s_ S u)) by (intros u; apply is_derive_unique, Dc).
    assert (Us : forall u, Derive (fun x : R => s_ S x) u = w * c_ S u) by (intros u; apply is_derive_unique, Ds).
    split.
    - transitivity (c_ S 0 * cos (w * 0) + s_ S 0 * sin (w * 0)); [|rewrite Rmult_0_r, cos_0, sin_0; ring].
      apply (const_of_zero (fun t => c_ S t * cos (w * t) + s_ S t * sin (w * t))).
      intros u. apply is_derive_Reals. auto_derive.
      + repeat split; eexists; [apply Dc | apply Ds].
      + rewrite Uc, Us. ring.
    - transitivity (s_ S 0 * cos (w * 0) - c_ S 0 * sin (w * 0)); [|rewrite Rmult_0_r, cos_0, sin_0; ring].
      apply (const_of_zero (fun t => s_ S t * cos (w * t) - c_ S t * sin (w * t))).
      intros u. apply is_derive_Reals. auto_derive.
      + repeat split; eexists; [apply Ds | apply Dc].
      + rewrite Uc, Us. ring. }
  assert (RT := Rot T). assert (RU := Rot U).
  assert (HeT : forall t, derivable_pt_lim (c_ T) t (- (w * s_ T t)) /\ derivable_pt_lim (s_ T) t (w * c_ T t)).
  { intros t. rewrite <- (Wt t). split; apply HT. }
  assert (HeU : forall t, derivable_pt_lim (c_ U) t (- (w * s_ U t)) /\ derivable_pt_lim (s_ U) t (w * c_ U t)).
  { intros t. rewrite <- (Wu t). split; apply HU. }
  specialize (RT HeT). specialize (RU HeU).
  assert (CS : forall t, c_ T t = c_ U t /\ s_ T t = s_ U t).
  { intros t. destruct (RT t) as [A1 A2]. destruct (RU t) as [B1 B2].
    pose proof (sin2_cos2 (w * t)) as P. unfold Rsqr in P.
    rewrite Ec in A1. rewrite Es in A2.
    set (co := cos (w * t)) in *. set (si := sin (w * t)) in *.
    assert (D1 : (c_ T t - c_ U t) * co + (s_ T t - s_ U t) * si = 0) by lra.
    assert (D2 : (s_ T t - s_ U t) * co - (c_ T t - c_ U t) * si = 0) by lra.
    set (p := c_ T t - c_ U t) in *. set (q := s_ T t - s_ U t) in *.
    assert (Zp : p * (si * si + co * co) = 0).
    { replace (p * (si * si + co * co)) with (co * (p * co + q * si) - si * (q * co - p * si)) by ring.
      rewrite D1, D2. ring. }
    assert (Zq : q * (si * si + co * co) = 0).
    { replace (q * (si * si + co * co)) with (si * (p * co + q * si) + co * (q * co - p * si)) by ring.
      rewrite D1, D2. ring. }
    rewrite P, Rmult_1_r in Zp, Zq. unfold p, q in *. split; lra. }
  intros t. repeat split.
  - apply (same_derivative _ _ (fun t => v_ T t * c_ T t)); [intros u; apply HT| |exact Ex].
    intros u. rewrite V, (proj1 (CS u)). apply HU.
  - apply (same_derivative _ _ (fun t => v_ T t * s_ T t)); [intros u; apply HT| |exact Ey].
    intros u. rewrite V, (proj2 (CS u)). apply HU.
  - apply V.
  - apply CS.
  - apply CS.
  - now rewrite Wt, Wu.
  - now rewrite At, Au.
Qed.

(** ** Angles *)
Lemma angle_add_comm (x y : rangle) : angle_add x y = angle_add y x.
Proof. unfold angle_add. f_equal. apply Rplus_comm. Qed.
Lemma angle_add_assoc (x y z : rangle) : angle_add x (angle_add y z) = angle_add (angle_add x y) z.
Proof.
  unfold angle_add at 1 3. apply angle_of_turn.
  apply same_turn_trans with (get_angle x + (get_angle y + get_angle z)).
  - apply same_turn_add; [apply same_turn_refl | apply angle_add_spec].
  - cbn. rewrite <- Rplus_assoc. apply same_turn_add; [|apply same_turn_refl].
    apply same_turn_sym, angle_add_spec.
Qed.
Lemma angle_add_0 (x : rangle) : on_circle x -> angle_add x (angleR 0) = x.
Proof. intros H. rewrite angle_add_of by exact H. rewrite Rplus_0_r. now apply angle_of_get. Qed.
Lemma angle_sub_add (x y : rangle) : on_circle x -> angle_sub (angle_add x y) y = x.
Proof.
  intros H. unfold angle_sub. rewrite <- (angle_of_get x H) at 2. apply angle_of_turn.
  apply same_turn_trans with (get_angle x + get_angle y - get_angle y).
  - apply same_turn_sub; [apply angle_add_spec | apply same_turn_refl].
  - generalize (get_angle x) (get_angle y). cbn. intros a b.
    replace (a + b - b) with a by ring. apply same_turn_refl.
Qed.
Lemma angle_sub_spec (x y : rangle) : same_turn (get_angle (angle_sub x y)) (get_angle x - get_angle y).
Proof. apply get_angle_spec. Qed.

(** ** CTRV *)
(** The turn rates for which the code takes the branch that fits the rate. *)
Definition regular_rate (w : R) : Prop := w = 0 \/ dbl_min <= Rabs w.

Lemma dbl_min_pos : 0 < dbl_min.
Proof. unfold dbl_min. apply Rinv_0_lt_compat, pow_lt. lra. Qed.

Lemma near0_zero : nnear0 reals 0 = true.
Proof. cbn. rewrite Rabs_R0. destruct (Rlt_dec 0 dbl_min); [reflexivity|]. pose proof dbl_min_pos. lra. Qed.
Lemma near0_far w : dbl_min <= Rabs w -> nnear0 reals w = false /\ w <> 0.
Proof.
  intros H. cbn. pose proof dbl_min_pos. destruct (Rlt_dec (Rabs w) dbl_min); [lra|]. split; [reflexivity|].
  intros ->. rewrite Rabs_R0 in *. lra.
Qed.

Notation ctrvR := (ctrv_state reals).
Notation ctraR := (ctra_state reals).

(** Heading of the prediction. *)
Lemma heading_next (z : rangle) d : on_circle z ->
  re (angle_add z (angleR d)) = cos (get_angle z + d) /\
  im (angle_add z (angleR d)) = sin (get_angle z + d).
Proof. intros H. rewrite angle_add_of by exact H. split; reflexivity. Qed.

(** The trajectory given by the predictions. *)
Definition ctrv_traj (s : ctrvR) : trajectory := {|
  x_ := fun t => v_x (ctrv_next s t); y_ := fun t => v_y (ctrv_next s t);
  v_ := fun t => v_vel (ctrv_next s t);
  c_ := fun t => re (v_yaw (ctrv_next s t)); s_ := fun t => im (v_yaw (ctrv_next s t));
  w_ := fun t => v_rate (ctrv_next s t); a_ := fun _ => 0 |}.
Definition ctra_traj (s : ctraR) : trajectory := {|
  x_ := fun t => a_x (ctra_next s t); y_ := fun t => a_y (ctra_next s t);
  v_ := fun t => a_vel (ctra_next s t);
  c_ := fun t => re (a_yaw (ctra_next s t)); s_ := fun t => im (a_yaw (ctra_next s t));
  w_ := fun t => a_rate (ctra_next s t); a_ := fun t => a_acc (ctra_next s t) |}.

(** Closed forms of the predictions. *)
Lemma ctrv_next_straight (s : ctrvR) t : nnear0 reals (v_rate s) = true ->
  ctrv_next s t = CtrvState (A := reals)
    (v_x s + v_vel s * cos (get_angle (v_yaw s)) * t) (v_y s + v_vel s * sin (get_angle (v_yaw s)) * t)
    (v_vel s) (angle_add (v_yaw s) (angleR (v_rate s * t))) (v_rate s).
Proof. intros H. unfold ctrv_next. rewrite H. reflexivity. Qed.
Lemma ctrv_next_turn (s : ctrvR) t : nnear0 reals (v_rate s) = false ->
  ctrv_next s t = CtrvState (A := reals)
    (v_x s + v_vel s / v_rate s * (sin (get_angle (v_yaw s) + v_rate s * t) - sin (get_angle (v_yaw s))) * 1)
    (v_y s - v_vel s / v_rate s * (cos (get_angle (v_yaw s) + v_rate s * t) - cos (get_angle (v_yaw s))) * 1)
    (v_vel s) (angle_add (v_yaw s) (angleR (v_rate s * t))) (v_rate s).
Proof. intros H. unfold ctrv_next. rewrite H. reflexivity. Qed.

Lemma heading_derivatives (z : rangle) w t : on_circle z ->
  derivable_pt_lim (fun t => re (angle_add z (angleR (w * t)))) t (- (w * im (angle_add z (angleR (w * t))))) /\
  derivable_pt_lim (fun t => im (angle_add z (angleR (w * t)))) t (w * re (angle_add z (angleR (w * t)))).
Proof.
  intros H. destruct (heading_next z (w * t) H) as [-> ->].
  split; apply is_derive_Reals.
  - apply is_derive_ext with (fun t => cos (get_angle z + w * t)).
    + intros u. symmetry. now apply heading_next.
    + auto_derive; [trivial|]. cbn. ring.
  - apply is_derive_ext with (fun t => sin (get_angle z + w * t)).
    + intros u. symmetry. now apply heading_next.
    + auto_derive; [trivial|]. cbn. ring.
Qed.

Lemma ctrv_fields (s : ctrvR) t :
  v_vel (ctrv_next s t) = v_vel s /\ v_rate (ctrv_next s t) = v_rate s /\
  v_yaw (ctrv_next s t) = angle_add (v_yaw s) (angleR (v_rate s * t)).
Proof. unfold ctrv_next. destruct (nnear0 reals (v_rate s)); repeat split. Qed.

Lemma ctrv_motion (s : ctrvR) : on_circle (v_yaw s) -> regular_rate (v_rate s) -> turn_motion (ctrv_traj s).
Proof.
  intros Hc Hr t.
  assert (Ev : forall t, v_vel (ctrv_next s t) = v_vel s) by apply ctrv_fields.
  assert (Ew : forall t, v_rate (ctrv_next s t) = v_rate s) by apply ctrv_fields.
  assert (Ey : forall t, v_yaw (ctrv_next s t) = angle_add (v_yaw s) (angleR (v_rate s * t))) by apply ctrv_fields.
  destruct (heading_derivatives (v_yaw s) (v_rate s) t Hc) as [Dc Ds].
  destruct (heading_next (v_yaw s) (v_rate s * t) Hc) as [Hre Him].
  cbn. rewrite Ev, Ew, Ey.
  repeat split.
  - rewrite Hre. apply is_derive_Reals. destruct Hr as [Z|F].
    + apply is_derive_ext with (fun t => v_x s + v_vel s * cos (get_angle (v_yaw s)) * t).
      { intros u. rewrite ctrv_next_straight; [reflexivity|]. rewrite Z. apply near0_zero. }
      auto_derive; [trivial|]. rewrite Z. cbn. rewrite Rmult_0_l, Rplus_0_r. ring.
    + destruct (near0_far _ F) as [N W].
      apply is_derive_ext with (fun t => v_x s + v_vel s / v_rate s *
        (sin (get_angle (v_yaw s) + v_rate s * t) - sin (get_angle (v_yaw s))) * 1).
      { intros u. now rewrite ctrv_next_turn. }
      auto_derive; [trivial|]. cbn. field. exact W.
  - rewrite Him. apply is_derive_Reals. destruct Hr as [Z|F].
    + apply is_derive_ext with (fun t => v_y s + v_vel s * sin (get_angle (v_yaw s)) * t).
      { intros u. rewrite ctrv_next_straight; [reflexivity|]. rewrite Z. apply near0_zero. }
      auto_derive; [trivial|]. rewrite Z. cbn. rewrite Rmult_0_l, Rplus_0_r. ring.
    + destruct (near0_far _ F) as [N W].
      apply is_derive_ext with (fun t => v_y s - v_vel s / v_rate s *
        (cos (get_angle (v_yaw s) + v_rate s * t) - cos (get_angle (v_yaw s))) * 1).
      { intros u. now rewrite ctrv_next_turn. }
      auto_derive; [trivial|]. cbn. field. exact W.
  - apply is_derive_Reals. apply is_derive_ext with (fun _ => v_vel s); [intros; now rewrite Ev|].
    apply @is_derive_const.
  - eapply derivable_pt_lim_ext; [|exact Dc]. intros u. now rewrite Ey.
  - eapply derivable_pt_lim_ext; [|exact Ds]. intros u. now rewrite Ey.
  - apply is_derive_Reals. apply is_derive_ext with (fun _ => v_rate s); [intros; now rewrite Ew|].
    apply @is_derive_const.
  - apply derivable_pt_lim_const.
Qed.

Lemma angle_eq (x y : rangle) : re x = re y -> im x = im y -> x = y.
Proof. destruct x, y. cbn. intros -> ->. reflexivity. Qed.
Lemma ctrv_eq (a b : ctrvR) : v_x a = v_x b -> v_y a = v_y b -> v_vel a = v_vel b ->
  v_yaw a = v_yaw b -> v_rate a = v_rate b -> a = b.
Proof. destruct a, b. cbn. intros -> -> -> -> ->. reflexivity. Qed.
Lemma ctra_eq (a b : ctraR) : a_x a = a_x b -> a_y a = a_y b -> a_vel a = a_vel b ->
  a_yaw a = a_yaw b -> a_rate a = a_rate b -> a_acc a = a_acc b -> a = b.
Proof. destruct a, b. cbn. intros -> -> -> -> -> ->. reflexivity. Qed.

Lemma ctrv_zero (s : ctrvR) : on_circle (v_yaw s) -> ctrv_next s 0 = s.
Proof.
  intros H. apply ctrv_eq; try (unfold ctrv_next; destruct (nnear0 reals (v_rate s)); reflexivity).
  - unfold ctrv_next. destruct (nnear0 reals (v_rate s)); cbn.
    + ring.
    + rewrite Rmult_0_r, Rplus_0_r. unfold Rdiv. ring.
  - unfold ctrv_next. destruct (nnear0 reals (v_rate s)); cbn.
    + ring.
    + rewrite Rmult_0_r, Rplus_0_r. unfold Rdiv. ring.
  - destruct (ctrv_fields s 0) as (_ & _ & ->). rewrite Rmult_0_r. now apply angle_add_0.
Qed.

(** ** Shifting a motion in time *)
Definition shift (T : trajectory) (d : R) : trajectory := {|
  x_ := fun t => x_ T (d + t); y_ := fun t => y_ T (d + t); v_ := fun t => v_ T (d + t);
  c_ := fun t => c_ T (d + t); s_ := fun t => s_ T (d + t); w_ := fun t => w_ T (d + t);
  a_ := fun t => a_ T (d + t) |}.

Lemma shift_derivative f d t l : derivable_pt_lim f (d + t) l -> derivable_pt_lim (fun t => f (d + t)) t l.
Proof.
  intros H. apply is_derive_Reals in H. apply is_derive_Reals.
  assert (E : l = scal 1 l) by (unfold scal; cbn; unfold mult; cbn; ring).
  rewrite E. apply (is_derive_comp f (fun t => d + t)); [exact H|].
  auto_derive; [trivial|ring].
Qed.

Lemma shift_motion T d : turn_motion T -> turn_motion (shift T d).
Proof.
  intros H t. destruct (H (d + t)) as (Hx & Hy & Hv & Hc & Hs & Hw & Ha).
  repeat split; cbn; apply shift_derivative; assumption.
Qed.

Lemma on_circle_add (x y : rangle) : on_circle (angle_add x y).
Proof. apply circle_of. Qed.

Lemma ctrv_compose (st : ctrvR) s t : on_circle (v_yaw st) -> regular_rate (v_rate st) ->
  ctrv_next (ctrv_next st s) t = ctrv_next st (s + t).
Proof.
  intros Hc Hr.
  set (s1 := ctrv_next st s).
  assert (C1 : on_circle (v_yaw s1)).
  { unfold s1. destruct (ctrv_fields st s) as (_ & _ & ->). apply on_circle_add. }
  assert (R1 : regular_rate (v_rate s1)).
  { unfold s1. destruct (ctrv_fields st s) as (_ & -> & _). exact Hr. }
  destruct (turn_motion_unique (ctrv_traj s1) (shift (ctrv_traj st) s)
              (ctrv_motion s1 C1 R1) (shift_motion _ _ (ctrv_motion st Hc Hr))) with (t := t)
    as (Ex & Ey & Ev & Ec & Es & Ew & _).
  { unfold agree_at. cbn. rewrite (ctrv_zero s1 C1), Rplus_0_r. repeat split. }
  cbn in *. apply ctrv_eq; try assumption. now apply angle_eq.
Qed.

(** ** Displacement *)
Lemma chord a d : (sin (a + d) - sin a) ^ 2 + (cos (a + d) - cos a) ^ 2 <= d ^ 2.
Proof.
  assert (E : (sin (a + d) - sin a) ^ 2 + (cos (a + d) - cos a) ^ 2 = (2 * sin (d / 2)) ^ 2).
  { assert (G : forall b h, (sin (b + h) - sin (b - h)) ^ 2 + (cos (b + h) - cos (b - h)) ^ 2 = (2 * sin h) ^ 2).
    { intros b h. rewrite sin_plus, sin_minus, cos_plus, cos_minus.
      pose proof (sin2_cos2 b) as P. unfold Rsqr in P.
      transitivity ((2 * sin h) ^ 2 * (sin b * sin b + cos b * cos b)); [ring|].
      rewrite P. ring. }
    rewrite <- (G (a + d / 2) (d / 2)).
    replace (a + d / 2 + d / 2) with (a + d) by field.
    replace (a + d / 2 - d / 2) with a by field. reflexivity. }
  rewrite E.
  assert (S : forall u, 0 <= u -> Rabs (sin u) <= u).
  { intros u Hu. destruct (Req_dec u 0) as [->|N]; [rewrite sin_0, Rabs_R0; lra|].
    destruct (MVT_cor2 sin cos 0 u) as (c & Ec & Hc); [lra|intros; apply derivable_pt_lim_sin|].
    rewrite sin_0, !Rminus_0_r in Ec. rewrite Ec, Rabs_mult.
    rewrite (Rabs_pos_eq u Hu). rewrite <- (Rmult_1_l u) at 2.
    apply Rmult_le_compat_r; [exact Hu|].
    apply Rabs_le. pose proof (COS_bound c). lra. }
  assert (B : Rabs (2 * sin (d / 2)) <= Rabs d).
  { rewrite Rabs_mult, (Rabs_pos_eq 2) by lra.
    destruct (Rle_dec 0 d) as [H|H].
    - rewrite (Rabs_pos_eq d H). specialize (S (d / 2)). lra.
    - rewrite (Rabs_left d) by lra.
      replace (sin (d / 2)) with (- sin (- (d / 2))) by (rewrite sin_neg; ring).
      rewrite Rabs_Ropp. specialize (S (- (d / 2))). lra. }
  rewrite <- (pow2_abs (2 * sin (d / 2))), <- (pow2_abs d).
  apply pow_incr. split; [apply Rabs_pos|exact B].
Qed.

Lemma ctrv_straight_distance (s : ctrvR) t : nnear0 reals (v_rate s) = true ->
  (v_x (ctrv_next s t) - v_x s) ^ 2 + (v_y (ctrv_next s t) - v_y s) ^ 2 = (v_vel s * t) ^ 2.
Proof.
  intros N. rewrite ctrv_next_straight by exact N. cbn [v_x v_y].
  set (a := get_angle (v_yaw s) : R). set (v := v_vel s : R). set (x := v_x s : R). set (y := v_y s : R).
  pose proof (sin2_cos2 a) as P. unfold Rsqr in P.
  transitivity ((v * t) ^ 2 * (sin a * sin a + cos a * cos a)); [ring|].
  rewrite P. ring.
Qed.

Lemma ctrv_displacement (s : ctrvR) t :
  (v_x (ctrv_next s t) - v_x s) ^ 2 + (v_y (ctrv_next s t) - v_y s) ^ 2 <= (v_vel s * t) ^ 2.
Proof.
  destruct (nnear0 reals (v_rate s)) eqn:N.
  - now apply Req_le, ctrv_straight_distance.
  - rewrite ctrv_next_turn by exact N. cbn [v_x v_y].
    assert (W : v_rate s <> 0).
    { intros E. rewrite E, near0_zero in N. discriminate. }
    pose proof (chord (get_angle (v_yaw s)) (v_rate s * t)) as C.
    set (a := get_angle (v_yaw s)) in *.
    set (w := v_rate s) in *. set (v := v_vel s).
    replace (v_x s + v / w * (sin (a + w * t) - sin a) * 1 - v_x s)
      with (v / w * (sin (a + w * t) - sin a)) by ring.
    replace (v_y s - v / w * (cos (a + w * t) - cos a) * 1 - v_y s)
      with (- (v / w * (cos (a + w * t) - cos a))) by ring.
    replace ((v * t) ^ 2) with ((v / w) ^ 2 * (w * t) ^ 2) by (cbn; field; exact W).
    replace ((v / w * (sin (a + w * t) - sin a)) ^ 2 + (- (v / w * (cos (a + w * t) - cos a))) ^ 2)
      with ((v / w) ^ 2 * ((sin (a + w * t) - sin a) ^ 2 + (cos (a + w * t) - cos a) ^ 2)) by ring.
    apply Rmult_le_compat_l; [apply pow2_ge_0|exact C].
Qed.

(** ** CTRA *)
Lemma ctra_fields (s : ctraR) t :
  a_vel (ctra_next s t) = a_vel s + a_acc s * t /\ a_rate (ctra_next s t) = a_rate s /\
  a_acc (ctra_next s t) = a_acc s /\
  a_yaw (ctra_next s t) = angle_add (a_yaw s) (angleR (a_rate s * t)).
Proof. unfold ctra_next. destruct (nnear0 reals (a_rate s)); repeat split. Qed.

Lemma ctra_next_straight (s : ctraR) t : nnear0 reals (a_rate s) = true ->
  a_x (ctra_next s t) = a_x s + (a_vel s * t + a_acc s * t * t / 2) * cos (get_angle (a_yaw s)) /\
  a_y (ctra_next s t) = a_y s + (a_vel s * t + a_acc s * t * t / 2) * sin (get_angle (a_yaw s)).
Proof. intros H. unfold ctra_next. rewrite H. split; reflexivity. Qed.

Lemma ctra_next_turn (s : ctraR) t : on_circle (a_yaw s) -> nnear0 reals (a_rate s) = false ->
  let psi := get_angle (a_yaw s) : R in let w := a_rate s : R in
  a_x (ctra_next s t) = a_x s + 1 / (w * w) *
     ((a_vel s + a_acc s * t) * w * sin (psi + w * t) + a_acc s * cos (psi + w * t) * 1
      - a_vel s * w * sin psi - a_acc s * cos psi * 1) /\
  a_y (ctra_next s t) = a_y s + 1 / (w * w) *
     (- (a_vel s + a_acc s * t) * w * cos (psi + w * t) + a_acc s * sin (psi + w * t) * 1
      + a_vel s * w * cos psi - a_acc s * sin psi * 1).
Proof.
  intros Hc H psi w.
  assert (C : cos (get_angle (angle_add (a_yaw s) (angleR (w * t)))) = cos (psi + w * t)).
  { rewrite cos_get by apply on_circle_add. now apply heading_next. }
  assert (S : sin (get_angle (angle_add (a_yaw s) (angleR (w * t)))) = sin (psi + w * t)).
  { rewrite sin_get by apply on_circle_add. now apply heading_next. }
  rewrite <- C, <- S. unfold ctra_next. rewrite H. split; reflexivity.
Qed.

Lemma ctra_motion (s : ctraR) : on_circle (a_yaw s) -> regular_rate (a_rate s) -> turn_motion (ctra_traj s).
Proof.
  intros Hc Hr t.
  assert (Ev : forall t, a_vel (ctra_next s t) = a_vel s + a_acc s * t) by apply ctra_fields.
  assert (Ew : forall t, a_rate (ctra_next s t) = a_rate s) by apply ctra_fields.
  assert (Ea : forall t, a_acc (ctra_next s t) = a_acc s) by apply ctra_fields.
  assert (Ey : forall t, a_yaw (ctra_next s t) = angle_add (a_yaw s) (angleR (a_rate s * t))) by apply ctra_fields.
  destruct (heading_derivatives (a_yaw s) (a_rate s) t Hc) as [Dc Ds].
  destruct (heading_next (a_yaw s) (a_rate s * t) Hc) as [Hre Him].
  cbn. rewrite Ev, Ew, Ea, Ey.
  repeat split.
  - rewrite Hre. apply is_derive_Reals. destruct Hr as [Z|F].
    + apply is_derive_ext with (fun t => a_x s + (a_vel s * t + a_acc s * t * t / 2) * cos (get_angle (a_yaw s))).
      { intros u. symmetry. apply ctra_next_straight. rewrite Z. apply near0_zero. }
      auto_derive; [trivial|]. rewrite Z. cbn. rewrite Rmult_0_l, Rplus_0_r. field.
    + destruct (near0_far _ F) as [N W].
      eapply is_derive_ext.
      { intros u. symmetry. now apply (ctra_next_turn s u Hc N). }
      cbv zeta. auto_derive; [trivial|]. cbn. field. exact W.
  - rewrite Him. apply is_derive_Reals. destruct Hr as [Z|F].
    + apply is_derive_ext with (fun t => a_y s + (a_vel s * t + a_acc s * t * t / 2) * sin (get_angle (a_yaw s))).
      { intros u. symmetry. apply ctra_next_straight. rewrite Z. apply near0_zero. }
      auto_derive; [trivial|]. rewrite Z. cbn. rewrite Rmult_0_l, Rplus_0_r. field.
    + destruct (near0_far _ F) as [N W].
      eapply is_derive_ext.
      { intros u. symmetry. now apply (ctra_next_turn s u Hc N). }
      cbv zeta. auto_derive; [trivial|]. cbn. field. exact W.
  - apply is_derive_Reals. apply is_derive_ext with (fun t => a_vel s + a_acc s * t); [intros; now rewrite Ev|].
    auto_derive; [trivial|]. cbn. ring.
  - eapply derivable_pt_lim_ext; [|exact Dc]. intros u. now rewrite Ey.
  - eapply derivable_pt_lim_ext; [|exact Ds]. intros u. now rewrite Ey.
  - apply is_derive_Reals. apply is_derive_ext with (fun _ => a_rate s); [intros; now rewrite Ew|].
    apply @is_derive_const.
  - apply is_derive_Reals. apply is_derive_ext with (fun _ => a_acc s); [intros; now rewrite Ea|].
    apply @is_derive_const.
Qed.

Lemma ctra_zero (s : ctraR) : on_circle (a_yaw s) -> ctra_next s 0 = s.
Proof.
  intros H. destruct (ctra_fields s 0) as (Ev & Ew & Ea & Ey).
  apply ctra_eq.
  - destruct (nnear0 reals (a_rate s)) eqn:N.
    + rewrite (proj1 (ctra_next_straight s 0 N)). cbn. field.
    + rewrite (proj1 (ctra_next_turn s 0 H N)). cbn. rewrite !Rmult_0_r, !Rplus_0_r. unfold Rdiv. ring.
  - destruct (nnear0 reals (a_rate s)) eqn:N.
    + rewrite (proj2 (ctra_next_straight s 0 N)). cbn. field.
    + rewrite (proj2 (ctra_next_turn s 0 H N)). cbn. rewrite !Rmult_0_r, !Rplus_0_r. unfold Rdiv. ring.
  - rewrite Ev. cbn. ring.
  - rewrite Ey, Rmult_0_r. now apply angle_add_0.
  - exact Ew.
  - exact Ea.
Qed.

Lemma ctra_compose (st : ctraR) s t : on_circle (a_yaw st) -> regular_rate (a_rate st) ->
  ctra_next (ctra_next st s) t = ctra_next st (s + t).
Proof.
  intros Hc Hr.
  set (s1 := ctra_next st s).
  assert (C1 : on_circle (a_yaw s1)).
  { unfold s1. destruct (ctra_fields st s) as (_ & _ & _ & ->). apply on_circle_add. }
  assert (R1 : regular_rate (a_rate s1)).
  { unfold s1. destruct (ctra_fields st s) as (_ & -> & _). exact Hr. }
  destruct (turn_motion_unique (ctra_traj s1) (shift (ctra_traj st) s)
              (ctra_motion s1 C1 R1) (shift_motion _ _ (ctra_motion st Hc Hr))) with (t := t)
    as (Ex & Ey & Ev & Ec & Es & Ew & Ea).
  { unfold agree_at. cbn. rewrite (ctra_zero s1 C1), Rplus_0_r. repeat split. }
  cbn in *. apply ctra_eq; try assumption. now apply angle_eq.
Qed.

(** A CTRA state without acceleration, seen as a CTRV state. *)
Definition as_ctrv (s : ctraR) : ctrvR := CtrvState (a_x s) (a_y s) (a_vel s) (a_yaw s) (a_rate s).

Lemma ctra_extends_ctrv (s : ctraR) t : on_circle (a_yaw s) -> a_acc s = 0 ->
  as_ctrv (ctra_next s t) = ctrv_next (as_ctrv s) t.
Proof.
  intros Hc Z. destruct (ctra_fields s t) as (Ev & Ew & _ & Ey).
  destruct (ctrv_fields (as_ctrv s) t) as (Fv & Fw & Fy).
  apply ctrv_eq; cbn [as_ctrv v_x v_y v_vel v_yaw v_rate].
  - destruct (nnear0 reals (a_rate s)) eqn:N.
    + rewrite (proj1 (ctra_next_straight s t N)), (ctrv_next_straight (as_ctrv s) t N). cbn. rewrite Z. field.
    + rewrite (proj1 (ctra_next_turn s t Hc N)), (ctrv_next_turn (as_ctrv s) t N). cbn. rewrite Z. field.
      intros W. rewrite W, near0_zero in N. discriminate.
  - destruct (nnear0 reals (a_rate s)) eqn:N.
    + rewrite (proj2 (ctra_next_straight s t N)), (ctrv_next_straight (as_ctrv s) t N). cbn. rewrite Z. field.
    + rewrite (proj2 (ctra_next_turn s t Hc N)), (ctrv_next_turn (as_ctrv s) t N). cbn. rewrite Z. field.
      intros W. rewrite W, near0_zero in N. discriminate.
  - rewrite Ev, Fv, Z. cbn. ring.
  - now rewrite Ey, Fy.
  - now rewrite Ew, Fw.
Qed.

(** ** Process noise *)
Lemma noise_ctrv (s : ctrvR) t (n : process_noise reals) :
  let p := ctrv_next s t in let q := ctrv_next_noise s t n in
  v_x q = v_x p + n_lin n * t ^ 2 / 2 * cos (get_angle (v_yaw s)) /\
  v_y q = v_y p + n_lin n * t ^ 2 / 2 * sin (get_angle (v_yaw s)) /\
  v_vel q = v_vel p + n_lin n * t /\
  same_turn (get_angle (v_yaw q)) (get_angle (v_yaw p) + n_ang n * t ^ 2 / 2) /\
  v_rate q = v_rate p + n_ang n * t.
Proof.
  intros p q. unfold q, ctrv_next_noise. fold p. cbn [v_x v_y v_vel v_yaw v_rate].
  repeat split; try reflexivity; try (cbn; field).
  eapply same_turn_trans; [apply angle_add_spec|].
  apply same_turn_add; [apply same_turn_refl|].
  eapply same_turn_trans; [apply get_angle_spec|]. cbn.
  match goal with |- same_turn ?a ?b => replace a with b by field end. apply same_turn_refl.
Qed.

Lemma noise_ctra (s : ctraR) t (n : process_noise reals) :
  let p := ctra_next s t in let q := ctra_next_noise s t n in
  a_x q = a_x p + n_lin n * t ^ 2 / 2 * cos (get_angle (a_yaw s)) /\
  a_y q = a_y p + n_lin n * t ^ 2 / 2 * sin (get_angle (a_yaw s)) /\
  a_vel q = a_vel p + n_lin n * t /\
  same_turn (get_angle (a_yaw q)) (get_angle (a_yaw p) + n_ang n * t ^ 2 / 2) /\
  a_rate q = a_rate p + n_ang n * t /\
  a_acc q = a_acc p + n_lin n.
Proof.
  intros p q. unfold q, ctra_next_noise. fold p. cbn [a_x a_y a_vel a_yaw a_rate a_acc].
  repeat split; try reflexivity; try (cbn; field).
  eapply same_turn_trans; [apply angle_add_spec|].
  apply same_turn_add; [apply same_turn_refl|].
  eapply same_turn_trans; [apply get_angle_spec|]. cbn.
  match goal with |- same_turn ?a ?b => replace a with b by field end. apply same_turn_refl.
Qed.

(** ** Corollaries in the form used by the property file *)
Lemma angle_of_iff a b : angleR a = angleR b <-> same_turn a b.
Proof.
  split; [|apply angle_of_turn]. intros E.
  apply same_turn_trans with (get_angle (angleR a)); [apply same_turn_sym, get_angle_spec|].
  rewrite E. apply get_angle_spec.
Qed.

Lemma ctrv_solves (s : ctrvR) : on_circle (v_yaw s) -> regular_rate (v_rate s) ->
  ctrv_next s 0 = s /\
  forall t,
    derivable_pt_lim (fun t => v_x (ctrv_next s t)) t (v_vel s * cos (get_angle (v_yaw (ctrv_next s t)))) /\
    derivable_pt_lim (fun t => v_y (ctrv_next s t)) t (v_vel s * sin (get_angle (v_yaw (ctrv_next s t)))) /\
    v_vel (ctrv_next s t) = v_vel s /\ v_rate (ctrv_next s t) = v_rate s /\
    same_turn (get_angle (v_yaw (ctrv_next s t))) (get_angle (v_yaw s) + v_rate s * t).
Proof.
  intros Hc Hr. split; [now apply ctrv_zero|]. intros t.
  destruct (ctrv_motion s Hc Hr t) as (Dx & Dy & _). destruct (ctrv_fields s t) as (Ev & Ew & Ey).
  cbn [x_ y_ v_ c_ s_ ctrv_traj] in Dx, Dy. rewrite Ev in Dx, Dy.
  rewrite cos_get, sin_get by (rewrite Ey; apply on_circle_add).
  repeat split; try assumption.
  rewrite Ey, angle_add_of by exact Hc. apply get_angle_spec.
Qed.

Lemma ctrv_only_solution (s : ctrvR) (T : trajectory) :
  on_circle (v_yaw s) -> regular_rate (v_rate s) -> turn_motion T ->
  x_ T 0 = v_x s -> y_ T 0 = v_y s -> v_ T 0 = v_vel s ->
  c_ T 0 = cos (get_angle (v_yaw s)) -> s_ T 0 = sin (get_angle (v_yaw s)) ->
  w_ T 0 = v_rate s -> a_ T 0 = 0 ->
  forall t, v_x (ctrv_next s t) = x_ T t /\ v_y (ctrv_next s t) = y_ T t /\
    v_vel (ctrv_next s t) = v_ T t /\ cos (get_angle (v_yaw (ctrv_next s t))) = c_ T t /\
    sin (get_angle (v_yaw (ctrv_next s t))) = s_ T t /\ v_rate (ctrv_next s t) = w_ T t.
Proof.
  intros Hc Hr HT Ex Ey Ev Ec Es Ew Ea t.
  destruct (turn_motion_unique (ctrv_traj s) T (ctrv_motion s Hc Hr) HT) with (t := t)
    as (Fx & Fy & Fv & Fc & Fs & Fw & _).
  { unfold agree_at. cbn [x_ y_ v_ c_ s_ w_ a_ ctrv_traj]. rewrite (ctrv_zero s Hc).
    rewrite cos_get in Ec by exact Hc. rewrite sin_get in Es by exact Hc. repeat split; now symmetry. }
  cbn [x_ y_ v_ c_ s_ w_ a_ ctrv_traj] in *. destruct (ctrv_fields s t) as (_ & _ & Eyaw).
  rewrite cos_get, sin_get by (rewrite Eyaw; apply on_circle_add). repeat split; assumption.
Qed.

Lemma ctra_solves (s : ctraR) : on_circle (a_yaw s) -> regular_rate (a_rate s) ->
  ctra_next s 0 = s /\
  forall t,
    derivable_pt_lim (fun t => a_x (ctra_next s t)) t
      (a_vel (ctra_next s t) * cos (get_angle (a_yaw (ctra_next s t)))) /\
    derivable_pt_lim (fun t => a_y (ctra_next s t)) t
      (a_vel (ctra_next s t) * sin (get_angle (a_yaw (ctra_next s t)))) /\
    a_vel (ctra_next s t) = a_vel s + a_acc s * t /\
    a_rate (ctra_next s t) = a_rate s /\ a_acc (ctra_next s t) = a_acc s /\
    same_turn (get_angle (a_yaw (ctra_next s t))) (get_angle (a_yaw s) + a_rate s * t).
Proof.
  intros Hc Hr. split; [now apply ctra_zero|]. intros t.
  destruct (ctra_motion s Hc Hr t) as (Dx & Dy & _). destruct (ctra_fields s t) as (Ev & Ew & Ea & Ey).
  cbn [x_ y_ v_ c_ s_ ctra_traj] in Dx, Dy.
  rewrite cos_get, sin_get by (rewrite Ey; apply on_circle_add).
  repeat split; try assumption.
  rewrite Ey, angle_add_of by exact Hc. apply get_angle_spec.
Qed.

Lemma ctra_only_solution (s : ctraR) (T : trajectory) :
  on_circle (a_yaw s) -> regular_rate (a_rate s) -> turn_motion T ->
  x_ T 0 = a_x s -> y_ T 0 = a_y s -> v_ T 0 = a_vel s ->
  c_ T 0 = cos (get_angle (a_yaw s)) -> s_ T 0 = sin (get_angle (a_yaw s)) ->
  w_ T 0 = a_rate s -> a_ T 0 = a_acc s ->
  forall t, a_x (ctra_next s t) = x_ T t /\ a_y (ctra_next s t) = y_ T t /\
    a_vel (ctra_next s t) = v_ T t /\ cos (get_angle (a_yaw (ctra_next s t))) = c_ T t /\
    sin (get_angle (a_yaw (ctra_next s t))) = s_ T t /\ a_rate (ctra_next s t) = w_ T t /\
    a_acc (ctra_next s t) = a_ T t.
Proof.
  intros Hc Hr HT Ex Ey Ev Ec Es Ew Ea t.
  destruct (turn_motion_unique (ctra_traj s) T (ctra_motion s Hc Hr) HT) with (t := t)
    as (Fx & Fy & Fv & Fc & Fs & Fw & Fa).
  { unfold agree_at. cbn [x_ y_ v_ c_ s_ w_ a_ ctra_traj]. rewrite (ctra_zero s Hc).
    rewrite cos_get in Ec by exact Hc. rewrite sin_get in Es by exact Hc. repeat split; now symmetry. }
  cbn [x_ y_ v_ c_ s_ w_ a_ ctra_traj] in *. destruct (ctra_fields s t) as (_ & _ & _ & Eyaw).
  rewrite cos_get, sin_get by (rewrite Eyaw; apply on_circle_add). repeat split; assumption.
Qed.

Lemma circle_motion :
  turn_motion (Traj sin (fun t => 1 - cos t) (fun _ => 1) cos sin (fun _ => 1) (fun _ => 0)).
Proof.
  intros t. cbn. repeat split; apply is_derive_Reals; auto_derive; try exact I; ring.
Qed.

Lemma ctrv_back (st : ctrvR) t : on_circle (v_yaw st) -> regular_rate (v_rate st) ->
  ctrv_next (ctrv_next st t) (- t) = st.
Proof. intros Hc Hr. rewrite ctrv_compose, Rplus_opp_r by assumption. now apply ctrv_zero. Qed.
Lemma ctra_back (st : ctraR) t : on_circle (a_yaw st) -> regular_rate (a_rate st) ->
  ctra_next (ctra_next st t) (- t) = st.
Proof. intros Hc Hr. rewrite ctra_compose, Rplus_opp_r by assumption. now apply ctra_zero. Qed.

Lemma sqrt_sq_abs a b : sqrt ((a * b) ^ 2) = Rabs a * Rabs b.
Proof. rewrite <- Rabs_mult, <- sqrt_Rsqr_abs. f_equal. unfold Rsqr. ring. Qed.

Lemma ctrv_displacement_abs (s : ctrvR) t :
  sqrt ((v_x (ctrv_next s t) - v_x s) ^ 2 + (v_y (ctrv_next s t) - v_y s) ^ 2) <= Rabs (v_vel s) * Rabs t.
Proof. rewrite <- sqrt_sq_abs. apply sqrt_le_1_alt, ctrv_displacement. Qed.
Lemma ctrv_straight_abs (s : ctrvR) t : v_rate s = 0 ->
  sqrt ((v_x (ctrv_next s t) - v_x s) ^ 2 + (v_y (ctrv_next s t) - v_y s) ^ 2) = Rabs (v_vel s) * Rabs t.
Proof.
  intros Z. rewrite <- sqrt_sq_abs. f_equal. apply ctrv_straight_distance. rewrite Z. apply near0_zero.
Qed.

Lemma ctra_extends x y v w (yaw : rangle) t : on_circle yaw ->
  let p := ctra_next (CtraState (A := reals) x y v yaw w 0) t in
  let q := ctrv_next (CtrvState (A := reals) x y v yaw w) t in
  a_x p = v_x q /\ a_y p = v_y q /\ a_vel p = v_vel q /\ a_yaw p = v_yaw q /\ a_rate p = v_rate q /\
  a_acc p = 0.
Proof.
  intros Hc p q.
  pose proof (ctra_extends_ctrv (CtraState (A := reals) x y v yaw w 0) t Hc eq_refl) as E.
  fold p in E. change (as_ctrv (CtraState (A := reals) x y v yaw w 0)) with (CtrvState (A := reals) x y v yaw w) in E.
  fold q in E. rewrite <- E. cbn [as_ctrv v_x v_y v_vel v_yaw v_rate].
  repeat split. unfold p. now destruct (ctra_fields (CtraState (A := reals) x y v yaw w 0) t) as (_ & _ & -> & _).
Qed.

Lemma ctrv_yaw_circle (s : ctrvR) t : on_circle (v_yaw (ctrv_next s t)).
Proof. destruct (ctrv_fields s t) as (_ & _ & ->). apply on_circle_add. Qed.
Lemma ctra_yaw_circle (s : ctraR) t : on_circle (a_yaw (ctra_next s t)).
Proof. destruct (ctra_fields s t) as (_ & _ & _ & ->). apply on_circle_add. Qed.

Lemma no_noise_ctrv (s : ctrvR) t : ctrv_next_noise s t (Noise (A := reals) 0 0) = ctrv_next s t.
Proof.
  destruct (noise_ctrv s t (Noise (A := reals) 0 0)) as (Ex & Ey & Ev & _ & Ew). cbn [n_lin n_ang] in *.
  apply ctrv_eq.
  - rewrite Ex. unfold Rdiv. rewrite !Rmult_0_l. apply Rplus_0_r.
  - rewrite Ey. unfold Rdiv. rewrite !Rmult_0_l. apply Rplus_0_r.
  - rewrite Ev. rewrite !Rmult_0_l. apply Rplus_0_r.
  - unfold ctrv_next_noise. cbn [v_yaw n_ang nmul reals nhalf]. rewrite Rmult_0_r, Rmult_0_l.
    apply angle_add_0, ctrv_yaw_circle.
  - rewrite Ew. rewrite !Rmult_0_l. apply Rplus_0_r.
Qed.
Lemma no_noise_ctra (s : ctraR) t : ctra_next_noise s t (Noise (A := reals) 0 0) = ctra_next s t.
Proof.
  destruct (noise_ctra s t (Noise (A := reals) 0 0)) as (Ex & Ey & Ev & _ & Ew & Ea). cbn [n_lin n_ang] in *.
  apply ctra_eq.
  - rewrite Ex. unfold Rdiv. rewrite !Rmult_0_l. apply Rplus_0_r.
  - rewrite Ey. unfold Rdiv. rewrite !Rmult_0_l. apply Rplus_0_r.
  - rewrite Ev. rewrite !Rmult_0_l. apply Rplus_0_r.
  - unfold ctra_next_noise. cbn [a_yaw n_ang nmul reals nhalf]. rewrite Rmult_0_r, Rmult_0_l.
    apply angle_add_0, ctra_yaw_circle.
  - rewrite Ew. rewrite !Rmult_0_l. apply Rplus_0_r.
  - rewrite Ea. apply Rplus_0_r.
Qed.

Lemma heading_zero : get_angle (angleR 0) = 0.
Proof. apply get_angle_canonical. pose proof PI_RGT_0. lra. Qed.

Lemma noise_case :
  v_x (ctrv_next_noise (CtrvState (A := reals) 0 0 0 (angleR 0) 0) 3 (Noise (A := reals) 2 0)) = 9.
Proof.
  destruct (noise_ctrv (CtrvState (A := reals) 0 0 0 (angleR 0) 0) 3 (Noise (A := reals) 2 0)) as (-> & _).
  rewrite ctrv_next_straight by apply near0_zero. cbn [v_x v_yaw v_vel n_lin]. rewrite heading_zero, cos_0.
  match goal with |- @eq _ ?a ?b => change (@eq R a b) end. cbn [nadd nmul reals]. field.
Qed.

Lemma quarter_circle :
  v_x (ctrv_next (CtrvState (A := reals) 0 0 1 (angleR 0) 1) (PI / 2)) = 1 /\
  v_y (ctrv_next (CtrvState (A := reals) 0 0 1 (angleR 0) 1) (PI / 2)) = 1.
Proof.
  rewrite ctrv_next_turn.
  - cbn [v_x v_y v_yaw v_vel v_rate]. rewrite heading_zero.
    replace (0 + 1 * (PI / 2)) with (PI / 2) by ring. rewrite sin_PI2, cos_PI2, sin_0, cos_0.
    split; match goal with |- @eq _ ?a ?b => change (@eq R a b) end; field.
  - cbn [v_rate]. apply near0_far. rewrite Rabs_R1. unfold dbl_min. rewrite <- Rinv_1.
    apply Rinv_le_contravar; [lra|]. apply pow_R1_Rle. lra.
Qed.

(** Inside the almost-zero band the position moves straight on while the heading
    turns, so that predictions do not compose. *)
Lemma ctrv_band : exists (st : ctrvR) (t : R), on_circle (v_yaw st) /\ 0 < v_rate st < dbl_min /\
  ctrv_next (ctrv_next st t) t <> ctrv_next st (t + t).
Proof.
  assert (0 < dbl_min) as Hd by (unfold dbl_min; apply Rinv_0_lt_compat, pow_lt; lra).
  pose proof PI_RGT_0 as HP.
  set (w := dbl_min / 2). set (t := PI / w).
  assert (0 < w) as Hw by (unfold w; lra).
  assert (w * t = PI) as Ht by (unfold t; field; lra).
  assert (0 < t) as Htp by (unfold t; apply Rdiv_lt_0_compat; lra).
  set (st := CtrvState (A := reals) 0 0 1 (angleR 0) w).
  exists st, t. split; [apply circle_of|]. split; [cbn; unfold w; lra|].
  assert (nnear0 reals w = true) as N.
  { cbn. destruct (Rlt_dec (Rabs w) dbl_min) as [|n]; [reflexivity|].
    exfalso. apply n. rewrite Rabs_pos_eq; unfold w; lra. }
  intros E. apply (f_equal (fun s : ctrvR => v_x s : R)) in E.
  rewrite (ctrv_next_straight st t N) in E. cbn [v_x v_y v_vel v_yaw v_rate st] in E.
  rewrite ctrv_next_straight in E by exact N. rewrite ctrv_next_straight in E by exact N.
  cbn [v_x v_y v_vel v_yaw v_rate st] in E.
  rewrite Ht, angle_add_of in E by apply circle_of.
  rewrite heading_zero in E. replace (0 + PI) with PI in E by ring.
  rewrite (get_angle_canonical PI) in E by lra. rewrite cos_0, cos_PI in E.
  change (0 + 1 * 1 * t + 1 * -1 * t = 0 + 1 * 1 * (t + t)) in E. lra.
Qed.
