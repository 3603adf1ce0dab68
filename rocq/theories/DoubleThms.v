(** Proofs about angles and motion models in double precision. *)
From Coq Require Import ZArith Reals Lra Lia Bool Psatz.
From Flocq Require Import Core IEEE754.BinarySingleNaN.
From Verif Require Import Float FloatProofs Motion DoubleArith.
Open Scope R_scope.

Notation fmt := (generic_format radix2 fexp64).

Lemma fmt_B2R (x : f64) : fmt (B2R x).
Proof. apply generic_format_B2R. Qed.

Lemma big64' r : Rabs r <= bpow radix2 1023 -> Rlt_bool (Rabs r) (bpow radix2 1024) = true.
Proof.
  intros H. apply Rlt_bool_true. eapply Rle_lt_trans; [exact H|]. apply bpow_lt. lia.
Qed.

Lemma add64 (x y : f64) : is_finite x = true -> is_finite y = true ->
  Rabs (rnd64 (B2R x + B2R y)) < bpow radix2 1024 ->
  is_finite (Bplus mode_NE x y) = true /\ B2R (Bplus mode_NE x y) = rnd64 (B2R x + B2R y) /\
  Bsign (Bplus mode_NE x y) = match Rcompare (B2R x + B2R y) 0 with
        | Eq => andb (Bsign x) (Bsign y) | Lt => true | Gt => false end.
Proof.
  intros Fx Fy H. generalize (Bplus_correct 53 1024 _ _ mode_NE x y Fx Fy).
  rewrite Rlt_bool_true by exact H. intros (E & F & S). auto.
Qed.

Definition pi_real : R := 7074237752028440 * bpow radix2 (-51).

Lemma value_of_normal m e : (Z.abs m < 2 ^ 53)%Z -> (-1074 <= e)%Z -> (e <= 900)%Z ->
  B2R (binary_normalize 53 1024 _ _ mode_NE m e false) = IZR m * bpow radix2 e /\
  is_finite (binary_normalize 53 1024 _ _ mode_NE m e false) = true.
Proof.
  intros Hm He Hu.
  generalize (binary_normalize_correct 53 1024 _ _ mode_NE m e false). cbv zeta.
  change (round_mode mode_NE) with ZnearestE.
  fold (rnd64 (F2R (Float radix2 m e))). unfold F2R. cbn [Fnum Fexp].
  rewrite rnd64_id by (apply format64_int; assumption).
  rewrite Rlt_bool_true; [tauto|].
  rewrite Rabs_mult, (Rabs_pos_eq (bpow radix2 e)) by apply bpow_ge_0.
  apply Rle_lt_trans with (bpow radix2 53 * bpow radix2 900).
  - apply Rmult_le_compat; [apply Rabs_pos|apply bpow_ge_0| |now apply bpow_le].
    rewrite <- abs_IZR. change (bpow radix2 53) with (IZR (2 ^ 53)). apply IZR_le. lia.
  - rewrite <- bpow_plus. apply bpow_lt. lia.
Qed.

Lemma pi64_value : B2R pi64 = pi_real /\ is_finite pi64 = true.
Proof. apply value_of_normal; cbn; lia. Qed.
Lemma dbl_min64_value : B2R dbl_min64 = bpow radix2 (-1022) /\ is_finite dbl_min64 = true.
Proof.
  destruct (value_of_normal 1 (-1022)) as [E F]; try (cbn; lia). unfold dbl_min64. rewrite E. split; [ring|exact F].
Qed.
Lemma int64_value z : (Z.abs z < 2 ^ 53)%Z -> B2R (f64_of_Z z) = IZR z /\ is_finite (f64_of_Z z) = true.
Proof.
  intros H. destruct (value_of_normal z 0) as [E F]; try lia. unfold f64_of_Z. rewrite E. split; [cbn; ring|exact F].
Qed.

Lemma pi_real_bounds : 3 <= pi_real <= 4.
Proof. unfold pi_real. cbn. lra. Qed.

Lemma fmt_2pi : fmt (2 * pi_real).
Proof.
  replace (2 * pi_real) with (IZR 7074237752028440 * bpow radix2 (-50)) by (unfold pi_real; cbn; lra).
  apply format64_int; lia.
Qed.

(** 2.0 * pi *)
Lemma two_pi64 : B2R (Bmult mode_NE (f64_of_Z 2) pi64) = 2 * pi_real /\
  is_finite (Bmult mode_NE (f64_of_Z 2) pi64) = true.
Proof.
  destruct pi64_value as [Ep Fp]. destruct (int64_value 2) as [E2 F2]; [cbn; lia|].
  generalize (Bmult_correct 53 1024 _ _ mode_NE (f64_of_Z 2) pi64).
  change (round_mode mode_NE) with ZnearestE. rewrite E2, Ep.
  fold (rnd64 (2 * pi_real)). rewrite rnd64_id by apply fmt_2pi.
  rewrite big64'.
  - intros (E & F & _). rewrite E, F, F2, Fp. split; reflexivity.
  - pose proof pi_real_bounds. rewrite Rabs_pos_eq by lra.
    apply Rle_trans with (bpow radix2 3); [cbn; lra|apply bpow_le; lia].
Qed.

Lemma ltb64 (x y : f64) : is_finite x = true -> is_finite y = true -> Bltb x y = Rlt_bool (B2R x) (B2R y).
Proof. intros. now apply Bltb_correct. Qed.

Section Oracles.
Context (sine cosine : f64 -> f64) (phase : f64 -> f64 -> f64).
Notation D := (doubles sine cosine phase).

Lemma get_angle_closed (z : angle D) :
  is_finite (phase (re z) (im z)) = true -> Rabs (B2R (phase (re z) (im z))) <= B2R pi64 ->
  is_finite (get_angle z : f64) = true /\ 0 <= B2R (get_angle z : f64) <= 2 * B2R pi64.
Proof.
  intros F B. unfold get_angle. cbn [narg doubles nlt n0 nadd n2 npi nmul].
  set (p := phase (re z) (im z)) in *.
  destruct pi64_value as [Ep Fp]. rewrite Ep in *. pose proof pi_real_bounds as PB.
  destruct (int64_value 0) as [E0 F0]; [cbn; lia|].
  apply Rabs_le_inv in B.
  rewrite (ltb64 p (f64_of_Z 0) F F0), E0.
  destruct (Rlt_bool_spec (B2R p) 0) as [H|H].
  - destruct two_pi64 as [E2 F2].
    assert (L : 0 <= rnd64 (B2R p + 2 * pi_real) <= 2 * pi_real).
    { split.
      - rewrite <- rnd64_0. apply rnd64_le. lra.
      - rewrite <- (rnd64_id _ fmt_2pi) at 2. apply rnd64_le. lra. }
    destruct (add64 p (Bmult mode_NE (f64_of_Z 2) pi64) F F2) as (Fa & Ea & _).
    + rewrite E2. rewrite Rabs_pos_eq by apply L. eapply Rle_lt_trans; [apply L|].
      apply Rle_lt_trans with (bpow radix2 3); [cbn; lra|apply bpow_lt; lia].
    + rewrite Ea, E2. split; [exact Fa|lra].
  - split; [exact F|lra].
Qed.

(** Tiny negative phases are mapped to 2 pi itself. *)
Lemma get_angle_full_turn (z : angle D) :
  is_finite (phase (re z) (im z)) = true ->
  - bpow radix2 (-52) <= B2R (phase (re z) (im z)) < 0 ->
  B2R (get_angle z : f64) = 2 * B2R pi64.
Proof.
  intros F [B1 B2]. unfold get_angle. cbn [narg doubles nlt n0 nadd n2 npi nmul].
  set (p := phase (re z) (im z)) in *.
  destruct pi64_value as [Ep Fp]. rewrite Ep in *. pose proof pi_real_bounds as PB.
  destruct (int64_value 0) as [E0 F0]; [cbn; lia|].
  rewrite (ltb64 p (f64_of_Z 0) F F0), E0, Rlt_bool_true by exact B2.
  destruct two_pi64 as [E2 F2].
  assert (E : rnd64 (B2R p + 2 * pi_real) = 2 * pi_real).
  { apply Rle_antisym.
    - rewrite <- (rnd64_id _ fmt_2pi) at 2. apply rnd64_le. lra.
    - apply round_N_ge_midp; [typeclasses eauto|apply fmt_2pi|].
      set (u := 2 * pi_real). set (q := pred radix2 fexp64 u).
      assert (Q4 : 4 <= q).
      { apply pred_ge_gt; [typeclasses eauto| |apply fmt_2pi|unfold u; lra].
        replace 4 with (IZR 1 * bpow radix2 2) by (cbn; lra). apply format64_int; lia. }
      assert (S : succ radix2 fexp64 q = u) by (apply succ_pred; [typeclasses eauto|apply fmt_2pi]).
      rewrite succ_eq_pos in S by lra.
      assert (U : bpow radix2 (-50) <= ulp radix2 fexp64 q).
      { replace (bpow radix2 (-50)) with (ulp radix2 fexp64 (bpow radix2 2)).
        - apply ulp_le; [typeclasses eauto|typeclasses eauto|].
          rewrite Rabs_pos_eq by apply bpow_ge_0. rewrite Rabs_pos_eq by lra. cbn. lra.
        - rewrite ulp_bpow. reflexivity. }
      assert (bpow radix2 (-52) < bpow radix2 (-51)) by (apply bpow_lt; lia).
      assert (bpow radix2 (-50) = 2 * bpow radix2 (-51)) by (cbn; lra).
      lra. }
  destruct (add64 p (Bmult mode_NE (f64_of_Z 2) pi64) F F2) as (Fa & Ea & _).
  - rewrite E2, E, Rabs_pos_eq by lra.
    apply Rle_lt_trans with (bpow radix2 3); [cbn; lra|apply bpow_lt; lia].
  - rewrite Ea, E2. exact E.
Qed.

(** ** A tiny turn is absorbed by the heading *)
Lemma absorbed u d : fmt u -> 1 <= u -> Rabs d < bpow radix2 (-54) -> rnd64 (u + d) = u.
Proof.
  intros Fu Hu Hd. apply Rabs_lt_inv in Hd.
  assert (Lu : forall v e, bpow radix2 e <= v -> bpow radix2 (fexp64 (e + 1)) <= ulp radix2 fexp64 v).
  { intros v e H. rewrite <- (ulp_bpow radix2 fexp64 e). apply ulp_le; [typeclasses eauto|typeclasses eauto|].
    pose proof (bpow_gt_0 radix2 e). rewrite !Rabs_pos_eq; lra. }
  apply Rle_antisym.
  - apply round_N_le_midp; [typeclasses eauto|exact Fu|].
    rewrite succ_eq_pos by lra. specialize (Lu u 0%Z).
    change (bpow radix2 (fexp64 (0 + 1))) with (bpow radix2 (-52)) in Lu.
    assert (bpow radix2 (-52) = 4 * bpow radix2 (-54)) by (cbn; lra).
    pose proof (bpow_gt_0 radix2 (-54)). change (bpow radix2 0) with 1 in Lu. lra.
  - apply round_N_ge_midp; [typeclasses eauto|exact Fu|].
    set (q := pred radix2 fexp64 u).
    assert (Q : / 2 <= q).
    { apply pred_ge_gt; [typeclasses eauto| |exact Fu|lra].
      replace (/ 2) with (IZR 1 * bpow radix2 (-1)) by (cbn; lra). apply format64_int; lia. }
    assert (S : succ radix2 fexp64 q = u) by (apply succ_pred; [typeclasses eauto|exact Fu]).
    rewrite succ_eq_pos in S by lra. specialize (Lu q (-1)%Z).
    change (bpow radix2 (fexp64 (-1 + 1))) with (bpow radix2 (-53)) in Lu.
    change (bpow radix2 (-1)) with (/ 2) in Lu.
    assert (bpow radix2 (-53) = 2 * bpow radix2 (-54)) by (cbn; lra).
    lra.
Qed.

Lemma sub_self (x : f64) : is_finite x = true ->
  is_finite (Bminus mode_NE x x) = true /\ B2R (Bminus mode_NE x x) = 0.
Proof.
  intros F. generalize (Bminus_correct 53 1024 _ _ mode_NE x x F F).
  replace (B2R x - B2R x) with 0 by ring. rewrite round_0 by typeclasses eauto.
  rewrite Rabs_R0, Rlt_bool_true by apply bpow_gt_0. tauto.
Qed.
Lemma mul_zero_r (x y : f64) : is_finite x = true -> is_finite y = true -> B2R y = 0 ->
  is_finite (Bmult mode_NE x y) = true /\ B2R (Bmult mode_NE x y) = 0.
Proof.
  intros Fx Fy E. generalize (Bmult_correct 53 1024 _ _ mode_NE x y).
  rewrite E, Rmult_0_r, round_0 by typeclasses eauto.
  rewrite Rabs_R0, Rlt_bool_true by apply bpow_gt_0. rewrite Fx, Fy. tauto.
Qed.
Lemma mul_zero_l (x y : f64) : is_finite x = true -> is_finite y = true -> B2R x = 0 ->
  is_finite (Bmult mode_NE x y) = true /\ B2R (Bmult mode_NE x y) = 0.
Proof.
  intros Fx Fy E. generalize (Bmult_correct 53 1024 _ _ mode_NE x y).
  rewrite E, Rmult_0_l, round_0 by typeclasses eauto.
  rewrite Rabs_R0, Rlt_bool_true by apply bpow_gt_0. rewrite Fx, Fy. tauto.
Qed.
Lemma add_zero_r (x y : f64) : is_finite x = true -> is_finite y = true -> B2R y = 0 ->
  B2R (Bplus mode_NE x y) = B2R x.
Proof.
  intros Fx Fy E. destruct (add64 x y Fx Fy) as (_ & Ea & _).
  - rewrite E, Rplus_0_r, rnd64_id by apply fmt_B2R. apply abs_B2R_lt_emax.
  - rewrite Ea, E, Rplus_0_r. apply rnd64_id, fmt_B2R.
Qed.
Lemma sub_zero_r (x y : f64) : is_finite x = true -> is_finite y = true -> B2R y = 0 ->
  B2R (Bminus mode_NE x y) = B2R x.
Proof.
  intros Fx Fy E. generalize (Bminus_correct 53 1024 _ _ mode_NE x y Fx Fy).
  rewrite E, Rminus_0_r. change (round_mode mode_NE) with ZnearestE. fold (rnd64 (B2R x)).
  rewrite rnd64_id by apply fmt_B2R.
  rewrite Rlt_bool_true by apply abs_B2R_lt_emax. tauto.
Qed.

Lemma positive_sign (x : f64) : 0 < B2R x -> Bsign x = false.
Proof.
  destruct x as [sg|sg| |sg m e He]; cbn; intros H.
  - exfalso. revert H. apply Rlt_irrefl.
  - exfalso. revert H. apply Rlt_irrefl.
  - reflexivity.
  - destruct sg; [|reflexivity]. exfalso.
    apply (Rlt_asym _ _ H). apply F2R_lt_0. reflexivity.
Qed.

(** The prediction leaves the position where it is when the turn is absorbed. *)
Lemma ctrv_frozen (s : ctrv_state D) (dt : f64) :
  let psi := get_angle (v_yaw s) : f64 in
  let turn := Bmult mode_NE (v_rate s) dt : f64 in
  is_finite (v_x s : f64) = true -> is_finite (v_y s : f64) = true ->
  is_finite psi = true -> 1 <= B2R psi ->
  is_finite turn = true -> Rabs (B2R turn) < bpow radix2 (-54) ->
  is_finite (v_rate s : f64) = true -> bpow radix2 (-1022) <= Rabs (B2R (v_rate s : f64)) ->
  is_finite (Bdiv mode_NE (v_vel s) (v_rate s) : f64) = true ->
  is_finite (sine psi) = true -> is_finite (cosine psi) = true ->
  B2R (v_x (ctrv_next s dt) : f64) = B2R (v_x s : f64) /\
  B2R (v_y (ctrv_next s dt) : f64) = B2R (v_y s : f64).
Proof.
  intros psi turn Fx Fy Fp Hp Ft Ht Fw Hw Fd Fs Fc.
  assert (N : nnear0 D (v_rate s) = false).
  { destruct dbl_min64_value as [Em Fm].
    change (Bltb (Babs (v_rate s : f64)) dbl_min64 = false).
    rewrite ltb64; [|now rewrite is_finite_Babs|exact Fm].
    rewrite B2R_Babs, Em. now apply Rlt_bool_false. }
  assert (A : Bplus mode_NE psi turn = psi).
  { assert (E : rnd64 (B2R psi + B2R turn) = B2R psi) by (apply absorbed; [apply fmt_B2R|exact Hp|exact Ht]).
    destruct (add64 psi turn Fp Ft) as (Fa & Ea & Sa).
    - rewrite E. apply abs_B2R_lt_emax.
    - apply B2R_Bsign_inj; [exact Fa|exact Fp|now rewrite Ea|].
      rewrite Sa. apply Rabs_lt_inv in Ht.
      assert (bpow radix2 (-54) < 1) by (change 1 with (bpow radix2 0); apply bpow_lt; lia).
      rewrite Rcompare_Gt by lra.
      symmetry. apply positive_sign. lra. }
  unfold ctrv_next. cbv zeta. rewrite N. cbn [v_x v_y].
  cbn [nadd nsub nmul ndiv nsin ncos n1 doubles] in *.
  fold psi. fold turn. rewrite A.
  destruct (sub_self (sine psi) Fs) as [F1 E1]. destruct (sub_self (cosine psi) Fc) as [F2 E2].
  destruct (int64_value 1) as [_ F1']; [cbn; lia|].
  destruct (mul_zero_r _ _ Fd F1 E1) as [F3 E3]. destruct (mul_zero_r _ _ Fd F2 E2) as [F4 E4].
  destruct (mul_zero_l _ _ F3 F1' E3) as [F5 E5]. destruct (mul_zero_l _ _ F4 F1' E4) as [F6 E6].
  split; [now apply add_zero_r | now apply sub_zero_r].
Qed.
End Oracles.

Lemma pow2_value e : (-1074 <= e <= 900)%Z ->
  B2R (binary_normalize 53 1024 _ _ mode_NE 1 e false) = bpow radix2 e /\
  is_finite (binary_normalize 53 1024 _ _ mode_NE 1 e false) = true.
Proof.
  intros H. destruct (value_of_normal 1 e) as [E F]; try (cbn; lia). split; [|exact F].
  etransitivity; [exact E|ring].
Qed.

Lemma frozen_witness : exists v w dt psi : f64,
  B2R v = 10 /\ B2R dt = 1 /\ B2R w = bpow radix2 (-60) /\ B2R psi = 3 / 2 /\
  forall sine cosine phase (yaw : angle (doubles sine cosine phase)),
    (forall x, is_finite x = true -> is_finite (sine x) = true /\ is_finite (cosine x) = true) ->
    phase (re yaw) (im yaw) = psi ->
    let s := CtrvState (A := doubles sine cosine phase) (f64_of_Z 0) (f64_of_Z 0) v yaw w in
    B2R (v_x (ctrv_next s dt) : f64) = 0 /\ B2R (v_y (ctrv_next s dt) : f64) = 0.
Proof.
  destruct (int64_value 10) as [Ev Fv]; [cbn; lia|].
  destruct (int64_value 1) as [Et Ft]; [cbn; lia|].
  destruct (int64_value 0) as [E0 F0]; [cbn; lia|].
  destruct (pow2_value (-60)) as [Ew Fw]; [lia|].
  destruct (value_of_normal 3 (-1)) as [Ep Fp]; try (cbn; lia).
  assert (Ep' : B2R (binary_normalize 53 1024 _ _ mode_NE 3 (-1) false) = 3 / 2)
    by (etransitivity; [exact Ep|cbn; lra]).
  exists (f64_of_Z 10), (binary_normalize 53 1024 _ _ mode_NE 1 (-60) false), (f64_of_Z 1),
    (binary_normalize 53 1024 _ _ mode_NE 3 (-1) false).
  set (v := f64_of_Z 10) in *. set (w := binary_normalize 53 1024 _ _ mode_NE 1 (-60) false) in *.
  set (dt := f64_of_Z 1) in *. set (psi := binary_normalize 53 1024 _ _ mode_NE 3 (-1) false) in *.
  repeat (split; [assumption|]).
  intros sine cosine phase yaw Hsc Hyaw s.
  assert (Hg : get_angle yaw = psi :> f64).
  { unfold get_angle. cbn [narg doubles nlt n0]. rewrite Hyaw.
    rewrite ltb64 by assumption. rewrite Ep', E0, Rlt_bool_false by lra. reflexivity. }
  assert (Hturn : is_finite (Bmult mode_NE w dt) = true /\ B2R (Bmult mode_NE w dt) = bpow radix2 (-60)).
  { generalize (Bmult_correct 53 1024 _ _ mode_NE w dt). rewrite Ew, Et, Rmult_1_r.
    change (round_mode mode_NE) with ZnearestE. fold (rnd64 (bpow radix2 (-60))).
    rewrite rnd64_id by (rewrite <- Ew; apply fmt_B2R).
    rewrite big64'.
    - intros (E & F & _). rewrite E, F, Fw, Ft. split; reflexivity.
    - rewrite Rabs_pos_eq by apply bpow_ge_0. apply bpow_le. lia. }
  assert (Hdiv : is_finite (Bdiv mode_NE v w) = true).
  { generalize (Bdiv_correct 53 1024 _ _ mode_NE v w). rewrite Ev, Ew.
    change (round_mode mode_NE) with ZnearestE. fold (rnd64 (10 / bpow radix2 (-60))).
    intros H. destruct H as (_ & _ & _) || idtac.
    assert (Q : 10 / bpow radix2 (-60) = IZR 10 * bpow radix2 60).
    { replace (bpow radix2 60) with (/ bpow radix2 (-60)); [reflexivity|].
      rewrite <- bpow_opp. reflexivity. }
    rewrite Q, rnd64_id in H by (apply format64_int; lia).
    rewrite big64' in H.
    - destruct H as (_ & F & _); [pose proof (bpow_gt_0 radix2 (-60)); lra|]. now rewrite F.
    - rewrite Rabs_pos_eq by (pose proof (bpow_gt_0 radix2 60); lra).
      apply Rle_trans with (bpow radix2 4 * bpow radix2 60).
      + apply Rmult_le_compat_r; [apply bpow_ge_0|cbn; lra].
      + rewrite <- bpow_plus. apply bpow_le. lia. }
  destruct (Hsc psi Fp) as [Fs Fc].
  destruct (ctrv_frozen sine cosine phase s dt) as [Hx Hy].
  - exact F0.
  - exact F0.
  - change (is_finite (get_angle yaw : f64) = true). now rewrite Hg.
  - change (1 <= B2R (get_angle yaw : f64)). rewrite Hg, Ep'. lra.
  - apply Hturn.
  - destruct Hturn as [_ E]. change (Rabs (B2R (Bmult mode_NE w dt)) < bpow radix2 (-54)).
    rewrite E, Rabs_pos_eq by apply bpow_ge_0. apply bpow_lt. lia.
  - exact Fw.
  - change (bpow radix2 (-1022) <= Rabs (B2R w)). rewrite Ew, Rabs_pos_eq by apply bpow_ge_0. apply bpow_le. lia.
  - exact Hdiv.
  - change (is_finite (sine (get_angle yaw)) = true). now rewrite Hg.
  - change (is_finite (cosine (get_angle yaw)) = true). now rewrite Hg.
  - rewrite Hx, Hy. split; exact E0.
Qed.
