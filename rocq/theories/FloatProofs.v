(** Rounding analysis of the cost computation of track matching. *)
From Coq Require Import ZArith Reals Lra Lia Bool.
From Flocq Require Import Core IEEE754.BinarySingleNaN.
From Verif Require Import Base Float Matching MatchingSpec.
Open Scope R_scope.

Notation fexp32 := (SpecFloat.fexp 24 128).
Notation fexp64 := (SpecFloat.fexp 53 1024).
Definition rnd32 (x : R) : R := round radix2 fexp32 ZnearestE x.
Definition rnd64 (x : R) : R := round radix2 fexp64 ZnearestE x.

#[global] Instance valid32 : Valid_exp fexp32 := fexp_correct 24 128 _.
#[global] Instance valid64 : Valid_exp fexp64 := fexp_correct 53 1024 _.
#[global] Instance mono32 : Monotone_exp fexp32 := FLT_exp_monotone (3 - 128 - 24) 24.
#[global] Instance mono64 : Monotone_exp fexp64 := FLT_exp_monotone (3 - 1024 - 53) 53.

Notation format32 := (generic_format radix2 fexp32).
Notation format64 := (generic_format radix2 fexp64).

Lemma rnd32_le x y : x <= y -> rnd32 x <= rnd32 y.
Proof. apply round_le; typeclasses eauto. Qed.
Lemma rnd64_le x y : x <= y -> rnd64 x <= rnd64 y.
Proof. apply round_le; typeclasses eauto. Qed.
Lemma rnd32_id x : format32 x -> rnd32 x = x.
Proof. apply round_generic; typeclasses eauto. Qed.
Lemma rnd64_id x : format64 x -> rnd64 x = x.
Proof. apply round_generic; typeclasses eauto. Qed.
Lemma rnd32_0 : rnd32 0 = 0.
Proof. apply round_0; typeclasses eauto. Qed.
Lemma rnd64_0 : rnd64 0 = 0.
Proof. apply round_0; typeclasses eauto. Qed.

Lemma format32_int m e : (Z.abs m < 2 ^ 24)%Z -> (-149 <= e)%Z -> format32 (IZR m * bpow radix2 e).
Proof.
  intros Hm He. apply (generic_format_FLT radix2 (3 - 128 - 24) 24).
  exists (Float radix2 m e); [reflexivity|exact Hm|exact He].
Qed.
Lemma format64_int m e : (Z.abs m < 2 ^ 53)%Z -> (-1074 <= e)%Z -> format64 (IZR m * bpow radix2 e).
Proof.
  intros Hm He. apply (generic_format_FLT radix2 (3 - 1024 - 53) 53).
  exists (Float radix2 m e); [reflexivity|exact Hm|exact He].
Qed.
Lemma format32_1 : format32 1.
Proof. replace 1 with (IZR 1 * bpow radix2 0) by (cbn; lra). apply format32_int; lia. Qed.
Lemma format64_1 : format64 1.
Proof. replace 1 with (IZR 1 * bpow radix2 0) by (cbn; lra). apply format64_int; lia. Qed.
Lemma format32_1e8 : format32 100000000.
Proof.
  replace 100000000 with (IZR 390625 * bpow radix2 8) by (cbn; lra). apply format32_int; lia.
Qed.

(** ** Rounding errors *)
Lemma err32 e x : Rabs x < bpow radix2 e -> Rabs (rnd32 x - x) <= / 2 * bpow radix2 (fexp32 e).
Proof.
  intros Hx. destruct (Req_dec x 0) as [->|Hn].
  - rewrite rnd32_0. replace (0 - 0) with 0 by lra. rewrite Rabs_R0.
    pose proof (bpow_ge_0 radix2 (fexp32 e)). lra.
  - eapply Rle_trans; [apply error_le_half_ulp; typeclasses eauto|].
    apply Rmult_le_compat_l; [lra|]. rewrite ulp_neq_0 by exact Hn. apply bpow_le.
    apply mono32. apply mag_le_bpow; assumption.
Qed.
Lemma err64 e x : Rabs x < bpow radix2 e -> Rabs (rnd64 x - x) <= / 2 * bpow radix2 (fexp64 e).
Proof.
  intros Hx. destruct (Req_dec x 0) as [->|Hn].
  - rewrite rnd64_0. replace (0 - 0) with 0 by lra. rewrite Rabs_R0.
    pose proof (bpow_ge_0 radix2 (fexp64 e)). lra.
  - eapply Rle_trans; [apply error_le_half_ulp; typeclasses eauto|].
    apply Rmult_le_compat_l; [lra|]. rewrite ulp_neq_0 by exact Hn. apply bpow_le.
    apply mono64. apply mag_le_bpow; assumption.
Qed.

(** On [0,1]. *)
Lemma err32_unit x : 0 <= x <= 1 -> Rabs (rnd32 x - x) <= / 33554432.
Proof.
  intros Hx. destruct (Req_dec x 1) as [->|Hn].
  - rewrite rnd32_id by apply format32_1. replace (1 - 1) with 0 by lra. rewrite Rabs_R0. lra.
  - replace (/ 33554432) with (/ 2 * bpow radix2 (fexp32 0)) by (cbn; lra).
    apply err32. cbn. rewrite Rabs_pos_eq; lra.
Qed.
Lemma err64_unit x : 0 <= x <= 1 -> Rabs (rnd64 x - x) <= / 18014398509481984.
Proof.
  intros Hx. destruct (Req_dec x 1) as [->|Hn].
  - rewrite rnd64_id by apply format64_1. replace (1 - 1) with 0 by lra. rewrite Rabs_R0. lra.
  - replace (/ 18014398509481984) with (/ 2 * bpow radix2 (fexp64 0)) by (cbn; lra).
    apply err64. cbn. rewrite Rabs_pos_eq; lra.
Qed.
Lemma rnd32_unit x : 0 <= x <= 1 -> 0 <= rnd32 x <= 1.
Proof.
  intros [H1 H2]. split; [rewrite <- rnd32_0|rewrite <- (rnd32_id 1 format32_1)]; apply rnd32_le; assumption.
Qed.
Lemma rnd64_unit x : 0 <= x <= 1 -> 0 <= rnd64 x <= 1.
Proof.
  intros [H1 H2]. split; [rewrite <- rnd64_0|rewrite <- (rnd64_id 1 format64_1)]; apply rnd64_le; assumption.
Qed.
Lemma rnd32_scaled x : 0 <= x <= 100000000 -> 0 <= rnd32 x <= 100000000.
Proof.
  intros [H1 H2]. split; [rewrite <- rnd32_0|rewrite <- (rnd32_id _ format32_1e8)]; apply rnd32_le; assumption.
Qed.
Lemma err32_scaled x : 0 <= x <= 100000000 -> Rabs (rnd32 x - x) <= 4.
Proof.
  intros Hx. replace 4 with (/ 2 * bpow radix2 (fexp32 27)) by (cbn; lra).
  apply err32. cbn. rewrite Rabs_pos_eq; lra.
Qed.

(** ** The operations *)
Lemma big32 : 100000000 < bpow radix2 128.
Proof.
  apply Rlt_le_trans with (bpow radix2 27); [cbn; lra|]. apply bpow_le. lia.
Qed.
Lemma big64 : 1 < bpow radix2 1024.
Proof. change 1 with (bpow radix2 0). apply bpow_lt. lia. Qed.

Lemma div32 (s m : f32) : is_finite s = true -> B2R m <> 0 -> 0 <= B2R s / B2R m <= 1 ->
  B2R (f32_div s m) = rnd32 (B2R s / B2R m) /\ is_finite (f32_div s m) = true.
Proof.
  intros Hf Hm Hq. pose proof (Bdiv_correct 24 128 _ _ mode_NE s m Hm) as H.
  change (round radix2 fexp32 (round_mode mode_NE) (B2R s / B2R m)) with (rnd32 (B2R s / B2R m)) in H.
  rewrite Rlt_bool_true in H.
  - destruct H as (H1 & H2 & _). unfold f32_div. rewrite H2, Hf. split; [exact H1|reflexivity].
  - pose proof (rnd32_unit _ Hq). pose proof big32. rewrite Rabs_pos_eq; lra.
Qed.

Lemma conv64 (x : f32) : is_finite x = true ->
  B2R (f64_of_f32 x) = B2R x /\ is_finite (f64_of_f32 x) = true.
Proof.
  intros Hf. destruct x as [s|s| |s m e Hb]; try discriminate; [split; reflexivity|].
  unfold f64_of_f32, convert.
  pose proof (binary_normalize_correct 53 1024 _ _ mode_NE (SpecFloat.cond_Zopp s (Zpos m)) e s) as H.
  cbv zeta in H.
  set (x := F2R (Float radix2 (SpecFloat.cond_Zopp s (Zpos m)) e)) in *.
  assert (B2R (B754_finite s m e Hb) = x) as Ex by reflexivity.
  change (round radix2 fexp64 (round_mode mode_NE) x) with (rnd64 x) in H.
  assert (format64 x) as Hfmt.
  { rewrite <- Ex. destruct (FLT_format_B2R 24 128 _ (B754_finite s m e Hb)) as [f E1 E2 E3].
    rewrite E1. destruct f as [fm fe]. cbn in E2, E3.
    apply (generic_format_FLT radix2 (3 - 1024 - 53) 53). exists (Float radix2 fm fe); [reflexivity| |].
    - cbn. eapply Z.lt_trans; [exact E2|reflexivity].
    - cbn. lia. }
  rewrite (rnd64_id x Hfmt) in H. rewrite Rlt_bool_true in H.
  - rewrite Ex. tauto.
  - rewrite <- Ex. eapply Rlt_trans; [apply abs_B2R_lt_emax|]. apply bpow_lt. lia.
Qed.

Lemma conv32 (x : f64) : is_finite x = true -> 0 <= B2R x <= 1 ->
  B2R (f32_of_f64 x) = rnd32 (B2R x) /\ is_finite (f32_of_f64 x) = true.
Proof.
  intros Hf Hx. destruct x as [s|s| |s m e Hb]; try discriminate; [split; [cbn; symmetry; apply rnd32_0|reflexivity]|].
  unfold f32_of_f64, convert.
  pose proof (binary_normalize_correct 24 128 _ _ mode_NE (SpecFloat.cond_Zopp s (Zpos m)) e s) as H.
  cbv zeta in H.
  change (F2R (Float radix2 (SpecFloat.cond_Zopp s (Zpos m)) e)) with (B2R (B754_finite s m e Hb)) in H.
  set (x := B2R (B754_finite s m e Hb)) in *.
  change (round radix2 fexp32 (round_mode mode_NE) x) with (rnd32 x) in H.
  rewrite Rlt_bool_true in H; [tauto|].
  pose proof (rnd32_unit _ Hx). pose proof big32. rewrite Rabs_pos_eq; lra.
Qed.

Lemma f64_one : B2R (f64_of_Z 1) = 1 /\ is_finite (f64_of_Z 1) = true.
Proof.
  pose proof (binary_normalize_correct 53 1024 _ _ mode_NE 1 0 false) as H. cbv zeta in H.
  assert (F2R (Float radix2 1 0) = 1) as E by (unfold F2R; cbn; lra). rewrite E in H.
  change (round radix2 fexp64 (round_mode mode_NE) 1) with (rnd64 1) in H.
  rewrite (rnd64_id 1 format64_1), Rlt_bool_true in H; [tauto|].
  rewrite Rabs_pos_eq by lra. apply big64.
Qed.
Lemma f32_1e8 : B2R (f32_of_Z 100000000) = 100000000 /\ is_finite (f32_of_Z 100000000) = true.
Proof.
  pose proof (binary_normalize_correct 24 128 _ _ mode_NE 100000000 0 false) as H. cbv zeta in H.
  assert (F2R (Float radix2 100000000 0) = 100000000) as E by (unfold F2R; cbn; lra). rewrite E in H.
  change (round radix2 fexp32 (round_mode mode_NE) 100000000) with (rnd32 100000000) in H.
  rewrite (rnd32_id _ format32_1e8), Rlt_bool_true in H; [tauto|].
  rewrite Rabs_pos_eq by lra. apply big32.
Qed.

Lemma sub64 (x : f64) : is_finite x = true -> 0 <= B2R x <= 1 ->
  B2R (f64_sub (f64_of_Z 1) x) = rnd64 (1 - B2R x) /\ is_finite (f64_sub (f64_of_Z 1) x) = true.
Proof.
  intros Hf Hx. destruct f64_one as [E1 F1].
  pose proof (Bminus_correct 53 1024 _ _ mode_NE (f64_of_Z 1) x F1 Hf) as H. rewrite E1 in H.
  change (round radix2 fexp64 (round_mode mode_NE) (1 - B2R x)) with (rnd64 (1 - B2R x)) in H.
  rewrite Rlt_bool_true in H; [unfold f64_sub; tauto|].
  assert (0 <= 1 - B2R x <= 1) as Hd by lra. pose proof (rnd64_unit _ Hd). pose proof big64.
  rewrite Rabs_pos_eq; lra.
Qed.

Lemma mul32 (x : f32) : is_finite x = true -> 0 <= B2R x <= 1 ->
  B2R (f32_mul x (f32_of_Z 100000000)) = rnd32 (B2R x * 100000000) /\
  is_finite (f32_mul x (f32_of_Z 100000000)) = true.
Proof.
  intros Hf Hx. destruct f32_1e8 as [E1 F1].
  pose proof (Bmult_correct 24 128 _ _ mode_NE x (f32_of_Z 100000000)) as H. rewrite E1, F1, Hf in H.
  change (round radix2 fexp32 (round_mode mode_NE) (B2R x * 100000000)) with (rnd32 (B2R x * 100000000)) in H.
  rewrite Rlt_bool_true in H; [unfold f32_mul; tauto|].
  assert (0 <= B2R x * 100000000 <= 100000000) as Hd by lra. pose proof (rnd32_scaled _ Hd). pose proof big32.
  rewrite Rabs_pos_eq; lra.
Qed.

Lemma trunc32 (x : f32) : Btrunc x = Ztrunc (B2R x).
Proof.
  apply eq_IZR. rewrite Btrunc_correct by exact prec32. unfold round, scaled_mantissa, cexp, FIX_exp, F2R. cbn.
  rewrite !Rmult_1_r. reflexivity.
Qed.

(** The cost as a function on the reals. *)
Definition cost_real (s m : R) : Z := Ztrunc (rnd32 (rnd32 (rnd64 (1 - rnd32 (s / m))) * 100000000)).

Lemma ratio_unit s m : 0 <= s <= m -> 0 < m -> 0 <= s / m <= 1.
Proof.
  intros Hs Hm. split; [apply Rmult_le_pos; [lra|left; apply Rinv_0_lt_compat; lra]|].
  apply Rmult_le_reg_r with m; [lra|]. unfold Rdiv. rewrite Rmult_assoc, Rinv_l by lra. lra.
Qed.

Lemma inner_unit s m : 0 <= s <= m -> 0 < m -> 0 <= rnd32 (rnd64 (1 - rnd32 (s / m))) <= 1.
Proof.
  intros Hs Hm. pose proof (rnd32_unit _ (ratio_unit s m Hs Hm)). apply rnd32_unit, rnd64_unit. lra.
Qed.

Lemma cost_bounds s m : 0 <= s <= m -> 0 < m -> (0 <= cost_real s m <= 100000000)%Z.
Proof.
  intros Hs Hm. pose proof (inner_unit s m Hs Hm) as Hi.
  assert (0 <= rnd32 (rnd64 (1 - rnd32 (s / m))) * 100000000 <= 100000000) as Hp by lra.
  pose proof (rnd32_scaled _ Hp) as [H1 H2]. unfold cost_real. split.
  - transitivity (Ztrunc (IZR 0)); [rewrite Ztrunc_IZR; lia|apply Ztrunc_le, H1].
  - transitivity (Ztrunc (IZR 100000000)); [apply Ztrunc_le, H2|rewrite Ztrunc_IZR; lia].
Qed.

Lemma scaled_cost_real (s m : f32) : ordinary s -> is_finite m = true -> 0 < B2R m -> B2R s <= B2R m ->
  scaled_cost s m = Ok (cost_real (B2R s) (B2R m)).
Proof.
  intros [Fs Ps] Fm Pm Hle.
  assert (0 <= B2R s <= B2R m) as Hs by lra.
  pose proof (ratio_unit _ _ Hs Pm) as Hq.
  destruct (div32 s m Fs ltac:(lra) Hq) as [Eq Fq].
  pose proof (rnd32_unit _ Hq) as Hq'.
  destruct (conv64 _ Fq) as [Eq64 Fq64].
  destruct (sub64 _ Fq64) as [Ed Fd]; [rewrite Eq64, Eq; exact Hq'|]. rewrite Eq64, Eq in Ed.
  assert (0 <= rnd64 (1 - rnd32 (B2R s / B2R m)) <= 1) as Hd by (apply rnd64_unit; lra).
  destruct (conv32 _ Fd) as [Ec Fc]; [rewrite Ed; exact Hd|]. rewrite Ed in Ec.
  destruct (mul32 _ Fc) as [Ep Fp]; [rewrite Ec; apply rnd32_unit, Hd|]. rewrite Ec in Ep.
  unfold scaled_cost, cost_value, normalized_score, int_of_f32. rewrite Fp.
  rewrite trunc32, Ep. fold (cost_real (B2R s) (B2R m)).
  pose proof (cost_bounds _ _ Hs Pm) as [H1 H2].
  assert ((-2 ^ 31 <=? cost_real (B2R s) (B2R m))%Z = true) as -> by (apply Z.leb_le; lia).
  assert ((cost_real (B2R s) (B2R m) <? 2 ^ 31)%Z = true) as -> by (apply Z.ltb_lt; lia). reflexivity.
Qed.

(** Smaller scores never get smaller costs. *)
Lemma cost_antitone s s' m : 0 < m -> s <= s' -> (cost_real s' m <= cost_real s m)%Z.
Proof.
  intros Hm Hs. unfold cost_real. apply Ztrunc_le, rnd32_le, Rmult_le_compat_r; [lra|].
  apply rnd32_le, rnd64_le. apply Rplus_le_compat_l, Ropp_le_contravar, rnd32_le.
  apply Rmult_le_compat_r; [left; apply Rinv_0_lt_compat, Hm|exact Hs].
Qed.

Lemma Ztrunc_err x : 0 <= x -> x - 1 < IZR (Ztrunc x) <= x.
Proof.
  intros Hx. rewrite Ztrunc_floor by exact Hx. pose proof (Zfloor_lb x). pose proof (Zfloor_ub x). lra.
Qed.

(** Distance between the integer cost and the exact affine cost. *)
Lemma cost_error s m : 0 <= s <= m -> 0 < m ->
  - 11 < IZR (cost_real s m) - 100000000 * (1 - s / m) < 10.
Proof.
  intros Hs Hm. pose proof (ratio_unit s m Hs Hm) as Hq. pose proof (err32_unit _ Hq) as Eq.
  pose proof (rnd32_unit _ Hq) as Hq'. set (q := rnd32 (s / m)) in *.
  assert (0 <= 1 - q <= 1) as Hd by lra. pose proof (err64_unit _ Hd) as Ed. pose proof (rnd64_unit _ Hd) as Hd'.
  set (d := rnd64 (1 - q)) in *. pose proof (err32_unit _ Hd') as Ec. pose proof (rnd32_unit _ Hd') as Hc.
  assert (0 <= rnd32 d * 100000000 <= 100000000) as Hp by lra.
  pose proof (err32_scaled _ Hp) as Ep. pose proof (rnd32_scaled _ Hp) as Hp'.
  unfold cost_real. fold q d. pose proof (Ztrunc_err _ (proj1 Hp')) as Et.
  set (c := rnd32 d) in *. set (p := rnd32 (c * 100000000)) in *.
  apply Rabs_le_inv in Eq, Ed, Ec, Ep. lra.
Qed.

(** The largest float. *)
Lemma flt_max_finite : is_finite flt_max = true.
Proof. reflexivity. Qed.
Lemma flt_max_value : B2R flt_max = 16777215 * bpow radix2 104.
Proof. reflexivity. Qed.
Lemma flt_max_lower : bpow radix2 127 <= B2R flt_max.
Proof.
  rewrite flt_max_value. replace 127%Z with (23 + 104)%Z by reflexivity. rewrite bpow_plus.
  apply Rmult_le_compat_r; [apply bpow_ge_0|]. cbn. lra.
Qed.
Lemma flt_max_upper (x : f32) : B2R x <= B2R flt_max.
Proof.
  rewrite flt_max_value. eapply Rle_trans; [apply Rle_abs|].
  eapply Rle_trans; [apply (abs_B2R_le_emax_minus_prec 24 128 prec32)|].
  replace 128%Z with (24 + 104)%Z at 1 by reflexivity. rewrite bpow_plus.
  replace (128 - 24)%Z with 104%Z by reflexivity. cbn [bpow]. 
  pose proof (bpow_ge_0 radix2 104). cbn. lra.
Qed.

(** Relative to the largest float every ordinary score looks like zero. *)
Lemma cost_of_missing m : 0 < m -> cost_real m m = 0%Z.
Proof.
  intros Hm. unfold cost_real. replace (m / m) with 1 by (field; lra).
  rewrite (rnd32_id 1 format32_1). replace (1 - 1) with 0 by lra.
  rewrite rnd64_0, rnd32_0, Rmult_0_l, rnd32_0. apply (Ztrunc_IZR 0).
Qed.

Lemma rnd32_near_one x : 1 - bpow radix2 (-26) <= x <= 1 -> rnd32 x = 1.
Proof.
  intros Hx. apply Rle_antisym; [rewrite <- (rnd32_id 1 format32_1); apply rnd32_le; lra|].
  destruct (Rle_lt_dec 1 (rnd32 x)) as [H|H]; [exact H|exfalso].
  (* a float below 1 is at most 1 - 2^-24 *)
  assert (rnd32 x <= 1 - bpow radix2 (-24)) as Hle.
  { assert (format32 (rnd32 x)) as Hf by (apply generic_format_round; typeclasses eauto).
    pose proof (pred_ge_gt radix2 fexp32 (rnd32 x) 1 Hf format32_1 H) as Hp.
    replace (pred radix2 fexp32 1) with (1 - bpow radix2 (-24)) in Hp; [exact Hp|].
    change 1 with (bpow radix2 0) at 2. rewrite pred_bpow by typeclasses eauto. reflexivity. }
  pose proof (err32_unit x) as He. 
  assert (0 <= x <= 1) as Hx' by (cbn in Hx; lra). specialize (He Hx'). apply Rabs_le_inv in He.
  cbn in *. lra.
Qed.

Lemma cost_of_ordinary s : 0 <= s <= bpow radix2 100 -> cost_real s (B2R flt_max) = 100000000%Z.
Proof.
  intros Hs. pose proof flt_max_lower as HM. set (M := B2R flt_max) in *.
  assert (0 < bpow radix2 100) as B100 by apply bpow_gt_0.
  assert (bpow radix2 100 < bpow radix2 127) as Hlt by (apply bpow_lt; lia).
  assert (0 < M) as PM by lra.
  assert (0 <= s / M <= bpow radix2 (-27)) as Hq.
  { split; [apply Rmult_le_pos; [lra|left; apply Rinv_0_lt_compat; lra]|].
    apply Rmult_le_reg_r with M; [exact PM|]. unfold Rdiv. rewrite Rmult_assoc, Rinv_l, Rmult_1_r by lra.
    eapply Rle_trans; [apply Hs|]. apply Rle_trans with (bpow radix2 (-27) * bpow radix2 127).
    - rewrite <- bpow_plus. apply Rle_refl.
    - apply Rmult_le_compat_l; [apply bpow_ge_0|exact HM]. }
  assert (format32 (bpow radix2 (-27))) as Hf27.
  { rewrite <- (Rmult_1_l (bpow radix2 (-27))). apply format32_int; lia. }
  assert (0 <= rnd32 (s / M) <= bpow radix2 (-27)) as Hq'.
  { split; [rewrite <- rnd32_0|rewrite <- (rnd32_id _ Hf27)]; apply rnd32_le; apply Hq. }
  set (q := rnd32 (s / M)) in *.
  assert (bpow radix2 (-27) = / 134217728) as B27 by (cbn; lra).
  assert (bpow radix2 (-26) = / 67108864) as B26 by (cbn; lra).
  assert (0 <= 1 - q <= 1) as Hd by lra.
  pose proof (err64_unit _ Hd) as Ed. pose proof (rnd64_unit _ Hd) as Hd'. apply Rabs_le_inv in Ed.
  unfold cost_real. fold q. rewrite (rnd32_near_one (rnd64 (1 - q))).
  - rewrite Rmult_1_l, (rnd32_id _ format32_1e8). apply (Ztrunc_IZR 100000000).
  - rewrite B26. lra.
Qed.
