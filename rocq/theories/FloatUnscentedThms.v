(** The unscented weights and means in single precision. *)
From Coq Require Import ZArith Reals Lra Lia Bool List Permutation.
From Flocq Require Import Core IEEE754.BinarySingleNaN.
From Flocq Require Import Relative Mult_error.
From Verif Require Import Base Float FloatProofs DoubleThms FloatDistance FloatDistanceThms FloatWeight FloatWeightThms
  FloatUnscented.
Import ListNotations.
Open Scope R_scope.

Lemma int32_value z : (Z.abs z < 2 ^ 24)%Z -> B2R (f32_of_Z z) = IZR z /\ is_finite (f32_of_Z z) = true.
Proof.
  intros H.
  generalize (binary_normalize_correct 24 128 _ _ mode_NE z 0 false). cbv zeta.
  change (round_mode mode_NE) with ZnearestE.
  fold (rnd32 (F2R (Float radix2 z 0))). unfold F2R. cbn [Fnum Fexp].
  rewrite rnd32_id by (apply format32_int; [assumption|lia]).
  change (bpow radix2 0) with 1. rewrite Rmult_1_r.
  rewrite Rlt_bool_true; [unfold f32_of_Z; tauto|].
  rewrite <- abs_IZR. apply Rlt_trans with (IZR (2 ^ 24)); [now apply IZR_lt|].
  change (IZR (2 ^ 24)) with (bpow radix2 24). apply bpow_lt. lia.
Qed.

(** ** Small alpha: nothing is left of the scaling *)
Definition infinite (x : f32) : Prop := exists s, x = B754_infinity s.
Lemma small_sum (n : Z) (t : f32) : n = 5%Z \/ n = 6%Z -> is_finite t = true -> 0 <= B2R t < / 4194304 ->
  B2R (f32_sub t (f32_of_Z n)) = - IZR n /\ is_finite (f32_sub t (f32_of_Z n)) = true.
Proof.
  intros Hn Ft Ht.
  assert (Bn : 5 <= IZR n <= 6) by (destruct Hn; subst; lra).
  destruct (int32_value n) as [En Fn]; [destruct Hn; subst; reflexivity|].
  destruct (sub32_value t (f32_of_Z n) 3) as [E F]; try assumption; [lia| |].
  { rewrite En. change (bpow radix2 3) with 8. apply Rabs_le. lra. }
  split; [|exact F]. rewrite E, En.
  replace (B2R t - IZR n) with (- (IZR n - B2R t)) by ring.
  unfold rnd32. rewrite round_NE_opp. f_equal.
  replace (IZR n) with (IZR (n * 2 ^ 21) * bpow radix2 (-21)) at 2.
  - apply snap; [destruct Hn; subst; lia|lia|].
    replace (IZR n - B2R t - IZR (n * 2 ^ 21) * bpow radix2 (-21)) with (- B2R t).
    + rewrite Rabs_Ropp, Rabs_pos_eq by lra. change (bpow radix2 (-21)) with (/ 2097152). lra.
    + rewrite mult_IZR. change (IZR (2 ^ 21)) with 2097152. change (bpow radix2 (-21)) with (/ 2097152). field.
  - rewrite mult_IZR. change (IZR (2 ^ 21)) with 2097152. change (bpow radix2 (-21)) with (/ 2097152). field.
Qed.

Lemma lambda_small (n : Z) (alpha kappa : f32) : n = 5%Z \/ n = 6%Z ->
  is_finite alpha = true -> is_finite kappa = true ->
  Rabs (B2R alpha) <= / 8192 -> 0 <= IZR n + B2R kappa <= 8 ->
  B2R (generate_lambda32 n alpha kappa) = - IZR n /\ is_finite (generate_lambda32 n alpha kappa) = true.
Proof.
  intros Hn Fa Fk Ha Hk.
  destruct (int32_value n) as [En Fn]; [destruct Hn; subst; reflexivity|].
  assert (Sa : 0 <= B2R alpha * B2R alpha <= / 67108864).
  { split; [apply Rle_0_sqr|]. replace (/ 67108864) with (/ 8192 * / 8192) by lra.
    rewrite <- (Rabs_pos_eq (B2R alpha * B2R alpha)) by apply Rle_0_sqr. rewrite Rabs_mult.
    apply Rmult_le_compat; try apply Rabs_pos; assumption. }
  destruct (mul32_value alpha alpha (-26)) as [Eaa Faa]; try assumption; [lia| |].
  { rewrite Rabs_pos_eq by lra. change (bpow radix2 (-26)) with (/ 67108864). lra. }
  destruct (add32_value (f32_of_Z n) kappa 3) as [Es Fs]; try assumption; [lia| |].
  { rewrite En. rewrite Rabs_pos_eq by lra. change (bpow radix2 3) with 8. lra. }
  assert (Baa : 0 <= B2R (f32_mul alpha alpha) <= / 67108864).
  { rewrite Eaa. split; [now apply rnd32_pos|].
    pose proof (rnd32_bound (B2R alpha * B2R alpha) (-26)) as B.
    change (bpow radix2 (-26)) with (/ 67108864) in B.
    eapply Rle_trans; [apply Rle_abs|]. apply B; [lia|]. rewrite Rabs_pos_eq; lra. }
  assert (Bs : 0 <= B2R (f32_add (f32_of_Z n) kappa) <= 8).
  { rewrite Es, En. split; [now apply rnd32_pos|].
    pose proof (rnd32_bound (IZR n + B2R kappa) 3) as B. change (bpow radix2 3) with 8 in B.
    eapply Rle_trans; [apply Rle_abs|]. apply B; [lia|]. rewrite Rabs_pos_eq; lra. }
  set (a := f32_mul alpha alpha) in *. set (s := f32_add (f32_of_Z n) kappa) in *.
  assert (Bas : 0 <= B2R a * B2R s <= / 8388608) by nra.
  destruct (mul32_value a s (-23)) as [Et Ft]; try assumption; [lia| |].
  { rewrite Rabs_pos_eq by lra. change (bpow radix2 (-23)) with (/ 8388608). lra. }
  assert (Bt : 0 <= B2R (f32_mul a s) < / 4194304).
  { rewrite Et. split; [now apply rnd32_pos|].
    pose proof (rnd32_bound (B2R a * B2R s) (-23)) as B. change (bpow radix2 (-23)) with (/ 8388608) in B.
    eapply Rle_lt_trans; [apply Rle_abs|]. eapply Rle_lt_trans; [apply B; [lia|]|lra]. rewrite Rabs_pos_eq; lra. }
  unfold generate_lambda32. fold s a. now apply small_sum.
Qed.

Lemma lambda_exact (n : Z) (l : f32) : n = 5%Z \/ n = 6%Z -> is_finite l = true -> B2R l = - IZR n ->
  l = Bopp (f32_of_Z n).
Proof.
  intros Hn F E. destruct (int32_value n) as [En Fn]; [destruct Hn; subst; reflexivity|].
  apply B2R_Bsign_inj; [exact F|now rewrite is_finite_Bopp| |].
  - now rewrite B2R_Bopp, En.
  - rewrite Bsign_Bopp by (destruct Hn; subst; reflexivity).
    assert (N : B2R l < 0) by (rewrite E; destruct Hn; subst; lra).
    replace (Bsign (f32_of_Z n)) with false by (destruct Hn; subst; reflexivity). cbn.
    destruct l as [s|s| |s m e Hb]; try discriminate; [cbn in N; lra|].
    destruct s; [reflexivity|]. exfalso.
    assert (0 < B2R (B754_finite false m e Hb)) by (apply F2R_gt_0; reflexivity). lra.
Qed.

Lemma weights_small (n : Z) : n = 5%Z \/ n = 6%Z ->
  wm_0_32 n (Bopp (f32_of_Z n)) = B754_infinity true /\ wm_i_32 n (Bopp (f32_of_Z n)) = B754_infinity false.
Proof. intros [->| ->]; split; vm_compute; reflexivity. Qed.

Lemma wc_small (n : Z) (alpha beta : f32) : n = 5%Z \/ n = 6%Z -> is_finite alpha = true -> is_finite beta = true ->
  Rabs (B2R alpha) <= 1 -> Rabs (B2R beta) <= bpow radix2 100 ->
  wc_0_32 n alpha beta (Bopp (f32_of_Z n)) = B754_infinity true.
Proof.
  intros Hn Fa Fb Ha Hb. unfold wc_0_32.
  replace (f32_div (Bopp (f32_of_Z n)) (f32_add (f32_of_Z n) (Bopp (f32_of_Z n)))) with (B754_infinity true : f32)
    by (destruct Hn; subst; vm_compute; reflexivity).
  destruct (int32_value 1) as [E1 F1]; [reflexivity|].
  assert (P100 : 4 <= bpow radix2 100) by (change 4 with (bpow radix2 2); apply bpow_le; lia).
  assert (Haa : Rabs (B2R alpha * B2R alpha) <= 1).
  { rewrite Rabs_mult. replace 1 with (1 * 1) by ring. apply Rmult_le_compat; try apply Rabs_pos; assumption. }
  destruct (mul32_value alpha alpha 0) as [Eaa Faa]; try assumption; [lia|].
  assert (Baa : Rabs (B2R (f32_mul alpha alpha)) <= 1) by (rewrite Eaa; apply (rnd32_bound _ 0); [lia|assumption]).
  destruct (sub32_value (f32_of_Z 1) (f32_mul alpha alpha) 1) as [Es Fs]; try assumption; [lia| |].
  { rewrite E1. change (bpow radix2 1) with 2. revert Baa. unfold Rabs at 1. destruct Rcase_abs; intros; apply Rabs_le; lra. }
  assert (Bs : Rabs (B2R (f32_sub (f32_of_Z 1) (f32_mul alpha alpha))) <= 2).
  { rewrite Es. apply (rnd32_bound _ 1); [lia|]. rewrite E1. change (bpow radix2 1) with 2.
    apply Rabs_le_inv in Baa. apply Rabs_le; lra. }
  destruct (add32_value (f32_sub (f32_of_Z 1) (f32_mul alpha alpha)) beta 101) as [_ Ft]; try assumption; [lia| |].
  { change 101%Z with (1 + 100)%Z. rewrite bpow_plus. change (bpow radix2 1) with 2.
    eapply Rle_trans; [apply Rabs_triang|]. lra. }
  revert Ft. generalize (f32_add (f32_sub (f32_of_Z 1) (f32_mul alpha alpha)) beta). intros x Fx.
  destruct x; try discriminate; reflexivity.
Qed.

Lemma mul_infinite (s : bool) (x : f32) : is_finite (f32_mul (B754_infinity s) x) = false.
Proof. destruct x; reflexivity. Qed.
Lemma add_infinite (x y : f32) : is_finite x = false -> is_finite y = false -> is_finite (f32_add x y) = false.
Proof. destruct x as [|[]| |], y as [|[]| |]; try discriminate; reflexivity. Qed.
Lemma sum_infinite t p : (forall i, is_finite (p i) = false) -> is_finite (sum32 t p) = false.
Proof. intros H. induction t; cbn; [apply H|now apply add_infinite]. Qed.

(** ** Accuracy *)
Lemma rnd32_big x : bpow radix2 (-126) <= Rabs x -> exists eps, Rabs eps <= u32 /\ rnd32 x = x * (1 + eps).
Proof.
  intros H.
  destruct (relative_error_N_FLT_ex radix2 (-149) 24 eq_refl (fun n => negb (Z.even n)) x H) as (e & He & E).
  exists e. split; [now rewrite u32_bpow|exact E].
Qed.
Lemma eps_bound e : Rabs e <= u32 -> -u32 <= e <= u32.
Proof. apply Rabs_le_inv. Qed.

Lemma div32_value (x y : f32) k : (-149 <= k <= 127)%Z -> is_finite x = true -> B2R y <> 0 ->
  Rabs (B2R x / B2R y) <= bpow radix2 k ->
  B2R (f32_div x y) = rnd32 (B2R x / B2R y) /\ is_finite (f32_div x y) = true.
Proof.
  intros Hk Fx Hy H. pose proof (Bdiv_correct 24 128 _ _ mode_NE x y Hy) as C.
  rewrite (no_overflow _ k Hk H), Fx in C. unfold f32_div. tauto.
Qed.
Lemma half64_value : B2R half64 = / 2 /\ is_finite half64 = true.
Proof. destruct (value_of_normal 1 (-1)) as [E F]; try (cbn; lia). unfold half64. rewrite E. split; [cbn; lra|exact F]. Qed.
Lemma half_fmt x : format32 x -> bpow radix2 (-124) <= Rabs x -> format32 (x * bpow radix2 (-1)).
Proof.
  intros F H. apply (mult_bpow_exact_FLT radix2 (-149) 24); [exact F|].
  assert (M : (-123 <= mag radix2 x)%Z).
  { apply (mag_ge_bpow radix2 x (-123)). exact H. }
  lia.
Qed.
Lemma half_value (x : f32) : is_finite x = true -> bpow radix2 (-124) <= Rabs (B2R x) ->
  B2R (f32_of_f64 (Bmult mode_NE half64 (f64_of_f32 x))) = B2R x / 2 /\
  is_finite (f32_of_f64 (Bmult mode_NE half64 (f64_of_f32 x))) = true.
Proof.
  intros Fx Hx. destruct half64_value as [Eh Fh]. destruct (conv64 x Fx) as [Ex Fx'].
  pose proof (abs_B2R_lt_emax 24 128 x) as Lx.
  assert (Ff : format32 (B2R x * bpow radix2 (-1))) by (apply half_fmt; [apply fmtB|exact Hx]).
  change (bpow radix2 (-1)) with (/ 2) in Ff.
  assert (F64 : format64 (/ 2 * B2R x)).
  { rewrite Rmult_comm. eapply (generic_inclusion_mag radix2 fexp32 fexp64); [|exact Ff].
    intros _. unfold SpecFloat.fexp, SpecFloat.emin. lia. }
  pose proof (Bmult_correct 53 1024 _ _ mode_NE half64 (f64_of_f32 x)) as C.
  rewrite Eh, Ex, Fh, Fx' in C.
  change (round radix2 fexp64 (round_mode mode_NE) (/ 2 * B2R x)) with (rnd64 (/ 2 * B2R x)) in C.
  rewrite rnd64_id in C by exact F64.
  assert (A2 : Rabs (/ 2 * B2R x) < bpow radix2 127).
  { rewrite Rabs_mult, (Rabs_pos_eq (/ 2)) by lra.
    assert (P : bpow radix2 128 = 2 * bpow radix2 127) by (change 128%Z with (1 + 127)%Z; now rewrite bpow_plus).
    rewrite P in Lx. lra. }
  rewrite Rlt_bool_true in C.
  2:{ eapply Rlt_trans; [exact A2|apply bpow_lt; lia]. }
  destruct C as (Em & Fm & _). cbn [andb] in Fm.
  destruct (conv32_value (Bmult mode_NE half64 (f64_of_f32 x)) 127) as [E F]; [lia|exact Fm|rewrite Em; lra|].
  split; [|exact F]. rewrite E, Em, rnd32_id; [lra|]. rewrite Rmult_comm. exact Ff.
Qed.

(** The scaling n + lambda *)
Lemma lambda_accurate (n : Z) (alpha kappa : f32) : n = 5%Z \/ n = 6%Z ->
  is_finite alpha = true -> is_finite kappa = true ->
  bpow radix2 (-40) <= Rabs (B2R alpha) <= bpow radix2 40 ->
  let q := B2R alpha * B2R alpha * (IZR n + B2R kappa) in
  bpow radix2 (-20) <= q <= bpow radix2 20 ->
  let l := generate_lambda32 n alpha kappa in let c := f32_add (f32_of_Z n) l in
  is_finite l = true /\ is_finite c = true /\ Rabs (B2R c - q) <= u32 * (IZR n + 6 * q) /\
  exists e, Rabs e <= u32 /\ B2R c = (IZR n + B2R l) * (1 + e).
Proof.
  intros Hn Fa Fk Ha q Hq l c.
  assert (Bn : 5 <= IZR n <= 6) by (destruct Hn; subst; lra).
  destruct (int32_value n) as [En Fn]; [destruct Hn; subst; reflexivity|].
  set (a := B2R alpha) in *. set (k := IZR n + B2R kappa) in *.
  assert (A2 : bpow radix2 (-80) <= a * a <= bpow radix2 80).
  { change (-80)%Z with (-40 + -40)%Z. change 80%Z with (40 + 40)%Z. rewrite !bpow_plus.
    rewrite <- (Rabs_pos_eq (a * a)) by apply Rle_0_sqr. rewrite Rabs_mult.
    pose proof (bpow_ge_0 radix2 (-40)). pose proof (Rabs_pos a).
    split; apply Rmult_le_compat; lra. }
  pose proof (bpow_gt_0 radix2 (-80)) as P80.
  assert (Pq : 0 < q) by (pose proof (bpow_gt_0 radix2 (-20)); lra).
  assert (Pk : 0 < k) by (unfold q in Pq; nra).
  assert (Uk : k <= bpow radix2 100).
  { apply Rmult_le_reg_l with (bpow radix2 (-80)); [exact P80|]. rewrite <- bpow_plus. change (-80 + 100)%Z with 20%Z.
    apply Rle_trans with q; [|lra]. unfold q. apply Rmult_le_compat_r; lra. }
  destruct (mul32_value alpha alpha 80) as [Eaa Faa]; try assumption; [lia| |].
  { fold a. rewrite Rabs_pos_eq; lra. }
  destruct (add32_value (f32_of_Z n) kappa 100) as [Es Fs]; try assumption; [lia| |].
  { rewrite En. fold k. rewrite Rabs_pos_eq; lra. }
  rewrite En in Es. fold a in Eaa. fold k in Es.
  destruct (rnd32_big (a * a)) as (e1 & He1 & E1).
  { rewrite Rabs_pos_eq by lra. apply Rle_trans with (bpow radix2 (-80)); [apply bpow_le; lia|lra]. }
  destruct (rnd32_add (IZR n) (B2R kappa)) as (e2 & He2 & E2).
  { rewrite <- En. apply fmtB. } { apply fmtB. }
  fold k in E2. rewrite E1 in Eaa. rewrite E2 in Es.
  apply eps_bound in He1, He2.
  assert (Q1 : B2R (f32_mul alpha alpha) * B2R (f32_add (f32_of_Z n) kappa) = q * ((1 + e1) * (1 + e2))).
  { rewrite Eaa, Es. unfold q. ring. }
  assert (G12 : 1 - 2 * u32 <= (1 + e1) * (1 + e2) <= 1 + 2.0001 * u32) by (unfold u32 in *; nra).
  set (g := (1 + e1) * (1 + e2)) in *.
  assert (Bq20 : bpow radix2 (-20) = / 1048576) by (cbn; lra).
  assert (Bq20' : bpow radix2 20 = 1048576) by (cbn; lra).
  rewrite Bq20, Bq20' in Hq.
  assert (Q2 : / 2097152 <= q * g <= 2097152) by (unfold u32 in *; nra).
  destruct (mul32_value (f32_mul alpha alpha) (f32_add (f32_of_Z n) kappa) 21) as [Et Ft]; try assumption; [lia| |].
  { rewrite Q1, Rabs_pos_eq by lra. replace (bpow radix2 21) with 2097152 by (cbn; lra). lra. }
  rewrite Q1 in Et.
  destruct (rnd32_big (q * g)) as (e3 & He3 & E3).
  { rewrite Rabs_pos_eq by lra. apply Rle_trans with (bpow radix2 (-21)); [apply bpow_le; lia|].
    replace (bpow radix2 (-21)) with (/ 2097152) by (cbn; lra). lra. }
  rewrite E3 in Et. apply eps_bound in He3.
  set (t := f32_mul (f32_mul alpha alpha) (f32_add (f32_of_Z n) kappa)) in *.
  assert (T : Rabs (B2R t - q) <= 3.001 * u32 * q).
  { rewrite Et. replace (q * g * (1 + e3) - q) with (q * (g * (1 + e3) - 1)) by ring.
    rewrite Rabs_mult, Rabs_pos_eq by lra. rewrite Rmult_comm. apply Rmult_le_compat_r; [lra|].
    apply Rabs_le. unfold u32 in *. nra. }
  apply Rabs_le_inv in T.
  assert (Bt : 0 < B2R t <= 4194304) by (unfold u32 in *; nra).
  destruct (sub32_value t (f32_of_Z n) 23) as [El Fl]; try assumption; [lia| |].
  { rewrite En. replace (bpow radix2 23) with 8388608 by (cbn; lra). apply Rabs_le; lra. }
  fold (generate_lambda32 n alpha kappa) in El, Fl.
  change (f32_sub t (f32_of_Z n)) with l in El, Fl.
  destruct (rnd32_add (B2R t) (- IZR n)) as (e4 & He4 & E4).
  { apply fmtB. } { apply generic_format_opp. rewrite <- En. apply fmtB. }
  change (B2R t + - IZR n) with (B2R t - IZR n) in E4. rewrite En, E4 in El. apply eps_bound in He4.
  assert (Bl : - 7 <= B2R l <= 8388608) by (rewrite El; unfold u32 in *; nra).
  destruct (add32_value (f32_of_Z n) l 24) as [Ec Fc]; try assumption; [lia| |].
  { rewrite En. replace (bpow radix2 24) with 16777216 by (cbn; lra). apply Rabs_le; lra. }
  destruct (rnd32_add (IZR n) (B2R l)) as (e5 & He5 & E5).
  { rewrite <- En. apply fmtB. } { apply fmtB. }
  rewrite En, E5 in Ec. fold c in Ec, Fc.
  split; [exact Fl|]. split; [exact Fc|]. split; [|exists e5; split; assumption].
  apply eps_bound in He5.
  assert (D : Rabs (IZR n + B2R l - B2R t) <= u32 * (IZR n + B2R t)).
  { rewrite El. replace (IZR n + (B2R t - IZR n) * (1 + e4) - B2R t) with (e4 * (B2R t - IZR n)) by ring.
    rewrite Rabs_mult. apply Rmult_le_compat; try apply Rabs_pos; apply Rabs_le; lra. }
  apply Rabs_le_inv in D.
  rewrite Ec. set (m := IZR n + B2R l) in *.
  assert (M : Rabs (m - q) <= u32 * (IZR n + 4.01 * q)) by (apply Rabs_le; unfold u32 in *; nra).
  apply Rabs_le_inv in M.
  assert (M' : Rabs m <= q + u32 * (IZR n + 4.01 * q)) by (apply Rabs_le; unfold u32 in *; lra).
  assert (D2 : Rabs (m * e5) <= u32 * (q + u32 * (IZR n + 4.01 * q))).
  { rewrite Rabs_mult, Rmult_comm. apply Rmult_le_compat; try apply Rabs_pos; [now apply Rabs_le|exact M']. }
  apply Rabs_le_inv in D2. replace (m * (1 + e5) - q) with ((m - q) + m * e5) by ring.
  apply Rabs_le. unfold u32 in *. lra.
Qed.

Lemma weights_real (n l c q w0 wi d1 d2 e h : R) : 5 <= n <= 6 -> / 1048576 <= q <= 1048576 ->
  Rabs (c - q) <= u32 * (n + 6 * q) -> c = (n + l) * (1 + e) -> Rabs e <= u32 -> Rabs d1 <= u32 -> Rabs d2 <= u32 ->
  Rabs h <= u32 * u32 -> w0 = l / c * (1 + d1) + h -> wi = 1 / c * (1 + d2) / 2 ->
  Rabs (w0 + 2 * n * wi - 1) <= u32 * (3 + 4 * n / q) /\
  Rabs (wi - / (2 * q)) <= / (2 * q) * (u32 * (14 + 2 * n / q)).
Proof.
  intros Bn Bq C Ec He H1 H2 Hh E0 Ei.
  apply Rabs_le_inv in C. apply eps_bound in He, H1, H2. apply Rabs_le_inv in Hh.
  assert (Pc : q / 2 <= c) by (unfold u32 in *; lra).
  assert (Pc0 : 0 < c) by lra.
  set (r := / c). assert (Rc : r * c = 1) by (unfold r; field; lra).
  set (s := / q). assert (Sq : s * q = 1) by (unfold s; field; lra).
  assert (Pr : 0 < r) by (apply Rinv_0_lt_compat; lra).
  assert (Ps : 0 < s) by (apply Rinv_0_lt_compat; lra).
  assert (Rs : r <= 2 * s).
  { unfold r, s. replace (2 * / q) with (/ (q / 2)) by (field; lra). apply Rinv_le_contravar; lra. }
  assert (M : (n + l) * r = / (1 + e)).
  { apply Rmult_eq_reg_r with (1 + e); [|unfold u32 in *; lra]. rewrite Rinv_l by (unfold u32 in *; lra).
    transitivity (r * c); [rewrite Ec; ring|exact Rc]. }
  assert (Ie : Rabs (/ (1 + e) - 1) <= 1.001 * u32).
  { replace (/ (1 + e) - 1) with (- e * / (1 + e)) by (field; unfold u32 in *; lra).
    assert (I : 0 < / (1 + e) <= 1.001).
    { split; [apply Rinv_0_lt_compat; unfold u32 in *; lra|].
      replace 1.001 with (/ (1000 / 1001)) by lra. apply Rinv_le_contravar; unfold u32 in *; lra. }
    rewrite Rabs_mult, (Rabs_pos_eq (/ _)) by lra. rewrite (Rmult_comm 1.001).
    apply Rmult_le_compat; [apply Rabs_pos|lra| |lra]. apply Rabs_le. lra. }
  apply Rabs_le_inv in Ie. rewrite <- M in Ie.
  split.
  - assert (L : Rabs (l * r) <= 1.01 + n * r).
    { replace (l * r) with ((n + l) * r - n * r) by ring. assert (0 <= n * r) by (apply Rmult_le_pos; lra).
      apply Rabs_le. unfold u32 in *. lra. }
    assert (L1 : Rabs (l * r * d1) <= (1.01 + n * r) * u32).
    { rewrite Rabs_mult. apply Rmult_le_compat; try apply Rabs_pos; [exact L|now apply Rabs_le]. }
    assert (L2 : Rabs (n * r * d2) <= (n * r) * u32).
    { rewrite Rabs_mult, (Rabs_pos_eq (n * r)) by (apply Rmult_le_pos; lra).
      apply Rmult_le_compat_l; [apply Rmult_le_pos; lra|now apply Rabs_le]. }
    apply Rabs_le_inv in L1, L2.
    replace (w0 + 2 * n * wi - 1) with (l * r * d1 + n * r * d2 + h + ((n + l) * r - 1))
      by (rewrite E0, Ei; unfold r; field; lra).
    assert (N : n * r <= 2 * (n * s)) by nra.
    replace (4 * n / q) with (4 * (n * s)) by (unfold s; field; lra).
    apply Rabs_le. unfold u32 in *. lra.
  - replace (/ (2 * q)) with (s / 2) by (unfold s; field; lra).
    replace (wi - s / 2) with ((s * (r * (q - c)) + r * d2) / 2).
    2:{ rewrite Ei. unfold s, r. field; lra. }
    replace (2 * n / q) with (2 * n * s) by (unfold s; field; lra).
    assert (D : Rabs (r * (q - c)) <= 2 * s * (u32 * (n + 6 * q))).
    { rewrite Rabs_mult, (Rabs_pos_eq r) by lra. apply Rmult_le_compat; [lra|apply Rabs_pos|exact Rs|apply Rabs_le; lra]. }
    replace (2 * s * (u32 * (n + 6 * q))) with (u32 * (12 + 2 * n * s)) in D
      by (replace 12 with (12 * (s * q)) by (rewrite Sq; ring); ring).
    assert (D1 : Rabs (s * (r * (q - c))) <= s * (u32 * (12 + 2 * n * s))).
    { rewrite Rabs_mult, (Rabs_pos_eq s) by lra. apply Rmult_le_compat_l; lra. }
    assert (D2 : Rabs (r * d2) <= 2 * s * u32).
    { rewrite Rabs_mult, (Rabs_pos_eq r) by lra. apply Rmult_le_compat; [lra|apply Rabs_pos|exact Rs|now apply Rabs_le]. }
    apply Rabs_le_inv in D1, D2. apply Rabs_le. lra.
Qed.

Lemma weights_accurate (n : Z) (alpha kappa : f32) : n = 5%Z \/ n = 6%Z ->
  is_finite alpha = true -> is_finite kappa = true ->
  bpow radix2 (-40) <= Rabs (B2R alpha) <= bpow radix2 40 ->
  let q := B2R alpha * B2R alpha * (IZR n + B2R kappa) in
  bpow radix2 (-20) <= q <= bpow radix2 20 ->
  let l := generate_lambda32 n alpha kappa in
  is_finite (wm_0_32 n l) = true /\ is_finite (wm_i_32 n l) = true /\
  Rabs (B2R (wm_0_32 n l) + 2 * IZR n * B2R (wm_i_32 n l) - 1) <= u32 * (3 + 4 * IZR n / q) /\
  Rabs (B2R (wm_i_32 n l) - / (2 * q)) <= / (2 * q) * (u32 * (14 + 2 * IZR n / q)).
Proof.
  intros Hn Fa Fk Ha q Hq l.
  destruct (lambda_accurate n alpha kappa Hn Fa Fk Ha Hq) as (Fl & Fc & Hc & e & He & Ec).
  fold q in Hc. fold l in Fl, Fc, Hc, Ec. set (c := f32_add (f32_of_Z n) l) in *.
  assert (Bn : 5 <= IZR n <= 6) by (destruct Hn; subst; lra).
  destruct (int32_value 1) as [E1 F1]; [reflexivity|].
  assert (Bq20 : bpow radix2 (-20) = / 1048576) by (cbn; lra).
  assert (Bq20' : bpow radix2 20 = 1048576) by (cbn; lra).
  fold q in Hq. rewrite Bq20, Bq20' in Hq.
  pose proof (Rabs_le_inv _ _ Hc) as C. pose proof (eps_bound _ He) as Be.
  assert (Pc : / 2097152 <= B2R c <= 2097152) by (unfold u32 in *; lra).
  assert (Ic : / 2097152 <= / B2R c <= 2097152).
  { split; [apply Rinv_le_contravar; lra|]. replace 2097152 with (/ / 2097152) by lra. apply Rinv_le_contravar; lra. }
  assert (Bl : Rabs (B2R l) <= 4194304).
  { assert (- 4194000 <= IZR n + B2R l <= 4194000) by (unfold u32 in *; nra). apply Rabs_le. lra. }
  destruct (div32_value l c 50) as [E0 F0]; try assumption; [lia|lra| |].
  { unfold Rdiv. rewrite Rabs_mult, (Rabs_pos_eq (/ _)) by lra.
    replace (bpow radix2 50) with (4194304 * 268435456) by (cbn; lra).
    apply Rmult_le_compat; [apply Rabs_pos|lra|exact Bl|lra]. }
  assert (A1 : Rabs (1 / B2R c) = / B2R c) by (unfold Rdiv; rewrite Rmult_1_l; apply Rabs_pos_eq; lra).
  destruct (div32_value (f32_of_Z 1) c 21) as [Ei Fi]; try assumption; [lia|lra| |].
  { rewrite E1, A1. replace (bpow radix2 21) with 2097152 by (cbn; lra). lra. }
  rewrite E1 in Ei.
  destruct (rnd32_rel (B2R l / B2R c)) as (d1 & h & H1 & Hh & R1).
  destruct (rnd32_big (1 / B2R c)) as (d2 & H2 & R2).
  { rewrite A1. apply Rle_trans with (bpow radix2 (-21)); [apply bpow_le; lia|].
    replace (bpow radix2 (-21)) with (/ 2097152) by (cbn; lra). lra. }
  rewrite R1 in E0. rewrite R2 in Ei.
  assert (Bi : / 4194304 <= 1 / B2R c * (1 + d2)).
  { apply eps_bound in H2. unfold Rdiv. rewrite Rmult_1_l. unfold u32 in *. nra. }
  destruct (half_value (f32_div (f32_of_Z 1) c) Fi) as [Eh Fh].
  { rewrite Ei, Rabs_pos_eq by lra. apply Rle_trans with (bpow radix2 (-22)); [apply bpow_le; lia|].
    replace (bpow radix2 (-22)) with (/ 4194304) by (cbn; lra). lra. }
  fold (wm_i_32 n l) in Eh, Fh. unfold c in Eh, Fh. fold (wm_i_32 n l) in Eh, Fh.
  fold c in Eh. rewrite Ei in Eh.
  split; [exact F0|]. split; [exact Fh|].
  assert (Hh' : Rabs h <= u32 * u32).
  { eapply Rle_trans; [exact Hh|]. apply Rle_trans with (bpow radix2 (-48)); [apply bpow_le; lia|].
    replace (bpow radix2 (-48)) with (/ 16777216 * / 16777216) by (cbn; lra). unfold u32. lra. }
  exact (weights_real (IZR n) (B2R l) (B2R c) q _ _ d1 d2 e h Bn Hq Hc Ec He H1 H2 Hh' E0 Eh).
Qed.

(** ** Weighted means *)
(** The sum of [f i] over the list *)
Fixpoint total (f : nat -> R) (l : list nat) : R := match l with [] => 0 | i :: l' => f i + total f l' end.
Lemma total_app f l m : total f (l ++ m) = total f l + total f m.
Proof. induction l as [|i l IH]; cbn; [ring|rewrite IH; ring]. Qed.
Lemma total_perm f l m : Permutation l m -> total f l = total f m.
Proof. induction 1; cbn; lra. Qed.
Lemma total_nonneg f l : (forall i, In i l -> 0 <= f i) -> 0 <= total f l.
Proof.
  intros H. induction l as [|i l IH]; cbn; [lra|].
  assert (0 <= f i) by (apply H; now left). assert (0 <= total f l) by (apply IH; intros; apply H; now right). lra.
Qed.
Lemma total_le f g l : (forall i, In i l -> f i <= g i) -> total f l <= total g l.
Proof.
  intros H. induction l as [|i l IH]; cbn; [lra|].
  assert (f i <= g i) by (apply H; now left). assert (total f l <= total g l) by (apply IH; intros; apply H; now right). lra.
Qed.
Lemma total_ext f g l : (forall i, In i l -> f i = g i) -> total f l = total g l.
Proof. intros H. apply Rle_antisym; apply total_le; intros i Hi; rewrite (H i Hi); lra. Qed.
Lemma total_scale c f l : total (fun i => c * f i) l = c * total f l.
Proof. induction l as [|i l IH]; cbn; [ring|rewrite IH; ring]. Qed.
Lemma total_plus f g l : total (fun i => f i + g i) l = total f l + total g l.
Proof. induction l as [|i l IH]; cbn; [ring|rewrite IH; ring]. Qed.
Lemma total_const c l : total (fun _ => c) l = INR (length l) * c.
Proof. induction l as [|i l IH]; cbn [total length]; [cbn; ring|rewrite IH, S_INR; ring]. Qed.
Lemma total_abs f l : Rabs (total f l) <= total (fun i => Rabs (f i)) l.
Proof.
  induction l as [|i l IH]; cbn; [rewrite Rabs_R0; lra|]. eapply Rle_trans; [apply Rabs_triang|]. lra.
Qed.

Lemma pow_grow m k : (m <= k)%nat -> 1 <= (1 + u32) ^ m <= (1 + u32) ^ k.
Proof.
  intros H. assert (1 <= 1 + u32) by (unfold u32; lra). split; [now apply pow_R1_Rle|now apply Rle_pow].
Qed.

Lemma sum32_accurate t (p : nat -> f32) (e A : nat -> R) :
  (forall i, In i (leaves t) -> is_finite (p i) = true /\ Rabs (B2R (p i) - e i) <= u32 * A i /\ Rabs (e i) <= A i) ->
  total A (leaves t) * (1 + u32) ^ length (leaves t) <= bpow radix2 127 ->
  is_finite (sum32 t p) = true /\
  Rabs (B2R (sum32 t p) - total e (leaves t)) <= ((1 + u32) ^ length (leaves t) - 1) * total A (leaves t).
Proof.
  induction t as [i|l IHl r IHr]; cbn [leaves sum32]; intros H B.
  - destruct (H i) as (F & D & _); [now left|]. split; [exact F|]. cbn in *. rewrite !Rplus_0_r, Rmult_1_r.
    replace (1 + u32 - 1) with u32 by ring. exact D.
  - rewrite app_length in *. rewrite !total_app in *.
    assert (HA : forall i, In i (leaves l ++ leaves r) -> 0 <= A i).
    { intros i Hi. destruct (H i Hi) as (_ & _ & D). pose proof (Rabs_pos (e i)). lra. }
    assert (Al : 0 <= total A (leaves l)) by (apply total_nonneg; intros; apply HA, in_or_app; now left).
    assert (Ar : 0 <= total A (leaves r)) by (apply total_nonneg; intros; apply HA, in_or_app; now right).
    destruct (pow_grow (length (leaves l)) (length (leaves l) + length (leaves r))) as [G1 G2]; [lia|].
    destruct (pow_grow (length (leaves r)) (length (leaves l) + length (leaves r))) as [G3 G4]; [lia|].
    assert (K1 : (1 + u32) ^ S (length (leaves l)) <= (1 + u32) ^ (length (leaves l) + length (leaves r))).
    { apply pow_grow. pose proof (leaves_pos r). lia. }
    assert (K2 : (1 + u32) ^ S (length (leaves r)) <= (1 + u32) ^ (length (leaves l) + length (leaves r))).
    { apply pow_grow. pose proof (leaves_pos l). lia. }
    cbn [pow] in K1, K2.
    set (gl := (1 + u32) ^ length (leaves l)) in *. set (gr := (1 + u32) ^ length (leaves r)) in *.
    set (g := (1 + u32) ^ (length (leaves l) + length (leaves r))) in *.
    set (a := total A (leaves l)) in *. set (b := total A (leaves r)) in *.
    assert (P1 : a * gl <= a * g) by (apply Rmult_le_compat_l; lra).
    assert (P2 : b * gr <= b * g) by (apply Rmult_le_compat_l; lra).
    assert (P3 : 0 <= a * g) by (apply Rmult_le_pos; lra).
    assert (P4 : 0 <= b * g) by (apply Rmult_le_pos; lra).
    assert (P5 : a * ((1 + u32) * gl) <= a * g) by (apply Rmult_le_compat_l; lra).
    assert (P6 : b * ((1 + u32) * gr) <= b * g) by (apply Rmult_le_compat_l; lra).
    destruct IHl as [Fl Dl]; [intros; apply H, in_or_app; now left|lra|].
    destruct IHr as [Fr Dr]; [intros; apply H, in_or_app; now right|lra|].
    fold gl in Dl. fold gr in Dr. fold a in Dl. fold b in Dr.
    assert (El : Rabs (total e (leaves l)) <= a).
    { eapply Rle_trans; [apply total_abs|]. apply total_le. intros i Hi. apply H, in_or_app. now left. }
    assert (Er : Rabs (total e (leaves r)) <= b).
    { eapply Rle_trans; [apply total_abs|]. apply total_le. intros i Hi. apply H, in_or_app. now right. }
    apply Rabs_le_inv in Dl, Dr, El, Er.
    set (x := B2R (sum32 l p)) in *. set (y := B2R (sum32 r p)) in *.
    assert (S : Rabs (x + y) <= a * gl + b * gr) by (apply Rabs_le; lra).
    destruct (add32_value (sum32 l p) (sum32 r p) 127) as [E F]; try assumption; [lia| |].
    { fold x y. lra. }
    destruct (rnd32_add x y) as (eps & He & R1); [apply fmtB|apply fmtB|].
    fold x y in E. rewrite R1 in E. split; [exact F|]. rewrite E.
    assert (T : Rabs ((x + y) * eps) <= (a * gl + b * gr) * u32).
    { rewrite Rabs_mult. apply Rmult_le_compat; try apply Rabs_pos; assumption. }
    apply Rabs_le_inv in T. apply Rabs_le. lra.
Qed.

(** The library's parameters: alpha = 1, beta = 1, kappa = 2 *)
Lemma default_lambda n : n = 5%Z \/ n = 6%Z -> generate_lambda32 n (f32_of_Z 1) (f32_of_Z 2) = f32_of_Z 2.
Proof. intros [->| ->]; apply B2SF_inj; vm_compute; reflexivity. Qed.
Lemma default_weights n : n = 5%Z \/ n = 6%Z ->
  is_finite (wm_0_32 n (f32_of_Z 2)) = true /\ is_finite (wm_i_32 n (f32_of_Z 2)) = true /\
  is_finite (wc_0_32 n (f32_of_Z 1) (f32_of_Z 1) (f32_of_Z 2)) = true /\
  Rabs (B2R (wm_0_32 n (f32_of_Z 2)) - 2 / (IZR n + 2)) <= bpow radix2 (-26) /\
  Rabs (B2R (wc_0_32 n (f32_of_Z 1) (f32_of_Z 1) (f32_of_Z 2)) - (2 / (IZR n + 2) + 1)) <= bpow radix2 (-24) /\
  Rabs (B2R (wm_i_32 n (f32_of_Z 2)) - / (2 * (IZR n + 2))) <= bpow radix2 (-28).
Proof.
  change (bpow radix2 (-26)) with (/ 67108864). change (bpow radix2 (-24)) with (/ 16777216).
  change (bpow radix2 (-28)) with (/ 268435456).
  intros [->| ->]; (split; [vm_compute; reflexivity|split; [vm_compute; reflexivity|split; [vm_compute; reflexivity|]]]).
  - rewrite <- !SF2R_B2SF.
    set (w0 := B2SF (wm_0_32 5 (f32_of_Z 2))). vm_compute in w0.
    set (wc := B2SF (wc_0_32 5 (f32_of_Z 1) (f32_of_Z 1) (f32_of_Z 2))). vm_compute in wc.
    set (wi := B2SF (wm_i_32 5 (f32_of_Z 2))). vm_compute in wi.
    unfold w0, wc, wi. unfold SF2R, F2R. cbn [SpecFloat.cond_Zopp Fnum Fexp].
    cbn. repeat split; apply Rabs_le; lra.
  - rewrite <- !SF2R_B2SF.
    set (w0 := B2SF (wm_0_32 6 (f32_of_Z 2))). vm_compute in w0.
    set (wc := B2SF (wc_0_32 6 (f32_of_Z 1) (f32_of_Z 1) (f32_of_Z 2))). vm_compute in wc.
    set (wi := B2SF (wm_i_32 6 (f32_of_Z 2))). vm_compute in wi.
    unfold w0, wc, wi. unfold SF2R, F2R. cbn [SpecFloat.cond_Zopp Fnum Fexp].
    cbn. repeat split; apply Rabs_le; lra.
Qed.

Lemma grow13 m : (m <= 13)%nat -> (1 + u32) ^ m <= 1 + 13.001 * u32.
Proof.
  intros H. apply Rle_trans with ((1 + u32) ^ 13); [now apply pow_grow|]. unfold u32. lra.
Qed.

Lemma mean_accurate (n : Z) t (x : nat -> f32) (M : R) : n = 5%Z \/ n = 6%Z ->
  order_of (Z.to_nat (2 * n + 1)) t ->
  bpow radix2 (-100) <= M <= bpow radix2 100 ->
  (forall i, (i < Z.to_nat (2 * n + 1))%nat -> is_finite (x i) = true /\ Rabs (B2R (x i)) <= M) ->
  let W := fst (generate_weights32 n (f32_of_Z 1) (f32_of_Z 1) (f32_of_Z 2)) in
  is_finite (mean32 t W x) = true /\
  Rabs (B2R (mean32 t W x) -
        (2 / (IZR n + 2) * B2R (x 0%nat) +
         / (2 * (IZR n + 2)) * total (fun i => B2R (x i)) (seq 1 (Z.to_nat (2 * n))))) <= 15 * u32 * M.
Proof.
  intros Hn O HM Hx W.
  destruct (default_weights n Hn) as (F0 & Fi & _ & D0 & _ & Di).
  set (w0 := wm_0_32 n (f32_of_Z 2)) in *. set (wi := wm_i_32 n (f32_of_Z 2)) in *.
  assert (Bn : 5 <= IZR n <= 6) by (destruct Hn; subst; lra).
  assert (PM : 0 < M) by (pose proof (bpow_gt_0 radix2 (-100)); lra).
  replace (bpow radix2 (-26)) with (u32 / 4) in D0 by (unfold u32; cbn; lra).
  replace (bpow radix2 (-28)) with (u32 / 16) in Di by (unfold u32; cbn; lra).
  apply Rabs_le_inv in D0, Di.
  assert (Q0 : 1 / 4 <= 2 / (IZR n + 2) <= 2 / 7) by (destruct Hn; subst; lra).
  assert (Qi : 1 / 16 <= / (2 * (IZR n + 2)) <= 1 / 14) by (destruct Hn; subst; lra).
  set (N := Z.to_nat (2 * n + 1)) in *.
  assert (L : length (leaves t) = N).
  { apply Permutation_length in O. now rewrite seq_length in O. }
  assert (LN : (N <= 13)%nat) by (unfold N; destruct Hn; subst; cbn; lia).
  assert (SN : seq 0 N = 0%nat :: seq 1 (Z.to_nat (2 * n))) by (unfold N; destruct Hn; subst; reflexivity).
  assert (IL : forall i, In i (leaves t) -> (i < N)%nat).
  { intros i Hi. apply (Permutation_in _ O) in Hi. apply in_seq in Hi. lia. }
  set (w := fun i : nat => B2R (W i)).
  assert (Bw : forall i, is_finite (W i) = true /\ 0 <= w i <= 1).
  { intros [|i]; (split; [assumption|]); unfold w; cbn [W generate_weights32 fst]; fold w0 wi; unfold u32 in *; lra. }
  set (h := bpow radix2 (-126)). assert (Ph : 0 < h) by apply bpow_gt_0.
  assert (hM : h <= M * / 67108864).
  { unfold h. change (-126)%Z with (-100 + -26)%Z. rewrite bpow_plus. change (bpow radix2 (-26)) with (/ 67108864).
    apply Rmult_le_compat_r; lra. }
  set (e := fun i => w i * B2R (x i)). set (A := fun i => w i * M + h).
  assert (EA : forall i, In i (leaves t) -> Rabs (e i) <= w i * M).
  { intros i Hi. destruct (Hx i (IL i Hi)) as [_ B]. destruct (Bw i) as [_ B'].
    unfold e. rewrite Rabs_mult, (Rabs_pos_eq (w i)) by lra. apply Rmult_le_compat_l; lra. }
  assert (TA : total A (leaves t) = (w 0%nat + 2 * IZR n * B2R wi) * M + INR N * h).
  { rewrite (total_perm _ _ _ O). unfold A. rewrite total_plus, total_const, seq_length. f_equal.
    rewrite SN. cbn [total].
    rewrite (total_ext _ (fun _ => B2R wi * M)).
    - rewrite total_const, seq_length, INR_IZR_INZ, Z2Nat.id, mult_IZR by lia. ring.
    - intros i Hi. apply in_seq in Hi. destruct i; [lia|]. reflexivity. }
  assert (N13 : 0 <= INR N <= 13).
  { split; [apply pos_INR|]. replace 13 with (INR 13) by (cbn; lra). now apply le_INR. }
  assert (TA' : 0 <= total A (leaves t) <= 1.0001 * M).
  { rewrite TA. change (w 0%nat) with (B2R w0).
    assert (S1 : 0 <= B2R w0 + 2 * IZR n * B2R wi <= 1.00001).
    { replace (2 * IZR n * B2R wi) with (2 * (IZR n * B2R wi)) by ring.
      destruct Hn; subst n; unfold u32 in *; lra. }
    assert (S2 : 0 <= INR N * h <= 13 * (M * / 67108864)) by (split; [apply Rmult_le_pos; lra|apply Rmult_le_compat; lra]).
    nra. }
  assert (G := pow_grow 0 (length (leaves t)) ltac:(lia)). cbn [pow] in G.
  assert (G' : (1 + u32) ^ length (leaves t) <= 1 + 13.001 * u32) by (apply grow13; lia).
  destruct (sum32_accurate t (fun i => f32_mul (W i) (x i)) e A) as [F D].
  - intros i Hi. destruct (Hx i (IL i Hi)) as [Fx Bx]. destruct (Bw i) as [Fw B'].
    assert (E1 := EA i Hi).
    assert (E2 : Rabs (e i) <= bpow radix2 100) by nra.
    destruct (mul32_value (W i) (x i) 100) as [Ep Fp]; try assumption; [lia|].
    split; [exact Fp|]. split; [|unfold A; lra].
    rewrite Ep. change (B2R (W i) * B2R (x i)) with (e i).
    destruct (rnd32_rel (e i)) as (d & eta & Hd & Heta & R1). rewrite R1.
    replace (e i * (1 + d) + eta - e i) with (d * e i + eta) by ring.
    eapply Rle_trans; [apply Rabs_triang|]. rewrite Rabs_mult.
    unfold A. rewrite Rmult_plus_distr_l. apply Rplus_le_compat.
    + apply Rmult_le_compat; try apply Rabs_pos; assumption.
    + replace (u32 * h) with (bpow radix2 (-150)); [exact Heta|].
      unfold h. change (-150)%Z with (-24 + -126)%Z. rewrite bpow_plus. reflexivity.
  - apply Rle_trans with (bpow radix2 100 * 2).
    + apply Rle_trans with (1.0001 * M * (1 + 13.001 * u32)); [apply Rmult_le_compat; lra|]. unfold u32. lra.
    + change 2 with (bpow radix2 1). rewrite <- bpow_plus. apply bpow_le. lia.
  - split; [exact F|].
    assert (D' : Rabs (B2R (mean32 t W x) - total e (leaves t)) <= 13.001 * u32 * (1.0001 * M)).
    { eapply Rle_trans; [exact D|]. apply Rmult_le_compat; lra. }
    assert (TE : total e (leaves t) =
      B2R w0 * B2R (x 0%nat) + B2R wi * total (fun i => B2R (x i)) (seq 1 (Z.to_nat (2 * n)))).
    { rewrite (total_perm _ _ _ O), SN. cbn [total]. f_equal. rewrite <- total_scale.
      apply total_ext. intros i Hi. apply in_seq in Hi. destruct i; [lia|]. reflexivity. }
    set (T := total (fun i => B2R (x i)) (seq 1 (Z.to_nat (2 * n)))) in *.
    assert (BT : Rabs T <= 2 * IZR n * M).
    { unfold T. eapply Rle_trans; [apply total_abs|].
      eapply Rle_trans; [apply (total_le _ (fun _ => M))|].
      - intros i Hi. apply in_seq in Hi. apply Hx. unfold N. lia.
      - rewrite total_const, seq_length, INR_IZR_INZ, Z2Nat.id, mult_IZR by lia. lra. }
    assert (Bx0 : Rabs (B2R (x 0%nat)) <= M) by (apply Hx; unfold N; destruct Hn; subst; cbn; lia).
    assert (X0 : Rabs ((B2R w0 - 2 / (IZR n + 2)) * B2R (x 0%nat)) <= u32 / 4 * M).
    { rewrite Rabs_mult. apply Rmult_le_compat; try apply Rabs_pos; [apply Rabs_le; lra|exact Bx0]. }
    assert (XT : Rabs ((B2R wi - / (2 * (IZR n + 2))) * T) <= u32 / 16 * (12 * M)).
    { rewrite Rabs_mult. apply Rmult_le_compat; try apply Rabs_pos; [apply Rabs_le; lra|]. nra. }
    rewrite TE in D'. apply Rabs_le_inv in D', X0, XT. apply Rabs_le.
    set (B := B2R (mean32 t W x)) in *.
    unfold u32 in *. lra.
Qed.
