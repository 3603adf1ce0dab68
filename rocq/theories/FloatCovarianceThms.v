(** The covariance of the unscented transform in single precision. *)
From Coq Require Import ZArith Reals Lra Lia Bool List Permutation.
From Flocq Require Import Core IEEE754.BinarySingleNaN.
From Verif Require Import Base Float FloatProofs FloatDistance FloatDistanceThms FloatWeight FloatWeightThms
  FloatUnscented FloatUnscentedThms FloatCovariance.
Import ListNotations.
Open Scope R_scope.

(** ** Signs *)
Lemma mul_nonneg (x y : f32) : is_finite (f32_mul x y) = true -> 0 <= B2R x * B2R y -> 0 <= B2R (f32_mul x y).
Proof. intros F H. rewrite mul_value by exact F. now apply rnd32_pos. Qed.
Lemma add_finite (x y : f32) : is_finite (f32_add x y) = true -> is_finite x = true /\ is_finite y = true.
Proof. destruct x as [|[]| |], y as [|[]| |]; cbn; try discriminate; auto. Qed.
Lemma sum_nonneg t (p : nat -> f32) : (forall i, is_finite (p i) = true -> 0 <= B2R (p i)) ->
  is_finite (sum32 t p) = true -> 0 <= B2R (sum32 t p).
Proof.
  intros H. induction t as [i|l IHl r IHr]; cbn [sum32]; [apply H|]. intros F.
  destruct (add_finite _ _ F) as [Fl Fr]. rewrite add_value by assumption.
  apply rnd32_pos. specialize (IHl Fl). specialize (IHr Fr). lra.
Qed.
Lemma square_nonneg (w y : f32) : (is_finite w = true -> 0 <= B2R w) ->
  is_finite (f32_mul y (f32_mul w y)) = true -> 0 <= B2R (f32_mul y (f32_mul w y)).
Proof.
  intros Hw F. destruct (mul_finite _ _ F) as [Fy Fi]. destruct (mul_finite _ _ Fi) as [Fw _].
  rewrite mul_value by exact F. apply rnd32_pos. rewrite mul_value by exact Fi.
  specialize (Hw Fw).
  destruct (Rle_or_lt 0 (B2R y)) as [P|N].
  - apply Rmult_le_pos; [exact P|]. apply rnd32_pos. now apply Rmult_le_pos.
  - assert (L : rnd32 (B2R w * B2R y) <= 0) by (rewrite <- rnd32_0; apply rnd32_le; nra). nra.
Qed.

(** ** One deviation *)
Lemma deviation_accurate (s x : f32) (m M D : R) : is_finite s = true -> is_finite x = true ->
  bpow radix2 (-100) <= M <= bpow radix2 100 -> 0 <= D <= 2 * M ->
  Rabs (B2R x - m) <= 15 * u32 * M -> Rabs (B2R s - m) <= D ->
  is_finite (f32_sub s x) = true /\ Rabs (B2R (f32_sub s x) - (B2R s - m)) <= 18 * u32 * M /\
  Rabs (B2R (f32_sub s x)) <= D + 18 * u32 * M.
Proof.
  intros Fs Fx HM HD Hx Hs.
  assert (PM : 0 < M) by (pose proof (bpow_gt_0 radix2 (-100)); lra).
  apply Rabs_le_inv in Hx, Hs.
  assert (B : Rabs (B2R s - B2R x) <= D + 15 * u32 * M) by (apply Rabs_le; lra).
  destruct (sub32_value s x 102) as [E F]; try assumption; [lia| |].
  { eapply Rle_trans; [exact B|]. change 102%Z with (2 + 100)%Z. rewrite bpow_plus. change (bpow radix2 2) with 4.
    unfold u32. lra. }
  destruct (rnd32_add (B2R s) (- B2R x)) as (e & He & R1); [apply fmtB|apply generic_format_opp, fmtB|].
  change (B2R s + - B2R x) with (B2R s - B2R x) in R1. rewrite R1 in E.
  assert (Q : Rabs (B2R (f32_sub s x) - (B2R s - m)) <= 18 * u32 * M).
  { rewrite E. replace ((B2R s - B2R x) * (1 + e) - (B2R s - m)) with ((m - B2R x) + (B2R s - B2R x) * e) by ring.
    eapply Rle_trans; [apply Rabs_triang|].
    assert (T : Rabs ((B2R s - B2R x) * e) <= (D + 15 * u32 * M) * u32).
    { rewrite Rabs_mult. apply Rmult_le_compat; try apply Rabs_pos; assumption. }
    assert (T2 : Rabs (m - B2R x) <= 15 * u32 * M) by (apply Rabs_le; lra).
    unfold u32 in *. nra. }
  split; [exact F|]. split; [exact Q|]. apply Rabs_le_inv in Q. apply Rabs_le. lra.
Qed.

(** ** One product *)
Lemma product_accurate (w a b : f32) (A B : R) :
  is_finite w = true -> is_finite a = true -> is_finite b = true -> 0 <= B2R w <= 2 ->
  Rabs (B2R a) <= A -> Rabs (B2R b) <= B -> A <= bpow radix2 50 -> B <= bpow radix2 50 ->
  is_finite (f32_mul a (f32_mul w b)) = true /\
  Rabs (B2R (f32_mul a (f32_mul w b)) - B2R w * (B2R a * B2R b)) <=
    u32 * (2.01 * B2R w * (A * B) + (1.01 * A + 1) * bpow radix2 (-126)).
Proof.
  intros Fw Fa Fb Hw Ha Hb HA HB.
  set (h := bpow radix2 (-126)). assert (Ph : 0 < h) by apply bpow_gt_0.
  assert (Eh : bpow radix2 (-150) = u32 * h) by (unfold h; change (-150)%Z with (-24 + -126)%Z; rewrite bpow_plus; reflexivity).
  assert (hs : h <= 1) by (change 1 with (bpow radix2 0); apply bpow_le; lia).
  assert (P0 := Rabs_pos (B2R a)). assert (P1 := Rabs_pos (B2R b)).
  set (w' := B2R w) in *. set (a' := B2R a) in *. set (b' := B2R b) in *.
  assert (WB : Rabs (w' * b') <= w' * B).
  { rewrite Rabs_mult, (Rabs_pos_eq w') by lra. apply Rmult_le_compat_l; lra. }
  destruct (mul32_value w b 51) as [E1 F1]; try assumption; [lia| |].
  { fold w' b'. eapply Rle_trans; [exact WB|]. change 51%Z with (1 + 50)%Z. rewrite bpow_plus. change (bpow radix2 1) with 2.
    apply Rmult_le_compat; lra. }
  fold w' b' in E1.
  destruct (rnd32_rel (w' * b')) as (d1 & h1 & H1 & Hh1 & R1). rewrite R1 in E1. rewrite Eh in Hh1.
  set (c := B2R (f32_mul w b)) in *.
  assert (Dc : Rabs (c - w' * b') <= u32 * (w' * B + h)).
  { rewrite E1. replace (w' * b' * (1 + d1) + h1 - w' * b') with (d1 * (w' * b') + h1) by ring.
    eapply Rle_trans; [apply Rabs_triang|]. rewrite Rabs_mult, Rmult_plus_distr_l. apply Rplus_le_compat; [|exact Hh1].
    apply Rmult_le_compat; try apply Rabs_pos; assumption. }
  assert (P2 : 0 <= w' * B) by (apply Rmult_le_pos; lra).
  assert (Bc : Rabs c <= w' * B + u32 * (w' * B + h)).
  { replace c with (w' * b' + (c - w' * b')) by ring. eapply Rle_trans; [apply Rabs_triang|]. lra. }
  assert (Bac : Rabs (a' * c) <= A * (w' * B + u32 * (w' * B + h))).
  { rewrite Rabs_mult. apply Rmult_le_compat; try apply Rabs_pos; assumption. }
  destruct (mul32_value a (f32_mul w b) 103) as [E2 F2]; try assumption; [lia| |].
  { fold a' c. eapply Rle_trans; [exact Bac|].
    assert (P50 : 1 <= bpow radix2 50) by (change 1 with (bpow radix2 0); apply bpow_le; lia).
    change 103%Z with (50 + (3 + 50))%Z. rewrite !bpow_plus. change (bpow radix2 3) with 8.
    apply Rmult_le_compat; [lra|unfold u32; lra|exact HA|].
    assert (w' * B <= 2 * bpow radix2 50) by (apply Rmult_le_compat; lra). unfold u32. lra. }
  fold a' c in E2. split; [exact F2|].
  destruct (rnd32_rel (a' * c)) as (d2 & h2 & H2 & Hh2 & R2). rewrite R2 in E2. rewrite Eh in Hh2. rewrite E2.
  replace (a' * c * (1 + d2) + h2 - w' * (a' * b')) with (a' * (c - w' * b') + d2 * (a' * c) + h2) by ring.
  assert (T1 : Rabs (a' * (c - w' * b')) <= A * (u32 * (w' * B + h))).
  { rewrite Rabs_mult. apply Rmult_le_compat; try apply Rabs_pos; assumption. }
  assert (T2 : Rabs (d2 * (a' * c)) <= u32 * (A * (w' * B + u32 * (w' * B + h)))).
  { rewrite Rabs_mult. apply Rmult_le_compat; try apply Rabs_pos; assumption. }
  apply Rabs_le_inv in T1, T2, Hh2.
  assert (P3 : 0 <= w' * (A * B)) by (apply Rmult_le_pos; [lra|apply Rmult_le_pos; lra]).
  assert (P4 : 0 <= A * h) by (apply Rmult_le_pos; lra).
  assert (P5 : A * (u32 * (w' * B + h)) + u32 * (A * (w' * B + u32 * (w' * B + h))) =
    u32 * (w' * (A * B) + A * h + w' * (A * B) + u32 * (w' * (A * B)) + u32 * (A * h))) by ring.
  assert (P6 : A * (u32 * (w' * B + h)) + u32 * (A * (w' * B + u32 * (w' * B + h))) + u32 * h <=
    u32 * (2.01 * w' * (A * B) + (1.01 * A + 1) * h)).
  { rewrite P5, <- Rmult_plus_distr_l. apply Rmult_le_compat_l; [unfold u32; lra|].
    replace (2.01 * w' * (A * B)) with (2.01 * (w' * (A * B))) by ring.
    unfold u32. lra. }
  apply Rabs_le. lra.
Qed.

(** ** An entry of the covariance, for the library's parameters *)
Lemma total_minus f g l : total (fun i => f i - g i) l = total f l - total g l.
Proof. induction l as [|i l IH]; cbn; [ring|rewrite IH; ring]. Qed.

Lemma entry_accurate (n : Z) tj tk t (sj sk : nat -> f32) (Mj Mk Dj Dk : R) : n = 5%Z \/ n = 6%Z ->
  let N := Z.to_nat (2 * n + 1) in
  order_of N tj -> order_of N tk -> order_of N t ->
  bpow radix2 (-40) <= Mj <= bpow radix2 40 -> bpow radix2 (-40) <= Mk <= bpow radix2 40 ->
  0 <= Dj <= 2 * Mj -> 0 <= Dk <= 2 * Mk ->
  let mean s := 2 / (IZR n + 2) * B2R (s 0%nat) +
    / (2 * (IZR n + 2)) * total (fun i => B2R (s i)) (seq 1 (Z.to_nat (2 * n))) in
  (forall i, (i < N)%nat -> is_finite (sj i) = true /\ Rabs (B2R (sj i)) <= Mj /\ Rabs (B2R (sj i) - mean sj) <= Dj) ->
  (forall i, (i < N)%nat -> is_finite (sk i) = true /\ Rabs (B2R (sk i)) <= Mk /\ Rabs (B2R (sk i) - mean sk) <= Dk) ->
  let W := generate_weights32 n (f32_of_Z 1) (f32_of_Z 1) (f32_of_Z 2) in
  let P := sum32 t (fun i => f32_mul (f32_sub (sj i) (mean32 tj (fst W) sj))
                       (f32_mul (snd W i) (f32_sub (sk i) (mean32 tk (fst W) sk)))) in
  is_finite P = true /\
  Rabs (B2R P - ((2 / (IZR n + 2) + 1) * ((B2R (sj 0%nat) - mean sj) * (B2R (sk 0%nat) - mean sk)) +
                 / (2 * (IZR n + 2)) * total (fun i => (B2R (sj i) - mean sj) * (B2R (sk i) - mean sk))
                   (seq 1 (Z.to_nat (2 * n)))))
    <= 100 * u32 * (Mj * Dk + Mk * Dj) + 1000 * u32 * u32 * (Mj * Mk).
Proof.
  intros Hn N Oj Ok O HMj HMk HDj HDk mean Hj Hk W P.
  assert (B100 : forall M, bpow radix2 (-40) <= M <= bpow radix2 40 -> bpow radix2 (-100) <= M <= bpow radix2 100).
  { intros M [H1 H2]. assert (bpow radix2 (-100) <= bpow radix2 (-40)) by (apply bpow_le; lia).
    assert (bpow radix2 40 <= bpow radix2 100) by (apply bpow_le; lia). lra. }
  destruct (mean_accurate n tj sj Mj Hn Oj (B100 _ HMj)) as [Fxj Dxj]; [intros i Hi; destruct (Hj i Hi); tauto|].
  destruct (mean_accurate n tk sk Mk Hn Ok (B100 _ HMk)) as [Fxk Dxk]; [intros i Hi; destruct (Hk i Hi); tauto|].
  fold W in Fxj, Dxj, Fxk, Dxk. fold (mean sj) in Dxj. fold (mean sk) in Dxk.
  set (xj := mean32 tj (fst W) sj) in *. set (xk := mean32 tk (fst W) sk) in *.
  set (mj := mean sj) in *. set (mk := mean sk) in *.
  destruct (default_weights n Hn) as (_ & Fi & Fc & _ & Dc & Di).
  set (wc := wc_0_32 n (f32_of_Z 1) (f32_of_Z 1) (f32_of_Z 2)) in *. set (wi := wm_i_32 n (f32_of_Z 2)) in *.
  assert (Bn : 5 <= IZR n <= 6) by (destruct Hn; subst; lra).
  replace (bpow radix2 (-24)) with u32 in Dc by (unfold u32; cbn; lra).
  replace (bpow radix2 (-28)) with (u32 / 16) in Di by (unfold u32; cbn; lra).
  pose proof Dc as Dc'. pose proof Di as Di'. apply Rabs_le_inv in Dc', Di'.
  assert (Qc : 5 / 4 <= 2 / (IZR n + 2) + 1 <= 9 / 7) by (destruct Hn; subst; lra).
  assert (Qi : 1 / 16 <= / (2 * (IZR n + 2)) <= 1 / 14) by (destruct Hn; subst; lra).
  assert (L : length (leaves t) = N).
  { apply Permutation_length in O. now rewrite seq_length in O. }
  assert (LN : (N <= 13)%nat) by (unfold N; destruct Hn; subst; cbn; lia).
  assert (SN : seq 0 N = 0%nat :: seq 1 (Z.to_nat (2 * n))) by (unfold N; destruct Hn; subst; reflexivity).
  assert (N0 : (0 < N)%nat) by (unfold N; destruct Hn; subst; cbn; lia).
  assert (IL : forall i, In i (leaves t) -> (i < N)%nat).
  { intros i Hi. apply (Permutation_in _ O) in Hi. apply in_seq in Hi. lia. }
  set (l := seq 1 (Z.to_nat (2 * n))) in *.
  assert (Il : forall i, In i l -> (1 <= i < N)%nat) by (intros i Hi; unfold l in Hi; apply in_seq in Hi; unfold N; lia).
  assert (Ll : INR (length l) = 2 * IZR n).
  { unfold l. rewrite seq_length, INR_IZR_INZ, Z2Nat.id, mult_IZR by (destruct Hn; subst; lia). reflexivity. }
  set (w := fun i : nat => B2R (snd W i)).
  assert (Bw : forall i, is_finite (snd W i) = true /\ 0 <= w i <= 2).
  { intros [|i]; (split; [assumption|]); unfold w; cbn [W generate_weights32 snd]; fold wc wi; unfold u32 in *; lra. }
  assert (split_total : forall f, total f (leaves t) = f 0%nat + total f l).
  { intros f. rewrite (total_perm _ _ _ O), SN. reflexivity. }
  assert (Sw : 0 <= total w (leaves t) <= 2.0001).
  { split; [apply total_nonneg; intros i _; apply Bw|].
    rewrite split_total. rewrite (total_ext w (fun _ => B2R wi)).
    - rewrite total_const, Ll. change (w 0%nat) with (B2R wc).
      destruct Hn; subst n; unfold u32 in *; lra.
    - intros i Hi. apply Il in Hi. destruct i; [lia|reflexivity]. }
  assert (Pj : 0 < Mj) by (pose proof (bpow_gt_0 radix2 (-40)); lra).
  assert (Pk : 0 < Mk) by (pose proof (bpow_gt_0 radix2 (-40)); lra).
  assert (Yj : forall i, (i < N)%nat -> is_finite (f32_sub (sj i) xj) = true /\
     Rabs (B2R (f32_sub (sj i) xj) - (B2R (sj i) - mj)) <= 18 * u32 * Mj /\ Rabs (B2R (f32_sub (sj i) xj)) <= Dj + 18 * u32 * Mj).
  { intros i Hi. destruct (Hj i Hi) as (F & _ & D). now apply deviation_accurate; [| |apply B100| | |]. }
  assert (Yk : forall i, (i < N)%nat -> is_finite (f32_sub (sk i) xk) = true /\
     Rabs (B2R (f32_sub (sk i) xk) - (B2R (sk i) - mk)) <= 18 * u32 * Mk /\ Rabs (B2R (f32_sub (sk i) xk)) <= Dk + 18 * u32 * Mk).
  { intros i Hi. destruct (Hk i Hi) as (F & _ & D). now apply deviation_accurate; [| |apply B100| | |]. }
  set (yj := fun i => f32_sub (sj i) xj) in *. set (yk := fun i => f32_sub (sk i) xk) in *.
  set (Ej := 18 * u32 * Mj) in *. set (Ek := 18 * u32 * Mk) in *.
  assert (PEj : 0 <= Ej <= Mj / 1000) by (unfold Ej, u32; lra).
  assert (PEk : 0 <= Ek <= Mk / 1000) by (unfold Ek, u32; lra).
  set (Aj := Dj + Ej) in *. set (Ak := Dk + Ek) in *.
  assert (PAj : 0 <= Aj <= 3 * Mj) by (unfold Aj; lra).
  assert (PAk : 0 <= Ak <= 3 * Mk) by (unfold Ak; lra).
  set (h := bpow radix2 (-126)). assert (Ph : 0 < h) by apply bpow_gt_0.
  assert (PAA : 0 <= Aj * Ak) by (apply Rmult_le_pos; lra).
  set (g := (1.01 * Aj + 1) * h).
  assert (Pg : 0 <= g) by (apply Rmult_le_pos; lra).
  set (e := fun i => w i * (B2R (yj i) * B2R (yk i))).
  set (A := fun i => 2.01 * (Aj * Ak) * w i + g).
  assert (TA : total A (leaves t) = 2.01 * (Aj * Ak) * total w (leaves t) + INR N * g).
  { unfold A. rewrite total_plus, total_scale, total_const, L. reflexivity. }
  assert (N13 : 0 <= INR N <= 13).
  { split; [apply pos_INR|]. replace 13 with (INR 13) by (cbn; lra). now apply le_INR. }
  assert (TA' : 0 <= total A (leaves t) <= 4.03 * (Aj * Ak) + 13 * g).
  { rewrite TA. assert (0 <= (Aj * Ak) * total w (leaves t) <= (Aj * Ak) * 2.0001)
      by (split; [apply Rmult_le_pos; lra|apply Rmult_le_compat_l; lra]).
    assert (0 <= INR N * g <= 13 * g) by (split; [apply Rmult_le_pos; lra|apply Rmult_le_compat_r; lra]). lra. }
  assert (G := pow_grow 0 (length (leaves t)) ltac:(lia)). cbn [pow] in G.
  assert (G' : (1 + u32) ^ length (leaves t) <= 1 + 13.001 * u32) by (apply grow13; lia).
  assert (P40 : bpow radix2 40 = 1099511627776) by (cbn; lra).
  assert (h40 : 1024 * h <= u32 * bpow radix2 (-40)).
  { change u32 with (bpow radix2 (-24)). change 1024 with (bpow radix2 10). unfold h. rewrite <- !bpow_plus. apply bpow_le. lia. }
  assert (h80 : 1024 * h <= u32 * (bpow radix2 (-40) * bpow radix2 (-40))).
  { change u32 with (bpow radix2 (-24)). change 1024 with (bpow radix2 10). unfold h. rewrite <- !bpow_plus. apply bpow_le. lia. }
  assert (hk : 1024 * h <= u32 * Mk) by (eapply Rle_trans; [exact h40|]; apply Rmult_le_compat_l; [unfold u32; lra|lra]).
  assert (hjk : 1024 * h <= u32 * (Mj * Mk)).
  { eapply Rle_trans; [exact h80|]. apply Rmult_le_compat_l; [unfold u32; lra|].
    pose proof (bpow_ge_0 radix2 (-40)). apply Rmult_le_compat; lra. }
  assert (gB : 169.1 * g <= u32 * (Mj * Mk)).
  { unfold g. assert (Q : Aj * (1024 * h) <= 3 * Mj * (u32 * Mk)) by (apply Rmult_le_compat; lra). nra. }
  assert (ZB : 0 <= Mj * Mk <= bpow radix2 80).
  { split; [apply Rmult_le_pos; lra|]. change 80%Z with (40 + 40)%Z. rewrite bpow_plus. apply Rmult_le_compat; lra. }
  assert (AAB : Aj * Ak <= 9 * (Mj * Mk)).
  { replace (9 * (Mj * Mk)) with (3 * Mj * (3 * Mk)) by ring. apply Rmult_le_compat; lra. }
  destruct (sum32_accurate t (fun i => f32_mul (yj i) (f32_mul (snd W i) (yk i))) e A) as [F D].
  - intros i Hi. apply IL in Hi. destruct (Yj i Hi) as (Fyj & _ & Byj). destruct (Yk i Hi) as (Fyk & _ & Byk).
    destruct (Bw i) as [Fw Bwi].
    destruct (product_accurate (snd W i) (yj i) (yk i) Aj Ak) as [Fp Dp]; try assumption.
    { eapply Rle_trans; [apply PAj|]. rewrite P40 in HMj. change (bpow radix2 50) with 1125899906842624. lra. }
    { eapply Rle_trans; [apply PAk|]. rewrite P40 in HMk. change (bpow radix2 50) with 1125899906842624. lra. }
    split; [exact Fp|]. split.
    + eapply Rle_trans; [exact Dp|]. unfold A. right. fold h. fold g. change (B2R (snd W i)) with (w i). ring.
    + unfold e, A. rewrite Rabs_mult, (Rabs_pos_eq (w i)), Rabs_mult by apply Bwi.
      assert (Q : Rabs (B2R (yj i)) * Rabs (B2R (yk i)) <= Aj * Ak) by (apply Rmult_le_compat; try apply Rabs_pos; assumption).
      assert (Q2 : w i * (Rabs (B2R (yj i)) * Rabs (B2R (yk i))) <= w i * (Aj * Ak)) by (apply Rmult_le_compat_l; [apply Bwi|exact Q]).
      assert (0 <= w i * (Aj * Ak)) by (apply Rmult_le_pos; [apply Bwi|exact PAA]).
      replace (2.01 * (Aj * Ak) * w i) with (2.01 * (w i * (Aj * Ak))) by ring. lra.
  - apply Rle_trans with (64 * bpow radix2 80).
    + apply Rle_trans with ((4.03 * (Aj * Ak) + 13 * g) * (1 + 13.001 * u32)); [apply Rmult_le_compat; lra|].
      unfold u32 in *. lra.
    + change 64 with (bpow radix2 6). rewrite <- bpow_plus. apply bpow_le. lia.
  - change (is_finite P = true) in F. fold P in D. split; [exact F|].
    assert (D1 : Rabs (B2R P - total e (leaves t)) <= 13.001 * u32 * (4.03 * (Aj * Ak) + 13 * g)).
    { eapply Rle_trans; [exact D|]. apply Rmult_le_compat; lra. }
    set (d := fun i => (B2R (sj i) - mj) * (B2R (sk i) - mk)).
    assert (Dd : forall i, (i < N)%nat -> Rabs (d i) <= Dj * Dk).
    { intros i Hi. unfold d. rewrite Rabs_mult. apply Rmult_le_compat; try apply Rabs_pos; [apply (Hj i Hi)|apply (Hk i Hi)]. }
    assert (D2 : Rabs (total e (leaves t) - total (fun i => w i * d i) (leaves t)) <= 2.0001 * (Ej * Ak + Dj * Ek)).
    { rewrite <- total_minus. eapply Rle_trans; [apply total_abs|].
      apply Rle_trans with (total (fun i => (Ej * Ak + Dj * Ek) * w i) (leaves t)).
      - apply total_le. intros i Hi. apply IL in Hi. unfold e. rewrite <- Rmult_minus_distr_l, Rabs_mult.
        rewrite (Rabs_pos_eq (w i)), Rmult_comm by apply Bw. apply Rmult_le_compat_r; [apply Bw|].
        unfold d. replace (B2R (yj i) * B2R (yk i) - (B2R (sj i) - mj) * (B2R (sk i) - mk)) with
          ((B2R (yj i) - (B2R (sj i) - mj)) * B2R (yk i) + (B2R (sj i) - mj) * (B2R (yk i) - (B2R (sk i) - mk))) by ring.
        eapply Rle_trans; [apply Rabs_triang|]. rewrite !Rabs_mult.
        destruct (Yj i Hi) as (_ & Q1 & _). destruct (Yk i Hi) as (_ & Q2 & Q3). destruct (Hj i Hi) as (_ & _ & Q4).
        apply Rplus_le_compat; apply Rmult_le_compat; try apply Rabs_pos; assumption.
      - rewrite total_scale, Rmult_comm. apply Rmult_le_compat_r; [|apply Sw].
        assert (0 <= Ej * Ak) by (apply Rmult_le_pos; lra). assert (0 <= Dj * Ek) by (apply Rmult_le_pos; lra). lra. }
    assert (TW : total (fun i => w i * d i) (leaves t) = B2R wc * d 0%nat + B2R wi * total d l).
    { rewrite split_total. f_equal. rewrite <- total_scale. apply total_ext. intros i Hi. apply Il in Hi.
      destruct i; [lia|reflexivity]. }
    rewrite TW in D2.
    assert (DD : 0 <= Dj * Dk) by (apply Rmult_le_pos; lra).
    assert (Td : Rabs (total d l) <= 12 * (Dj * Dk)).
    { eapply Rle_trans; [apply total_abs|]. eapply Rle_trans; [apply (total_le _ (fun _ => Dj * Dk))|].
      - intros i Hi. apply Dd. apply Il in Hi. lia.
      - rewrite total_const, Ll. apply Rmult_le_compat_r; lra. }
    assert (D3 : Rabs ((B2R wc - (2 / (IZR n + 2) + 1)) * d 0%nat) <= u32 * (Dj * Dk)).
    { rewrite Rabs_mult. apply Rmult_le_compat; try apply Rabs_pos; [exact Dc|now apply Dd]. }
    assert (D4 : Rabs ((B2R wi - / (2 * (IZR n + 2))) * total d l) <= u32 / 16 * (12 * (Dj * Dk))).
    { rewrite Rabs_mult. apply Rmult_le_compat; try apply Rabs_pos; assumption. }
    fold (d 0%nat). fold d.
    apply Rabs_le_inv in D1, D2, D3, D4.
    assert (V : Dj * Dk <= Mj * Dk + Mk * Dj).
    { assert (Dj * Dk <= 2 * Mj * Dk) by (apply Rmult_le_compat_r; lra).
      assert (Dj * Dk <= Dj * (2 * Mk)) by (apply Rmult_le_compat_l; lra). lra. }
    assert (X0 : 0 <= Mj * Dk) by (apply Rmult_le_pos; lra). assert (Y0 : 0 <= Mk * Dj) by (apply Rmult_le_pos; lra).
    replace (Aj * Ak) with (Dj * Dk + 18 * u32 * (Mj * Dk + Mk * Dj) + 324 * (u32 * u32) * (Mj * Mk)) in D1
      by (unfold Aj, Ak, Ej, Ek; ring).
    replace (Ej * Ak + Dj * Ek) with (18 * u32 * (Mj * Dk + Mk * Dj) + 324 * (u32 * u32) * (Mj * Mk)) in D2
      by (unfold Ak, Ej, Ek; ring).
    set (X := Mj * Dk) in *. set (Y := Mk * Dj) in *. set (Z0 := Mj * Mk) in *. set (V0 := Dj * Dk) in *.
    set (q := 2 / (IZR n + 2)) in *. set (r := / (2 * (IZR n + 2))) in *. set (T := total d l) in *.
    set (p := B2R P) in *. set (d0 := d 0%nat) in *. set (E0 := total e (leaves t)) in *.
    clearbody X Y Z0 V0 T p d0 E0 g q r.
    assert (K1 : 13.001 * u32 * (4.03 * (V0 + 18 * u32 * (X + Y) + 324 * (u32 * u32) * Z0) + 13 * g) <=
                 52.5 * u32 * (X + Y) + 2 * u32 * u32 * Z0) by (unfold u32 in *; lra).
    assert (K2 : 2.0001 * (18 * u32 * (X + Y) + 324 * (u32 * u32) * Z0) <= 37 * u32 * (X + Y) + 700 * u32 * u32 * Z0)
      by (unfold u32 in *; lra).
    assert (K3 : u32 * V0 + u32 / 16 * (12 * V0) <= 2 * u32 * (X + Y)) by (unfold u32 in *; lra).
    assert (K4 : 0 <= u32 * (X + Y)) by (unfold u32; lra).
    assert (K5 : 0 <= u32 * u32 * Z0) by (unfold u32; lra).
    apply Rabs_le. lra.
Qed.
