(** How accurate Eigen's LU decomposition is in single precision. *)
From Coq Require Import ZArith Reals Lra Lia Bool List Arith.
From Flocq Require Import Core IEEE754.BinarySingleNaN.
From Verif Require Import Base Float FloatProofs DoubleThms FloatDistance FloatDistanceThms FloatWeight FloatWeightThms
  FloatUnscented FloatUnscentedThms FloatLlt FloatLltThms FloatLu.
Import ListNotations.
Open Scope R_scope.

(** ** Operations that do not overflow *)
Lemma small_finite (k : Z) : (k <= 127)%Z -> forall x, Rabs x <= bpow radix2 k -> Rlt_bool (Rabs x) (bpow radix2 128) = true.
Proof. intros H x B. apply Rlt_bool_true. eapply Rle_lt_trans; [exact B|]. apply bpow_lt. lia. Qed.
Lemma mul_small (x y : f32) k : (-149 <= k <= 127)%Z -> is_finite x = true -> is_finite y = true ->
  Rabs (B2R x * B2R y) <= bpow radix2 k ->
  is_finite (f32_mul x y) = true /\ B2R (f32_mul x y) = rnd32 (B2R x * B2R y) /\ Rabs (B2R (f32_mul x y)) <= bpow radix2 k.
Proof.
  intros Hk Fx Fy B. assert (B' := rnd32_bound _ k ltac:(lia) B).
  pose proof (Bmult_correct 24 128 _ _ mode_NE x y) as C.
  change (round radix2 _ _ (B2R x * B2R y)) with (rnd32 (B2R x * B2R y)) in C.
  rewrite (small_finite k) in C; [|lia|exact B']. destruct C as (E & F & _). unfold f32_mul.
  rewrite F, Fx, Fy. split; [reflexivity|]. rewrite E. split; [reflexivity|exact B'].
Qed.
Lemma sub_small (x y : f32) k : (-149 <= k <= 127)%Z -> is_finite x = true -> is_finite y = true ->
  Rabs (B2R x - B2R y) <= bpow radix2 k ->
  is_finite (f32_sub x y) = true /\ B2R (f32_sub x y) = rnd32 (B2R x - B2R y) /\ Rabs (B2R (f32_sub x y)) <= bpow radix2 k.
Proof.
  intros Hk Fx Fy B. assert (B' := rnd32_bound _ k ltac:(lia) B).
  pose proof (Bminus_correct 24 128 _ _ mode_NE x y Fx Fy) as C.
  change (round radix2 _ _ (B2R x - B2R y)) with (rnd32 (B2R x - B2R y)) in C.
  rewrite (small_finite k) in C; [|lia|exact B']. destruct C as (E & F & _). unfold f32_sub.
  split; [exact F|]. rewrite E. split; [reflexivity|exact B'].
Qed.
Lemma div_small (x y : f32) k : (-149 <= k <= 127)%Z -> is_finite x = true -> B2R y <> 0 ->
  Rabs (B2R x / B2R y) <= bpow radix2 k ->
  is_finite (f32_div x y) = true /\ B2R (f32_div x y) = rnd32 (B2R x / B2R y) /\ Rabs (B2R (f32_div x y)) <= bpow radix2 k.
Proof.
  intros Hk Fx Hy B. assert (B' := rnd32_bound _ k ltac:(lia) B).
  pose proof (Bdiv_correct 24 128 _ _ mode_NE x y Hy) as C.
  change (round radix2 _ _ (B2R x / B2R y)) with (rnd32 (B2R x / B2R y)) in C.
  rewrite (small_finite k) in C; [|lia|exact B']. destruct C as (E & F & _). unfold f32_div.
  split; [now rewrite F|]. rewrite E. split; [reflexivity|exact B'].
Qed.

(** ** The largest entry of a column *)
Section Pivot.
Variables (n : nat) (lu : nat -> nat -> f32) (k : nat).
Hypothesis fin : forall i, (i < n)%nat -> is_finite (lu i k) = true.
Lemma abs_less (x y : f32) : is_finite x = true -> is_finite y = true ->
  Bltb (Babs x) (Babs y) = true <-> Rabs (B2R x) < Rabs (B2R y).
Proof.
  intros Fx Fy. rewrite Bltb_correct by now rewrite is_finite_Babs. rewrite !B2R_Babs.
  split; [case Rlt_bool_spec; [auto|discriminate]|intros H; now apply Rlt_bool_true].
Qed.
Lemma biggest_spec : (k < n)%nat -> let row := row_of_biggest n lu k in
  (k <= row < n)%nat /\ (row = k \/ Rabs (real lu k k) < Rabs (real lu row k)) /\
  (forall i, (k <= i < n)%nat -> Rabs (real lu i k) <= Rabs (real lu row k)).
Proof.
  intros Hk. unfold row_of_biggest.
  assert (G : forall m a best, (a + m = n)%nat -> (k < a)%nat -> (k <= best < n)%nat ->
    (best = k \/ Rabs (real lu k k) < Rabs (real lu best k)) ->
    (forall i, (k <= i < a)%nat -> Rabs (real lu i k) <= Rabs (real lu best k)) ->
    let row := fold_left (fun best i => if Bltb (Babs (lu best k)) (Babs (lu i k)) then i else best) (seq a m) best in
    (k <= row < n)%nat /\ (row = k \/ Rabs (real lu k k) < Rabs (real lu row k)) /\
    (forall i, (k <= i < n)%nat -> Rabs (real lu i k) <= Rabs (real lu row k))).
  { induction m as [|m IH]; intros a best Ham Hka Hb Hs Hall; cbn [seq fold_left].
    - split; [exact Hb|]. split; [exact Hs|]. intros i Hi. apply Hall. lia.
    - destruct (Bltb (Babs (lu best k)) (Babs (lu a k))) eqn:L.
      + apply abs_less in L; [|apply fin; lia|apply fin; lia]. change (Rabs (real lu best k) < Rabs (real lu a k)) in L.
        apply IH; try lia.
        * right. destruct Hs as [-> | Hs]; lra.
        * intros i Hi. destruct (Nat.eq_dec i a) as [-> | N]; [lra|]. specialize (Hall i ltac:(lia)). lra.
      + assert (L' : Rabs (real lu a k) <= Rabs (real lu best k)).
        { apply Rnot_lt_le. intros H. apply (abs_less (lu best k) (lu a k)) in H; [congruence|apply fin; lia|apply fin; lia]. }
        apply IH; try lia; [exact Hs|]. intros i Hi. destruct (Nat.eq_dec i a) as [-> | N]; [exact L'|]. apply Hall. lia. }
  apply G; [lia|lia|lia|now left|]. intros i Hi. replace i with k by lia. lra.
Qed.
End Pivot.

(** ** The loop *)
Definition turn_rows (a b i : nat) : nat := if i =? a then b else if i =? b then a else i.
Lemma turn_rows_rows a b i n : (a < n)%nat -> (b < n)%nat -> (i < n)%nat -> (turn_rows a b i < n)%nat.
Proof. unfold turn_rows. intros. destruct (i =? a); [assumption|]. now destruct (i =? b). Qed.
Lemma turn_rows_low a b i : (i < a)%nat -> (a <= b)%nat -> turn_rows a b i = i.
Proof. unfold turn_rows. intros. destruct (Nat.eqb_spec i a); [lia|]. destruct (Nat.eqb_spec i b); lia. Qed.
Lemma turn_rows_high a b i : (a <= i)%nat -> (a <= b)%nat -> (a <= turn_rows a b i)%nat.
Proof. unfold turn_rows. intros. destruct (Nat.eqb_spec i a); [lia|]. destruct (Nat.eqb_spec i b); lia. Qed.
Lemma turn_rows_twice a b i : turn_rows a b (turn_rows a b i) = i.
Proof.
  unfold turn_rows. destruct (Nat.eqb_spec i a) as [-> | N].
  - destruct (Nat.eqb_spec b a) as [-> | N]; [reflexivity|]. now rewrite Nat.eqb_refl.
  - destruct (Nat.eqb_spec i b) as [-> | N']; [now rewrite Nat.eqb_refl|].
    destruct (Nat.eqb_spec i a); [lia|]. destruct (Nat.eqb_spec i b); lia.
Qed.

Section Loop.
Variables (n : nat) (e : Z) (M : nat -> nat -> f32).
Hypothesis small : (n <= 6)%nat.
Hypothesis range : (-60 <= e <= 60)%Z.
Notation big k := (bpow radix2 (e + Z.of_nat k)).
Lemma big_pos k : 0 < big k. Proof. apply bpow_gt_0. Qed.
Lemma big_next k : big (S k) = 2 * big k.
Proof. replace (e + Z.of_nat (S k))%Z with (1 + (e + Z.of_nat k))%Z by lia. rewrite bpow_plus. reflexivity. Qed.
Lemma big_tiny k : tiny <= u32 * big k / 1000 /\ tiny * big k <= u32 * big k / 1000 /\ 0 < tiny.
Proof.
  pose proof (bpow_gt_0 radix2 (-150)) as P. pose proof (big_pos k) as Q.
  assert (T : tiny <= bpow radix2 (-90) * big k).
  { rewrite <- bpow_plus. apply bpow_le. lia. }
  assert (T90 : bpow radix2 (-90) <= u32 / 1000).
  { apply Rle_trans with (bpow radix2 (-34)); [apply bpow_le; lia|]. change (bpow radix2 (-34)) with (/ 17179869184). unfold u32. lra. }
  assert (T150 : tiny <= u32 / 1000) by (eapply Rle_trans; [|exact T90]; apply bpow_le; lia).
  split; [|split; [|exact P]].
  - eapply Rle_trans; [exact T|]. apply Rle_trans with (u32 / 1000 * big k); [apply Rmult_le_compat_r; lra|]. lra.
  - apply Rle_trans with (u32 / 1000 * big k); [apply Rmult_le_compat_r; lra|]. lra.
Qed.

(** The part of a product of a lower and an upper triangular matrix *)
Definition part (lu : nat -> nat -> f32) (m i j : nat) : R := total (fun l => real lu i l * real lu l j) (seq 0 m).
Definition rows (sigma : nat -> nat) : Prop :=
  (forall r, (r < n)%nat -> (sigma r < n)%nat) /\ (forall i, (i < n)%nat -> exists r, (r < n)%nat /\ sigma r = i).
Record decomposed (lu : nat -> nat -> f32) (sigma : nat -> nat) (k : nat) : Prop := {
  d_rows : rows sigma;
  d_finite : forall i j, (i < n)%nat -> (j < n)%nat -> is_finite (lu i j) = true;
  d_lower : forall i j, (i < n)%nat -> (j < k)%nat -> (j < i)%nat -> Rabs (real lu i j) <= 1;
  d_upper : forall i j, (i < k)%nat -> (i <= j < n)%nat -> Rabs (real lu i j) <= big i;
  d_rest : forall i j, (k <= i < n)%nat -> (k <= j < n)%nat -> Rabs (real lu i j) <= big k;
  d_err_lower : forall i j, (i < n)%nat -> (j < k)%nat -> (j < i)%nat ->
    Rabs (real M (sigma i) j - part lu j i j - real lu i j * real lu j j) <= 4.02 * u32 * big j;
  d_err_upper : forall i j, (i < k)%nat -> (i <= j < n)%nat ->
    Rabs (real M (sigma i) j - part lu i i j - real lu i j) <= 3.01 * u32 * big i;
  d_err_rest : forall i j, (k <= i < n)%nat -> (k <= j < n)%nat ->
    Rabs (real M (sigma i) j - part lu k i j - real lu i j) <= 3.01 * u32 * (big k - big 0)
}.
Lemma scale_spec lu sigma k : (k < n)%nat -> decomposed lu sigma k ->
  let row := row_of_biggest n lu k in let lu1 := lu_scale32 lu k row in let tau := turn_rows k row in
  (k <= row < n)%nat /\
  (forall i j, (i < n)%nat -> (j < n)%nat -> (j <> k \/ (i <= k)%nat) -> lu1 i j = lu (tau i) j) /\
  (forall i, (k < i < n)%nat -> is_finite (lu1 i k) = true /\ Rabs (real lu1 i k) <= 1 /\
    Rabs (real lu (tau i) k - real lu1 i k * real lu1 k k) <= 1.01 * u32 * big k).
Proof.
  intros Hk D row lu1 tau. destruct D as [_ Df _ _ Dr _ _ _].
  destruct (biggest_spec n lu k (fun i Hi => Df i k Hi Hk) Hk) as (R1 & R2 & R3). fold row in R1, R2, R3.
  split; [exact R1|].
  assert (Tn : forall i, (k < i < n)%nat -> (k <= tau i < n)%nat).
  { intros i Hi. split; [apply turn_rows_high; lia|apply turn_rows_rows; lia]. }
  pose proof (big_pos k) as Bk. destruct (big_tiny k) as (T1 & T2 & T3).
  unfold lu1, lu_scale32. destruct (Beqb (Babs (lu row k)) (B754_zero false)) eqn:Z.
  - assert (Z0 : real lu row k = 0).
    { rewrite Beqb_correct in Z by (rewrite ?is_finite_Babs; try apply Df; try lia; reflexivity). rewrite B2R_Babs in Z. cbn [B2R] in Z.
      revert Z. case Req_bool_spec; [|discriminate]. intros H _. unfold real. destruct (Req_dec (B2R (lu row k)) 0) as [|N]; [assumption|]. apply Rabs_no_R0 in N. contradiction. }
    assert (Rk : row = k). { destruct R2 as [|R2]; [assumption|]. rewrite Z0, Rabs_R0 in R2. pose proof (Rabs_pos (real lu k k)). lra. }
    assert (Tid : forall i, tau i = i).
    { intros i. unfold tau, turn_rows. rewrite Rk. destruct (Nat.eqb_spec i k); [lia|reflexivity]. }
    split; [intros; now rewrite Tid|].
    intros i Hi. rewrite Tid. specialize (R3 i ltac:(lia)). rewrite Z0, Rabs_R0 in R3.
    split; [apply Df; lia|]. split; [lra|].
    assert (Zi : real lu i k = 0) by (destruct (Req_dec (real lu i k) 0) as [|N]; [assumption|]; apply Rabs_pos_lt in N; lra).
    rewrite Zi, Rmult_0_l, Rminus_0_r, Rabs_R0. apply Rmult_le_pos; [unfold u32; lra|lra].
  - assert (N0 : real lu row k <> 0).
    { intros H. rewrite Beqb_correct in Z by (rewrite ?is_finite_Babs; try apply Df; try lia; reflexivity). rewrite B2R_Babs in Z. cbn [B2R] in Z.
      unfold real in H. rewrite H, Rabs_R0 in Z. rewrite Req_bool_true in Z; [discriminate|reflexivity]. }
    cbv zeta. split.
    + intros i j Hi Hj C. destruct (Nat.eqb_spec j k) as [-> | N]; [|reflexivity].
      destruct (Nat.ltb_spec k i); [lia|]. reflexivity.
    + intros i Hi. unfold real at 1 3 4. rewrite Nat.eqb_refl. destruct (Nat.ltb_spec k i); [|lia]. rewrite Nat.ltb_irrefl. cbn [andb].
      change (swap_rows k row lu i k) with (lu (tau i) k). change (swap_rows k row lu k k) with (lu (tau k) k).
      assert (Tk : tau k = row) by (unfold tau, turn_rows; now rewrite Nat.eqb_refl). rewrite Tk.
      specialize (R3 (tau i) (Tn i Hi)).
      assert (Bx : Rabs (real lu (tau i) k) <= big k) by (apply Dr; [apply Tn; lia|lia]).
      assert (By : Rabs (real lu row k) <= big k) by (apply Dr; lia).
      set (x := lu (tau i) k) in *. set (y := lu row k) in *. change (real lu (tau i) k) with (B2R x) in *. change (real lu row k) with (B2R y) in *.
      assert (Py : 0 < Rabs (B2R y)) by now apply Rabs_pos_lt.
      assert (Q : Rabs (B2R x / B2R y) <= bpow radix2 0).
      { unfold Rdiv. rewrite Rabs_mult, Rabs_inv. apply Rmult_le_reg_r with (Rabs (B2R y)); [exact Py|].
        rewrite Rmult_assoc, Rinv_l by lra. change (bpow radix2 0) with 1. lra. }
      destruct (div_small x y 0 ltac:(lia) (Df _ _ (proj2 (Tn i Hi)) Hk) N0 Q) as (F & E & B).
      split; [exact F|]. split; [exact B|].
      change (Rabs (B2R x - B2R (f32_div x y) * B2R y) <= 1.01 * u32 * big k). rewrite E.
      destruct (rnd32_rel (B2R x / B2R y)) as (ep & h & He & Hh & ->).
      replace (B2R x - (B2R x / B2R y * (1 + ep) + h) * B2R y) with (- (B2R x * ep) - h * B2R y) by (field; exact N0).
      assert (A1 : Rabs (B2R x * ep) <= big k * u32) by (rewrite Rabs_mult; apply Rmult_le_compat; try apply Rabs_pos; assumption).
      assert (A2 : Rabs (h * B2R y) <= tiny * big k) by (rewrite Rabs_mult; apply Rmult_le_compat; try apply Rabs_pos; assumption).
      apply Rabs_le_inv in A1, A2. apply Rabs_le. unfold u32 in *. lra.
Qed.
Lemma part_ext lu lu' m i i' j : (forall l, (l < m)%nat -> lu i l = lu' i' l) -> (forall l, (l < m)%nat -> lu l j = lu' l j) ->
  part lu m i j = part lu' m i' j.
Proof. intros A B. apply total_ext. intros l Hl. apply in_seq in Hl. unfold real. rewrite A, B by lia. reflexivity. Qed.
Lemma part_next lu m i j : part lu (S m) i j = part lu m i j + real lu i m * real lu m j.
Proof. apply total_last. Qed.

Lemma step_spec lu sigma k : (k < n)%nat -> decomposed lu sigma k ->
  let row := row_of_biggest n lu k in
  decomposed (lu_update32 (lu_scale32 lu k row) k) (fun i => sigma (turn_rows k row i)) (S k) /\ (k <= row < n)%nat.
Proof.
  intros Hk D row. destruct (scale_spec lu sigma k Hk D) as (R1 & S1 & S2). fold row in R1, S1, S2.
  set (lu1 := lu_scale32 lu k row) in *. set (tau := turn_rows k row) in *. split; [|exact R1].
  set (lu2 := lu_update32 lu1 k).
  assert (Tr : forall i, (i < n)%nat -> (tau i < n)%nat) by (intros; apply turn_rows_rows; lia).
  assert (Tl : forall i, (i < k)%nat -> tau i = i) by (intros; apply turn_rows_low; lia).
  assert (Th : forall i, (k <= i)%nat -> (k <= tau i)%nat) by (intros; apply turn_rows_high; lia).
  destruct D as [[P1 P2] Df Dl Du Dr El Eu Er].
  pose proof (big_pos k) as Bk. destruct (big_tiny k) as (T1 & T2 & T3).
  (* what an update leaves alone *)
  assert (U0 : forall i j, (i <= k)%nat \/ (j <= k)%nat -> lu2 i j = lu1 i j).
  { intros i j H. unfold lu2, lu_update32. destruct (Nat.ltb_spec k i), (Nat.ltb_spec k j); cbn [andb]; try reflexivity; lia. }
  assert (U1 : forall i j, (k < i)%nat -> (k < j)%nat -> lu2 i j = f32_sub (lu1 i j) (f32_mul (lu1 i k) (lu1 k j))).
  { intros i j Hi Hj. unfold lu2, lu_update32. destruct (Nat.ltb_spec k i), (Nat.ltb_spec k j); cbn [andb]; try reflexivity; lia. }
  assert (V0 : forall i j, (i < n)%nat -> (j < k)%nat -> lu2 i j = lu (tau i) j).
  { intros i j Hi Hj. rewrite U0 by lia. apply S1; lia. }
  assert (V1 : forall i j, (i <= k)%nat -> (j < n)%nat -> lu2 i j = lu (tau i) j).
  { intros i j Hi Hj. rewrite U0 by lia. apply S1; lia. }
  assert (Pk : forall i j, (i < n)%nat -> (j < n)%nat -> part lu2 k i j = part lu k (tau i) j).
  { intros i j Hi Hj. apply part_ext; intros l Hl; [apply V0; lia|]. rewrite V1 by lia. now rewrite Tl. }
  (* the update *)
  assert (Up : forall i j, (k < i < n)%nat -> (k < j < n)%nat -> is_finite (lu2 i j) = true /\ Rabs (real lu2 i j) <= big (S k) /\
    Rabs (real lu (tau i) j - real lu2 i k * real lu2 k j - real lu2 i j) <= 3.01 * u32 * big k).
  { intros i j Hi Hj. destruct (S2 i Hi) as (F1 & B1 & _).
    assert (Ek : lu2 i k = lu1 i k) by (apply U0; lia). assert (Ej : lu2 k j = lu1 k j) by (apply U0; lia).
    unfold real. rewrite Ek, Ej, (U1 i j) by lia.
    assert (Eij : lu1 i j = lu (tau i) j) by (apply S1; lia).
    assert (Ekj : lu1 k j = lu (tau k) j) by (apply S1; lia).
    assert (B2 : Rabs (B2R (lu1 i j)) <= big k). { rewrite Eij. apply Dr; [|lia]. specialize (Th i ltac:(lia)). specialize (Tr i ltac:(lia)). lia. }
    assert (B3 : Rabs (B2R (lu1 k j)) <= big k). { rewrite Ekj. apply Dr; [|lia]. specialize (Th k ltac:(lia)). specialize (Tr k ltac:(lia)). lia. }
    assert (F2 : is_finite (lu1 i j) = true) by (rewrite Eij; apply Df; [apply Tr; lia|lia]).
    assert (F3 : is_finite (lu1 k j) = true) by (rewrite Ekj; apply Df; [apply Tr; lia|lia]).
    rewrite <- Eij.
    change (real lu1 i k) with (B2R (lu1 i k)) in B1.
    set (a := lu1 i j) in *. set (l := lu1 i k) in *. set (u := lu1 k j) in *.
    assert (B4 : Rabs (B2R l * B2R u) <= big k).
    { rewrite Rabs_mult. apply Rle_trans with (1 * big k); [|lra]. apply Rmult_le_compat; try apply Rabs_pos; assumption. }
    destruct (mul_small l u (e + Z.of_nat k) ltac:(lia) F1 F3 B4) as (F5 & E5 & B5).
    assert (B6 : Rabs (B2R a - B2R (f32_mul l u)) <= big (S k)).
    { rewrite big_next. apply Rabs_le_inv in B2, B5. apply Rabs_le. lra. }
    destruct (sub_small a (f32_mul l u) (e + Z.of_nat (S k)) ltac:(lia) F2 F5 B6) as (F7 & E7 & B7).
    split; [exact F7|]. split; [exact B7|]. rewrite E7.
    destruct (rnd32_add (B2R a) (- B2R (f32_mul l u))) as (e2 & He2 & E8); [apply fmtB|apply generic_format_opp, fmtB|].
    change (B2R a + - B2R (f32_mul l u)) with (B2R a - B2R (f32_mul l u)) in E8. rewrite E8.
    destruct (rnd32_rel (B2R l * B2R u)) as (e1 & h & He1 & Hh & E9). rewrite <- E5 in E9.
    assert (A1 : Rabs (B2R l * B2R u * e1) <= big k * u32) by (rewrite Rabs_mult; apply Rmult_le_compat; try apply Rabs_pos; assumption).
    assert (A2 : Rabs ((B2R a - B2R (f32_mul l u)) * e2) <= big (S k) * u32) by (rewrite Rabs_mult; apply Rmult_le_compat; try apply Rabs_pos; assumption).
    rewrite big_next in A2. set (d := (B2R a - B2R (f32_mul l u)) * e2) in *.
    replace ((B2R a - B2R (f32_mul l u)) * (1 + e2)) with (B2R a - B2R (f32_mul l u) + d) by (unfold d; ring).
    rewrite E9. apply Rabs_le_inv in A1, A2, Hh. apply Rabs_le. unfold u32 in *. lra. }
  constructor.
  - split.
    + intros r Hr. apply P1, Tr, Hr.
    + intros i Hi. destruct (P2 i Hi) as (r & Hr & E). exists (tau r). split; [now apply Tr|].
      unfold tau. now rewrite turn_rows_twice.
  - intros i j Hi Hj. destruct (le_gt_dec i k) as [C|C]; [rewrite V1 by lia; apply Df; [apply Tr; lia|lia]|].
    destruct (lt_eq_lt_dec j k) as [[C'| ->]|C'].
    + rewrite V0 by lia. apply Df; [now apply Tr|lia].
    + rewrite U0 by lia. apply S2; lia.
    + apply Up; lia.
  - intros i j Hi Hj Hji. destruct (Nat.eq_dec j k) as [-> | N].
    + unfold real. rewrite U0 by lia. apply S2; lia.
    + unfold real. rewrite V0 by lia. apply Dl; try lia; [now apply Tr|].
      destruct (le_gt_dec k i) as [C|C]; [specialize (Th i C); lia|rewrite Tl; lia].
  - intros i j Hi Hj. unfold real. rewrite V1 by lia. destruct (Nat.eq_dec i k) as [-> | N].
    + apply Dr; [|lia]. specialize (Th k ltac:(lia)). specialize (Tr k ltac:(lia)). lia.
    + rewrite Tl by lia. apply Du; lia.
  - intros i j Hi Hj. apply Up; lia.
  - intros i j Hi Hj Hji. destruct (Nat.eq_dec j k) as [-> | N].
    + rewrite Pk by lia. destruct (S2 i ltac:(lia)) as (_ & _ & A).
      assert (A' : Rabs (real lu (tau i) k - real lu2 i k * real lu2 k k) <= 1.01 * u32 * big k).
      { unfold real at 2 3. rewrite !U0 by lia. exact A. }
      assert (B : Rabs (real M (sigma (tau i)) k - part lu k (tau i) k - real lu (tau i) k) <= 3.01 * u32 * (big k - big 0)).
      { apply Er; [|lia]. specialize (Th i ltac:(lia)). specialize (Tr i ltac:(lia)). lia. }
      pose proof (big_pos 0). apply Rabs_le_inv in A', B. apply Rabs_le. unfold u32 in *. lra.
    + assert (E : part lu2 j i j = part lu j (tau i) j).
      { apply part_ext; intros l Hl; [apply V0; lia|]. rewrite V1 by lia. now rewrite Tl by lia. }
      rewrite E. unfold real at 2 3. rewrite (V0 i j), (V0 j j), (Tl j) by lia. apply El; try lia; [now apply Tr|].
      destruct (le_gt_dec k i) as [C|C]; [specialize (Th i C); lia|rewrite Tl; lia].
  - intros i j Hi Hj. destruct (Nat.eq_dec i k) as [-> | N].
    + rewrite Pk by lia. unfold real at 2. rewrite V1 by lia.
      assert (B : Rabs (real M (sigma (tau k)) j - part lu k (tau k) j - real lu (tau k) j) <= 3.01 * u32 * (big k - big 0)).
      { apply Er; [|lia]. specialize (Th k ltac:(lia)). specialize (Tr k ltac:(lia)). lia. }
      pose proof (big_pos 0). eapply Rle_trans; [exact B|]. unfold u32. lra.
    + assert (E : part lu2 i i j = part lu i (tau i) j).
      { apply part_ext; intros l Hl; [apply V0; lia|]. rewrite V1 by lia. now rewrite Tl by lia. }
      rewrite E. unfold real at 2. rewrite V1, (Tl i) by lia. apply Eu; lia.
  - intros i j Hi Hj. rewrite part_next, Pk by lia. destruct (Up i j ltac:(lia) ltac:(lia)) as (_ & _ & A).
    assert (B : Rabs (real M (sigma (tau i)) j - part lu k (tau i) j - real lu (tau i) j) <= 3.01 * u32 * (big k - big 0)).
    { apply Er; [|lia]. specialize (Th i ltac:(lia)). specialize (Tr i ltac:(lia)). lia. }
    rewrite big_next. apply Rabs_le_inv in A, B. apply Rabs_le. unfold u32 in *. lra.
Qed.

Lemma loop_spec : forall m k lu sigma, (k + m = n)%nat -> decomposed lu sigma k ->
  exists sigma', decomposed (fst (lu_loop32 n (seq k m) lu)) sigma' n /\
    forall (E : Type) (B : nat -> nat -> E) r j,
      permute_rows (snd (lu_loop32 n (seq k m) lu)) (fun r j => B (sigma r) j) r j = B (sigma' r) j.
Proof.
  induction m as [|m IH]; intros k lu sigma Hkm D; cbn [seq lu_loop32].
  - exists sigma. rewrite Nat.add_0_r in Hkm. rewrite <- Hkm. split; [exact D|reflexivity].
  - destruct (step_spec lu sigma k ltac:(lia) D) as [D' _].
    destruct (IH (S k) _ _ ltac:(lia) D') as (sigma' & D2 & P).
    destruct (lu_loop32 n (seq (S k) m) _) as [result transpositions]. cbn [fst snd] in *.
    exists sigma'. split; [exact D2|]. intros E B r j. cbn [permute_rows]. exact (P E B r j).
Qed.

(** ** The factors, and their product *)
Hypothesis finite_M : forall i j, (i < n)%nat -> (j < n)%nat -> is_finite (M i j) = true /\ Rabs (real M i j) <= big 0.
Definition lower (lu : nat -> nat -> f32) (i l : nat) : R := if (l <? i)%nat then real lu i l else if (l =? i)%nat then 1 else 0.
Definition upper (lu : nat -> nat -> f32) (l j : nat) : R := if (l <=? j)%nat then real lu l j else 0.
Lemma decomposition : exists sigma, let lu := fst (partial_lu32 n M) in rows sigma /\
  (forall (E : Type) (B : nat -> nat -> E) r j, permute_rows (snd (partial_lu32 n M)) B r j = B (sigma r) j) /\
  (forall i j, (i < n)%nat -> (j < n)%nat -> is_finite (lu i j) = true) /\
  (forall i l, (i < n)%nat -> Rabs (lower lu i l) <= 1) /\
  (forall l j, (l < n)%nat -> (j < n)%nat -> Rabs (upper lu l j) <= big l) /\
  (forall i j, (i < n)%nat -> (j < n)%nat ->
    Rabs (real M (sigma i) j - total (fun l => lower lu i l * upper lu l j) (seq 0 n)) <= 4.02 * u32 * big i).
Proof.
  assert (D0 : decomposed M (fun i => i) 0).
  { constructor; try (intros; lia).
    - split; [auto|]. intros i Hi. now exists i.
    - intros i j Hi Hj. now apply finite_M.
    - intros i j Hi Hj. apply finite_M; lia.
    - intros i j Hi Hj. unfold part. cbn [seq total]. rewrite Rminus_0_r. unfold Rminus. rewrite Rplus_opp_r, Rabs_R0. lra. }
  destruct (loop_spec n 0 M (fun i => i) eq_refl D0) as (sigma & D & P). exists sigma.
  change (lu_loop32 n (seq 0 n) M) with (partial_lu32 n M) in *. cbv zeta. set (lu := fst (partial_lu32 n M)) in *.
  destruct D as [Rw Df Dl Du _ El Eu _]. split; [exact Rw|]. split; [exact P|]. split; [exact Df|].
  split; [|split].
  - intros i l Hi. unfold lower. destruct (Nat.ltb_spec l i); [apply Dl; lia|].
    destruct (l =? i)%nat; rewrite ?Rabs_R0, ?Rabs_R1; lra.
  - intros l j Hl Hj. unfold upper. destruct (Nat.leb_spec l j); [apply Du; lia|]. rewrite Rabs_R0. apply Rlt_le, big_pos.
  - intros i j Hi Hj.
    assert (Cut : forall m, (m <= n)%nat -> (forall l, (m <= l < n)%nat -> lower lu i l * upper lu l j = 0) ->
      total (fun l => lower lu i l * upper lu l j) (seq 0 n) = total (fun l => lower lu i l * upper lu l j) (seq 0 m)).
    { intros m Hm Hz. replace n with (m + (n - m))%nat at 1 by lia. rewrite seq_app, total_app. cbn [Nat.add].
      assert (Z : total (fun l => lower lu i l * upper lu l j) (seq m (n - m)) = 0).
      { rewrite (total_ext _ (fun _ => 0)); [rewrite total_const; ring|]. intros l Hl. apply in_seq in Hl. apply Hz. lia. }
      rewrite Z. ring. }
    destruct (le_gt_dec i j) as [C|C].
    + rewrite (Cut (S i)).
      * rewrite total_last. replace (lower lu i i) with 1 by (unfold lower; now rewrite Nat.ltb_irrefl, Nat.eqb_refl).
        replace (upper lu i j) with (real lu i j) by (unfold upper; destruct (Nat.leb_spec i j); [reflexivity|lia]).
        rewrite (total_ext _ (fun l => real lu i l * real lu l j)).
        -- fold (part lu i i j). specialize (Eu i j Hi ltac:(lia)). replace (real M (sigma i) j - (part lu i i j + 1 * real lu i j)) with (real M (sigma i) j - part lu i i j - real lu i j) by ring.
           eapply Rle_trans; [exact Eu|]. pose proof (big_pos i). unfold u32. lra.
        -- intros l Hl. apply in_seq in Hl. unfold lower, upper. destruct (Nat.ltb_spec l i), (Nat.leb_spec l j); try lia. reflexivity.
      * lia.
      * intros l Hl. unfold lower. destruct (Nat.ltb_spec l i), (Nat.eqb_spec l i); try lia. ring.
    + rewrite (Cut (S j)).
      * rewrite total_last. replace (lower lu i j) with (real lu i j) by (unfold lower; destruct (Nat.ltb_spec j i); [reflexivity|lia]).
        replace (upper lu j j) with (real lu j j) by (unfold upper; now rewrite Nat.leb_refl).
        rewrite (total_ext _ (fun l => real lu i l * real lu l j)).
        -- fold (part lu j i j). specialize (El i j Hi ltac:(lia) C). replace (real M (sigma i) j - (part lu j i j + real lu i j * real lu j j)) with (real M (sigma i) j - part lu j i j - real lu i j * real lu j j) by ring.
           eapply Rle_trans; [exact El|]. apply Rmult_le_compat_l; [unfold u32; lra|]. apply bpow_le. lia.
        -- intros l Hl. apply in_seq in Hl. unfold lower, upper. destruct (Nat.ltb_spec l i), (Nat.leb_spec l j); try lia. reflexivity.
      * lia.
      * intros l Hl. unfold upper. destruct (Nat.leb_spec l j); try lia. ring.
Qed.
End Loop.
