(** Eigen's inverse of covariances in single precision: property C116.  The model is
    FloatLu.v; the number of rows is 5 (CTRV) or 6 (CTRA). *)
From Coq Require Import ZArith Reals Lra Lia List Arith.
From Flocq Require Import Core IEEE754.BinarySingleNaN.
From Verif Require Import Float FloatProofs FloatDistance FloatWeight FloatWeightThms FloatUnscented FloatUnscentedThms
  FloatLlt FloatLltThms FloatLltRuns FloatLu FloatLuThms FloatSolve InverseSpec NormThms FloatInverse.
Import ListNotations.
Open Scope R_scope.

(** The exact values of a matrix of floats, and matrices with finite entries of at most b *)
Definition values (m : nat -> nat -> f32) (i j : nat) : R := B2R (m i j).
Definition entries_within (b : R) (n : nat) (m : nat -> nat -> f32) : Prop :=
  forall i j, (i < n)%nat -> (j < n)%nat -> is_finite (m i j) = true /\ Rabs (B2R (m i j)) <= b.
Definition states (n : nat) : Prop := n = 5%nat \/ n = 6%nat.

Theorem C116_residual n e m j : states n -> (-60 <= e <= 60)%Z -> entries_within (bpow radix2 e) n m ->
  (forall k, (k < n)%nat -> is_finite (inverse32 n m k j) = true) ->
  forall i, (i < n)%nat ->
  Rabs (apply n (values m) (fun k => B2R (inverse32 n m k j)) i - unit_entry i j)
    <= bpow radix2 (e + Z.of_nat n - 19) * total (fun k => Rabs (B2R (inverse32 n m k j))) (seq 0 n) + bpow radix2 (-80).
Proof.
  intros Hn He Hm F i Hi. replace (unit_entry i j) with (delta i j) by (unfold unit_entry, delta; now rewrite Nat.eqb_sym).
  apply (residual n e m j); try assumption. destruct Hn; lia.
Qed.

Theorem C116_accuracy n e m a : states n -> (-20 <= e <= 40)%Z -> entries_within (bpow radix2 e) n m ->
  at_least a n (values m) -> INR n * bpow radix2 (e + Z.of_nat n - 17) <= a ->
  (forall k j, (k < n)%nat -> (j < n)%nat -> is_finite (inverse32 n m k j) = true) /\
  forall exact, inverse_of n (values m) exact -> forall k j, (k < n)%nat -> (j < n)%nat ->
  Rabs (B2R (inverse32 n m k j) - exact k j) <=
    1.4 * (INR n * bpow radix2 (e + Z.of_nat n - 19) / a) * norm n (fun k => exact k j).
Proof.
  intros Hn He Hm Ha Hc. assert (L : (2 <= n)%nat) by (destruct Hn; lia). assert (S : (n <= 6)%nat) by (destruct Hn; lia). split.
  - intros k j Hk _. now apply (inverse_finite n e m a).
  - intros Y HY k j Hk Hj. eapply Rle_trans; [exact (norm_coordinate n (fun k => B2R (inverse32 n m k j) - Y k j) k Hk)|].
    now apply (inverse_error n e m a).
Qed.

Theorem C116_singular n e m z : states n -> (-60 <= e <= 60)%Z -> entries_within (bpow radix2 e) n m ->
  (exists i, (i < n)%nat /\ z i <> 0) -> (forall j, (j < n)%nat -> total (fun i => z i * values m i j) (seq 0 n) = 0) ->
  exists k j, (k < n)%nat /\ (j < n)%nat /\
    (is_finite (inverse32 n m k j) = false \/ bpow radix2 (12 - Z.of_nat n - e) <= Rabs (B2R (inverse32 n m k j))).
Proof. intros Hn. apply singular_inverse. destruct Hn; lia. Qed.

(** A symmetric, diagonally dominant covariance and its inverse *)
Definition C116_table : list Z := [9;3;1;0;2; 3;11;2;1;0; 1;2;10;3;1; 0;1;3;13;2; 2;0;1;2;7]%Z.
Definition C116_cov (i j : nat) : f32 := f32_of_Z (nth (5 * i + j) C116_table 0%Z).
Definition C116_exact_table : list Z := [8525;-2325;-325;650;-2575; -2325;6711;-1080;-411;936; -325;-1080;7175;-1495;-505;
  650;-411;-1495;5561;-1561; -2575;936;-505;-1561;10436]%Z.
Definition C116_exact (i j : nat) : R := IZR (nth (5 * i + j) C116_exact_table 0%Z) / 64275.
Lemma cov_value i j : (i < 5)%nat -> (j < 5)%nat -> B2R (C116_cov i j) = IZR (nth (5 * i + j) C116_table 0%Z) /\ is_finite (C116_cov i j) = true.
Proof.
  intros Hi Hj. apply int32_value.
  destruct i as [|[|[|[|[|]]]]]; [| | | | |lia]; (destruct j as [|[|[|[|[|]]]]]; [| | | | |lia]); cbn; lia.
Qed.
Ltac below := match goal with H : (?i < 5)%nat |- _ => destruct i as [|[|[|[|[|]]]]]; [| | | | |lia]; clear H end.
Lemma cov_within : entries_within (bpow radix2 4) 5 C116_cov.
Proof.
  intros i j Hi Hj. destruct (cov_value i j Hi Hj) as [-> F]. split; [exact F|].
  change (bpow radix2 4) with 16. rewrite <- abs_IZR. apply IZR_le. below; below; vm_compute; discriminate.
Qed.
Lemma cov_at_least : at_least 2 5 (values C116_cov).
Proof.
  intros z. unfold apply, values.
  rewrite (total_ext (fun i => z i * total (fun j => B2R (C116_cov i j) * z j) (seq 0 5)) (fun i => z i * total (fun j => IZR (nth (5 * i + j) C116_table 0%Z) * z j) (seq 0 5)) (seq 0 5)).
  2:{ intros i Hi. apply in_seq in Hi. f_equal. apply total_ext. intros j Hj. apply in_seq in Hj. now rewrite (proj1 (cov_value i j ltac:(lia) ltac:(lia))). }
  cbn [seq total]. cbn [Nat.mul Nat.add C116_table nth].
  set (a := z 0%nat). set (b := z 1%nat). set (c := z 2%nat). set (d := z 3%nat). set (g := z 4%nat).
  assert (Q : forall x, 0 <= x * x) by (intros; apply Rle_0_sqr).
  pose proof (Q (a + b)). pose proof (Q (a + c)). pose proof (Q (a + g)). pose proof (Q (b + c)). pose proof (Q (b + d)).
  pose proof (Q (c + d)). pose proof (Q (c + g)). pose proof (Q (d + g)).
  pose proof (Q a). pose proof (Q b). pose proof (Q c). pose proof (Q d). pose proof (Q g). lra.
Qed.
Lemma cov_inverse : inverse_of 5 (values C116_cov) C116_exact.
Proof.
  intros i j Hi Hj. unfold apply, values.
  rewrite (total_ext _ (fun k => IZR (nth (5 * i + k) C116_table 0%Z) * C116_exact k j)).
  2:{ intros k Hk. apply in_seq in Hk. now rewrite (proj1 (cov_value i k ltac:(lia) ltac:(lia))). }
  unfold C116_exact. below; below; cbn [seq total]; cbn [Nat.mul Nat.add C116_table C116_exact_table nth unit_entry Nat.eqb]; unfold unit_entry; cbn [Nat.eqb]; lra.
Qed.

(** The inverse of a symmetric matrix is not symmetric. *)
Theorem C116_symmetry_refuted : exists m a, 0 < a /\ at_least a 5 (values m) /\ entries_within (bpow radix2 4) 5 m /\
  (forall i j, (i < 5)%nat -> (j < 5)%nat -> m i j = m j i) /\
  exists i j, (i < 5)%nat /\ (j < 5)%nat /\ B2R (inverse32 5 m i j) <> B2R (inverse32 5 m j i).
Proof.
  exists C116_cov, 2. split; [lra|]. split; [exact cov_at_least|]. split; [exact cov_within|]. split.
  - intros i j Hi Hj. below; below; reflexivity.
  - exists 3%nat, 1%nat. split; [lia|]. split; [lia|].
    destruct (C116_accuracy 5 4 C116_cov 2) as [F _]; [now left|lia|exact cov_within|exact cov_at_least| |].
    { change (bpow radix2 (4 + Z.of_nat 5 - 17)) with (/ 256). rewrite INR_IZR_INZ. cbn. lra. }
    assert (F1 := F 3%nat 1%nat ltac:(lia) ltac:(lia)). assert (F2 := F 1%nat 3%nat ltac:(lia) ltac:(lia)). clear F.
    intros E. pose proof (Beqb_correct _ _ _ _ F1 F2) as C. rewrite E, Req_bool_true in C by reflexivity.
    revert C. vm_compute. discriminate.
Qed.

Example C116_case : entries_within (bpow radix2 4) 5 C116_cov /\ at_least 2 5 (values C116_cov) /\
  inverse_of 5 (values C116_cov) C116_exact /\ INR 5 * bpow radix2 (4 + Z.of_nat 5 - 17) <= 2 /\
  is_finite (inverse32 5 C116_cov 4 0) = true /\ Rabs (B2R (inverse32 5 C116_cov 4 0) + 2575 / 64275) <= / 2000.
Proof.
  assert (K : INR 5 * bpow radix2 (4 + Z.of_nat 5 - 17) <= 2).
  { change (bpow radix2 (4 + Z.of_nat 5 - 17)) with (/ 256). rewrite INR_IZR_INZ. cbn. lra. }
  destruct (C116_accuracy 5 4 C116_cov 2) as [F A]; [now left|lia|exact cov_within|exact cov_at_least|exact K|].
  repeat (split; [first [exact cov_within|exact cov_at_least|exact cov_inverse|exact K]|]). split; [apply F; lia|].
  specialize (A C116_exact cov_inverse 4%nat 0%nat ltac:(lia) ltac:(lia)).
  replace (B2R (inverse32 5 C116_cov 4 0) + 2575 / 64275) with (B2R (inverse32 5 C116_cov 4 0) - C116_exact 4 0) by (unfold C116_exact; cbn [Nat.mul Nat.add C116_exact_table nth]; lra).
  eapply Rle_trans; [exact A|]. change (bpow radix2 (4 + Z.of_nat 5 - 19)) with (/ 1024).
  assert (N : norm 5 (fun k => C116_exact k 0) <= 29 / 200).
  { unfold norm. rewrite <- (sqrt_square (29 / 200)) by lra. apply sqrt_le_1_alt. unfold C116_exact. cbn [seq total Nat.mul Nat.add C116_exact_table nth]. lra. }
  pose proof (norm_pos 5 (fun k => C116_exact k 0)). rewrite INR_IZR_INZ. cbn [Z.of_nat Pos.of_succ_nat Pos.succ]. lra.
Qed.

(** A singular covariance: the last two states are the same. *)
Definition C116_flat (i j : nat) : f32 := if orb (i =? j) (andb (2 <? i) (2 <? j)) then f32_of_Z 1 else f32_of_Z 0.
Example C116_singular_case : entries_within (bpow radix2 0) 5 C116_flat /\
  (forall j, (j < 5)%nat -> total (fun i => (match i with 3 => 1 | 4 => -1 | _ => 0 end) * values C116_flat i j) (seq 0 5) = 0).
Proof.
  assert (V : forall i j, (i < 5)%nat -> (j < 5)%nat -> is_finite (C116_flat i j) = true /\
    B2R (C116_flat i j) = if orb (i =? j) (andb (2 <? i) (2 <? j)) then 1 else 0).
  { intros i j _ _. unfold C116_flat. destruct (orb _ _); [destruct (int32_value 1 ltac:(lia))|destruct (int32_value 0 ltac:(lia))]; now split. }
  split.
  - intros i j Hi Hj. destruct (V i j Hi Hj) as [F ->]. split; [exact F|]. change (bpow radix2 0) with 1.
    destruct (orb _ _); rewrite ?Rabs_R0, ?Rabs_R1; lra.
  - intros j Hj. unfold values. below; cbn [seq total]; rewrite !(fun i j H1 H2 => proj2 (V i j H1 H2)) by lia; cbn; lra.
Qed.

Print Assumptions C116_residual.
Print Assumptions C116_accuracy.
Print Assumptions C116_singular.
Print Assumptions C116_symmetry_refuted.
