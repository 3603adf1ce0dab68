(** Eigen's LLT in single precision: property C113.  The model is FloatLlt.v;
    [order i j] is the order in which the terms of entry (i, j) are added up, about which
    nothing is assumed. *)
From Coq Require Import ZArith Reals Lra Lia List Arith Permutation.
From Flocq Require Import Core IEEE754.BinarySingleNaN.
From Verif Require Import Float FloatProofs FloatDistance FloatDistanceThms FloatWeight FloatWeightThms FloatUnscented
  FloatUnscentedThms FloatLlt FloatLltThms FloatLltRuns.
Import ListNotations.
Open Scope R_scope.

(** The matrix Eigen factors: it reads the lower triangle only. *)
Definition matrix_of (mat : nat -> nat -> f32) (i j : nat) : R := if j <=? i then B2R (mat i j) else B2R (mat j i).
(** Entry (i, j) of L L', for a matrix L with n columns *)
Definition product (n : nat) (L : nat -> nat -> f32) (i j : nat) : R :=
  total (fun l => B2R (L i l) * B2R (L j l)) (seq 0 n).
(** Each entry is added up in some order of its j + 1 terms. *)
Definition orders (n : nat) (order : nat -> nat -> tree) : Prop :=
  forall i j, (j <= i < n)%nat -> order_of (S j) (order i j).
Definition finite_lower (n : nat) (mat : nat -> nat -> f32) : Prop :=
  forall i j, (j <= i < n)%nat -> is_finite (mat i j) = true.
(** x' A x >= mu (a_11 x_1^2 + a_22 x_2^2 + ...): after scaling to a diagonal of ones, all
    eigenvalues are at least mu. *)
Definition definite_by (mu : R) (n : nat) (A : nat -> nat -> R) : Prop :=
  forall x : nat -> R, mu * total (fun i => A i i * (x i * x i)) (seq 0 n) <=
    total (fun i => total (fun j => A i j * x i * x j) (seq 0 n)) (seq 0 n).

Lemma matrix_diag mat i : matrix_of mat i i = real mat i i.
Proof. unfold matrix_of. now rewrite Nat.leb_refl. Qed.
Lemma product_gram n (L : nat -> nat -> f32) (mat : nat -> nat -> f32) i j : (j <= i < n)%nat ->
  (forall i j, L i j = if j <=? i then mat i j else B754_zero false) -> product n L i j = gram mat i j.
Proof.
  intros H E. unfold product, gram. replace n with (S j + (n - S j))%nat by lia. rewrite seq_app, total_app.
  rewrite (total_zero _ (seq (0 + S j) _)).
  - rewrite Rplus_0_r. apply total_ext. intros l Hl. apply in_seq in Hl. rewrite !E. unfold real.
    destruct (Nat.leb_spec l i); [|lia]. destruct (Nat.leb_spec l j); [reflexivity|lia].
  - intros l Hl. apply in_seq in Hl. rewrite (E j l). destruct (Nat.leb_spec l j); [lia|]. cbn. ring.
Qed.

(** C113: if LLT succeeds, with a factor of finite numbers, then the factor multiplies up
    to nearly the matrix: the error of an entry is 18 roundings of the product of the
    two standard deviations ... *)
Theorem C113_accuracy n order mat : (n <= 6)%nat -> orders n order ->
  (forall i, (i < n)%nat -> bpow radix2 (-100) <= B2R (mat i i)) ->
  snd (llt32 n order mat) = true -> finite_lower n (llt_matrixL32 n order mat) ->
  forall i j, (i < n)%nat -> (j < n)%nat ->
  Rabs (product n (llt_matrixL32 n order mat) i j - matrix_of mat i j)
    <= 18 / 2 ^ 24 * sqrt (B2R (mat i i) * B2R (mat j j)).
Proof.
  intros Hn O D Ok Fin.
  assert (Lower : forall i j, (j <= i < n)%nat ->
    Rabs (product n (llt_matrixL32 n order mat) i j - matrix_of mat i j) <= 18 / 2 ^ 24 * sqrt (B2R (mat i i) * B2R (mat j j))).
  { intros i j Hi. rewrite (product_gram n _ (fst (llt32 n order mat))) by (assumption || reflexivity).
    destruct (llt_cases32 n order O mat) as [[_ H]|[E _]]; [|congruence].
    assert (F : forall a b, (b <= a < n)%nat -> is_finite (fst (llt32 n order mat) a b) = true).
    { intros a b Hab. specialize (Fin a b Hab). unfold llt_matrixL32 in Fin. destruct (Nat.leb_spec b a); [exact Fin|lia]. }
    pose proof (factor_error n order O Hn mat _ n i j H ltac:(lia) ltac:(lia) ltac:(lia) (F i j Hi) (F j j ltac:(lia)) (F i i ltac:(lia))
      (D i ltac:(lia)) (D j ltac:(lia))) as E.
    replace (18 / 2 ^ 24) with (18 * u32) by (unfold u32; cbn; lra).
    unfold matrix_of. destruct (Nat.leb_spec j i); [|lia]. rewrite Rabs_minus_sym. exact E. }
  intros i j Hi Hj. destruct (le_lt_dec j i) as [L|L]; [apply Lower; lia|].
  replace (product n (llt_matrixL32 n order mat) i j) with (product n (llt_matrixL32 n order mat) j i)
    by (unfold product; apply total_ext; intros; ring).
  replace (matrix_of mat i j) with (matrix_of mat j i).
  2:{ unfold matrix_of. destruct (Nat.leb_spec i j), (Nat.leb_spec j i); try lia; reflexivity. }
  rewrite (Rmult_comm (B2R (mat i i))). apply Lower. lia.
Qed.
Print Assumptions C113_accuracy.

(** ... and it does succeed, for up to six components with variances between 2^-80 and
    2^80 whose correlation matrix has no eigenvalue below 2^-16. *)
Theorem C113_success n order mat : (n <= 6)%nat -> orders n order -> finite_lower n mat ->
  (forall i, (i < n)%nat -> bpow radix2 (-80) <= B2R (mat i i) <= bpow radix2 80) ->
  definite_by (/ 2 ^ 16) n (matrix_of mat) ->
  snd (llt32 n order mat) = true /\ finite_lower n (llt_matrixL32 n order mat).
Proof.
  intros Hn O F D Def.
  destruct (llt_runs n order O Hn mat F D) as [Ok Fin].
  - intros x. replace (/ 65536) with (/ 2 ^ 16) by (cbn; lra).
    rewrite (total_ext _ (fun i => matrix_of mat i i * (x i * x i))) by (intros; now rewrite matrix_diag). apply Def.
  - split; [exact Ok|]. intros i j Hi. unfold llt_matrixL32. destruct (Nat.leb_spec j i); [apply Fin; lia|reflexivity].
Qed.
Print Assumptions C113_success.
(** Together *)
Theorem C113_definite n order mat : (n <= 6)%nat -> orders n order -> finite_lower n mat ->
  (forall i, (i < n)%nat -> bpow radix2 (-80) <= B2R (mat i i) <= bpow radix2 80) ->
  definite_by (/ 2 ^ 16) n (matrix_of mat) ->
  forall i j, (i < n)%nat -> (j < n)%nat ->
  Rabs (product n (llt_matrixL32 n order mat) i j - matrix_of mat i j)
    <= 18 / 2 ^ 24 * sqrt (B2R (mat i i) * B2R (mat j j)).
Proof.
  intros Hn O F D Def. destruct (C113_success n order mat Hn O F D Def) as [Ok Fin].
  apply C113_accuracy; try assumption. intros i Hi. destruct (D i Hi) as [A _].
  eapply Rle_trans; [|exact A]. apply bpow_le. lia.
Qed.
Print Assumptions C113_definite.

(** That the matrix is positive definite is not enough: for this one, Eigen reports
    failure (which the library does not look at), and the factor left behind multiplies up
    to a variance of 2 in place of 1. *)
Definition ratio (a b : Z) : f32 := f32_div (f32_of_Z a) (f32_of_Z b).
Definition C113_thin (i j : nat) : f32 :=
  match i, j with
  | 1%nat, 0%nat => ratio 16389 16384
  | 1%nat, 1%nat => ratio 8393729 8388608
  | _, _ => if i =? j then f32_of_Z 1 else f32_of_Z 0
  end.
Lemma value (x : f32) (r : R) : SF2R radix2 (B2SF x) = r -> B2R x = r.
Proof. now rewrite SF2R_B2SF. Qed.
Ltac val := apply value; match goal with |- SF2R _ ?a = _ => let v := eval vm_compute in a in change a with v end;
  unfold SF2R, F2R; cbn; lra.
Lemma v0 : B2R (f32_of_Z 0) = 0. Proof. val. Qed.
Lemma v1 : B2R (f32_of_Z 1) = 1. Proof. val. Qed.
Lemma v2 : B2R (ratio 16389 16384) = 16389 / 16384. Proof. val. Qed.
Lemma v3 : B2R (ratio 8393729 8388608) = 8393729 / 8388608. Proof. val. Qed.
Lemma tree1 t : order_of 1 t -> t = Leaf 0.
Proof.
  intros H. pose proof (Permutation_length H) as N. destruct t as [i|l r].
  - apply Permutation_sym, Permutation_length_1_inv in H. cbn in H. now injection H as ->.
  - cbn in N. rewrite app_length in N. pose proof (leaves_pos l). pose proof (leaves_pos r). lia.
Qed.
Lemma tree2 t : order_of 2 t -> t = Node (Leaf 0) (Leaf 1) \/ t = Node (Leaf 1) (Leaf 0).
Proof.
  intros H. pose proof (Permutation_length H) as N. destruct t as [i|l r]; [discriminate|].
  cbn in N. rewrite app_length in N. pose proof (leaves_pos l). pose proof (leaves_pos r).
  assert (S : forall t, length (leaves t) = 1%nat -> exists i, t = Leaf i).
  { intros [i|u v] Hu; [now exists i|]. cbn in Hu. rewrite app_length in Hu. pose proof (leaves_pos u). pose proof (leaves_pos v). lia. }
  destruct (S l) as [i ->]; [lia|]. destruct (S r) as [j ->]; [lia|].
  cbn in H. apply Permutation_length_2_inv in H || (apply Permutation_sym, Permutation_length_2_inv in H).
  destruct H as [H|H]; injection H as -> ->; auto.
Qed.
Lemma thin_fails order : orders 5 order ->
  llt32 5 order C113_thin = (llt_column32 order C113_thin 0, false) /\
  llt_column32 order C113_thin 0 1 0 = ratio 16389 16384.
Proof.
  intros O. pose proof (tree1 _ (O 0%nat 0%nat ltac:(lia))) as E00. pose proof (tree1 _ (O 1%nat 0%nat ltac:(lia))) as E10.
  assert (P0 : llt_pivot32 order C113_thin 0 = f32_of_Z 1) by (unfold llt_pivot32; now rewrite E00).
  assert (A10 : llt_column32 order C113_thin 0 1 0 = ratio 16389 16384).
  { unfold llt_column32. rewrite P0, E10. apply B2SF_inj. vm_compute. reflexivity. }
  split; [|exact A10].
  unfold llt32. cbn [seq llt_loop32]. rewrite P0.
  replace (Bleb (f32_of_Z 1) (B754_zero false)) with false by (vm_compute; reflexivity).
  replace (Bleb (llt_pivot32 order (llt_column32 order C113_thin 0) 1) (B754_zero false)) with true; [reflexivity|].
  unfold llt_pivot32. change (llt_column32 order C113_thin 0 1 1) with (ratio 8393729 8388608).
  destruct (tree2 _ (O 1%nat 1%nat ltac:(lia))) as [-> | ->]; unfold minus32, sum32; rewrite A10; vm_compute; reflexivity.
Qed.
Theorem C113_thin_refuted : exists mat : nat -> nat -> f32, finite_lower 5 mat /\
  (forall x : nat -> R, (exists i, (i < 5)%nat /\ x i <> 0) ->
     0 < total (fun i => total (fun j => matrix_of mat i j * x i * x j) (seq 0 5)) (seq 0 5)) /\
  (forall i, (i < 5)%nat -> 1 <= matrix_of mat i i <= 1.001) /\
  forall order, orders 5 order ->
    snd (llt32 5 order mat) = false /\ 2 <= product 5 (llt_matrixL32 5 order mat) 1 1.
Proof.
  exists C113_thin. split; [|split; [|split]].
  - intros i j Hi. destruct i as [|[|[|[|[|]]]]]; [| | | | |lia]; destruct j as [|[|[|[|[|]]]]]; try lia; vm_compute; reflexivity.
  - intros x Hx. cbn [seq total]. unfold matrix_of. cbn [Nat.leb C113_thin Nat.eqb]. rewrite v0, v1, v2, v3.
    match goal with |- 0 < ?e => replace e with
      ((x 0%nat + 16389 / 16384 * x 1%nat) * (x 0%nat + 16389 / 16384 * x 1%nat) + 7 / 268435456 * (x 1%nat * x 1%nat)
        + x 2%nat * x 2%nat + x 3%nat * x 3%nat + x 4%nat * x 4%nat) by field end.
    pose proof (Rle_0_sqr (x 0%nat + 16389 / 16384 * x 1%nat)) as S0. unfold Rsqr in S0.
    assert (Q : forall a, 0 <= a * a) by (intros; apply Rle_0_sqr).
    assert (Qs : forall a, a <> 0 -> 0 < a * a) by (intros a Ha; apply Rsqr_pos_lt in Ha; exact Ha).
    pose proof (Q (x 1%nat)). pose proof (Q (x 2%nat)). pose proof (Q (x 3%nat)). pose proof (Q (x 4%nat)).
    destruct (Req_dec (x 1%nat) 0) as [E1|E1]; [|apply Qs in E1; lra].
    destruct Hx as (i & Hi & N). rewrite E1 in *. rewrite !Rmult_0_r in *. rewrite !Rplus_0_r in *.
    destruct i as [|[|[|[|[|]]]]]; [| | | | |lia]; try contradiction; apply Qs in N; lra.
  - intros i Hi. destruct i as [|[|[|[|[|]]]]]; [| | | | |lia]; unfold matrix_of; cbn [Nat.leb C113_thin Nat.eqb];
      rewrite ?v1, ?v3; lra.
  - intros order O. destruct (thin_fails order O) as [E A10]. rewrite E. split; [reflexivity|].
    unfold product, llt_matrixL32. rewrite E. cbn [seq total Nat.leb fst]. rewrite A10.
    change (llt_column32 order C113_thin 0 1 1) with (ratio 8393729 8388608). rewrite v2, v3. cbn. lra.
Qed.
Print Assumptions C113_thin_refuted.

(** A case for the theorems: position with standard deviations of 2 m and 0.5 m that are
    correlated, and independent other components *)
Definition C113_cov (i j : nat) : f32 :=
  match i, j with
  | 0%nat, 0%nat => f32_of_Z 4
  | 1%nat, 0%nat => ratio 4 10
  | 1%nat, 1%nat => ratio 1 4
  | _, _ => if i =? j then ratio 1 8 else f32_of_Z 0
  end.
Fixpoint chain (k : nat) : tree := match k with O => Leaf 0 | S k' => Node (chain k') (Leaf k) end.
Lemma chain_order k : order_of (S k) (chain k).
Proof.
  unfold order_of. induction k as [|k IH]; [reflexivity|]. rewrite seq_S. cbn [leaves chain]. apply Permutation_app; [exact IH|reflexivity].
Qed.
Lemma w0 : B2R (f32_of_Z 4) = 4. Proof. val. Qed.
Lemma w1 : B2R (ratio 4 10) = 13421773 / 33554432. Proof. val. Qed.
Lemma w2 : B2R (ratio 1 4) = 1 / 4. Proof. val. Qed.
Lemma w3 : B2R (ratio 1 8) = 1 / 8. Proof. val. Qed.
Example C113_case : orders 5 (fun _ j => chain j) /\ finite_lower 5 C113_cov /\
  (forall i, (i < 5)%nat -> bpow radix2 (-80) <= B2R (C113_cov i i) <= bpow radix2 80) /\
  definite_by (/ 2 ^ 16) 5 (matrix_of C113_cov) /\
  Rabs (product 5 (llt_matrixL32 5 (fun _ j => chain j) C113_cov) 1 0 - B2R (ratio 4 10)) <= 18 / 2 ^ 24.
Proof.
  assert (O : orders 5 (fun _ j => chain j)) by (intros i j _; apply chain_order).
  assert (F : finite_lower 5 C113_cov).
  { intros i j Hi. destruct i as [|[|[|[|[|]]]]]; [| | | | |lia]; destruct j as [|[|[|[|[|]]]]]; try lia; vm_compute; reflexivity. }
  assert (D : forall i, (i < 5)%nat -> bpow radix2 (-80) <= B2R (C113_cov i i) <= bpow radix2 80).
  { intros i Hi. assert (A : bpow radix2 (-80) <= bpow radix2 (-3)) by (apply bpow_le; lia).
    assert (B : bpow radix2 2 <= bpow radix2 80) by (apply bpow_le; lia).
    change (bpow radix2 (-3)) with (/ 8) in A. change (bpow radix2 2) with 4 in B.
    destruct i as [|[|[|[|[|]]]]]; [| | | | |lia]; cbn [C113_cov Nat.eqb]; rewrite ?w0, ?w2, ?w3; lra. }
  assert (P : definite_by (/ 2 ^ 16) 5 (matrix_of C113_cov)).
  { intros x. cbn [seq total]. unfold matrix_of. cbn [Nat.leb C113_cov Nat.eqb]. rewrite v0, w0, w1, w2, w3.
    assert (Q : forall a, 0 <= a * a) by (intros; apply Rle_0_sqr).
    pose proof (Q (x 0%nat)). pose proof (Q (x 1%nat)). pose proof (Q (x 2%nat)). pose proof (Q (x 3%nat)). pose proof (Q (x 4%nat)).
    pose proof (Q (x 0%nat + x 1%nat)). pose proof (Q (x 0%nat + / 5 * x 1%nat)). cbn [pow]. nra. }
  repeat (split; [assumption|]).
  pose proof (C113_definite 5 _ C113_cov ltac:(lia) O F D P 1 0 ltac:(lia) ltac:(lia)) as E.
  change (matrix_of C113_cov 1 0) with (B2R (ratio 4 10)) in E. eapply Rle_trans; [exact E|].
  change (B2R (C113_cov 1 1)) with (B2R (ratio 1 4)). change (B2R (C113_cov 0 0)) with (B2R (f32_of_Z 4)). rewrite w0, w2.
  replace (1 / 4 * 4) with 1 by field. rewrite sqrt_1. lra.
Qed.
