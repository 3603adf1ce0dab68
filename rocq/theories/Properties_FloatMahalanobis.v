(** mahalanobis_distance in single precision: property C117.  The model is
    FloatMahalanobis.v; what is said of exact numbers is in MahalanobisSpec.v and InverseSpec.v. *)
From Coq Require Import ZArith Reals Lra Lia List Arith Permutation.
From Flocq Require Import Core IEEE754.BinarySingleNaN.
From Verif Require Import Float FloatProofs Motion DoubleArith DoubleThms FloatDistance FloatDistanceThms FloatWeight FloatUnscented FloatUnscentedThms
  FloatMahalanobis FloatMahalanobisThms FloatMahalanobisErr InverseSpec MahalanobisSpec.
Import ListNotations.
Open Scope R_scope.

(** The orders in which Eigen may add up three numbers *)
Definition orders (o : pose_orders) : Prop :=
  order_of 3 (order_det o) /\ (forall j, (j < 3)%nat -> order_of 3 (order_row o j)) /\ order_of 3 (order_dot o).
(** The covariance of x, y and heading is finite, symmetric and positive semidefinite; the
    variances are between sigma^2 (and 2^-20) and 2^20; the determinant is at least delta times the
    product of the variances: delta = 1 without correlations, delta = 0 for full correlation. *)
Definition usable (delta sigma : R) (covariance : nat -> nat -> f32) : Prop :=
  (forall i j, In i [0; 1; 3]%nat -> In j [0; 1; 3]%nat -> is_finite (covariance i j) = true) /\
  (forall i j, (i < 3)%nat -> (j < 3)%nat -> pose covariance i j = pose covariance j i) /\
  at_least 0 3 (pose covariance) /\
  (forall i, (i < 3)%nat -> bpow radix2 (-20) <= pose covariance i i <= bpow radix2 20 /\ sigma * sigma <= pose covariance i i) /\
  / 64 <= delta <= 1 /\ 0 < sigma /\
  delta * (pose covariance 0 0 * pose covariance 1 1 * pose covariance 2 2) <= det3 (pose covariance).
Definition coordinates_within (e : Z) (p : list f64) : Prop :=
  Forall (fun v : f64 => is_finite v = true /\ Rabs (B2R v) <= bpow radix2 e) p.
Section States.
Context (sine cosine : f64 -> f64) (phase : f64 -> f64 -> f64).
Notation D := (doubles sine cosine phase).
Definition ctrv_pose (s : ctrv_state D) : list f64 := [v_x s : f64; v_y s : f64; get_angle (v_yaw s) : f64].
Definition ctra_pose (s : ctra_state D) : list f64 := [a_x s : f64; a_y s : f64; get_angle (a_yaw s) : f64].
End States.

Lemma pose_pm cov i j : (i < 3)%nat -> (j < 3)%nat -> pose cov i j = pm cov i j.
Proof. intros Hi Hj. destruct i as [|[|[|]]]; [| | |lia]; (destruct j as [|[|[|]]]; [| | |lia]); reflexivity. Qed.
Lemma usable_facts delta sigma cov : usable delta sigma cov ->
  (forall i j, (i < 3)%nat -> (j < 3)%nat -> is_finite (pose_cov32 cov i j) = true) /\
  (forall i j, (i < 3)%nat -> (j < 3)%nat -> pm cov i j = pm cov j i) /\
  at_least 0 3 (pm cov) /\
  (forall i, (i < 3)%nat -> bpow radix2 (-20) <= pm cov i i <= bpow radix2 20) /\
  (forall i, (i < 3)%nat -> sigma * sigma <= pm cov i i) /\
  / 64 <= delta <= 1 /\ 0 < sigma /\
  delta * (pm cov 0 0 * pm cov 1 1 * pm cov 2 2) <= det3 (pm cov).
Proof.
  intros (F & S & P & G & Hd & Hs & Dt). split; [|split; [|split; [|split; [|split; [|split; [|split]]]]]]; try assumption.
  - intros i j Hi Hj. apply F; [destruct i as [|[|[|]]]|destruct j as [|[|[|]]]]; cbn; tauto || lia.
  - intros i j Hi Hj. rewrite <- !pose_pm by assumption. now apply S.
  - intros i Hi. rewrite <- pose_pm by assumption. now apply G.
  - intros i Hi. rewrite <- pose_pm by assumption. now apply G.
Qed.
Lemma pose_accuracy o cov (p q : list f64) e delta sigma Y x y h x' y' h' :
  p = [x; y; h] -> q = [x'; y'; h'] -> orders o -> (3 <= e <= 19)%Z -> coordinates_within e (p ++ q) -> usable delta sigma cov ->
  inverse_of 3 (pose cov) Y -> (exists i, (i < 3)%nat /\ bpow radix2 (e - 20) <= Rabs (separation p q i)) ->
  let r := pose_mahalanobis32 o (difference32 (x, y, h) (x', y', h')) cov in
  is_finite r = true /\ Rabs (B2R r - mahalanobis Y (separation p q)) <=
    400 * bpow radix2 (-24) / (delta * delta) * mahalanobis Y (separation p q) + 7 * bpow radix2 (e - 22) / (delta * sigma).
Proof.
  intros -> -> O He HF U HY L r. destruct (usable_facts _ _ _ U) as (F & S & P & G & G2 & Hd & Hs & Dt).
  replace (bpow radix2 (-24)) with u32 by (unfold u32; cbn; lra).
  unfold coordinates_within in HF. cbn [app] in HF.
  assert (K : forall i, (i < 3)%nat -> is_finite (difference32 (x, y, h) (x', y', h') i) = true /\
    Rabs (B2R (difference32 (x, y, h) (x', y', h') i) - separation [x; y; h] [x'; y'; h'] i) <= bpow radix2 (e - 22) /\
    Rabs (B2R (difference32 (x, y, h) (x', y', h') i)) <= bpow radix2 21).
  { rewrite Forall_forall in HF.
    destruct (HF x) as [F1 B1]; [cbn; tauto|]. destruct (HF y) as [F2 B2]; [cbn; tauto|]. destruct (HF h) as [F3 B3]; [cbn; tauto|].
    destruct (HF x') as [F1' B1']; [cbn; tauto|]. destruct (HF y') as [F2' B2']; [cbn; tauto|]. destruct (HF h') as [F3' B3']; [cbn; tauto|].
    intros i Hi. destruct i as [|[|[|]]]; [| | |lia]; unfold difference32, separation, differences; cbn [nth]; now apply difference_error. }
  assert (HY' : inverse_of 3 (pm cov) Y).
  { intros i j Hi Hj. rewrite <- (HY i j Hi Hj). unfold apply. rewrite !total3. cbv beta. rewrite !pose_pm by lia. reflexivity. }
  apply (perturbed_error o cov Y delta O F S P G Hd Dt HY'); try assumption.
  - intros i Hi. split; now apply K.
  - destruct L as (i & Hi & L). exists i. split; [exact Hi|]. destruct (K i Hi) as (_ & E & _).
    assert (T : bpow radix2 (e - 20) <= Rabs (B2R (difference32 (x, y, h) (x', y', h') i)) + bpow radix2 (e - 22)).
    { eapply Rle_trans; [exact L|].
      replace (separation [x; y; h] [x'; y'; h'] i) with (B2R (difference32 (x, y, h) (x', y', h') i) - (B2R (difference32 (x, y, h) (x', y', h') i) - separation [x; y; h] [x'; y'; h'] i)) by ring.
      unfold Rminus at 1. eapply Rle_trans; [apply Rabs_triang|]. rewrite Rabs_Ropp. lra. }
    replace (e - 20)%Z with (2 + (e - 22))%Z in T by lia. rewrite bpow_plus in T. change (bpow radix2 2) with 4 in T.
    assert (bpow radix2 (-20) <= bpow radix2 (e - 22)) by (apply bpow_le; lia). pose proof (bpow_gt_0 radix2 (e - 22)). lra.
  - intros i Hi. now apply K.
Qed.

Theorem C117_ctrv_accuracy : forall sine cosine phase o covariance (mean point : ctrv_state (doubles sine cosine phase)) e delta sigma inverse,
  orders o -> usable delta sigma covariance -> inverse_of 3 (pose covariance) inverse ->
  let p := ctrv_pose _ _ _ mean in let q := ctrv_pose _ _ _ point in
  (3 <= e <= 19)%Z -> coordinates_within e (p ++ q) ->
  (exists i, (i < 3)%nat /\ bpow radix2 (e - 20) <= Rabs (separation p q i)) ->
  let r := ctrv_mahalanobis32 sine cosine phase o mean covariance point in
  let exact := mahalanobis inverse (separation p q) in
  is_finite r = true /\
  Rabs (B2R r - exact) <= 400 * bpow radix2 (-24) / (delta * delta) * exact + 7 * bpow radix2 (e - 22) / (delta * sigma).
Proof.
  intros sine cosine phase o cov s t e delta sigma Y O U HY p q He HF L r exact.
  exact (pose_accuracy o cov p q e delta sigma Y _ _ _ _ _ _ eq_refl eq_refl O He HF U HY L).
Qed.
Theorem C117_ctra_accuracy : forall sine cosine phase o covariance (mean point : ctra_state (doubles sine cosine phase)) e delta sigma inverse,
  orders o -> usable delta sigma covariance -> inverse_of 3 (pose covariance) inverse ->
  let p := ctra_pose _ _ _ mean in let q := ctra_pose _ _ _ point in
  (3 <= e <= 19)%Z -> coordinates_within e (p ++ q) ->
  (exists i, (i < 3)%nat /\ bpow radix2 (e - 20) <= Rabs (separation p q i)) ->
  let r := ctra_mahalanobis32 sine cosine phase o mean covariance point in
  let exact := mahalanobis inverse (separation p q) in
  is_finite r = true /\
  Rabs (B2R r - exact) <= 400 * bpow radix2 (-24) / (delta * delta) * exact + 7 * bpow radix2 (e - 22) / (delta * sigma).
Proof.
  intros sine cosine phase o cov s t e delta sigma Y O U HY p q He HF L r exact.
  exact (pose_accuracy o cov p q e delta sigma Y _ _ _ _ _ _ eq_refl eq_refl O He HF U HY L).
Qed.

Lemma conv_finite (x : f64) : is_finite x = true -> Rabs (B2R x) <= bpow radix2 60 -> is_finite (f32_of_f64 x) = true.
Proof. intros F B. exact (proj2 (conv32_value x 60 ltac:(lia) F B)). Qed.
Lemma pose_same o cov delta sigma x y h : orders o -> usable delta sigma cov -> coordinates_within 60 [x; y; h] ->
  let r := pose_mahalanobis32 o (difference32 (x, y, h) (x, y, h)) cov in is_finite r = true /\ B2R r = 0.
Proof.
  intros O U HF r. destruct (usable_facts _ _ _ U) as (F & S & P & G & G2 & Hd & Hs & Dt).
  destruct (same_zero o cov delta O F S P G Hd Dt (difference32 (x, y, h) (x, y, h))) as [s E].
  - unfold coordinates_within in HF. rewrite Forall_forall in HF.
    intros i Hi. destruct i as [|[|[|]]]; [| | |lia]; unfold difference32, differences; cbn [nth]; apply sub_same_zero.
    + destruct (HF x) as [F1 B1]; [cbn; tauto|]. now apply conv_finite.
    + destruct (HF y) as [F1 B1]; [cbn; tauto|]. now apply conv_finite.
    + destruct (HF h) as [F1 B1]; [cbn; tauto|]. now apply conv_finite.
  - fold r in E. rewrite E. split; reflexivity.
Qed.
Theorem C117_ctrv_same_pose : forall sine cosine phase o covariance delta sigma (s t : ctrv_state (doubles sine cosine phase)),
  orders o -> usable delta sigma covariance -> coordinates_within 60 (ctrv_pose _ _ _ s) -> ctrv_pose _ _ _ s = ctrv_pose _ _ _ t ->
  let r := ctrv_mahalanobis32 sine cosine phase o s covariance t in is_finite r = true /\ B2R r = 0.
Proof.
  intros sine cosine phase o cov delta sigma s t O U HF E. injection E as E1 E2 E3. unfold ctrv_mahalanobis32, ctrv_pose64.
  rewrite <- E1, <- E2, <- E3. now apply (pose_same o cov delta sigma).
Qed.
Theorem C117_ctra_same_pose : forall sine cosine phase o covariance delta sigma (s t : ctra_state (doubles sine cosine phase)),
  orders o -> usable delta sigma covariance -> coordinates_within 60 (ctra_pose _ _ _ s) -> ctra_pose _ _ _ s = ctra_pose _ _ _ t ->
  let r := ctra_mahalanobis32 sine cosine phase o s covariance t in is_finite r = true /\ B2R r = 0.
Proof.
  intros sine cosine phase o cov delta sigma s t O U HF E. injection E as E1 E2 E3. unfold ctra_mahalanobis32, ctra_pose64.
  rewrite <- E1, <- E2, <- E3. now apply (pose_same o cov delta sigma).
Qed.

(** A covariance with entries 1, 0 and two entries next to 1, positive definite (the smallest
    eigenvalue is at least 2^-26), for which the distance of any two states is not a number *)
Definition near_one (n : Z) : f32 := binary_normalize 24 128 eq_refl eq_refl mode_NE n (-23) false.
Definition C117_cov (i j : nat) : f32 :=
  match i, j with
  | 0%nat, 0%nat => near_one 8392707 | 0%nat, 1%nat => near_one 8390657 | 1%nat, 0%nat => near_one 8390657
  | _, _ => if (i =? j)%nat then f32_of_Z 1 else f32_of_Z 0
  end.
Definition is_nan (x : f32) : bool := match x with B754_nan => true | _ => false end.
Lemma nan_case o diff : orders o -> pose_mahalanobis32 o diff C117_cov = B754_nan.
Proof.
  intros (O & O' & O''). unfold pose_mahalanobis32. cbv zeta.
  assert (N : inverse3_32 (order_det o) (pose_cov32 C117_cov) 2 2 = B754_nan).
  { assert (T : is_nan (inverse3_32 (order_det o) (pose_cov32 C117_cov) 2 2) = true).
    { revert O. generalize (order_det o). apply (all_trees (fun t => is_nan (inverse3_32 t (pose_cov32 C117_cov) 2 2))). vm_compute. reflexivity. }
    destruct (inverse3_32 (order_det o) (pose_cov32 C117_cov) 2 2); discriminate || reflexivity. }
  assert (I : forall t, order_of 3 t -> In 2%nat (leaves t)) by (intros t Ht; apply (Permutation_in _ (Permutation_sym Ht)); cbn; tauto).
  rewrite (sum_nan (order_dot o) _ 2); [reflexivity|now apply I|].
  rewrite (sum_nan (order_row o 2) _ 2); [apply mul_nan_l|apply I, O'; lia|]. rewrite N. apply mul_nan_r.
Qed.
Lemma single_value (x : f32) n : B2SF x = SpecFloat.S754_finite false n (-23) -> B2R x = IZR (Zpos n) * / 8388608.
Proof. intros E. rewrite <- SF2R_B2SF, E. reflexivity. Qed.
Lemma nan_pose i j : (i < 3)%nat -> (j < 3)%nat ->
  pose C117_cov i j = IZR (nth (3 * i + j) [8392707;8390657;0; 8390657;8388608;0; 0;0;8388608]%Z 0%Z) * / 8388608.
Proof.
  intros Hi Hj. destruct i as [|[|[|]]]; [| | |lia]; (destruct j as [|[|[|]]]; [| | |lia]); unfold pose; cbn [nth Nat.mul Nat.add];
    try (apply single_value; vm_compute; reflexivity); rewrite Rmult_0_l; reflexivity.
Qed.
Lemma nan_positive : at_least (bpow radix2 (-26)) 3 (pose C117_cov).
Proof.
  intros z. unfold apply. rewrite !total3. cbv beta.
  rewrite !nan_pose by lia. cbn [nth Nat.mul Nat.add].
  change (bpow radix2 (-26)) with (/ 67108864).
  set (x := z 0%nat). set (y := z 1%nat). set (w := z 2%nat).
  pose proof (Rle_0_sqr x) as X. pose proof (Rle_0_sqr y) as Y. pose proof (Rle_0_sqr w) as W. unfold Rsqr in *.
  pose proof (Rle_0_sqr ((1 - / 67108864) * y + (IZR 8390657 * / 8388608) * x)) as Q. unfold Rsqr in Q. nra.
Qed.
Theorem C117_nan_refuted : exists covariance : nat -> nat -> f32,
  (forall i j, (i < 6)%nat -> (j < 6)%nat -> is_finite (covariance i j) = true /\ covariance i j = covariance j i) /\
  at_least (bpow radix2 (-26)) 3 (pose covariance) /\
  forall sine cosine phase o, orders o ->
    (forall s t : ctrv_state (doubles sine cosine phase), ctrv_mahalanobis32 sine cosine phase o s covariance t = B754_nan) /\
    (forall s t : ctra_state (doubles sine cosine phase), ctra_mahalanobis32 sine cosine phase o s covariance t = B754_nan).
Proof.
  exists C117_cov. split; [|split; [exact nan_positive|]].
  - intros i j Hi Hj. do 6 (destruct i as [|i]; [do 6 (destruct j as [|j]; [split; [vm_compute; reflexivity|reflexivity]|]); lia|]). lia.
  - intros sine cosine phase o O. split; intros s t; now apply nan_case.
Qed.

(** Variances 4, 3 and 2, all covariances 1: delta = 1/2, sigma = 1, exact inverse *)
Definition C117_table : list Z := [4;1;0;1;0; 1;3;0;1;0; 0;0;1;0;0; 1;1;0;2;0; 0;0;0;0;1]%Z.
Definition C117_good (i j : nat) : f32 := f32_of_Z (nth (5 * i + j) C117_table 0%Z).
Definition C117_inverse (i j : nat) : R := IZR (nth (3 * i + j) [5;-1;-2; -1;7;-3; -2;-3;11]%Z 0%Z) / 17.
Definition C117_order : pose_orders :=
  let t := Node (Node (Leaf 0) (Leaf 1)) (Leaf 2) in {| order_det := t; order_row := fun _ => t; order_dot := t |}.
Lemma good_value i j : (i < 5)%nat -> (j < 5)%nat -> B2R (C117_good i j) = IZR (nth (5 * i + j) C117_table 0%Z) /\ is_finite (C117_good i j) = true.
Proof.
  intros Hi Hj. apply int32_value.
  destruct i as [|[|[|[|[|]]]]]; [| | | | |lia]; (destruct j as [|[|[|[|[|]]]]]; [| | | | |lia]); cbn; lia.
Qed.
Lemma good_pose i j : (i < 3)%nat -> (j < 3)%nat -> pose C117_good i j = IZR (nth (3 * i + j) [4;1;1; 1;3;1; 1;1;2]%Z 0%Z).
Proof.
  intros Hi Hj. unfold pose.
  destruct i as [|[|[|]]]; [| | |lia]; (destruct j as [|[|[|]]]; [| | |lia]); cbn [nth];
    match goal with |- B2R (C117_good ?a ?b) = _ => rewrite (proj1 (good_value a b ltac:(lia) ltac:(lia))) end; reflexivity.
Qed.
Example C117_case :
  orders C117_order /\ usable (/ 2) 1 C117_good /\ inverse_of 3 (pose C117_good) C117_inverse /\
  let p := [f64_of_Z 3; f64_of_Z 0; f64_of_Z 1] in let q := [f64_of_Z 0; f64_of_Z 4; f64_of_Z 1] in
  coordinates_within 3 (p ++ q) /\ (exists i, (i < 3)%nat /\ bpow radix2 (3 - 20) <= Rabs (separation p q i)).
Proof.
  assert (V : forall z, (0 <= z <= 4)%Z -> is_finite (f64_of_Z z) = true /\ B2R (f64_of_Z z) = IZR z).
  { intros z Hz. destruct (int64_value z) as [E F]; [cbn; lia|]. now split. }
  split; [repeat split; intros; apply Permutation_refl|]. split; [|split; [|split]].
  - split; [|split; [|split; [|split; [|split; [|split]]]]].
    + intros i j Hi Hj. apply good_value; cbn in *; lia.
    + intros i j Hi Hj. rewrite !good_pose by assumption.
      destruct i as [|[|[|]]]; [| | |lia]; (destruct j as [|[|[|]]]; [| | |lia]); reflexivity.
    + intros z. unfold apply. rewrite !total3. cbv beta. rewrite !good_pose by lia. cbn [nth Nat.mul Nat.add].
      pose proof (Rle_0_sqr (z 0%nat + z 1%nat + z 2%nat)). pose proof (Rle_0_sqr (z 0%nat)). pose proof (Rle_0_sqr (z 1%nat)). pose proof (Rle_0_sqr (z 2%nat)). unfold Rsqr in *. lra.
    + intros i Hi. rewrite good_pose by assumption. change (bpow radix2 (-20)) with (/ 1048576). change (bpow radix2 20) with 1048576.
      destruct i as [|[|[|]]]; [| | |lia]; cbn [nth Nat.mul Nat.add]; lra.
    + lra.
    + lra.
    + unfold det3. rewrite !good_pose by lia. cbn [nth Nat.mul Nat.add]. lra.
  - intros i j Hi Hj. unfold apply. rewrite !total3. cbv beta. rewrite !good_pose by lia. unfold C117_inverse, unit_entry.
    destruct i as [|[|[|]]]; [| | |lia]; (destruct j as [|[|[|]]]; [| | |lia]); cbn [nth Nat.mul Nat.add Nat.eqb]; lra.
  - assert (K : forall z, (0 <= z <= 4)%Z -> is_finite (f64_of_Z z) = true /\ Rabs (B2R (f64_of_Z z)) <= bpow radix2 3).
    { intros z Hz. destruct (V z Hz) as [F ->]. split; [exact F|]. change (bpow radix2 3) with 8. assert (0 <= IZR z <= 4) by (split; apply IZR_le; lia).
      rewrite Rabs_pos_eq; lra. }
    unfold coordinates_within. cbn [app]. repeat (constructor; [apply K; lia|]). constructor.
  - exists 0%nat. split; [lia|]. unfold separation. cbn [nth]. rewrite (proj2 (V 3%Z ltac:(lia))), (proj2 (V 0%Z ltac:(lia))). rewrite Rabs_pos_eq by lra. change (bpow radix2 (3 - 20)) with (/ 131072). lra.
Qed.

Print Assumptions C117_ctrv_accuracy.
Print Assumptions C117_ctra_accuracy.
Print Assumptions C117_ctrv_same_pose.
Print Assumptions C117_ctra_same_pose.
Print Assumptions C117_nan_refuted.
