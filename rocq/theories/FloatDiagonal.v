(** Eigen's LU decomposition, inverse and determinant of diagonal matrices of floats are
    exact up to the reciprocals. *)
From Coq Require Import ZArith Reals Lra Lia List Arith Bool Permutation.
From Flocq Require Import Core IEEE754.BinarySingleNaN.
From Verif Require Import Float FloatProofs FloatDistance FloatDistanceThms FloatWeight FloatWeightThms FloatUnscented FloatUnscentedThms
  FloatLu FloatFusion FloatMahalanobisErr.
Import ListNotations.
Open Scope R_scope.

(** Nonzero and finite *)
Definition regular (x : f32) : Prop := exists s m e H, x = B754_finite s m e H.
Lemma regular_finite x : regular x -> is_finite x = true.
Proof. intros (s & m & e & H & ->). reflexivity. Qed.
Lemma regular_of (x : f32) : is_finite x = true -> B2R x <> 0 -> regular x.
Proof. intros F N. destruct x as [s|s| |s m e H]; try discriminate; [now cbn in N|]. now exists s, m, e, H. Qed.
Lemma zero_finite x : is_zero x -> is_finite x = true.
Proof. intros [s ->]. reflexivity. Qed.
Lemma zero_value x : is_zero x -> B2R x = 0.
Proof. intros [s ->]. reflexivity. Qed.
Lemma sub_zero_r x z : regular x -> is_zero z -> f32_sub x z = x.
Proof. intros (s & m & e & H & ->) [b ->]. reflexivity. Qed.
Lemma sub_zero_zero x z : is_zero x -> is_zero z -> is_zero (f32_sub x z).
Proof. intros [a ->] [b ->]. unfold f32_sub, Bminus. destruct (Bool.eqb a (negb b)); eexists; reflexivity. Qed.
Lemma add_zero_zero x z : is_zero x -> is_zero z -> is_zero (f32_add x z).
Proof. intros [a ->] [b ->]. unfold f32_add, Bplus. destruct (Bool.eqb a b); eexists; reflexivity. Qed.
Lemma mul_zero_r x y : is_finite x = true -> is_zero y -> is_zero (f32_mul x y).
Proof. intros F [s ->]. destruct x; try discriminate; eexists; reflexivity. Qed.
Lemma div_zero x y : is_zero x -> regular y -> is_zero (f32_div x y).
Proof. intros [b ->] (s & m & e & H & ->). eexists; reflexivity. Qed.
Lemma one_regular : regular (f32_of_Z 1).
Proof. destruct (int32_value 1 ltac:(lia)) as [E F]. apply regular_of; [exact F|rewrite E; lra]. Qed.
Lemma zero_zero : is_zero (f32_of_Z 0).
Proof. now exists false. Qed.

Section Diagonal.
Variable n : nat.
Definition diagonal_of (m : nat -> nat -> f32) (d : nat -> f32) : Prop :=
  (forall i j, (i < n)%nat -> (j < n)%nat -> i <> j -> is_zero (m i j)) /\ (forall i, (i < n)%nat -> m i i = d i /\ regular (d i)).
Lemma biggest lu d k : diagonal_of lu d -> (k < n)%nat -> row_of_biggest n lu k = k.
Proof.
  intros [Z D] Hk. unfold row_of_biggest.
  assert (G : forall l, (forall i, In i l -> (k < i < n)%nat) ->
    fold_left (fun best i => if Bltb (Babs (lu best k)) (Babs (lu i k)) then i else best) l k = k).
  { induction l as [|i l IH]; intros Hl; cbn [fold_left]; [reflexivity|].
    assert (Hi : (k < i < n)%nat) by (apply Hl; now left).
    destruct (D k Hk) as [-> (s & m & e & H & Er)]. destruct (Z i k) as [b Eb]; [lia|lia|lia|]. rewrite Eb, Er. cbn [Babs].
    change (Bltb (B754_finite false m e H) (B754_zero false)) with false. cbv iota. apply IH. intros j Hj. apply Hl. now right. }
  apply G. intros i Hi. apply in_seq in Hi. lia.
Qed.
Lemma swap_same {E : Type} k (m : nat -> nat -> E) i j : swap_rows k k m i j = m i j.
Proof. unfold swap_rows. destruct (Nat.eqb_spec i k) as [->|]; [|]; reflexivity. Qed.
Lemma scale_diagonal lu d k : diagonal_of lu d -> (k < n)%nat -> diagonal_of (lu_scale32 lu k k) d.
Proof.
  intros [Z D] Hk. unfold lu_scale32. destruct (D k Hk) as [Ek Rk]. destruct Rk as (s & m & e & H & Er).
  rewrite Ek, Er. change (Beqb (Babs (B754_finite s m e H)) (B754_zero false)) with false. cbv iota zeta. split.
  - intros i j Hi Hj N. rewrite !swap_same. destruct (Nat.eqb_spec j k) as [->|]; cbn [andb]; [|now apply Z].
    destruct (Nat.ltb_spec k i); [|now apply Z]. rewrite Ek. apply div_zero; [now apply Z|]. apply D. exact Hk.
  - intros i Hi. rewrite swap_same. destruct (Nat.eqb_spec i k) as [->|]; cbn [andb]; [|now apply D].
    rewrite Nat.ltb_irrefl. now apply D.
Qed.
Lemma update_diagonal lu d k : diagonal_of lu d -> (k < n)%nat -> diagonal_of (lu_update32 lu k) d.
Proof.
  intros [Z D] Hk. unfold lu_update32. split.
  - intros i j Hi Hj N. destruct (Nat.ltb_spec k i), (Nat.ltb_spec k j); cbn [andb]; try now apply Z.
    apply sub_zero_zero; [now apply Z|]. apply mul_zero_l; [apply Z; lia|]. apply zero_finite, Z; lia.
  - intros i Hi. destruct (Nat.ltb_spec k i); cbn [andb]; [|now apply D].
    destruct (D i Hi) as [E R]. split; [|exact R]. rewrite E. apply sub_zero_r; [exact R|].
    apply mul_zero_l; [apply Z; lia|]. apply zero_finite, Z; lia.
Qed.
Definition still (transpositions : list (nat * nat)) : Prop := forall p, In p transpositions -> fst p = snd p.
Lemma loop_diagonal ks : (forall k, In k ks -> (k < n)%nat) -> forall lu d, diagonal_of lu d ->
  diagonal_of (fst (lu_loop32 n ks lu)) d /\ still (snd (lu_loop32 n ks lu)).
Proof.
  induction ks as [|k ks IH]; intros Hks lu d H; cbn [lu_loop32]; [split; [exact H|intros p []]|].
  assert (Hk : (k < n)%nat) by (apply Hks; now left).
  rewrite (biggest lu d k H Hk).
  assert (H' : diagonal_of (lu_update32 (lu_scale32 lu k k) k) d) by (apply update_diagonal; [now apply scale_diagonal|exact Hk]).
  destruct (IH (fun j Hj => Hks j (or_intror Hj)) _ d H') as [A B].
  destruct (lu_loop32 n ks (lu_update32 (lu_scale32 lu k k) k)) as [r tr]. cbn [fst snd] in *. split; [exact A|].
  intros p [<-|Hp]; [reflexivity|now apply B].
Qed.
Lemma lu_diagonal m d : diagonal_of m d -> diagonal_of (fst (partial_lu32 n m)) d /\ still (snd (partial_lu32 n m)).
Proof. apply loop_diagonal. intros k Hk. apply in_seq in Hk. lia. Qed.
Lemma permute_still {E : Type} transpositions : still transpositions -> forall (m : nat -> nat -> E) i j, permute_rows transpositions m i j = m i j.
Proof.
  induction transpositions as [|[a b] l IH]; intros H m i j; cbn [permute_rows]; [reflexivity|].
  assert (E1 : a = b) by exact (H (a, b) (or_introl eq_refl)). subst b. rewrite IH by (intros p Hp; apply H; now right). apply swap_same.
Qed.
Lemma sign_still transpositions : still transpositions -> exchange_sign transpositions = 1%Z.
Proof.
  unfold exchange_sign. intros H. assert (G : forall l z, still l -> fold_left (fun sign p => if fst p =? snd p then sign else (- sign)%Z) l z = z).
  { induction l as [|p l IH]; intros z Hl; cbn [fold_left]; [reflexivity|].
    rewrite (Hl p (or_introl eq_refl)), Nat.eqb_refl. apply IH. intros q Hq. apply Hl. now right. }
  now apply G.
Qed.

(** *** The inverse *)
(** A vector with a single nonzero entry, v at j *)
Definition single (x : nat -> f32) (j : nat) (v : f32) : Prop := x j = v /\ forall i, (i < n)%nat -> i <> j -> is_zero (x i).
Lemma lower_single lu d x i j v : diagonal_of lu d -> regular v -> (i < n)%nat -> (j < n)%nat -> single x j v -> single (lower_step32 lu x i) j v.
Proof.
  intros [Z D] R Hi Hj [E S]. unfold lower_step32.
  assert (Fx : is_finite (x i) = true) by (destruct (Nat.eq_dec i j) as [->|N]; [rewrite E; now apply regular_finite|apply zero_finite; now apply S]).
  split.
  - destruct (Nat.ltb_spec i j); [|exact E]. rewrite E. apply sub_zero_r; [exact R|]. apply mul_zero_r; [exact Fx|apply Z; lia].
  - intros r Hr N. destruct (Nat.ltb_spec i r); [|now apply S]. apply sub_zero_zero; [now apply S|]. apply mul_zero_r; [exact Fx|apply Z; lia].
Qed.
Lemma lower_all lu d l : diagonal_of lu d -> (forall i, In i l -> (i < n)%nat) -> forall x j v, regular v -> (j < n)%nat -> single x j v ->
  single (fold_left (lower_step32 lu) l x) j v.
Proof.
  intros H. induction l as [|i l IH]; intros Hl x j v R Hj S; cbn [fold_left]; [exact S|].
  apply IH; [intros k Hk; apply Hl; now right|exact R|exact Hj|]. apply (lower_single lu d); try assumption. apply Hl. now left.
Qed.
Definition reciprocal (x : f32) : f32 := f32_div (f32_of_Z 1) x.
Lemma upper_before lu d x i j v : diagonal_of lu d -> regular v -> is_finite (reciprocal (d i)) = true -> (i < n)%nat -> (j < n)%nat -> i <> j ->
  single x j v -> single (upper_step32 lu x i) j v.
Proof.
  intros [Z D] R F Hi Hj N [E S]. unfold upper_step32. destruct (D i Hi) as [Ei _]. rewrite Ei. fold (reciprocal (d i)).
  assert (B : is_zero (f32_mul (x i) (reciprocal (d i)))) by (apply mul_zero_l; [now apply S|exact F]).
  split.
  - destruct (Nat.eqb_spec j i); [congruence|]. destruct (Nat.ltb_spec j i); [|exact E]. rewrite E. apply sub_zero_r; [exact R|].
    apply mul_zero_l; [exact B|]. apply zero_finite, Z; lia.
  - intros r Hr Nr. destruct (Nat.eqb_spec r i); [exact B|]. destruct (Nat.ltb_spec r i); [|now apply S]. apply sub_zero_zero; [now apply S|].
    apply mul_zero_l; [exact B|]. apply zero_finite, Z; lia.
Qed.
Lemma upper_at lu d x j v : diagonal_of lu d -> is_finite (f32_mul v (reciprocal (d j))) = true -> (j < n)%nat ->
  single x j v -> single (upper_step32 lu x j) j (f32_mul v (reciprocal (d j))).
Proof.
  intros [Z D] F Hj [E S]. unfold upper_step32. destruct (D j Hj) as [Ej _]. rewrite Ej, E. fold (reciprocal (d j)). split.
  - now rewrite Nat.eqb_refl.
  - intros r Hr Nr. destruct (Nat.eqb_spec r j); [congruence|]. destruct (Nat.ltb_spec r j); [|now apply S].
    apply sub_zero_zero; [now apply S|]. apply mul_zero_r; [exact F|apply Z; lia].
Qed.
Lemma upper_all lu d l : diagonal_of lu d -> (forall i, In i l -> (i < n)%nat /\ is_finite (reciprocal (d i)) = true) -> NoDup l ->
  forall x j v, regular v -> regular (f32_mul v (reciprocal (d j))) -> (j < n)%nat -> single x j v ->
  single (fold_left (upper_step32 lu) l x) j (if in_dec Nat.eq_dec j l then f32_mul v (reciprocal (d j)) else v).
Proof.
  intros H. induction l as [|i l IH]; intros Hl ND x j v R R' Hj S; cbn [fold_left]; [exact S|].
  inversion ND as [|? ? N1 N2]; subst. destruct (Hl i (or_introl eq_refl)) as [Hi Fi].
  assert (Hl' : forall k, In k l -> (k < n)%nat /\ is_finite (reciprocal (d k)) = true) by (intros k Hk; apply Hl; now right).
  destruct (Nat.eq_dec i j) as [->|N].
  - pose proof (upper_at lu d x j v H (regular_finite _ R') Hj S) as U.
    (* the rest does not touch entry j *)
    assert (G : forall l x w, (forall k, In k l -> (k < n)%nat /\ is_finite (reciprocal (d k)) = true) -> ~ In j l -> regular w -> single x j w -> single (fold_left (upper_step32 lu) l x) j w).
    { clear - H Hj. induction l as [|k l IH]; intros x w Hl Nj Rw Sx; cbn [fold_left]; [exact Sx|].
      apply IH; [intros q Hq; apply Hl; now right|intros Q; apply Nj; now right|exact Rw|].
      destruct (Hl k (or_introl eq_refl)). apply (upper_before lu d); try assumption. intros ->. apply Nj. now left. }
    destruct (in_dec Nat.eq_dec j (j :: l)) as [I|I]; [|exfalso; apply I; now left]. now apply G.
  - pose proof (upper_before lu d x i j v H R Fi Hi Hj N S) as U. specialize (IH Hl' N2 _ j v R R' Hj U).
    destruct (in_dec Nat.eq_dec j l) as [I|I]; destruct (in_dec Nat.eq_dec j (i :: l)) as [I'|I']; try exact IH.
    + exfalso. apply I'. now right.
    + destruct I' as [I'|I']; [congruence|contradiction].
Qed.
Lemma inverse_diagonal m d : diagonal_of m d -> (forall i, (i < n)%nat -> regular (f32_mul (f32_of_Z 1) (reciprocal (d i))) /\ is_finite (reciprocal (d i)) = true) ->
  diagonal_of (inverse32 n m) (fun i => f32_mul (f32_of_Z 1) (reciprocal (d i))).
Proof.
  intros H R. destruct (lu_diagonal m d H) as [L T]. unfold inverse32. destruct (partial_lu32 n m) as [lu tr]. cbn [fst snd] in *.
  assert (G : forall j, (j < n)%nat -> single (solve32 n lu (fun r => permute_rows tr identity32 r j)) j (f32_mul (f32_of_Z 1) (reciprocal (d j)))).
  { intros j Hj. unfold solve32.
    assert (S0 : single (fun r => permute_rows tr identity32 r j) j (f32_of_Z 1)).
    { split; [rewrite permute_still by exact T; unfold identity32; now rewrite Nat.eqb_refl|].
      intros i Hi N. rewrite permute_still by exact T. unfold identity32. destruct (Nat.eqb_spec i j); [congruence|apply zero_zero]. }
    assert (S1 := lower_all lu d (seq 0 n) L ltac:(intros i Hi; apply in_seq in Hi; lia) _ j _ one_regular Hj S0).
    assert (S2 := upper_all lu d (rev (seq 0 n)) L
      ltac:(intros i Hi; apply in_rev, in_seq in Hi; split; [lia|apply R; lia]) ltac:(apply NoDup_rev, seq_NoDup) _ j _ one_regular (proj1 (R j Hj)) Hj S1).
    destruct (in_dec Nat.eq_dec j (rev (seq 0 n))) as [I|I]; [exact S2|]. exfalso. apply I. rewrite <- in_rev, in_seq. lia. }
  split.
  - intros i j Hi Hj N. now apply (G j Hj).
  - intros i Hi. split; [now apply (G i Hi)|now apply R].
Qed.

(** *** The determinant *)
Lemma mul_one (x : f32) : f32_mul (f32_of_Z 1) x = x.
Proof.
  destruct (int32_value 1 ltac:(lia)) as [E F]. destruct one_regular as (s & m & e & H & Eo).
  assert (s = false).
  { destruct s; [|reflexivity]. exfalso. rewrite Eo in E. cbn in E. assert (F2R (Float radix2 (Z.neg m) e) < 0) by (apply F2R_lt_0; reflexivity). lra. }
  subst s. destruct x as [b|b| |b mx ex Hx].
  - rewrite Eo. cbn. destruct b; reflexivity.
  - rewrite Eo. cbn. destruct b; reflexivity.
  - rewrite Eo. reflexivity.
  - set (x := B754_finite b mx ex Hx).
    pose proof (Bmult_correct 24 128 _ _ mode_NE (f32_of_Z 1) x) as C. rewrite E, Rmult_1_l in C.
    rewrite round_generic in C; [|apply valid_rnd_round_mode|apply generic_format_B2R].
    rewrite Rlt_bool_true in C by apply abs_B2R_lt_emax. destruct C as (V & G & S).
    rewrite F in G. cbn [andb] in G. change (is_finite x) with true in G.
    apply B2R_Bsign_inj; [exact G|reflexivity|exact V|].
    change (f32_mul (f32_of_Z 1) x) with (Bmult mode_NE (f32_of_Z 1) x). rewrite S; [rewrite Eo; cbn; now destruct b|]. revert G. destruct (Bmult mode_NE (f32_of_Z 1) x); intros; try reflexivity; discriminate.
Qed.
Lemma prod_ext t (c d : nat -> f32) : (forall i, In i (leaves t) -> c i = d i) -> prod32 t c = prod32 t d.
Proof.
  induction t as [i|l IHl r IHr]; intros H; cbn [prod32 leaves] in *; [apply H; now left|].
  rewrite IHl, IHr; [reflexivity|intros i Hi; apply H, in_or_app; now right|intros i Hi; apply H, in_or_app; now left].
Qed.
Lemma determinant_diagonal t m d : order_of n t -> diagonal_of m d -> determinant32 n t m = det32 t d.
Proof.
  intros O H. destruct (lu_diagonal m d H) as [[_ L] T]. unfold determinant32, det32. destruct (partial_lu32 n m) as [lu tr]. cbn [fst snd] in *.
  rewrite (sign_still _ T), mul_one. apply prod_ext. intros i Hi. apply L. apply (Permutation_in _ O), in_seq in Hi. lia.
Qed.
Lemma weight_diagonal t Y1 Y2 d1 d2 : order_of n t -> diagonal_of Y1 d1 -> diagonal_of Y2 d2 ->
  (forall i, (i < n)%nat -> regular (f32_add (d1 i) (d2 i))) -> generate_weight32 n t Y1 Y2 = weight32 t d1 d2.
Proof.
  intros O H1 H2 R. unfold generate_weight32, weight32.
  rewrite (determinant_diagonal t Y1 d1 O H1), (determinant_diagonal t Y2 d2 O H2).
  rewrite (determinant_diagonal t _ (fun i => f32_add (d1 i) (d2 i)) O); [reflexivity|].
  destruct H1 as [Z1 D1], H2 as [Z2 D2]. split.
  - intros i j Hi Hj N. apply add_zero_zero; auto.
  - intros i Hi. split; [|now apply R]. destruct (D1 i Hi) as [-> _], (D2 i Hi) as [-> _]. reflexivity.
Qed.
End Diagonal.
