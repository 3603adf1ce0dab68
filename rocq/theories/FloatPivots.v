(** Products of floats that may be negative, and lists of row exchanges. *)
From Coq Require Import ZArith Reals Lra Lia List Arith Bool Permutation.
From Flocq Require Import Core IEEE754.BinarySingleNaN.
From Verif Require Import Float FloatProofs FloatDistance FloatDistanceThms FloatWeight FloatWeightThms FloatUnscented FloatUnscentedThms
  FloatLltThms FloatLu FloatLuThms FloatFusion.
Import ListNotations.
Open Scope R_scope.

Lemma two_errors e1 e2 a b : Rabs e1 <= a - 1 -> Rabs e2 <= b - 1 -> Rabs ((1 + e1) * (1 + e2) - 1) <= a * b - 1.
Proof.
  intros H1 H2. replace ((1 + e1) * (1 + e2) - 1) with (e1 + e2 + e1 * e2) by ring.
  eapply Rle_trans; [apply Rabs_triang|]. pose proof (Rabs_triang e1 e2).
  assert (Rabs (e1 * e2) <= (a - 1) * (b - 1)) by (rewrite Rabs_mult; apply Rmult_le_compat; try apply Rabs_pos; assumption). lra.
Qed.
Lemma prod_signed t (c : nat -> f32) lo hi : (-21 <= lo <= 0)%Z -> (-21 <= hi <= 21)%Z -> (length (leaves t) <= 6)%nat ->
  (forall i, In i (leaves t) -> is_finite (c i) = true /\ bpow radix2 lo <= Rabs (B2R (c i)) <= bpow radix2 hi) ->
  is_finite (prod32 t c) = true /\
  bpow radix2 (lo * Z.of_nat (length (leaves t))) <= Rabs (B2R (prod32 t c)) <= bpow radix2 (hi * Z.of_nat (length (leaves t))) /\
  exists eps, Rabs eps <= (1 + u32) ^ (length (leaves t) - 1) - 1 /\
    B2R (prod32 t c) = rprod (map (fun i => B2R (c i)) (leaves t)) * (1 + eps).
Proof.
  intros Hl Hh. induction t as [i|l IHl r IHr]; intros Hm H.
  - destruct (H i (or_introl eq_refl)) as (F & R1). cbn [leaves length map rprod prod32 Nat.sub pow]. rewrite !Z.mul_1_r.
    split; [exact F|]. split; [exact R1|]. exists 0. rewrite Rabs_R0. split; [lra|ring].
  - pose proof (leaves_pos l) as Pl. pose proof (leaves_pos r) as Pr.
    cbn [leaves] in *. cbn [prod32]. rewrite app_length in *.
    destruct IHl as (Fl & Bl & e1 & H1 & E1); [lia|intros i Hi; apply H, in_or_app; auto|].
    destruct IHr as (Fr & Br & e2 & H2 & E2); [lia|intros i Hi; apply H, in_or_app; auto|].
    rewrite map_app, rprod_app. set (a := length (leaves l)) in *. set (b := length (leaves r)) in *.
    set (p := B2R (prod32 l c)) in *. set (q := B2R (prod32 r c)) in *.
    assert (R : bpow radix2 (lo * Z.of_nat (a + b)) <= Rabs (p * q) <= bpow radix2 (hi * Z.of_nat (a + b))).
    { rewrite Rabs_mult, Nat2Z.inj_add, !Z.mul_add_distr_l, !bpow_plus.
      split; apply Rmult_le_compat; try apply bpow_ge_0; try apply Rabs_pos; lra. }
    destruct (mul32_value (prod32 l c) (prod32 r c) (hi * Z.of_nat (a + b))) as [E F]; [nia|exact Fl|exact Fr|apply R|].
    fold p q in E. split; [exact F|]. rewrite E.
    destruct (rnd32_big (p * q)) as (e3 & H3 & E3).
    { eapply Rle_trans; [|apply R]. apply bpow_le. nia. }
    split.
    + split.
      * assert (G : bpow radix2 (lo * Z.of_nat (a + b)) <= Rabs (rnd32 (p * q))).
        { apply abs_round_ge_generic; [apply FLT_exp_valid; reflexivity|apply valid_rnd_N| |apply R]. apply fmt32_bpow. nia. }
        exact G.
      * apply rnd32_bound; [nia|apply R].
    + exists ((1 + e1) * (1 + e2) * (1 + e3) - 1). split; [|rewrite E3, E1, E2; ring].
      replace (a + b - 1)%nat with ((a - 1) + (b - 1) + 1)%nat by lia. rewrite !pow_add, pow_1.
      pose proof (two_errors _ _ _ _ H1 H2) as T. pose proof (two_errors ((1 + e1) * (1 + e2) - 1) e3 _ (1 + u32) T ltac:(lra)) as T2.
      replace ((1 + e1) * (1 + e2) * (1 + e3) - 1) with ((1 + ((1 + e1) * (1 + e2) - 1)) * (1 + e3) - 1) by ring. exact T2.
Qed.

(** ** Row exchanges *)
Lemma swap_twice {E : Type} a b (m : nat -> nat -> E) i j : swap_rows a b (swap_rows a b m) i j = m i j.
Proof.
  unfold swap_rows. destruct (Nat.eqb_spec i a) as [->|]; [|destruct (Nat.eqb_spec i b) as [->|]].
  - rewrite Nat.eqb_refl. destruct (Nat.eqb_spec b a) as [->|]; reflexivity.
  - now rewrite Nat.eqb_refl.
  - destruct (Nat.eqb_spec i a); [lia|]. destruct (Nat.eqb_spec i b); [lia|reflexivity].
Qed.
Lemma permute_ext {E : Type} ts : forall m m' : nat -> nat -> E, (forall i j, m i j = m' i j) -> forall i j, permute_rows ts m i j = permute_rows ts m' i j.
Proof. induction ts as [|[a b] ts IH]; cbn; intros m m' H; [exact H|]. apply IH. intros i j. unfold swap_rows. apply H. Qed.
Lemma permute_app {E : Type} ts ts' : forall m : nat -> nat -> E, permute_rows (ts ++ ts') m = permute_rows ts' (permute_rows ts m).
Proof. induction ts as [|[a b] ts IH]; cbn; intros m; [reflexivity|apply IH]. Qed.
(** Undone in the opposite order *)
Lemma permute_back {E : Type} ts : forall (m : nat -> nat -> E) i j, permute_rows ts (permute_rows (rev ts) m) i j = m i j.
Proof.
  induction ts as [|[a b] ts IH]; cbn; intros m i j; [reflexivity|]. rewrite permute_app. cbn.
  rewrite (permute_ext ts _ (permute_rows (rev ts) m)); [apply IH|]. intros; apply swap_twice.
Qed.
(** The rows exchanged in the decomposition exist *)
Lemma row_of_biggest_less n lu k : (k < n)%nat -> (row_of_biggest n lu k < n)%nat.
Proof.
  intros Hk. unfold row_of_biggest.
  assert (G : forall l b, (b < n)%nat -> (forall i, In i l -> (i < n)%nat) ->
    (fold_left (fun best i => if Bltb (Babs (lu best k)) (Babs (lu i k)) then i else best) l b < n)%nat).
  { induction l as [|i l IH]; cbn; intros b Hb Hl; [exact Hb|]. apply IH; [|intros; apply Hl; now right].
    destruct (Bltb _ _); [apply Hl; now left|exact Hb]. }
  apply G; [exact Hk|]. intros i Hi. apply in_seq in Hi. lia.
Qed.
Lemma exchanged_rows n m a b : In (a, b) (snd (partial_lu32 n m)) -> (a < n)%nat /\ (b < n)%nat.
Proof.
  unfold partial_lu32.
  assert (G : forall l m, (forall i, In i l -> (i < n)%nat) -> In (a, b) (snd (lu_loop32 n l m)) -> (a < n)%nat /\ (b < n)%nat).
  { induction l as [|k l IH]; cbn; intros m' Hl; [intros []|].
    specialize (IH (lu_update32 (lu_scale32 m' k (row_of_biggest n m' k)) k) ltac:(intros; apply Hl; now right)).
    destruct (lu_loop32 n l _) as [result ts]. cbn in *. intros [H|H]; [|now apply IH].
    injection H as <- <-. split; [apply Hl; now left|apply row_of_biggest_less, Hl; now left]. }
  apply G. intros i Hi. apply in_seq in Hi. lia.
Qed.
(** The sign of the exchanges *)
Fixpoint signs (ts : list (nat * nat)) : R := match ts with [] => 1 | (a, b) :: ts' => (if (a =? b)%nat then 1 else -1) * signs ts' end.
Lemma exchange_sign_value ts : IZR (exchange_sign ts) = signs ts.
Proof.
  unfold exchange_sign.
  assert (G : forall ts s, IZR (fold_left (fun sign p => if fst p =? snd p then sign else (- sign)%Z) ts s) = IZR s * signs ts).
  { clear ts. induction ts as [|[a b] ts IH]; cbn; intros s; [ring|]. rewrite IH. destruct (a =? b); [ring|]. rewrite opp_IZR. ring. }
  rewrite G. ring.
Qed.
Lemma exchange_sign_unit ts : exchange_sign ts = 1%Z \/ exchange_sign ts = (-1)%Z.
Proof.
  unfold exchange_sign.
  assert (G : forall ts s, (s = 1 \/ s = -1)%Z -> let r := fold_left (fun sign p => if fst p =? snd p then sign else (- sign)%Z) ts s in (r = 1 \/ r = -1)%Z).
  { clear ts. induction ts as [|[a b] ts IH]; cbn; intros s H; [exact H|]. apply IH. destruct (a =? b); lia. }
  apply G. now left.
Qed.
Lemma signs_app ts ts' : signs (ts ++ ts') = signs ts * signs ts'.
Proof. induction ts as [|[a b] ts IH]; cbn; [ring|rewrite IH; ring]. Qed.
Lemma signs_rev ts : signs (rev ts) = signs ts.
Proof. induction ts as [|[a b] ts IH]; cbn; [reflexivity|]. rewrite signs_app, IH. cbn. ring. Qed.
