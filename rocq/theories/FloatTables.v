(** For computing with matrices of floats: what partial_lu32 and determinant32 make of a
    matrix depends on its n * n entries, which may be given by a table. *)
From Coq Require Import ZArith List Arith Bool Lia.
From Flocq Require Import Core IEEE754.BinarySingleNaN.
From Verif Require Import Float FloatDistance FloatWeight FloatLu FloatFusion.
Import ListNotations.

Definition agree (n : nat) (A B : nat -> nat -> f32) : Prop := forall i j, i < n -> j < n -> A i j = B i j.

Lemma prod32_agree t (c d : nat -> f32) : (forall i, In i (leaves t) -> c i = d i) -> prod32 t c = prod32 t d.
Proof.
  induction t as [i|l IHl r IHr]; cbn; intros H; [apply H; auto|].
  rewrite IHl, IHr; [reflexivity|intros; apply H, in_or_app; auto|intros; apply H, in_or_app; auto].
Qed.

Section Agree.
Variable n : nat.
Lemma biggest_agree A B k : agree n A B -> k < n -> row_of_biggest n A k = row_of_biggest n B k /\ row_of_biggest n A k < n.
Proof.
  intros H Hk. unfold row_of_biggest.
  assert (G : forall l b, b < n -> (forall i, In i l -> i < n) ->
    fold_left (fun best i => if Bltb (Babs (A best k)) (Babs (A i k)) then i else best) l b =
    fold_left (fun best i => if Bltb (Babs (B best k)) (Babs (B i k)) then i else best) l b /\
    fold_left (fun best i => if Bltb (Babs (A best k)) (Babs (A i k)) then i else best) l b < n).
  { induction l as [|i l IH]; intros b Hb Hl; cbn [fold_left]; [auto|].
    assert (Hi : i < n) by (apply Hl; now left). rewrite <- (H b k Hb Hk), <- (H i k Hi Hk).
    apply IH; [destruct (Bltb _ _); assumption|intros; apply Hl; now right]. }
  apply G; [exact Hk|]. intros i Hi. apply in_seq in Hi. lia.
Qed.
Lemma swap_agree A B a b : agree n A B -> a < n -> b < n -> agree n (swap_rows a b A) (swap_rows a b B).
Proof. intros H Ha Hb i j Hi Hj. unfold swap_rows. apply H; [|exact Hj]. destruct (i =? a); [exact Hb|]. now destruct (i =? b). Qed.
Lemma scale_agree A B k r : agree n A B -> k < n -> r < n -> agree n (lu_scale32 A k r) (lu_scale32 B k r).
Proof.
  intros H Hk Hr. unfold lu_scale32. rewrite (H r k Hr Hk). destruct (Beqb _ _); [exact H|].
  pose proof (swap_agree A B k r H Hk Hr) as S. intros i j Hi Hj. now rewrite (S i j Hi Hj), (S k k Hk Hk).
Qed.
Lemma update_agree A B k : agree n A B -> k < n -> agree n (lu_update32 A k) (lu_update32 B k).
Proof. intros H Hk i j Hi Hj. unfold lu_update32. now rewrite (H i j Hi Hj), (H i k Hi Hk), (H k j Hk Hj). Qed.
Lemma loop_agree ks : forall A B, agree n A B -> (forall k, In k ks -> k < n) ->
  agree n (fst (lu_loop32 n ks A)) (fst (lu_loop32 n ks B)) /\ snd (lu_loop32 n ks A) = snd (lu_loop32 n ks B).
Proof.
  induction ks as [|k ks IH]; intros A B H Hk; cbn [lu_loop32]; [now split|].
  assert (K : k < n) by (apply Hk; now left). destruct (biggest_agree A B k H K) as [E L]. rewrite <- E.
  set (r := row_of_biggest n A k) in *.
  destruct (IH (lu_update32 (lu_scale32 A k r) k) (lu_update32 (lu_scale32 B k r) k)) as [I1 I2].
  { apply update_agree; [|exact K]. now apply scale_agree. } { intros; apply Hk; now right. }
  destruct (lu_loop32 n ks (lu_update32 (lu_scale32 A k r) k)), (lu_loop32 n ks (lu_update32 (lu_scale32 B k r) k)).
  cbn [fst snd] in *. split; [exact I1|]. now rewrite I2.
Qed.
Lemma determinant_agree t A B : agree n A B -> (forall i, In i (leaves t) -> i < n) -> determinant32 n t A = determinant32 n t B.
Proof.
  intros H Ht. unfold determinant32, partial_lu32.
  destruct (loop_agree (seq 0 n) A B H) as [E1 E2]; [intros k K; apply in_seq in K; lia|].
  destruct (lu_loop32 n (seq 0 n) A), (lu_loop32 n (seq 0 n) B). cbn [fst snd] in *. rewrite E2. f_equal.
  apply prod32_agree. intros i Hi. apply E1; now apply Ht.
Qed.
Lemma weight_agree t A1 A2 B1 B2 : agree n A1 B1 -> agree n A2 B2 -> (forall i, In i (leaves t) -> i < n) ->
  generate_weight32 n t A1 A2 = generate_weight32 n t B1 B2.
Proof.
  intros H1 H2 Ht. unfold generate_weight32. rewrite (determinant_agree t A1 B1 H1 Ht), (determinant_agree t A2 B2 H2 Ht).
  rewrite (determinant_agree t _ (fun i j => f32_add (B1 i j) (B2 i j))); [reflexivity| |exact Ht].
  intros i j Hi Hj. now rewrite H1, H2.
Qed.
Definition agree_vector (x y : nat -> f32) : Prop := forall i, i < n -> x i = y i.
Lemma lower_agree A B x y i : agree n A B -> agree_vector x y -> i < n -> agree_vector (lower_step32 A x i) (lower_step32 B y i).
Proof. intros H V Hi r Hr. unfold lower_step32. now rewrite (V r Hr), (V i Hi), (H r i Hr Hi). Qed.
Lemma upper_agree A B x y i : agree n A B -> agree_vector x y -> i < n -> agree_vector (upper_step32 A x i) (upper_step32 B y i).
Proof. intros H V Hi r Hr. unfold upper_step32. now rewrite (V r Hr), (V i Hi), (H r i Hr Hi), (H i i Hi Hi). Qed.
Lemma steps_agree (step step' : (nat -> f32) -> nat -> nat -> f32) :
  (forall x y i, agree_vector x y -> i < n -> agree_vector (step x i) (step' y i)) ->
  forall l x y, agree_vector x y -> (forall i, In i l -> i < n) -> agree_vector (fold_left step l x) (fold_left step' l y).
Proof. intros S. induction l as [|i l IH]; intros x y V H; cbn [fold_left]; [exact V|]. apply IH; [apply S; [exact V|apply H; now left]|intros; apply H; now right]. Qed.
Lemma solve_agree A B x : agree n A B -> agree_vector (solve32 n A x) (solve32 n B x).
Proof.
  intros H. unfold solve32. apply steps_agree.
  - intros u v i V Hi. now apply upper_agree.
  - apply steps_agree; [intros u v i V Hi; now apply lower_agree|now intros i Hi|]. intros i Hi. apply in_seq in Hi. lia.
  - intros i Hi. apply in_rev, in_seq in Hi. lia.
Qed.
End Agree.

(** A float given by sign, mantissa and exponent *)
Definition of_spec (x : SpecFloat.spec_float) : f32 :=
  match Bool.bool_dec (SpecFloat.valid_binary 24 128 x) true with left H => SF2B x H | right _ => B754_nan end.
Lemma of_spec_B2SF (x : f32) : of_spec (B2SF x) = x.
Proof.
  unfold of_spec. destruct (Bool.bool_dec _ _) as [H|H].
  - apply B2SF_inj. apply B2SF_SF2B.
  - destruct H. apply valid_binary_B2SF.
Qed.
(** The rows one after the other *)
Definition entries (n : nat) (m : nat -> nat -> f32) : list SpecFloat.spec_float :=
  flat_map (fun i => map (fun j => B2SF (m i j)) (seq 0 n)) (seq 0 n).
Definition of_entries (n : nat) (l : list SpecFloat.spec_float) (i j : nat) : f32 := of_spec (nth (n * i + j) l SpecFloat.S754_nan).
Lemma nth_rows {E} (f : nat -> nat -> E) d n j : j < n -> forall m s i, i < m ->
  nth (n * i + j) (flat_map (fun i => map (f i) (seq 0 n)) (seq s m)) d = f (s + i) j.
Proof.
  intros Hj. induction m as [|m IH]; intros s i Hi; [lia|]. cbn [seq flat_map].
  destruct i as [|i].
  - rewrite Nat.mul_0_r, Nat.add_0_l, app_nth1 by (rewrite map_length, seq_length; lia).
    rewrite (nth_indep _ d (f s 0)) by (rewrite map_length, seq_length; lia). rewrite map_nth, seq_nth by lia. now rewrite Nat.add_0_r.
  - rewrite app_nth2; rewrite map_length, seq_length; [|nia]. replace (n * S i + j - n) with (n * i + j) by nia.
    rewrite IH by lia. f_equal. lia.
Qed.
Lemma entries_agree n m : agree n m (of_entries n (entries n m)).
Proof.
  intros i j Hi Hj. unfold of_entries, entries. rewrite (nth_rows (fun i j => B2SF (m i j))) by assumption.
  symmetry. apply of_spec_B2SF.
Qed.

(** The inverse from tables *)
Definition inverse_entries (n : nat) (m : nat -> nat -> f32) : list SpecFloat.spec_float :=
  let lu := entries n (fst (partial_lu32 n m)) in let ts := snd (partial_lu32 n m) in
  entries n (fun i j => solve32 n (of_entries n lu) (fun r => permute_rows ts identity32 r j) i).
Lemma inverse_agree n m : agree n (inverse32 n m) (of_entries n (inverse_entries n m)).
Proof.
  intros i j Hi Hj. unfold inverse_entries. rewrite <- (entries_agree n _ i j Hi Hj). unfold inverse32.
  pose proof (entries_agree n (fst (partial_lu32 n m))) as E. destruct (partial_lu32 n m) as [lu ts]. cbn [fst snd] in *.
  now apply solve_agree.
Qed.
