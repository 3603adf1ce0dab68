(** Lengths of vectors. *)
From Coq Require Import Reals Lra Lia List Arith.
From Flocq Require Import Core.
From Verif Require Import FloatUnscented FloatUnscentedThms FloatCovarianceThms FloatLltThms FloatLltRuns Displacement InverseSpec.
Local Open Scope R_scope.

Section Norm.
Variable n : nat.
Implicit Types (z w : nat -> R) (A : nat -> nat -> R).
Lemma squares_pos z : 0 <= total (fun i => z i * z i) (seq 0 n).
Proof. apply total_nonneg. intros. nra. Qed.
Lemma norm_pos z : 0 <= norm n z. Proof. apply sqrt_pos. Qed.
Lemma norm_square z : norm n z * norm n z = total (fun i => z i * z i) (seq 0 n).
Proof. apply sqrt_sqrt, squares_pos. Qed.
Lemma norm_ext z w : (forall i, (i < n)%nat -> z i = w i) -> norm n z = norm n w.
Proof. intros H. unfold norm. f_equal. apply total_ext. intros i Hi. apply in_seq in Hi. rewrite H by lia. reflexivity. Qed.
Lemma dot_norm z w : Rabs (total (fun i => z i * w i) (seq 0 n)) <= norm n z * norm n w.
Proof. eapply Rle_trans; [apply total_abs|]. apply cauchy_total. Qed.
Lemma norm_triangle z w : norm n (fun i => z i + w i) <= norm n z + norm n w.
Proof.
  apply Rsqr_incr_0_var; [|pose proof (norm_pos z); pose proof (norm_pos w); lra]. unfold Rsqr.
  replace ((norm n z + norm n w) * (norm n z + norm n w)) with (norm n z * norm n z + norm n w * norm n w + 2 * (norm n z * norm n w)) by ring.
  rewrite !norm_square.
  rewrite (total_ext _ (fun i => z i * z i + w i * w i + 2 * (z i * w i))) by (intros; ring).
  rewrite !total_plus, total_scale. pose proof (dot_norm z w) as D. apply Rabs_le_inv in D. lra.
Qed.
Lemma norm_opp z : norm n (fun i => - z i) = norm n z.
Proof. unfold norm. f_equal. apply total_ext. intros. ring. Qed.
Lemma norm_scale c z : norm n (fun i => c * z i) = Rabs c * norm n z.
Proof.
  unfold norm. rewrite (total_ext _ (fun i => (c * c) * (z i * z i))) by (intros; ring). rewrite total_scale, sqrt_mult_alt by nra.
  f_equal. rewrite <- sqrt_Rsqr_abs. reflexivity.
Qed.
Lemma norm_coordinate z k : (k < n)%nat -> Rabs (z k) <= norm n z.
Proof.
  intros H. rewrite <- sqrt_Rsqr_abs. apply sqrt_le_1_alt. unfold Rsqr.
  apply (total_member (fun i => z i * z i)); [intros; nra|apply in_seq; lia].
Qed.
Lemma norm_bound z c : 0 <= c -> (forall i, (i < n)%nat -> Rabs (z i) <= c) -> norm n z <= sqrt (INR n) * c.
Proof.
  intros Hc H. replace (sqrt (INR n) * c) with (sqrt (INR n * (c * c))).
  - apply sqrt_le_1_alt. apply Rle_trans with (total (fun _ => c * c) (seq 0 n)).
    + apply total_le. intros i Hi. apply in_seq in Hi. specialize (H i ltac:(lia)). apply Rabs_le_inv in H. nra.
    + rewrite total_const, seq_length. lra.
  - rewrite sqrt_mult_alt by apply pos_INR. now rewrite sqrt_square.
Qed.
Lemma norm_sum z : total (fun i => Rabs (z i)) (seq 0 n) <= sqrt (INR n) * norm n z.
Proof.
  pose proof (cauchy_total (fun _ => 1) z (seq 0 n)) as C.
  rewrite (total_ext _ (fun i => Rabs (1 * z i))) by (intros; now rewrite Rmult_1_l).
  cbv beta in C. rewrite (total_ext (fun _ => 1 * 1) (fun _ => 1)) in C by (intros; ring).
  rewrite total_const, seq_length, Rmult_1_r in C. exact C.
Qed.
Lemma at_least_norm a A z : at_least a n A -> a * norm n z <= norm n (apply n A z).
Proof.
  intros H. specialize (H z). rewrite <- norm_square in H. pose proof (dot_norm z (apply n A z)) as D.
  apply Rabs_le_inv in D. pose proof (norm_pos z) as P.
  destruct (Rle_lt_or_eq_dec _ _ P) as [Q|Q].
  - apply Rmult_le_reg_l with (norm n z); [exact Q|]. lra.
  - rewrite <- Q, Rmult_0_r. apply norm_pos.
Qed.
Lemma apply_bound A z b : 0 <= b -> (forall i j, (i < n)%nat -> (j < n)%nat -> Rabs (A i j) <= b) -> norm n (apply n A z) <= INR n * b * norm n z.
Proof.
  intros Hb H. pose proof (norm_pos z) as P. pose proof (sqrt_pos (INR n)) as Q.
  apply Rle_trans with (sqrt (INR n) * (b * (sqrt (INR n) * norm n z))).
  - apply norm_bound; [apply Rmult_le_pos; [exact Hb|now apply Rmult_le_pos]|]. intros i Hi.
    unfold apply. eapply Rle_trans; [apply total_abs|].
    apply Rle_trans with (total (fun j => b * Rabs (z j)) (seq 0 n)).
    + apply total_le. intros j Hj. apply in_seq in Hj. rewrite Rabs_mult. apply Rmult_le_compat_r; [apply Rabs_pos|apply H; lia].
    + rewrite total_scale. apply Rmult_le_compat_l; [exact Hb|apply norm_sum].
  - rewrite <- (sqrt_sqrt (INR n)) at 3 by apply pos_INR. lra.
Qed.
Lemma norm_unit j : (j < n)%nat -> norm n (fun i => unit_entry i j) = 1.
Proof.
  intros H. unfold norm. rewrite (total_ext _ (fun i => 1 * delta j i)).
  - rewrite total_delta; [apply sqrt_1|apply seq_NoDup|apply in_seq; lia].
  - intros i _. unfold unit_entry, delta. destruct (i =? j)%nat; ring.
Qed.
Lemma apply_sub A z w i : apply n A (fun k => z k - w k) i = apply n A z i - apply n A w i.
Proof. unfold apply. rewrite <- total_minus. apply total_ext. intros. ring. Qed.
Lemma apply_add A z w i : apply n A (fun k => z k + w k) i = apply n A z i + apply n A w i.
Proof. unfold apply. rewrite <- total_plus. apply total_ext. intros. ring. Qed.
Lemma at_least_entry a A i : (i < n)%nat -> at_least a n A -> a <= A i i.
Proof.
  intros Hi H. specialize (H (delta i)).
  rewrite (total_ext _ (fun k => 1 * delta i k)) in H by (intros k _; unfold delta; destruct (k =? i)%nat; ring).
  rewrite total_delta in H; [|apply seq_NoDup|apply in_seq; lia].
  rewrite (total_ext _ (fun k => apply n A (delta i) k * delta i k)) in H by (intros; ring).
  rewrite total_delta in H; [|apply seq_NoDup|apply in_seq; lia].
  unfold apply in H. rewrite total_delta in H; [lra|apply seq_NoDup|apply in_seq; lia].
Qed.
End Norm.
