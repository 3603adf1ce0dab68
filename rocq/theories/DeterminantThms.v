(** Determinants of triangular factors and of matrices with exchanged rows. *)
From Coq Require Import Reals List Lra.
From mathcomp Require Import all_ssreflect all_fingroup all_algebra.
From Verif Require Import RealField DeterminantSpec FloatWeightThms FloatUnscentedThms FloatLu FloatLuThms FloatPivots.
Set Implicit Arguments.
Unset Strict Implicit.
Unset Printing Implicit Defensive.
Import GRing.Theory.
Local Open Scope ring_scope.
Local Notation R := R_realFieldType.
Delimit Scope R_scope with coqR.

Lemma determinant_ext n (A B : nat -> nat -> R) : (forall i j, (i < n)%N -> (j < n)%N -> A i j = B i j) -> determinant n A = determinant n B.
Proof. by move=> H; congr (\det _); apply/matrixP => i j; rewrite !mxE H. Qed.
Lemma determinant_swap n a b (A : nat -> nat -> R) : (a < n)%N -> (b < n)%N ->
  determinant n (swap_rows a b A) = (if Nat.eqb a b then 1 else -1) * determinant n A.
Proof.
move=> Ha Hb; pose ia := Ordinal Ha; pose ib := Ordinal Hb; rewrite /determinant.
have -> : \matrix_(i < n, j < n) swap_rows a b A i j = xrow ia ib (\matrix_(i < n, j < n) A i j).
  apply/matrixP => i j; rewrite !mxE /swap_rows; congr A.
  case: tpermP => [->|->|/eqP ia' /eqP ib'] /=.
  - by rewrite PeanoNat.Nat.eqb_refl.
  - by rewrite PeanoNat.Nat.eqb_refl; case: PeanoNat.Nat.eqb_spec => // ->.
  - case: PeanoNat.Nat.eqb_spec => E; first by case/negP: ia'; apply/eqP/val_inj.
    by case: PeanoNat.Nat.eqb_spec => E' //; case/negP: ib'; apply/eqP/val_inj.
rewrite xrowE det_mulmx det_perm odd_tperm; congr (_ * _).
case: PeanoNat.Nat.eqb_spec => E; last by have -> : ia != ib by apply/negP => /eqP [].
by have -> : ia == ib by apply/eqP/val_inj.
Qed.
Lemma determinant_permute n ts : forall A : nat -> nat -> R, (forall a b, List.In (a, b) ts -> (a < n)%coq_nat /\ (b < n)%coq_nat) ->
  determinant n (permute_rows ts A) = (signs ts : R) * determinant n A.
Proof.
elim: ts => [|[a b] ts IH] A H /=; first by rewrite mul1r.
rewrite IH; last by move=> c d Hcd; apply: H; right.
have [/ltP Ha /ltP Hb] := H a b (or_introl erefl).
rewrite determinant_swap // mulrA [_ * (if _ then _ else _)]mulrC -mulrA.
by rewrite /= mulrA; case: PeanoNat.Nat.eqb.
Qed.
Lemma total_big (f : nat -> R) n : total f (List.seq 0 n) = \sum_(i < n) f i.
Proof.
have -> : List.seq 0 n = index_iota 0 n by rewrite /index_iota subn0; elim: n (0%N) => //= n IH m; rewrite IH.
rewrite -(big_mkord xpredT f); elim: (index_iota 0 n) => [|i l IH] /=; rewrite ?big_nil ?big_cons ?IH //.
Qed.
Lemma rprod_big (f : nat -> R) n : rprod (List.map f (List.seq 0 n)) = \prod_(i < n) f i.
Proof.
have -> : List.seq 0 n = index_iota 0 n by rewrite /index_iota subn0; elim: n (0%N) => //= n IH m; rewrite IH.
rewrite -(big_mkord xpredT f); elim: (index_iota 0 n) => [|i l IH] /=; rewrite ?big_nil ?big_cons ?IH //.
Qed.
Lemma determinant_factors n lu :
  determinant n (fun i j => total (fun l => (lower lu i l * upper lu l j)%coqR) (List.seq 0 n)) =
  rprod (List.map (fun l => upper lu l l) (List.seq 0 n)).
Proof.
pose L := \matrix_(i < n, l < n) (lower lu i l : R); pose U := \matrix_(l < n, j < n) (upper lu l j : R).
have -> : determinant n (fun i j => total (fun l => (lower lu i l * upper lu l j)%coqR) (List.seq 0 n)) = \det (L *m U).
  by congr (\det _); apply/matrixP => i j; rewrite !mxE total_big; apply: eq_bigr => l _; rewrite !mxE.
rewrite det_mulmx -[\det U]det_tr !det_trig.
- rewrite (eq_bigr (fun _ => 1)); last by move=> i _; rewrite mxE /lower PeanoNat.Nat.ltb_irrefl PeanoNat.Nat.eqb_refl.
  by rewrite big1 // mul1r rprod_big; apply: eq_bigr => i _; rewrite !mxE.
- apply/is_trig_mxP => i j /ltP H; rewrite !mxE /upper.
  by case: PeanoNat.Nat.leb_spec => // E; case: (PeanoNat.Nat.lt_irrefl i); apply: PeanoNat.Nat.lt_le_trans H E.
- apply/is_trig_mxP => i j /ltP H; rewrite !mxE /lower.
  case: PeanoNat.Nat.ltb_spec => E; first by case: (PeanoNat.Nat.lt_asymm _ _ H E).
  by case: PeanoNat.Nat.eqb_spec => // E'; case: (PeanoNat.Nat.lt_irrefl j); rewrite {1}E'.
Qed.
Lemma signs_square ts : (signs ts * signs ts)%coqR = 1%coqR.
Proof. elim: ts => [|[a b] ts IH] /=; first by rewrite Rmult_1_l. by case: (Nat.eqb a b); lra. Qed.
Lemma determinant_signed n ts lu (A : nat -> nat -> Rdefinitions.R) :
  (forall i j, (i < n)%coq_nat -> (j < n)%coq_nat -> permute_rows ts A i j = total (fun l => (lower lu i l * upper lu l j)%coqR) (List.seq 0 n)) ->
  (forall a b, List.In (a, b) ts -> (a < n)%coq_nat /\ (b < n)%coq_nat) ->
  determinant n A = (signs ts * rprod (List.map (fun l => upper lu l l) (List.seq 0 n)))%coqR.
Proof.
move=> H Hr.
have E : determinant n (permute_rows ts A) = rprod (List.map (fun l => upper lu l l) (List.seq 0 n)).
  rewrite -determinant_factors; apply: determinant_ext => i j /ltP Hi /ltP Hj; exact: H.
rewrite -E (determinant_permute A Hr).
change (determinant n A = (signs ts * (signs ts * determinant n A))%coqR).
by rewrite -Rmult_assoc signs_square Rmult_1_l.
Qed.
