(** The double constant for pi, from Machin's formula in the standard library. *)
From Coq Require Import ZArith Reals Lra Machin.
From Flocq Require Import Core.
From Verif Require Import Float DoubleArith DoubleThms.
Local Open Scope R_scope.

Lemma pi_eighteen : 3.14159265358979323 <= PI <= 3.14159265358979324.
Proof.
  pose proof (PI_2_3_7_ineq 9) as H.
  unfold tg_alt, PI_2_3_7_tg, Ratan_seq in H. cbn -[Rdiv Rinv] in H.
  lra.
Qed.
Lemma pi_real_close : 0 <= PI - pi_real <= bpow radix2 (-52).
Proof.
  pose proof pi_eighteen as H. unfold pi_real.
  change (bpow radix2 (-51)) with (/ 2251799813685248). change (bpow radix2 (-52)) with (/ 4503599627370496). lra.
Qed.
