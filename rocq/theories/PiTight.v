(** Ten decimals of pi, from Machin's formula in the standard library. *)
From Coq Require Import Reals Lra Machin.
Local Open Scope R_scope.

Lemma pi_tight : 3.1415926535 <= PI <= 3.14159265359.
Proof.
  pose proof (PI_2_3_7_ineq 6) as H.
  unfold tg_alt, PI_2_3_7_tg, Ratan_seq in H. cbn -[Rdiv Rinv] in H.
  lra.
Qed.
