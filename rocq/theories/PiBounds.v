(** Decimal bounds for pi, from Machin's formula in the standard library. *)
From Coq Require Import Reals Lra Machin.
Open Scope R_scope.

Lemma pi_bounds : 3.14 <= PI <= 3.15.
Proof.
  pose proof (PI_2_3_7_ineq 1) as H.
  unfold tg_alt, PI_2_3_7_tg, Ratan_seq in H. cbn -[Rdiv Rinv] in H.
  lra.
Qed.
