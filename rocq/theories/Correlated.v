(** A covariance with correlations for the cases beside the theorems: entries 2
    on the diagonal and 1 elsewhere, of any size. *)
From mathcomp Require Import all_ssreflect all_algebra.
From Verif Require Import PosDef.
Import Order.Theory GRing.Theory Num.Theory.
Local Open Scope ring_scope.

Definition correlated {F : realFieldType} n : 'M[F]_n := 1%:M + const_mx 1.
Lemma correlated_spd (F : realFieldType) n : spd (correlated n : 'M[F]_n).
Proof.
apply: spd_addl; first exact: spd_id.
have E : const_mx 1 = (const_mx 1 : 'cV[F]_n) *m (const_mx 1 : 'cV[F]_n)^T.
  by apply/matrixP => i j; rewrite !mxE big_ord1 !mxE mulr1.
split; first by apply/matrixP => i j; rewrite !mxE.
move=> v; rewrite E /qf mulmxA -mulmxA mxE big_ord1.
set a := v^T *m _; set b := _ *m v; have -> : b = a^T by rewrite /a /b trmx_mul trmxK.
by rewrite [a^T _ _]mxE -expr2 sqr_ge0.
Qed.
Lemma correlatedE (F : realFieldType) n (i j : 'I_n) :
  (correlated n : 'M[F]_n) i j = if i == j then 2%:R else 1.
Proof. by rewrite !mxE; case: eqP => _; rewrite /= ?add0r // -natrD. Qed.
