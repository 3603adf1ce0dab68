(** The fusion of the real-number model (CovInt.v) for uncorrelated components is the one of
    FusionAccuracySpec.v, with which property C118 compares the float version: also part of
    property C118. *)
From Coq Require Import Reals List Lra.
From mathcomp Require Import all_ssreflect all_algebra.
From Verif Require Import RealField CovInt FusionAccuracySpec.
Set Implicit Arguments.
Unset Strict Implicit.
Unset Printing Implicit Defensive.
Import GRing.Theory.
Local Open Scope ring_scope.
Notation R := R_realFieldType.
Delimit Scope R_scope with coqR.

(** A covariance without correlations *)
Definition uncorrelated n (p : nat -> R) : 'M[R]_n := diag_mx (\row_(i < n) p i).

Lemma inverse_uncorrelated n (p : nat -> R) : (forall i, (i < n)%N -> (0 < p i)%coqR) ->
  invmx (uncorrelated n p) = uncorrelated n (fun i => (/ p i)%coqR).
Proof.
move=> H.
have U : uncorrelated n p *m uncorrelated n (fun i => (/ p i)%coqR) = 1%:M.
  rewrite mulmx_diag; apply/matrixP => i j; rewrite !mxE; congr (_ *+ _).
  by apply: Rinv_r => Z; have := H i (ltn_ord i); rewrite Z; lra.
have uC : uncorrelated n p \in unitmx by case/mulmx1_unit: U.
by rewrite -[LHS]mulmx1 -U mulmxA mulVmx // mul1mx.
Qed.
Lemma product_big (f : nat -> R) l : product (List.map f l) = \prod_(i <- l) f i.
Proof. by elim: l => [|i l IH] /=; rewrite ?big_nil ?big_cons ?IH. Qed.
Lemma seq_iota m n : List.seq m n = iota m n.
Proof. by elim: n m => //= n IH m; rewrite IH. Qed.
Lemma det_uncorrelated n (f : nat -> R) : \det (uncorrelated n f) = product (List.map f (List.seq 0 n)).
Proof.
rewrite det_diag product_big seq_iota.
have -> : iota 0 n = index_iota 0 n by rewrite /index_iota subn0.
by rewrite big_mkord; apply: eq_bigr => i _; rewrite mxE.
Qed.
Lemma add_uncorrelated n (f g : nat -> R) (a b : R) :
  a *: uncorrelated n f + b *: uncorrelated n g = uncorrelated n (fun i => a * f i + b * g i).
Proof. by apply/matrixP => i j; rewrite !mxE; case: (i == j); rewrite ?mulr1n ?mulr0n // !mulr0 addr0. Qed.
Lemma plus_uncorrelated n (f g : nat -> R) : uncorrelated n f + uncorrelated n g = uncorrelated n (fun i => (f i + g i)%coqR).
Proof. by apply/matrixP => i j; rewrite !mxE; case: (i == j); rewrite ?mulr1n ?mulr0n // addr0. Qed.

Theorem C118_exact n (p1 p2 : nat -> R) (x1 x2 : 'cV[R]_n) (w : R) :
  (forall i, (i < n)%N -> (0 < p1 i)%coqR /\ (0 < p2 i)%coqR) -> (0 <= w <= 1)%coqR ->
  let P1 := uncorrelated n p1 in let P2 := uncorrelated n p2 in
  generate_weight (invmx P1) (invmx P2) = exact_weight n p1 p2 /\
  compute_covariance_intersection x1 (invmx P1) x2 (invmx P2) w =
    (\col_i ci_mean w (p1 i) (wrap_heading x1 i 0) (p2 i) (wrap_heading x2 i 0),
     uncorrelated n (fun i => ci_variance w (p1 i) (p2 i))).
Proof.
move=> H [w0 w1] P1 P2.
have H1 i : (i < n)%N -> (0 < p1 i)%coqR by move/H => [].
have H2 i : (i < n)%N -> (0 < p2 i)%coqR by move/H => [].
have I1 i : (i < n)%N -> (0 < / p1 i)%coqR by move/H1; apply: Rinv_0_lt_compat.
have I2 i : (i < n)%N -> (0 < / p2 i)%coqR by move/H2; apply: Rinv_0_lt_compat.
rewrite !inverse_uncorrelated //; split.
  have S0 : (0 < product (List.map (fun i => / p1 i + / p2 i) (List.seq 0 n)))%coqR.
    have K : forall l, (forall i, List.In i l -> (i < n)%N) -> (0 < product (List.map (fun i => / p1 i + / p2 i) l))%coqR.
      elim=> [|i l IH] Hl /=; first by lra.
      apply: Rmult_lt_0_compat; last by apply: IH => j Hj; apply: Hl; right.
      by have Hi := Hl i (or_introl erefl); have := I1 i Hi; have := I2 i Hi; lra.
    by apply: K => i; rewrite List.in_seq => -[_ /ltP].
  rewrite /generate_weight (plus_uncorrelated n) !det_uncorrelated /exact_weight.
  set S := product (List.map (fun i => / p1 i + / p2 i)%coqR _) in S0 *; rewrite -RinvE; last by change (2 * S <> 0)%coqR; lra.
  by [].
rewrite /compute_covariance_intersection add_uncorrelated inverse_uncorrelated; last first.
  move=> i Hi; have [->|w2] := Req_dec w 0.
    by change (0 < 0 * / p1 i + (1 - 0) * / p2 i)%coqR; have := I2 i Hi; lra.
  have A : (0 < w * / p1 i)%coqR by apply: Rmult_lt_0_compat; [lra|apply: I1].
  have B : (0 <= (1 - w) * / p2 i)%coqR by apply: Rmult_le_pos; [lra|apply: Rlt_le; apply: I2].
  by change (0 < w * / p1 i + (1 - w) * / p2 i)%coqR; lra.
congr (_, _); apply/colP => i; rewrite -!scalemxAl !mul_diag_mx !mxE.
set u := (if _ then wrap (x1 i 0) else _); set v := (if _ then wrap (x2 i 0) else _).
rewrite /ci_mean /ci_information /Rdiv.
set a := (/ p1 i)%coqR; set b := (/ p2 i)%coqR.
change (/ (w * a + (1 - w) * b) * (w * (a * u) + (1 - w) * (b * v)) =
  (w * a * u + (1 - w) * b * v) * / (w * a + (1 - w) * b))%coqR.
by ring.
Qed.
Print Assumptions C118_exact.

(** Five variances 1 and 4 and weight 1/2 *)
Example C118_exact_case (x1 x2 : 'cV[R]_5) :
  compute_covariance_intersection x1 (invmx (uncorrelated 5 (fun _ => 1%coqR))) x2 (invmx (uncorrelated 5 (fun _ => 4%coqR))) (/ 2)%coqR =
    (\col_i ci_mean (/ 2) 1 (wrap_heading x1 i 0) 4 (wrap_heading x2 i 0), uncorrelated 5 (fun _ => 1.6%coqR)).
Proof.
rewrite (proj2 (C118_exact (n := 5) (p1 := fun _ => 1%coqR) (p2 := fun _ => 4%coqR) x1 x2 (w := (/ 2)%coqR) _ _)); [|by move=> *; split; lra|by lra].
have -> // : ci_variance (/ 2) 1 4 = 1.6%coqR.
  rewrite /ci_variance /ci_information; change (/ (/ 2 / 1 + (1 - / 2) / 4) = 1.6 :> Rdefinitions.R)%coqR.
  have -> : (/ 2 / 1 + (1 - / 2) / 4 = / 1.6 :> Rdefinitions.R)%coqR by lra.
  by rewrite Rinv_inv.
Qed.
