(** When prediction keeps a covariance invertible: property C109. *)
From Coq Require Import Reals Lra ZArith.
From mathcomp Require Import all_ssreflect all_algebra.
From Verif Require Import Base Uuid DynObj RealField PosDef Motion RealArith MotionThms StateVec StateVecThms
  CovInt CovIntThms PiBounds PiTight FusionThms Unscented UnscentedThms UnscentedShift UnscentedLoss UnscentedDefinite
  UnscentedLinear UnscentedBlock.
Import Order.Theory GRing.Theory Num.Theory.
Local Open Scope ring_scope.

(** C109: a positive definite covariance in which the position is not correlated
    with the rest stays positive definite, as long as the predicted heading
    variance, that of heading + dt * rate, is less than [PI^2 / q] ... *)
Theorem C109_kept_ctrv (s : ctrvR) (P : 'M[R]_5) (dt alpha beta kappa : R) : on_circle (v_yaw s) ->
  let q := (alpha * alpha * (5 + kappa))%coqR in let i3 : 'I_5 := inord 3 in let i4 : 'I_5 := inord 4 in
  (0 < q)%coqR -> (0 <= 2 - 5 / q - alpha * alpha + beta)%coqR -> spd (P : 'M[R_rcfType]_5) ->
  (forall i j : 'I_5, (i < 2)%N -> (2 <= j)%N -> P i j = 0) ->
  (q * (P i3 i3 + 2 * dt * P i3 i4 + dt * dt * P i4 i4) < PI * PI)%coqR ->
  spd ((@unscented_kalman_filter_predict 5 ctrv_type s P dt alpha beta kappa).2 : 'M[R_realFieldType]_5).
Proof. by move=> C q i3 i4 q0 w0 sP blk sm; apply: ctrv_block => //; rewrite turned_variance5 //; case: sP. Qed.
Theorem C109_kept_ctra (s : ctraR) (P : 'M[R]_6) (dt alpha beta kappa : R) : on_circle (a_yaw s) ->
  let q := (alpha * alpha * (6 + kappa))%coqR in let i3 : 'I_6 := inord 3 in let i4 : 'I_6 := inord 4 in
  (0 < q)%coqR -> (0 <= 2 - 6 / q - alpha * alpha + beta)%coqR -> spd (P : 'M[R_rcfType]_6) ->
  (forall i j : 'I_6, (i < 2)%N -> (2 <= j)%N -> P i j = 0) ->
  (q * (P i3 i3 + 2 * dt * P i3 i4 + dt * dt * P i4 i4) < PI * PI)%coqR ->
  spd ((@unscented_kalman_filter_predict 6 ctra_type s P dt alpha beta kappa).2 : 'M[R_realFieldType]_6).
Proof. by move=> C q i3 i4 q0 w0 sP blk sm; apply: ctra_block => //; rewrite turned_variance6 //; case: sP. Qed.
(** ... which for the parameters of the library is a variance of 1.2 ... *)
Theorem C109_kept_default :
  (forall (s : ctrvR) (P : 'M[R]_5) dt, on_circle (v_yaw s) -> spd (P : 'M[R_rcfType]_5) ->
     (forall i j : 'I_5, (i < 2)%N -> (2 <= j)%N -> P i j = 0) ->
     (P (inord 3) (inord 3) + 2 * dt * P (inord 3) (inord 4) + dt * dt * P (inord 4) (inord 4) <= 1.2)%coqR ->
     spd ((@default_unscented_transform 5 ctrv_type s P dt).2 : 'M[R_realFieldType]_5)) /\
  (forall (s : ctraR) (P : 'M[R]_6) dt, on_circle (a_yaw s) -> spd (P : 'M[R_rcfType]_6) ->
     (forall i j : 'I_6, (i < 2)%N -> (2 <= j)%N -> P i j = 0) ->
     (P (inord 3) (inord 3) + 2 * dt * P (inord 3) (inord 4) + dt * dt * P (inord 4) (inord 4) <= 1.2)%coqR ->
     spd ((@default_unscented_transform 6 ctra_type s P dt).2 : 'M[R_realFieldType]_6)).
Proof.
have pb := pi_tight; have pp : (9.8 < PI * PI)%coqR by nra.
split=> s P dt C sP blk v; rewrite /default_unscented_transform /unscented_transform;
  [apply: C109_kept_ctrv|apply: C109_kept_ctra] => //; simpl; move: (Rplus (Rplus _ _) _) v => v ?; lra.
Qed.
(** ... but a car that is parked, with its position correlated with velocity and
    heading, can get a singular covariance, however well its heading is known. *)
Theorem C109_parked_refuted (x y dt alpha beta kappa eps : R) : (0 < dt)%coqR -> (0 < eps)%coqR ->
  (0 < alpha * alpha * (5 + kappa))%coqR ->
  exists P : 'M[R]_5, spd (P : 'M[R_rcfType]_5) /\ (P (inord 3) (inord 3) <= eps)%coqR /\
    let s : ctrvR := CtrvState (A := reals) x y 0%coqR (angleR 0) 0%coqR in
    \det ((@unscented_kalman_filter_predict 5 ctrv_type s P dt alpha beta kappa).2 : 'M[R_realFieldType]_5) = 0.
Proof.
move=> dt0 e0; set q := (_ * (_ + _))%coqR => q0.
pose eta := Rmin 1 (q * eps / 2)%coqR.
have pos : (0 < q * eps / 2)%coqR by apply: Rdiv_lt_0_compat; [exact: Rmult_lt_0_compat|lra].
have h0 : (0 < eta)%coqR by apply: Rmin_glb_lt; lra.
have h1 : (eta <= 1)%coqR by exact: Rmin_l.
have h2 : (eta <= q * eps / 2)%coqR by exact: Rmin_r.
have [PB1 PB2] := pi_tight.
have hp : (0 < eta < PI)%coqR by lra.
have [sP [E D]] := @parked_lost x y dt alpha beta kappa eta dt0 hp q0.
exists ((q^-1 : R) *: (parked_factor dt eta *m (parked_factor dt eta)^T)); split=> //; split=> //.
rewrite E; apply: (Rmult_le_reg_r q) => //; rewrite /Rdiv Rmult_assoc Rinv_l; last exact: Rgt_not_eq.
by nra.
Qed.
Print Assumptions C109_kept_ctrv.
Print Assumptions C109_kept_ctra.
Print Assumptions C109_kept_default.
Print Assumptions C109_parked_refuted.
(** A turning car whose heading and rate are correlated *)
Definition C109_car : ctrvR := CtrvState (A := reals) 3%coqR 4%coqR 10%coqR (angleR 1%coqR) 0.2%coqR.
Definition C109_cov : 'M[R]_5 :=
  let u : 'cV[R]_5 := vec_of 5 [:: 0; 0; 0; 0.1; 0.1]%coqR in (0.1%coqR : R) *: 1%:M + u *m u^T.
Example C109_case : on_circle (v_yaw C109_car) /\ spd (C109_cov : 'M[R_rcfType]_5) /\
  C109_cov (inord 3) (inord 4) = 0.01%coqR /\
  spd ((@default_unscented_transform 5 ctrv_type C109_car C109_cov 0.1%coqR).2 : 'M[R_realFieldType]_5).
Proof.
have C : on_circle (v_yaw C109_car) by exact: circle_of.
pose u : 'cV[R]_5 := vec_of 5 [:: 0; 0; 0; 0.1; 0.1]%coqR.
have E (i j : 'I_5) : C109_cov i j = ((if i == j then 0.1 else 0) + u i ord0 * u j ord0)%coqR.
  rewrite /C109_cov !mxE big_ord_recl big_ord0 [u^T _ _]mxE addr0 -/u /=.
  rewrite !mxE; case: eqP => _; rewrite /= ?mulr1n ?mulr0n ?mulr1 ?mulr0 //.
have V k (h : (k < 5)%N) : u (inord k) ord0 = nth 0%coqR [:: 0; 0; 0; 0.1; 0.1]%coqR k by rewrite mxE inordK.
have sP : spd (C109_cov : 'M[R_rcfType]_5).
  apply: spd_addl; first by apply: spd_scale; [apply/RltP; change (0 < 0.1)%coqR; lra|exact: spd_id].
  have -> : (u *m u^T : 'M[R_rcfType]_5) = (u^T)^T *m 1%:M *m u^T by rewrite trmxK mulmx1.
  by apply: psd_congr; apply: spd_psd; exact: spd_id.
have N : (inord 3 == inord 4 :> 'I_5) = false by rewrite -(inj_eq val_inj) /= !inordK.
split=> //; split=> //; split; first by rewrite E N !V //=; lra.
have [K _] := C109_kept_default; apply: K => //.
- move=> i j i2 j2; rewrite E (_ : (i == j) = false); last first.
    by apply/negbTE; apply: contraTneq i2 => ->; rewrite -leqNgt.
  have -> : u i ord0 = 0%coqR by rewrite mxE; case: (i : nat) i2 => [|[|//]].
  by change (0 + 0 * u j ord0 = 0)%coqR; lra.
- by rewrite !E !eqxx N !V //=; lra.
Qed.
(** ... and the parked car with its covariance for a second and a heading variance of
    2 / 7 (0.5 rad) in the library's parameters *)
Example C109_parked_case :
  let s : ctrvR := CtrvState (A := reals) 3%coqR 4%coqR 0%coqR (angleR 0) 0%coqR in
  exists P : 'M[R]_5, spd (P : 'M[R_rcfType]_5) /\ P (inord 3) (inord 3) = (2 / 7)%coqR /\
    ~ spd ((@default_unscented_transform 5 ctrv_type s P 1%coqR).2 : 'M[R_realFieldType]_5).
Proof.
move=> s; have [PB1 PB2] := pi_tight.
have d0 : (0 < 1)%coqR by lra.
have q0 : (0 < 1 * 1 * (5 + 2))%coqR by lra.
have h : (0 < 1 < PI)%coqR by lra.
have [sP [E D]] := @parked_lost 3%coqR 4%coqR 1%coqR 1%coqR 1%coqR 2%coqR 1%coqR d0 h q0.
eexists; split; first exact: sP; split; first by rewrite E; lra.
by move/det_spd; rewrite /default_unscented_transform /unscented_transform D ltxx.
Qed.
