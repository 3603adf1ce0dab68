(** Proofs about the conversions between states and vectors. *)
From Coq Require Import Reals Lra ZArith.
From mathcomp Require Import all_ssreflect all_algebra.
From Verif Require Import RealField Motion RealArith MotionThms StateVec.
Set Implicit Arguments.
Unset Strict Implicit.
Unset Printing Implicit Defensive.
Import GRing.Theory.
Local Open Scope ring_scope.

Lemma ent_vec_of n l k : (k <= n)%N -> ent (vec_of n.+1 l) k = nth 0 l k.
Proof. by move=> h; rewrite /ent mxE inordK. Qed.

Lemma vec_eq n (u v : 'cV[R]_n.+1) : (forall k, (k <= n)%N -> ent u k = ent v k) -> u = v.
Proof.
move=> H; apply/colP => i; have := H i; rewrite -ltnS ltn_ord => /(_ isT).
by rewrite /ent inord_val.
Qed.

(** State to vector and back *)
Lemma ctrv_round_trip (s : ctrvR) : on_circle (v_yaw s) -> ctrv_from_vec (ctrv_to_vec s) = s.
Proof.
move=> C; case: s C => x y v a w C.
by rewrite /ctrv_from_vec /ctrv_to_vec !ent_vec_of //= angle_of_get.
Qed.
Lemma ctra_round_trip (s : ctraR) : on_circle (a_yaw s) -> ctra_from_vec (ctra_to_vec s) = s.
Proof.
move=> C; case: s C => x y v a w acc C.
by rewrite /ctra_from_vec /ctra_to_vec !ent_vec_of //= angle_of_get.
Qed.

(** Vector to state and back: the heading is reduced to one turn. *)
Definition reduced n (v u : 'cV[R]_n.+1) : Prop :=
  (forall k, (k <= n)%N -> k <> 3%N -> ent u k = ent v k) /\
  (0 <= ent u 3 < 2 * PI)%coqR /\ same_turn (ent u 3) (ent v 3).

Lemma ctrv_vec_trip (v : 'cV[R]_5) : reduced v (ctrv_to_vec (ctrv_from_vec v)).
Proof.
split; last by rewrite /ctrv_to_vec ent_vec_of //=; exact: get_angle_spec.
by move=> [|[|[|[|[|//]]]]] _ // _; rewrite /ctrv_to_vec ent_vec_of.
Qed.
Lemma ctra_vec_trip (v : 'cV[R]_6) : reduced v (ctra_to_vec (ctra_from_vec v)).
Proof.
split; last by rewrite /ctra_to_vec ent_vec_of //=; exact: get_angle_spec.
by move=> [|[|[|[|[|[|//]]]]]] _ // _; rewrite /ctra_to_vec ent_vec_of.
Qed.
