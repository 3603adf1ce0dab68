(** The prediction of CTRA states in exact arithmetic, as in the last part of PredictBridge.v *)
From Coq Require Import ZArith Reals Lra Lia.
From mathcomp Require Import all_ssreflect all_algebra.
From Verif Require Import RealField Motion RealArith StateVec FusionThms Unscented.
From Flocq Require Import IEEE754.BinarySingleNaN.
From Verif Require Import Float PredictSpec CtraPredictSpec CtraSigma PredictBridge.
Set Implicit Arguments.
Unset Strict Implicit.
Unset Printing Implicit Defensive.

Lemma shift_ctra d c : @shift 5 ctra_type d c = exact_from6 (d c).
Proof. by rewrite /shift /= /ctra_from_vec !(ent_col (fun i => B2R (d c i))). Qed.
Lemma cell_ctra (x : ctraR) j : (j < 6)%N -> @cell 5 ctra_type x j = component6 x j.
Proof.
by case: j => [|[|[|[|[|[|j]]]]]] // _; rewrite /cell /ent /= ?wrap_signed mxE inordK.
Qed.
Lemma displaced_ctra (s : ctraR) d : @displaced 5 ctra_type s d =
  List.flat_map (fun c => [:: @ctra_add reals s (exact_from6 (d c)); @ctra_sub reals s (exact_from6 (d c))]) (List.seq 0 6).
Proof.
rewrite /displaced.
have -> : [seq [:: st_add ctra_type s (shift ctra_type d c); st_sub ctra_type s (shift ctra_type d c)] | c <- iota 0 6] =
  [seq [:: @ctra_add reals s (exact_from6 (d c)); @ctra_sub reals s (exact_from6 (d c))] | c <- iota 0 6].
  by apply: eq_map => c; rewrite shift_ctra.
by [].
Qed.
Lemma from_ctra (f : nat -> R) : ctra_from_vec (\col_j f j)%R =
  CtraState (A := reals) (f 0%N) (f 1%N) (f 2%N) (angleR (f 3%N)) (f 4%N) (f 5%N).
Proof. by rewrite /ctra_from_vec !(ent_col f). Qed.
