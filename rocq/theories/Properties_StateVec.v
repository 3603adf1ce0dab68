(** States, process noises and augmented states as vectors: the rest of property
    C79 of properties.jsonl. *)
From Coq Require Import Reals.
From mathcomp Require Import all_ssreflect all_algebra.
From Verif Require Import RealField Motion RealArith StateVec StateVecThms StateArithThms.
Set Implicit Arguments.
Unset Strict Implicit.
Unset Printing Implicit Defensive.
Import GRing.Theory.
Local Open Scope ring_scope.

Lemma ent_add n (u v : 'cV[R]_n.+1) k : ent (u + v) k = (ent u k + ent v k)%coqR.
Proof. by rewrite /ent mxE. Qed.
Lemma ent_sub n (u v : 'cV[R]_n.+1) k : ent (u - v) k = (ent u k - ent v k)%coqR.
Proof. by rewrite /ent !mxE. Qed.

(** ** C79: from_eigen_vector turns sums and differences of vectors into sums and
    differences of states, noises and augmented states. *)
Theorem C79_vector_ctrv : forall u v : 'cV[R]_5,
  ctrv_from_vec (u + v) = ctrv_add (ctrv_from_vec u) (ctrv_from_vec v) /\
  ctrv_from_vec (u - v) = ctrv_sub (ctrv_from_vec u) (ctrv_from_vec v).
Proof.
move=> u v; rewrite /ctrv_from_vec; split; symmetry.
  by rewrite !ent_add; exact: ctrv_add_hom.
by rewrite !ent_sub; exact: ctrv_sub_hom.
Qed.
Theorem C79_vector_ctra : forall u v : 'cV[R]_6,
  ctra_from_vec (u + v) = ctra_add (ctra_from_vec u) (ctra_from_vec v) /\
  ctra_from_vec (u - v) = ctra_sub (ctra_from_vec u) (ctra_from_vec v).
Proof.
move=> u v; rewrite /ctra_from_vec; split; symmetry.
  by rewrite !ent_add; exact: ctra_add_hom.
by rewrite !ent_sub; exact: ctra_sub_hom.
Qed.
Theorem C79_vector_noise : forall u v : 'cV[R]_2,
  noise_from_vec (u + v) = noise_add (noise_from_vec u) (noise_from_vec v) /\
  noise_from_vec (u - v) = noise_sub (noise_from_vec u) (noise_from_vec v).
Proof. by move=> u v; rewrite /noise_from_vec; split; [rewrite !ent_add | rewrite !ent_sub]. Qed.
Theorem C79_vector_augmented_ctrv : forall u v : 'cV[R]_(5 + 2),
  let from := augmented_from_vec ctrv_from_vec in
  from (u + v) = augmented_add (@ctrv_add reals) (from u) (from v) /\
  from (u - v) = augmented_sub (@ctrv_sub reals) (from u) (from v).
Proof.
move=> u v /=; rewrite /augmented_from_vec /augmented_add /augmented_sub /=.
have A : forall a b : 'cV[R]_(5 + 2), usubmx (a - b) = usubmx a - usubmx b.
  by move=> a b; apply/matrixP => i j; rewrite !mxE.
have B : forall a b : 'cV[R]_(5 + 2), dsubmx (a - b) = dsubmx a - dsubmx b.
  by move=> a b; apply/matrixP => i j; rewrite !mxE.
have A' : forall a b : 'cV[R]_(5 + 2), usubmx (a + b) = usubmx a + usubmx b.
  by move=> a b; apply/matrixP => i j; rewrite !mxE.
have B' : forall a b : 'cV[R]_(5 + 2), dsubmx (a + b) = dsubmx a + dsubmx b.
  by move=> a b; apply/matrixP => i j; rewrite !mxE.
rewrite A A' B B'.
have [<- <-] := C79_vector_ctrv (usubmx u) (usubmx v).
by have [<- <-] := C79_vector_noise (dsubmx u) (dsubmx v).
Qed.
Theorem C79_vector_augmented_ctra : forall u v : 'cV[R]_(6 + 2),
  let from := augmented_from_vec ctra_from_vec in
  from (u + v) = augmented_add (@ctra_add reals) (from u) (from v) /\
  from (u - v) = augmented_sub (@ctra_sub reals) (from u) (from v).
Proof.
move=> u v /=; rewrite /augmented_from_vec /augmented_add /augmented_sub /=.
have A : forall a b : 'cV[R]_(6 + 2), usubmx (a - b) = usubmx a - usubmx b.
  by move=> a b; apply/matrixP => i j; rewrite !mxE.
have B : forall a b : 'cV[R]_(6 + 2), dsubmx (a - b) = dsubmx a - dsubmx b.
  by move=> a b; apply/matrixP => i j; rewrite !mxE.
have A' : forall a b : 'cV[R]_(6 + 2), usubmx (a + b) = usubmx a + usubmx b.
  by move=> a b; apply/matrixP => i j; rewrite !mxE.
have B' : forall a b : 'cV[R]_(6 + 2), dsubmx (a + b) = dsubmx a + dsubmx b.
  by move=> a b; apply/matrixP => i j; rewrite !mxE.
rewrite A A' B B'.
have [<- <-] := C79_vector_ctra (usubmx u) (usubmx v).
by have [<- <-] := C79_vector_noise (dsubmx u) (dsubmx v).
Qed.
(** The vector (1, ..., 1) added to itself; headings 1 + 1 = 2. *)
Example C79_vector_case :
  let one := const_mx 1 : 'cV[R]_(5 + 2) in
  let from := augmented_from_vec ctrv_from_vec in
  augmented_add (@ctrv_add reals) (from one) (from one) = from (const_mx (1 + 1)) /\
  n_ang (g_noise (augmented_add (@ctrv_add reals) (from one) (from one))) = 2%coqR.
Proof.
move=> one from; have [H _] := C79_vector_augmented_ctrv one one.
have E : one + one = const_mx (1 + 1) by apply/matrixP => i j; rewrite !mxE.
rewrite /from -H E; split=> //.
by rewrite /augmented_from_vec /noise_from_vec /= /ent !mxE.
Qed.

Print Assumptions C79_vector_ctrv.
Print Assumptions C79_vector_ctra.
Print Assumptions C79_vector_noise.
Print Assumptions C79_vector_augmented_ctrv.
Print Assumptions C79_vector_augmented_ctra.
