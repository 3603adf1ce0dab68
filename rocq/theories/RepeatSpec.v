(** Fusing one track with many detections in a row, for C95. *)
From Coq Require Import Reals.
From mathcomp Require Import all_ssreflect all_algebra.
From Verif Require Import Base Uuid DynObj RealField Motion RealArith StateVec CovInt FusionVisitor.
Set Implicit Arguments.
Unset Strict Implicit.
Unset Printing Implicit Defensive.
Import Order.Theory GRing.Theory Num.Theory.
Local Open Scope ring_scope.

(** The visitor applied to one detection after the other. *)
Definition fuse_all (track : obj) (detections : seq obj) : result obj :=
  foldl (fun r d => rbind r (fun t => covariance_intersection_visitor t d)) (Ok track) detections.

(** The same for mean vectors and covariances (entries (mean, covariance)). *)
Definition fuse_estimate (F : realFieldType) n (e d : 'cV[F]_n * 'M[F]_n) : 'cV[F]_n * 'M[F]_n :=
  compute_covariance_intersection e.1 (invmx e.2) d.1 (invmx d.2) (generate_weight (invmx e.2) (invmx d.2)).

(** Heading entry not above the constant. *)
Definition heading_low (F : realFieldType) n (m : 'cV[F]_n) : Prop :=
  forall i : 'I_n, (i : nat) = 3%N -> m i 0 <= pi11 F.

(** Rate at which the information of a track approaches that of the detections. *)
Definition forget (F : realFieldType) n (I J : 'M[F]_n) : F := 1 - \det J / (2%:R * \det (I + J + J)).
