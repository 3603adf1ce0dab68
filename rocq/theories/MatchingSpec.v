(** Specification vocabulary for track matching. *)
From Coq Require Import String List ZArith NArith Permutation Arith Bool Reals.
From Flocq Require Import Core IEEE754.BinarySingleNaN.
From Verif Require Import Base Uuid OrdMap Float DlibMatrix Scoring Matching.
Import ListNotations.

(** ** Contract of dlib::max_cost_assignment
    (assignment)  the result of an n x n matrix lists n distinct columns;
    (maximal)     no other such list has a larger sum of costs.
    Nothing is assumed about which maximal assignment is returned.  Costs are
    mathematical integers: a possible overflow inside dlib is not modelled. *)
Definition Zsum (l : list Z) : Z := fold_right Z.add 0%Z l.

(** All elements have been assigned a value. *)
Definition initialised {A} (m : mat A) : Prop :=
  forall i j, i < nr m -> j < nc m -> exists v, elem m i j = Some v.

Definition entry_of (m : mat Z) (ij : nat * nat) : Z :=
  match elem m (fst ij) (snd ij) with Some z => z | None => 0%Z end.

(** [s] assigns column [nth i s] to row [i]. *)
Definition assignment_cost (m : mat Z) (s : list nat) : Z :=
  Zsum (map (entry_of m) (combine (seq 0 (nr m)) s)).

Definition is_assignment (n : nat) (s : list nat) : Prop := Permutation s (seq 0 n).

Definition max_assignment (m : mat Z) (s : list nat) : Prop :=
  is_assignment (nr m) s /\ forall s', is_assignment (nr m) s' -> (assignment_cost m s' <= assignment_cost m s)%Z.

Definition solver_ok (solve : mat Z -> list Z) : Prop :=
  forall m, nr m = nc m -> initialised m ->
  exists s, solve m = map Z.of_nat s /\ max_assignment m s.

(** ** One-to-one sets of pairs *)
Definition one_to_one {A B} (l : list (A * B)) : Prop := NoDup (map fst l) /\ NoDup (map snd l).

(** The pairs of an assignment inside the upper left nr x nc block. *)
Definition in_block (r c : nat) (ij : nat * nat) : bool := (fst ij <? r) && (snd ij <? c).
Definition block_pairs (r c n : nat) (s : list nat) : list (nat * nat) :=
  filter (in_block r c) (combine (seq 0 n) s).

(** A largest one-to-one set of positions of a matrix. *)
Definition full_matching {A} (m : mat A) (M : list (nat * nat)) : Prop :=
  one_to_one M /\ (forall i j, In (i, j) M -> i < nr m /\ j < nc m) /\ length M = Nat.min (nr m) (nc m).

(** The associated pairs of an association map. *)
Definition assoc_pairs (a : association_map) : list (uuid * uuid) :=
  flat_map (fun '(t, ds) => map (pair t) ds) a.

(** The distinct tracks and detections of a score map. *)
Definition tracks_of {F} (scores : score_map F) : list uuid := nodup string_dec (map (fun kv => fst (fst kv)) scores).
Definition detections_of {F} (scores : score_map F) : list uuid := nodup string_dec (map (fun kv => snd (fst kv)) scores).

(** Keys in increasing order without repetition, as in every std::map; and no more
    entries than a std::map can hold. *)
Definition map_wf {F} (scores : score_map F) : Prop := om_wf pair_compare scores.
Definition small_map {F} (scores : score_map F) : Prop := (N.of_nat (length scores) < 2 ^ 63)%N.

(** Every track-detection pair has a score. *)
Definition complete {F} (scores : score_map F) : Prop :=
  forall t d, In t (tracks_of scores) -> In d (detections_of scores) -> exists v, In ((t, d), v) scores.

(** Scores as real numbers; 0 for a pair without score. *)
Definition score_of (scores : score_map f32) (td : uuid * uuid) : R :=
  match om_find pair_compare td scores with Some v => B2R v | None => 0%R end.
Definition Rsum (l : list R) : R := fold_right Rplus 0%R l.
Definition total_score (scores : score_map f32) (l : list (uuid * uuid)) : R :=
  Rsum (map (score_of scores) l).

(** Finite and not negative. *)
Definition ordinary (v : f32) : Prop := is_finite v = true /\ (0 <= B2R v)%R.

(** Not complete: some pair is missing. *)
Definition missing_pair {F} (scores : score_map F) : Prop :=
  exists t d, In t (tracks_of scores) /\ In d (detections_of scores) /\ forall v, ~ In ((t, d), v) scores.

(** Ordinary scores, one of them positive or some pair missing. *)
Definition usable (scores : score_map f32) : Prop :=
  map_wf scores /\ scores <> [] /\ (forall k v, In (k, v) scores -> ordinary v) /\
  ((exists k v, In (k, v) scores /\ (0 < B2R v)%R) \/ missing_pair scores).

(** Not above 2^100. *)
Definition small_score (v : f32) : Prop := (B2R v <= bpow radix2 100)%R.

(** The pair has a score. *)
Definition scored (scores : score_map f32) (td : uuid * uuid) : bool :=
  match om_find pair_compare td scores with Some _ => true | None => false end.
