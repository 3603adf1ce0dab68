(** Specification vocabulary for the history of sightings of one track: a list
    of booleans, oldest first, [true] for an update that saw the track. *)
From stdpp Require Import list.
From Coq Require Import ZArith.
Local Open Scope Z_scope.

(** Sightings minus misses. *)
Definition balance (bs : list bool) : Z :=
  Z.of_nat (length (List.filter id bs)) - Z.of_nat (length (List.filter negb bs)).

(** [n] is the least of: the starting count plus the balance of the whole
    history, and the cap [p] plus the balance of what followed a sighting. *)
Definition is_level (p c : Z) (bs : list bool) (n : Z) : Prop :=
  n ≤ c + balance bs ∧
  (∀ before after, bs = before ++ true :: after → n ≤ p + balance after) ∧
  (n = c + balance bs ∨ ∃ before after, bs = before ++ true :: after ∧ n = p + balance after).

(** No beginning of the history brings the starting count down to [r], and no
    stretch of updates following a sighting brings the cap [p] down to [r]. *)
Definition stays_above (p r c : Z) (bs : list bool) : Prop :=
  (∀ start rest, bs = start ++ rest → start ≠ [] → r < c + balance start) ∧
  (∀ before stretch rest, bs = before ++ true :: stretch ++ rest → r < p + balance stretch).

(** Some beginning of the history brings the starting count up to [p]. *)
Definition reaches (p c : Z) (bs : list bool) : Prop :=
  ∃ start rest, bs = start ++ rest ∧ start ≠ [] ∧ p ≤ c + balance start.
