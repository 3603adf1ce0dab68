(** Model of include/multiple_object_tracking/uuid.hpp. *)
From Coq Require Import NArith String Ascii.

(** class Uuid, uuid.hpp:32-48: a wrapper around one std::string. *)
Definition uuid := string.

(** std::string::compare, i.e. char_traits<char>::compare: byte-wise, bytes as
    unsigned numbers, a proper prefix is smaller. *)
Fixpoint bytes_compare (a b : string) : comparison :=
  match a, b with
  | EmptyString, EmptyString => Eq
  | EmptyString, String _ _ => Lt
  | String _ _, EmptyString => Gt
  | String x a', String y b' =>
      match N.compare (N_of_ascii x) (N_of_ascii y) with
      | Eq => bytes_compare a' b'
      | c => c
      end
  end.

(** operator==, uuid.hpp:54-57 *)
Definition uuid_eqb (a b : uuid) : bool :=
  match bytes_compare a b with Eq => true | _ => false end.
(** operator!=, uuid.hpp:59-62 *)
Definition uuid_neb (a b : uuid) : bool := negb (uuid_eqb a b).
(** operator<, uuid.hpp:64-67 *)
Definition uuid_ltb (a b : uuid) : bool :=
  match bytes_compare a b with Lt => true | _ => false end.
(** operator<=, uuid.hpp:69-72 *)
Definition uuid_leb (a b : uuid) : bool :=
  match bytes_compare a b with Gt => false | _ => true end.
(** operator>, uuid.hpp:74-77 *)
Definition uuid_gtb (a b : uuid) : bool :=
  match bytes_compare a b with Gt => true | _ => false end.
(** operator>=, uuid.hpp:79-82 *)
Definition uuid_geb (a b : uuid) : bool :=
  match bytes_compare a b with Lt => false | _ => true end.

(** std::pair<Uuid, Uuid> operator<: lexicographic (key type of ScoreMap,
    scoring.hpp:90). *)
Definition pair_compare (p q : uuid * uuid) : comparison :=
  match bytes_compare (fst p) (fst q) with
  | Eq => bytes_compare (snd p) (snd q)
  | c => c
  end.
