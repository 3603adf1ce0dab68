(** Sequences of times. *)
From Coq Require Import List.
Import ListNotations.

(** [b] comes directly after [a] in the list. *)
Definition successive {T} (a b : T) (l : list T) : Prop := exists l1 l2, l = l1 ++ a :: b :: l2.
