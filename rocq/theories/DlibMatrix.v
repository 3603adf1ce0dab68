(** The part of dlib::matrix<T> used by the library, and
    include/multiple_object_tracking/detail/dlib_extensions.hpp.

    A run-time sized dlib::matrix: dimensions and elements.  An element that has
    never been assigned is indeterminate ([None]); reading it, or accessing an
    element out of range, is [UB]. *)
From Coq Require Import List Arith Bool.
From Verif Require Import Base.
Import ListNotations.

Record mat (A : Type) := Mat { nr : nat; nc : nat; elem : nat -> nat -> option A }.
Arguments Mat {A}. Arguments nr {A}. Arguments nc {A}. Arguments elem {A}.

Section Mat.
  Context {A : Type}.

  (** matrix(nr, nc): uninitialised elements *)
  Definition mat_new (r c : nat) : mat A := Mat r c (fun _ _ => None).

  (** m = value: assigns every element *)
  Definition mat_fill (v : A) (m : mat A) : mat A := Mat (nr m) (nc m) (fun _ _ => Some v).

  (** m(r, c) as an r-value *)
  Definition mat_get (m : mat A) (r c : nat) : result A :=
    if (r <? nr m) && (c <? nc m) then
      match elem m r c with Some v => Ok v | None => UB end
    else UB.

  (** m(r, c) = v *)
  Definition mat_set (m : mat A) (r c : nat) (v : A) : result (mat A) :=
    if (r <? nr m) && (c <? nc m) then
      Ok (Mat (nr m) (nc m)
            (fun i j => if (i =? r) && (j =? c) then Some v else elem m i j))
    else UB.
End Mat.

(** for (i = lo; i < lo + k; ++i) s = body(i, s) *)
Fixpoint for_loop {S} (lo k : nat) (body : nat -> S -> result S) (s : S) : result S :=
  match k with
  | 0 => Ok s
  | S k' => let* s' := body lo s in for_loop (lo + 1) k' body s'
  end.
(** for (i = lo; i < hi; ++i) *)
Definition for_range {S} (lo hi : nat) (body : nat -> S -> result S) (s : S) : result S :=
  for_loop lo (hi - lo) body s.

(** make_square_matrix, dlib_extensions.hpp:17-48.  The loop counters of type
    unsigned int do not wrap for matrices with fewer than 2^32 rows and columns;
    this is assumed. *)
Definition make_square_matrix {A} (m : mat A) (padding : A) : result (mat A) :=
  let n := Nat.max (nr m) (nc m) in
  let* sq := for_range 0 (nr m) (fun row sq =>
               for_range 0 (nc m) (fun column sq =>
                 let* v := mat_get m row column in mat_set sq row column v) sq) (mat_new n n) in
  if nc m <? nr m then
    (* extra columns *)
    for_range 0 n (fun row sq =>
      for_range (nc m) n (fun column sq => mat_set sq row column padding) sq) sq
  else
    (* extra rows *)
    for_range (nr m) n (fun row sq =>
      for_range 0 n (fun column sq => mat_set sq row column padding) sq) sq.
