(** What fuse_associations should return, in terms of positions in its three
    inputs.  Independent of the model of the function. *)
From Coq Require Import List Arith.
From Verif Require Import Uuid.
Import ListNotations.

(** A position: index of an association, of a track and of a detection. *)
Definition place : Type := nat * nat * nat.

(** Dictionary order on positions. *)
Definition before (p q : place) : Prop :=
  let '(a, t, d) := p in let '(a', t', d') := q in
  a < a' \/ (a = a' /\ (t < t' \/ (t = t' /\ d < d'))).

Section Spec.
  Context {Trk Det : Type} (tu : Trk -> uuid) (du : Det -> uuid).
  Context (associations : list (uuid * list uuid)) (tracks : list Trk) (detections : list Det).

  (** At position [p] the association demands that track [t] be fused with
      detection [d]. *)
  Definition demands (p : place) (t : Trk) (d : Det) : Prop :=
    let '(i, j, k) := p in
    nth_error tracks j = Some t /\ nth_error detections k = Some d /\
    exists ids, nth_error associations i = Some (tu t, ids) /\ In (du d) ids.
End Spec.
