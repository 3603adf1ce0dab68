(** Model of propagate_to_time and predict_to_time,
    include/multiple_object_tracking/temporal_alignment.hpp:67-132. *)
From Verif Require Import Base Uuid DynObj.

Section Propagation.
  (** [sub] is the subtraction of time stamps. *)
  Context {T : Type} (sub : T -> T -> T).

  (** propagate_to_time for a plain object, temporal_alignment.hpp:81-87.  The
      propagator modifies state and covariance through references; here it
      returns the new values. *)
  Definition propagate_to_time {S C : Type} (propagator : S -> C -> T -> S * C)
      (object : dyn_obj T S C) (time : T) : dyn_obj T S C :=
    let '(s, c) := propagator (o_state object) (o_cov object) (sub time (o_timestamp object)) in
    DynObj time s c (o_uuid object) (o_class object).

  (** propagate_to_time for a variant, temporal_alignment.hpp:103-112: one
      propagator object with one instance of operator() per motion model. *)
  Definition v_propagate_to_time {S1 C1 S2 C2 : Type} (propagator1 : S1 -> C1 -> T -> S1 * C1)
      (propagator2 : S2 -> C2 -> T -> S2 * C2) (object : vobj T S1 C1 S2 C2) (time : T)
      : vobj T S1 C1 S2 C2 :=
    match object with
    | Ctrv o => Ctrv (propagate_to_time propagator1 o time)
    | Ctra o => Ctra (propagate_to_time propagator2 o time)
    end.

  (** predict_to_time, temporal_alignment.hpp:126-132.  The parameter is a copy of
      the caller's object; [propagate] is the overload for the type of the object. *)
  Definition predict_to_time {O : Type} (propagate : O -> T -> O) (object : O) (time : T) : O :=
    propagate object time.
End Propagation.
