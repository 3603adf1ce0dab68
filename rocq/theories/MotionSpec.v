(** Specification vocabulary for the motion models: the differential equations of
    constant turn rate motion, independent of the code. *)
From Coq Require Import Reals.
Open Scope R_scope.

(** A trajectory: position, speed, heading as a point (c, s) of the unit circle,
    turn rate and acceleration as functions of time. *)
Record trajectory := Traj {
  x_ : R -> R; y_ : R -> R; v_ : R -> R; c_ : R -> R; s_ : R -> R; w_ : R -> R; a_ : R -> R
}.

(** x' = v cos(heading), y' = v sin(heading), v' = a, heading turns with rate w,
    w' = 0, a' = 0. *)
Definition turn_motion (T : trajectory) : Prop := forall t,
  derivable_pt_lim (x_ T) t (v_ T t * c_ T t) /\
  derivable_pt_lim (y_ T) t (v_ T t * s_ T t) /\
  derivable_pt_lim (v_ T) t (a_ T t) /\
  derivable_pt_lim (c_ T) t (- (w_ T t * s_ T t)) /\
  derivable_pt_lim (s_ T) t (w_ T t * c_ T t) /\
  derivable_pt_lim (w_ T) t 0 /\
  derivable_pt_lim (a_ T) t 0.

(** Two trajectories through the same values at time t. *)
Definition agree_at (T U : trajectory) (t : R) : Prop :=
  x_ T t = x_ U t /\ y_ T t = y_ U t /\ v_ T t = v_ U t /\ c_ T t = c_ U t /\
  s_ T t = s_ U t /\ w_ T t = w_ U t /\ a_ T t = a_ U t.
