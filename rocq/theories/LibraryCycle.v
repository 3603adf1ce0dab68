(** Model of the tracking cycle with the functions of the library in the number types of
    the code: objects of both motion models, default_unscented_transform to predict,
    euclidean_distance to score, dlib's solver to associate and covariance intersection to
    fuse. *)
From Coq Require Import List ZArith.
From Verif Require Import Base Uuid DynObj Float FloatDistance FloatPredict FloatFusion Motion DoubleArith Propagation Scoring
  TrackManager Assignment PipelineDlib.
Import ListNotations.

(** Which of the three squares Eigen adds last in diff.transpose() * diff (the sum of the
    other two does not depend on their order). *)
Inductive last_term := Last_x | Last_y | Last_heading.
Definition arranged (last : last_term) (l : list f32) : list f32 :=
  match l, last with
  | [x; y; h], Last_x => [h; y; x]
  | [x; y; h], Last_y => [x; h; y]
  | _, _ => l
  end.
(** euclidean_distance, ctrv_model.hpp:349-361, ctra_model.hpp:315-327, for the poses of two
    states ([differences] and [dot32]: FloatDistance.v) *)
Definition euclidean32 (last : last_term) (p q : pose64) : f32 := f32_sqrt (dot32 (arranged last (differences p q))).

(** covariance_intersection_visitor, fusing.hpp:115-136, for a track and a detection of
    one motion model, with uuid, class and time stamp; [fuse32]: FloatFusion.v *)
Definition fuse_objects32 (ST : state_type64) (o : fusion_orders) (track detection : dyn_obj f64 (s_car ST) (nat -> nat -> f32))
    : dyn_obj f64 (s_car ST) (nat -> nat -> f32) :=
  let '(fused_state, fused_covariance) := fuse32 ST o (o_state track) (o_cov track) (o_state detection) (o_cov detection) in
  set_state_covariance (set_state (set_timestamp track (o_timestamp detection)) fused_state) fused_covariance.

(** How the platform computes: std::sin, std::cos and std::arg, and the orders in which
    Eigen adds up and multiplies for the two sizes of state *)
Record platform := Platform {
  p_sin : f64 -> f64; p_cos : f64 -> f64; p_arg : f64 -> f64 -> f64;
  p_sum5 : summation; p_sum6 : summation; p_fuse5 : fusion_orders; p_fuse6 : fusion_orders; p_last : last_term
}.

Section Cycle.
  Variable p : platform.
  Notation D := (doubles (p_sin p) (p_cos p) (p_arg p)).
  Notation cov32 := (nat -> nat -> f32).
  Definition ctrv_p : state_type64 := ctrv64 (p_sin p) (p_cos p) (p_arg p).
  Definition ctra_p : state_type64 := ctra64 (p_sin p) (p_cos p) (p_arg p).

  (** std::variant<CtrvObject, CtraObject> and std::variant<CtrvTrack, CtraTrack>: one type
      serves for both here.  Time stamps are doubles (units::time::second_t), subtracted
      as such. *)
  Definition object64 : Type := vobj f64 (ctrv_state D) cov32 (ctra_state D) cov32.
  Definition track64 : track_type := variant_track f64 (ctrv_state D) cov32 (ctra_state D) cov32.

  (** predict_to_time(track, now, default_unscented_transform), temporal_alignment.hpp:65, 103-132 *)
  Definition predict64 (now : f64) (track : track64) : track64 :=
    predict_to_time (v_propagate_to_time f64_sub (default_unscented_transform32 ctrv_p (p_sum5 p))
                                                 (default_unscented_transform32 ctra_p (p_sum6 p))) track now.

  (** The pose euclidean_distance looks at *)
  Definition object_pose (x : object64) : pose64 :=
    match x with
    | Ctrv o => ctrv_pose64 (p_sin p) (p_cos p) (p_arg p) (o_state o)
    | Ctra o => ctra_pose64 (p_sin p) (p_cos p) (p_arg p) (o_state o)
    end.
  (** euclidean_distance_score, scoring.hpp:39-59 *)
  Definition score64 (track : track64) (detection : object64) : option f32 :=
    euclidean_distance_score
      (fun s s' => euclidean32 (p_last p) (ctrv_pose64 (p_sin p) (p_cos p) (p_arg p) s) (ctrv_pose64 (p_sin p) (p_cos p) (p_arg p) s'))
      (fun s s' => euclidean32 (p_last p) (ctra_pose64 (p_sin p) (p_cos p) (p_arg p) s) (ctra_pose64 (p_sin p) (p_cos p) (p_arg p) s'))
      track detection.

  (** covariance_intersection_visitor, fusing.hpp:115-136; as in FusionVisitor.v different
      motion models are undefined behaviour *)
  Definition visit64 (track : track64) (detection : object64) : result track64 :=
    match track, detection with
    | Ctrv t, Ctrv d => Ok (Ctrv (fuse_objects32 ctrv_p (p_fuse5 p) t d) : track64)
    | Ctra t, Ctra d => Ok (Ctra (fuse_objects32 ctra_p (p_fuse6 p) t d) : track64)
    | _, _ => UB
    end.

  (** One cycle at time [now], as in PipelineDlib.v; scores above [gate] are pruned; a
      detection without a track becomes a tentative track as it is. *)
  Definition cycle64 (now : f64) (prune : f32 -> bool) (ord1 ord2 : list uuid) (detections : list object64) (s : mgr track64)
      : mgr track64 * result unit :=
    cycle_dlib int_checked track64 (@v_uuid _ _ _ _ _) (fun d : object64 => d : track64) (predict64 now) score64 prune visit64 ord1 ord2 detections s.
End Cycle.
