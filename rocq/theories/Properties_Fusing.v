(** Fusion of associated tracks and detections: properties C36 to C41 and C73. *)
From Coq Require String.
From Coq Require Import Reals Lra ZArith List Sorted.
From mathcomp Require Import all_ssreflect all_algebra.
From Verif Require Import Base Uuid DynObj Scoring Matching MatchingSpec MatchingExamples
  RealField PosDef Correlated Motion RealArith MotionThms StateVec CovInt CovIntThms
  Fusing FusingSpec FusingThms MixedFusion FusionVisitor FusionThms.
Import Order.Theory GRing.Theory Num.Theory.
Local Open Scope ring_scope.

(** The model over the reals of the whole step. *)
Notation fuse := (fuse_associations v_uuid v_uuid covariance_intersection_visitor).
Notation wanted := (demands v_uuid v_uuid).

(** C36: one result per demanded (association, track, detection), in that
    nesting order, for any visitor ... *)
Theorem C36_order (Trk Det : Type) (tu : Trk -> uuid) (du : Det -> uuid) (visit : Trk -> Det -> result Trk)
    assoc ts ds out : fuse_associations tu du visit assoc ts ds = Ok out ->
  exists places : list place,
    StronglySorted before places /\
    (forall p, In p places <-> exists t d, demands tu du assoc ts ds p t d) /\
    Forall2 (fun p o => exists t d, demands tu du assoc ts ds p t d /\ visit t d = Ok o) places out.
Proof. exact (fuse_spec tu du visit assoc ts ds out). Qed.
(** ... which fails only at the first demanded pair where the visitor fails ... *)
Theorem C36_failure (Trk Det : Type) (tu : Trk -> uuid) (du : Det -> uuid) (visit : Trk -> Det -> result Trk)
    assoc ts ds :
  ((exists out, fuse_associations tu du visit assoc ts ds = Ok out) <->
   (forall p t d, demands tu du assoc ts ds p t d -> exists o, visit t d = Ok o)) /\
  (forall e, fuse_associations tu du visit assoc ts ds = Throw e ->
   exists p t d, demands tu du assoc ts ds p t d /\ visit t d = Throw e /\
   forall p' t' d', before p' p -> demands tu du assoc ts ds p' t' d' -> exists o, visit t' d' = Ok o).
Proof. exact (fuse_outcome tu du visit assoc ts ds). Qed.
(** ... and with the covariance intersection every result keeps the uuid and the
    class of its track and has the time stamp of its detection. *)
Theorem C36_fields assoc (ts ds out : list obj) : fuse assoc ts ds = Ok out ->
  exists places : list place,
    StronglySorted before places /\
    (forall p, In p places <-> exists t d, wanted assoc ts ds p t d) /\
    Forall2 (fun p o => exists t d, wanted assoc ts ds p t d /\
               v_uuid o = v_uuid t /\ v_class o = v_class t /\ v_timestamp o = v_timestamp d) places out.
Proof. exact: fuse_fields. Qed.
Print Assumptions C36_order.
Print Assumptions C36_failure.
Print Assumptions C36_fields.

(** Two associations, three tracks (one without association, two sharing a
    uuid) and two detections; with a visitor that pairs names. *)
Definition uA : uuid := String.String (Ascii.ascii_of_nat 97) String.EmptyString.
Definition uB : uuid := String.String (Ascii.ascii_of_nat 98) String.EmptyString.
Definition uX : uuid := String.String (Ascii.ascii_of_nat 120) String.EmptyString.
Definition uY : uuid := String.String (Ascii.ascii_of_nat 121) String.EmptyString.
Example C36_case :
  fuse_associations fst fst (fun t d => Ok (fst t, snd t * 10 + snd d)%N)
    ((uA, uX :: nil) :: (uB, uX :: uY :: nil) :: nil)
    ((uB, 1%N) :: (uY, 2%N) :: (uB, 3%N) :: (uA, 4%N) :: nil)
    ((uX, 5%N) :: (uY, 6%N) :: nil) =
  Ok ((uA, 45) :: (uB, 15) :: (uB, 16) :: (uB, 35) :: (uB, 36) :: nil)%N.
Proof. reflexivity. Qed.

(** C37: undefined exactly when a demanded pair has two motion models ... *)
Theorem C37_mixed assoc (ts ds : list obj) :
  fuse assoc ts ds = UB <->
  exists p t d, wanted assoc ts ds p t d /\
    ((exists a b, t = Ctrv a /\ d = Ctra b) \/ (exists a b, t = Ctra a /\ d = Ctrv b)).
Proof. exact: fuse_ub. Qed.
(** ... and otherwise fusion always returns. *)
Theorem C37_otherwise assoc (ts ds : list obj) :
  fuse assoc ts ds = UB \/ exists out, fuse assoc ts ds = Ok out.
Proof. exact: fuse_total. Qed.
(** The library's own scoring and association lead there: for every correct
    solver, every scoring of equal states and any two states and covariances. *)
Theorem C37_pipeline solve dist1 dist2 (now : R) (s1 : ctrvR) (c1 : 'M[R]_5) (s2 : ctraR) (c2 : 'M[R]_6) :
  solver_ok solve -> ordinary (dist1 s1 s1) -> ordinary (dist2 s2 s2) ->
  exists (ts ds : list obj) a,
    gnn_associator solve
      (score_tracks_and_detections v_uuid v_uuid (euclidean_distance_score dist1 dist2) ts ds) = Ok a /\
    fuse a ts ds = UB.
Proof. exact: pipeline_ub. Qed.
Print Assumptions C37_mixed.
Print Assumptions C37_pipeline.
(** A solver that meets the hypothesis exists, and near (the number 1) is an ordinary score. *)
Example C37_case : solver_ok try_all /\ ordinary near.
Proof. exact (conj try_all_ok (proj1 near_ok)). Qed.

(** C38: the weights. *)
Theorem C38_swap (F : realFieldType) n (A B : 'M[F]_n) : \det (A + B) != 0 ->
  generate_weight A B + generate_weight B A = 1.
Proof. exact: weight_swap. Qed.
Theorem C38_self (F : realFieldType) n (A : 'M[F]_n) : A \in unitmx -> generate_weight A A = 2%:R^-1.
Proof. exact: weight_self. Qed.
Theorem C38_bounds (F : realFieldType) n (A B : 'M[F]_n) : spd A -> spd B -> 0 < generate_weight A B < 1.
Proof. exact: weight_bounds. Qed.
(** The estimate with the larger information determinant gets the larger weight. *)
Theorem C38_order (F : realFieldType) n (A B : 'M[F]_n) : spd A -> spd B ->
  (2%:R^-1 <= generate_weight A B) = (\det B <= \det A).
Proof. exact: weight_order. Qed.
Print Assumptions C38_swap.
Print Assumptions C38_bounds.
(** diag(4, 4, 4, 4) against the identity: 5^4 = 625, 4^4 = 256, weight 880/1250. *)
Example C38_case : spd (4%:R%:M : 'M[rat]_4) /\ spd (1%:M : 'M[rat]_4) /\
  generate_weight (4%:R%:M : 'M[rat]_4) 1%:M = 880%:R / 1250%:R.
Proof.
split; first exact: spd_scalar.
split; first exact: spd_id.
rewrite /generate_weight -raddfD /= !det_scalar expr1n.
by apply/eqP; vm_compute.
Qed.

(** C39: the fused covariance and mean. *)
Theorem C39_covariance (F : realFieldType) n m1 m2 (A B : 'M[F]_n) w : spd A -> spd B -> 0 <= w <= 1 ->
  let C := snd (compute_covariance_intersection m1 A m2 B w) in
  spd C /\ C *m (w *: A + (1 - w) *: B) = 1%:M /\ invmx C = w *: A + (1 - w) *: B.
Proof.
move=> sA sB w01; split; [exact: fused_cov_spd|exact: fused_cov_inv].
Qed.
(** Equal means, none of whose heading entries (index 3) exceeds the constant. *)
Theorem C39_mean (F : realFieldType) n (m : 'cV[F]_n) (A B : 'M[F]_n) w : spd A -> spd B -> 0 <= w <= 1 ->
  (forall i : 'I_n, (i : nat) = 3%N -> m i 0 <= pi11 F) ->
  fst (compute_covariance_intersection m A m B w) = m.
Proof. exact: fused_mean_same. Qed.
Theorem C39_self (F : realFieldType) n (m : 'cV[F]_n) (A : 'M[F]_n) w : spd A -> 0 <= w <= 1 ->
  (forall i : 'I_n, (i : nat) = 3%N -> m i 0 <= pi11 F) ->
  compute_covariance_intersection m A m A w = (m, invmx A).
Proof. exact: fused_self. Qed.
(** The same for objects: the visitor changes nothing but the time stamp. *)
Theorem C39_ctrv (t d : ctrv_obj) : spd (o_cov t) -> on_circle (v_yaw (o_state t)) ->
  (get_angle (v_yaw (o_state t)) <= 3.14159265359)%coqR ->
  o_state d = o_state t -> o_cov d = o_cov t ->
  covariance_intersection_visitor (Ctrv t) (Ctrv d) = Ok (Ctrv (set_timestamp t (o_timestamp d))).
Proof. exact: ctrv_visit_self. Qed.
Theorem C39_ctra (t d : ctra_obj) : spd (o_cov t) -> on_circle (a_yaw (o_state t)) ->
  (get_angle (a_yaw (o_state t)) <= 3.14159265359)%coqR ->
  o_state d = o_state t -> o_cov d = o_cov t ->
  covariance_intersection_visitor (Ctra t) (Ctra d) = Ok (Ctra (set_timestamp t (o_timestamp d))).
Proof. exact: ctra_visit_self. Qed.
(** With positive definite covariances the visitor's own weight is in range and
    its covariance is positive definite. *)
Theorem C39_objects (t d : obj) o : covariance_intersection_visitor t d = Ok o ->
  obj_spd t -> obj_spd d -> obj_spd o.
Proof. exact: visit_spd. Qed.
Print Assumptions C39_covariance.
Print Assumptions C39_self.
Print Assumptions C39_ctrv.
Print Assumptions C39_objects.
Example C39_case :
  spd (2%:R%:M : 'M[R]_5) /\ spd (1%:M : 'M[R]_5) /\ 0 <= (2%:R^-1 : R) <= 1 /\
  (forall i : 'I_5, (i : nat) = 3%N -> (const_mx 3%coqR : 'cV[R]_5) i 0 <= pi11 R_realFieldType).
Proof.
split; first by apply: spd_scalar; rewrite ltr0n.
split; first exact: spd_id.
split; first by rewrite invr_ge0 ler0n invf_le1 ?ltr0n // ler1n.
by move=> i _; rewrite mxE; apply/RleP; rewrite pi11_R; lra.
Qed.

(** A detection equal to its track but 5 seconds later, with correlated errors,
    and one with other errors. *)
Example C39_objects_case :
  let s := CtrvState (A := reals) 1 2 10 (angleR 0) 0 in
  let o (t : R) (P : 'M[R]_5) : ctrv_obj := DynObj t s P String.EmptyString kUnknown in
  let t := o 3%coqR (correlated 5) in let d := o 8%coqR (correlated 5) in
  spd (o_cov t) /\ on_circle (v_yaw (o_state t)) /\ (get_angle (v_yaw (o_state t)) <= 3.14159265359)%coqR /\
  covariance_intersection_visitor (Ctrv t) (Ctrv d) = Ok (Ctrv d) /\
  exists f, covariance_intersection_visitor (Ctrv t) (Ctrv (o 8%coqR 1%:M)) = Ok f /\ obj_spd f.
Proof.
move=> s o t d; have P := correlated_spd R_realFieldType 5.
have C : on_circle (v_yaw (o_state t)) by exact: circle_of.
have L : (get_angle (v_yaw (o_state t)) <= 3.14159265359)%coqR.
  have -> : get_angle (v_yaw (o_state t)) = 0%coqR by exact: heading_zero.
  by lra.
split=> //; split=> //; split=> //; split; first by rewrite C39_ctrv.
eexists; split; first by [].
by apply: (@C39_objects (Ctrv t) (Ctrv (o 8%coqR 1%:M))) => //; exact: spd_id.
Qed.

(** C40: information is interpolated in every direction, so the fused estimate is
    never more certain than the better of the two and never less than the worse. *)
Theorem C40_information (F : realFieldType) n m1 m2 (A B : 'M[F]_n) w v : spd A -> spd B -> 0 <= w <= 1 ->
  let C := snd (compute_covariance_intersection m1 A m2 B w) in
  Num.min (qf A v) (qf B v) <= qf (invmx C) v <= Num.max (qf A v) (qf B v).
Proof. exact: information_between. Qed.
Theorem C40_covariance (F : realFieldType) n m1 m2 (A B : 'M[F]_n) w v : spd A -> spd B -> 0 <= w <= 1 ->
  qf (snd (compute_covariance_intersection m1 A m2 B w)) v <= w * qf (invmx A) v + (1 - w) * qf (invmx B) v.
Proof. exact: covariance_mixture. Qed.
Print Assumptions C40_information.
Print Assumptions C40_covariance.
(** One dimension: informations 1 and 3 with weight 1/2 give information 2. *)
Example C40_case : spd (1%:M : 'M[rat]_1) /\ spd (3%:R%:M : 'M[rat]_1) /\
  invmx (snd (compute_covariance_intersection (0 : 'cV_1) (1%:M : 'M[rat]_1) 0 3%:R%:M 2%:R^-1)) = 2%:R%:M.
Proof.
split; first exact: spd_id.
split; first exact: spd_scalar.
rewrite /compute_covariance_intersection /= invmxK.
by apply/matrixP => i j; rewrite !mxE !ord1 /=.
Qed.

(** C41: equal covariances, headings less than 0.1 rad apart, and a fused heading
    more than 3 rad away from both, whichever way round one measures. *)
Theorem C41_seam_refuted : exists t d : ctrv_obj,
  spd (o_cov t) /\ o_cov d = o_cov t /\
  on_circle (v_yaw (o_state t)) /\ on_circle (v_yaw (o_state d)) /\
  (Rabs (get_angle (v_yaw (o_state t)) - get_angle (v_yaw (o_state d))) < / 10)%coqR /\
  exists f, covariance_intersection_visitor (Ctrv t) (Ctrv d) = Ok (Ctrv f) /\
  forall k : Z,
    (3 < Rabs (get_angle (v_yaw (o_state f)) - get_angle (v_yaw (o_state t)) + IZR k * (2 * PI)))%coqR /\
    (3 < Rabs (get_angle (v_yaw (o_state f)) - get_angle (v_yaw (o_state d)) + IZR k * (2 * PI)))%coqR.
Proof. exact: seam_visit. Qed.
Print Assumptions C41_seam_refuted.

(** C73: consistency.  [p i] is the probability of outcome [i], [x i] the true
    state, [m1 i] and [m2 i] the two estimates in that outcome; nothing is said
    about how their errors are correlated. *)
Theorem C73_consistent (F : realFieldType) (I : finType) n (p : I -> F) (x m1 m2 : I -> 'cV_n) (A B : 'M_n) w :
  spd A -> spd B -> 0 <= w <= 1 -> (forall i, 0 <= p i) ->
  (forall i (k : 'I_n), (k : nat) = 3%N -> m1 i k 0 <= pi11 F /\ m2 i k 0 <= pi11 F) ->
  (forall v, qf (\sum_i p i *: ((m1 i - x i) *m (m1 i - x i)^T)) v <= qf (invmx A) v) ->
  (forall v, qf (\sum_i p i *: ((m2 i - x i) *m (m2 i - x i)^T)) v <= qf (invmx B) v) ->
  forall j v,
    let f i := fst (compute_covariance_intersection (m1 i) A (m2 i) B w) in
    is_true (qf (\sum_i p i *: ((f i - x i) *m (f i - x i)^T)) v <=
             qf (snd (compute_covariance_intersection (m1 j) A (m2 j) B w)) v).
Proof. exact: consistent_estimates. Qed.
Print Assumptions C73_consistent.
(** One dimension, both estimates the same fair coin +1/-1 around the truth 0:
    fully correlated errors, covariances 1. *)
Example C73_case :
  let p := fun _ : bool => (2%:R^-1 : rat) in
  let m := fun b : bool => (if b then 1%:M else - 1%:M : 'cV[rat]_1) in
  spd (1%:M : 'M[rat]_1) /\ (forall i, 0 <= p i) /\
  (forall i (k : 'I_1), (k : nat) = 3%N -> m i k 0 <= pi11 rat_realFieldType) /\
  (forall v, qf (\sum_i p i *: ((m i - 0) *m (m i - 0)^T)) v <= qf (invmx 1%:M) v).
Proof.
split; first exact: spd_id.
split; first by move=> i; rewrite invr_ge0 ler0n.
split; first by move=> i [[|k] h] E; [discriminate E|discriminate h].
move=> v; rewrite big_bool /= !subr0 trmx1 raddfN /= trmx1 mulmx1 mulNmx mulmxN mulmx1 opprK.
by rewrite -scalerDl invmx1 (_ : 2%:R^-1 + 2%:R^-1 = 1 :> rat) // scale1r.
Qed.
