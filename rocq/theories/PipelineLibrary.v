(** The tracking cycle with the objects of the library: both motion models, any
    propagator for each, fusion by covariance intersection; over exact reals. *)
From stdpp Require Import gmap strings list.
From Coq Require Import NArith ZArith Reals.
From mathcomp Require matrix.
From Verif Require Import Base Uuid OrdMap DynObj Float DlibMatrix Scoring Matching MatchingSpec Fusing
  TrackManager TrackManagerSpec TrackManagerProofs Pipeline PipelineAssoc PipelineThms
  Motion RealArith StateVec CovInt FusionVisitor Propagation.
Local Open Scope nat_scope.

Notation cov5 := (matrix.matrix R 5 5).
Notation cov6 := (matrix.matrix R 6 6).
Definition lib_obj : Type := vobj R ctrvR cov5 ctraR cov6.
Definition lib_track : track_type := variant_track R ctrvR cov5 ctraR cov6.
Definition lib_visit : lib_track → lib_obj → result lib_track := covariance_intersection_visitor.
Definition lib_predict (p1 : ctrvR → cov5 → R → ctrvR * cov5) (p2 : ctraR → cov6 → R → ctraR * cov6) (now : R)
    (t : lib_track) : lib_track := v_propagate_to_time Rminus p1 p2 t now.

Lemma lib_predict_uuid p1 p2 now t : tt_uuid (lib_predict p1 p2 now t) = tt_uuid t.
Proof. destruct t as [o|o]; cbn; unfold propagate_to_time; [destruct (p1 _ _ _)|destruct (p2 _ _ _)]; done. Qed.
Lemma lib_predict_class p1 p2 now t : v_class (lib_predict p1 p2 now t) = v_class t.
Proof. destruct t as [o|o]; cbn; unfold propagate_to_time; [destruct (p1 _ _ _)|destruct (p2 _ _ _)]; done. Qed.

Lemma ci_fuse_frame n S to from (t d : dyn_obj R S (matrix.matrix R n n)) :
  o_uuid (ci_fuse to from t d) = o_uuid t ∧ o_class (ci_fuse to from t d) = o_class t ∧
  o_timestamp (ci_fuse to from t d) = o_timestamp d.
Proof. unfold ci_fuse. destruct (compute_covariance_intersection _ _ _ _ _). done. Qed.

Lemma rebuild {T S C} (x : dyn_obj T S C) u c :
  o_uuid x = u → o_class x = c → DynObj (o_timestamp x) (o_state x) (o_cov x) u c = x.
Proof. intros <- <-. by destruct x. Qed.

(** The fused track replaces the stored one: same uuid and class. *)
Lemma lib_fused p1 p2 now (t : lib_track) (d : lib_obj) f : lib_visit (lib_predict p1 p2 now t) d = Ok f →
  tt_uuid f = tt_uuid t ∧ copies f t ∧ copied f t = f.
Proof.
  destruct t as [o|o], d as [d|d]; try (intros H; discriminate H).
  - change (lib_visit (lib_predict p1 p2 now (Ctrv o)) (Ctrv d))
      with (Ok (Ctrv (ctrv_fuse (propagate_to_time Rminus p1 o now) d) : lib_track)).
    pose proof (ci_fuse_frame 5 _ ctrv_to_vec ctrv_from_vec (propagate_to_time Rminus p1 o now) d) as (U & C & T).
    fold (ctrv_fuse (propagate_to_time Rminus p1 o now) d) in U, C. intros [= <-].
    revert U C. generalize (ctrv_fuse (propagate_to_time Rminus p1 o now) d). unfold propagate_to_time.
    destruct (p1 _ _ _) as [s c]. cbn [o_uuid o_class]. intros x U C.
    split; [exact U|]. split; [done|]. exact (f_equal Ctrv (rebuild x _ _ U C)).
  - change (lib_visit (lib_predict p1 p2 now (Ctra o)) (Ctra d))
      with (Ok (Ctra (ctra_fuse (propagate_to_time Rminus p2 o now) d) : lib_track)).
    pose proof (ci_fuse_frame 6 _ ctra_to_vec ctra_from_vec (propagate_to_time Rminus p2 o now) d) as (U & C & T).
    fold (ctra_fuse (propagate_to_time Rminus p2 o now) d) in U, C. intros [= <-].
    revert U C. generalize (ctra_fuse (propagate_to_time Rminus p2 o now) d). unfold propagate_to_time.
    destruct (p2 _ _ _) as [s c]. cbn [o_uuid o_class]. intros x U C.
    split; [exact U|]. split; [done|]. exact (f_equal Ctra (rebuild x _ _ U C)).
Qed.

Lemma lib_defined p1 p2 now (t : lib_track) (d : lib_obj) :
  ScoringSpec.same_model t d → ∃ f, lib_visit (lib_predict p1 p2 now t) d = Ok f.
Proof. destruct t, d; cbn; try done; intros _; eexists; done. Qed.
