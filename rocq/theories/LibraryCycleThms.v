(** Proofs about the cycle of LibraryCycle.v; the properties are in Properties_LibraryCycle.v. *)
From stdpp Require Import gmap strings list.
From Coq Require Import NArith ZArith Reals Lia.
From Flocq Require Import Core IEEE754.BinarySingleNaN.
From Verif Require Import Base Uuid DynObj Float FloatDistance FloatPredict FloatFusion Propagation Scoring TrackManager TrackManagerSpec
  TrackManagerProofs HistorySpec Assignment PipelineDlib PipelineThms IdentitySpec IdentityThms LibraryCycle LibraryCycleSpec.
Local Open Scope nat_scope.

Lemma euclidean32_ok last p q : pose_distance32 p q (euclidean32 last p q).
Proof.
  exists (arranged last (differences p q)). split; [|done]. destruct p as [[x y] h], q as [[x' y'] h'], last; cbn [differences arranged].
  - eapply Permutation_trans; [apply perm_swap|]. eapply Permutation_trans; [apply perm_skip, perm_swap|].
    apply (Permutation_trans (l' := [f32_sub (f32_of_f64 y) (f32_of_f64 y'); f32_sub (f32_of_f64 x) (f32_of_f64 x'); f32_sub (f32_of_f64 h) (f32_of_f64 h')]));
      [done|apply perm_swap].
  - apply perm_skip, perm_swap.
  - done.
Qed.

Lemma ok_inj {A} (x y : A) : Ok x = Ok y → x = y.
Proof. by intros [= ->]. Qed.
Lemma some_inj {A} (x y : A) : Some x = Some y → x = y.
Proof. by intros [= ->]. Qed.

Section One.
  Context (ST : state_type64) (o : summation) (o' : fusion_orders) (now : f64) (t d : dyn_obj f64 (s_car ST) (nat → nat → f32)).
  Lemma fuse_updated : fuse_objects32 ST o' (propagate_to_time f64_sub (default_unscented_transform32 ST o) t now) d = updated_as ST o o' now t d.
  Proof.
    unfold propagate_to_time, updated_as. destruct (default_unscented_transform32 ST o _ _ _) as [s P].
    unfold fuse_objects32. cbn [o_state o_cov]. destruct (fuse32 ST o' s P _ _) as [s' P']. reflexivity.
  Qed.
  Lemma updated_frame : ∃ s P, updated_as ST o o' now t d = DynObj (o_timestamp d) s P (o_uuid t) (o_class t).
  Proof.
    unfold updated_as. destruct (default_unscented_transform32 ST o _ _ _) as [s P].
    destruct (fuse32 ST o' s P _ _) as [s' P']. exists s', P'. reflexivity.
  Qed.
End One.

Section Cycle.
  Context (p : platform).
  Notation id := (@v_uuid _ _ _ _ _).

  Lemma predict64_uuid now t : tt_uuid (predict64 p now t) = tt_uuid t.
  Proof.
    destruct t as [o|o]; cbn -[default_unscented_transform32]; unfold propagate_to_time;
      [destruct (default_unscented_transform32 (ctrv_p p) _ _ _ _)|destruct (default_unscented_transform32 (ctra_p p) _ _ _ _)]; done.
  Qed.
  Lemma predict64_motion now t : motion_of (predict64 p now t) = motion_of t.
  Proof. by destruct t. Qed.
  Lemma score64_distance t d v : score64 p t d = Some v → pose_distance32 (object_pose p t) (object_pose p d) v.
  Proof. destruct t as [t|t], d as [d|d]; cbn; intros [= <-]; apply euclidean32_ok. Qed.
  Lemma same_score t d : motion_of t = motion_of d → ∃ v, score64 p t d = Some v.
  Proof. destruct t, d; cbn; try done; eauto. Qed.
  Lemma same_visit t d : motion_of t = motion_of d → ∃ f, visit64 p t d = Ok f.
  Proof. destruct t, d; intros E; try discriminate E; unfold visit64; eexists; reflexivity. Qed.

  Lemma updated_visit now (t d : object64 p) f : visit64 p (predict64 p now t) d = Ok f →
    updated p now t d = Some f ∧ tt_uuid f = tt_uuid (t : track64 p) ∧ copies f t ∧ copied f t = f.
  Proof.
    destruct t as [t|t], d as [d|d]; try (intros H; discriminate H).
    - intros H. apply ok_inj in H. rewrite fuse_updated in H. unfold updated.
      destruct (updated_frame (ctrv_p p) (p_sum5 p) (p_fuse5 p) now t d) as (s & P & E).
      rewrite E in H. rewrite E. subst f. split; [reflexivity|]. split; [reflexivity|]. split; reflexivity.
    - intros H. apply ok_inj in H. rewrite fuse_updated in H. unfold updated.
      destruct (updated_frame (ctra_p p) (p_sum6 p) (p_fuse6 p) now t d) as (s & P & E).
      rewrite E in H. rewrite E. subst f. split; [reflexivity|]. split; [reflexivity|]. split; reflexivity.
  Qed.
  Lemma updated_same now (t d f : object64 p) : updated p now t d = Some f →
    motion_of f = motion_of t ∧ v_uuid f = v_uuid t ∧ v_class f = v_class t ∧ v_timestamp f = v_timestamp d.
  Proof.
    destruct t as [t|t], d as [d|d]; try (intros H; discriminate H).
    - intros H. apply some_inj in H. destruct (updated_frame (ctrv_p p) (p_sum5 p) (p_fuse5 p) now t d) as (s & P & E).
      rewrite E in H. subst f. repeat split.
    - intros H. apply some_inj in H. destruct (updated_frame (ctra_p p) (p_sum6 p) (p_fuse6 p) now t d) as (s & P & E).
      rewrite E in H. subst f. repeat split.
  Qed.

  Context {Obj : Type} `{EqDecision Obj} (who : uuid → Obj) (model : Obj → motion).
  Context (gate : f32) (a b sep : R) (e : Z) (G : gate_between gate a b sep e).
  Notation sees := (sighting p who model a b sep e).
  Notation observed now := (observation (trk := track64 p) id who (object_pose p) (object_pose p) (score64 p) (visit64 p) a b sep e (predict64 p now)).
  Notation runs := (observed_run (trk := track64 p) id who (object_pose p) (object_pose p) (score64 p) (visit64 p) gate a b sep e (λ d, d)).

  Lemma sighting_observation now truth s ds : models_right p who model s → sees now truth s ds → observed now truth s ds.
  Proof.
    intros Hm O. destruct O as [O1 O2 O3 O4 O5 O6 O7 O8 O9]. split; try done.
    intros u x d Hx Hd Ew.
    assert (motion_of (predict64 p now (e_track x)) = motion_of d) as E
      by (rewrite predict64_motion, (Hm u x Hx), (O5 d Hd); congruence).
    split; [by apply same_score|by apply same_visit].
  Qed.

  Lemma sighted_cycle now truth ord1 ord2 ds (s : mgr (track64 p)) :
    reachable (track64 p) s → order_of ord1 (m_tracks s) → order_of ord2 (m_occ s) →
    (m_removal s < m_promo s < 2 ^ 64 - 1)%N → (m_removal s ≤ 1)%N →
    (∀ u x, view s u = Some x → (e_count x < 2 ^ 64 - 1)%N) →
    one_track_each who s → models_right p who model s → sees now truth s ds →
    ∃ s', cycle64 p now (above_gate gate) ord1 ord2 ds s = (s', Ok ()) ∧
      one_track_each who s' ∧ models_right p who model s' ∧
      (∀ u x d, view s u = Some x → In d ds → who u = who (id d) →
         let n := N.min (e_count x + 1) (m_promo s) in
         ∃ f, updated p now (e_track x) d = Some f ∧
           view s' u = Some (Entry (f : track64 p) (if decide (m_promo s ≤ n)%N then Confirmed else e_status x) n) ∧
           view s' (id d) = None) ∧
      (∀ u x, view s u = Some x → (∀ d, In d ds → who u ≠ who (id d)) →
         let n := (e_count x - 1)%N in
         view s' u = if decide (n ≤ m_removal s)%N then None
           else Some (Entry (e_track x) (if decide (m_promo s ≤ n)%N then Confirmed else e_status x) n)) ∧
      (∀ d, In d ds → (∀ u x, view s u = Some x → who u ≠ who (id d)) →
         view s' (id d) = Some (Entry (d : track64 p) Tentative 1%N)) ∧
      (∀ u, view s u = None → ¬ In u (map id ds) → view s' u = None).
  Proof.
    intros Hr H1 H2 T R C One Hm O. pose proof (sighting_observation now truth s ds Hm O) as Ob.
    destruct (observed_cycle (trk := track64 p) (variant_lawful _ _ _ _ _) id who (object_pose p) (object_pose p) (score64 p) (visit64 p)
      gate a b sep e (λ d, d) (λ d, eq_refl) G score64_distance (predict64 p now) truth ord1 ord2 ds s)
      as (s' & E & _ & _ & _ & _ & One' & V1 & V2 & V3 & V4); try done.
    { apply predict64_uuid. }
    { intros t d f H. by destruct (updated_visit now t d f H) as (_ & ? & ? & _). }
    assert (∀ u x d, view s u = Some x → In d ds → who u = who (id d) →
         let n := N.min (e_count x + 1) (m_promo s) in
         ∃ f, updated p now (e_track x) d = Some f ∧
           view s' u = Some (Entry (f : track64 p) (if decide (m_promo s ≤ n)%N then Confirmed else e_status x) n) ∧
           view s' (id d) = None) as V1'.
    { intros u x d Hx Hd Ew n. destruct (V1 u x d Hx Hd Ew) as (f & Hf & Hv & Hn).
      destruct (updated_visit now _ d f Hf) as (Hu & _ & _ & Ec). rewrite Ec in Hv. exists f. done. }
    exists s'. split; [exact E|]. split; [done|]. split; [|done].
    intros u y Hy. destruct (view s u) as [x|] eqn:Hx.
    - rewrite <- (Hm u x Hx).
      assert ((∃ d, In d ds ∧ who u = who (id d)) ∨ (∀ d, In d ds → who u ≠ who (id d))) as [(d & Hd & Ew)|No].
      { destruct (Exists_dec (λ d : object64 p, who u = who (id d)) ds) as [Hex|Hno].
        - left. apply Exists_exists in Hex as (d & Hd & Ew). exists d. split; [|done]. by apply elem_of_list_In.
        - right. intros d Hd Ew. apply Hno, Exists_exists. exists d. split; [|done]. by apply elem_of_list_In. }
      + destruct (V1' u x d Hx Hd Ew) as (f & Hf & Hv & _). rewrite Hv in Hy. injection Hy as <-. cbn [e_track].
        apply (updated_same now _ d f Hf).
      + pose proof (V2 u x Hx No) as Hv. cbn zeta in Hv. rewrite Hv in Hy. destruct (decide _); [done|]. injection Hy as <-. done.
    - destruct (in_dec String.string_dec u (map id ds)) as [Hin|Hn]; [|by rewrite (V4 u Hx Hn) in Hy].
      apply in_map_iff in Hin as (d & <- & Hd).
      assert (∀ u' x', view s u' = Some x' → who u' ≠ who (id d)) as No.
      { intros u' x' Hx' Ew. destruct (V1' u' x' d Hx' Hd Ew) as (f & _ & _ & Hv). congruence. }
      rewrite (V3 d Hd No) in Hy. injection Hy as <-. apply (si_model _ _ _ _ _ _ _ _ _ _ _ O d Hd).
  Qed.

  Lemma sighted_observed u (s : mgr (track64 p)) bs s' :
    reachable (track64 p) s → (m_removal s < m_promo s < 2 ^ 64 - 1)%N → (m_removal s ≤ 1)%N →
    (∀ v x, view s v = Some x → (e_count x < 2 ^ 64 - 1)%N) → one_track_each who s → models_right p who model s →
    sighted_run p who model a b sep e gate u s bs s' → runs u s bs s' ∧ models_right p who model s'.
  Proof.
    intros Hr T R C One Hm. induction 1 as [|bs seen s1 now truth ds ord1 ord2 Run [IH Hm1] O Hu H1 H2 Hs]; [split; [constructor|done]|].
    destruct (observed_run_thm (trk := track64 p) (variant_lawful _ _ _ _ _) id who (object_pose p) (object_pose p) (score64 p) (visit64 p)
      gate a b sep e (λ d, d) (λ d, eq_refl) G score64_distance u s bs s1 Hr T R C One IH) as (R1 & Ep & Er & C1 & One1 & _).
    destruct (sighted_cycle now truth ord1 ord2 ds s1) as (s2 & E & _ & Hm2 & _); try done; [lia|lia|].
    rewrite E. cbn [fst]. split; [|done].
    eapply (observed_snoc _ _ _ _ _ _ _ _ _ _ _ _ _ _ bs seen s1 (predict64 p now) truth ds ord1 ord2); try done.
    - apply predict64_uuid.
    - intros t d f H. by destruct (updated_visit now t d f H) as (_ & ? & ? & _).
    - by apply sighting_observation.
    - exact (f_equal fst E).
  Qed.
End Cycle.
