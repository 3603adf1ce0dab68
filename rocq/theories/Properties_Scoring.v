(** Properties C19 - C22 and C66: scoring, gating, uuids. *)
From Coq Require Import String List Bool ZArith.
From Flocq Require Import IEEE754.BinarySingleNaN.
From Verif Require Import Base Uuid OrdMap OrdFacts DynObj Float Scoring ScoringSpec ScoringThms MatchingSpec.
Import ListNotations.
Open Scope string_scope.
Open Scope list_scope.

(** ** C19.  [metric] is the score visitor, [tu] and [du] read the uuids. *)
Theorem C19_score_map : forall (F Trk Det : Type) (tu : Trk -> uuid) (du : Det -> uuid)
    (metric : Trk -> Det -> option F) (tracks : list Trk) (detections : list Det),
  let scores := score_tracks_and_detections tu du metric tracks detections in
  map_wf scores /\
  (forall k, (exists v, In (k, v) scores) <->
     exists t d v, In t tracks /\ In d detections /\ k = (tu t, du d) /\ metric t d = Some v) /\
  (forall k v, In (k, v) scores <-> exists before, scores_for tu du metric tracks detections k = before ++ [v]) /\
  (NoDup (map tu tracks) -> NoDup (map du detections) ->
   forall t d v, In t tracks -> In d detections -> (In ((tu t, du d), v) scores <-> metric t d = Some v)).
Proof.
  intros F Trk Det tu du metric tracks detections scores.
  destruct (score_map_find tu du metric tracks detections) as [Hw Hf].
  assert (forall k v, In (k, v) scores <-> om_find pair_compare k scores = Some v) as Hin.
  { intros k v. symmetry. apply (om_find_in _ pair_total), Hw. }
  split; [exact Hw|]. split; [|split].
  - intros k. rewrite <- (score_map_domain tu du metric tracks detections k).
    split; intros [v H]; exists v; apply Hin; exact H.
  - intros k v. rewrite Hin. unfold scores. rewrite Hf. split.
    + destruct (rev _) as [|x l] eqn:E; [discriminate|]. intros [= ->]. exists (rev l).
      rewrite <- (rev_involutive (scores_for _ _ _ _ _ _)), E. reflexivity.
    + intros [l E]. rewrite E, rev_app_distr. reflexivity.
  - intros H1 H2 t d v Ht Hd. rewrite Hin. unfold scores.
    rewrite (score_map_unique tu du metric tracks detections t d) by assumption. tauto.
Qed.
(** Two tracks with the same uuid: the later pair wins; a pair without score has no entry. *)
Example C19_case :
  score_tracks_and_detections (fst : string * nat -> uuid) (fst : string * nat -> uuid)
    (fun t d => if Nat.eqb (snd d) 0 then None else Some (10 * snd t + snd d))
    [("a", 1); ("b", 2); ("a", 3)] [("x", 4); ("y", 0); ("z", 5)] =
  [(("a", "x"), 34); (("a", "z"), 35); (("b", "x"), 24); (("b", "z"), 25)].
Proof. reflexivity. Qed.

(** ** C20 *)
Theorem C20_euclidean_same_model : forall (F T S1 C1 S2 C2 : Type) (d1 : S1 -> S1 -> F) (d2 : S2 -> S2 -> F)
    (track detection : vobj T S1 C1 S2 C2),
  (exists v, euclidean_distance_score d1 d2 track detection = Some v) <-> same_model track detection.
Proof. intros. destruct track, detection; cbn; (split; [first [intros _; exact I | intros [v H]; discriminate]|first [intros _; eexists; reflexivity|intros []]]). Qed.
Theorem C20_mahalanobis_same_model : forall (F T S1 C1 S2 C2 : Type)
    (d1 : S1 -> C1 -> S1 -> F) (d2 : S2 -> C2 -> S2 -> F) (track detection : vobj T S1 C1 S2 C2),
  (exists v, mahalanobis_distance_score d1 d2 track detection = Some v) <-> same_model track detection.
Proof. intros. destruct track, detection; cbn; (split; [first [intros _; exact I | intros [v H]; discriminate]|first [intros _; eexists; reflexivity|intros []]]). Qed.
(** What the score is: the distance of the two states, and for the Mahalanobis
    score with the covariance of the track. *)
Theorem C20_euclidean_value : forall (F T S1 C1 S2 C2 : Type) (d1 : S1 -> S1 -> F) (d2 : S2 -> S2 -> F)
    (track detection : vobj T S1 C1 S2 C2) (v : F),
  euclidean_distance_score d1 d2 track detection = Some v <->
  (exists t d, track = Ctrv t /\ detection = Ctrv d /\ v = d1 (o_state t) (o_state d)) \/
  (exists t d, track = Ctra t /\ detection = Ctra d /\ v = d2 (o_state t) (o_state d)).
Proof.
  intros. destruct track as [t|t], detection as [d|d]; cbn; (split;
    [first [discriminate | intros [= <-]; first [left; exists t, d; now auto | right; exists t, d; now auto]]
    |intros [(t' & d' & E1 & E2 & ->)|(t' & d' & E1 & E2 & ->)]; first [discriminate | injection E1 as <-; injection E2 as <-; reflexivity]]).
Qed.
Theorem C20_mahalanobis_value : forall (F T S1 C1 S2 C2 : Type)
    (d1 : S1 -> C1 -> S1 -> F) (d2 : S2 -> C2 -> S2 -> F) (track detection : vobj T S1 C1 S2 C2) (v : F),
  mahalanobis_distance_score d1 d2 track detection = Some v <->
  (exists t d, track = Ctrv t /\ detection = Ctrv d /\ v = d1 (o_state t) (o_cov t) (o_state d)) \/
  (exists t d, track = Ctra t /\ detection = Ctra d /\ v = d2 (o_state t) (o_cov t) (o_state d)).
Proof.
  intros. destruct track as [t|t], detection as [d|d]; cbn; (split;
    [first [discriminate | intros [= <-]; first [left; exists t, d; now auto | right; exists t, d; now auto]]
    |intros [(t' & d' & E1 & E2 & ->)|(t' & d' & E1 & E2 & ->)]; first [discriminate | injection E1 as <-; injection E2 as <-; reflexivity]]).
Qed.
(** Hence in the whole score map, when uuids are unique. *)
Theorem C20_score_map_same_model : forall (F T S1 C1 S2 C2 : Type) (metric : vobj T S1 C1 S2 C2 -> vobj T S1 C1 S2 C2 -> option F)
    (tracks detections : list (vobj T S1 C1 S2 C2)),
  (exists d1 d2, metric = euclidean_distance_score d1 d2) \/ (exists d1 d2, metric = mahalanobis_distance_score d1 d2) ->
  NoDup (map v_uuid tracks) -> NoDup (map v_uuid detections) ->
  forall t d, In t tracks -> In d detections ->
    ((exists v, In ((v_uuid t, v_uuid d), v) (score_tracks_and_detections v_uuid v_uuid metric tracks detections)) <->
     same_model t d).
Proof.
  intros F T S1 C1 S2 C2 metric tracks detections Hm H1 H2 t d Ht Hd.
  destruct (C19_score_map _ _ _ v_uuid v_uuid metric tracks detections) as (_ & _ & _ & Hu).
  specialize (Hu H1 H2 t d).
  assert ((exists v, metric t d = Some v) <-> same_model t d) as <-.
  { destruct Hm as [(d1 & d2 & ->)|(d1 & d2 & ->)]; [apply C20_euclidean_same_model|apply C20_mahalanobis_same_model]. }
  split; intros [v H]; exists v; apply (Hu v Ht Hd); exact H.
Qed.
Example C20_case :
  let obj u := DynObj 0 7 tt u kUnknown in
  score_tracks_and_detections v_uuid v_uuid (euclidean_distance_score Nat.add Nat.mul)
    [Ctrv (obj "a"); Ctra (obj "b")] [Ctra (obj "x"); Ctrv (obj "y")] = [(("a", "y"), 14); (("b", "x"), 49)].
Proof. reflexivity. Qed.

(** ** C21.  Every std::map satisfies [map_wf]. *)
Theorem C21_gating : forall (F : Type) (p : F -> bool) (scores : score_map F), map_wf scores ->
  let pruned := prune_track_and_detection_scores_if p scores in
  map_wf pruned /\ forall k v, In (k, v) pruned <-> In (k, v) scores /\ p v = false.
Proof.
  intros F p scores Hw pruned. split; [apply prune_wf, Hw|]. intros k v. unfold pruned.
  rewrite prune_spec by exact Hw. rewrite filter_In. cbn [snd]. rewrite negb_true_iff. tauto.
Qed.
Theorem C21_gating_idempotent : forall (F : Type) (p : F -> bool) (scores : score_map F), map_wf scores ->
  prune_track_and_detection_scores_if p (prune_track_and_detection_scores_if p scores) =
  prune_track_and_detection_scores_if p scores.
Proof. exact @prune_idem. Qed.
Theorem C21_gating_commutes : forall (F : Type) (p q : F -> bool) (scores : score_map F), map_wf scores ->
  prune_track_and_detection_scores_if p (prune_track_and_detection_scores_if q scores) =
  prune_track_and_detection_scores_if q (prune_track_and_detection_scores_if p scores).
Proof. exact @prune_comm. Qed.
Example C21_case :
  let scores := [(("a", "x"), 3); (("a", "y"), 8); (("b", "x"), 9); (("b", "y"), 4)] in
  map_wf scores /\ prune_track_and_detection_scores_if (Nat.leb 5) scores = [(("a", "x"), 3); (("b", "y"), 4)].
Proof. repeat split. Qed.

(** ** C22 *)
Theorem C22_nan_survives : forall (scores : score_map f32) (threshold : f32) k v, map_wf scores ->
  In (k, v) scores -> is_nan v = true ->
  In (k, v) (prune_track_and_detection_scores_if (fun s => f32_gtb s threshold) scores).
Proof.
  intros scores threshold k v Hw Hin Hn.
  apply (C21_gating f32 (fun s => f32_gtb s threshold) scores Hw). split; [exact Hin|]. apply nan_not_greater, Hn.
Qed.
Example C22_case :
  let scores := [(("a", "x"), f32_of_Z 3); (("a", "y"), B754_nan); (("b", "x"), f32_of_Z 9)] in
  map_wf scores /\
  map fst (prune_track_and_detection_scores_if (fun s => f32_gtb s (f32_of_Z 5)) scores) = [("a", "x"); ("a", "y")].
Proof. repeat split. Qed.

(** ** C66 *)
Theorem C66_uuid_equality : forall a b : uuid,
  (uuid_eqb a b = true <-> a = b) /\ uuid_neb a b = negb (uuid_eqb a b).
Proof.
  intros a b. split; [|reflexivity]. unfold uuid_eqb. rewrite <- bytes_compare_eq.
  destruct (bytes_compare a b); split; congruence.
Qed.
Theorem C66_uuid_strict_total_order :
  (forall a, uuid_ltb a a = false) /\
  (forall a b c, uuid_ltb a b = true -> uuid_ltb b c = true -> uuid_ltb a c = true) /\
  (forall a b, uuid_ltb a b = true \/ a = b \/ uuid_ltb b a = true).
Proof.
  unfold uuid_ltb. split; [|split].
  - intros a. rewrite (cmp_refl _ bytes_total). reflexivity.
  - intros a b c H1 H2. destruct (bytes_compare a b) eqn:E1; try discriminate.
    destruct (bytes_compare b c) eqn:E2; try discriminate. rewrite (bytes_compare_trans a b c E1 E2). reflexivity.
  - intros a b. rewrite (bytes_compare_opp a b). destruct (bytes_compare a b) eqn:E; cbn; auto.
    apply bytes_compare_eq in E. auto.
Qed.
Theorem C66_uuid_operators_consistent : forall a b : uuid,
  uuid_gtb a b = uuid_ltb b a /\ uuid_leb a b = negb (uuid_ltb b a) /\ uuid_geb a b = negb (uuid_ltb a b) /\
  uuid_leb a b = (uuid_ltb a b || uuid_eqb a b)%bool.
Proof.
  intros a b. unfold uuid_gtb, uuid_ltb, uuid_leb, uuid_geb, uuid_eqb. rewrite (bytes_compare_opp a b).
  destruct (bytes_compare a b); auto.
Qed.
(** Byte-wise lexicographic: a common prefix does not matter, a proper prefix is
    smaller, and otherwise the first differing byte decides, as an unsigned number. *)
Theorem C66_uuid_lexicographic :
  (forall p a b : uuid, uuid_ltb (append p a) (append p b) = uuid_ltb a b) /\
  (forall x a, uuid_ltb "" (String x a) = true) /\
  (forall a, uuid_ltb a "" = false) /\
  (forall x y a b, x <> y ->
     (uuid_ltb (String x a) (String y b) = true <-> (Ascii.nat_of_ascii x < Ascii.nat_of_ascii y)%nat)).
Proof.
  unfold uuid_ltb. split; [|split; [|split]].
  - induction p as [|x p IH]; intros a b; [reflexivity|]. cbn. rewrite N.compare_refl. apply IH.
  - reflexivity.
  - intros [|x a]; reflexivity.
  - intros x y a b Hne. cbn. unfold Ascii.nat_of_ascii.
    assert (Ascii.N_of_ascii x <> Ascii.N_of_ascii y) as Hn.
    { intros E. apply Hne. rewrite <- (Ascii.ascii_N_embedding x), E. apply Ascii.ascii_N_embedding. }
    destruct (N.compare_spec (Ascii.N_of_ascii x) (Ascii.N_of_ascii y)) as [E|E|E]; [contradiction| |]; split; intros H;
      try reflexivity; try discriminate; Lia.lia.
Qed.
Example C66_case : uuid_ltb "track-10" "track-9" = true /\ uuid_ltb "A" "a" = true /\ uuid_ltb "a" "aa" = true /\
  uuid_eqb "a" "a " = false.
Proof. repeat split. Qed.

Print Assumptions C19_score_map.
Print Assumptions C20_euclidean_value.
Print Assumptions C20_mahalanobis_value.
Print Assumptions C20_score_map_same_model.
Print Assumptions C21_gating.
Print Assumptions C21_gating_idempotent.
Print Assumptions C21_gating_commutes.
Print Assumptions C22_nan_survives.
Print Assumptions C66_uuid_equality.
Print Assumptions C66_uuid_strict_total_order.
Print Assumptions C66_uuid_operators_consistent.
Print Assumptions C66_uuid_lexicographic.
