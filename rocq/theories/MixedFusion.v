(** When fusion meets a track and a detection of different motion models. *)
From Coq Require Import String List ZArith NArith Arith Lia Bool Reals Lra.
From Flocq Require Import Core IEEE754.BinarySingleNaN.
From Verif Require Import Base Uuid OrdMap OrdFacts DynObj Float DlibMatrix Scoring Matching MatchingSpec
  AssignProofs FloatProofs MatchingProofs MatchingThms ScoringThms MatchingExamples Fusing FusingSpec FusingThms.
Import ListNotations.
Open Scope string_scope.
Open Scope list_scope.
Open Scope nat_scope.

(** The shape of [hall] with arbitrary scores. *)
Definition hall_of (a b : f32) : score_map f32 :=
  [(("t1", "d1"), a); (("t2", "d1"), a); (("t3", "d2"), b); (("t3", "d3"), b)].

Lemma hall_of_pair solve x y : solver_ok solve -> ordinary x -> ordinary y ->
  exists a t d, gnn_associator solve (hall_of x y) = Ok a /\ In (t, d) (assoc_pairs a) /\
    In t ["t1"; "t2"] /\ In d ["d2"; "d3"] /\ (forall u l, In (u, l) a -> exists d, l = [d]).
Proof.
  intros Hs Hx Hy. assert (small_map (hall_of x y)) as Hsm by reflexivity.
  assert (map_wf (hall_of x y)) as Hw by (repeat split).
  assert (missing_pair (hall_of x y)) as Hm.
  { exists "t1", "d2". split; [cbn; tauto|]. split; [cbn; tauto|]. intros v H. cbn in H.
    repeat (destruct H as [[=]|H]); destruct H. }
  assert (usable (hall_of x y)) as Hu.
  { apply missing_usable; [exact Hw|exact Hm|]. intros k v H. unfold hall_of in H. cbn [In] in H.
    repeat (destruct H as [H|H]; [apply pair_equal_spec in H as [_ <-]; assumption|]). destruct H. }
  destruct (usable_defined solve (hall_of x y) Hs Hsm Hu) as [a E]. exists a.
  destruct (gnn_one_to_one solve (hall_of x y) a Hs Hsm E) as (_ & Hone & (N1 & N2) & Hin & HL & HLa).
  change (length (tracks_of (hall_of x y))) with 3 in HL.
  change (length (detections_of (hall_of x y))) with 3 in HL. cbn in HL.
  assert (forall t, In t ["t1"; "t2"; "t3"] -> exists d, In (t, d) (assoc_pairs a)) as Hall.
  { intros t Ht. enough (In t (map fst (assoc_pairs a))) as G.
    { apply in_map_iff in G as ([t' d] & <- & G). eauto. }
    assert (incl ["t1"; "t2"; "t3"] (map fst (assoc_pairs a))) as Hincl.
    { apply NoDup_length_incl; [exact N1|rewrite map_length, HLa, HL; reflexivity|].
      intros u Hu'. apply in_map_iff in Hu' as ([t' d] & <- & Hu'). apply Hin in Hu' as [Hu' _]. exact Hu'. }
    apply Hincl, Ht. }
  destruct (Hall "t1") as [d1 H1]; [cbn; auto|]. destruct (Hall "t2") as [d2 H2]; [cbn; auto|].
  pose proof (Hin _ _ H1) as [_ I1]. pose proof (Hin _ _ H2) as [_ I2]. cbn in I1, I2.
  destruct I1 as [<-|I1].
  - exists "t2", d2. repeat (split; [first [assumption|cbn; tauto]|]). split; [|exact Hone].
    destruct I2 as [<-|I2]; [|cbn; tauto].
    assert (("t1", "d1") = ("t2", "d1")) as [=].
    exact (nodup_map_inj snd (assoc_pairs a) _ _ N2 H1 H2 eq_refl).
  - exists "t1", d1. repeat (split; [first [assumption|cbn; tauto]|]). exact Hone.
Qed.

Section Mixed.
  Context {T S1 C1 S2 C2 : Type}.
  Notation obj := (@vobj T S1 C1 S2 C2).
  Context (visit : obj -> obj -> result obj).

  Definition mixed (t d : obj) : Prop :=
    match t, d with Ctrv _, Ctra _ => True | Ctra _, Ctrv _ => True | _, _ => False end.
  (** The visitor is undefined on mixed pairs, and defined on the others. *)
  Definition mixed_ub : Prop := forall t d, match t, d with
    | Ctrv _, Ctra _ | Ctra _, Ctrv _ => visit t d = UB
    | _, _ => exists o, visit t d = Ok o
    end.

  Lemma fuse_mixed assoc ts ds : mixed_ub ->
    fuse_associations v_uuid v_uuid visit assoc ts ds = UB <->
    exists p t d, demands v_uuid v_uuid assoc ts ds p t d /\ mixed t d.
  Proof.
    intros Hv. split.
    - intros E. destruct (fuse_fails v_uuid v_uuid visit assoc ts ds _ E) as (p & t & d & D & V & _); [discriminate|].
      exists p, t, d. split; [exact D|]. pose proof (Hv t d) as H.
      destruct t, d; cbn; try exact I; destruct H as [o H]; rewrite H in V; discriminate.
    - intros (p & t & d & D & M). assert (visit t d = UB) as U.
      { pose proof (Hv t d) as H. destruct t, d; try exact H; destruct M. }
      destruct (fuse_associations v_uuid v_uuid visit assoc ts ds) as [out|e|] eqn:E; [exfalso|exfalso|reflexivity].
      + destruct (fuse_spec v_uuid v_uuid visit assoc ts ds out E) as (places & _ & Hin & HF).
        assert (In p places) as Hp by (apply Hin; eauto).
        clear - Hp HF D U. induction HF as [|q o ps outs (t' & d' & D' & V) HF IH]; [destruct Hp|].
        destruct Hp as [->|Hp]; [|auto].
        destruct (demands_fun v_uuid v_uuid assoc ts ds p t d t' d' D D') as [<- <-].
        rewrite U in V. discriminate.
      + destruct (fuse_fails v_uuid v_uuid visit assoc ts ds _ E) as (q & t' & d' & D' & V & _); [discriminate|].
        pose proof (Hv t' d') as H. destruct t', d'; try (rewrite H in V; discriminate);
          destruct H as [o H]; rewrite H in V; discriminate.
  Qed.

  (** Three tracks and three detections: the scoring, association and fusion of
      the library meet a mixed pair. *)
  Definition mix_tracks (now : T) (s1 : S1) (c1 : C1) (s2 : S2) (c2 : C2) : list obj :=
    [Ctrv (DynObj now s1 c1 "t1" kUnknown); Ctrv (DynObj now s1 c1 "t2" kUnknown);
     Ctra (DynObj now s2 c2 "t3" kUnknown)].
  Definition mix_detections (now : T) (s1 : S1) (c1 : C1) (s2 : S2) (c2 : C2) : list obj :=
    [Ctrv (DynObj now s1 c1 "d1" kUnknown); Ctra (DynObj now s2 c2 "d2" kUnknown);
     Ctra (DynObj now s2 c2 "d3" kUnknown)].

  Lemma pipeline_mixed solve dist1 dist2 now s1 c1 s2 c2 :
    solver_ok solve -> mixed_ub -> ordinary (dist1 s1 s1) -> ordinary (dist2 s2 s2) ->
    let tracks := mix_tracks now s1 c1 s2 c2 in
    let detections := mix_detections now s1 c1 s2 c2 in
    exists a,
      gnn_associator solve (score_tracks_and_detections v_uuid v_uuid
        (euclidean_distance_score dist1 dist2) tracks detections) = Ok a /\
      fuse_associations v_uuid v_uuid visit a tracks detections = UB.
  Proof.
    intros Hs Hv H1 H2 tracks detections.
    assert (score_tracks_and_detections v_uuid v_uuid (euclidean_distance_score dist1 dist2) tracks detections
            = hall_of (dist1 s1 s1) (dist2 s2 s2)) as -> by reflexivity.
    destruct (hall_of_pair solve _ _ Hs H1 H2) as (a & t & d & E & Htd & Ht & Hd & Hone).
    exists a. split; [exact E|]. apply fuse_mixed; [exact Hv|].
    assert (exists i, nth_error a i = Some (t, [d])) as [i Hi].
    { unfold assoc_pairs in Htd. apply in_flat_map in Htd as ([u l] & Hul & Htd).
      destruct (Hone u l Hul) as [d' ->]. cbn in Htd. destruct Htd as [[= -> ->]|[]].
      apply In_nth_error. exact Hul. }
    cbn in Ht, Hd.
    destruct Ht as [<-|[<-|[]]], Hd as [<-|[<-|[]]].
    - exists (i, 0, 1), (Ctrv (DynObj now s1 c1 "t1" kUnknown)), (Ctra (DynObj now s2 c2 "d2" kUnknown)). split; [|exact I]. split; [reflexivity|split; [reflexivity|]].
      exists ["d2"]. split; [exact Hi|now left].
    - exists (i, 0, 2), (Ctrv (DynObj now s1 c1 "t1" kUnknown)), (Ctra (DynObj now s2 c2 "d3" kUnknown)). split; [|exact I]. split; [reflexivity|split; [reflexivity|]].
      exists ["d3"]. split; [exact Hi|now left].
    - exists (i, 1, 1), (Ctrv (DynObj now s1 c1 "t2" kUnknown)), (Ctra (DynObj now s2 c2 "d2" kUnknown)). split; [|exact I]. split; [reflexivity|split; [reflexivity|]].
      exists ["d2"]. split; [exact Hi|now left].
    - exists (i, 1, 2), (Ctrv (DynObj now s1 c1 "t2" kUnknown)), (Ctra (DynObj now s2 c2 "d3" kUnknown)). split; [|exact I]. split; [reflexivity|split; [reflexivity|]].
      exists ["d3"]. split; [exact Hi|now left].
  Qed.
End Mixed.
