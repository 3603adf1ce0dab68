(** Concrete score maps for track matching. *)
From Coq Require Import String List ZArith NArith Permutation Arith Lia Bool Reals Lra.
From Flocq Require Import Core IEEE754.BinarySingleNaN.
From Verif Require Import Base Uuid OrdMap OrdFacts Float DlibMatrix Scoring Matching MatchingSpec
  AssignProofs FloatProofs MatchingProofs MatchingThms ScoringThms.
Import ListNotations.
Open Scope string_scope.
Open Scope list_scope.
Open Scope nat_scope.

Lemma f32_of_Z_exact z : format32 (IZR z) -> (Z.abs z < 2 ^ 100)%Z ->
  B2R (f32_of_Z z) = IZR z /\ is_finite (f32_of_Z z) = true.
Proof.
  intros Hf Hz. pose proof (binary_normalize_correct 24 128 _ _ mode_NE z 0 false) as H. cbv zeta in H.
  assert (F2R (Float radix2 z 0) = IZR z) as E by (unfold F2R; cbn; lra). rewrite E in H.
  change (round radix2 fexp32 (round_mode mode_NE) (IZR z)) with (rnd32 (IZR z)) in H.
  rewrite (rnd32_id _ Hf), Rlt_bool_true in H; [tauto|].
  rewrite <- abs_IZR. apply Rlt_trans with (IZR (2 ^ 100)); [apply IZR_lt, Hz|].
  replace (bpow radix2 128) with (IZR (2 ^ 128)) by reflexivity. apply IZR_lt. reflexivity.
Qed.
Lemma f32_small z : (Z.abs z < 2 ^ 24)%Z -> B2R (f32_of_Z z) = IZR z /\ is_finite (f32_of_Z z) = true.
Proof.
  intros Hz. apply f32_of_Z_exact; [|lia].
  replace (IZR z) with (IZR z * bpow radix2 0)%R by (cbn; lra). apply format32_int; lia.
Qed.

Definition near : f32 := f32_of_Z 1.
Definition far : f32 := f32_of_Z 4294967296.
Lemma near_value : B2R near = 1%R /\ is_finite near = true.
Proof. apply f32_small. lia. Qed.
Lemma far_value : B2R far = 4294967296%R /\ is_finite far = true.
Proof.
  apply f32_of_Z_exact; [|reflexivity].
  replace 4294967296%R with (IZR 1 * bpow radix2 32)%R by (cbn; lra). apply format32_int; lia.
Qed.
Lemma bpow100 : (4294967296 <= bpow radix2 100)%R.
Proof. replace 4294967296%R with (bpow radix2 32) by (cbn; lra). apply bpow_le. lia. Qed.
Lemma near_ok : ordinary near /\ small_score near.
Proof.
  destruct near_value as [E F]. pose proof bpow100. unfold ordinary, small_score. rewrite E. split; [split; [exact F|lra]|lra].
Qed.
Lemma far_ok : ordinary far /\ small_score far.
Proof.
  destruct far_value as [E F]. pose proof bpow100. unfold ordinary, small_score. rewrite E. split; [split; [exact F|lra]|lra].
Qed.

(** Two tracks near one detection, one track near two detections. *)
Definition hall : score_map f32 :=
  [(("t1", "d1"), near); (("t2", "d1"), near); (("t3", "d2"), near); (("t3", "d3"), near)].
(** One track between two detections, the other track near a third one. *)
Definition gate_a : score_map f32 := [(("t1", "d1"), near); (("t1", "d2"), far); (("t2", "d3"), near)].
Definition gate_b : score_map f32 := [(("t1", "d1"), far); (("t1", "d2"), near); (("t2", "d3"), near)].
(** A complete 2 x 3 score map. *)
Definition full : score_map f32 :=
  [(("t1", "d1"), f32_of_Z 5); (("t1", "d2"), f32_of_Z 2); (("t1", "d3"), f32_of_Z 9);
   (("t2", "d1"), f32_of_Z 4); (("t2", "d2"), f32_of_Z 3); (("t2", "d3"), f32_of_Z 8)].

Ltac each_entry H := cbn [In hall gate_a gate_b full] in H;
  repeat (destruct H as [H|H]; [try discriminate H; apply pair_equal_spec in H as [H <-];
    try (injection H; clear H; intros; subst); try subst|]); [..|destruct H].

Lemma wf_hall : map_wf hall. Proof. repeat split. Qed.
Lemma wf_gate_a : map_wf gate_a. Proof. repeat split. Qed.
Lemma wf_full : map_wf full. Proof. repeat split. Qed.
Lemma hall_ok k v : In (k, v) hall -> ordinary v /\ small_score v.
Proof. intros H. each_entry H; apply near_ok. Qed.
Lemma gate_a_ok k v : In (k, v) gate_a -> ordinary v /\ small_score v.
Proof. intros H. each_entry H; first [apply near_ok|apply far_ok]. Qed.
Lemma gate_b_ok k v : In (k, v) gate_b -> ordinary v /\ small_score v.
Proof. intros H. each_entry H; first [apply near_ok|apply far_ok]. Qed.
Lemma hall_missing : missing_pair hall.
Proof.
  exists "t1", "d2". split; [cbn; tauto|]. split; [cbn; tauto|]. intros v H. cbn in H.
  repeat (destruct H as [[=]|H]); destruct H.
Qed.
Lemma gate_a_missing : missing_pair gate_a.
Proof.
  exists "t1", "d3". split; [cbn; tauto|]. split; [cbn; tauto|]. intros v H. cbn in H.
  repeat (destruct H as [[=]|H]); destruct H.
Qed.
Lemma full_ok k v : In (k, v) full -> ordinary v.
Proof.
  intros H. each_entry H; match goal with |- ordinary (f32_of_Z ?z) =>
    destruct (f32_small z ltac:(lia)) as [E F]; split; [exact F|rewrite E; lra] end.
Qed.
Lemma full_complete : complete full.
Proof.
  intros t d Ht Hd. cbn in Ht, Hd.
  destruct Ht as [<-|[<-|[]]], Hd as [<-|[<-|[<-|[]]]]; eexists; cbn; eauto 10.
Qed.

Lemma unscored_pair solve : solver_ok solve ->
  exists a t d, gnn_associator solve hall = Ok a /\ In (t, d) (assoc_pairs a) /\ forall v, ~ In ((t, d), v) hall.
Proof.
  intros Hs. assert (small_map hall) as Hsm by reflexivity.
  assert (usable hall) as Hu by (apply missing_usable; [apply wf_hall|apply hall_missing|intros k v H; apply (hall_ok k v H)]).
  destruct (usable_defined solve hall Hs Hsm Hu) as [a E]. exists a.
  destruct (gnn_one_to_one solve hall a Hs Hsm E) as (_ & _ & (N1 & N2) & Hin & HL & HLa).
  change (length (tracks_of hall)) with 3 in HL. change (length (detections_of hall)) with 3 in HL. cbn in HL.
  assert (forall t, In t ["t1"; "t2"; "t3"] -> exists d, In (t, d) (assoc_pairs a)) as Hall.
  { intros t Ht. enough (In t (map fst (assoc_pairs a))) as G.
    { apply in_map_iff in G as ([t' d] & <- & G). eauto. }
    assert (incl ["t1"; "t2"; "t3"] (map fst (assoc_pairs a))) as Hincl.
    { apply NoDup_length_incl; [exact N1|rewrite map_length, HLa, HL; reflexivity|].
      intros x Hx. apply in_map_iff in Hx as ([t' d] & <- & Hx). apply Hin in Hx as [Hx _]. exact Hx. }
    apply Hincl, Ht. }
  destruct (Hall "t1") as [d1 H1]; [cbn; auto|]. destruct (Hall "t2") as [d2 H2]; [cbn; auto|].
  destruct (string_dec d1 "d1") as [->|Hd1].
  - exists "t2", d2. split; [exact E|]. split; [exact H2|]. intros v Hv. each_entry Hv.
    assert (("t1", "d1") = ("t2", "d1")) as [=].
    exact (nodup_map_inj snd (assoc_pairs a) _ _ N2 H1 H2 eq_refl).
  - exists "t1", d1. split; [exact E|]. split; [exact H1|]. intros v Hv. each_entry Hv. contradiction.
Qed.

Lemma all_scored (scores : score_map f32) l : length l <= length (filter (scored scores) l) ->
  forall td, In td l -> scored scores td = true.
Proof.
  induction l as [|x l IH]; intros HL td [] ; cbn in HL.
  - subst x. destruct (scored scores td) eqn:E; [reflexivity|].
    pose proof (filter_length_app (scored scores) l). lia.
  - apply IH; [|assumption]. destruct (scored scores x); cbn in HL; [lia|].
    pose proof (filter_length_app (scored scores) l). lia.
Qed.

Lemma nearest_lost solve : solver_ok solve ->
  exists scores a l,
    map_wf scores /\ small_map scores /\ (forall k v, In (k, v) scores -> ordinary v) /\
    gnn_associator solve scores = Ok a /\
    one_to_one l /\ length l = length (assoc_pairs a) /\
    (forall t d, In (t, d) l -> exists v, In ((t, d), v) scores) /\
    (forall t d, In (t, d) (assoc_pairs a) -> exists v, In ((t, d), v) scores) /\
    (0 < total_score scores l)%R /\
    (1000000000 * total_score scores l <= total_score scores (assoc_pairs a))%R.
Proof.
  intros Hs. assert (small_map gate_a) as Hsm by reflexivity.
  assert (usable gate_a) as Hu by (apply missing_usable; [apply wf_gate_a|apply gate_a_missing|intros k v H; apply (gate_a_ok k v H)]).
  destruct (usable_defined solve gate_a Hs Hsm Hu) as [a E].
  pose proof E as E'. rewrite (gnn_ignores_values solve gate_a gate_b wf_gate_a eq_refl gate_a_missing gate_a_ok gate_b_ok) in E'.
  destruct (gnn_one_to_one solve gate_a a Hs Hsm E) as (_ & _ & (N1 & N2) & Hin & HL & HLa).
  change (length (tracks_of gate_a)) with 2 in HL. change (length (detections_of gate_a)) with 3 in HL. cbn in HL.
  rewrite HL in HLa.
  pose proof (gnn_max_scored solve gate_a a Hs Hsm wf_gate_a gate_a_missing gate_a_ok E
    [("t1", "d1"); ("t2", "d3")]) as Hmax.
  assert (length (assoc_pairs a) <= length (filter (scored gate_a) (assoc_pairs a))) as Hall.
  { rewrite HLa. apply Hmax.
    - split; repeat constructor; cbn; intuition discriminate.
    - symmetry. exact HLa.
    - intros t d [[= <- <-]|[[= <- <-]|[]]]; cbn; tauto. }
  pose proof (all_scored gate_a _ Hall) as Hsc.
  assert (exists x, (x = "d1" \/ x = "d2") /\ Permutation (assoc_pairs a) [("t1", x); ("t2", "d3")]) as (x & Hx & HP).
  { destruct (assoc_pairs a) as [|[ta da] [|[tb db] [|]]]; try discriminate HLa.
    assert (forall t d, scored gate_a (t, d) = true -> t = "t1" /\ (d = "d1" \/ d = "d2") \/ t = "t2" /\ d = "d3") as G.
    { intros t d H. unfold scored in H. destruct (om_find _ _ _) as [v|] eqn:Ef; [|discriminate].
      apply find_in in Ef; [|exact wf_gate_a]. each_entry Ef; auto. }
    pose proof (G ta da (Hsc _ (or_introl eq_refl))) as Ga.
    pose proof (G tb db (Hsc _ (or_intror (or_introl eq_refl)))) as Gb.
    inversion N1 as [|? ? Hni _]. cbn in Hni.
    destruct Ga as [[-> Ga]|[-> ->]], Gb as [[-> Gb]|[-> ->]]; try (exfalso; apply Hni; left; reflexivity).
    - exists da. split; [exact Ga|reflexivity].
    - exists db. split; [exact Gb|apply perm_swap]. }
  assert (forall s, total_score s (assoc_pairs a) = total_score s [("t1", x); ("t2", "d3")]) as Htot.
  { intros s. unfold total_score, Rsum. apply (Permutation_map (score_of s)) in HP. revert HP.
    generalize (map (score_of s) (assoc_pairs a)), (map (score_of s) [("t1", x); ("t2", "d3")]).
    induction 1; cbn; lra. }
  assert (one_to_one [("t1", "d1"); ("t2", "d3")]) as O1 by (split; repeat constructor; cbn; intuition discriminate).
  assert (one_to_one [("t1", "d2"); ("t2", "d3")]) as O2 by (split; repeat constructor; cbn; intuition discriminate).
  assert (forall t d, In (t, d) (assoc_pairs a) -> t = "t1" /\ d = x \/ t = "t2" /\ d = "d3") as Hina.
  { intros t d H. apply (Permutation_in _ HP) in H as [[= <- <-]|[[= <- <-]|[]]]; auto. }
  destruct near_value as [En _], far_value as [Ef _]. destruct Hx as [->| ->].
  - exists gate_b, a, [("t1", "d2"); ("t2", "d3")]. split; [exact wf_gate_a|]. split; [reflexivity|].
    split; [intros k v H; apply (gate_b_ok k v H)|]. split; [exact E'|]. split; [exact O2|]. split; [symmetry; exact HLa|].
    split; [intros t d [[= <- <-]|[[= <- <-]|[]]]; eexists; cbn; eauto|].
    split; [intros t d H; destruct (Hina t d H) as [[-> ->]|[-> ->]]; eexists; cbn; eauto|].
    rewrite Htot. unfold total_score, Rsum, score_of. cbn [map fold_right om_find gate_b].
    cbn -[B2R near far]. rewrite En, Ef. lra.
  - exists gate_a, a, [("t1", "d1"); ("t2", "d3")]. split; [exact wf_gate_a|]. split; [reflexivity|].
    split; [intros k v H; apply (gate_a_ok k v H)|]. split; [exact E|]. split; [exact O1|]. split; [symmetry; exact HLa|].
    split; [intros t d [[= <- <-]|[[= <- <-]|[]]]; eexists; cbn; eauto|].
    split; [intros t d H; destruct (Hina t d H) as [[-> ->]|[-> ->]]; eexists; cbn; eauto|].
    rewrite Htot. unfold total_score, Rsum, score_of. cbn [map fold_right om_find gate_a].
    cbn -[B2R near far]. rewrite En, Ef. lra.
Qed.

(** A solver that meets the contract: try all assignments. *)
Definition try_all : mat Z -> list Z := brute_solver (fun l => l).
Lemma try_all_ok : solver_ok try_all.
Proof. apply brute_solver_ok. intros l. reflexivity. Qed.
