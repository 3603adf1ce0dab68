(** The tracking cycle with dlib's solver: as with any correct solver in clear scenes,
    undefined when more tracks than detections pass the gate. *)
From stdpp Require Import gmap strings list.
From Coq Require Import NArith ZArith Reals Lia ZifyN ZifyBool.
From Flocq Require Import IEEE754.BinarySingleNaN.
From Verif Require Import Base Uuid OrdMap OrdFacts DynObj Float DlibMatrix Scoring Matching MatchingSpec MatchingProofs MatchingThms MatchingExamples
  Fusing FusingThms TrackManager TrackManagerSpec TrackManagerProofs TrackManagerThms Pipeline PipelineAssoc PipelineThms
  SeparationThms HistorySpec HistoryThms SceneSpec SceneThms Assignment AssignmentThms PipelineDlib DlibSceneSpec.
Local Open Scope nat_scope.
Local Open Scope list_scope.

Lemma nodup_all (l : list uuid) : List.NoDup l → length (List.nodup String.string_dec l) = length l.
Proof. intros H. by rewrite List.nodup_fixed_point. Qed.

Lemma one_to_one_counts {F} (g : score_map F) : one_to_one (map fst g) →
  length (tracks_of g) = length g ∧ length (detections_of g) = length g.
Proof.
  intros [H1 H2]. rewrite map_map in H1, H2. unfold tracks_of, detections_of.
  by rewrite !nodup_all, !map_length.
Qed.

Lemma one_to_one_usable (g : score_map f32) : map_wf g → (∀ k v, In (k, v) g → ordinary v) → one_to_one (map fst g) →
  2 ≤ length g ∨ (∃ k v, In (k, v) g ∧ (0 < B2R v)%R) → usable g.
Proof.
  intros W O [N1 N2] H. split; [done|]. split.
  { destruct H as [H|(k & v & H & _)]; intros ->; [cbn in H; lia|done]. }
  split; [done|]. destruct H as [H|H]; [right|by left].
  destruct g as [|[[t d] v] [|[[t' d'] v'] rest]]; [cbn in H; lia|cbn in H; lia|].
  exists t, d'. split; [apply in_tracks; exists d, v; by left|]. split; [apply in_detections; exists t', v'; right; by left|].
  intros w [[= E _]|Hw].
  - cbn in N2. apply NoDup_cons_iff in N2 as [N2 _]. apply N2. left. congruence.
  - cbn in N1. apply NoDup_cons_iff in N1 as [N1 _]. apply N1.
    change (In (fst (fst ((t, d'), w))) (map fst (map fst (((t', d'), v') :: rest)))). by apply in_map, in_map.
Qed.

Section Associate.
  Context {Trk Det : Type} (tu : Trk → uuid) (du : Det → uuid) (metric : Trk → Det → option f32).
  Context (should_prune : f32 → bool) (norm : Z → outcome Z).
  Context (Hnorm : ∀ z, (- 2 ^ 31 <= z <= int_highest)%Z → norm z = Done z).
  Let passes t d := ∃ v, metric t d = Some v ∧ should_prune v = false.

  Lemma associate_dlib_clear solve tracks detections :
    solver_ok solve → (N.of_nat (length tracks * length detections) < 2 ^ 63)%N →
    List.NoDup (map tu tracks) → List.NoDup (map du detections) →
    (∀ t d d', In t tracks → In d detections → In d' detections → passes t d → passes t d' → d = d') →
    (∀ t t' d, In t tracks → In t' tracks → In d detections → passes t d → passes t' d → t = t') →
    (∃ t t' d d', t ≠ t' ∧ In t tracks ∧ In t' tracks ∧ In d detections ∧ In d' detections ∧ passes t d ∧ passes t' d') ∨
    (∃ t d v, In t tracks ∧ In d detections ∧ metric t d = Some v ∧ should_prune v = false ∧ (0 < B2R v)%R) →
    (∀ t d v, In t tracks → In d detections → metric t d = Some v → should_prune v = false → ordinary v ∧ small_score v) →
    associate_dlib norm tu du metric should_prune tracks detections = associate tu du metric should_prune solve tracks detections.
  Proof.
    intros S B N M U1 U2 Some O.
    set (g := gated tu du metric should_prune tracks detections).
    assert (map_wf g) as W by apply gated_wf.
    assert (small_map g) as Sm by (unfold small_map; pose proof (gated_length tu du metric should_prune tracks detections); fold g in H; lia).
    assert (∀ k v, In (k, v) g → ordinary v ∧ small_score v) as O'.
    { intros k v H. apply gated_in in H as (t & d & Ht & Hd & _ & Hm & Hp). by eapply O. }
    assert (∀ k, In k (map fst g) ↔ ∃ t d, In t tracks ∧ In d detections ∧ passes t d ∧ k = (tu t, du d)) as K.
    { intros k. split.
      - intros H. apply in_map_iff in H as ([k' v] & <- & H). apply gated_in in H as (t & d & Ht & Hd & -> & Hm & Hp).
        exists t, d. split; [done|]. split; [done|]. split; [exists v|]; done.
      - intros (t & d & Ht & Hd & (v & Hm & Hp) & ->). change (tu t, du d) with (fst ((tu t, du d), v)).
        apply in_map. by apply gated_iff. }
    assert (one_to_one (map fst g)) as O1.
    { apply one_to_one_keys; [by apply (om_wf_nodup _ pair_total)| |].
      - intros t d d' H H'. apply K in H as (x & y & Hx & Hy & Hp & [= -> ->]), H' as (x' & y' & Hx' & Hy' & Hp' & [= E ->]).
        assert (x = x') as <- by (by eapply (ScoringThms.nodup_map_inj tu tracks)). by rewrite (U1 x y y').
      - intros t t' d H H'. apply K in H as (x & y & Hx & Hy & Hp & [= -> ->]), H' as (x' & y' & Hx' & Hy' & Hp' & [= -> E]).
        assert (y = y') as <- by (by eapply (ScoringThms.nodup_map_inj du detections)). by rewrite (U2 x x' y). }
    assert (2 ≤ length g ∨ ∃ k v, In (k, v) g ∧ (0 < B2R v)%R) as L2.
    { destruct Some as [(t1 & t2 & d1 & d2 & Ne & Ht1 & Ht2 & Hd1 & Hd2 & P1 & P2)|(t & d & v & Ht & Hd & Hm & Hp & Hv)].
      2:{ right. exists (tu t, du d), v. split; [|done]. by apply gated_iff. }
      left. rewrite <- (map_length fst). change 2 with (length [(tu t1, du d1); (tu t2, du d2)]). apply NoDup_incl_length.
      - constructor; [|constructor; [intros []|constructor]]. intros [[= E _]|[]]. apply Ne.
        symmetry. by eapply (ScoringThms.nodup_map_inj tu tracks).
      - intros k [<-|[<-|[]]]; apply K; eauto 8. }
    destruct (one_to_one_counts g O1) as [C1 C2].
    change (gnn_associator_dlib norm g = gnn_associator solve g).
    rewrite (gnn_dlib_ok norm g Hnorm); [|apply one_to_one_usable; try done; intros k v H; apply (O' k v H)|lia].
    apply (same_map (dlib_or_try_all norm) solve g (map fst g)); try done; [apply dlib_or_try_all_ok| |].
    - apply gated_thm; try done. apply dlib_or_try_all_ok.
    - apply gated_thm; done.
  Qed.
End Associate.

Section Scene.
  Context {trk : track_type} (L : lawful trk) {Det : Type} (norm : Z → outcome Z) (du : Det → uuid).
  Context (Hnorm : ∀ z, (- 2 ^ 31 <= z <= int_highest)%Z → norm z = Done z).
  Context (new_track : Det → trk) (predict : trk → trk)
    (metric : trk → Det → option f32) (should_prune : f32 → bool) (visit : trk → Det → result trk).
  Context (Upred : ∀ t, tt_uuid (predict t) = tt_uuid t).
  Let inside := within predict metric should_prune.
  Let scene := clear_scene du predict metric should_prune visit.

  Lemma cycle_dlib_clear solve ord1 ord2 ds (s : mgr trk) :
    solver_ok solve → reachable trk s → order_of ord1 (m_tracks s) → scene s ds →
    cycle_dlib norm trk du new_track predict metric should_prune visit ord1 ord2 ds s =
    cycle trk du new_track predict metric should_prune solve visit ord1 ord2 ds s.
  Proof.
    intros Sok Hr Ho1 C. pose proof (reachable_inv L s Hr) as Hi.
    destruct (get_all_ok ord1 s) as (stored & Hg & _); [apply Ho1|].
    destruct (stored_facts L ord1 s stored Hr Ho1 Hg) as (Eu & Hnd1 & Hst & Hv).
    assert (length stored = size (m_tracks s)) as Hlen.
    { rewrite <- (order_length ord1) by done. rewrite <- Eu, fmap_length. done. }
    assert (List.NoDup (map tt_uuid (map predict stored))) as Hn1.
    { rewrite map_map. rewrite (map_ext _ tt_uuid) by (intros; apply Upred).
      apply nodup_list. change (map tt_uuid stored) with (tt_uuid <$> stored). by rewrite Eu. }
    pose proof (cs_distinct _ _ _ _ _ _ _ C) as Hn2.
    assert (∀ t, In t (map predict stored) ↔ ∃ u e, view s u = Some e ∧ t = predict (e_track e) ∧ tt_uuid t = u) as Hin.
    { intros t. rewrite in_map_iff. split.
      - intros (t0 & <- & Ht). apply in_elem, Hst in Ht as (e & He & <-). exists (tt_uuid (e_track e)), e.
        split; [done|]. split; [done|]. apply Upred.
      - intros (u & e & He & -> & Eu'). exists (e_track e). split; [done|]. apply in_elem, Hst.
        destruct (inv_view s u e Hi He) as [Ht _]. exists e. by rewrite Ht. }
    unfold cycle_dlib, cycle, cycle_with. rewrite Hg.
    rewrite (associate_dlib_clear tt_uuid du metric should_prune norm Hnorm solve (map predict stored) ds); try done.
    { rewrite map_length, Hlen. apply (cs_size _ _ _ _ _ _ _ C). }
    { intros t d d' Ht Hd Hd' P P'. apply Hin in Ht as (u & e & He & -> & _).
      by eapply (cs_one_detection _ _ _ _ _ _ _ C). }
    { intros t t' d Ht Ht' Hd P P'. apply Hin in Ht as (u & e & He & -> & _), Ht' as (u' & e' & He' & -> & _).
      assert (u = u') as <- by (by eapply (cs_one_track _ _ _ _ _ _ _ C)). congruence. }
    { assert (∀ u e, view s u = Some e → tt_uuid (predict (e_track e)) = u) as Hu.
      { intros u0 e0 H0. rewrite Upred. by destruct (inv_view s u0 e0 Hi H0). }
      destruct (cs_some _ _ _ _ _ _ _ C)
        as [(u & e & d & u' & e' & d' & Ne & He & He' & Hd & Hd' & P & P')|(u & e & d & v & He & Hd & Hm & Hp & Hv')]; [left|right].
      - exists (predict (e_track e)), (predict (e_track e')), d, d'. split.
        { intros E. apply Ne. rewrite <- (Hu _ _ He), <- (Hu _ _ He'). by rewrite E. }
        split; [apply Hin; eauto 6|]. split; [apply Hin; eauto 6|]. done.
      - exists (predict (e_track e)), d, v. split; [apply Hin; eauto 6|]. done. }
    { intros t d v Ht Hd Hm Hp. apply Hin in Ht as (u & e & He & -> & _). by eapply (cs_scores _ _ _ _ _ _ _ C). }
  Qed.

  Lemma clear_run_dlib_run solve u (s : mgr trk) bs s' :
    solver_ok solve →
    (∀ d, tt_uuid (new_track d) = du d) →
    (∀ t d f, visit (predict t) d = Ok f → tt_uuid f = tt_uuid t ∧ copies f t) →
    reachable trk s → (m_removal s < m_promo s < 2 ^ 64 - 1)%N → (m_removal s ≤ 1)%N →
    (∀ v e, view s v = Some e → (e_count e < 2 ^ 64 - 1)%N) →
    clear_run_dlib norm du new_track predict metric should_prune visit u s bs s' →
    clear_run du new_track predict metric should_prune solve visit u s bs s'.
  Proof.
    intros Sok Un Hv Hr Hpr Hr1 Hc Run.
    induction Run as [|bs b s1 ds ord1 ord2 s2 Run IH C Hnu Ho1 Ho2 Hb E]; [constructor|].
    destruct (clear_run_thm L du new_track predict metric should_prune solve visit Un Upred Sok Hv u s bs s1 Hr Hpr Hr1 Hc IH)
      as (R1 & _).
    eapply clear_snoc; try done. by rewrite <- cycle_dlib_clear.
  Qed.

  (** More tracks than detections pass the gate *)
  Lemma cycle_dlib_undefined ord1 ord2 ds near used (s : mgr trk) :
    reachable trk s → order_of ord1 (m_tracks s) → List.NoDup (map du ds) →
    (∀ u e d v, view s u = Some e → In d ds → metric (predict (e_track e)) d = Some v → should_prune v = false → ordinary v) →
    (∃ u e d v, view s u = Some e ∧ In d ds ∧ metric (predict (e_track e)) d = Some v ∧ should_prune v = false ∧ (0 < B2R v)%R) →
    List.NoDup near → (∀ u, In u near → ∃ e d, view s u = Some e ∧ In d ds ∧ inside (e_track e) d) →
    (∀ u e d, view s u = Some e → In d ds → inside (e_track e) d → In d used) →
    length used < length near →
    cycle_dlib int_checked trk du new_track predict metric should_prune visit ord1 ord2 ds s = (s, UB).
  Proof.
    intros Hr Ho1 Hn2 O P Hnn A A' Hlt. pose proof (reachable_inv L s Hr) as Hi.
    destruct (get_all_ok ord1 s) as (stored & Hg & _); [apply Ho1|].
    destruct (stored_facts L ord1 s stored Hr Ho1 Hg) as (Eu & Hnd1 & Hst & Hv).
    assert (length stored = size (m_tracks s)) as Hlen.
    { rewrite <- (order_length ord1) by done. rewrite <- Eu, fmap_length. done. }
    assert (List.NoDup (map tt_uuid (map predict stored))) as Hn1.
    { rewrite map_map. rewrite (map_ext _ tt_uuid) by (intros; apply Upred).
      apply nodup_list. change (map tt_uuid stored) with (tt_uuid <$> stored). by rewrite Eu. }
    assert (∀ t, In t (map predict stored) ↔ ∃ u e, view s u = Some e ∧ t = predict (e_track e)) as Hin.
    { intros t. rewrite in_map_iff. split.
      - intros (t0 & <- & Ht). apply in_elem, Hst in Ht as (e & He & <-). exists (tt_uuid (e_track e)), e. done.
      - intros (u & e & He & ->). exists (e_track e). split; [done|]. apply in_elem, Hst.
        destruct (inv_view s u e Hi He) as [Ht _]. exists e. by rewrite Ht. }
    unfold cycle_dlib, cycle_with. rewrite Hg.
    enough (associate_dlib int_checked tt_uuid du metric should_prune (map predict stored) ds = UB) as -> by done.
    apply (gnn_dlib_undefined (gated tt_uuid du metric should_prune (map predict stored) ds)).
    - apply scene_usable; try done.
      + intros t d v Ht Hd Hm Hp. apply Hin in Ht as (u & e & He & ->). by eapply O.
      + destruct P as (u & e & d & v & He & Hd & Hm & Hp & Hpos). exists (predict (e_track e)), d, v.
        split; [apply Hin; eauto|]. done.
    - set (g := gated tt_uuid du metric should_prune (map predict stored) ds).
      assert (length near ≤ length (tracks_of g)) as G1.
      { apply NoDup_incl_length; [done|]. intros u Hu. destruct (A u Hu) as (e & d & He & Hd & v & Hm & Hp).
        apply in_tracks. exists (du d), v. destruct (inv_view s u e Hi He) as [Ht _].
        replace u with (tt_uuid (predict (e_track e))) by (by rewrite Upred). apply gated_has; try done. apply Hin. eauto. }
      assert (length (detections_of g) ≤ length used) as G2.
      { rewrite <- (map_length du used). apply NoDup_incl_length; [apply NoDup_nodup|]. intros x Hx.
        apply in_detections in Hx as (t & v & Hx). apply gated_in in Hx as (t' & d & Ht & Hd & [= _ ->] & Hm & Hp).
        apply in_map. apply Hin in Ht as (u & e & He & ->). apply (A' u e d He Hd). by exists v. }
      lia.
  Qed.

  (** No more tracks than detections pass the gate *)
  Lemma cycle_dlib_contract ord1 ord2 ds near used (s : mgr trk) :
    reachable trk s → order_of ord1 (m_tracks s) → List.NoDup (map du ds) →
    (∀ u e d v, view s u = Some e → In d ds → metric (predict (e_track e)) d = Some v → should_prune v = false → ordinary v) →
    (∃ u e d v, view s u = Some e ∧ In d ds ∧ metric (predict (e_track e)) d = Some v ∧ should_prune v = false ∧ (0 < B2R v)%R) →
    (∀ u e d, view s u = Some e → In d ds → inside (e_track e) d → In u near) →
    List.NoDup used → (∀ d, In d used → In d ds ∧ ∃ u e, view s u = Some e ∧ inside (e_track e) d) →
    length near ≤ length used →
    ∃ solve, solver_ok solve ∧
      cycle_dlib norm trk du new_track predict metric should_prune visit ord1 ord2 ds s =
      cycle trk du new_track predict metric should_prune solve visit ord1 ord2 ds s.
  Proof.
    intros Hr Ho1 Hn2 O P A Hnu A' Hle. pose proof (reachable_inv L s Hr) as Hi.
    destruct (get_all_ok ord1 s) as (stored & Hg & _); [apply Ho1|].
    destruct (stored_facts L ord1 s stored Hr Ho1 Hg) as (Eu & Hnd1 & Hst & Hv).
    assert (List.NoDup (map tt_uuid (map predict stored))) as Hn1.
    { rewrite map_map. rewrite (map_ext _ tt_uuid) by (intros; apply Upred).
      apply nodup_list. change (map tt_uuid stored) with (tt_uuid <$> stored). by rewrite Eu. }
    assert (∀ t, In t (map predict stored) ↔ ∃ u e, view s u = Some e ∧ t = predict (e_track e)) as Hin.
    { intros t. rewrite in_map_iff. split.
      - intros (t0 & <- & Ht). apply in_elem, Hst in Ht as (e & He & <-). exists (tt_uuid (e_track e)), e. done.
      - intros (u & e & He & ->). exists (e_track e). split; [done|]. apply in_elem, Hst.
        destruct (inv_view s u e Hi He) as [Ht _]. exists e. by rewrite Ht. }
    exists (dlib_or_try_all norm). split; [apply dlib_or_try_all_ok|].
    unfold cycle_dlib, cycle, cycle_with. rewrite Hg.
    set (g := gated tt_uuid du metric should_prune (map predict stored) ds).
    enough (associate_dlib norm tt_uuid du metric should_prune (map predict stored) ds =
      associate tt_uuid du metric should_prune (dlib_or_try_all norm) (map predict stored) ds) as -> by done.
    apply (gnn_dlib_ok norm g Hnorm).
    - apply scene_usable; try done.
      + intros t d v Ht Hd Hm Hp. apply Hin in Ht as (u & e & He & ->). by eapply O.
      + destruct P as (u & e & d & v & He & Hd & Hm & Hp & Hpos). exists (predict (e_track e)), d, v.
        split; [apply Hin; eauto|]. done.
    - assert (length (tracks_of g) ≤ length near) as G1.
      { apply NoDup_incl_length; [apply NoDup_nodup|]. intros x Hx.
        apply in_tracks in Hx as (d' & v & Hx). apply gated_in in Hx as (t & d & Ht & Hd & [= -> _] & Hm & Hp).
        apply Hin in Ht as (u & e & He & ->). rewrite Upred. destruct (inv_view s u e Hi He) as [-> _].
        apply (A u e d He Hd). by exists v. }
      assert (length used ≤ length (detections_of g)) as G2.
      { rewrite <- (map_length du used). apply NoDup_incl_length.
        - apply nodup_map_on; [done|]. intros x y Hx Hy E. apply A' in Hx as [Hx _], Hy as [Hy _].
          by eapply (ScoringThms.nodup_map_inj du ds).
        - intros x Hx. apply in_map_iff in Hx as (d & <- & Hd). destruct (A' d Hd) as (Hd' & u & e & He & v & Hm & Hp).
          apply in_detections. exists (tt_uuid (predict (e_track e))), v. apply gated_has; try done. apply Hin. eauto. }
      lia.
  Qed.
End Scene.
