(** Cycles in clear scenes, and independence of the cycle of all orders. *)
From stdpp Require Import gmap strings list.
From Coq Require Import NArith ZArith Reals Lia ZifyN ZifyBool.
From Flocq Require Import IEEE754.BinarySingleNaN.
From Verif Require Import Base Uuid OrdMap OrdFacts DynObj Float DlibMatrix Scoring Matching MatchingSpec MatchingProofs MatchingThms
  Fusing FusingThms TrackManager TrackManagerSpec TrackManagerProofs TrackManagerThms Pipeline PipelineAssoc PipelineThms
  SeparationThms HistorySpec HistoryThms SceneSpec.
Local Open Scope nat_scope.
Local Open Scope list_scope.

Lemma one_to_one_keys (l : list (uuid * uuid)) : List.NoDup l →
  (∀ t d d', In (t, d) l → In (t, d') l → d = d') → (∀ t t' d, In (t, d) l → In (t', d) l → t = t') → one_to_one l.
Proof.
  intros N H1 H2. split; apply nodup_map_on; try done.
  - intros [t d] [t' d'] A B E. cbn in E. subst t'. by rewrite (H1 t d d').
  - intros [t d] [t' d'] A B E. cbn in E. subst d'. by rewrite (H2 t t' d).
Qed.

(** ** Association of a list of tracks with a list of detections *)
Section Associate.
  Context {Trk Det : Type} (tu : Trk → uuid) (du : Det → uuid) (metric : Trk → Det → option f32).
  Context (should_prune : f32 → bool) (solve : mat Z → list Z).
  Let passes t d := ∃ v, metric t d = Some v ∧ should_prune v = false.

  Lemma gated_iff tracks detections t d v : List.NoDup (map tu tracks) → List.NoDup (map du detections) →
    In t tracks → In d detections →
    (In ((tu t, du d), v) (gated tu du metric should_prune tracks detections) ↔ metric t d = Some v ∧ should_prune v = false).
  Proof.
    intros N M Ht Hd. unfold gated. rewrite ScoringThms.prune_spec by apply ScoringThms.score_map_find.
    rewrite filter_In, score_in by done. cbn [snd]. rewrite negb_true_iff. split.
    - intros [(t' & d' & Ht' & Hd' & [= E E'] & Hm) Hp].
      rewrite (ScoringThms.nodup_map_inj tu tracks t t'), (ScoringThms.nodup_map_inj du detections d d'); done.
    - intros [Hm Hp]. split; [|done]. exists t, d. done.
  Qed.

  Lemma associate_clear tracks detections :
    solver_ok solve → (N.of_nat (length tracks * length detections) < 2 ^ 63)%N →
    List.NoDup (map tu tracks) → List.NoDup (map du detections) →
    (∀ t d d', In t tracks → In d detections → In d' detections → passes t d → passes t d' → d = d') →
    (∀ t t' d, In t tracks → In t' tracks → In d detections → passes t d → passes t' d → t = t') →
    (∃ t t' d d', t ≠ t' ∧ In t tracks ∧ In t' tracks ∧ In d detections ∧ In d' detections ∧ passes t d ∧ passes t' d') ∨
    (∃ t d v, In t tracks ∧ In d detections ∧ metric t d = Some v ∧ should_prune v = false ∧ (0 < B2R v)%R) →
    (∀ t d v, In t tracks → In d detections → metric t d = Some v → should_prune v = false → ordinary v ∧ small_score v) →
    ∃ a, associate tu du metric should_prune solve tracks detections = Ok a ∧
      om_wf bytes_compare a ∧
      ∀ u l, In (u, l) a ↔ ∃ t d, In t tracks ∧ In d detections ∧ passes t d ∧ u = tu t ∧ l = [du d].
  Proof.
    intros S B N M U1 U2 Some O.
    set (g := gated tu du metric should_prune tracks detections).
    assert (map_wf g) as W by apply gated_wf.
    assert (small_map g) as Sm by (unfold small_map; pose proof (gated_length tu du metric should_prune tracks detections); fold g in H; lia).
    assert (∀ k v, In (k, v) g → ordinary v ∧ small_score v) as O'.
    { intros k v H. apply gated_in in H as (t & d & Ht & Hd & _ & Hm & Hp). by eapply O. }
    assert (∀ k, In k (map fst g) ↔ ∃ t d, In t tracks ∧ In d detections ∧ passes t d ∧ k = (tu t, du d)) as K.
    { intros k. split.
      - intros H. apply in_map_iff in H as ([k' v] & <- & H). apply gated_in in H as (t & d & Ht & Hd & -> & Hm & Hp).
        exists t, d. split; [done|]. split; [done|]. split; [exists v|]; done.
      - intros (t & d & Ht & Hd & (v & Hm & Hp) & ->). change (tu t, du d) with (fst ((tu t, du d), v)).
        apply in_map. by apply gated_iff. }
    assert (one_to_one (map fst g)) as O1.
    { apply one_to_one_keys; [by apply (om_wf_nodup _ pair_total)| |].
      - intros t d d' H H'. apply K in H as (x & y & Hx & Hy & Hp & [= -> ->]), H' as (x' & y' & Hx' & Hy' & Hp' & [= E ->]).
        assert (x = x') as <- by (by eapply (ScoringThms.nodup_map_inj tu tracks)). by rewrite (U1 x y y').
      - intros t t' d H H'. apply K in H as (x & y & Hx & Hy & Hp & [= -> ->]), H' as (x' & y' & Hx' & Hy' & Hp' & [= -> E]).
        assert (y = y') as <- by (by eapply (ScoringThms.nodup_map_inj du detections)). by rewrite (U2 x x' y). }
    assert (2 ≤ length g ∨ ∃ k v, In (k, v) g ∧ (0 < B2R v)%R) as L2.
    { destruct Some as [(t1 & t2 & d1 & d2 & Ne & Ht1 & Ht2 & Hd1 & Hd2 & P1 & P2)|(t & d & v & Ht & Hd & Hm & Hp & Hv)].
      2:{ right. exists (tu t, du d), v. split; [|done]. by apply gated_iff. }
      left. rewrite <- (map_length fst). change 2 with (length [(tu t1, du d1); (tu t2, du d2)]). apply NoDup_incl_length.
      - constructor; [|constructor; [intros []|constructor]]. intros [[= E _]|[]]. apply Ne.
        symmetry. by eapply (ScoringThms.nodup_map_inj tu tracks).
      - intros k [<-|[<-|[]]]; apply K; eauto 8. }
    destruct (gated_thm solve g S Sm W O' O1 L2) as (a & E & P).
    destruct (gnn_one_to_one solve g a S Sm E) as (Wa & Sa & _).
    exists a. split; [exact E|]. split; [exact Wa|]. intros u l. split.
    - intros H. destruct (Sa u l H) as [dd ->].
      assert (In (u, dd) (assoc_pairs a)) as H' by (apply in_assoc_pairs; eexists; split; [exact H|by left]).
      apply (Permutation_in _ P), K in H' as (t & d & ? & ? & ? & [= -> ->]). eauto 8.
    - intros (t & d & Ht & Hd & Hp & -> & ->).
      assert (In (tu t, du d) (assoc_pairs a)) as H'.
      { apply (Permutation_in _ (Permutation_sym P)), K. eauto 8. }
      apply in_assoc_pairs in H' as (l & H & H'). destruct (Sa _ _ H) as [x ->]. destruct H' as [->|[]]. done.
  Qed.
End Associate.

Section Scene.
  Context {trk : track_type} (L : lawful trk) {Det : Type} (du : Det → uuid).
  Context (new_track : Det → trk) (predict : trk → trk)
    (metric : trk → Det → option f32) (should_prune : f32 → bool)
    (solve : mat Z → list Z) (visit : trk → Det → result trk).
  Context (Unew : ∀ d, tt_uuid (new_track d) = du d) (Upred : ∀ t, tt_uuid (predict t) = tt_uuid t).
  Context (Sok : solver_ok solve).
  Context (Hvis : ∀ t d f, visit (predict t) d = Ok f → tt_uuid f = tt_uuid t ∧ copies f t).
  Let inside := within predict metric should_prune.
  Let scene := clear_scene du predict metric should_prune visit.
  Let one_cycle := cycle trk du new_track predict metric should_prune solve visit.

  Lemma order_length {A} ord (m : gmap uuid A) : order_of ord m → length ord = size m.
  Proof.
    intros [N H]. unfold size, map_size. rewrite <- (fmap_length fst (map_to_list m)).
    apply Permutation_length, NoDup_Permutation; [done|apply NoDup_fst_map_to_list|].
    intros u. rewrite H, elem_of_list_fmap. split.
    - intros [x Hx]. exists (u, x). split; [done|]. by apply elem_of_map_to_list.
    - intros ([u' x] & -> & Hx). apply elem_of_map_to_list in Hx. eauto.
  Qed.

  Lemma pass_dec t d : {inside t d} + {¬ inside t d}.
  Proof.
    unfold inside, within. destruct (metric (predict t) d) as [v|].
    - destruct (should_prune v) eqn:E; [right|left; by exists v]. intros (v' & [= <-] & H). congruence.
    - right. intros (v' & H & _). done.
  Qed.
  Lemma dec_within (s : mgr trk) ds u (e : entry trk) : view s u = Some e → scene s ds →
    (∃ d, In d ds ∧ inside (e_track e) d) ∨ (∀ d, In d ds → ¬ inside (e_track e) d).
  Proof.
    intros _ _. induction ds as [|d ds [(d' & ? & ?)|IH]].
    - right. intros d [].
    - left. exists d'. split; [by right|done].
    - destruct (pass_dec (e_track e) d); [left; exists d; split; [by left|done]|right].
      intros d' [<-|H]; [done|by apply IH].
  Qed.
  Lemma dec_any (s : mgr trk) (ds : list Det) d : In d ds → scene s ds → reachable trk s →
    (∃ u e, view s u = Some e ∧ inside (e_track e) d) ∨ (∀ u e, view s u = Some e → ¬ inside (e_track e) d).
  Proof.
    intros _ _ Hr. pose proof (reachable_inv L s Hr) as Hi. pose proof (some_order (m_tracks s)) as Ho.
    set (ord := (map_to_list (m_tracks s)).*1) in *.
    enough ((∃ u e, u ∈ ord ∧ view s u = Some e ∧ inside (e_track e) d) ∨ (∀ u e, u ∈ ord → view s u = Some e → ¬ inside (e_track e) d)) as [(u & e & _ & ?)|H].
    - left. eauto.
    - right. intros u e He. apply (H u); [|done]. apply Ho. rewrite (inv_tracks _ _ Hi), He. done.
    - clear Ho. clearbody ord. induction ord as [|u ord [(u' & e & ? & ?)|IH]].
      + right. intros u e Hu. by apply elem_of_nil in Hu.
      + left. exists u', e. split; [by apply elem_of_list_further|done].
      + destruct (view s u) as [e|] eqn:Ve.
        * destruct (pass_dec (e_track e) d) as [Hp|Hp].
          { left. exists u, e. split; [by apply elem_of_list_here|done]. }
          right. intros u' e' Hu He'. apply elem_of_cons in Hu as [->|Hu]; [|by apply (IH u')].
          rewrite Ve in He'. by injection He' as <-.
        * right. intros u' e' Hu He'. apply elem_of_cons in Hu as [->|Hu]; [congruence|by apply (IH u')].
  Qed.

  Lemma cycle_clear ord1 ord2 ds (s : mgr trk) :
    reachable trk s → order_of ord1 (m_tracks s) → order_of ord2 (m_occ s) →
    (m_removal s < m_promo s)%N → (m_removal s ≤ 1)%N →
    (∀ u e, view s u = Some e → (e_count e < 2 ^ 64 - 1)%N) →
    scene s ds →
    ∃ s', one_cycle ord1 ord2 ds s = (s', Ok ()) ∧ reachable trk s' ∧
      m_promo s' = m_promo s ∧ m_removal s' = m_removal s ∧
      (∀ u e d, view s u = Some e → In d ds → inside (e_track e) d →
         let n := N.min (e_count e + 1) (m_promo s) in
         ∃ f, visit (predict (e_track e)) d = Ok f ∧
           view s' u = Some (Entry (copied f (e_track e)) (if decide (m_promo s ≤ n)%N then Confirmed else e_status e) n) ∧
           view s' (du d) = None) ∧
      (∀ u e, view s u = Some e → (∀ d, In d ds → ¬ inside (e_track e) d) →
         let n := (e_count e - 1)%N in
         view s' u = if decide (n ≤ m_removal s)%N then None
           else Some (Entry (e_track e) (if decide (m_promo s ≤ n)%N then Confirmed else e_status e) n)) ∧
      (∀ d, In d ds → (∀ u e, view s u = Some e → ¬ inside (e_track e) d) →
         view s' (du d) = Some (Entry (new_track d) Tentative 1%N)) ∧
      (∀ u, view s u = None → ¬ In u (map du ds) → view s' u = None).
  Proof.
    intros Hr Ho1 Ho2 Hpr Hr1 Hcnt C. pose proof (reachable_inv L s Hr) as Hi.
    destruct (get_all_ok ord1 s) as (stored & Hg & _); [apply Ho1|].
    destruct (stored_facts L ord1 s stored Hr Ho1 Hg) as (Eu & Hnd1 & Hst & Hv).
    assert (length stored = size (m_tracks s)) as Hlen.
    { rewrite <- (order_length ord1) by done. rewrite <- Eu, fmap_length. done. }
    assert (List.NoDup (map tt_uuid (map predict stored))) as Hn1.
    { rewrite map_map. rewrite (map_ext _ tt_uuid) by (intros; apply Upred).
      apply nodup_list. change (map tt_uuid stored) with (tt_uuid <$> stored). by rewrite Eu. }
    pose proof (cs_distinct _ _ _ _ _ _ _ C) as Hn2.
    assert (∀ t, In t (map predict stored) ↔ ∃ u e, view s u = Some e ∧ t = predict (e_track e) ∧ tt_uuid t = u) as Hin.
    { intros t. rewrite in_map_iff. split.
      - intros (t0 & <- & Ht). apply in_elem, Hst in Ht as (e & He & <-). exists (tt_uuid (e_track e)), e.
        split; [done|]. split; [done|]. apply Upred.
      - intros (u & e & He & -> & Eu'). exists (e_track e). split; [done|]. apply in_elem, Hst.
        destruct (inv_view s u e Hi He) as [Ht _]. exists e. by rewrite Ht. }
    destruct (associate_clear tt_uuid du metric should_prune solve (map predict stored) ds) as (a & Ha & Wa & Hia); try done.
    { rewrite map_length, Hlen. apply (cs_size _ _ _ _ _ _ _ C). }
    { intros t d d' Ht Hd Hd' P P'. apply Hin in Ht as (u & e & He & -> & _).
      by eapply (cs_one_detection _ _ _ _ _ _ _ C). }
    { intros t t' d Ht Ht' Hd P P'. apply Hin in Ht as (u & e & He & -> & _), Ht' as (u' & e' & He' & -> & _).
      assert (u = u') as <- by (by eapply (cs_one_track _ _ _ _ _ _ _ C)). congruence. }
    { assert (∀ u e, view s u = Some e → tt_uuid (predict (e_track e)) = u) as Hu.
      { intros u0 e0 H0. rewrite Upred. by destruct (inv_view s u0 e0 Hi H0). }
      destruct (cs_some _ _ _ _ _ _ _ C)
        as [(u & e & d & u' & e' & d' & Ne & He & He' & Hd & Hd' & P & P')|(u & e & d & v & He & Hd & Hm & Hp & Hv')]; [left|right].
      - exists (predict (e_track e)), (predict (e_track e')), d, d'. split.
        { intros E. apply Ne. rewrite <- (Hu _ _ He), <- (Hu _ _ He'). by rewrite E. }
        split; [apply Hin; eauto 6|]. split; [apply Hin; eauto 6|]. done.
      - exists (predict (e_track e)), d, v. split; [apply Hin; eauto 6|]. done. }
    { intros t d v Ht Hd Hm Hp. apply Hin in Ht as (u & e & He & -> & _). by eapply (cs_scores _ _ _ _ _ _ _ C). }
    assert (∀ x, In x a → ∃ t d, names tt_uuid du (map predict stored) ds x t d) as Hnames.
    { intros [u l] Hx. apply Hia in Hx as (t & d & Ht & Hd & _ & -> & ->). exists t, d. done. }
    assert (∃ fused, fuse_associations tt_uuid du visit a (map predict stored) ds = Ok fused) as [fused Hf].
    { enough (∃ fused, Forall2 (fun e f => ∃ t d, names tt_uuid du (map predict stored) ds e t d ∧ visit t d = Ok f) a fused) as [fused F].
      { exists fused. by apply fuse_each. }
      assert (∀ x, In x a → ∃ f t d, names tt_uuid du (map predict stored) ds x t d ∧ visit t d = Ok f) as X.
      { intros [u l] Hx. apply Hia in Hx as (t & d & Ht & Hd & Hp & -> & ->).
        pose proof Ht as Ht'. apply Hin in Ht as (u & e & He & -> & _).
        destruct (cs_fusable _ _ _ _ _ _ _ C u e d He Hd Hp) as [f F]. exists f, (predict (e_track e)), d. done. }
      clear -X. induction a as [|x a IH]; [exists []; constructor|].
      destruct (X x (or_introl eq_refl)) as (f & ?). destruct IH as [fs ?]; [intros; apply X; by right|].
      exists (f :: fs). constructor; done. }
    destruct (cycle_view L du new_track predict metric should_prune solve visit Unew Upred Sok
      ord1 ord2 ds s stored a fused) as (s' & E & Hr' & Ep & Er & V1 & V2 & V3); try done.
    { by apply nodup_list. }
    { intros d Hd. apply in_elem in Hd. by apply (cs_fresh _ _ _ _ _ _ _ C). }
    { rewrite (order_length ord1) with (m := m_tracks s) by done. apply (cs_size _ _ _ _ _ _ _ C). }
    { intros u e He. split; [|by eapply Hcnt]. destruct (inv_view s u e Hi He) as [_ ?]. lia. }
    assert (∀ u e d, view s u = Some e → In d ds → (In (u, [du d]) a ↔ inside (e_track e) d)) as Hpair.
    { intros u e d He Hd. rewrite Hia. split.
      - intros (t & d' & Ht & Hd' & Hp & Hu & [= Hdu]). apply Hin in Ht as (u' & e' & He' & -> & Hu').
        assert (d = d') as <- by (by eapply (ScoringThms.nodup_map_inj du ds)).
        assert (u = u') as <- by congruence. assert (e' = e) as -> by congruence. exact Hp.
      - intros Hp. exists (predict (e_track e)), d. destruct (inv_view s u e Hi He) as [Ht _].
        split; [apply Hin; exists u, e; rewrite Upred; done|]. split; [done|]. split; [exact Hp|]. split; [|done].
        by rewrite Upred. }
    assert (∀ u e, view s u = Some e → (u ∈ a.*1 ↔ ∃ d, In d ds ∧ inside (e_track e) d)) as Hseen.
    { intros u e He. rewrite elem_of_list_fmap. split.
      - intros ([u' l] & -> & Hx). apply in_elem in Hx. pose proof Hx as Hx'. apply Hia in Hx as (t & d & Ht & Hd & _ & -> & ->).
        exists d. split; [done|]. cbn in He. by apply (Hpair (tt_uuid t) e d).
      - intros (d & Hd & Hp). exists (u, [du d]). split; [done|]. apply in_elem. by apply (Hpair u e d). }
    exists s'. split; [exact E|]. split; [done|]. split; [done|]. split; [done|]. split; [|split; [|split]].
    - intros u e d He Hd Hp n. destruct (V1 u e He) as [W1 _]. destruct W1 as (d' & f & Hd' & Hx & Hf' & Ev).
      { apply (Hseen u e He). eauto. }
      apply in_elem in Hx, Hd'. assert (d' = d) as ->.
      { apply (cs_one_detection _ _ _ _ _ _ _ C u e d' d); try done. by apply (Hpair u e d'). }
      exists f. split; [done|]. split; [exact Ev|]. apply V2; [by apply in_elem|]. exists u. apply in_elem. done.
    - intros u e He Hno. destruct (V1 u e He) as [_ W2]. apply W2. rewrite (Hseen u e He). intros (d & Hd & Hp). by apply (Hno d).
    - intros d Hd Hno. apply V2; [by apply in_elem|]. intros [u Hx]. apply in_elem in Hx.
      pose proof Hx as Hx'. apply Hia in Hx as (t & d' & Ht & Hd' & _ & -> & [= Ed]).
      assert (d = d') as <- by (by eapply (ScoringThms.nodup_map_inj du ds)).
      apply Hin in Ht as (u' & e & He & -> & Hu'). rewrite Hu' in Hx'. apply (Hno u' e He). by apply (Hpair u' e d).
    - intros u Hu Hn. apply V3; [done|]. by rewrite <- in_elem.
  Qed.

  Lemma clear_counts ord1 ord2 ds (s : mgr trk) s' r :
    reachable trk s → order_of ord1 (m_tracks s) → order_of ord2 (m_occ s) →
    (m_removal s < m_promo s < 2 ^ 64 - 1)%N → (m_removal s ≤ 1)%N →
    (∀ u e, view s u = Some e → (e_count e < 2 ^ 64 - 1)%N) →
    scene s ds → one_cycle ord1 ord2 ds s = (s', r) →
    ∀ u e, view s' u = Some e → (e_count e < 2 ^ 64 - 1)%N.
  Proof.
    intros Hr Ho1 Ho2 Hpr Hr1 Hcnt C E u e' He'.
    destruct (cycle_clear ord1 ord2 ds s Hr Ho1 Ho2) as (s2 & E2 & _ & _ & _ & V1 & V2 & V3 & V4); try done; [lia|].
    rewrite E in E2. injection E2 as <- _.
    destruct (view s u) as [e|] eqn:Ve.
    - pose proof (Hcnt u e Ve).
      destruct (dec_within s ds u e Ve C) as [(d & Hd & Hp)|Hno].
      + destruct (V1 u e d Ve Hd Hp) as (f & _ & Ev & _). rewrite Ev in He'. injection He' as <-. cbn [e_count]. lia.
      + pose proof (V2 u e Ve Hno) as Ev. cbn zeta in Ev. rewrite Ev in He'. destruct (decide _); [done|].
        injection He' as <-. cbn [e_count]. lia.
    - destruct (in_dec String.string_dec u (map du ds)) as [Hin|Hin].
      + apply in_map_iff in Hin as (d & <- & Hd).
        destruct (dec_any s ds d Hd C Hr) as [(u & e & Hu & Hp)|Hno].
        * destruct (V1 u e d Hu Hd Hp) as (f & _ & _ & Ev). congruence.
        * rewrite (V3 d Hd Hno) in He'. injection He' as <-. cbn [e_count]. lia.
      + rewrite (V4 u Ve Hin) in He'. done.
  Qed.

  Lemma clear_run_thm u (s : mgr trk) bs s' :
    reachable trk s → (m_removal s < m_promo s < 2 ^ 64 - 1)%N → (m_removal s ≤ 1)%N →
    (∀ v e, view s v = Some e → (e_count e < 2 ^ 64 - 1)%N) →
    clear_run du new_track predict metric should_prune solve visit u s bs s' →
    reachable trk s' ∧ m_promo s' = m_promo s ∧ m_removal s' = m_removal s ∧
    (∀ v e, view s' v = Some e → (e_count e < 2 ^ 64 - 1)%N) ∧
    (∀ e, view s u = Some e →
      (is_Some (view s' u) ↔
         stays_above (Z.of_N (m_promo s)) (Z.of_N (m_removal s)) (Z.of_N (e_count e)) bs) ∧
      ∀ e', view s' u = Some e' →
        is_level (Z.of_N (m_promo s)) (Z.of_N (e_count e)) bs (Z.of_N (e_count e')) ∧
        (e_status e' = Confirmed ↔
           e_status e = Confirmed ∨ reaches (Z.of_N (m_promo s)) (Z.of_N (e_count e)) bs)).
  Proof.
    intros Hr Hpr Hr1 Hcnt Run.
    induction Run as [|bs b s1 ds ord1 ord2 s2 Run IH C Hnu Ho1 Ho2 Hb E].
    - split; [done|]. split; [done|]. split; [done|]. split; [done|]. intros e He. split.
      + split; [intros _; apply above_nil|rewrite He; eauto].
      + intros e' He'. rewrite He in He'. injection He' as <-. split; [apply level_nil|]. split; [auto|].
        intros [?|H]; [done|]. apply reaches_nil in H. done.
    - destruct IH as (R1 & Ep & Er & Cn & H).
      destruct (cycle_clear ord1 ord2 ds s1) as (s3 & E3 & R3 & Ep3 & Er3 & V1 & V2 & V3 & V4); try done; [lia|lia|].
      pose proof (clear_counts ord1 ord2 ds s1 s3 (Ok ())) as Cn3. rewrite Ep, Er in Cn3. specialize (Cn3 R1 Ho1 Ho2 Hpr Hr1 Cn C E3).
      unfold one_cycle in E3. rewrite E3 in E. cbn [fst] in E. subst s3.
      split; [done|]. split; [congruence|]. split; [congruence|]. split; [exact Cn3|].
      intros e He. destruct (H e He) as [HA HL]. rewrite ?Ep in V1, V2. rewrite ?Er in V2.
      set (p := m_promo s) in *. set (r := m_removal s) in *.
      destruct (view s1 u) as [e1|] eqn:Ve1.
      + destruct (HL e1 eq_refl) as [Hl Hs]. pose proof (Cn u e1 Ve1) as Hc1.
        destruct (inv_view s1 u e1 (reachable_inv L s1 R1) Ve1) as (_ & Hc1').
        set (n := if b then N.min (e_count e1 + 1) p else (e_count e1 - 1)%N).
        assert (is_level (Z.of_N p) (Z.of_N (e_count e)) (bs ++ [b]) (Z.of_N n)) as Hl'.
        { replace (Z.of_N n) with (if b then Z.min (Z.of_N (e_count e1) + 1) (Z.of_N p) else (Z.of_N (e_count e1) - 1)%Z).
          - apply level_snoc. done.
          - subst n. destruct b; lia. }
        pose proof (above_snoc (Z.of_N p) (Z.of_N r) _ _ _ _ Hl') as Hab.
        pose proof (reaches_snoc (Z.of_N p) _ _ _ _ Hl') as Hre.
        assert (match view s2 u with
          | None => (n ≤ r)%N
          | Some e2 => (r < n)%N ∧ e_count e2 = n ∧ e_status e2 = if decide (p ≤ n)%N then Confirmed else e_status e1
          end) as Hstep.
        { destruct b.
          - destruct (proj1 Hb eq_refl) as (e1' & d & [= <-] & Hd & Hp). destruct (V1 u e1 d Ve1 Hd Hp) as (f & _ & Ev & _).
            rewrite Ev. cbn [e_count e_status]. subst n. split; [lia|]. done.
          - assert (∀ d, In d ds → ¬ inside (e_track e1) d) as Hno.
            { intros d Hd Hp. destruct Hb as [_ Hb]. discriminate Hb. exists e1, d. done. }
            pose proof (V2 u e1 Ve1 Hno) as Ev. cbn zeta in Ev. rewrite Ev. subst n.
            destruct (decide (e_count e1 - 1 ≤ r)%N) as [Hle|Hle]; [exact Hle|]. cbn [e_count e_status]. split; [lia|]. done. }
        destruct (view s2 u) as [e2|].
        * destruct Hstep as (Hn & Hc2 & Hs2). split.
          -- split; [|eauto]. intros _. apply Hab. split; [apply HA; eauto|lia].
          -- intros e' [= <-]. rewrite Hc2. split; [done|]. rewrite Hs2, Hre. destruct (decide (p ≤ n)%N) as [Hp|Hp].
             ++ split; [intros _; right; right; lia|done].
             ++ rewrite Hs. split; [tauto|]. intros [|[|]]; [tauto|tauto|lia].
        * split; [|done]. split; [intros []; done|]. intros Hx. apply Hab in Hx as [_ Hx]. lia.
      + rewrite (V4 u Ve1). 2:{ by rewrite in_elem. }
        split; [|done]. split; [intros []; done|]. intros Hx. exfalso.
        assert (is_Some (@None (entry trk))) as []; [|done]. apply HA.
        destruct Hx as [A1 A2]. split.
        * intros start rest -> Hst. apply (A1 start (rest ++ [b])); [|done]. rewrite (assoc_L (++)). done.
        * intros before w rest ->. apply (A2 before w (rest ++ [b])).
          rewrite <- (assoc_L (++)). cbn. rewrite <- (assoc_L (++)). done.
  Qed.

  (** *** Independence of the orders *)
  Lemma add_new_order ds ds' : ds ≡ₚ ds' → ∀ (s s' : mgr trk),
    add_new trk new_track ds s = (s', Ok ()) → add_new trk new_track ds' s = (s', Ok ()).
  Proof.
    induction 1 as [|d ds ds' P IH|x y ds|ds1 ds2 ds3 P1 IH1 P2 IH2]; intros s s' E; [done| |  |by auto].
    - cbn [add_new] in *. destruct (add_tentative_track trk (new_track d) s) as [s1 [| |]]; [|done|done]. by apply IH.
    - cbn [add_new] in *. unfold add_tentative_track in *.
      destruct (m_tracks s !! tt_uuid (new_track y)) as [|] eqn:Ey; [done|].
      cbn [m_tracks m_promo m_removal m_statuses m_occ] in *.
      destruct (<[tt_uuid (new_track y):=new_track y]> (m_tracks s) !! tt_uuid (new_track x)) as [|] eqn:Ex; [done|].
      apply lookup_insert_None in Ex as [Ex Ne]. rewrite Ex. cbn [m_tracks m_promo m_removal m_statuses m_occ] in *.
      rewrite lookup_insert_ne by done. rewrite Ey.
      rewrite !(insert_commute _ (tt_uuid (new_track y)) (tt_uuid (new_track x))) by done. exact E.
  Qed.

  Lemma left_over_order a (ds ds' : list Det) : ds ≡ₚ ds' → left_over du a ds ≡ₚ left_over du a ds'.
  Proof.
    intros P. unfold left_over. induction P as [|d ds ds' P IH|x y ds|ds1 ds2 ds3 P1 IH1 P2 IH2].
    - done.
    - cbn [List.filter]. destruct (negb _); [by constructor|done].
    - cbn [List.filter]. destruct (negb _), (negb _); try done. constructor.
    - by etransitivity.
  Qed.

  Lemma update_lists_order ord ord' a (s : mgr trk) :
    reachable trk s → om_wf bytes_compare a → order_of ord (m_occ s) → order_of ord' (m_occ s) →
    update_track_lists trk ord a s = update_track_lists trk ord' a s.
  Proof.
    intros Hr W H H'. apply (reachable_inv L) in Hr.
    destruct (update_lists_view ord a s Hr W H) as (s1 & E1 & I1 & P1 & R1 & V1).
    destruct (update_lists_view ord' a s Hr W H') as (s2 & E2 & I2 & P2 & R2 & V2).
    rewrite E1, E2. f_equal. apply inv_view_ext; try done; [congruence|congruence|].
    intros u. by rewrite V1, V2.
  Qed.

  Lemma cycle_order ord1 ord2 ord1' ord2' ds ds' (s s' : mgr trk) :
    reachable trk s → order_of ord1 (m_tracks s) → order_of ord2 (m_occ s) →
    order_of ord1' (m_tracks s) → order_of ord2' (m_occ s) → ds ≡ₚ ds' → List.NoDup (map du ds) →
    (N.of_nat (size (m_tracks s) * length ds) < 2 ^ 63)%N →
    one_cycle ord1 ord2 ds s = (s', Ok ()) → one_cycle ord1' ord2' ds' s = (s', Ok ()).
  Proof.
    intros Hr Ho1 Ho2 Ho1' Ho2' P Hn Hb E. unfold one_cycle, cycle, cycle_with in *.
    destruct (get_all_ok ord1 s) as (stored & Hg & _); [apply Ho1|].
    destruct (get_all_ok ord1' s) as (stored' & Hg' & _); [apply Ho1'|].
    destruct (stored_facts L ord1 s stored Hr Ho1 Hg) as (Eu & Hnd1 & Hst & Hv).
    destruct (stored_facts L ord1' s stored' Hr Ho1' Hg') as (Eu' & Hnd1' & Hst' & Hv').
    assert (stored ≡ₚ stored') as Ps.
    { apply NoDup_Permutation.
      - apply (NoDup_fmap_1 tt_uuid). by rewrite Eu.
      - apply (NoDup_fmap_1 tt_uuid). by rewrite Eu'.
      - intros t. by rewrite Hst, Hst'. }
    rewrite Hg in E. rewrite Hg'.
    assert (List.NoDup (map tt_uuid (map predict stored))) as Hn1.
    { rewrite map_map. rewrite (map_ext _ tt_uuid) by (intros; apply Upred).
      apply nodup_list. change (map tt_uuid stored) with (tt_uuid <$> stored). by rewrite Eu. }
    assert (associate tt_uuid du metric should_prune solve (map predict stored') ds' =
            associate tt_uuid du metric should_prune solve (map predict stored) ds) as Ea.
    { unfold associate. rewrite <- (score_order tt_uuid du metric (map predict stored) (map predict stored') ds ds'); try done.
      by apply Permutation_map. }
    rewrite Ea. destruct (associate _ _ _ _ _ (map predict stored) ds) as [a| |] eqn:Ha; [|done|done].
    assert (length (map predict stored) = size (m_tracks s)) as Hlen.
    { rewrite map_length, <- (order_length ord1) by done. rewrite <- Eu, fmap_length. done. }
    destruct (associate_spec tt_uuid du metric should_prune solve (map predict stored) ds a Sok) as (W & O & Pa);
      [by rewrite Hlen|exact Ha|].
    pose proof (update_lists_order ord2' ord2 a s Hr W Ho2' Ho2) as Eul.
    unfold assoc_map, association_map in *. rewrite Eul.
    destruct (update_track_lists trk ord2 a s) as [s1 [| |]]; [|done|done].
    rewrite <- (fuse_order tt_uuid du visit a (map predict stored) (map predict stored') ds ds'); try done.
    3:{ by apply Permutation_map. }
    2:{ intros u l Hx. destruct (Pa u l Hx) as (? & d & _ & _ & _ & ->). eauto. }
    destruct (fuse_associations _ _ _ _ _ ds) as [fused| |]; [|done|done].
    destruct (store_fused trk fused s1) as [s2 [| |]]; [|done|done].
    apply (add_new_order (left_over du a ds)); [by apply left_over_order|exact E].
  Qed.
End Scene.
