(** Properties C86 and C87: the tracking cycle does not depend on the order of
    anything, and what it does when the gate leaves no ambiguity.

    [cycle] (Pipeline.v): list the tracks, predict them, score, gate, associate,
    update the track lists, fuse, store the fused tracks, add the detections
    without association.  [view s u]: track, status and counter stored under [u]
    (TrackManagerSpec.v).  [order_of]: a possible iteration order of a map.
    [clear_scene], [clear_run], [within]: SceneSpec.v.  [stays_above],
    [is_level], [reaches]: HistorySpec.v. *)
From stdpp Require Import gmap strings list.
From Coq Require Import NArith ZArith Lia Reals Lra.
From Flocq Require Import Core IEEE754.BinarySingleNaN.
From Verif Require Import Base Uuid OrdMap DynObj Float DlibMatrix Scoring Matching MatchingSpec MatchingThms MatchingExamples
  Fusing FusingThms TrackManager TrackManagerSpec TrackManagerProofs TrackManagerThms TrackManagerExamples Pipeline PipelineAssoc
  PipelineThms SeparationThms HistorySpec HistoryThms SceneSpec SceneThms Properties_Pipeline.
Local Open Scope nat_scope.
Local Open Scope list_scope.

(** ** C86 *)
Section Orders.
  Context {Trk Det : Type} (tu : Trk → uuid) (du : Det → uuid).

  Theorem C86_scores {F} (metric : Trk → Det → option F) ts ts' ds ds' :
    ts ≡ₚ ts' → ds ≡ₚ ds' → List.NoDup (map tu ts) → List.NoDup (map du ds) →
    score_tracks_and_detections tu du metric ts ds = score_tracks_and_detections tu du metric ts' ds'.
  Proof. apply score_order. Qed.

  (** For every function in the place of the solver. *)
  Theorem C86_association (metric : Trk → Det → option f32) should_prune solve ts ts' ds ds' :
    ts ≡ₚ ts' → ds ≡ₚ ds' → List.NoDup (map tu ts) → List.NoDup (map du ds) →
    associate tu du metric should_prune solve ts ds = associate tu du metric should_prune solve ts' ds'.
  Proof. intros P Q N M. unfold associate. by rewrite (score_order tu du metric ts ts' ds ds'). Qed.

  Theorem C86_fusion (visit : Trk → Det → result Trk) a ts ts' ds ds' :
    (∀ u l, In (u, l) a → ∃ d, l = [d]) →
    ts ≡ₚ ts' → ds ≡ₚ ds' → List.NoDup (map tu ts) → List.NoDup (map du ds) →
    fuse_associations tu du visit a ts ds = fuse_associations tu du visit a ts' ds'.
  Proof. apply fuse_order. Qed.
End Orders.

Theorem C86_cycle : ∀ (trk : track_type), lawful trk → ∀ (Det : Type) (du : Det → uuid) (new_track : Det → trk)
    (predict : trk → trk) (metric : trk → Det → option f32) (should_prune : f32 → bool) (solve : mat Z → list Z)
    (visit : trk → Det → result trk),
  (∀ t, tt_uuid (predict t) = tt_uuid t) → solver_ok solve →
  ∀ ord1 ord2 ord1' ord2' ds ds' (s s' : mgr trk),
  reachable trk s → order_of ord1 (m_tracks s) → order_of ord2 (m_occ s) →
  order_of ord1' (m_tracks s) → order_of ord2' (m_occ s) → ds ≡ₚ ds' → List.NoDup (map du ds) →
  (N.of_nat (size (m_tracks s) * length ds) < 2 ^ 63)%N →
  cycle trk du new_track predict metric should_prune solve visit ord1 ord2 ds s = (s', Ok ()) →
  cycle trk du new_track predict metric should_prune solve visit ord1' ord2' ds' s = (s', Ok ()).
Proof. intros trk L Det du nt pr me sp so vi U S. exact (cycle_order L du nt pr me sp so vi U S). Qed.

(** Without distinct uuids the order matters. *)
Theorem C86_repeated_uuid_refuted : ∃ (t x y : dyn_obj Z Z Z),
  o_uuid x = o_uuid y ∧
  score_tracks_and_detections o_uuid o_uuid far [t] [x; y] ≠ score_tracks_and_detections o_uuid o_uuid far [t] [y; x].
Proof.
  exists (at_ "a" 0), (at_ "x" 1), (at_ "x" 2). split; [done|]. intros E.
  apply (f_equal (map (λ kv : (uuid * uuid) * f32, f32_gtb (snd kv) (f32_of_Z 1)))) in E. vm_compute in E. discriminate E.
Qed.

(** ** C87 *)
Section Clear.
  Context {trk : track_type} {Det : Type} (du : Det → uuid) (new_track : Det → trk) (predict : trk → trk)
    (metric : trk → Det → option f32) (should_prune : f32 → bool) (solve : mat Z → list Z)
    (visit : trk → Det → result trk).
  Let scene := clear_scene du predict metric should_prune visit.
  Let inside := within predict metric should_prune.
  Let run_cycle := cycle trk du new_track predict metric should_prune solve visit.

  Theorem C87_one_cycle ord1 ord2 ds (s : mgr trk) :
    lawful trk → solver_ok solve →
    (∀ d, tt_uuid (new_track d) = du d) → (∀ t, tt_uuid (predict t) = tt_uuid t) →
    (∀ t d f, visit (predict t) d = Ok f → tt_uuid f = tt_uuid t ∧ copies f t) →
    reachable trk s → order_of ord1 (m_tracks s) → order_of ord2 (m_occ s) →
    (m_removal s < m_promo s)%N → (m_removal s ≤ 1)%N →
    (∀ u e, view s u = Some e → (e_count e < 2 ^ 64 - 1)%N) →
    scene s ds →
    ∃ s', run_cycle ord1 ord2 ds s = (s', Ok ()) ∧ reachable trk s' ∧
      m_promo s' = m_promo s ∧ m_removal s' = m_removal s ∧
      (* a track within the gate of a detection is fused with it and counted up *)
      (∀ u e d, view s u = Some e → In d ds → inside (e_track e) d →
         let n := N.min (e_count e + 1) (m_promo s) in
         ∃ f, visit (predict (e_track e)) d = Ok f ∧
           view s' u = Some (Entry (copied f (e_track e)) (if decide (m_promo s ≤ n)%N then Confirmed else e_status e) n) ∧
           view s' (du d) = None) ∧
      (* any other track is left as it is and counted down *)
      (∀ u e, view s u = Some e → (∀ d, In d ds → ¬ inside (e_track e) d) →
         let n := (e_count e - 1)%N in
         view s' u = if decide (n ≤ m_removal s)%N then None
           else Some (Entry (e_track e) (if decide (m_promo s ≤ n)%N then Confirmed else e_status e) n)) ∧
      (* a detection within the gate of no track becomes a tentative track *)
      (∀ d, In d ds → (∀ u e, view s u = Some e → ¬ inside (e_track e) d) →
         view s' (du d) = Some (Entry (new_track d) Tentative 1%N)) ∧
      (* there is nothing else *)
      (∀ u, view s u = None → ¬ In u (map du ds) → view s' u = None).
  Proof.
    intros L S Un Up Hv Hr H1 H2 T R C Sc.
    exact (cycle_clear L du new_track predict metric should_prune solve visit Un Up S Hv ord1 ord2 ds s Hr H1 H2 T R C Sc).
  Qed.

  (** Over many cycles: presence, counter and status of a track are determined by
      the cycles in which it was within the gate of a detection. *)
  Theorem C87_history u (s : mgr trk) bs s' (e : entry trk) :
    lawful trk → solver_ok solve →
    (∀ d, tt_uuid (new_track d) = du d) → (∀ t, tt_uuid (predict t) = tt_uuid t) →
    (∀ t d f, visit (predict t) d = Ok f → tt_uuid f = tt_uuid t ∧ copies f t) →
    reachable trk s → (m_removal s < m_promo s < 2 ^ 64 - 1)%N → (m_removal s ≤ 1)%N →
    (∀ v e, view s v = Some e → (e_count e < 2 ^ 64 - 1)%N) →
    clear_run du new_track predict metric should_prune solve visit u s bs s' →
    view s u = Some e →
    (is_Some (view s' u) ↔
       stays_above (Z.of_N (m_promo s)) (Z.of_N (m_removal s)) (Z.of_N (e_count e)) bs) ∧
    ∀ e', view s' u = Some e' →
      is_level (Z.of_N (m_promo s)) (Z.of_N (e_count e)) bs (Z.of_N (e_count e')) ∧
      (e_status e' = Confirmed ↔
         e_status e = Confirmed ∨ reaches (Z.of_N (m_promo s)) (Z.of_N (e_count e)) bs).
  Proof.
    intros L S Un Up Hv Hr T R C Run He.
    destruct (clear_run_thm L du new_track predict metric should_prune solve visit Un Up S Hv u s bs s' Hr T R C Run)
      as (_ & _ & _ & _ & H). by apply H.
  Qed.

  (** No cycle with a clear scene after any number of such cycles fails. *)
  Theorem C87_no_failure u (s : mgr trk) bs s' ds ord1 ord2 :
    lawful trk → solver_ok solve →
    (∀ d, tt_uuid (new_track d) = du d) → (∀ t, tt_uuid (predict t) = tt_uuid t) →
    (∀ t d f, visit (predict t) d = Ok f → tt_uuid f = tt_uuid t ∧ copies f t) →
    reachable trk s → (m_removal s < m_promo s < 2 ^ 64 - 1)%N → (m_removal s ≤ 1)%N →
    (∀ v e, view s v = Some e → (e_count e < 2 ^ 64 - 1)%N) →
    clear_run du new_track predict metric should_prune solve visit u s bs s' →
    scene s' ds → order_of ord1 (m_tracks s') → order_of ord2 (m_occ s') →
    snd (run_cycle ord1 ord2 ds s') = Ok ().
  Proof.
    intros L S Un Up Hv Hr T R C Run Sc H1 H2.
    destruct (clear_run_thm L du new_track predict metric should_prune solve visit Un Up S Hv u s bs s' Hr T R C Run)
      as (Hr' & Ep & Er & C' & _).
    destruct (cycle_clear L du new_track predict metric should_prune solve visit Un Up S Hv ord1 ord2 ds s' Hr' H1 H2)
      as (s2 & E & _); [lia|lia|done|done|]. unfold run_cycle. by rewrite E.
  Qed.

  (** A track within the gate of a detection in every cycle is never lost, and is
      confirmed as soon as counter and cycles add up to the threshold. *)
  Theorem C87_followed u (s : mgr trk) n s' (e : entry trk) :
    lawful trk → solver_ok solve →
    (∀ d, tt_uuid (new_track d) = du d) → (∀ t, tt_uuid (predict t) = tt_uuid t) →
    (∀ t d f, visit (predict t) d = Ok f → tt_uuid f = tt_uuid t ∧ copies f t) →
    reachable trk s → (m_removal s < m_promo s < 2 ^ 64 - 1)%N → (m_removal s ≤ 1)%N →
    (∀ v e, view s v = Some e → (e_count e < 2 ^ 64 - 1)%N) →
    clear_run du new_track predict metric should_prune solve visit u s (replicate n true) s' →
    view s u = Some e →
    ∃ e', view s' u = Some e' ∧
      (0 < n → e_count e' = N.min (e_count e + N.of_nat n) (m_promo s)) ∧
      (e_status e' = Confirmed ↔
         e_status e = Confirmed ∨ (0 < n ∧ (m_promo s ≤ e_count e + N.of_nat n)%N)).
  Proof.
    intros L S Un Up Hv Hr T R C Run He.
    destruct (C87_history u s (replicate n true) s' e) as [HA HL]; try done.
    destruct (inv_view s u e (reachable_inv L s Hr) He) as (_ & Hc & _).
    assert (∀ k, balance (replicate k true) = Z.of_nat k) as Hb.
    { induction k as [|k IH]; [done|]. cbn [replicate]. rewrite balance_cons, IH. lia. }
    assert (∀ a b, replicate n true = a ++ b → ∃ k m, a = replicate k true ∧ b = replicate m true ∧ k + m = n) as Hsp.
    { intros a b E. exists (length a), (length b).
      assert (∀ x, x ∈ a ++ b → x = true) as X.
      { intros x Hx. rewrite <- E in Hx. by apply elem_of_replicate in Hx as [-> _]. }
      split; [|split].
      - symmetry. apply replicate_as_elem_of. split; [done|]. intros x Hx. apply X, elem_of_app. by left.
      - symmetry. apply replicate_as_elem_of. split; [done|]. intros x Hx. apply X, elem_of_app. by right.
      - rewrite <- app_length, <- E. apply replicate_length. }
    assert (is_Some (view s' u)) as [e' He'].
    { apply HA. split.
      - intros start rest E Hs. destruct (Hsp _ _ E) as (k & m & -> & _ & _). rewrite Hb.
        destruct k; [done|]. lia.
      - intros before w rest E. destruct (Hsp _ _ E) as (k & m & _ & E' & _). destruct m as [|m]; [done|].
        cbn [replicate] in E'. injection E' as E'.
        assert (∃ j, w = replicate j true) as [j ->].
        { exists (length w). symmetry. apply replicate_as_elem_of. split; [done|]. intros x Hx.
          assert (x ∈ replicate m true) as H by (rewrite <- E'; apply elem_of_app; by left).
          by apply elem_of_replicate in H as [-> _]. }
        rewrite Hb. lia. }
    exists e'. split; [done|]. destruct (HL e' He') as [(L1 & L2 & L3) Hs]. rewrite Hb in *. split.
    - intros Hn. apply N2Z.inj. rewrite N2Z.inj_min, N2Z.inj_add, nat_N_Z.
      assert (Z.of_N (e_count e') ≤ Z.of_N (m_promo s))%Z as Hp.
      { specialize (L2 (replicate (n - 1) true) []). rewrite balance_nil, Z.add_0_r in L2. apply L2.
        change ([true]) with (replicate 1 true). rewrite <- replicate_add. f_equal. lia. }
      destruct L3 as [L3|(before & after & E & L3)]; [rewrite Z.min_l by (rewrite <- L3; exact Hp); exact L3|].
      destruct (Hsp _ _ E) as (k & m & _ & E' & _). destruct m as [|m]; [done|]. cbn [replicate] in E'.
      injection E' as E'. rewrite E', Hb in L3. lia.
    - rewrite Hs. apply or_iff_compat_l. split.
      + intros (start & rest & E & Hne & Hp). destruct (Hsp _ _ E) as (k & m & -> & _ & Hk). rewrite Hb in Hp.
        destruct k; [done|]. lia.
      + intros [Hn Hp]. exists (replicate n true), []. rewrite app_nil_r, Hb. split; [done|].
        split; [destruct n; [lia|done]|]. lia.
  Qed.
End Clear.

(** ** Examples *)
Open Scope string_scope.
Definition above8 (v : f32) : bool := f32_gtb v (f32_of_Z 8).
Definition shuffled : list (dyn_obj Z Z Z) := [at_ "z" 50; at_ "x" 11; at_ "y" 1].
Definition gated_cycle ds s := cycle TZ o_uuid (λ d, d) (λ t, t) far above8 try_all take_detection ab ab ds s.

Example C86_case :
  three_detections ≡ₚ shuffled ∧ List.NoDup (map o_uuid three_detections) ∧
  snd (gated_cycle three_detections two_tracks) = Ok () ∧
  gated_cycle three_detections two_tracks = gated_cycle shuffled two_tracks.
Proof.
  assert (three_detections ≡ₚ shuffled) as P by (apply (Permutation_app_comm [at_ "x" 11; at_ "y" 1] [at_ "z" 50])).
  assert (List.NoDup (map o_uuid three_detections)) as N by (repeat constructor; cbn; intuition discriminate).
  assert (snd (gated_cycle three_detections two_tracks) = Ok ()) as E by (vm_compute; done).
  split; [done|]. split; [done|]. split; [done|]. symmetry.
  destruct (gated_cycle three_detections two_tracks) as [s' r] eqn:E'. cbn in E. subst r.
  destruct two_tracks_order as (O1 & O2 & _).
  unfold gated_cycle in *. revert E'.
  apply (C86_cycle TZ (plain_lawful Z Z Z) _ o_uuid); try done; [apply try_all_ok|apply two_tracks_reachable].
Qed.

Lemma two_tracks_view u (e : entry TZ) : view two_tracks u = Some e →
  (u = "a" ∧ e = Entry (at_ "a" 0 : TZ) Tentative 1%N) ∨ (u = "b" ∧ e = Entry (at_ "b" 10 : TZ) Tentative 1%N).
Proof.
  intros H. assert (u ∈ ab) as Hu.
  { destruct two_tracks_order as ([_ O] & _). apply O. unfold view in H. by destruct (m_tracks two_tracks !! u). }
  destruct two_tracks_order as (_ & _ & P). rewrite P in Hu. rewrite !elem_of_cons, elem_of_nil in Hu.
  destruct Hu as [->|[->|[]]]; [left|right]; (split; [done|]); vm_compute in H; by injection H as <-.
Qed.

Example C87_case : clear_scene o_uuid (λ t : TZ, t) far above8 take_detection two_tracks three_detections ∧
  (m_removal two_tracks < m_promo two_tracks < 2 ^ 64 - 1)%N ∧ (m_removal two_tracks ≤ 1)%N ∧
  within (λ t : TZ, t) far above8 (at_ "a" 0) (at_ "y" 1) ∧ ¬ within (λ t : TZ, t) far above8 (at_ "a" 0) (at_ "x" 11).
Proof.
  assert (∀ u (e : entry TZ) d, view two_tracks u = Some e → In d three_detections → within (λ t : TZ, t) far above8 (e_track e) d →
    (u = "a" ∧ d = at_ "y" 1) ∨ (u = "b" ∧ d = at_ "x" 11)) as P.
  { intros u e d He Hd (v & Hv & Hp). unfold far in Hv.
    apply (f_equal (λ o, match o with Some x => above8 x | None => true end)) in Hv. rewrite Hp in Hv. clear Hp.
    apply two_tracks_view in He as [[-> ->]|[-> ->]]; destruct Hd as [<-|[<-|[<-|[]]]]; auto; vm_compute in Hv; discriminate Hv. }
  assert (∀ a b : Z, f32_gtb (f32_of_Z (Z.abs (a - b))) (f32_of_Z 8) = false →
    within (λ t : TZ, t) far above8 (at_ "a" a) (at_ "y" b)) as W by (intros a b E; eexists; split; [reflexivity|exact E]).
  split; [|split; [done|split; [done|split; [apply W; vm_compute; done|]]]].
  2:{ intros (v & Hv & Hp). unfold far in Hv.
      apply (f_equal (λ o, match o with Some x => above8 x | None => true end)) in Hv. rewrite Hp in Hv. vm_compute in Hv. done. }
  split.
  - repeat constructor; cbn; intuition discriminate.
  - intros d [<-|[<-|[<-|[]]]]; vm_compute; done.
  - vm_compute. done.
  - intros u e d d' He Hd Hd' H H'. pose proof (P u e d He Hd H). pose proof (P u e d' He Hd' H').
    destruct H0 as [[-> ->]|[-> ->]], H1 as [[? ->]|[? ->]]; done.
  - intros u e u' e' d He He' Hd H H'. pose proof (P u e d He Hd H). pose proof (P u' e' d He' Hd H').
    destruct H0 as [[-> ->]|[-> ->]], H1 as [[-> ?]|[-> ?]]; done.
  - left. exists "a", (Entry (at_ "a" 0 : TZ) Tentative 1%N), (at_ "y" 1), "b", (Entry (at_ "b" 10 : TZ) Tentative 1%N), (at_ "x" 11).
    split; [done|]. split; [vm_compute; done|]. split; [vm_compute; done|]. split; [cbn; auto|]. split; [cbn; auto|].
    split; eexists; (split; [reflexivity|vm_compute; done]).
  - intros u e d v He Hd Hv Hp.
    destruct (P u e d He Hd) as [[-> ->]|[-> ->]]; [by exists v| |];
      apply two_tracks_view in He as [[Hu ->]|[Hu ->]]; try done;
      (assert (v = f32_of_Z 1) as -> by (exact (eq_sym (f_equal (λ o, default v o) Hv))));
      destruct (f32_small 1 ltac:(done)) as [E Fin]; (split; [split; [exact Fin|rewrite E; lra]|]);
      unfold small_score; rewrite E; pose proof bpow100; lra.
  - intros u e d He Hd H. eexists. reflexivity.
Qed.

Example C87_run_case :
  clear_run (trk := TZ) o_uuid (λ d, d) (λ t, t) far above8 try_all take_detection "a" two_tracks [true]
    (fst (gated_cycle three_detections two_tracks)) ∧
  view (fst (gated_cycle three_detections two_tracks)) "a" = Some (Entry (at_ "a" 1 : TZ) Confirmed 2%N) ∧
  view (fst (gated_cycle three_detections two_tracks)) "z" = Some (Entry (at_ "z" 50 : TZ) Tentative 1%N).
Proof.
  split; [|split; vm_compute; done].
  destruct two_tracks_order as (O1 & O2 & _).
  apply (clear_snoc _ _ _ _ _ _ _ "a" two_tracks [] true two_tracks three_detections ab ab); try done.
  - constructor.
  - apply C87_case.
  - cbn. rewrite !elem_of_cons, elem_of_nil. intuition discriminate.
  - split; [intros _|done]. exists (Entry (at_ "a" 0 : TZ) Tentative 1%N), (at_ "y" 1).
    split; [vm_compute; done|]. split; [cbn; auto|]. apply C87_case.
Qed.

Print Assumptions C86_scores.
Print Assumptions C86_association.
Print Assumptions C86_fusion.
Print Assumptions C86_cycle.
Print Assumptions C86_repeated_uuid_refuted.
Print Assumptions C87_one_cycle.
Print Assumptions C87_history.
Print Assumptions C87_no_failure.
Print Assumptions C87_followed.
