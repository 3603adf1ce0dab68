(** Well separated objects: the gate separates them, so the scenes are clear and every
    track stays with its object. *)
From stdpp Require Import gmap strings list.
From Coq Require Import NArith ZArith Reals Lra Lia ZifyN ZifyBool.
From Flocq Require Import Core IEEE754.BinarySingleNaN.
From Verif Require Import Base Uuid OrdMap DynObj Float DlibMatrix Scoring Matching MatchingSpec MatchingProofs MatchingThms MatchingExamples
  Fusing TrackManager TrackManagerSpec TrackManagerProofs TrackManagerThms Pipeline PipelineThms
  HistorySpec HistoryThms SceneSpec SceneThms Assignment AssignmentThms PipelineDlib DlibSceneSpec DlibSceneThms
  FloatDistance FloatDistanceThms IdentitySpec.
Local Open Scope R_scope.

(** ** Distances *)
Lemma pose_distance_nrm x y h x' y' h' :
  pose_distance (x, y, h) (x', y', h') = nrm (x - x') (y - y') (h - h').
Proof. unfold pose_distance, nrm. f_equal. ring. Qed.

Lemma pose_distance_sym p q : pose_distance p q = pose_distance q p.
Proof. destruct p as [[x y] h], q as [[x' y'] h']. unfold pose_distance. f_equal. ring. Qed.

Lemma pose_distance_triangle p q r : pose_distance p r <= pose_distance p q + pose_distance q r.
Proof.
  destruct p as [[x y] h], q as [[x' y'] h'], r as [[x'' y''] h'']. rewrite !pose_distance_nrm.
  replace (x - x'') with ((x - x') + (x' - x'')) by ring. replace (y - y'') with ((y - y') + (y' - y'')) by ring.
  replace (h - h'') with ((h - h') + (h' - h'')) by ring. apply nrm_triangle.
Qed.

Lemma pose_distance_pos p q : 0 <= pose_distance p q.
Proof. destruct p as [[x y] h], q as [[x' y'] h']. apply sqrt_pos. Qed.

Lemma score_near p q e v : (3 <= e <= 60)%Z → pose_within e p → pose_within e q → pose_distance32 p q v →
  is_finite v = true ∧
  Rabs (B2R v - pose_distance (pose_value p) (pose_value q)) <=
    bpow radix2 (e - 23) + bpow radix2 (-21) * pose_distance (pose_value p) (pose_value q).
Proof.
  destruct p as [[x y] h], q as [[x' y'] h']. intros He Hp Hq Hv.
  apply (distance_accuracy x y h x' y' h' e v He); [|exact Hv].
  unfold pose_within in Hp, Hq. rewrite !Forall_cons_iff in *. tauto.
Qed.

Lemma sqrt32_nonneg (x : f32) : is_finite (f32_sqrt x) = true → 0 <= B2R (f32_sqrt x).
Proof.
  intros _. unfold f32_sqrt. destruct (Bsqrt_correct 24 128 _ _ mode_NE x) as [E _]. eapply Rle_trans; [|right; symmetry; exact E].
  apply rnd32_pos, sqrt_pos.
Qed.

(** Track and detection of the same object pass the gate. *)
Lemma same_passes gate a b sep e p q t v :
  gate_between gate a b sep e → pose_within e p → pose_within e q → pose_distance32 p q v →
  pose_distance (pose_value p) t <= a → pose_distance (pose_value q) t <= b →
  above_gate gate v = false.
Proof.
  intros (He & Fg & Ha & Hb & G1 & _) Hp Hq Hv Dp Dq. destruct (score_near p q e v He Hp Hq Hv) as [Fv Hd].
  pose proof (pose_distance_triangle (pose_value p) t (pose_value q)) as T. rewrite (pose_distance_sym t) in T.
  pose proof (pose_distance_pos (pose_value p) (pose_value q)) as P.
  set (x := pose_distance (pose_value p) (pose_value q)) in *. apply Rabs_le_inv in Hd.
  unfold above_gate. rewrite Bltb_correct by assumption. apply Rlt_bool_false.
  assert (bpow radix2 (-21) * x <= bpow radix2 (-21) * (a + b)) by (apply Rmult_le_compat_l; [apply bpow_ge_0|lra]).
  lra.
Qed.

(** Track and detection of different objects do not. *)
Lemma other_pruned gate a b sep e p q t t' v :
  gate_between gate a b sep e → pose_within e p → pose_within e q → pose_distance32 p q v →
  pose_distance (pose_value p) t <= a → pose_distance (pose_value q) t' <= b → sep <= pose_distance t t' →
  above_gate gate v = true.
Proof.
  intros (He & Fg & Ha & Hb & _ & G2) Hp Hq Hv Dp Dq Ds. destruct (score_near p q e v He Hp Hq Hv) as [Fv Hd].
  pose proof (pose_distance_triangle t (pose_value p) t') as T1. rewrite (pose_distance_sym t (pose_value p)) in T1.
  pose proof (pose_distance_triangle (pose_value p) (pose_value q) t') as T2.
  set (x := pose_distance (pose_value p) (pose_value q)) in *. apply Rabs_le_inv in Hd.
  unfold above_gate. rewrite Bltb_correct by assumption. apply Rlt_bool_true.
  assert (bpow radix2 (-21) <= 1) as B1 by (change 1 with (bpow radix2 0); apply bpow_le; lia).
  assert ((1 - bpow radix2 (-21)) * (sep - (a + b)) <= (1 - bpow radix2 (-21)) * x) by (apply Rmult_le_compat_l; lra).
  lra.
Qed.

(** Scores of finite poses are ordinary and small. *)
Lemma score_ordinary p q e v : (3 <= e <= 60)%Z → pose_within e p → pose_within e q → pose_distance32 p q v →
  ordinary v ∧ small_score v.
Proof.
  intros He Hp Hq Hv. destruct (score_near p q e v He Hp Hq Hv) as [Fv Hd]. split.
  { split; [done|]. destruct Hv as (l & _ & ->). by apply sqrt32_nonneg. }
  destruct p as [[x y] h], q as [[x' y'] h']. cbn [pose_value] in Hd. rewrite pose_distance_nrm in Hd.
  unfold pose_within in Hp, Hq. rewrite !Forall_cons_iff in Hp, Hq.
  destruct Hp as ([_ X] & [_ Y] & [_ H] & _), Hq as ([_ X'] & [_ Y'] & [_ H'] & _).
  assert (∀ u w, Rabs u <= bpow radix2 e → Rabs w <= bpow radix2 e → Rabs (u - w) <= bpow radix2 61) as B.
  { intros u w Hu Hw. apply Rabs_le_inv in Hu, Hw. assert (bpow radix2 e <= bpow radix2 60) by (apply bpow_le; lia).
    assert (bpow radix2 61 = 2 * bpow radix2 60) by (change 61%Z with (1 + 60)%Z; rewrite bpow_plus; done).
    apply Rabs_le. lra. }
  pose proof (nrm_bound (B2R x - B2R x') (B2R y - B2R y') (B2R h - B2R h') (bpow radix2 61) (bpow_ge_0 _ _)
    (B _ _ X X') (B _ _ Y Y') (B _ _ H H')) as N.
  pose proof (nrm_pos (B2R x - B2R x') (B2R y - B2R y') (B2R h - B2R h')) as P.
  set (n := nrm _ _ _) in *. apply Rabs_le_inv in Hd.
  assert (bpow radix2 (-21) * n <= 1 * n) by (apply Rmult_le_compat_r; [done|]; change 1 with (bpow radix2 0); apply bpow_le; lia).
  assert (bpow radix2 (e - 23) <= bpow radix2 61) by (apply bpow_le; lia).
  unfold small_score. assert (bpow radix2 100 = bpow radix2 39 * bpow radix2 61) as -> by (by rewrite <- bpow_plus).
  assert (8 * bpow radix2 61 <= bpow radix2 39 * bpow radix2 61).
  { apply Rmult_le_compat_r; [apply bpow_ge_0|]. change 8 with (bpow radix2 3). apply bpow_le. lia. }
  lra.
Qed.

(** ** Cycles *)
Section Identity.
  Context {trk : track_type} (L : lawful trk) {Det Obj : Type} `{EqDecision Obj} (du : Det → uuid).
  Context (who : uuid → Obj) (track_pose : trk → pose64) (detection_pose : Det → pose64).
  Context (metric : trk → Det → option f32) (visit : trk → Det → result trk).
  Context (gate : f32) (a b sep : R) (e : Z) (new_track : Det → trk).
  Context (Unew : ∀ d, tt_uuid (new_track d) = du d).
  Context (G : gate_between gate a b sep e).
  Context (M : ∀ t d v, metric t d = Some v → pose_distance32 (track_pose t) (detection_pose d) v).
  Let observe := observation du who track_pose detection_pose metric visit a b sep e.
  Let one_each := one_track_each (trk := trk) who.

  Lemma inside_same predict truth (s : mgr trk) ds u x d : observe predict truth s ds → view s u = Some x → In d ds →
    (within predict metric (above_gate gate) (e_track x) d ↔ who u = who (du d)).
  Proof.
    intros O Hx Hd. pose proof (ob_tracks _ _ _ _ _ _ _ _ _ _ _ _ _ _ O u x Hx) as [T1 T2].
    pose proof (ob_detections _ _ _ _ _ _ _ _ _ _ _ _ _ _ O d Hd) as [D1 D2]. split.
    - intros (v & Hm & Hp). apply M in Hm. destruct (decide (who u = who (du d))) as [|Ne]; [done|].
      rewrite (other_pruned gate a b sep e _ _ _ _ _ G T1 D1 Hm T2 D2) in Hp; [done|].
      exact (ob_apart _ _ _ _ _ _ _ _ _ _ _ _ _ _ O u x d Hx Hd Ne).
    - intros Ew. destruct (ob_same _ _ _ _ _ _ _ _ _ _ _ _ _ _ O u x d Hx Hd Ew) as [[v Hm] _].
      exists v. split; [done|]. rewrite <- Ew in D2. exact (same_passes gate a b sep e _ _ _ _ G T1 D1 (M _ _ _ Hm) T2 D2).
  Qed.

  Lemma observation_clear predict truth (s : mgr trk) ds : observe predict truth s ds → one_each s →
    clear_scene du predict metric (above_gate gate) visit s ds.
  Proof.
    intros O One. pose proof (λ u x d, inside_same predict truth s ds u x d O) as I. split.
    - apply (ob_distinct _ _ _ _ _ _ _ _ _ _ _ _ _ _ O).
    - apply (ob_fresh _ _ _ _ _ _ _ _ _ _ _ _ _ _ O).
    - apply (ob_size _ _ _ _ _ _ _ _ _ _ _ _ _ _ O).
    - intros u x d d' Hx Hd Hd' P P'. apply (I u x) in P, P'; try done.
      apply (ob_once _ _ _ _ _ _ _ _ _ _ _ _ _ _ O); [done|done|congruence].
    - intros u x u' x' d Hx Hx' Hd P P'. apply (I u x) in P; [|done|done]. apply (I u' x') in P'; [|done|done].
      apply (One u x u' x'); [done|done|congruence].
    - left. destruct (ob_two _ _ _ _ _ _ _ _ _ _ _ _ _ _ O) as (u & x & d & u' & x' & d' & Ne & Hx & Hx' & Hd & Hd' & W & W').
      exists u, x, d, u', x', d'. rewrite (I u x d), (I u' x' d') by done. done.
    - intros u x d v Hx Hd Hm _. destruct (ob_tracks _ _ _ _ _ _ _ _ _ _ _ _ _ _ O u x Hx) as [T1 _].
      destruct (ob_detections _ _ _ _ _ _ _ _ _ _ _ _ _ _ O d Hd) as [D1 _].
      apply (score_ordinary _ _ e _ (proj1 G) T1 D1 (M _ _ _ Hm)).
    - intros u x d Hx Hd P. apply (I u x d) in P; [|done|done].
      apply (ob_same _ _ _ _ _ _ _ _ _ _ _ _ _ _ O u x d Hx Hd P).
  Qed.

  Lemma observed_cycle predict truth ord1 ord2 ds (s : mgr trk) :
    (∀ t, tt_uuid (predict t) = tt_uuid t) →
    (∀ t d f, visit (predict t) d = Ok f → tt_uuid f = tt_uuid t ∧ copies f t) →
    reachable trk s → order_of ord1 (m_tracks s) → order_of ord2 (m_occ s) →
    (m_removal s < m_promo s < 2 ^ 64 - 1)%N → (m_removal s ≤ 1)%N →
    (∀ u x, view s u = Some x → (e_count x < 2 ^ 64 - 1)%N) →
    one_each s → observe predict truth s ds →
    ∃ s', cycle_dlib int_checked trk du new_track predict metric (above_gate gate) visit ord1 ord2 ds s = (s', Ok ()) ∧
      reachable trk s' ∧ m_promo s' = m_promo s ∧ m_removal s' = m_removal s ∧
      (∀ u x, view s' u = Some x → (e_count x < 2 ^ 64 - 1)%N) ∧ one_each s' ∧
      (∀ u x d, view s u = Some x → In d ds → who u = who (du d) →
         let n := N.min (e_count x + 1) (m_promo s) in
         ∃ f, visit (predict (e_track x)) d = Ok f ∧
           view s' u = Some (Entry (copied f (e_track x)) (if decide (m_promo s ≤ n)%N then Confirmed else e_status x) n) ∧
           view s' (du d) = None) ∧
      (∀ u x, view s u = Some x → (∀ d, In d ds → who u ≠ who (du d)) →
         let n := (e_count x - 1)%N in
         view s' u = if decide (n ≤ m_removal s)%N then None
           else Some (Entry (e_track x) (if decide (m_promo s ≤ n)%N then Confirmed else e_status x) n)) ∧
      (∀ d, In d ds → (∀ u x, view s u = Some x → who u ≠ who (du d)) →
         view s' (du d) = Some (Entry (new_track d) Tentative 1%N)) ∧
      (∀ u, view s u = None → ¬ In u (map du ds) → view s' u = None).
  Proof.
    intros Up Hv Hr Ho1 Ho2 T R C One O.
    pose proof (observation_clear predict truth s ds O One) as Cl.
    pose proof (λ u x d, inside_same predict truth s ds u x d O) as I.
    pose proof (cycle_dlib_clear L int_checked du int_checked_ok new_track predict metric (above_gate gate) visit Up try_all ord1 ord2 ds s try_all_ok Hr Ho1 Cl) as Ec.
    destruct (cycle_clear L du new_track predict metric (above_gate gate) try_all visit Unew Up try_all_ok Hv ord1 ord2 ds s Hr Ho1 Ho2)
      as (s' & E & Hr' & Ep & Er & V1 & V2 & V3 & V4); try done; [lia|].
    pose proof (clear_counts L du new_track predict metric (above_gate gate) try_all visit Unew Up try_all_ok Hv ord1 ord2 ds s s' (Ok ()) Hr Ho1 Ho2 T R C Cl E) as Cn.
    assert (∀ d, In d ds → (∀ u x, view s u = Some x → who u ≠ who (du d)) →
      view s' (du d) = Some (Entry (new_track d) Tentative 1%N)) as N.
    { intros d Hd Hno. apply V3; [done|]. intros u x Hx P. apply (I u x d) in P; [|done|done]. by apply (Hno u x). }
    exists s'. rewrite Ec. split; [exact E|]. split; [done|]. split; [done|]. split; [done|]. split; [exact Cn|].
    split; [|split; [|split; [|split; [exact N|exact V4]]]].
    - assert (∀ u x, view s' u = Some x → (∃ x0, view s u = Some x0) ∨
        ∃ d, In d ds ∧ u = du d ∧ ∀ u' x', view s u' = Some x' → who u' ≠ who u) as K.
      { intros u x Hx. destruct (view s u) as [x0|] eqn:V0; [left; eauto|].
        destruct (in_dec String.string_dec u (map du ds)) as [Hin|Hn]; [|by rewrite (V4 u V0 Hn) in Hx].
        apply in_map_iff in Hin as (d & <- & Hd). right. exists d. split; [done|]. split; [done|].
        intros u' x' Hx' Ew. destruct (V1 u' x' d Hx' Hd) as (f & _ & _ & E0); [by apply (I u' x' d)|congruence]. }
      intros u x u' x' Hx Hx' Ew.
      destruct (K u x Hx) as [[y Hy]|(d & Hd & -> & No)], (K u' x' Hx') as [[y' Hy']|(d' & Hd' & -> & No')].
      + by apply (One u y u' y').
      + by destruct (No' u y Hy).
      + by destruct (No u' y' Hy').
      + f_equal. by apply (ob_once _ _ _ _ _ _ _ _ _ _ _ _ _ _ O).
    - intros u x d Hx Hd Ew. apply (V1 u x d Hx Hd). by apply (I u x d).
    - intros u x Hx Hno. apply (V2 u x Hx). intros d Hd P. apply (I u x d) in P; [|done|done]. by apply (Hno d).
  Qed.

  Lemma observed_run_thm u (s : mgr trk) bs s' :
    reachable trk s → (m_removal s < m_promo s < 2 ^ 64 - 1)%N → (m_removal s ≤ 1)%N →
    (∀ v x, view s v = Some x → (e_count x < 2 ^ 64 - 1)%N) → one_each s →
    observed_run du who track_pose detection_pose metric visit gate a b sep e new_track u s bs s' →
    reachable trk s' ∧ m_promo s' = m_promo s ∧ m_removal s' = m_removal s ∧
    (∀ v x, view s' v = Some x → (e_count x < 2 ^ 64 - 1)%N) ∧ one_each s' ∧
    (∀ x, view s u = Some x →
      (is_Some (view s' u) ↔
         stays_above (Z.of_N (m_promo s)) (Z.of_N (m_removal s)) (Z.of_N (e_count x)) bs) ∧
      ∀ x', view s' u = Some x' →
        is_level (Z.of_N (m_promo s)) (Z.of_N (e_count x)) bs (Z.of_N (e_count x')) ∧
        (e_status x' = Confirmed ↔
           e_status x = Confirmed ∨ reaches (Z.of_N (m_promo s)) (Z.of_N (e_count x)) bs)).
  Proof.
    intros Hr Hpr Hr1 Hcnt One Run.
    induction Run as [|bs seen s1 predict truth ds ord1 ord2 s2 Run IH Up Hv O Hnu Ho1 Ho2 Hb E].
    - do 5 (split; [done|]). intros x Hx. split.
      + split; [intros _; apply above_nil|rewrite Hx; eauto].
      + intros x' Hx'. rewrite Hx in Hx'. injection Hx' as <-. split; [apply level_nil|]. split; [auto|].
        intros [?|H]; [done|]. apply reaches_nil in H. done.
    - destruct IH as (R1 & Ep & Er & Cn & One1 & H).
      destruct (observed_cycle predict truth ord1 ord2 ds s1) as (s3 & E3 & R3 & Ep3 & Er3 & Cn3 & One3 & V1 & V2 & V3 & V4); try done; [lia|lia|].
      rewrite E3 in E. cbn [fst] in E. subst s3.
      split; [done|]. split; [congruence|]. split; [congruence|]. split; [exact Cn3|]. split; [exact One3|].
      intros x Hx. destruct (H x Hx) as [HA HL]. rewrite ?Ep in V1, V2. rewrite ?Er in V2.
      set (p := m_promo s) in *. set (r := m_removal s) in *.
      destruct (view s1 u) as [e1|] eqn:Ve1.
      + destruct (HL e1 eq_refl) as [Hl Hs]. pose proof (Cn u e1 Ve1) as Hc1.
        destruct (inv_view s1 u e1 (reachable_inv L s1 R1) Ve1) as (_ & Hc1').
        set (n := if seen then N.min (e_count e1 + 1) p else (e_count e1 - 1)%N).
        assert (is_level (Z.of_N p) (Z.of_N (e_count x)) (bs ++ [seen]) (Z.of_N n)) as Hl'.
        { replace (Z.of_N n) with (if seen then Z.min (Z.of_N (e_count e1) + 1) (Z.of_N p) else (Z.of_N (e_count e1) - 1)%Z).
          - apply level_snoc. done.
          - subst n. destruct seen; lia. }
        pose proof (above_snoc (Z.of_N p) (Z.of_N r) _ _ _ _ Hl') as Hab.
        pose proof (reaches_snoc (Z.of_N p) _ _ _ _ Hl') as Hre.
        assert (match view s2 u with
          | None => (n ≤ r)%N
          | Some e2 => (r < n)%N ∧ e_count e2 = n ∧ e_status e2 = if decide (p ≤ n)%N then Confirmed else e_status e1
          end) as Hstep.
        { destruct seen.
          - destruct (proj1 Hb eq_refl) as (d & Hd & Hw). destruct (V1 u e1 d Ve1 Hd (eq_sym Hw)) as (f & _ & Ev & _).
            rewrite Ev. cbn [e_count e_status]. subst n. split; [lia|]. done.
          - assert (∀ d, In d ds → who u ≠ who (du d)) as Hno.
            { intros d Hd Hw. destruct Hb as [_ Hb]. discriminate Hb. exists d. done. }
            pose proof (V2 u e1 Ve1 Hno) as Ev. cbn zeta in Ev. rewrite Ev. subst n.
            destruct (decide (e_count e1 - 1 ≤ r)%N) as [Hle|Hle]; [exact Hle|]. cbn [e_count e_status]. split; [lia|]. done. }
        destruct (view s2 u) as [e2|].
        * destruct Hstep as (Hn & Hc2 & Hs2). split.
          -- split; [|eauto]. intros _. apply Hab. split; [apply HA; eauto|lia].
          -- intros x' [= <-]. rewrite Hc2. split; [done|]. rewrite Hs2, Hre. destruct (decide (p ≤ n)%N) as [Hp|Hp].
             ++ split; [intros _; right; right; lia|done].
             ++ rewrite Hs. split; [tauto|]. intros [|[|]]; [tauto|tauto|lia].
        * split; [|done]. split; [intros []; done|]. intros Hx'. apply Hab in Hx' as [_ Hx']. lia.
      + rewrite (V4 u Ve1). 2:{ by rewrite in_elem. }
        split; [|done]. split; [intros []; done|]. intros Hx'. exfalso.
        assert (is_Some (@None (entry trk))) as []; [|done]. apply HA.
        destruct Hx' as [A1 A2]. split.
        * intros start rest -> Hst. apply (A1 start (rest ++ [seen])); [|done]. rewrite (assoc_L (++)). done.
        * intros before w rest ->. apply (A2 before w (rest ++ [seen])).
          rewrite <- (assoc_L (++)). cbn. rewrite <- (assoc_L (++)). done.
  Qed.
End Identity.
