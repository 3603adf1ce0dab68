(** Proofs about clustering detections that form separate groups. *)
From stdpp Require Import gmap strings.
From Coq Require Import Reals Lra Lia.
From Verif Require Import Base Uuid DynObj Motion RealArith MotionThms PiBounds
  Clustering ClusteringSpec ClusteringThms ClusteringCentroid ClusteringExamples.
Local Open Scope nat_scope.

Section Labels.
  Context {D L : Type} (near : D → D → bool) (lab : D → L).

  Lemma grouping_labels ds gs : grouping near ds gs →
    (∀ a b, a ∈ ds → b ∈ ds → near a b = true ↔ lab a = lab b) →
    ∃ ks, NoDup ks ∧ (∀ k, k ∈ ks ↔ ∃ d, d ∈ ds ∧ lab d = k) ∧
      Forall2 (λ k g, ∀ d, d ∈ g ↔ d ∈ ds ∧ lab d = k) ks gs.
  Proof.
    induction 1 as [|ds o gs H IH]; intros Hl.
    - exists []. split; [constructor|]. split; [|constructor].
      intros k. split; [by intros ?%elem_of_nil|]. intros (d & Hd & _). by apply elem_of_nil in Hd.
    - assert (Hno : ∀ d, d ∈ List.filter (λ d, negb (near o d)) ds ↔ d ∈ ds ∧ lab d ≠ lab o).
      { intros d. rewrite elem_of_list_In, filter_In, <- elem_of_list_In.
        split; intros [Hd E]; split; try done.
        - intros E'. symmetry in E'. apply Hl in E'; [|set_solver..]. by rewrite E' in E.
        - destruct (near o d) eqn:E'; [|done]. apply Hl in E'; [|set_solver..]. congruence. }
      destruct IH as (ks & Hn & Hk & Hf).
      { intros a b Ha Hb. apply Hl; rewrite elem_of_app; left; [by apply Hno in Ha as [? _]|by apply Hno in Hb as [? _]]. }
      exists (lab o :: ks). split; [|split].
      + constructor; [|done]. intros (d & Hd & E)%Hk. apply Hno in Hd as [_ Hd]. done.
      + intros k. rewrite elem_of_cons, Hk. split.
        * intros [->|(d & Hd & E)]; [exists o; set_solver|]. apply Hno in Hd as [Hd _]. exists d. set_solver.
        * intros (d & Hd & E). apply elem_of_app in Hd as [Hd| ->%elem_of_list_singleton]; [|by left].
          destruct (near o d) eqn:E'.
          -- left. apply Hl in E'; [|set_solver..]. congruence.
          -- right. exists d. split; [|done]. apply Hno. split; [done|]. intros E''.
             symmetry in E''. apply Hl in E''; [|set_solver..]. congruence.
      + constructor.
        * intros d. rewrite elem_of_cons, (elem_of_list_In (List.filter _ _)), filter_In, <- elem_of_list_In, elem_of_app, elem_of_list_singleton.
          split.
          -- intros [->|[Hd E]]; [by split; [right|]|]. split; [by left|]. symmetry. apply Hl; set_solver.
          -- intros [[Hd| ->] E]; [|by left]. right. split; [done|]. apply Hl; set_solver.
        * apply Forall2_same_length_lookup_2; [by eapply Forall2_length|]. intros i k g Hi Hg.
          pose proof (Forall2_lookup_lr _ _ _ _ _ _ Hf Hi Hg) as Hkg. cbn in Hkg.
          assert (Hne : k ≠ lab o).
          { apply elem_of_list_lookup_2, Hk in Hi as (d & Hd & <-). by apply Hno in Hd as [_ ?]. }
          intros d. rewrite Hkg, Hno, elem_of_app, elem_of_list_singleton. split; [intros [[? ?] ?]; by split; [left|]|].
          intros [[Hd| ->] E]; [|congruence]. repeat split; congruence.
  Qed.

End Labels.

Section None.
  Context {D : Type} (near : D → D → bool).
  (** Nothing is near anything. *)
  Lemma grouping_none ds gs : grouping near ds gs → (∀ a b, a ∈ ds → b ∈ ds → near a b = false) →
    gs = reverse ((λ d, [d]) <$> ds).
  Proof.
    induction 1 as [|ds o gs H IH]; intros Hn; [done|].
    assert (E : List.filter (λ d, negb (near o d)) ds = ds).
    { clear - Hn. assert (Hn' : ∀ b, b ∈ ds → near o b = false) by (intros b Hb; apply Hn; set_solver). clear Hn.
      induction ds as [|d ds IH]; cbn; [done|]. rewrite (Hn' d) by left. cbn. f_equal. apply IH.
      intros b Hb. apply Hn'. by right. }
    assert (E' : List.filter (near o) ds = []).
    { clear - Hn. assert (Hn' : ∀ b, b ∈ ds → near o b = false) by (intros b Hb; apply Hn; set_solver). clear Hn.
      induction ds as [|d ds IH]; cbn; [done|]. rewrite (Hn' d) by left. apply IH.
      intros b Hb. apply Hn'. by right. }
    rewrite E' , fmap_app, reverse_app. cbn. f_equal. rewrite E in IH. apply IH.
    intros a b Ha Hb. apply Hn; set_solver.
  Qed.
End None.

Section Clusters.
  Context {A : arith} {D M L : Type} (d_uuid : D → uuid) (fields : D → point A).
  Context (below : M → M → bool) (thr : M) (metric : point A → D → M) (lab : D → L).

  (** The cluster has the detections with label [k]. *)
  Definition has_label (ds : list D) (k : L) (c : cluster A D) : Prop :=
    ∀ u d, detections c !! u = Some d ↔ d ∈ ds ∧ d_uuid d = u ∧ lab d = k.

  Lemma loop_labels ds fuel cs : NoDup (d_uuid <$> ds) →
    (∀ a b, a ∈ ds → b ∈ ds → below (metric (fields a) b) thr = true ↔ lab a = lab b) →
    cluster_loop d_uuid fields below thr metric fuel ds = Some cs →
    ∃ ks, NoDup ks ∧ (∀ k, k ∈ ks ↔ ∃ d, d ∈ ds ∧ lab d = k) ∧ Forall2 (has_label ds) ks cs.
  Proof.
    intros Hn Hl H. apply loop_sound in H as (gs & Hg & ->).
    destruct (grouping_labels _ lab ds gs Hg Hl) as (ks & H1 & H2 & H3). exists ks. split; [done|]. split; [done|].
    apply Forall2_fmap_r. eapply Forall2_impl; [exact H3|]. intros k g Hk u d. cbn. split.
    - intros [Hd Hu]%build_in. apply Hk in Hd as [? ?]. by repeat split.
    - intros (Hd & <- & E). destruct (build_has d_uuid fields g d) as (e & He); [by apply Hk|].
      rewrite He. f_equal. apply build_in in He as [He Hu]. apply Hk in He as [He _].
      by eapply (nodup_fst_inj d_uuid).
  Qed.

  Lemma has_label_fun ds k c c' : has_label ds k c → has_label ds k c' → detections c = detections c'.
  Proof. intros H H'. apply map_eq. intros u. apply option_eq. intros d. by rewrite (H u d), (H' u d). Qed.

  Lemma labels_order ds ds' cs cs' ks ks' : ds ≡ₚ ds' → NoDup ks → NoDup ks' →
    (∀ k, k ∈ ks ↔ ∃ d, d ∈ ds ∧ lab d = k) → (∀ k, k ∈ ks' ↔ ∃ d, d ∈ ds' ∧ lab d = k) →
    Forall2 (has_label ds) ks cs → Forall2 (has_label ds') ks' cs' →
    (detections <$> cs) ≡ₚ (detections <$> cs').
  Proof.
    intros Hp Hn Hn' Hk Hk' Hf Hf'.
    assert (Hks : ks ≡ₚ ks').
    { apply NoDup_Permutation; [done..|]. intros k. rewrite Hk, Hk'. by setoid_rewrite Hp. }
    clear Hn Hn' Hk Hk'.
    assert (Hf2 : Forall2 (has_label ds) ks' cs').
    { eapply Forall2_impl; [exact Hf'|]. intros k c H u d. by rewrite (H u d), Hp. }
    destruct (Permutation_Forall2 Hks Hf) as (cs1 & -> & Hf1). clear - Hf1 Hf2.
    revert cs1 cs' Hf1 Hf2. induction ks' as [|k ks IH]; intros cs1 cs' Hf Hf'.
    - apply Forall2_nil_inv_l in Hf, Hf'. by subst.
    - apply Forall2_cons_inv_l in Hf as (c1 & l1 & Hc1 & Hf & ->), Hf' as (c2 & l2 & Hc2 & Hf' & ->).
      cbn. rewrite (has_label_fun ds k c1 c2) by done. f_equiv. by apply IH.
  Qed.

  Lemma loop_none ds fuel cs : (∀ a b, a ∈ ds → b ∈ ds → below (metric (fields a) b) thr = false) →
    cluster_loop d_uuid fields below thr metric fuel ds = Some cs →
    detections <$> cs = reverse ((λ d, {[d_uuid d := d]}) <$> ds).
  Proof.
    intros Hb H. apply loop_sound in H as (gs & Hg & ->). apply grouping_none in Hg; [|done]. subst gs.
    rewrite <- !fmap_reverse, <- !list_fmap_compose. apply list_fmap_ext. intros i d _. cbn. by rewrite lookup_empty.
  Qed.
End Clusters.

(** ** Distances *)
Section Balls.
  Local Open Scope R_scope.
  Definition five (a b c d e : R) : R := a * a + b * b + c * c + d * d + e * e.
  Lemma five_nonneg a b c d e : 0 <= five a b c d e.
  Proof. unfold five. nra. Qed.
  Lemma five_triangle a b c d e a' b' c' d' e' :
    sqrt (five (a + a') (b + b') (c + c') (d + d') (e + e')) <= sqrt (five a b c d e) + sqrt (five a' b' c' d' e').
  Proof.
    set (p := five a b c d e). set (q := five a' b' c' d' e').
    pose proof (five_nonneg a b c d e) as Hp. pose proof (five_nonneg a' b' c' d' e') as Hq. fold p in Hp. fold q in Hq.
    pose proof (sqrt_pos p) as Sp. pose proof (sqrt_pos q) as Sq.
    set (i := a * a' + b * b' + c * c' + d * d' + e * e').
    assert (Hi : i * i <= p * q).
    { assert (E : p * q - i * i =
        (a * b' - b * a')² + (a * c' - c * a')² + (a * d' - d * a')² + (a * e' - e * a')² + (b * c' - c * b')² +
        (b * d' - d * b')² + (b * e' - e * b')² + (c * d' - d * c')² + (c * e' - e * c')² + (d * e' - e * d')²).
      { unfold p, q, i, five, Rsqr. ring. }
      repeat match type of E with context [?x²] => pose proof (Rle_0_sqr x); generalize dependent (x²); intros end. lra. }
    assert (Hs : i <= sqrt p * sqrt q).
    { rewrite <- sqrt_mult by done. apply Rle_trans with (Rabs i); [apply Rle_abs|].
      rewrite <- sqrt_Rsqr_abs. apply sqrt_le_1; [apply Rle_0_sqr| |unfold Rsqr; exact Hi]. by apply Rmult_le_pos. }
    rewrite <- (sqrt_Rsqr (sqrt p + sqrt q)) by lra. apply sqrt_le_1; [apply five_nonneg|apply Rle_0_sqr|].
    replace (five _ _ _ _ _) with (p + q + 2 * i) by (unfold p, q, i, five; ring).
    pose proof (sqrt_sqrt p Hp). pose proof (sqrt_sqrt q Hq). unfold Rsqr. nra.
  Qed.

  Context {D : Type} (fields : D → point reals).
  Definition gap (p q : point reals) : R :=
    sqrt (five (p_x p - p_x q) (p_y p - p_y q) (p_vel p - p_vel q) (get_angle (p_yaw p) - get_angle (p_yaw q)) (p_rate p - p_rate q)).
  Lemma gap_triangle p q r : gap p r <= gap p q + gap q r.
  Proof.
    unfold gap. eapply Rle_trans; [|apply five_triangle]. right. do 2 f_equal; ring.
  Qed.
  Lemma gap_sym p q : gap p q = gap q p.
  Proof. unfold gap, five. f_equal. ring. Qed.
  Lemma gap_distance p d : squared_euclidean_distance (A := reals) fields p d = gap p (fields d) * gap p (fields d).
  Proof.
    unfold gap. rewrite sqrt_sqrt by apply five_nonneg. unfold squared_euclidean_distance, five.
    cbn [nadd nsub nmul n0 reals]. lra.
  Qed.
  Lemma gap_pos p q : 0 <= gap p q. Proof. apply sqrt_pos. Qed.

  Lemma balls_near {L} (lab : D → L) (centre : L → point reals) (r T : R) (ds : list D) : 0 <= T →
    2 * r < sqrt T →
    (∀ d, d ∈ ds → gap (centre (lab d)) (fields d) <= r) →
    (∀ a b, a ∈ ds → b ∈ ds → lab a ≠ lab b → sqrt T + 2 * r <= gap (centre (lab a)) (centre (lab b))) →
    (∀ a b, a ∈ ds → b ∈ ds → {lab a = lab b} + {lab a ≠ lab b}) →
    ∀ a b, a ∈ ds → b ∈ ds →
      nlt reals (squared_euclidean_distance (A := reals) fields (fields a) b) T = true ↔ lab a = lab b.
  Proof.
    intros HT Hr Hb Hs Hdec a b Ha Hb'. rewrite lt_true, gap_distance.
    pose proof (gap_pos (fields a) (fields b)). pose proof (sqrt_pos T). pose proof (sqrt_sqrt T HT).
    pose proof (Hb a Ha) as Ga. pose proof (Hb b Hb') as Gb. split.
    - intros Hlt. destruct (Hdec a b Ha Hb') as [?|n]; [done|]. exfalso. specialize (Hs a b Ha Hb' n).
      pose proof (gap_triangle (centre (lab a)) (fields a) (centre (lab b))).
      pose proof (gap_triangle (fields a) (fields b) (centre (lab b))).
      rewrite (gap_sym (fields b)) in *. assert (sqrt T <= gap (fields a) (fields b)) by lra. nra.
    - intros E. rewrite E in Ga. pose proof (gap_triangle (fields a) (centre (lab b)) (fields b)).
      rewrite (gap_sym (fields a) (centre (lab b))) in *. assert (gap (fields a) (fields b) < sqrt T) by lra. nra.
  Qed.
End Balls.
