(** The counter of a track as a function of its whole history of sightings. *)
From stdpp Require Import gmap strings.
From Coq Require Import NArith ZArith Lia ZifyN ZifyBool.
From Verif Require Import Base Uuid OrdMap OrdFacts DynObj TrackManager TrackManagerSpec
  TrackManagerProofs TrackManagerThms HistorySpec.
Local Open Scope Z_scope.

Lemma balance_app a b : balance (a ++ b) = balance a + balance b.
Proof. unfold balance. rewrite !List.filter_app, !app_length. lia. Qed.
Lemma balance_one b : balance [b] = if b then 1 else -1.
Proof. destruct b; done. Qed.
Lemma balance_cons b l : balance (b :: l) = (if b then 1 else -1) + balance l.
Proof. change (b :: l) with ([b] ++ l). rewrite balance_app, balance_one. done. Qed.
Lemma balance_nil : balance [] = 0.
Proof. done. Qed.
Lemma balance_le l : balance l ≤ Z.of_nat (length l).
Proof. induction l as [|b l IH]; [done|]. rewrite balance_cons. cbn [length]. destruct b; lia. Qed.

(** A list ending in [b], split at a sighting. *)
Lemma split_snoc bs (b : bool) before after :
  bs ++ [b] = before ++ true :: after →
  (after = [] ∧ before = bs ∧ b = true) ∨ ∃ after', after = after' ++ [b] ∧ bs = before ++ true :: after'.
Proof.
  intros E. destruct after as [|x after _] using rev_ind.
  - apply app_inj_tail in E as [-> ->]. auto.
  - right. exists after. change (before ++ true :: after ++ [x]) with (before ++ (true :: after) ++ [x]) in E.
    rewrite (assoc_L (++)) in E. apply app_inj_tail in E as [-> ->]. done.
Qed.
Lemma prefix_snoc bs (b : bool) start rest :
  bs ++ [b] = start ++ rest → (rest = [] ∧ start = bs ++ [b]) ∨ ∃ rest', rest = rest' ++ [b] ∧ bs = start ++ rest'.
Proof.
  intros E. destruct rest as [|x rest _] using rev_ind.
  - rewrite app_nil_r in E. auto.
  - right. exists rest. rewrite (assoc_L (++)) in E. apply app_inj_tail in E as [-> ->]. done.
Qed.

Section Level.
  Context (p r c : Z).

  Lemma level_nil : is_level p c [] c.
  Proof.
    split; [rewrite balance_nil; lia|]. split; [|left; rewrite balance_nil; lia].
    intros [] after; discriminate.
  Qed.
  Lemma level_snoc bs n b :
    is_level p c bs n → is_level p c (bs ++ [b]) (if b then Z.min (n + 1) p else n - 1).
  Proof.
    intros (H1 & H2 & H3). split; [|split].
    - rewrite balance_app, balance_one. destruct b; lia.
    - intros before after E. apply split_snoc in E as [(-> & -> & ->)|(after' & -> & E)].
      + rewrite balance_nil. lia.
      + specialize (H2 _ _ E). rewrite balance_app, balance_one. destruct b; lia.
    - assert (∀ m, m = n + (if b then 1 else -1) →
        m = c + balance (bs ++ [b]) ∨
        (∃ before after, bs ++ [b] = before ++ true :: after ∧ m = p + balance after)) as Hn.
      { intros m ->. destruct H3 as [->|(before & after & -> & ->)].
        - left. rewrite balance_app, balance_one. lia.
        - right. exists before, (after ++ [b]). split; [rewrite <- (assoc_L (++)); done|].
          rewrite balance_app, balance_one. lia. }
      destruct b; [|apply Hn; lia].
      destruct (Z.min_spec (n + 1) p) as [[? ->]|[? ->]]; [apply Hn; lia|].
      right. exists bs, []. rewrite balance_nil. split; [done|lia].
  Qed.

  Lemma above_nil : stays_above p r c [].
  Proof.
    split.
    - intros [|x start] rest E Hs; [done|discriminate E].
    - intros [|x before] w rest E; discriminate E.
  Qed.
  Lemma above_snoc bs b n :
    is_level p c (bs ++ [b]) n →
    (stays_above p r c (bs ++ [b]) ↔ stays_above p r c bs ∧ r < n).
  Proof.
    intros (H1 & H2 & H3). split.
    - intros [A1 A2]. split.
      + split.
        * intros start rest -> Hs. apply (A1 start (rest ++ [b])); [|done]. rewrite (assoc_L (++)). done.
        * intros before w rest ->. apply (A2 before w (rest ++ [b])).
          rewrite <- (assoc_L (++)). cbn. rewrite <- (assoc_L (++)). done.
      + destruct H3 as [->|(before & after & E & ->)].
        * apply (A1 _ []); [rewrite app_nil_r; done|]. intros E; apply app_eq_nil in E as [_ E]; discriminate.
        * apply (A2 before after []). rewrite app_nil_r. done.
    - intros [[A1 A2] Hn]. split.
      + intros start rest E Hs. apply prefix_snoc in E as [[-> ->]|(rest' & -> & E)]; [lia|].
        apply (A1 _ rest'); done.
      + intros before w rest E. destruct rest as [|x rest _] using rev_ind.
        * rewrite app_nil_r in E. specialize (H2 _ _ E). lia.
        * rewrite (assoc_L (++)) in E. apply split_snoc in E as [(E & _ & _)|(a & E & E')].
          { apply app_eq_nil in E as [_ E]; discriminate. }
          apply app_inj_tail in E as [<- _]. apply (A2 _ _ _ E').
  Qed.

  Lemma reaches_nil : ¬ reaches p c [].
  Proof. intros ([|x start] & rest & E & Hs & _); [done|discriminate E]. Qed.
  Lemma reaches_snoc bs b n :
    is_level p c (bs ++ [b]) n → (reaches p c (bs ++ [b]) ↔ reaches p c bs ∨ p ≤ n).
  Proof.
    intros (H1 & H2 & H3).
    assert (bs ++ [b] ≠ []) as Hne. { intros E; apply app_eq_nil in E as [_ E]; discriminate. }
    split.
    - intros (start & rest & E & Hs & Hp). apply prefix_snoc in E as [[-> ->]|(rest' & -> & E)].
      + destruct H3 as [->|(before & after & E & ->)]; [auto|].
        destruct (decide (0 ≤ balance after)); [right; lia|left].
        pose proof E as E0. apply split_snoc in E as [(-> & _ & _)|(a & -> & E)].
        { rewrite balance_nil in *. lia. }
        exists (before ++ [true]), a. split; [rewrite <- (assoc_L (++)); done|].
        split; [intros E'; apply app_eq_nil in E' as [_ E']; discriminate|].
        rewrite E0 in Hp. rewrite balance_app, balance_cons in Hp. rewrite balance_app, balance_one. lia.
      + left. exists start, rest'. done.
    - intros [(start & rest & -> & Hs & Hp)|Hp].
      + exists start, (rest ++ [b]). rewrite (assoc_L (++)). done.
      + exists (bs ++ [b]), []. rewrite app_nil_r. split; [done|]. split; [done|]. lia.
  Qed.
End Level.

Section History.
  Context {tt : track_type} (L : lawful tt).
  Implicit Types s : mgr tt.

  Lemma history_fold p r (e : entry tt) bs :
    (1 ≤ e_count e)%N → (e_count e + N.of_nat (length bs) < size_mod)%N →
    ∃ o, foldl pstep (p, r, Some e) (PSeen <$> bs) = (p, r, o) ∧
      (is_Some o ↔ stays_above (Z.of_N p) (Z.of_N r) (Z.of_N (e_count e)) bs) ∧
      ∀ e', o = Some e' →
        e_track e' = e_track e ∧
        (1 ≤ e_count e')%N ∧
        is_level (Z.of_N p) (Z.of_N (e_count e)) bs (Z.of_N (e_count e')) ∧
        (e_status e' = Confirmed ↔
           e_status e = Confirmed ∨ reaches (Z.of_N p) (Z.of_N (e_count e)) bs).
  Proof.
    intros H1. induction bs as [|b bs IH] using rev_ind; intros Hb.
    - exists (Some e). split; [done|]. split.
      + split; [intros _; apply above_nil|eauto].
      + intros e' [= <-]. split; [done|]. split; [done|]. split; [apply level_nil|].
        split; [auto|]. intros [?|H]; [done|]. apply reaches_nil in H. done.
    - rewrite app_length in Hb. change (length [b]) with 1%nat in Hb.
      destruct IH as (o & Hf & Ha & He); [lia|].
      rewrite fmap_app, foldl_app, Hf. cbn [fmap list_fmap foldl pstep].
      eexists. split; [reflexivity|].
      destruct o as [e1|]; cbn [mbind option_bind].
      + destruct (He e1 eq_refl) as (Ht & Hc1 & Hl & Hs).
        pose proof Hl as (Hle & _ & _). pose proof (balance_le bs) as Hbl.
        rewrite update_entry_small by lia.
        unfold update_entry. set (n := next_count p b (e_count e1)).
        assert (is_level (Z.of_N p) (Z.of_N (e_count e)) (bs ++ [b]) (Z.of_N n)) as Hl'.
        { replace (Z.of_N n) with (if b then Z.min (Z.of_N (e_count e1) + 1) (Z.of_N p) else Z.of_N (e_count e1) - 1).
          - apply level_snoc. done.
          - subst n. unfold next_count. destruct b; lia. }
        pose proof (above_snoc (Z.of_N p) (Z.of_N r) _ _ _ _ Hl') as Hab.
        pose proof (reaches_snoc (Z.of_N p) _ _ _ _ Hl') as Hre.
        destruct (decide (n ≤ r)%N) as [Hn|Hn].
        * split; [|done]. split; [intros []; done|]. intros Hx. apply Hab in Hx as [_ Hx]. lia.
        * split.
          -- split; [|eauto]. intros _. apply Hab. split; [apply Ha; eauto|lia].
          -- intros e' [= <-]. cbn [e_track e_count e_status]. split; [done|]. split; [lia|]. split; [done|].
             rewrite Hre. destruct (decide (p ≤ n)%N) as [Hp|Hp].
             ++ split; [intros _; right; right; lia|done].
             ++ rewrite Hs. split; [tauto|]. intros [|[|]]; [tauto|tauto|lia].
      + split; [|done]. split; [intros []; done|]. intros Hx. exfalso.
        assert (is_Some (@None (entry tt))) as []; [|done]. apply Ha.
        destruct Hx as [A1 A2]. split.
        * intros start rest -> Hst. apply (A1 start (rest ++ [b])); [|done]. rewrite (assoc_L (++)). done.
        * intros before w rest ->. apply (A2 before w (rest ++ [b])).
          rewrite <- (assoc_L (++)). cbn. rewrite <- (assoc_L (++)). done.
  Qed.

  Lemma history_thm s h s' u (e : entry tt) bs :
    reachable tt s → view s u = Some e → run tt s h s' →
    project u h = PSeen <$> bs → (e_count e + N.of_nat (length bs) < 2 ^ 64)%N →
    (is_Some (view s' u) ↔
       stays_above (Z.of_N (m_promo s)) (Z.of_N (m_removal s)) (Z.of_N (e_count e)) bs) ∧
    ∀ e', view s' u = Some e' →
      e_track e' = e_track e ∧
      is_level (Z.of_N (m_promo s)) (Z.of_N (e_count e)) bs (Z.of_N (e_count e')) ∧
      (e_status e' = Confirmed ↔
         e_status e = Confirmed ∨ reaches (Z.of_N (m_promo s)) (Z.of_N (e_count e)) bs).
  Proof.
    intros Hr Hv Hrun Hproj Hb. apply (reachable_inv L) in Hr as Hi.
    destruct (inv_view s u e Hi Hv) as (_ & H1 & _).
    destruct (run_inv L s h s' Hi Hrun) as [_ Hv2]. specialize (Hv2 u).
    rewrite Hv, Hproj in Hv2.
    destruct (history_fold (m_promo s) (m_removal s) e bs) as (o & Hf & Ha & He); [done|done|].
    rewrite Hf in Hv2. injection Hv2 as _ _ ->. split; [done|].
    intros e' Ho. destruct (He e' Ho) as (? & ? & ? & ?). done.
  Qed.

  Lemma flicker_fold p r (e : entry tt) k :
    (r < e_count e)%N → (e_count e + 1 < p)%N → (e_count e + 1 < size_mod)%N →
    foldl pstep (p, r, Some e) (concat (replicate k [PSeen true; PSeen false])) = (p, r, Some e).
  Proof.
    intros Hr Hp Hb. induction k as [|k IH]; [done|].
    cbn [replicate concat app foldl pstep mbind option_bind].
    rewrite update_entry_small by lia. unfold update_entry at 1, next_count at 1.
    rewrite decide_False by (unfold next_count; lia). cbn [mbind option_bind].
    unfold update_entry_wrap. cbn [e_count e_track e_status].
    unfold next_count. rewrite N.min_l by lia. rewrite size_decr_pos by lia.
    replace (e_count e + 1 - 1)%N with (e_count e) by lia.
    rewrite decide_False by lia. rewrite decide_False by lia. rewrite decide_False by lia.
    replace (Entry (e_track e) (e_status e) (e_count e)) with e by (destruct e; done). done.
  Qed.
  Lemma flicker_thm s h s' u (e : entry tt) k :
    reachable tt s → view s u = Some e → run tt s h s' →
    project u h = concat (replicate k [PSeen true; PSeen false]) →
    (m_removal s < e_count e)%N → (e_count e + 1 < m_promo s)%N →
    view s' u = Some e.
  Proof.
    intros Hi Hv Hrun Hproj H1 H2. apply (reachable_inv L) in Hi.
    destruct (run_inv L s h s' Hi Hrun) as [_ Hv2]. specialize (Hv2 u).
    assert (m_promo s < size_mod)%N by apply Hi.
    rewrite Hv, Hproj, flicker_fold in Hv2 by lia. injection Hv2 as _ _ ->. done.
  Qed.

  Definition sets_threshold (c : call tt) : bool :=
    match c with SetPromotion _ | SetRemoval _ => true | _ => false end.
  Lemma stuck_update p r b (e : entry tt) : (2 ≤ r)%N → e_count e = 1%N → update_entry_wrap p r b e = None.
  Proof.
    intros Hr He. unfold update_entry_wrap. rewrite He.
    assert ((if b then N.min (size_incr 1) p else size_decr 1) ≤ r)%N as H.
    { change (size_incr 1) with 2%N. change (size_decr 1) with 0%N. destruct b; lia. }
    by rewrite decide_True.
  Qed.
  Lemma stuck_fold p r u h : (2 ≤ r)%N → (∀ c, c ∈ h → sets_threshold c = false) →
    ∃ o : option (entry tt), foldl pstep (p, r, None) (project u h) = (p, r, o) ∧
      ∀ e, o = Some e → e_status e = Tentative ∧ e_count e = 1%N.
  Proof.
    intros Hr. induction h as [|c h IH] using rev_ind; intros Hc.
    - exists None. done.
    - destruct IH as (o & E & Ho); [intros c' H; apply Hc, elem_of_app; by left|].
      unfold project. rewrite bind_app, foldl_app. fold (project u h). rewrite E. clear E.
      assert (sets_threshold c = false) as Hs by (apply Hc, elem_of_app; right; by apply elem_of_list_singleton).
      change ([c] ≫= project1 u) with (project1 u c ++ []). rewrite app_nil_r.
      destruct c as [t|a|p'|r'|id arg|id t]; cbn [project1] in *; try done.
      + case_decide as Hd; cbn [foldl pstep]; eexists; (split; [reflexivity|]); [|done].
        destruct o as [e|]; [done|]. intros e [= <-]. done.
      + cbn [foldl pstep]. eexists; split; [reflexivity|]. destruct o as [e|]; [|done]. cbn [mbind option_bind].
        destruct (Ho e eq_refl) as [_ He]. rewrite (stuck_update p r _ e Hr He). done.
      + case_decide as Hd; cbn [foldl pstep]; eexists; (split; [reflexivity|]); [|done].
        destruct o as [e|]; [|done]. intros e' [= <-]. exact (Ho e eq_refl).
      + case_decide as Hd; cbn [foldl pstep]; eexists; (split; [reflexivity|]); [|done].
        destruct o as [e|]; [|done]. intros e' [= <-]. exact (Ho e eq_refl).
  Qed.
  Lemma stuck_thm p r h s :
    reached tt p r h s → (2 ≤ r)%N → (∀ c, c ∈ h → sets_threshold c = false) →
    (∀ u e, view s u = Some e → e_status e = Tentative ∧ e_count e = 1%N) ∧
    (∀ a ord, om_wf bytes_compare a → order_of ord (m_occ s) →
       ∃ s', update_track_lists tt ord a s = (s', Ok ()) ∧ ∀ u, view s' u = None).
  Proof.
    intros H Hr Hc.
    assert (∀ u, m_promo s = p ∧ m_removal s = r ∧ ∀ e, view s u = Some e → e_status e = Tentative ∧ e_count e = 1%N) as V.
    { intros u. pose proof (reached_view L p r h s u H) as E. destruct (stuck_fold p r u h Hr Hc) as (o & E' & Ho).
      rewrite E' in E. injection E as -> -> ->. done. }
    split; [intros u; apply V|]. intros a ord W O.
    destruct (update_lists_view ord a s (reached_inv L _ _ _ _ H) W O) as (s' & E & _ & _ & _ & Hv).
    exists s'. split; [done|]. intros u. rewrite Hv. destruct (V u) as (-> & -> & Hu).
    destruct (view s u) as [e|]; [|done]. cbn. destruct (Hu e eq_refl) as [_ He]. by rewrite (stuck_update p r _ e Hr He).
  Qed.
End History.
