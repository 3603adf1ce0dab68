(** Theorems about the track manager, in the form used by the property files. *)
From stdpp Require Import gmap strings.
From Coq Require Import NArith ZArith Lia ZifyN ZifyBool.
From Verif Require Import Base Uuid OrdMap OrdFacts DynObj TrackManager TrackManagerSpec
  TrackManagerProofs.

Section Thms.
  Context {tt : track_type} (L : lawful tt).
  Implicit Types s : mgr tt.

  Lemma some_order {A} (m : gmap uuid A) : order_of (map_to_list m).*1 m.
  Proof.
    split; [apply NoDup_fst_map_to_list|]. intros u. rewrite elem_of_list_fmap. split.
    - intros ([v x] & -> & Hx). apply elem_of_map_to_list in Hx. cbn. eauto.
    - intros [x Hx]. exists (u, x). split; [done|]. by apply elem_of_map_to_list.
  Qed.

  Lemma no_undefined ord c s :
    reachable tt s → valid_call tt c → valid_order tt ord c s →
    snd (step tt ord c s) ≠ UB ∧
    (match c with UpdateLists _ | SetPromotion _ | SetRemoval _ => True | _ => False end →
     snd (step tt ord c s) = Ok ()).
  Proof.
    intros Hre Hc Ho. apply (reachable_inv L) in Hre as Hi.
    assert (∀ fs t, keeps_uuid (tt:=tt) fs → snd (run_steps tt fs t) ≠ UB) as Hrun.
    { clear -L. intros fs. induction fs as [|f fs IH]; intros t Hk; cbn; [done|].
      pose proof (Hk f t) as Hf. feed specialize Hf; [apply elem_of_cons; auto|].
      destruct (f t); [|done|done]. apply IH. intros g x Hg. apply Hk. apply elem_of_cons; auto. }
    destruct c as [t|a|p|r|id arg|id t]; cbn [step].
    - pose proof (add_view t s Hi) as H. destruct (view s (tt_uuid t)).
      + rewrite H. done.
      + destruct H as (s' & -> & _). done.
    - destruct (update_lists_view ord a s Hi Hc Ho) as (s' & -> & _). done.
    - destruct (set_promotion_view ord p s Hi Hc Ho) as (s' & -> & _). done.
    - destruct (set_removal_view ord r s Hi Hc Ho) as (s' & -> & _). done.
    - split; [|done]. pose proof (modify_view id (tt_set arg) s Hi (proj1 L arg)) as H.
      unfold update_track_fields. destruct (view s id).
      + destruct H as (s' & -> & _). cbn. apply Hrun. apply (proj1 L).
      + rewrite H. done.
    - split; [|done]. pose proof (modify_view id (tt_copy t) s Hi (proj2 L t)) as H.
      unfold update_track_from. destruct (view s id).
      + destruct H as (s' & -> & _). cbn. apply Hrun. apply (proj2 L).
      + rewrite H. done.
  Qed.

  Lemma partition s ord :
    reachable tt s → order_of ord (m_tracks s) →
    ∃ la lt lc, get_all_tracks tt ord s = Ok la ∧ get_tentative_tracks tt ord s = Ok lt ∧
      get_confirmed_tracks tt ord s = Ok lc ∧ Permutation la (lt ++ lc) ∧ NoDup (tt_uuid <$> la).
  Proof.
    intros Hr Ho. apply (reachable_inv L) in Hr.
    destruct (getters_partition ord s Hr Ho) as (la & lt & lc & H1 & H2 & H3 & H4 & H5 & _).
    exists la, lt, lc. done.
  Qed.

  Lemma listed_status want s t :
    inv s → (listed (collect tt want) s t ↔ ∃ n, view s (tt_uuid t) = Some (Entry t want n)).
  Proof.
    intros Hi. split.
    - intros (ord & l & Ho & Hl & Ht). destruct (collect_ok want ord s Hi Ho) as (l' & Hl' & Hin).
      rewrite Hl in Hl'. injection Hl' as <-. apply Hin in Ht as (u & n & Hu & Hv).
      pose proof (inv_view s u _ Hi Hv) as [Hu' _]. cbn in Hu'. subst u. eauto.
    - intros [n Hv]. pose proof (some_order (m_tracks s)) as Ho.
      destruct (collect_ok want _ s Hi Ho) as (l & Hl & Hin).
      eexists _, l. split; [exact Ho|]. split; [done|]. apply Hin. exists (tt_uuid t), n.
      split; [|done]. apply Ho. rewrite (inv_tracks _ _ Hi), Hv. done.
  Qed.

  Lemma listed_all s t :
    inv s → (listed (get_all_tracks tt) s t ↔ ∃ st n, view s (tt_uuid t) = Some (Entry t st n)).
  Proof.
    intros Hi. split.
    - intros (ord & l & Ho & Hl & Ht).
      destruct (getters_partition ord s Hi Ho) as (la & lt & lc & H1 & H2 & H3 & HP & _).
      rewrite Hl in H1. injection H1 as <-. rewrite HP, elem_of_app in Ht.
      destruct Ht as [Ht|Ht].
      + exists Tentative. apply (listed_status Tentative s t Hi). eexists _, _. done.
      + exists Confirmed. apply (listed_status Confirmed s t Hi). eexists _, _. done.
    - intros (st & n & Hv). pose proof (some_order (m_tracks s)) as Ho.
      assert (listed (collect tt st) s t) as (ord & l & Hor & Hl & Ht) by (apply listed_status; eauto).
      destruct (getters_partition ord s Hi Hor) as (la & lt & lc & H1 & H2 & H3 & HP & _).
      exists ord, la. split; [done|]. split; [done|]. rewrite HP, elem_of_app.
      unfold get_tentative_tracks, get_confirmed_tracks in *.
      destruct st; [right; congruence|left; congruence].
  Qed.

  Lemma view_observable s :
    reachable tt s →
    (∀ t, listed (get_all_tracks tt) s t ↔ ∃ st n, view s (tt_uuid t) = Some (Entry t st n)) ∧
    (∀ t, listed (get_confirmed_tracks tt) s t ↔ ∃ n, view s (tt_uuid t) = Some (Entry t Confirmed n)) ∧
    (∀ t, listed (get_tentative_tracks tt) s t ↔ ∃ n, view s (tt_uuid t) = Some (Entry t Tentative n)) ∧
    (∀ u, match view s u with
          | None => get_occurrences tt s u = 0%Z
          | Some e => (- 2 ^ 31 ≤ get_occurrences tt s u < 2 ^ 31)%Z ∧
              ∃ k, (get_occurrences tt s u = Z.of_N (e_count e) + k * 2 ^ 32)%Z
          end) ∧
    (∀ u e, view s u = Some e → tt_uuid (e_track e) = u).
  Proof.
    intros Hr. apply (reachable_inv L) in Hr as Hi.
    split; [intros t; apply (listed_all s t Hi)|].
    split; [intros t; apply (listed_status Confirmed s t Hi)|].
    split; [intros t; apply (listed_status Tentative s t Hi)|].
    split.
    - intros u. unfold get_occurrences. rewrite (inv_occ _ _ Hi). destruct (view s u) as [e|]; [|done]. cbn.
      unfold size_to_int. set (x := Z.of_N (e_count e)).
      pose proof (Z.mod_pos_bound x (2 ^ 32) ltac:(lia)) as Hb. pose proof (Z.div_mod x (2 ^ 32) ltac:(lia)) as Hd.
      destruct (Z.ltb_spec (x mod 2 ^ 32) (2 ^ 31)); (split; [lia|]); [exists (- (x / 2 ^ 32))%Z|exists (- (x / 2 ^ 32) - 1)%Z]; lia.
    - intros u e He. apply (inv_view s u e Hi He).
  Qed.

  Lemma add_thm s t :
    reachable tt s →
    match view s (tt_uuid t) with
    | Some _ => add_tentative_track tt t s = (s, Throw logic_error)
    | None => ∃ s', add_tentative_track tt t s = (s', Ok ()) ∧
        view s' (tt_uuid t) = Some (Entry t Tentative 1) ∧
        (∀ u, u ≠ tt_uuid t → view s' u = view s u) ∧
        m_promo s' = m_promo s ∧ m_removal s' = m_removal s
    end.
  Proof.
    intros Hr. apply (reachable_inv L) in Hr as Hi.
    pose proof (add_view t s Hi) as H. destruct (view s (tt_uuid t)); [done|].
    destruct H as (s' & H1 & _ & H2 & H3 & H4 & H5). exists s'. done.
  Qed.

  Lemma update_thm s ord a :
    reachable tt s → om_wf bytes_compare a → order_of ord (m_occ s) →
    ∃ s', update_track_lists tt ord a s = (s', Ok ()) ∧
      m_promo s' = m_promo s ∧ m_removal s' = m_removal s ∧
      ∀ u, match view s u with
           | None => view s' u = None
           | Some e =>
               (e_count e < 2 ^ 64 - 1)%N →
               ∀ n, n = (if decide (u ∈ a.*1) then N.min (e_count e + 1) (m_promo s) else e_count e - 1)%N →
               ((n ≤ m_removal s)%N → view s' u = None) ∧
               ((m_removal s < n)%N →
                  view s' u = Some (Entry (e_track e)
                                      (if decide (m_promo s ≤ n)%N then Confirmed else e_status e) n))
           end.
  Proof.
    intros Hr Ha Ho. apply (reachable_inv L) in Hr as Hi.
    destruct (update_lists_view ord a s Hi Ha Ho) as (s' & HE & _ & Hp & Hrm & Hv).
    exists s'. split; [done|]. split; [done|]. split; [done|]. intros u. rewrite Hv.
    destruct (view s u) as [e|] eqn:He; [|done]. intros Hb n Hn.
    pose proof (inv_view s u e Hi He) as [_ Hc]. cbn.
    rewrite update_entry_small; [|lia|]; cycle 1.
    { change size_mod with (2 ^ 64)%N. lia. }
    unfold update_entry, next_count.
    assert ((if bool_decide (seen a u) then N.min (e_count e + 1) (m_promo s) else e_count e - 1)%N = n) as ->.
    { subst n. unfold seen. destruct (decide (u ∈ a.*1)).
      - rewrite bool_decide_true by done. done.
      - rewrite bool_decide_false by done. done. }
    split; intros Hle.
    - rewrite decide_True by done. done.
    - rewrite decide_False by lia. done.
  Qed.

  Lemma counter_thm p r h s u e :
    reached tt p r h s → view s u = Some e →
    (1 ≤ e_count e)%N ∧ size_decr (e_count e) = (e_count e - 1)%N ∧
    ((updates h < 2 ^ 64 - 2)%N → size_incr (e_count e) = (e_count e + 1)%N).
  Proof.
    intros Hr He. pose proof (reached_inv L _ _ _ _ Hr) as Hi.
    pose proof (inv_view s u e Hi He) as [_ Hc]. split; [lia|]. split; [apply size_decr_pos; lia|].
    intros Hb. assert (size_mod = 2 ^ 64)%N as Hm by done.
    pose proof (count_bound L p r h s u e Hr) as Hcb. feed specialize Hcb; [lia|done|].
    apply size_incr_small. lia.
  Qed.

  Definition no_promotion_change (c : call tt) : Prop :=
    match c with SetPromotion _ => False | _ => True end.
  Definition not_adding (u : uuid) (c : call tt) : Prop :=
    match c with Add t => tt_uuid t ≠ u | _ => True end.

  Lemma never_demoted s h s' u e :
    reachable tt s → run tt s h s' → Forall no_promotion_change h → Forall (not_adding u) h →
    view s u = Some e → e_status e = Confirmed →
    match view s' u with Some e' => e_status e' = Confirmed | None => True end.
  Proof.
    intros Hr Hrun Hnp Hna He Hst. apply (reachable_inv L) in Hr as Hi.
    destruct (run_inv L s h s' Hi Hrun) as [_ Hv]. specialize (Hv u).
    assert (∀ p r o, match o with Some e => e_status e = Confirmed | None => True end →
      match (foldl pstep (p, r, o) (project u h)).2 with
      | Some e => e_status e = Confirmed | None => True end) as Hgen.
    { clear Hrun He Hst Hv e. induction h as [|c h IH]; [done|].
      apply Forall_cons in Hnp as [Hc Hnp], Hna as [Hc' Hna]. intros p r o Ho.
      unfold project; cbn [mbind list_bind]. rewrite foldl_app. fold (project u h).
      destruct c as [t|a|p'|r'|id arg|id t]; cbn [project1 foldl] in *.
      - rewrite decide_False by done. cbn. apply IH; done.
      - cbn. apply IH; [done|done|]. destruct o as [e|]; cbn; [|done].
        unfold update_entry_wrap. destruct (decide _); [done|]. cbn.
        destruct (decide _); done.
      - done.
      - cbn. apply IH; [done|done|]. destruct o as [e|]; cbn; [|done].
        unfold keep_above. destruct (decide _); done.
      - destruct (decide _); cbn; apply IH; try done. destruct o; done.
      - destruct (decide _); cbn; apply IH; try done. destruct o; done. }
    specialize (Hgen (m_promo s) (m_removal s) (view s u)). rewrite He in Hgen.
    feed specialize Hgen; [done|].
    rewrite He in Hv. rewrite <- Hv in Hgen. done.
  Qed.

  (** *** Latencies *)
  Lemma seen_run k p r (e : entry tt) :
    (r < 2)%N → (r < p)%N → (e_count e = 1)%N → (N.of_nat k + 1 < size_mod)%N →
    foldl pstep (p, r, Some e) (replicate k (PSeen true)) =
    (p, r, Some (Entry (e_track e)
       (if decide (k = 0) then e_status e
        else if decide (p ≤ N.of_nat k + 1)%N then Confirmed else e_status e)
       (if decide (k = 0) then 1%N else N.min (N.of_nat k + 1) p))).
  Proof.
    intros Hr2 Hrp He. induction k as [|k IH]; intros Hb.
    - cbn. do 2 f_equal. destruct e; cbn in *; subst; done.
    - rewrite replicate_S_end, foldl_app, IH by lia. cbn [foldl pstep mbind option_bind].
      rewrite update_entry_small; cbn [e_count e_track e_status].
      2:{ destruct (decide (k = 0)); lia. }
      2:{ destruct (decide (k = 0)); lia. }
      unfold update_entry, next_count; cbn [e_count e_track e_status].
      assert (N.min ((if decide (k = 0)%nat then 1 else N.min (N.of_nat k + 1) p) + 1) p
              = N.min (N.of_nat (S k) + 1) p)%N as ->.
      { destruct (decide (k = 0)); lia. }
      rewrite decide_False by lia. rewrite !(decide_False (P := S k = 0)) by done.
      do 3 f_equal. destruct (decide (p ≤ N.of_nat (S k) + 1)%N).
      + rewrite decide_True by lia. done.
      + rewrite decide_False by lia. destruct (decide (k = 0)); [done|].
        rewrite decide_False by lia. done.
  Qed.

  Lemma promotion_latency s t s1 h s2 k :
    reachable tt s → view s (tt_uuid t) = None → add_tentative_track tt t s = (s1, Ok ()) →
    (m_removal s < 2)%N → (m_removal s < m_promo s)%N →
    run tt s1 h s2 → project (tt_uuid t) h = replicate k (PSeen true) →
    (N.of_nat k + 1 < 2 ^ 64)%N →
    ∃ st n, view s2 (tt_uuid t) = Some (Entry t st n) ∧
      n = (if decide (k = 0)%nat then 1 else N.min (N.of_nat k + 1) (m_promo s))%N ∧
      (st = Confirmed ↔ 1 ≤ k ∧ (m_promo s ≤ N.of_nat k + 1)%N).
  Proof.
    intros Hr Hn Hadd Hr2 Hrp Hrun Hproj Hb. apply (reachable_inv L) in Hr as Hi.
    pose proof (add_view t s Hi) as H. rewrite Hn in H.
    destruct H as (s1' & Hadd' & Hi1 & Hp & Hrm & Hv & _). rewrite Hadd in Hadd'.
    injection Hadd' as <-.
    destruct (run_inv L s1 h s2 Hi1 Hrun) as [_ Hv2]. specialize (Hv2 (tt_uuid t)).
    rewrite Hproj, Hv, Hp, Hrm, seen_run in Hv2 by done. injection Hv2 as _ _ Hv2.
    eexists _, _. split; [exact Hv2|]. split; [done|].
    cbn. destruct (decide (k = 0)); [split; [done|lia]|].
    destruct (decide _); split; intros; try done; lia.
  Qed.

  Lemma missed_run k p r (e : entry tt) :
    (k ≤ e_count e)%N → (e_count e < size_mod)%N → (1 ≤ e_count e)%N →
    ∀ x, foldl pstep (p, r, Some e) (replicate (N.to_nat k) (PSeen false)) = x →
    x.1 = (p, r) ∧
    if decide (k = 0 ∨ r < e_count e - k)%N then
      ∃ st, x.2 = Some (Entry (e_track e) st (e_count e - k)%N) ∧
            (e_status e = Confirmed → st = Confirmed) ∧
            (st = Confirmed → e_status e = Confirmed ∨ (1 ≤ k ∧ p < e_count e)%N)
    else x.2 = None.
  Proof.
    intros Hk Hlt H1 x <-. revert Hk. induction k as [|k IH] using N.peano_ind; intros Hk.
    - cbn. split; [done|]. exists (e_status e). rewrite N.sub_0_r. destruct e; cbn. tauto.
    - rewrite N2Nat.inj_succ, replicate_S_end, foldl_app.
      specialize (IH ltac:(lia)).
      destruct (foldl pstep (p, r, Some e) (replicate (N.to_nat k) (PSeen false))) as [[p0 r0] o].
      destruct IH as [[= -> ->] IH]. cbn in IH. cbn [foldl pstep fst snd]. split; [done|].
      destruct (decide (k = 0 ∨ r < e_count e - k)%N) as [Hd|Hd].
      + destruct IH as (st & -> & Hs1 & Hs2). cbn [mbind option_bind].
        unfold update_entry_wrap; cbn [e_count e_track e_status].
        rewrite size_decr_pos by lia.
        destruct (decide (N.succ k = 0 ∨ r < e_count e - N.succ k)%N) as [Hd'|Hd'].
        * rewrite decide_False by lia. eexists. split.
          { do 2 f_equal. lia. }
          destruct (decide (p ≤ e_count e - k - 1)%N); split.
          -- done.
          -- intros _. right. lia.
          -- done.
          -- intros Hst. destruct (Hs2 Hst) as [?|?]; [left; done|right; lia].
        * rewrite decide_True by lia. done.
      + rewrite IH. cbn. rewrite decide_False by lia. done.
  Qed.

  Lemma none_missed p r n : foldl (pstep (tt:=tt)) (p, r, None) (replicate n (PSeen false)) = (p, r, None).
  Proof. induction n as [|n IH]; [done|]. cbn. apply IH. Qed.

  Lemma removal_latency s h s' u e k :
    reachable tt s → view s u = Some e →
    run tt s h s' → project u h = replicate (N.to_nat k) (PSeen false) →
    if decide (k = 0 ∨ m_removal s + k < e_count e)%N then
      ∃ st, view s' u = Some (Entry (e_track e) st (e_count e - k)%N) ∧
            (e_status e = Confirmed → st = Confirmed) ∧
            (st = Confirmed → e_status e = Confirmed ∨ (1 ≤ k ∧ m_promo s < e_count e)%N)
    else view s' u = None.
  Proof.
    intros Hr He Hrun Hproj. apply (reachable_inv L) in Hr as Hi.
    pose proof (inv_view s u e Hi He) as [_ Hc].
    destruct (run_inv L s h s' Hi Hrun) as [_ Hv]. specialize (Hv u). rewrite Hproj, He in Hv.
    destruct (decide (k ≤ e_count e)%N) as [Hk|Hk].
    - destruct (missed_run k (m_promo s) (m_removal s) e ltac:(lia) ltac:(lia) ltac:(lia) _ (eq_sym Hv))
        as [_ Hm]. cbn in Hm.
      destruct (decide (k = 0 ∨ m_removal s + k < e_count e)%N).
      + rewrite decide_True in Hm by lia. done.
      + rewrite decide_False in Hm by lia. done.
    - rewrite decide_False by lia.
      replace (N.to_nat k) with (N.to_nat (e_count e) + N.to_nat (k - e_count e)) in Hv by lia.
      rewrite replicate_add, foldl_app in Hv.
      destruct (missed_run (e_count e) (m_promo s) (m_removal s) e ltac:(lia) ltac:(lia) ltac:(lia) _ eq_refl)
        as [Hx Hm]. rewrite decide_False in Hm by lia.
      destruct (foldl pstep (m_promo s, m_removal s, Some e)
                  (replicate (N.to_nat (e_count e)) (PSeen false))) as [[p0 r0] o].
      cbn in Hx, Hm. subst o. injection Hx as -> ->.
      rewrite none_missed in Hv. congruence.
  Qed.

  Lemma set_promotion_thm s ord p :
    reachable tt s → (p < 2 ^ 64)%N → order_of ord (m_tracks s) →
    ∃ s', set_promotion tt ord p s = (s', Ok ()) ∧
      get_promotion_threshold tt s' = p ∧ get_removal_threshold tt s' = get_removal_threshold tt s ∧
      ∀ u, match view s u with
           | None => view s' u = None
           | Some e => view s' u = Some (Entry (e_track e)
                         (if decide (p ≤ e_count e)%N then Confirmed else Tentative) (e_count e))
           end.
  Proof.
    intros Hr Hp Ho. apply (reachable_inv L) in Hr as Hi.
    destruct (set_promotion_view ord p s Hi Hp Ho) as (s' & HE & _ & Hp' & Hr' & Hv).
    exists s'. split; [done|]. split; [done|]. split; [done|]. intros u. rewrite Hv.
    destruct (view s u); done.
  Qed.

  Lemma set_removal_thm s ord r :
    reachable tt s → (r < 2 ^ 64)%N → order_of ord (m_occ s) →
    ∃ s', set_removal tt ord r s = (s', Ok ()) ∧
      get_removal_threshold tt s' = r ∧ get_promotion_threshold tt s' = get_promotion_threshold tt s ∧
      (∀ u, match view s u with
           | None => view s' u = None
           | Some e => view s' u = if decide (r < e_count e)%N then Some e else None
           end) ∧
      ∀ ord', order_of ord' (m_occ s') → set_removal tt ord' r s' = (s', Ok ()).
  Proof.
    intros Hr Hp Ho. apply (reachable_inv L) in Hr as Hi.
    destruct (set_removal_view ord r s Hi Hp Ho) as (s' & HE & Hi' & Hp' & Hr' & Hv).
    exists s'. split; [done|]. split; [done|]. split; [done|]. split.
    - intros u. rewrite Hv. destruct (view s u); [|done]. cbn. unfold keep_above.
      destruct (decide _); [rewrite decide_False by lia|rewrite decide_True by lia]; done.
    - intros ord' Ho'.
      assert (∀ u n, m_occ s' !! u = Some n → (r < n)%N) as Hocc.
      { intros u n Hn. rewrite (inv_occ _ _ Hi'), Hv in Hn.
        apply fmap_Some in Hn as (e & He & ->). apply bind_Some in He as (e0 & _ & He).
        unfold keep_above in He. destruct (decide _); [done|]. injection He as <-. lia. }
      unfold set_removal. rewrite Hp'. replace (Mgr (m_promo s) r (m_tracks s') (m_statuses s') (m_occ s'))
        with s' by (destruct s'; cbn in *; congruence).
      destruct Ho' as [_ Ho']. assert (∀ u, u ∈ ord' → is_Some (m_occ s' !! u)) as Hin by (intros; apply Ho'; done).
      clear Ho' HE Hp' Hv Hi'. induction ord' as [|u ord' IH]; cbn; [done|].
      destruct (Hin u) as [n Hn]; [apply elem_of_cons; auto|]. rewrite Hn, Hr'.
      destruct (N.leb_spec n r).
      + apply Hocc in Hn. lia.
      + apply IH. intros v Hv. apply Hin. apply elem_of_cons; auto.
  Qed.

  (** *** Determinism *)
  Lemma inv_view_ext s s' :
    inv s → inv s' → m_promo s = m_promo s' → m_removal s = m_removal s' →
    (∀ u, view s u = view s' u) → s = s'.
  Proof.
    intros Hi Hi' Hp Hr Hv. destruct s as [p r t st o] eqn:Es, s' as [p' r' t' st' o'] eqn:Es'.
    rewrite <- Es in *. rewrite <- Es' in *.
    assert (m_tracks s = m_tracks s') as H1.
    { apply map_eq. intros u. rewrite (inv_tracks _ _ Hi), (inv_tracks _ _ Hi'), Hv. done. }
    assert (m_statuses s = m_statuses s') as H2.
    { apply map_eq. intros u. rewrite (inv_statuses _ _ Hi), (inv_statuses _ _ Hi'), Hv. done. }
    assert (m_occ s = m_occ s') as H3.
    { apply map_eq. intros u. rewrite (inv_occ _ _ Hi), (inv_occ _ _ Hi'), Hv. done. }
    subst. cbn in *. congruence.
  Qed.

  Lemma order_irrelevant p r h s1 s2 :
    reached tt p r h s1 → reached tt p r h s2 → s1 = s2.
  Proof.
    intros H1 H2. pose proof (reached_inv L _ _ _ _ H1). pose proof (reached_inv L _ _ _ _ H2).
    assert (∀ u, (m_promo s1, m_removal s1, view s1 u) = (m_promo s2, m_removal s2, view s2 u)) as HH.
    { intros u. rewrite (reached_view L _ _ _ _ u H1), (reached_view L _ _ _ _ u H2). done. }
    apply inv_view_ext; try done.
    - specialize (HH EmptyString). congruence.
    - specialize (HH EmptyString). congruence.
    - intros u. specialize (HH u). congruence.
  Qed.

  Lemma getter_orders s ord1 ord2 :
    reachable tt s → order_of ord1 (m_tracks s) → order_of ord2 (m_tracks s) →
    ∀ getter, getter ∈ [get_all_tracks tt; get_confirmed_tracks tt; get_tentative_tracks tt] →
    ∃ l1 l2, getter ord1 s = Ok l1 ∧ getter ord2 s = Ok l2 ∧ Permutation l1 l2.
  Proof.
    intros Hr H1 H2 getter Hg. apply (reachable_inv L) in Hr as Hi.
    assert (Permutation ord1 ord2) as HP.
    { apply NoDup_Permutation; [apply H1|apply H2|]. intros u.
      rewrite (proj2 H1 u), (proj2 H2 u). done. }
    assert (∀ ord, order_of ord (m_tracks s) →
      getter ord s = Ok (omap (λ u, match view s u with
        | Some e => match getter [u] s with Ok [t] => Some t | _ => None end
        | None => None end) ord)) as Hgen.
    { intros ord [_ Ho].
      assert (∀ u, u ∈ ord → is_Some (view s u)) as Hin.
      { intros u Hu. apply Ho in Hu. rewrite (inv_tracks _ _ Hi) in Hu. by apply fmap_is_Some in Hu. }
      clear Ho. rewrite !elem_of_cons, elem_of_nil in Hg.
      destruct Hg as [->|[->|[->|[]]]].
      - induction ord as [|u ord IH]; [done|].
        destruct (Hin u) as [e He]; [apply elem_of_cons; auto|]. cbn.
        rewrite (inv_tracks _ _ Hi), He. cbn.
        rewrite IH by (intros; apply Hin; apply elem_of_cons; auto). done.
      - induction ord as [|u ord IH]; [done|].
        destruct (Hin u) as [e He]; [apply elem_of_cons; auto|].
        unfold get_confirmed_tracks in *. cbn.
        rewrite (inv_tracks _ _ Hi), (inv_statuses _ _ Hi), He. cbn.
        rewrite IH by (intros; apply Hin; apply elem_of_cons; auto). cbn.
        destruct (e_status e); done.
      - induction ord as [|u ord IH]; [done|].
        destruct (Hin u) as [e He]; [apply elem_of_cons; auto|].
        unfold get_tentative_tracks in *. cbn.
        rewrite (inv_tracks _ _ Hi), (inv_statuses _ _ Hi), He. cbn.
        rewrite IH by (intros; apply Hin; apply elem_of_cons; auto). cbn.
        destruct (e_status e); done. }
    eexists _, _. split; [apply Hgen; done|]. split; [apply Hgen; done|].
    apply omap_Permutation. done.
  Qed.

  Lemma non_interference p r h1 h2 s1 s2 u :
    reached tt p r h1 s1 → reached tt p r h2 s2 → project u h1 = project u h2 →
    view s1 u = view s2 u.
  Proof.
    intros H1 H2 Hp. pose proof (reached_view L _ _ _ _ u H1) as E1.
    pose proof (reached_view L _ _ _ _ u H2) as E2. rewrite Hp in E1. congruence.
  Qed.

  Lemma keys_only s ord1 ord2 a1 a2 :
    reachable tt s → om_wf bytes_compare a1 → om_wf bytes_compare a2 →
    (∀ u, u ∈ a1.*1 ↔ u ∈ a2.*1) → order_of ord1 (m_occ s) → order_of ord2 (m_occ s) →
    update_track_lists tt ord1 a1 s = update_track_lists tt ord2 a2 s.
  Proof.
    intros Hr Ha1 Ha2 Hk Ho1 Ho2. apply (reachable_inv L) in Hr as Hi.
    destruct (update_lists_view ord1 a1 s Hi Ha1 Ho1) as (s1 & -> & Hi1 & Hp1 & Hr1 & Hv1).
    destruct (update_lists_view ord2 a2 s Hi Ha2 Ho2) as (s2 & -> & Hi2 & Hp2 & Hr2 & Hv2).
    f_equal. apply inv_view_ext; try done; try congruence. intros u. rewrite Hv1, Hv2.
    f_equal. rewrite (bool_decide_ext (seen a1 u) (seen a2 u)); [done|apply Hk].
  Qed.

  Lemma inverted s ord a :
    reachable tt s → om_wf bytes_compare a → order_of ord (m_occ s) → (m_promo s ≤ m_removal s)%N →
    ∃ s', update_track_lists tt ord a s = (s', Ok ()) ∧ ∀ u, u ∈ a.*1 → view s' u = None.
  Proof.
    intros Hr Ha Ho Hle. apply (reachable_inv L) in Hr as Hi.
    destruct (update_lists_view ord a s Hi Ha Ho) as (s1 & HE & Hi1 & Hp1 & Hr1 & Hv1).
    exists s1. split; [done|]. intros u Hu. rewrite Hv1. destruct (view s u); [|done]. cbn.
    unfold update_entry_wrap. rewrite bool_decide_true by done. rewrite decide_True by lia. done.
  Qed.

  Lemma occurrences_thm p r h s u :
    reached tt p r h s → (updates h < 2 ^ 31 - 1)%N →
    match view s u with
    | None => get_occurrences tt s u = 0%Z
    | Some e => get_occurrences tt s u = Z.of_N (e_count e) ∧ (0 < get_occurrences tt s u)%Z
    end.
  Proof.
    intros Hr Hb. pose proof (reached_inv L _ _ _ _ Hr) as Hi. unfold get_occurrences.
    rewrite (inv_occ _ _ Hi). destruct (view s u) as [e|] eqn:He; cbn; [|done].
    pose proof (count_bound L p r h s u e Hr) as Hcb. assert (size_mod = 2 ^ 64)%N as Hm by done.
    feed specialize Hcb; [lia|done|].
    unfold size_to_int. rewrite Z.mod_small by lia. destruct (Z.ltb_spec (Z.of_N (e_count e)) (2 ^ 31)); lia.
  Qed.
End Thms.
