(** Proofs about the track manager. *)
From stdpp Require Import gmap strings.
From Coq Require Import NArith ZArith Lia ZifyN ZifyBool.
From Verif Require Import Base Uuid OrdMap OrdFacts DynObj TrackManager TrackManagerSpec.

Lemma size_incr_small n : (n + 1 < size_mod)%N → size_incr n = (n + 1)%N.
Proof. intros H. apply N.mod_small. done. Qed.
Lemma size_decr_pos n : (1 ≤ n)%N → (n < size_mod)%N → size_decr n = (n - 1)%N.
Proof.
  intros H1 H2. unfold size_decr.
  replace (n + (size_mod - 1))%N with (n - 1 + 1 * size_mod)%N by (unfold size_mod in *; lia).
  rewrite N.mod_add by done. apply N.mod_small. lia.
Qed.
Lemma size_incr_lt n : (size_incr n < size_mod)%N.
Proof. apply N.mod_lt. done. Qed.
Lemma size_decr_lt n : (size_decr n < size_mod)%N.
Proof. apply N.mod_lt. done. Qed.

Lemma size_mod_gt : (2 < size_mod)%N.
Proof. done. Qed.
Opaque size_mod.

Section Proofs.
  Context {tt : track_type}.
  Implicit Types s : mgr tt.

  Definition raw s (u : uuid) : option tt * option status * option N :=
    (m_tracks s !! u, m_statuses s !! u, m_occ s !! u).

  (** The invariant of reachable states. *)
  Definition inv s : Prop :=
    (∀ u, match raw s u with
          | (Some t, Some _, Some n) => tt_uuid t = u ∧ (1 ≤ n < size_mod)%N
          | (None, None, None) => True
          | _ => False
          end) ∧ (m_promo s < size_mod)%N ∧ (m_removal s < size_mod)%N.

  Lemma view_raw s u :
    inv s → raw s u = match view s u with
                      | Some e => (Some (e_track e), Some (e_status e), Some (e_count e))
                      | None => (None, None, None)
                      end.
  Proof.
    intros [Hi _]. specialize (Hi u). unfold raw, view in *.
    destruct (m_tracks s !! u), (m_statuses s !! u), (m_occ s !! u); done.
  Qed.
  Lemma inv_view s u e :
    inv s → view s u = Some e → tt_uuid (e_track e) = u ∧ (1 ≤ e_count e < size_mod)%N.
  Proof.
    intros [Hi _]. specialize (Hi u). unfold raw, view in *.
    destruct (m_tracks s !! u), (m_statuses s !! u), (m_occ s !! u); try done.
    intros [= <-]. done.
  Qed.
  Lemma inv_tracks s u : inv s → m_tracks s !! u = e_track <$> view s u.
  Proof.
    intros Hi. pose proof (view_raw s u Hi) as H. unfold raw in H.
    destruct (view s u); simplify_eq/=; done.
  Qed.
  Lemma inv_statuses s u : inv s → m_statuses s !! u = e_status <$> view s u.
  Proof.
    intros Hi. pose proof (view_raw s u Hi) as H. unfold raw in H.
    destruct (view s u); simplify_eq/=; done.
  Qed.
  Lemma inv_occ s u : inv s → m_occ s !! u = e_count <$> view s u.
  Proof.
    intros Hi. pose proof (view_raw s u Hi) as H. unfold raw in H.
    destruct (view s u); simplify_eq/=; done.
  Qed.
  Lemma view_of_raw s u t st n : raw s u = (Some t, Some st, Some n) → view s u = Some (Entry t st n).
  Proof. unfold raw, view. intros [= -> -> ->]. done. Qed.
  Lemma view_of_raw_none s u x y : raw s u = (None, x, y) → view s u = None.
  Proof. unfold raw, view. intros [= -> _ _]. done. Qed.

  (** ** First loop *)
  Definition count1 (a : assoc_map) (p : N) (u : uuid) (n : N) : N :=
    if om_mem bytes_compare u a then N.min (size_incr n) p else size_decr n.

  Lemma count_loop_spec a p ord occ :
    NoDup ord → (∀ u, u ∈ ord → is_Some (occ !! u)) →
    ∃ occ', count_loop a p ord occ = Ok occ' ∧
      ∀ u, occ' !! u = if decide (u ∈ ord) then count1 a p u <$> occ !! u else occ !! u.
  Proof.
    revert occ. induction ord as [|u ord IH]; intros occ Hnd Hin; cbn [count_loop].
    - exists occ. split; [done|]. intros u. rewrite decide_False; [done|]. apply not_elem_of_nil.
    - apply NoDup_cons in Hnd as [Hu Hnd].
      destruct (Hin u) as [n Hn]; [apply elem_of_cons; auto|]. rewrite Hn.
      fold (count1 a p u n).
      destruct (IH (<[u := count1 a p u n]> occ)) as (occ' & HE & Hocc); [done| |].
      { intros v Hv. destruct (decide (u = v)) as [->|Hne]; [done|].
        rewrite lookup_insert_ne by done. apply Hin. apply elem_of_cons; auto. }
      exists occ'. split; [exact HE|]. intros v. rewrite Hocc.
      destruct (decide (u = v)) as [->|Hne].
      + rewrite decide_False by done. rewrite decide_True by (apply elem_of_cons; auto).
        rewrite lookup_insert, Hn. done.
      + rewrite lookup_insert_ne by done.
        destruct (decide (v ∈ ord)) as [Hv|Hv].
        * rewrite decide_True by (apply elem_of_cons; auto). done.
        * rewrite decide_False; [done|]. rewrite elem_of_cons. intros [->|?]; done.
  Qed.

  (** ** Second loop *)
  Definition sweep1 (p r : N) (x : option tt * option status * option N)
    : option tt * option status * option N :=
    match x with
    | (t, st, Some n) =>
        if (n <=? r)%N then (None, None, None)
        else if (p <=? n)%N then (t, Some Confirmed, Some n) else (t, st, Some n)
    | _ => x
    end.

  Lemma sweep_loop_spec ord s :
    NoDup ord → (∀ u, u ∈ ord → is_Some (m_occ s !! u)) →
    (∀ u, u ∈ ord → is_Some (m_statuses s !! u)) →
    ∃ s', sweep_loop tt ord s = (s', Ok ()) ∧ m_promo s' = m_promo s ∧ m_removal s' = m_removal s ∧
      ∀ u, raw s' u = if decide (u ∈ ord) then sweep1 (m_promo s) (m_removal s) (raw s u) else raw s u.
  Proof.
    revert s. induction ord as [|u ord IH]; intros s Hnd Hocc Hst; cbn [sweep_loop].
    - exists s. split; [done|]. split; [done|]. split; [done|]. intros u.
      rewrite decide_False; [done|]. apply not_elem_of_nil.
    - apply NoDup_cons in Hnd as [Hu Hnd].
      destruct (Hocc u) as [n Hn]; [apply elem_of_cons; auto|]. rewrite Hn.
      destruct (Hst u) as [st Hs]; [apply elem_of_cons; auto|].
      assert (∀ s1, m_promo s1 = m_promo s → m_removal s1 = m_removal s →
               (∀ v, v ≠ u → raw s1 v = raw s v) →
               raw s1 u = sweep1 (m_promo s) (m_removal s) (raw s u) →
               ∃ s', sweep_loop tt ord s1 = (s', Ok ()) ∧ m_promo s' = m_promo s ∧
                 m_removal s' = m_removal s ∧
                 ∀ v, raw s' v = if decide (v ∈ u :: ord)
                                 then sweep1 (m_promo s) (m_removal s) (raw s v) else raw s v) as Hgen.
      { intros s1 Hp Hr Hne Hu1.
        assert (∀ v, v ∈ ord → v ≠ u) as Hvu by (intros v Hv ->; done).
        destruct (IH s1) as (s' & HE & Hp' & Hr' & Hraw); [done| | |].
        - intros v Hv. pose proof (Hne v (Hvu v Hv)) as HH. unfold raw in HH. injection HH as _ _ ->.
          apply Hocc. apply elem_of_cons; auto.
        - intros v Hv. pose proof (Hne v (Hvu v Hv)) as HH. unfold raw in HH. injection HH as _ -> _.
          apply Hst. apply elem_of_cons; auto.
        - exists s'. rewrite HE. split; [done|]. split; [congruence|]. split; [congruence|].
          intros v. rewrite Hraw, Hp, Hr. destruct (decide (v = u)) as [->|Hv].
          + rewrite decide_False by done. rewrite decide_True by (apply elem_of_cons; auto). done.
          + rewrite Hne by done. destruct (decide (v ∈ ord)) as [Hv'|Hv'].
            * rewrite decide_True by (apply elem_of_cons; auto). done.
            * rewrite decide_False; [done|]. rewrite elem_of_cons. intros [->|?]; done. }
      destruct (n <=? m_removal s)%N eqn:E1.
      + apply Hgen; [done|done| |].
        * intros v Hv. unfold raw; cbn. rewrite !lookup_delete_ne by done. done.
        * unfold raw; cbn. rewrite !lookup_delete, Hn. cbn. rewrite E1. done.
      + destruct (m_promo s <=? n)%N eqn:E2.
        * rewrite Hs. apply Hgen; [done|done| |].
          -- intros v Hv. unfold raw; cbn. rewrite lookup_insert_ne by done. done.
          -- unfold raw; cbn. rewrite lookup_insert, Hn. cbn. rewrite E1, E2. done.
        * apply Hgen; [done|done|done|]. unfold raw. rewrite Hn. cbn. rewrite E1, E2. done.
  Qed.

  (** ** Effect of each call on [raw] and on the invariant *)

  (** One update of one entry, with wrapping counters. *)
  Definition update_entry_wrap (p r : N) (b : bool) (e : entry tt) : option (entry tt) :=
    let n := if b then N.min (size_incr (e_count e)) p else size_decr (e_count e) in
    if decide (n ≤ r)%N then None
    else Some (Entry (e_track e) (if decide (p ≤ n)%N then Confirmed else e_status e) n).

  Lemma om_mem_seen a u : om_wf bytes_compare a → om_mem bytes_compare u a = bool_decide (seen a u).
  Proof.
    intros Ha. apply eq_bool_prop_intro. rewrite bool_decide_spec. unfold seen.
    rewrite elem_of_list_In, <- (om_mem_in _ bytes_total) by done.
    destruct (om_mem bytes_compare u a); done.
  Qed.

  Lemma update_lists_raw ord a s :
    inv s → order_of ord (m_occ s) →
    ∃ s', update_track_lists tt ord a s = (s', Ok ()) ∧ m_promo s' = m_promo s ∧
      m_removal s' = m_removal s ∧
      ∀ u, raw s' u =
           match view s u with
           | None => (None, None, None)
           | Some e =>
               match update_entry_wrap (m_promo s) (m_removal s) (om_mem bytes_compare u a) e with
               | None => (None, None, None)
               | Some e' => (Some (e_track e'), Some (e_status e'), Some (e_count e'))
               end
           end.
  Proof.
    intros Hi [Hnd Hord]. unfold update_track_lists.
    destruct (count_loop_spec a (m_promo s) ord (m_occ s)) as (occ' & HE & Hocc'); [done| |].
    { intros u Hu. apply Hord. done. }
    rewrite HE.
    set (s1 := Mgr (m_promo s) (m_removal s) (m_tracks s) (m_statuses s) occ').
    assert (∀ u, u ∈ ord ↔ is_Some (view s u)) as Hov.
    { intros u. rewrite Hord, (inv_occ s u Hi). apply fmap_is_Some. }
    destruct (sweep_loop_spec ord s1) as (s' & HE' & Hp & Hr & Hraw); [done| | |].
    { intros u Hu. cbn. rewrite Hocc', decide_True by done. apply fmap_is_Some. apply Hord. done. }
    { intros u Hu. cbn. rewrite (inv_statuses s u Hi). apply fmap_is_Some. apply Hov. done. }
    exists s'. rewrite HE'. split; [done|]. split; [exact Hp|]. split; [exact Hr|].
    intros u. rewrite Hraw. unfold raw, s1; cbn [m_tracks m_statuses m_occ m_promo m_removal].
    rewrite Hocc', (inv_tracks s u Hi), (inv_statuses s u Hi), (inv_occ s u Hi).
    destruct (decide (u ∈ ord)) as [Hu|Hu].
    - apply Hov in Hu as [e He]. rewrite He. cbn. unfold update_entry_wrap.
      fold (count1 a (m_promo s) u (e_count e)).
      change (if om_mem bytes_compare u a then N.min (size_incr (e_count e)) (m_promo s)
              else size_decr (e_count e)) with (count1 a (m_promo s) u (e_count e)).
      set (n := count1 a (m_promo s) u (e_count e)).
      destruct (N.leb_spec n (m_removal s)).
      + rewrite decide_True by done. done.
      + rewrite decide_False by lia. cbn. destruct (N.leb_spec (m_promo s) n).
        * rewrite decide_True by done. done.
        * rewrite decide_False by lia. done.
    - destruct (view s u) as [e|] eqn:He; [|done].
      exfalso. apply Hu, Hov. done.
  Qed.

  Lemma inv_of_raw s (f : uuid → option (entry tt)) :
    (∀ u, raw s u = match f u with
                    | Some e => (Some (e_track e), Some (e_status e), Some (e_count e))
                    | None => (None, None, None)
                    end) →
    (∀ u e, f u = Some e → tt_uuid (e_track e) = u ∧ (1 ≤ e_count e < size_mod)%N) →
    (m_promo s < size_mod)%N → (m_removal s < size_mod)%N →
    inv s ∧ ∀ u, view s u = f u.
  Proof.
    intros Hraw Hf Hp Hr. split.
    - split; [|done]. intros u. rewrite Hraw. destruct (f u) as [e|] eqn:E; [|done].
      apply Hf. done.
    - intros u. specialize (Hraw u). unfold raw, view in *.
      destruct (f u) as [[t st n]|]; injection Hraw as H1 H2 H3; rewrite H1, ?H2, ?H3; done.
  Qed.

  Lemma update_entry_wrap_track p r b e e' :
    update_entry_wrap p r b e = Some e' →
    e_track e' = e_track e ∧ (r < e_count e')%N ∧ (e_count e' < size_mod)%N.
  Proof.
    unfold update_entry_wrap. destruct (decide _) as [|Hn]; [done|]. intros [= <-]. cbn.
    apply N.nle_gt in Hn. split; [done|]. split; [exact Hn|]. destruct b.
    - pose proof (size_incr_lt (e_count e)). lia.
    - apply size_decr_lt.
  Qed.

  Lemma update_lists_view ord a s :
    inv s → om_wf bytes_compare a → order_of ord (m_occ s) →
    ∃ s', update_track_lists tt ord a s = (s', Ok ()) ∧ inv s' ∧
      m_promo s' = m_promo s ∧ m_removal s' = m_removal s ∧
      ∀ u, view s' u = view s u ≫= update_entry_wrap (m_promo s) (m_removal s) (bool_decide (seen a u)).
  Proof.
    intros Hi Ha Hord.
    destruct (update_lists_raw ord a s Hi Hord) as (s' & HE & Hp & Hr & Hraw).
    exists s'. destruct (inv_of_raw s'
      (λ u, view s u ≫= update_entry_wrap (m_promo s) (m_removal s) (bool_decide (seen a u))))
      as [Hi' Hv].
    - intros u. rewrite Hraw, om_mem_seen by done. destruct (view s u); done.
    - intros u e' He'. apply bind_Some in He' as (e & He & He').
      apply update_entry_wrap_track in He' as (-> & H1 & H2).
      apply inv_view in He as [Hu _]; [|done]. split; [done|]. lia.
    - rewrite Hp. apply Hi.
    - rewrite Hr. apply Hi.
    - done.
  Qed.

  Lemma add_view t s :
    inv s →
    match view s (tt_uuid t) with
    | Some _ => add_tentative_track tt t s = (s, Throw logic_error)
    | None =>
        ∃ s', add_tentative_track tt t s = (s', Ok ()) ∧ inv s' ∧
          m_promo s' = m_promo s ∧ m_removal s' = m_removal s ∧
          view s' (tt_uuid t) = Some (Entry t Tentative 1) ∧
          ∀ u, u ≠ tt_uuid t → view s' u = view s u
    end.
  Proof.
    intros Hi. unfold add_tentative_track. rewrite (inv_tracks _ _ Hi).
    destruct (view s (tt_uuid t)) as [e|] eqn:E; cbn; [done|].
    eexists; split; [reflexivity|].
    destruct (inv_of_raw (Mgr (m_promo s) (m_removal s) (<[tt_uuid t := t]> (m_tracks s))
      (<[tt_uuid t := Tentative]> (m_statuses s)) (<[tt_uuid t := 1%N]> (m_occ s)))
      (λ u, if decide (u = tt_uuid t) then Some (Entry t Tentative 1%N) else view s u)) as [Hi' Hv].
    - intros u. unfold raw; cbn [m_tracks m_statuses m_occ].
      destruct (decide (u = tt_uuid t)) as [->|Hne].
      + rewrite !lookup_insert. done.
      + rewrite !lookup_insert_ne by done. apply (view_raw s u Hi).
    - intros u e. destruct (decide (u = tt_uuid t)) as [->|Hne].
      + intros [= <-]. cbn. split; [done|]. pose proof size_mod_gt. lia.
      + intros He. apply (inv_view s u e Hi He).
    - apply Hi.
    - apply Hi.
    - split; [done|]. split; [done|]. split; [done|]. split.
      + rewrite Hv, decide_True by done. done.
      + intros u Hne. rewrite Hv, decide_False by done. done.
  Qed.

  Definition promote (p : N) (e : entry tt) : entry tt :=
    Entry (e_track e) (if decide (p ≤ e_count e)%N then Confirmed else Tentative) (e_count e).

  Lemma promo_loop_spec ord s :
    NoDup ord → (∀ u, u ∈ ord → is_Some (m_tracks s !! u)) →
    (∀ u, u ∈ ord → is_Some (m_occ s !! u)) →
    ∃ s', promo_loop tt ord s = (s', Ok ()) ∧ m_promo s' = m_promo s ∧ m_removal s' = m_removal s ∧
      ∀ u, raw s' u = if decide (u ∈ ord) then
                        match raw s u with
                        | (t, st, Some n) =>
                            (t, Some (if (m_promo s <=? n)%N then Confirmed else Tentative), Some n)
                        | x => x
                        end
                      else raw s u.
  Proof.
    revert s. induction ord as [|u ord IH]; intros s Hnd Htr Hocc; cbn [promo_loop].
    - exists s. split; [done|]. split; [done|]. split; [done|]. intros u.
      rewrite decide_False; [done|]. apply not_elem_of_nil.
    - apply NoDup_cons in Hnd as [Hu Hnd].
      destruct (Htr u) as [t Ht]; [apply elem_of_cons; auto|]. rewrite Ht.
      destruct (Hocc u) as [n Hn]; [apply elem_of_cons; auto|].
      unfold occ_subscript. rewrite Hn.
      set (s1 := Mgr _ _ _ _ _).
      assert (∀ v, v ≠ u → raw s1 v = raw s v) as Hne.
      { intros v Hv. unfold raw, s1; cbn. rewrite lookup_insert_ne by done. done. }
      destruct (IH s1) as (s' & HE & Hp & Hr & Hraw); [done| | |].
      { intros v Hv. apply Htr. apply elem_of_cons; auto. }
      { intros v Hv. apply Hocc. apply elem_of_cons; auto. }
      exists s'. split; [exact HE|]. split; [exact Hp|]. split; [exact Hr|].
      intros v. rewrite Hraw. change (m_promo s1) with (m_promo s).
      destruct (decide (v = u)) as [->|Hv].
      + rewrite decide_False by done. rewrite decide_True by (apply elem_of_cons; auto).
        unfold raw, s1; cbn. rewrite lookup_insert, Hn. done.
      + rewrite Hne by done. destruct (decide (v ∈ ord)) as [Hv'|Hv'].
        * rewrite decide_True by (apply elem_of_cons; auto). done.
        * rewrite decide_False; [done|]. rewrite elem_of_cons. intros [->|?]; done.
  Qed.

  Lemma set_promotion_view ord p s :
    inv s → (p < size_mod)%N → order_of ord (m_tracks s) →
    ∃ s', set_promotion tt ord p s = (s', Ok ()) ∧ inv s' ∧
      m_promo s' = p ∧ m_removal s' = m_removal s ∧
      ∀ u, view s' u = promote p <$> view s u.
  Proof.
    intros Hi Hp [Hnd Hord]. unfold set_promotion.
    set (s1 := Mgr p _ _ _ _).
    assert (∀ u, u ∈ ord ↔ is_Some (view s u)) as Hov.
    { intros u. rewrite Hord, (inv_tracks s u Hi). apply fmap_is_Some. }
    destruct (promo_loop_spec ord s1) as (s' & HE & Hp' & Hr' & Hraw); [done| | |].
    { intros u Hu. apply Hord. done. }
    { intros u Hu. cbn. rewrite (inv_occ s u Hi). apply fmap_is_Some. apply Hov. done. }
    exists s'. split; [exact HE|].
    destruct (inv_of_raw s' (λ u, promote p <$> view s u)) as [Hi' Hv].
    - intros u. rewrite Hraw. change (raw s1 u) with (raw s u). rewrite (view_raw s u Hi).
      change (m_promo s1) with p.
      destruct (decide (u ∈ ord)) as [Hu|Hu].
      + apply Hov in Hu as [e He]. rewrite He. cbn.
        destruct (N.leb_spec p (e_count e)).
        * rewrite decide_True by done. done.
        * rewrite decide_False by lia. done.
      + destruct (view s u) eqn:He; [|done]. exfalso. apply Hu, Hov. done.
    - intros u e' He'. apply fmap_Some in He' as (e & He & ->).
      apply inv_view in He; done.
    - rewrite Hp'. done.
    - rewrite Hr'. apply Hi.
    - done.
  Qed.

  Lemma removal_loop_spec ord s :
    NoDup ord → (∀ u, u ∈ ord → is_Some (m_occ s !! u)) →
    ∃ s', removal_loop tt ord s = (s', Ok ()) ∧ m_promo s' = m_promo s ∧ m_removal s' = m_removal s ∧
      ∀ u, raw s' u = if decide (u ∈ ord) then
                        match raw s u with
                        | (t, st, Some n) =>
                            if (n <=? m_removal s)%N then (None, None, None) else (t, st, Some n)
                        | x => x
                        end
                      else raw s u.
  Proof.
    revert s. induction ord as [|u ord IH]; intros s Hnd Hocc; cbn [removal_loop].
    - exists s. split; [done|]. split; [done|]. split; [done|]. intros u.
      rewrite decide_False; [done|]. apply not_elem_of_nil.
    - apply NoDup_cons in Hnd as [Hu Hnd].
      destruct (Hocc u) as [n Hn]; [apply elem_of_cons; auto|]. rewrite Hn.
      assert (∀ v, v ∈ ord → v ≠ u) as Hvu by (intros v Hv ->; done).
      destruct (n <=? m_removal s)%N eqn:E.
      + set (s1 := Mgr _ _ _ _ _).
        assert (∀ v, v ≠ u → raw s1 v = raw s v) as Hne.
        { intros v Hv. unfold raw, s1; cbn. rewrite !lookup_delete_ne by done. done. }
        destruct (IH s1) as (s' & HE & Hp & Hr & Hraw); [done| |].
        { intros v Hv. cbn. rewrite lookup_delete_ne by (apply not_eq_sym; auto).
          apply Hocc. apply elem_of_cons; auto. }
        exists s'. split; [exact HE|]. split; [exact Hp|]. split; [exact Hr|].
        intros v. rewrite Hraw. change (m_removal s1) with (m_removal s).
        destruct (decide (v = u)) as [->|Hv].
        * rewrite decide_False by done. rewrite decide_True by (apply elem_of_cons; auto).
          unfold raw, s1; cbn. rewrite !lookup_delete, Hn, E. done.
        * rewrite Hne by done. destruct (decide (v ∈ ord)) as [Hv'|Hv'].
          -- rewrite decide_True by (apply elem_of_cons; auto). done.
          -- rewrite decide_False; [done|]. rewrite elem_of_cons. intros [->|?]; done.
      + destruct (IH s) as (s' & HE & Hp & Hr & Hraw); [done| |].
        { intros v Hv. apply Hocc. apply elem_of_cons; auto. }
        exists s'. split; [exact HE|]. split; [exact Hp|]. split; [exact Hr|].
        intros v. rewrite Hraw. destruct (decide (v = u)) as [->|Hv].
        * rewrite decide_False by done. rewrite decide_True by (apply elem_of_cons; auto).
          unfold raw. rewrite Hn, E. done.
        * destruct (decide (v ∈ ord)) as [Hv'|Hv'].
          -- rewrite decide_True by (apply elem_of_cons; auto). done.
          -- rewrite decide_False; [done|]. rewrite elem_of_cons. intros [->|?]; done.
  Qed.

  Definition keep_above (r : N) (e : entry tt) : option (entry tt) :=
    if decide (e_count e ≤ r)%N then None else Some e.

  Lemma set_removal_view ord r s :
    inv s → (r < size_mod)%N → order_of ord (m_occ s) →
    ∃ s', set_removal tt ord r s = (s', Ok ()) ∧ inv s' ∧
      m_promo s' = m_promo s ∧ m_removal s' = r ∧
      ∀ u, view s' u = view s u ≫= keep_above r.
  Proof.
    intros Hi Hr [Hnd Hord]. unfold set_removal.
    set (s1 := Mgr _ r _ _ _).
    assert (∀ u, u ∈ ord ↔ is_Some (view s u)) as Hov.
    { intros u. rewrite Hord, (inv_occ s u Hi). apply fmap_is_Some. }
    destruct (removal_loop_spec ord s1) as (s' & HE & Hp' & Hr' & Hraw); [done| |].
    { intros u Hu. apply Hord. done. }
    exists s'. split; [exact HE|].
    destruct (inv_of_raw s' (λ u, view s u ≫= keep_above r)) as [Hi' Hv].
    - intros u. rewrite Hraw. change (raw s1 u) with (raw s u). rewrite (view_raw s u Hi).
      change (m_removal s1) with r.
      destruct (decide (u ∈ ord)) as [Hu|Hu].
      + apply Hov in Hu as [e He]. rewrite He. cbn. unfold keep_above.
        destruct (N.leb_spec (e_count e) r).
        * rewrite decide_True by done. done.
        * rewrite decide_False by lia. done.
      + destruct (view s u) eqn:He; [|done]. exfalso. apply Hu, Hov. done.
    - intros u e' He'. apply bind_Some in He' as (e & He & He').
      unfold keep_above in He'. destruct (decide _); [done|]. injection He' as <-.
      apply inv_view in He; done.
    - rewrite Hp'. apply Hi.
    - rewrite Hr'. done.
    - done.
  Qed.

  Lemma run_steps_uuid fs t : keeps_uuid fs → tt_uuid (fst (run_steps tt fs t)) = tt_uuid t.
  Proof.
    revert t. induction fs as [|f fs IH]; intros t Hk; cbn [run_steps]; [done|].
    pose proof (Hk f t) as Hf. feed specialize Hf; [apply elem_of_cons; auto|].
    destruct (f t) as [t'|e|]; cbn; [|done|done].
    rewrite IH; [done|]. intros g x Hg. apply Hk. apply elem_of_cons; auto.
  Qed.

  Definition on_track (f : tt → tt) (e : entry tt) : entry tt :=
    Entry (f (e_track e)) (e_status e) (e_count e).

  Lemma modify_view id fs s :
    inv s → keeps_uuid fs →
    match view s id with
    | None => modify_track tt id fs s = (s, Throw out_of_range)
    | Some e =>
        ∃ s', modify_track tt id fs s = (s', snd (run_steps tt fs (e_track e))) ∧ inv s' ∧
          m_promo s' = m_promo s ∧ m_removal s' = m_removal s ∧
          view s' id = Some (on_track (λ t, fst (run_steps tt fs t)) e) ∧
          ∀ u, u ≠ id → view s' u = view s u
    end.
  Proof.
    intros Hi Hk. unfold modify_track. rewrite (inv_tracks _ _ Hi).
    destruct (view s id) as [e|] eqn:E; cbn; [|done].
    pose proof (run_steps_uuid fs (e_track e) Hk) as Hu.
    destruct (run_steps tt fs (e_track e)) as [t' r] eqn:ER. cbn in Hu.
    eexists; split; [reflexivity|].
    destruct (inv_of_raw (Mgr (m_promo s) (m_removal s) (<[id := t']> (m_tracks s))
      (m_statuses s) (m_occ s))
      (λ u, if decide (u = id) then Some (on_track (λ t, fst (run_steps tt fs t)) e) else view s u))
      as [Hi' Hv].
    - intros u. unfold raw; cbn [m_tracks m_statuses m_occ].
      destruct (decide (u = id)) as [->|Hne].
      + rewrite lookup_insert, (inv_statuses _ _ Hi), (inv_occ _ _ Hi), E. cbn. rewrite ER. done.
      + rewrite lookup_insert_ne by done. apply (view_raw s u Hi).
    - intros u e'. destruct (decide (u = id)) as [->|Hne].
      + intros [= <-]. cbn. rewrite ER. cbn. rewrite Hu.
        apply (inv_view s id e Hi E).
      + intros He. apply (inv_view s u e' Hi He).
    - apply Hi.
    - apply Hi.
    - split; [done|]. split; [done|]. split; [done|]. split.
      + rewrite Hv, decide_True by done. done.
      + intros u Hne. rewrite Hv, decide_False by done. done.
  Qed.

  (** ** One automaton per uuid *)
  Definition pstep (x : N * N * option (entry tt)) (c : pcall tt) : N * N * option (entry tt) :=
    let '(p, r, o) := x in
    match c with
    | PAdd t => (p, r, match o with None => Some (Entry t Tentative 1%N) | Some e => Some e end)
    | PSeen b => (p, r, o ≫= update_entry_wrap p r b)
    | PSetPromotion p' => (p', r, promote p' <$> o)
    | PSetRemoval r' => (p, r', o ≫= keep_above r')
    | PUpdateFields arg => (p, r, on_track (λ t, fst (run_steps tt (tt_set arg) t)) <$> o)
    | PUpdateFrom t' => (p, r, on_track (λ t, fst (run_steps tt (tt_copy t') t)) <$> o)
    end.

  Lemma modify_inv id fs s :
    inv s → keeps_uuid fs →
    inv (fst (modify_track tt id fs s)) ∧
    m_promo (fst (modify_track tt id fs s)) = m_promo s ∧
    m_removal (fst (modify_track tt id fs s)) = m_removal s ∧
    ∀ u, view (fst (modify_track tt id fs s)) u =
      if decide (id = u) then on_track (λ t, fst (run_steps tt fs t)) <$> view s u else view s u.
  Proof.
    intros Hi Hk. pose proof (modify_view id fs s Hi Hk) as H.
    destruct (view s id) as [e|] eqn:E.
    - destruct H as (s' & -> & Hi' & Hp & Hr & H1 & H2). cbn.
      split; [done|]. split; [done|]. split; [done|]. intros u.
      destruct (decide (id = u)) as [<-|Hne]; [rewrite E, H1; done|]. apply H2. done.
    - rewrite H. cbn. split; [done|]. split; [done|]. split; [done|]. intros u.
      destruct (decide (id = u)) as [<-|Hne]; [rewrite E; done|]. done.
  Qed.

  Lemma step_inv (L : lawful tt) ord c s :
    inv s → valid_call tt c → valid_order tt ord c s →
    inv (fst (step tt ord c s)) ∧
    ∀ u, (m_promo (fst (step tt ord c s)), m_removal (fst (step tt ord c s)), view (fst (step tt ord c s)) u)
         = foldl pstep (m_promo s, m_removal s, view s u) (project1 u c).
  Proof.
    intros Hi Hc Ho. destruct L as [L1 L2]. destruct c as [t|a|p|r|id arg|id t]; cbn [step project1].
    - pose proof (add_view t s Hi) as H.
      destruct (view s (tt_uuid t)) as [e|] eqn:E.
      + rewrite H. cbn. split; [done|]. intros u.
        destruct (decide (tt_uuid t = u)) as [<-|Hne]; cbn; [rewrite E; done|done].
      + destruct H as (s' & -> & Hi' & Hp & Hr & H1 & H2). cbn. split; [done|]. intros u.
        rewrite Hp, Hr. destruct (decide (tt_uuid t = u)) as [<-|Hne]; cbn.
        * rewrite E, H1. done.
        * rewrite H2 by done. done.
    - destruct (update_lists_view ord a s Hi Hc Ho) as (s' & -> & Hi' & Hp & Hr & Hv).
      cbn. split; [done|]. intros u. rewrite Hp, Hr, Hv. done.
    - destruct (set_promotion_view ord p s Hi Hc Ho) as (s' & -> & Hi' & Hp & Hr & Hv).
      cbn. split; [done|]. intros u. rewrite Hp, Hr, Hv. done.
    - destruct (set_removal_view ord r s Hi Hc Ho) as (s' & -> & Hi' & Hp & Hr & Hv).
      cbn. split; [done|]. intros u. rewrite Hp, Hr, Hv. done.
    - destruct (modify_inv id (tt_set arg) s Hi (L1 arg)) as (Hi' & Hp & Hr & Hv).
      unfold update_track_fields. split; [done|]. intros u. rewrite Hp, Hr, Hv.
      destruct (decide (id = u)); done.
    - destruct (modify_inv id (tt_copy t) s Hi (L2 t)) as (Hi' & Hp & Hr & Hv).
      unfold update_track_from. split; [done|]. intros u. rewrite Hp, Hr, Hv.
      destruct (decide (id = u)); done.
  Qed.

  Lemma init_inv p r : (p < size_mod)%N → (r < size_mod)%N → inv (mgr_init tt p r).
  Proof. intros Hp Hr. split; [|done]. intros u. unfold raw; cbn. rewrite !lookup_empty. done. Qed.

  Lemma run_inv (L : lawful tt) s h s' :
    inv s → run tt s h s' →
    inv s' ∧ ∀ u, (m_promo s', m_removal s', view s' u)
                  = foldl pstep (m_promo s, m_removal s, view s u) (project u h).
  Proof.
    intros Hi Hr. induction Hr as [|h c s1 ord Hr [IHi IH] Hc Ho]; [done|].
    destruct (step_inv L ord c s1 IHi Hc Ho) as [Hi' Hv]. split; [done|].
    intros u. rewrite Hv, IH. unfold project. rewrite bind_app, foldl_app. cbn.
    rewrite app_nil_r. done.
  Qed.

  Lemma reached_inv (L : lawful tt) p r h s : reached tt p r h s → inv s.
  Proof. intros (Hp & Hr & H). destruct (run_inv L _ _ _ (init_inv p r Hp Hr) H); done. Qed.
  Lemma reachable_inv (L : lawful tt) s : reachable tt s → inv s.
  Proof. intros (p & r & h & H). eapply reached_inv; eauto. Qed.

  Lemma reached_view (L : lawful tt) p r h s u :
    reached tt p r h s →
    (m_promo s, m_removal s, view s u) = foldl pstep (p, r, None) (project u h).
  Proof.
    intros (Hp & Hr & H). destruct (run_inv L _ _ _ (init_inv p r Hp Hr) H) as [_ Hv].
    rewrite Hv. done.
  Qed.

  (** ** Getters *)
  Lemma get_all_ok ord s :
    order_of ord (m_tracks s) →
    ∃ l, get_all_tracks tt ord s = Ok l ∧ Forall2 (λ u t, m_tracks s !! u = Some t) ord l.
  Proof.
    intros [_ Hord]. assert (∀ u, u ∈ ord → is_Some (m_tracks s !! u)) as H by (intros; apply Hord; done).
    clear Hord. induction ord as [|u ord IH]; cbn.
    - exists []. done.
    - destruct (H u) as [t Ht]; [apply elem_of_cons; auto|]. rewrite Ht.
      destruct IH as (l & -> & Hl); [intros; apply H; apply elem_of_cons; auto|].
      cbn. exists (t :: l). split; [done|]. constructor; done.
  Qed.

  Lemma collect_ok want ord s :
    inv s → order_of ord (m_tracks s) →
    ∃ l, collect tt want ord s = Ok l ∧
      ∀ t, t ∈ l ↔ ∃ u n, u ∈ ord ∧ view s u = Some (Entry t want n).
  Proof.
    intros Hi [_ Hord].
    assert (∀ u, u ∈ ord → is_Some (m_tracks s !! u)) as H by (intros; apply Hord; done).
    clear Hord. induction ord as [|u ord IH]; cbn.
    - exists []. split; [done|]. intros t. rewrite elem_of_nil. split; [done|].
      intros (u & n & Hu & _). by apply elem_of_nil in Hu.
    - destruct (H u) as [t Ht]; [apply elem_of_cons; auto|]. rewrite Ht.
      rewrite (inv_tracks _ _ Hi) in Ht. apply fmap_Some in Ht as (e & He & ->).
      rewrite (inv_statuses _ _ Hi), He. cbn.
      destruct IH as (l & -> & Hl); [intros; apply H; apply elem_of_cons; auto|].
      cbn. eexists; split; [done|]. intros t.
      assert (t ∈ (if is_status want (e_status e) then e_track e :: l else l) ↔
              (t = e_track e ∧ e_status e = want) ∨ t ∈ l) as ->.
      { destruct want, (e_status e); cbn; rewrite ?elem_of_cons; intuition congruence. }
      rewrite Hl. split.
      + intros [[-> Hw]|(v & n & Hv & Hview)].
        * exists u, (e_count e). split; [apply elem_of_cons; auto|]. rewrite He, <- Hw.
          destruct e; done.
        * exists v, n. split; [apply elem_of_cons; auto|]. done.
      + intros (v & n & Hv & Hview). apply elem_of_cons in Hv as [->|Hv].
        * left. rewrite He in Hview. injection Hview as ->. done.
        * right. eauto.
  Qed.

  Lemma getters_partition ord s :
    inv s → order_of ord (m_tracks s) →
    ∃ la lt lc, get_all_tracks tt ord s = Ok la ∧ get_tentative_tracks tt ord s = Ok lt ∧
      get_confirmed_tracks tt ord s = Ok lc ∧ Permutation la (lt ++ lc) ∧ NoDup (tt_uuid <$> la) ∧
      (tt_uuid <$> la) = ord.
  Proof.
    intros Hi [Hnd Hord].
    assert (∀ u, u ∈ ord → is_Some (m_tracks s !! u)) as H by (intros; apply Hord; done).
    clear Hord. unfold get_tentative_tracks, get_confirmed_tracks.
    assert (∃ la lt lc, get_all_tracks tt ord s = Ok la ∧ collect tt Tentative ord s = Ok lt ∧
      collect tt Confirmed ord s = Ok lc ∧ Permutation la (lt ++ lc) ∧ (tt_uuid <$> la) = ord) as HH.
    { clear Hnd. induction ord as [|u ord IH]; cbn.
      - exists [], [], []. done.
      - destruct (H u) as [t Ht]; [apply elem_of_cons; auto|]. rewrite Ht.
        rewrite (inv_tracks _ _ Hi) in Ht. apply fmap_Some in Ht as (e & He & ->).
        rewrite (inv_statuses _ _ Hi), He. cbn.
        destruct IH as (la & lt & lc & -> & -> & -> & HP & Hu); [intros; apply H; apply elem_of_cons; auto|].
        cbn. pose proof (inv_view s u e Hi He) as [Hue _].
        destruct (e_status e); cbn.
        + exists (e_track e :: la), lt, (e_track e :: lc).
          do 3 (split; [done|]). split; [|cbn; congruence].
          rewrite HP. by rewrite <- Permutation_middle.
        + exists (e_track e :: la), (e_track e :: lt), lc.
          do 3 (split; [done|]). split; [|cbn; congruence].
          rewrite HP. done. }
    destruct HH as (la & lt & lc & H1 & H2 & H3 & HP & Hu). exists la, lt, lc.
    do 4 (split; [done|]). rewrite Hu. done.
  Qed.

  (** ** Bounds on the counters *)
  Lemma update_entry_small p r b e :
    (1 ≤ e_count e)%N → (e_count e + 1 < size_mod)%N →
    update_entry_wrap p r b e = update_entry p r b e.
  Proof.
    intros H1 H2. unfold update_entry_wrap, update_entry, next_count.
    rewrite size_incr_small by done. rewrite size_decr_pos by lia. done.
  Qed.

  Definition pupdates (h : list (pcall tt)) : N :=
    N.of_nat (length (List.filter (λ c, match c with PSeen _ => true | _ => false end) h)).

  Lemma pupdates_project u h : pupdates (project u h) = updates h.
  Proof.
    unfold pupdates, updates, project. f_equal. induction h as [|c h IH]; [done|].
    cbn [mbind list_bind]. rewrite List.filter_app, app_length, IH.
    destruct c; cbn; try done; destruct (decide _); done.
  Qed.

  Lemma pcount_bound p r h p' r' e :
    (pupdates h + 1 < size_mod)%N →
    foldl pstep (p, r, None) h = (p', r', Some e) →
    (1 ≤ e_count e ≤ pupdates h + 1)%N.
  Proof.
    revert p' r' e. induction h as [|c h IH] using rev_ind; intros p' r' e Hb; [done|].
    rewrite foldl_app. cbn.
    assert (pupdates (h ++ [c]) = (pupdates h + pupdates [c])%N) as Hsum.
    { unfold pupdates. rewrite List.filter_app, app_length. lia. }
    rewrite Hsum in *.
    destruct (foldl pstep (p, r, None) h) as [[p0 r0] o] eqn:E.
    destruct o as [e0|].
    - specialize (IH p0 r0 e0 ltac:(lia) eq_refl).
      destruct c; cbn in *; intros Heq; simplify_eq/=.
      + lia.
      + change (pupdates [PSeen b]) with 1%N in *.
        match goal with H : update_entry_wrap _ _ _ _ = _ |- _ => rename H into Hu end.
        rewrite update_entry_small in Hu by lia.
        unfold update_entry, next_count in Hu. destruct (decide _) as [|Hn]; [done|].
        injection Hu as <-. cbn. destruct b; lia.
      + unfold promote; cbn. change (pupdates [PSetPromotion p']) with 0%N. lia.
      + match goal with H : keep_above _ _ = _ |- _ => rename H into Hu end.
        unfold keep_above in Hu. destruct (decide _); [done|]. simplify_eq. lia.
      + lia.
      + lia.
    - destruct c; cbn; intros Heq; simplify_eq/=. lia.
  Qed.

  Lemma count_bound (L : lawful tt) p r h s u e :
    reached tt p r h s → (updates h + 1 < size_mod)%N → view s u = Some e →
    (1 ≤ e_count e ≤ updates h + 1)%N.
  Proof.
    intros Hr Hb He. pose proof (reached_view L p r h s u Hr) as HH. rewrite He in HH.
    rewrite <- (pupdates_project u h) in *. eapply pcount_bound; [done|]. symmetry. exact HH.
  Qed.
End Proofs.
