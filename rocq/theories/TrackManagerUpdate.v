(** update_track on plain and variant tracks; the counter wrap-around. *)
From stdpp Require Import gmap strings.
From Coq Require Import NArith ZArith Lia ZifyN ZifyBool.
From Verif Require Import Base Uuid OrdMap OrdFacts DynObj TrackManager TrackManagerSpec
  TrackManagerProofs TrackManagerThms TrackManagerExamples.

(** The effect of update_track in terms of one entry: the stored track is
    replaced by [t'], everything else is as before. *)
Definition replaced {tt : track_type} (s s' : mgr tt) (id : uuid) (e : entry tt) (t' : tt) : Prop :=
  view s' id = Some (Entry t' (e_status e) (e_count e)) ∧
  (∀ u, u ≠ id → view s' u = view s u) ∧
  m_promo s' = m_promo s ∧ m_removal s' = m_removal s.

Section Plain.
  Context {T S C : Type}.
  Let P := plain_track T S C.

  Lemma plain_update_fields (s : mgr P) id ts st cov :
    reachable P s →
    match view s id with
    | None => update_track_fields P id (ts, st, cov) s = (s, Throw out_of_range)
    | Some e => ∃ s', update_track_fields P id (ts, st, cov) s = (s', Ok ()) ∧
        replaced s s' id e (DynObj ts st cov (o_uuid (e_track e)) (o_class (e_track e)))
    end.
  Proof.
    intros Hr. apply (reachable_inv (plain_lawful T S C)) in Hr as Hi.
    pose proof (modify_view id (tt_set ((ts, st, cov) : tt_arg P)) s Hi
                  (proj1 (plain_lawful T S C) (ts, st, cov))) as H.
    unfold update_track_fields. destruct (view s id) as [e|]; [|done].
    destruct H as (s' & H1 & _ & H2 & H3 & H4 & H5). exists s'. split; [exact H1|].
    unfold replaced. split; [exact H4|]. done.
  Qed.

  Lemma plain_update_from (s : mgr P) id (src : dyn_obj T S C) :
    reachable P s →
    match view s id with
    | None => update_track_from P id src s = (s, Throw out_of_range)
    | Some e => ∃ s', update_track_from P id src s = (s', Ok ()) ∧
        replaced s s' id e (DynObj (o_timestamp src) (o_state src) (o_cov src)
                              (o_uuid (e_track e)) (o_class (e_track e)))
    end.
  Proof.
    intros Hr. apply (reachable_inv (plain_lawful T S C)) in Hr as Hi.
    pose proof (modify_view id (tt_copy (src : P)) s Hi
                  (proj2 (plain_lawful T S C) src)) as H.
    unfold update_track_from. destruct (view s id) as [e|]; [|done].
    destruct H as (s' & H1 & _ & H2 & H3 & H4 & H5). exists s'. split; [exact H1|].
    unfold replaced. split; [exact H4|]. done.
  Qed.
End Plain.

Section Variant.
  Context {T S1 C1 S2 C2 : Type}.
  Let V := variant_track T S1 C1 S2 C2.

  (** What a successful update from [src] makes of the stored track; [None] when
      the motion models differ. *)
  Definition merged (old src : vobj T S1 C1 S2 C2) : option (vobj T S1 C1 S2 C2) :=
    match old, src with
    | Ctrv a, Ctrv x => Some (Ctrv (DynObj (o_timestamp x) (o_state x) (o_cov x) (o_uuid a) (o_class a)))
    | Ctra b, Ctra y => Some (Ctra (DynObj (o_timestamp y) (o_state y) (o_cov y) (o_uuid b) (o_class b)))
    | _, _ => None
    end.
  (** The stored track with only the time stamp replaced. *)
  Definition restamped (old : vobj T S1 C1 S2 C2) (ts : T) : vobj T S1 C1 S2 C2 :=
    match old with
    | Ctrv a => Ctrv (DynObj ts (o_state a) (o_cov a) (o_uuid a) (o_class a))
    | Ctra b => Ctra (DynObj ts (o_state b) (o_cov b) (o_uuid b) (o_class b))
    end.

  Lemma variant_update_from (s : mgr V) id (src : vobj T S1 C1 S2 C2) :
    reachable V s →
    match view s id with
    | None => update_track_from V id src s = (s, Throw out_of_range)
    | Some e =>
        match merged (e_track e) src with
        | Some t' => ∃ s', update_track_from V id src s = (s', Ok ()) ∧ replaced s s' id e t'
        | None => ∃ s', update_track_from V id src s = (s', Throw runtime_error) ∧
                        replaced s s' id e (restamped (e_track e) (v_timestamp src))
        end
    end.
  Proof.
    intros Hr. apply (reachable_inv (variant_lawful T S1 C1 S2 C2)) in Hr as Hi.
    pose proof (modify_view id (tt_copy (src : V)) s Hi
                  (proj2 (variant_lawful T S1 C1 S2 C2) src)) as H.
    unfold update_track_from. destruct (view s id) as [[t st n]|]; [|done].
    destruct H as (s' & H1 & _ & H2 & H3 & H4 & H5).
    destruct t, src; cbn in *; exists s'; (split; [exact H1|]); unfold replaced; (split; [exact H4|]); done.
  Qed.

  Lemma variant_update_fields (s : mgr V) id ts (st : var2 S1 S2) (cov : var2 C1 C2) :
    reachable V s →
    match view s id with
    | None => update_track_fields V id (ts, st, cov) s = (s, Throw out_of_range)
    | Some e =>
        match e_track e, st, cov with
        | Ctrv a, Ctrv x, Ctrv c => ∃ s', update_track_fields V id (ts, st, cov) s = (s', Ok ()) ∧
            replaced s s' id e (Ctrv (DynObj ts x c (o_uuid a) (o_class a)))
        | Ctra b, Ctra y, Ctra c => ∃ s', update_track_fields V id (ts, st, cov) s = (s', Ok ()) ∧
            replaced s s' id e (Ctra (DynObj ts y c (o_uuid b) (o_class b)))
        | Ctrv a, Ctrv x, Ctra _ => ∃ s', update_track_fields V id (ts, st, cov) s = (s', Throw runtime_error) ∧
            replaced s s' id e (Ctrv (DynObj ts x (o_cov a) (o_uuid a) (o_class a)))
        | Ctra b, Ctra y, Ctrv _ => ∃ s', update_track_fields V id (ts, st, cov) s = (s', Throw runtime_error) ∧
            replaced s s' id e (Ctra (DynObj ts y (o_cov b) (o_uuid b) (o_class b)))
        | old, _, _ => ∃ s', update_track_fields V id (ts, st, cov) s = (s', Throw runtime_error) ∧
            replaced s s' id e (restamped old ts)
        end
    end.
  Proof.
    intros Hr. apply (reachable_inv (variant_lawful T S1 C1 S2 C2)) in Hr as Hi.
    pose proof (modify_view id (tt_set ((ts, st, cov) : tt_arg V)) s Hi
                  (proj1 (variant_lawful T S1 C1 S2 C2) (ts, st, cov))) as H.
    unfold update_track_fields. destruct (view s id) as [[t sta n]|]; [|done].
    destruct H as (s' & H1 & _ & H2 & H3 & H4 & H5).
    destruct t, st, cov; cbn in *; exists s'; (split; [exact H1|]); unfold replaced; (split; [exact H4|]); done.
  Qed.
End Variant.

(** A variant track of the first model, updated from one of the second. *)
Definition vtrk : TV := Ctrv (DynObj 0%Z 0%Z 0%Z "a" kUnknown).
Definition vsrc : TV := Ctra (DynObj 7%Z true true "a" kUnknown).
Definition s_var : mgr TV := exec [Add vtrk] (mgr_init TV 3 0).
Lemma s_var_reachable : reachable TV s_var.
Proof. apply reachable_exec; [done|done|repeat constructor]. Qed.
Lemma s_var_view : view s_var "a" = Some (Entry vtrk Tentative 1%N).
Proof. vm_compute. done. Qed.

Lemma throwing_update_changes_track :
  ∃ (s s' : mgr TV) id src e, reachable TV s ∧
    update_track_from TV id src s = (s', Throw e) ∧ view s' id ≠ view s id.
Proof.
  pose proof (variant_update_from s_var "a" vsrc s_var_reachable) as H.
  change (variant_track Z Z Z bool bool) with TV in H.
  rewrite s_var_view in H. cbn in H. destruct H as (s' & HE & Hv & _).
  exists s_var, s', "a", vsrc, runtime_error. split; [apply s_var_reachable|]. split; [exact HE|].
  change (variant_track Z Z Z bool bool) with TV in Hv. rewrite s_var_view. intros Hq.
  pose proof (eq_trans (eq_sym Hv) Hq) as Hc. discriminate Hc.
Qed.

(** ** The counter wraps after 2^64 - 2 sightings. *)
Definition wrap_assoc : assoc_map := [("a", ["d"])].
Definition wrap_history (k : nat) : list (call TZ) :=
  Add (trk "a") :: replicate k (UpdateLists wrap_assoc).

Lemma wrap_project k : project (tt:=TZ) "a" (replicate k (UpdateLists wrap_assoc)) = replicate k (PSeen true).
Proof.
  induction k as [|k IH]; [done|]. unfold project in *. cbn [replicate mbind list_bind]. rewrite IH. done.
Qed.
Lemma wrap_updates k : updates (wrap_history k) = N.of_nat k.
Proof.
  unfold updates, wrap_history. cbn [List.filter is_update]. f_equal.
  induction k as [|k IH]; [done|]. cbn. f_equal. exact IH.
Qed.
Lemma wrap_valid k : Forall (valid_call TZ) (wrap_history k).
Proof. constructor; [done|]. apply Forall_replicate. done. Qed.

Lemma counter_wrap_k k p :
  (p = 2 ^ 64 - 1)%N → (N.of_nat k = 2 ^ 64 - 2)%N →
  ∃ (s : mgr TZ) e ord s',
    reached TZ p 0 (wrap_history k) s ∧
    view s "a" = Some e ∧ e_status e = Confirmed ∧ order_of ord (m_occ s) ∧
    update_track_lists TZ ord wrap_assoc s = (s', Ok ()) ∧ view s' "a" = None.
Proof.
  intros Hp Hk. assert (size_mod = 2 ^ 64)%N as Hm by done.
  set (s := exec (wrap_history k) (mgr_init TZ p 0)).
  assert (reached TZ p 0 (wrap_history k) s) as Hreached.
  { apply exec_reached; [lia|lia|apply wrap_valid]. }
  assert (reachable TZ (mgr_init TZ p 0)) as Hinit.
  { exists p, 0%N, []. split; [lia|]. split; [lia|]. constructor. }
  destruct (promotion_latency (plain_lawful Z Z Z) (mgr_init TZ p 0) (trk "a")
              (exec1 (mgr_init TZ p 0) (Add (trk "a")))
              (replicate k (UpdateLists wrap_assoc)) s k)
    as (st & n & Hv & Hn & Hst).
  - exact Hinit.
  - done.
  - done.
  - cbn. lia.
  - cbn. lia.
  - unfold s. change (exec (wrap_history k) (mgr_init TZ p 0)) with
      (exec (replicate k (UpdateLists wrap_assoc)) (exec1 (mgr_init TZ p 0) (Add (trk "a")))).
    apply exec_run. apply Forall_replicate. done.
  - apply wrap_project.
  - lia.
  - cbn [m_promo mgr_init] in Hn, Hst. rewrite decide_False in Hn by lia.
    assert (n = 2 ^ 64 - 1)%N as -> by lia.
    assert (st = Confirmed) as -> by (apply Hst; lia).
    pose proof (reached_inv (plain_lawful Z Z Z) _ _ _ _ Hreached) as Hi.
    pose proof (some_order (m_occ s)) as Ho.
    assert (om_wf bytes_compare wrap_assoc) as Ha by done.
    destruct (update_lists_view _ wrap_assoc s Hi Ha Ho) as (s' & HE & _ & _ & _ & Hv').
    exists s, (Entry (trk "a") Confirmed (2 ^ 64 - 1)%N), (map_to_list (m_occ s)).*1, s'.
    split; [exact Hreached|]. split; [exact Hv|]. split; [done|]. split; [exact Ho|].
    split; [exact HE|]. rewrite Hv'.
    assert (view s "a" = Some (Entry (trk "a") Confirmed (2 ^ 64 - 1)%N)) as -> by exact Hv.
    cbn [mbind option_bind]. unfold update_entry_wrap. cbn [e_count].
    rewrite bool_decide_true by (apply elem_of_cons; left; done).
    assert (size_incr (2 ^ 64 - 1) = 0)%N as -> by (vm_compute; done).
    rewrite decide_True by lia. done.
Qed.

Lemma counter_wrap :
  ∃ (p r : N) h (s : mgr TZ) u e ord a s',
    (r < p)%N ∧ reached TZ p r h s ∧ updates h = (2 ^ 64 - 2)%N ∧
    view s u = Some e ∧ e_status e = Confirmed ∧
    om_wf bytes_compare a ∧ u ∈ a.*1 ∧ order_of ord (m_occ s) ∧
    update_track_lists TZ ord a s = (s', Ok ()) ∧ view s' u = None.
Proof.
  pose proof (N2Nat.id (2 ^ 64 - 2)%N) as Hk.
  set (k := N.to_nat (2 ^ 64 - 2)%N) in Hk. clearbody k.
  destruct (counter_wrap_k k (2 ^ 64 - 1)%N eq_refl Hk) as (s & e & ord & s' & H1 & H2 & H3 & H4 & H5 & H6).
  exists (2 ^ 64 - 1)%N, 0%N, (wrap_history k), s, "a", e, ord, wrap_assoc, s'.
  split; [lia|]. split; [exact H1|]. split; [rewrite wrap_updates; exact Hk|]. split; [exact H2|].
  split; [exact H3|]. split; [done|]. split; [apply elem_of_cons; left; done|]. done.
Qed.
