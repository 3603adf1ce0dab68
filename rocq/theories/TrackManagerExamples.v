(** Concrete histories, used for refutations and to show that the hypotheses of
    the theorems can be met. *)
From stdpp Require Import gmap strings.
From Coq Require Import NArith ZArith Lia ZifyN ZifyBool.
From Verif Require Import Base Uuid OrdMap OrdFacts DynObj TrackManager TrackManagerSpec
  TrackManagerProofs TrackManagerThms.

Section Exec.
  Context {tt : track_type}.
  (** Run a history with one particular choice of iteration orders. *)
  Definition pick (c : call tt) (s : mgr tt) : list uuid :=
    match c with
    | SetPromotion _ => (map_to_list (m_tracks s)).*1
    | _ => (map_to_list (m_occ s)).*1
    end.
  Definition exec1 (s : mgr tt) (c : call tt) : mgr tt := fst (step tt (pick c s) c s).
  Definition exec (h : list (call tt)) (s : mgr tt) : mgr tt := foldl exec1 s h.

  Lemma pick_valid c s : valid_order tt (pick c s) c s.
  Proof. destruct c; cbn; try done; apply some_order. Qed.

  Lemma exec_run h s : Forall (valid_call tt) h → run tt s h (exec h s).
  Proof.
    induction h as [|c h IH] using rev_ind; intros Hf; [constructor|].
    apply Forall_app in Hf as [Hf Hc]. apply Forall_cons in Hc as [Hc _].
    unfold exec. rewrite foldl_app. cbn. apply run_snoc; [by apply IH|done|apply pick_valid].
  Qed.

  Lemma exec_reached p r h :
    (p < size_mod)%N → (r < size_mod)%N → Forall (valid_call tt) h →
    reached tt p r h (exec h (mgr_init tt p r)).
  Proof. intros Hp Hr Hf. split; [done|]. split; [done|]. by apply exec_run. Qed.

  Lemma run_trans s1 h1 s2 h2 s3 : run tt s1 h1 s2 → run tt s2 h2 s3 → run tt s1 (h1 ++ h2) s3.
  Proof.
    intros H1 H2. induction H2 as [|h c s ord H2 IH Hc Ho].
    - rewrite app_nil_r. done.
    - rewrite app_assoc. by constructor.
  Qed.
End Exec.

Definition TZ : track_type := plain_track Z Z Z.
Definition TV : track_type := variant_track Z Z Z bool bool.
Open Scope string_scope.
Definition trk (u : uuid) : TZ := DynObj 0%Z 0%Z 0%Z u kUnknown.

Lemma reachable_exec {tt : track_type} p r (h : list (call tt)) :
  (p < size_mod)%N → (r < size_mod)%N → Forall (valid_call tt) h →
  reachable tt (exec h (mgr_init tt p r)).
Proof. intros. exists p, r, h. by apply exec_reached. Qed.

(** Two tracks, one of them seen in two updates (confirmed), the other once. *)
Definition h_demo : list (call TZ) :=
  [Add (trk "a"); Add (trk "b"); UpdateLists [("a", ["d1"]); ("b", ["d2"])]; UpdateLists [("a", ["d1"])];
   Add (trk "c")].
Definition s_demo : mgr TZ := exec h_demo (mgr_init TZ 3 0).

Lemma h_demo_valid : Forall (valid_call TZ) h_demo.
Proof. repeat constructor. Qed.
Lemma s_demo_reached : reached TZ 3 0 h_demo s_demo.
Proof. apply exec_reached; [done|done|apply h_demo_valid]. Qed.
Lemma s_demo_reachable : reachable TZ s_demo.
Proof. exists 3%N, 0%N, h_demo. apply s_demo_reached. Qed.
Lemma s_demo_view :
  view s_demo "a" = Some (Entry (trk "a") Confirmed 3%N) ∧
  view s_demo "b" = Some (Entry (trk "b") Tentative 1%N) ∧
  view s_demo "c" = Some (Entry (trk "c") Tentative 1%N) ∧ view s_demo "x" = None.
Proof. vm_compute. done. Qed.

(** A confirmed track missed once, then the promotion threshold is set to the
    value it already has. *)
Definition s_missed : mgr TZ := exec (h_demo ++ [UpdateLists []]) (mgr_init TZ 3 0).
Lemma s_missed_reachable : reachable TZ s_missed.
Proof.
  apply reachable_exec; [done|done|]. apply Forall_app. split; [apply h_demo_valid|repeat constructor].
Qed.
Lemma reset_promotion_demotes :
  ∃ s ord s' t, reachable TZ s ∧ order_of ord (m_tracks s) ∧
    set_promotion TZ ord (get_promotion_threshold TZ s) s = (s', Ok ()) ∧
    listed (get_confirmed_tracks TZ) s t ∧ ¬ listed (get_confirmed_tracks TZ) s' t.
Proof.
  exists s_missed, (map_to_list (m_tracks s_missed)).*1,
    (fst (set_promotion TZ (map_to_list (m_tracks s_missed)).*1 3 s_missed)), (trk "a").
  pose proof s_missed_reachable as Hr. pose proof (some_order (m_tracks s_missed)) as Ho.
  destruct (set_promotion_thm (plain_lawful Z Z Z) s_missed _ 3%N Hr ltac:(done) Ho)
    as (s' & HE & _ & _ & Hv).
  split; [done|]. split; [done|]. split; [|split].
  - change (get_promotion_threshold TZ s_missed) with 3%N. fold TZ in HE. rewrite HE. done.
  - apply (listed_status Confirmed s_missed (trk "a")); [apply (reachable_inv (plain_lawful Z Z Z)); done|].
    exists 2%N. vm_compute. done.
  - fold TZ in HE. rewrite HE. cbn. intros Hl.
    apply (listed_status Confirmed s' (trk "a")) in Hl as [n Hn].
    + specialize (Hv "a"). vm_compute (view s_missed "a") in Hv. vm_compute in Hv.
      vm_compute in Hn. congruence.
    + destruct (set_promotion_view _ 3%N s_missed
        (reachable_inv (plain_lawful Z Z Z) _ Hr) ltac:(done) Ho) as (s2 & HE2 & Hi & _).
      fold TZ in HE2. rewrite HE in HE2. injection HE2 as <-. done.
Qed.
