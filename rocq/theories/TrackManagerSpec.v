(** Specification vocabulary for the track manager, independent of how the
    manager stores its data. *)
From stdpp Require Import gmap strings.
From Coq Require Import NArith ZArith.
From Verif Require Import Base Uuid OrdMap DynObj TrackManager.

(** What a manager knows about one uuid: the stored track, its status, and how
    often it has been seen. *)
Record entry (A : Type) := Entry { e_track : A; e_status : status; e_count : N }.
Arguments Entry {A}. Arguments e_track {A}. Arguments e_status {A}. Arguments e_count {A}.

Section Spec.
  Context {tt : track_type}.

  Definition view (s : mgr tt) (u : uuid) : option (entry tt) :=
    match m_tracks s !! u, m_statuses s !! u, m_occ s !! u with
    | Some t, Some st, Some n => Some (Entry t st n)
    | _, _, _ => None
    end.

  Definition seen (a : assoc_map) (u : uuid) : Prop := u ∈ a.*1.
  Global Instance seen_dec a u : Decision (seen a u).
  Proof. unfold seen. apply _. Defined.

  (** The intended life of one track under one update (counters unbounded). *)
  Definition next_count (p : N) (is_seen : bool) (n : N) : N :=
    if is_seen then N.min (n + 1) p else (n - 1)%N.
  Definition update_entry (p r : N) (is_seen : bool) (e : entry tt) : option (entry tt) :=
    let n := next_count p is_seen (e_count e) in
    if decide (n ≤ r)%N then None
    else Some (Entry (e_track e) (if decide (p ≤ n)%N then Confirmed else e_status e) n).

  (** The part of a call that concerns uuid [u]. *)
  Inductive pcall :=
  | PAdd (t : tt)
  | PSeen (b : bool)
  | PSetPromotion (p : N)
  | PSetRemoval (r : N)
  | PUpdateFields (arg : tt_arg tt)
  | PUpdateFrom (t : tt).

  Definition project1 (u : uuid) (c : call tt) : list pcall :=
    match c with
    | Add t => if decide (tt_uuid t = u) then [PAdd t] else []
    | UpdateLists a => [PSeen (bool_decide (seen a u))]
    | SetPromotion p => [PSetPromotion p]
    | SetRemoval r => [PSetRemoval r]
    | UpdateFields id arg => if decide (id = u) then [PUpdateFields arg] else []
    | UpdateFrom id t => if decide (id = u) then [PUpdateFrom t] else []
    end.
  Definition project (u : uuid) (h : list (call tt)) : list pcall := h ≫= project1 u.

  Definition is_update (c : call tt) : bool :=
    match c with UpdateLists _ => true | _ => false end.
  Definition updates (h : list (call tt)) : N :=
    N.of_nat (length (List.filter is_update h)).

  (** The assumption on the template argument: update_track keeps the uuid and
      has defined behaviour. *)
  Definition keeps_uuid (fs : list (tt -> result tt)) : Prop :=
    ∀ f t, f ∈ fs → match f t with Ok t' => tt_uuid t' = tt_uuid t | Throw _ => True | UB => False end.
  Definition lawful : Prop :=
    (∀ arg, keeps_uuid (tt_set arg)) ∧ (∀ t, keeps_uuid (tt_copy t)).
End Spec.
Arguments lawful : clear implicits.
Arguments pcall : clear implicits.

Lemma plain_lawful T S C : lawful (plain_track T S C).
Proof.
  split.
  - intros [[t s] c] f o Hf. cbn in Hf.
    rewrite !elem_of_cons, elem_of_nil in Hf. destruct Hf as [->|[->|[->|[]]]]; done.
  - intros src f o Hf. cbn in Hf.
    rewrite !elem_of_cons, elem_of_nil in Hf. destruct Hf as [->|[->|[->|[]]]]; done.
Qed.

Lemma variant_lawful T S1 C1 S2 C2 : lawful (variant_track T S1 C1 S2 C2).
Proof.
  split.
  - intros [[t s] c] f o Hf. cbn in Hf.
    rewrite !elem_of_cons, elem_of_nil in Hf.
    destruct Hf as [->|[->|[->|[]]]], o; cbn; try done; destruct s, c; done.
  - intros src f o Hf. cbn in Hf.
    rewrite !elem_of_cons, elem_of_nil in Hf.
    destruct Hf as [->|[->|[->|[]]]], o; cbn; try done; destruct src; done.
Qed.

(** Observations through the public getters: some iteration order lists [t]. *)
Section Observe.
  Context {tt : track_type}.
  Definition listed (getter : list uuid → mgr tt → result (list tt)) (s : mgr tt) (t : tt) : Prop :=
    ∃ ord l, order_of ord (m_tracks s) ∧ getter ord s = Ok l ∧ t ∈ l.
End Observe.
