(** Proofs about fuse_associations. *)
From Coq Require Import String List Bool Arith Lia Sorted.
From Verif Require Import Base Uuid OrdFacts DynObj Matching Fusing FusingSpec.
Import ListNotations.

Lemma uuid_eqb_eq a b : uuid_eqb a b = true <-> a = b.
Proof.
  unfold uuid_eqb. rewrite <- (bytes_compare_eq a b). destruct (bytes_compare a b); intuition congruence.
Qed.

(** ** Lists with positions *)
Fixpoint enum_from {A} (n : nat) (l : list A) : list (nat * A) :=
  match l with [] => [] | x :: l => (n, x) :: enum_from (S n) l end.
Definition enum {A} (l : list A) := enum_from 0 l.

Lemma enum_from_in {A} (l : list A) n i x :
  In (i, x) (enum_from n l) <-> n <= i /\ nth_error l (i - n) = Some x.
Proof.
  revert n. induction l as [|y l IH]; intros n; cbn.
  - split; [tauto|]. intros [_ H]. now destruct (i - n).
  - rewrite IH. split.
    + intros [[= <- <-]|[H1 H2]].
      * split; [lia|]. now rewrite Nat.sub_diag.
      * split; [lia|]. replace (i - n) with (S (i - S n)) by lia. exact H2.
    + intros [H1 H2]. destruct (Nat.eq_dec n i) as [->|N].
      * left. rewrite Nat.sub_diag in H2. now injection H2 as ->.
      * right. split; [lia|]. replace (i - n) with (S (i - S n)) in H2 by lia. exact H2.
Qed.
Lemma enum_in {A} (l : list A) i x : In (i, x) (enum l) <-> nth_error l i = Some x.
Proof. unfold enum. rewrite enum_from_in, Nat.sub_0_r. intuition lia. Qed.
Lemma enum_sorted {A} (l : list A) n : StronglySorted (fun p q => fst p < fst q) (enum_from n l).
Proof.
  revert n. induction l as [|x l IH]; intros n; cbn; constructor; [apply IH|].
  apply Forall_forall. intros [i y] H. apply enum_from_in in H. cbn. lia.
Qed.

Lemma sorted_app {A} (R : A -> A -> Prop) l1 l2 :
  StronglySorted R l1 -> StronglySorted R l2 -> (forall x y, In x l1 -> In y l2 -> R x y) ->
  StronglySorted R (l1 ++ l2).
Proof.
  intros H1 H2 H. induction H1 as [|x l H1 IH HF]; cbn; [exact H2|]. constructor.
  - apply IH. intros a b Ha. apply H. now right.
  - apply Forall_app. split; [exact HF|]. apply Forall_forall. intros y Hy. apply H; [now left|exact Hy].
Qed.
Lemma sorted_flat_map {A B} (R : A -> A -> Prop) (R' : B -> B -> Prop) (f : A -> list B) l :
  StronglySorted R l -> (forall a, In a l -> StronglySorted R' (f a)) ->
  (forall a a' b b', R a a' -> In b (f a) -> In b' (f a') -> R' b b') ->
  StronglySorted R' (flat_map f l).
Proof.
  intros Hl Hf Hc. induction Hl as [|x l Hl IH HF]; cbn; [constructor|].
  apply sorted_app.
  - apply Hf. now left.
  - apply IH. intros a Ha. apply Hf. now right.
  - intros b b' Hb Hb'. apply in_flat_map in Hb' as [a' [Ha' Hb']].
    rewrite Forall_forall in HF. apply (Hc x a'); auto.
Qed.

(** ** The loops as one traversal *)
Fixpoint traverse {A B} (f : A -> result B) (l : list A) : result (list B) :=
  match l with
  | [] => Ok []
  | x :: l => let* y := f x in let* ys := traverse f l in Ok (y :: ys)
  end.
Lemma traverse_app {A B} (f : A -> result B) l1 l2 :
  traverse f (l1 ++ l2) = (let* a := traverse f l1 in let* b := traverse f l2 in Ok (a ++ b)).
Proof.
  induction l1 as [|x l1 IH]; cbn.
  - now destruct (traverse f l2).
  - destruct (f x); cbn; [|reflexivity..]. rewrite IH.
    destruct (traverse f l1); cbn; [|reflexivity..]. now destruct (traverse f l2).
Qed.

Section Fuse.
  Context {Trk Det : Type} (tu : Trk -> uuid) (du : Det -> uuid) (visit : Trk -> Det -> result Trk).
  Let item : Type := place * (Trk * Det).

  Lemma listed_in u ids : listed u ids = true <-> In u ids.
  Proof.
    unfold listed. rewrite existsb_exists. split.
    - intros [v [H E]]. apply uuid_eqb_eq in E. now subst.
    - intros H. exists u. split; [exact H|]. now apply uuid_eqb_eq.
  Qed.

  Definition items_d (i j : nat) (ids : list uuid) (t : Trk) (ds : list (nat * Det)) : list item :=
    flat_map (fun '(k, d) => if listed (du d) ids then [((i, j, k), (t, d))] else []) ds.
  Definition items_t (i : nat) (key : uuid) (ids : list uuid) (ts : list (nat * Trk)) ds : list item :=
    flat_map (fun '(j, t) => if uuid_eqb (tu t) key then items_d i j ids t ds else []) ts.
  Definition items_a (l : list (nat * (uuid * list uuid))) ts ds : list item :=
    flat_map (fun '(i, (key, ids)) => items_t i key ids ts ds) l.

  Definition go (p : item) : result Trk := visit (fst (snd p)) (snd (snd p)).
  Definition after (out : list Trk) (l : list item) : result (list Trk) :=
    let* fs := traverse go l in Ok (out ++ fs).
  Arguments go : simpl never.
  Arguments after : simpl never.

  Lemma after_nil out : after out [] = Ok out.
  Proof. unfold after. cbn. now rewrite app_nil_r. Qed.
  Lemma after_app out l1 l2 : after out (l1 ++ l2) = (let* out' := after out l1 in after out' l2).
  Proof.
    unfold after. rewrite traverse_app.
    destruct (traverse go l1); cbn; [|reflexivity..]. destruct (traverse go l2); cbn; [|reflexivity..].
    now rewrite app_assoc.
  Qed.

  Lemma fuse_detections_items i j ids t ds n out :
    fuse_detections du visit ids t ds out = after out (items_d i j ids t (enum_from n ds)).
  Proof.
    revert n out. induction ds as [|d ds IH]; intros n out; cbn; [now rewrite after_nil|].
    destruct (listed (du d) ids); cbn [app]; [|apply IH].
    change (((i, j, n), (t, d)) :: flat_map ?f ?l) with ([((i, j, n), (t, d))] ++ flat_map f l).
    rewrite after_app. unfold after at 1. cbn. unfold go at 1. cbn.
    destruct (visit t d); cbn; [|reflexivity..]. apply IH.
  Qed.
  Lemma fuse_tracks_items i key ids ts ds n out :
    fuse_tracks tu du visit key ids ts ds out = after out (items_t i key ids (enum_from n ts) (enum ds)).
  Proof.
    revert n out. induction ts as [|t ts IH]; intros n out; cbn; [now rewrite after_nil|].
    destruct (uuid_eqb (tu t) key); [|apply IH].
    rewrite after_app, <- (fuse_detections_items i n ids t ds 0).
    destruct (fuse_detections du visit ids t ds out); cbn; [|reflexivity..]. apply IH.
  Qed.
  Lemma fuse_loop_items l ts ds n out :
    fuse_loop tu du visit l ts ds out = after out (items_a (enum_from n l) (enum ts) (enum ds)).
  Proof.
    revert n out. induction l as [|[key ids] l IH]; intros n out; cbn; [now rewrite after_nil|].
    rewrite after_app, <- (fuse_tracks_items n key ids ts ds 0).
    destruct (fuse_tracks tu du visit key ids ts ds out); cbn; [|reflexivity..]. apply IH.
  Qed.

  Definition items assoc ts ds : list item := items_a (enum assoc) (enum ts) (enum ds).

  Lemma fuse_items assoc ts ds :
    fuse_associations tu du visit assoc ts ds = traverse go (items assoc ts ds).
  Proof.
    unfold fuse_associations. rewrite (fuse_loop_items assoc ts ds 0). unfold after, items, enum.
    destruct (traverse go _); reflexivity.
  Qed.

  Lemma items_in assoc ts ds p t d :
    In (p, (t, d)) (items assoc ts ds) <-> demands tu du assoc ts ds p t d.
  Proof.
    unfold items, items_a, items_t, items_d, demands. destruct p as [[i j] k]. split.
    - intros H. apply in_flat_map in H as [[i' [key ids]] [Hi H]].
      apply in_flat_map in H as [[j' t'] [Hj H]].
      destruct (uuid_eqb (tu t') key) eqn:E; [|destruct H].
      apply in_flat_map in H as [[k' d'] [Hk H]].
      destruct (listed (du d') ids) eqn:E'; [|destruct H].
      destruct H as [[= <- <- <- <- <-]|[]].
      apply enum_in in Hi, Hj, Hk. apply uuid_eqb_eq in E. apply listed_in in E'. subst key.
      split; [exact Hj|]. split; [exact Hk|]. exists ids. split; assumption.
    - intros (Hj & Hk & ids & Hi & HI).
      apply in_flat_map. exists (i, (tu t, ids)). split; [now apply enum_in|].
      apply in_flat_map. exists (j, t). split; [now apply enum_in|].
      replace (uuid_eqb (tu t) (tu t)) with true by (symmetry; now apply uuid_eqb_eq).
      apply in_flat_map. exists (k, d). split; [now apply enum_in|].
      replace (listed (du d) ids) with true by (symmetry; now apply listed_in). now left.
  Qed.

  Lemma items_sorted assoc ts ds :
    StronglySorted (fun a b => before (fst a) (fst b)) (items assoc ts ds).
  Proof.
    unfold items, items_a.
    apply sorted_flat_map with (R := fun p q => fst p < fst q); [apply enum_sorted| |].
    - intros [i [key ids]] _. unfold items_t.
      apply sorted_flat_map with (R := fun p q => fst p < fst q); [apply enum_sorted| |].
      + intros [j t] _. destruct (uuid_eqb (tu t) key); [|constructor]. unfold items_d.
        apply sorted_flat_map with (R := fun p q => fst p < fst q); [apply enum_sorted| |].
        * intros [k d] _. destruct (listed (du d) ids); repeat constructor.
        * intros [k d] [k' d'] b b' Hk Hb Hb'. cbn in Hk.
          destruct (listed (du d) ids); [|destruct Hb]. destruct (listed (du d') ids); [|destruct Hb'].
          destruct Hb as [<-|[]], Hb' as [<-|[]]. cbn. lia.
      + intros [j t] [j' t'] b b' Hj Hb Hb'. cbn in Hj.
        destruct (uuid_eqb (tu t) key); [|destruct Hb]. destruct (uuid_eqb (tu t') key); [|destruct Hb'].
        apply in_flat_map in Hb as [[k d] [_ Hb]], Hb' as [[k' d'] [_ Hb']].
        destruct (listed (du d) ids); [|destruct Hb]. destruct (listed (du d') ids); [|destruct Hb'].
        destruct Hb as [<-|[]], Hb' as [<-|[]]. cbn. lia.
    - intros [i [key ids]] [i' [key' ids']] b b' Hi Hb Hb'. cbn in Hi.
      apply in_flat_map in Hb as [[j t] [_ Hb]], Hb' as [[j' t'] [_ Hb']].
      destruct (uuid_eqb (tu t) key); [|destruct Hb]. destruct (uuid_eqb (tu t') key'); [|destruct Hb'].
      apply in_flat_map in Hb as [[k d] [_ Hb]], Hb' as [[k' d'] [_ Hb']].
      destruct (listed (du d) ids); [|destruct Hb]. destruct (listed (du d') ids'); [|destruct Hb'].
      destruct Hb as [<-|[]], Hb' as [<-|[]]. cbn. lia.
  Qed.

  Lemma traverse_ok l out : traverse go l = Ok out ->
    Forall2 (fun p o => visit (fst (snd p)) (snd (snd p)) = Ok o) l out.
  Proof.
    revert out. induction l as [|p l IH]; intros out; cbn; [now intros [= <-]|].
    unfold go at 1. destruct (visit _ _) eqn:E; cbn; [|discriminate..].
    destruct (traverse go l); cbn; [|discriminate..]. intros [= <-]. constructor; auto.
  Qed.

  (** A demanded position is determined by its pair. *)
  Lemma demands_fun assoc ts ds p t d t' d' :
    demands tu du assoc ts ds p t d -> demands tu du assoc ts ds p t' d' -> t = t' /\ d = d'.
  Proof.
    destruct p as [[i j] k]. intros (A & B & _) (A' & B' & _).
    rewrite A in A'. rewrite B in B'. injection A' as ->. injection B' as ->. now split.
  Qed.

  (** The result: one output per demanded position, in order. *)
  Lemma fuse_spec assoc ts ds out : fuse_associations tu du visit assoc ts ds = Ok out ->
    exists places : list place,
      StronglySorted before places /\
      (forall p, In p places <-> exists t d, demands tu du assoc ts ds p t d) /\
      Forall2 (fun p o => exists t d, demands tu du assoc ts ds p t d /\ visit t d = Ok o) places out.
  Proof.
    rewrite fuse_items. intros H. apply traverse_ok in H.
    pose proof (items_sorted assoc ts ds) as HS. pose proof (items_in assoc ts ds) as HI.
    revert HS HI H. generalize (items assoc ts ds) as l. intros l HS HI H.
    exists (map fst l). split; [|split].
    - induction HS as [|x m HS' IH HF]; cbn; constructor.
      + clear - HS'. induction HS' as [|y m HS' IH HF]; cbn; constructor; [exact IH|].
        apply Forall_map. exact HF.
      + apply Forall_map. exact HF.
    - intros p. rewrite in_map_iff. split.
      + intros [[q [t d]] [<- Hq]]. exists t, d. now apply HI.
      + intros (t & d & D). exists (p, (t, d)). split; [reflexivity|]. now apply HI.
    - assert (forall p t d, In (p, (t, d)) l -> demands tu du assoc ts ds p t d) as HD
        by (intros p t d; apply HI).
      clear HS HI. induction H as [|[p [t d]] o m outs Hp H IH]; cbn; constructor.
      + exists t, d. split; [apply HD; now left|exact Hp].
      + apply IH. intros q t' d' Hq. apply HD. now right.
  Qed.

  (** The first demanded pair that cannot be fused decides the outcome. *)
  Lemma traverse_fail l : match traverse go l with
    | Ok _ => True
    | r => exists l1 p l2, l = l1 ++ p :: l2 /\ Forall (fun q => exists o, go q = Ok o) l1 /\
             match go p, r with Throw e, Throw e' => e = e' | UB, UB => True | _, _ => False end
    end.
  Proof.
    induction l as [|p l IH]; cbn; [exact I|].
    destruct (go p) eqn:E; cbn.
    - destruct (traverse go l); cbn; [exact I| |];
        destruct IH as (l1 & q & l2 & -> & HF & Hq); exists (p :: l1), q, l2;
        (split; [reflexivity|split; [constructor; eauto|exact Hq]]).
    - exists [], p, l. now rewrite E.
    - exists [], p, l. now rewrite E.
  Qed.
  Lemma fuse_fails assoc ts ds r : fuse_associations tu du visit assoc ts ds = r ->
    (forall out, r <> Ok out) ->
    exists p t d, demands tu du assoc ts ds p t d /\ visit t d = match r with UB => UB | Throw e => Throw e | Ok _ => UB end /\
      forall p' t' d', before p' p -> demands tu du assoc ts ds p' t' d' -> exists o, visit t' d' = Ok o.
  Proof.
    rewrite fuse_items. intros E N. pose proof (traverse_fail (items assoc ts ds)) as F. rewrite E in F.
    pose proof (items_sorted assoc ts ds) as HS. pose proof (items_in assoc ts ds) as HI.
    assert (exists l1 p l2, items assoc ts ds = l1 ++ p :: l2 /\ Forall (fun q => exists o, go q = Ok o) l1 /\
             match go p, r with Throw e, Throw e' => e = e' | UB, UB => True | _, _ => False end)
      as (l1 & [p [t d]] & l2 & EI & HF & Hp).
    { destruct r; [exfalso; eapply N; reflexivity|exact F|exact F]. }
    exists p, t, d. split; [apply HI; rewrite EI; apply in_or_app; right; now left|]. split.
    { unfold go in Hp. cbn in Hp. destruct (visit t d), r; try easy. now subst. }
    intros p' t' d' B D. apply HI in D. rewrite EI in D, HS. apply in_app_or in D.
    destruct D as [D|[D|D]].
    - rewrite Forall_forall in HF. exact (HF _ D).
    - injection D as -> -> ->. exfalso. destruct p' as [[a b] c]. cbn in B. lia.
    - exfalso. clear - HS B D. induction l1 as [|x l1 IH]; cbn in HS.
      + inversion HS as [|? ? _ HF]. subst. rewrite Forall_forall in HF. apply HF in D. cbn in D.
        destruct p as [[a b] c], p' as [[a' b'] c']. cbn in *. lia.
      + inversion HS. subst. now apply IH.
  Qed.

  (** Conversely, fusion succeeds when every demanded pair can be fused. *)
  Lemma fuse_succeeds assoc ts ds :
    (forall p t d, demands tu du assoc ts ds p t d -> exists o, visit t d = Ok o) ->
    exists out, fuse_associations tu du visit assoc ts ds = Ok out.
  Proof.
    intros H. destruct (fuse_associations tu du visit assoc ts ds) as [out|e|] eqn:E.
    - now exists out.
    - destruct (fuse_fails assoc ts ds _ E) as (p & t & d & D & V & _); [discriminate|].
      destruct (H p t d D) as [o O]. rewrite O in V. discriminate.
    - destruct (fuse_fails assoc ts ds _ E) as (p & t & d & D & V & _); [discriminate|].
      destruct (H p t d D) as [o O]. rewrite O in V. discriminate.
  Qed.

  Lemma fuse_outcome assoc ts ds :
    ((exists out, fuse_associations tu du visit assoc ts ds = Ok out) <->
     (forall p t d, demands tu du assoc ts ds p t d -> exists o, visit t d = Ok o)) /\
    (forall e, fuse_associations tu du visit assoc ts ds = Throw e ->
     exists p t d, demands tu du assoc ts ds p t d /\ visit t d = Throw e /\
     forall p' t' d', before p' p -> demands tu du assoc ts ds p' t' d' -> exists o, visit t' d' = Ok o).
  Proof.
    split; [split; [|apply fuse_succeeds]|].
    - intros [out E] p t d D. destruct (fuse_spec assoc ts ds out E) as (ps & _ & Hin & HF).
      assert (In p ps) as Hp by (apply Hin; eauto).
      clear - Hp HF D. induction HF as [|q o ps outs (t' & d' & D' & V) HF IH]; [destruct Hp|].
      destruct Hp as [->|Hp]; [|auto].
      destruct (demands_fun assoc ts ds p t d t' d' D D') as [<- <-]. eauto.
    - intros e E. destruct (fuse_fails assoc ts ds _ E) as (p & t & d & D & V & B); [discriminate|].
      exists p, t, d. auto.
  Qed.
End Fuse.
