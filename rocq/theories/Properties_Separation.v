(** Property C85: when the associator returns the intended pairs.

    [assoc_pairs a]: the pairs of an association map; [one_to_one]: no track and
    no detection twice; [total_score]: sum of the scores as real numbers;
    [ordinary]: finite and not negative (MatchingSpec.v).  [solver_ok]: contract
    of dlib's solver; nothing is assumed about which of several maximal
    assignments it returns. *)
From Coq Require Import String List ZArith NArith Permutation Arith Bool Reals Lra Lia.
From Flocq Require Import Core IEEE754.BinarySingleNaN.
From Verif Require Import Base Uuid OrdMap Float DlibMatrix Scoring Matching MatchingSpec MatchingThms MatchingExamples
  Fusing FusingThms DynObj Pipeline SeparationThms SceneThms.
Import ListNotations.
Local Open Scope nat_scope.
Local Open Scope string_scope.

(** ** C85 *)
(** A one-to-one set of pairs that beats all others by more than the rounding
    error of the cost matrix is the one returned. *)
Theorem C85_best_by_margin : forall solve (scores : score_map f32) best top,
  solver_ok solve -> small_map scores -> map_wf scores -> complete scores ->
  (forall k v, In (k, v) scores -> ordinary v) ->
  (exists k v, In (k, v) scores /\ (0 < B2R v)%R) ->
  (exists k v, In (k, v) scores /\ top = B2R v) ->
  (forall k v, In (k, v) scores -> (B2R v <= top)%R) ->
  one_to_one best -> length best = Nat.min (length (tracks_of scores)) (length (detections_of scores)) ->
  (forall t d, In (t, d) best -> exists v, In ((t, d), v) scores) ->
  (forall other, one_to_one other -> length other = length best ->
     (forall t d, In (t, d) other -> exists v, In ((t, d), v) scores) -> ~ Permutation other best ->
     (total_score scores best + 21 / 100000000 * top * INR (length best) < total_score scores other)%R) ->
  exists a, gnn_associator solve scores = Ok a /\ Permutation (assoc_pairs a) best.
Proof. exact margin_thm. Qed.

(** In particular when the pairs of [best] have scores of at most [lo] and all
    others of at least [hi]. *)
Theorem C85_separated : forall solve (scores : score_map f32) best lo hi,
  solver_ok solve -> small_map scores -> map_wf scores -> complete scores ->
  (forall k v, In (k, v) scores -> ordinary v) ->
  (exists k v, In (k, v) scores /\ (0 < B2R v)%R) ->
  one_to_one best -> length best = Nat.min (length (tracks_of scores)) (length (detections_of scores)) ->
  (forall t d, In (t, d) best -> exists v, In ((t, d), v) scores) ->
  (forall k v, In (k, v) scores -> In k best -> (B2R v <= lo)%R) ->
  (forall k v, In (k, v) scores -> ~ In k best -> (hi <= B2R v)%R) ->
  (forall k v, In (k, v) scores -> (lo + 21 / 100000000 * B2R v * INR (length best) < hi)%R) ->
  exists a, gnn_associator solve scores = Ok a /\ Permutation (assoc_pairs a) best.
Proof. exact separated_thm. Qed.

(** From tracks and detections: when the gate lets at most one detection pass for
    each track and at most one track for each detection, and at least two pairs
    in all or one with a positive score, exactly the passing pairs are associated. *)
Theorem C85_unambiguous_gate : forall (Trk Det : Type) (tu : Trk -> uuid) (du : Det -> uuid)
    (metric : Trk -> Det -> option f32) (should_prune : f32 -> bool) solve tracks detections,
  let passes t d := exists v, metric t d = Some v /\ should_prune v = false in
  solver_ok solve -> (N.of_nat (length tracks * length detections) < 2 ^ 63)%N ->
  NoDup (map tu tracks) -> NoDup (map du detections) ->
  (forall t d d', In t tracks -> In d detections -> In d' detections -> passes t d -> passes t d' -> d = d') ->
  (forall t t' d, In t tracks -> In t' tracks -> In d detections -> passes t d -> passes t' d -> t = t') ->
  (exists t t' d d', t <> t' /\ In t tracks /\ In t' tracks /\ In d detections /\ In d' detections /\
     passes t d /\ passes t' d') \/
  (exists t d v, In t tracks /\ In d detections /\ metric t d = Some v /\ should_prune v = false /\ (0 < B2R v)%R) ->
  (forall t d v, In t tracks -> In d detections -> metric t d = Some v -> should_prune v = false ->
     ordinary v /\ small_score v) ->
  exists a, associate tu du metric should_prune solve tracks detections = Ok a /\
    om_wf bytes_compare a /\
    forall u l, In (u, l) a <-> exists t d, In t tracks /\ In d detections /\ passes t d /\ u = tu t /\ l = [du d].
Proof. intros. apply associate_clear; assumption. Qed.

(** In all three cases every solver gives the same association map. *)
Theorem C85_any_solver : forall solve solve' (scores : score_map f32) best,
  solver_ok solve -> solver_ok solve' -> small_map scores ->
  (exists a, gnn_associator solve scores = Ok a /\ Permutation (assoc_pairs a) best) ->
  (exists a, gnn_associator solve' scores = Ok a /\ Permutation (assoc_pairs a) best) ->
  gnn_associator solve scores = gnn_associator solve' scores.
Proof. exact same_map. Qed.

(** ** Examples *)
Definition apart : score_map f32 :=
  [(("t1", "d1"), f32_of_Z 1); (("t1", "d2"), f32_of_Z 20); (("t2", "d1"), f32_of_Z 25); (("t2", "d2"), f32_of_Z 2)].

Ltac values H := cbn [In apart full] in H;
  repeat (destruct H as [H|H]; [apply pair_equal_spec in H as [H <-];
    try (injection H; clear H; intros; subst); try subst|]); [..|destruct H].
Ltac value z := let E := fresh in destruct (f32_small z ltac:(lia)) as [E _]; rewrite E; clear E.

Example C85_separated_case :
  small_map apart /\ map_wf apart /\ complete apart /\ (forall k v, In (k, v) apart -> ordinary v) /\
  let best : list (uuid * uuid) := [("t1", "d1"); ("t2", "d2")] in
  one_to_one best /\ length best = Nat.min (length (tracks_of apart)) (length (detections_of apart)) /\
  (forall k v, In (k, v) apart -> In k best -> (B2R v <= 2)%R) /\
  (forall k v, In (k, v) apart -> ~ In k best -> (20 <= B2R v)%R) /\
  (forall k v, In (k, v) apart -> (2 + 21 / 100000000 * B2R v * INR (length best) < 20)%R) /\
  gnn_associator try_all apart = Ok [("t1", ["d1"]); ("t2", ["d2"])].
Proof.
  split; [reflexivity|]. split; [repeat split|]. split.
  { intros t d Ht Hd. cbn in Ht, Hd. destruct Ht as [<-|[<-|[]]], Hd as [<-|[<-|[]]]; eexists; cbn; eauto 10. }
  split.
  { intros k v H. values H; match goal with |- ordinary (f32_of_Z ?z) =>
      destruct (f32_small z ltac:(lia)) as [E F]; split; [exact F|rewrite E; lra] end. }
  intros best. split; [split; repeat constructor; cbn; intuition discriminate|]. split; [reflexivity|]. split.
  { intros k v H Hb. values H; match goal with |- (B2R (f32_of_Z ?z) <= _)%R => value z end; try lra;
      cbn in Hb; intuition discriminate. }
  split.
  { intros k v H Hb. values H; match goal with |- (_ <= B2R (f32_of_Z ?z))%R => value z end; try lra;
      exfalso; apply Hb; cbn; auto. }
  split; [|vm_compute; reflexivity].
  intros k v H. cbn [length best INR]. values H; match goal with |- context [f32_of_Z ?z] => value z end; lra.
Qed.

(** With [full] no threshold separates the two kinds of pairs (4 in the best set,
    3 outside), but the best set has total 6 and any other at least 8. *)
Example C85_margin_case :
  let best : list (uuid * uuid) := [("t1", "d2"); ("t2", "d1")] in
  complete full /\ total_score full best = 6%R /\
  (forall other, one_to_one other -> length other = length best ->
     (forall t d, In (t, d) other -> exists v, In ((t, d), v) full) -> ~ Permutation other best ->
     (total_score full best + 21 / 100000000 * 9 * INR (length best) < total_score full other)%R) /\
  gnn_associator try_all full = Ok [("t1", ["d2"]); ("t2", ["d1"])].
Proof.
  intros best. split; [apply full_complete|].
  assert (S : forall t d v, In ((t, d), v) full -> score_of full (t, d) = B2R v) by (intros t d v H; values H; reflexivity).
  assert (T : total_score full best = 6%R).
  { change (B2R (f32_of_Z 2) + (B2R (f32_of_Z 4) + 0) = 6)%R. value 2%Z; value 4%Z. lra. }
  split; [exact T|]. split; [|vm_compute; reflexivity].
  rewrite T. clear T. intros other [N1 N2] L Hin NP. cbn [length best] in L.
  destruct other as [|[t d] [|[t' d'] [|]]]; try discriminate L.
  destruct (Hin t d (or_introl eq_refl)) as [v Hv]. destruct (Hin t' d' (or_intror (or_introl eq_refl))) as [v' Hv'].
  unfold total_score, Rsum; cbn [map fold_right length best]. rewrite (S t d v Hv), (S t' d' v' Hv'). cbn [INR].
  cbn [map fst snd] in N1, N2. clear Hin L.
  values Hv; values Hv';
    first [exfalso; inversion_clear N1 as [|? ? I _]; apply I; now left
          |exfalso; inversion_clear N2 as [|? ? I _]; apply I; now left
          |exfalso; apply NP; first [apply Permutation_refl|apply perm_swap]
          |repeat match goal with |- context [f32_of_Z ?z] => value z end; lra].
Qed.

(** Tracks at 0 and 10, detections at 11, 1 and 50, gate at 8. *)
Example C85_gate_case :
  let dist (t d : uuid * Z) := Some (f32_of_Z (Z.abs (snd t - snd d))) in
  let above8 v := f32_gtb v (f32_of_Z 8) in
  let passes t d := exists v, dist t d = Some v /\ above8 v = false in
  let tracks := [("a", 0%Z); ("b", 10%Z)] in
  let detections := [("x", 11%Z); ("y", 1%Z); ("z", 50%Z)] in
  passes ("a", 0%Z) ("y", 1%Z) /\ passes ("b", 10%Z) ("x", 11%Z) /\
  (forall t d d', In t tracks -> In d detections -> In d' detections -> passes t d -> passes t d' -> d = d') /\
  (forall t t' d, In t tracks -> In t' tracks -> In d detections -> passes t d -> passes t' d -> t = t') /\
  associate fst fst dist above8 try_all tracks detections = Ok [("a", ["y"]); ("b", ["x"])].
Proof.
  intros dist above8 passes tracks detections.
  split; [eexists; split; [reflexivity|vm_compute; reflexivity]|].
  split; [eexists; split; [reflexivity|vm_compute; reflexivity]|].
  assert (P : forall t d, In t tracks -> In d detections -> passes t d ->
            (t = ("a", 0%Z) /\ d = ("y", 1%Z)) \/ (t = ("b", 10%Z) /\ d = ("x", 11%Z))).
  { intros t d Ht Hd (v & Hv & Hp). unfold dist in Hv. apply (f_equal (fun o => match o with Some x => above8 x | None => true end)) in Hv.
    rewrite Hp in Hv. clear Hp.
    destruct Ht as [<-|[<-|[]]], Hd as [<-|[<-|[<-|[]]]]; auto; vm_compute in Hv; discriminate Hv. }
  split; [|split; [|vm_compute; reflexivity]].
  - intros t d d' Ht Hd Hd' H H'. destruct (P t d Ht Hd H) as [[-> ->]|[-> ->]], (P _ d' Ht Hd' H') as [[? ->]|[? ->]]; congruence.
  - intros t t' d Ht Ht' Hd H H'. destruct (P t d Ht Hd H) as [[-> ->]|[-> ->]], (P t' _ Ht' Hd H') as [[-> ?]|[-> ?]]; congruence.
Qed.

Print Assumptions C85_best_by_margin.
Print Assumptions C85_separated.
Print Assumptions C85_unambiguous_gate.
Print Assumptions C85_any_solver.
