(** Scores that are not finite. *)
From Coq Require Import List ZArith NArith Bool Reals Lia Lra Permutation String.
From Flocq Require Import Core IEEE754.BinarySingleNaN.
From Verif Require Import Base Uuid OrdMap DynObj Float Motion DoubleArith DlibMatrix Scoring
  Matching MatchingSpec AssignProofs MatchingProofs MatchingThms FloatDistance.
Import ListNotations.
Local Open Scope nat_scope.

Definition never_throws {A} (r : result A) : Prop := forall e, r <> Throw e.
Lemma never_ub {A} (r : result A) : never_throws r -> (forall a, r <> Ok a) -> r = UB.
Proof. intros H H'. destruct r as [a|e|]; [now destruct (H' a)|now destruct (H e)|reflexivity]. Qed.
Lemma bind_never {A B} (r : result A) (k : A -> result B) :
  never_throws r -> (forall a, never_throws (k a)) -> never_throws (rbind r k).
Proof. intros H K e. destruct r; cbn; [apply K|intros E; injection E as ->; now apply (H e)|discriminate]. Qed.
Lemma for_loop_never {S} (body : nat -> S -> result S) k : forall lo s,
  (forall i s, never_throws (body i s)) -> never_throws (for_loop lo k body s).
Proof.
  induction k as [|k IH]; intros lo s H; cbn [for_loop]; [discriminate|]. apply bind_never; [apply H|]. intros a. now apply IH.
Qed.
Lemma for_loop_stuck {S} (body : nat -> S -> result S) i k : forall lo s r, lo <= i < lo + k ->
  (forall s r, body i s <> Ok r) -> for_loop lo k body s <> Ok r.
Proof.
  induction k as [|k IH]; intros lo s r Hi H; [lia|]. cbn [for_loop].
  destruct (Nat.eq_dec i lo) as [->|N].
  - specialize (H s). destruct (body lo s); cbn; [now destruct (H a)|discriminate..].
  - destruct (body lo s); cbn; [|discriminate..]. apply IH; [lia|exact H].
Qed.
Lemma get_never {A} (m : mat A) r c : never_throws (mat_get m r c).
Proof. intros e. unfold mat_get. destruct (_ && _); [destruct (elem m r c)|]; discriminate. Qed.
Lemma set_never {A} (m : mat A) r c v : never_throws (mat_set m r c v).
Proof. intros e. unfold mat_set. destruct (_ && _); discriminate. Qed.
Lemma scaled_never x y : never_throws (scaled_cost x y).
Proof. intros e. unfold scaled_cost, int_of_f32. destruct (is_finite _); [destruct (_ && _)|]; discriminate. Qed.

(** A cost that is not finite cannot be converted. *)
Lemma scaled_not_finite (x M : f32) : is_finite x = false -> scaled_cost x M = UB.
Proof.
  intros H. unfold scaled_cost, cost_value, normalized_score.
  assert (E : is_finite (f32_div x M) = false).
  { destruct x as [s|s| |s m e Hb]; try discriminate; [|reflexivity].
    destruct M as [s'|s'| |s' m' e' Hb']; reflexivity. }
  destruct (f32_div x M) as [s|s| |s m e Hb]; try discriminate; [|reflexivity]. destruct s; reflexivity.
Qed.
Lemma cost_matrix_never m : never_throws (cost_matrix_from_score_matrix m).
Proof.
  unfold cost_matrix_from_score_matrix, dlib_max, for_range. apply bind_never.
  - apply bind_never; [apply get_never|]. intros v0. apply for_loop_never. intros i s. apply for_loop_never. intros j s'.
    apply bind_never; [apply get_never|discriminate].
  - intros M. apply for_loop_never. intros i s. apply for_loop_never. intros j s'.
    apply bind_never; [apply get_never|]. intros v. apply bind_never; [apply scaled_never|]. intros z. apply set_never.
Qed.
Lemma cost_matrix_stuck (m : mat f32) r c (v : f32) : r < nr m -> c < nc m -> elem m r c = Some v -> is_finite v = false ->
  cost_matrix_from_score_matrix m = UB.
Proof.
  intros Hr Hc E F. apply never_ub; [apply cost_matrix_never|]. intros a.
  unfold cost_matrix_from_score_matrix. destruct (dlib_max m) as [M|e|]; cbn [rbind]; [|discriminate..].
  unfold for_range. apply for_loop_stuck with (i := r); [lia|]. intros s b.
  apply for_loop_stuck with (i := c); [lia|]. intros s' b'.
  rewrite (mat_get_ok m r c v) by assumption. cbn [rbind]. rewrite scaled_not_finite by exact F. discriminate.
Qed.

Lemma gnn_not_finite_ub solve (scores : score_map f32) k (v : f32) : map_wf scores -> In (k, v) scores -> is_finite v = false ->
  gnn_associator solve scores = UB.
Proof.
  intros Hw Hin F. destruct (uuid_sets scores) as [ts ds] eqn:Es. destruct k as [t d].
  destruct (score_matrix_spec scores ts ds Es) as (m & Em & Hmr & Hmc & Hm).
  destruct (index_of scores ts ds t d Es) as (i & j & Hi & Hj & Ei & Ej).
  { apply in_tracks. eauto. } { apply in_detections. eauto. }
  unfold gnn_associator. rewrite Em. cbn [rbind].
  rewrite (cost_matrix_stuck m i j v); [reflexivity|lia|lia| |exact F].
  rewrite Hm by assumption. rewrite Ei, Ej. unfold score_or_max.
  apply find_in in Hin; [|exact Hw]. now rewrite Hin.
Qed.

(** ** Exactly when the associator is defined *)
Lemma missing_or_complete {F} (scores : score_map F) : missing_pair scores \/ complete scores.
Proof.
  assert (dec : forall td : uuid * uuid, {In td (map fst scores)} + {~ In td (map fst scores)}).
  { intros td. apply in_dec. intros [x1 x2] [y1 y2]. destruct (string_dec x1 y1), (string_dec x2 y2); (left; congruence) || (right; congruence). }
  destruct (Forall_Exists_dec _ dec (list_prod (tracks_of scores) (detections_of scores))) as [H|H].
  - right. intros t d Ht Hd. rewrite Forall_forall in H. specialize (H (t, d) (proj2 (in_prod_iff _ _ _ _) (conj Ht Hd))).
    apply in_map_iff in H as ([k v] & E & Hin). cbn in E. subst k. eauto.
  - left. apply Exists_exists in H as ([t d] & Hin & Hno). apply in_prod_iff in Hin as [Ht Hd].
    exists t, d. split; [exact Ht|]. split; [exact Hd|]. intros v Hv. apply Hno. apply in_map_iff. now exists ((t, d), v).
Qed.
Lemma list_eq_nil {A} (l : list A) : l = [] \/ l <> [].
Proof. destruct l; [now left|right; discriminate]. Qed.
Lemma gnn_defined_iff solve (scores : score_map f32) : solver_ok solve -> small_map scores -> map_wf scores ->
  (forall k v, In (k, v) scores -> is_finite v = true -> (0 <= B2R v)%R) ->
  let fine := scores <> [] /\ (forall k v, In (k, v) scores -> is_finite v = true) /\
    (missing_pair scores \/ exists k v, In (k, v) scores /\ (0 < B2R v)%R) in
  ((exists a, gnn_associator solve scores = Ok a) <-> fine) /\ (~ fine -> gnn_associator solve scores = UB).
Proof.
  intros Hs Hsm Hw Hn fine.
  assert (Y : fine -> exists a, gnn_associator solve scores = Ok a).
  { intros (H1 & H2 & H3). apply usable_defined; [exact Hs|exact Hsm|]. split; [exact Hw|]. split; [exact H1|].
    split; [|tauto]. intros k v Hin. split; [eauto|]. eauto. }
  assert (D : fine \/ gnn_associator solve scores = UB).
  { destruct (list_eq_nil scores) as [->|Hne]; [right; apply gnn_empty_ub|].
    destruct (Forall_Exists_dec (fun p : (uuid * uuid) * f32 => is_finite (snd p) = true) (fun p => bool_dec _ _) scores) as [Hf|Hf].
    2: { right. apply Exists_exists in Hf as ([k v] & Hin & Hv). apply (gnn_not_finite_ub solve scores k v Hw Hin).
         cbn in Hv. now destruct (is_finite v). }
    assert (Hfin : forall k v, In (k, v) scores -> is_finite v = true)
      by (intros k v Hin; rewrite Forall_forall in Hf; exact (Hf _ Hin)).
    destruct (missing_or_complete scores) as [Hm|Hc]; [left; split; [exact Hne|]; split; [exact Hfin|now left]|].
    destruct (Forall_Exists_dec (fun p : (uuid * uuid) * f32 => (B2R (snd p) <= 0)%R) (fun p => Rle_dec _ _) scores) as [Hz|Hz].
    - right. apply gnn_zero_ub; [exact Hw|exact Hne|exact Hc|]. intros k v Hin. split; [eauto|].
      rewrite Forall_forall in Hz. specialize (Hz _ Hin). cbn in Hz. specialize (Hn k v Hin (Hfin k v Hin)). lra.
    - left. split; [exact Hne|]. split; [exact Hfin|]. right. apply Exists_exists in Hz as ([k v] & Hin & Hv).
      exists k, v. split; [exact Hin|]. cbn in Hv. lra. }
  split; [split; [|exact Y]|]; [intros [a E]|intros H]; destruct D as [D|D]; congruence || tauto.
Qed.

(** ** The distance of a pose with a coordinate that is not finite *)
Lemma nan_or_not (x : f32) : is_nan x = true \/ is_nan x = false.
Proof. destruct (is_nan x); auto. Qed.
Lemma sub_nan (x y : f32) : is_nan x = true \/ is_nan y = true -> is_nan (f32_sub x y) = true.
Proof. destruct x, y; intros [H|H]; try discriminate H; reflexivity. Qed.
Lemma add_nan (x y : f32) : is_nan x = true \/ is_nan y = true -> is_nan (f32_add x y) = true.
Proof. destruct x, y; intros [H|H]; try discriminate H; reflexivity. Qed.
Lemma mul_nan (x y : f32) : is_nan x = true \/ is_nan y = true -> is_nan (f32_mul x y) = true.
Proof. destruct x, y; intros [H|H]; try discriminate H; reflexivity. Qed.
Lemma sqrt_nan (x : f32) : is_nan x = true -> is_nan (f32_sqrt x) = true.
Proof. destruct x; intros H; try discriminate H; reflexivity. Qed.
Lemma cast_nan (x : f64) : is_nan x = true -> is_nan (f32_of_f64 x) = true.
Proof. destruct x; intros H; try discriminate H; reflexivity. Qed.
Lemma sub_inf (x y : f32) : is_finite x = false \/ is_finite y = false -> is_finite (f32_sub x y) = false.
Proof. destruct x as [s|s| |s m e Hb], y as [s'|s'| |s' m' e' Hb']; intros [H|H]; try discriminate H; try reflexivity; destruct s, s'; reflexivity. Qed.
Lemma add_inf (x y : f32) : is_finite x = false \/ is_finite y = false -> is_finite (f32_add x y) = false.
Proof. destruct x as [s|s| |s m e Hb], y as [s'|s'| |s' m' e' Hb']; intros [H|H]; try discriminate H; try reflexivity; destruct s, s'; reflexivity. Qed.
Lemma square_inf (x : f32) : is_finite x = false -> is_finite (f32_mul x x) = false.
Proof. destruct x; intros H; try discriminate H; reflexivity. Qed.
Lemma sqrt_inf (x : f32) : is_finite x = false -> is_finite (f32_sqrt x) = false.
Proof. destruct x as [s|s| |s m e Hb]; intros H; try discriminate H; try reflexivity. destruct s; reflexivity. Qed.
Lemma cast_inf (x : f64) : is_finite x = false -> is_finite (f32_of_f64 x) = false.
Proof. destruct x; intros H; try discriminate H; reflexivity. Qed.

Lemma dot_nan l : Exists (fun x : f32 => is_nan x = true) l -> is_nan (dot32 l) = true.
Proof.
  intros H. destruct l as [|a [|b [|c [|z l]]]]; try reflexivity. cbn [dot32].
  inversion_clear H as [? ? E|? ? H']; [apply add_nan; left; apply add_nan; left; apply mul_nan; auto|].
  inversion_clear H' as [? ? E|? ? H]; [apply add_nan; left; apply add_nan; right; apply mul_nan; auto|].
  inversion_clear H as [? ? E|? ? H']; [apply add_nan; right; apply mul_nan; auto|inversion H'].
Qed.
Lemma dot_inf l : Exists (fun x : f32 => is_finite x = false) l -> is_finite (dot32 l) = false.
Proof.
  intros H. destruct l as [|a [|b [|c [|z l]]]]; try reflexivity. cbn [dot32].
  inversion_clear H as [? ? E|? ? H']; [apply add_inf; left; apply add_inf; left; apply square_inf; auto|].
  inversion_clear H' as [? ? E|? ? H]; [apply add_inf; left; apply add_inf; right; apply square_inf; auto|].
  inversion_clear H as [? ? E|? ? H']; [apply add_inf; right; apply square_inf; auto|inversion H'].
Qed.
Definition coordinates (p : pose64) : list f64 := let '(x, y, h) := p in [x; y; h].
Lemma distance_nan p q d : Exists (fun v : f64 => is_nan v = true) (coordinates p ++ coordinates q) ->
  pose_distance32 p q d -> is_nan d = true.
Proof.
  intros H (terms & P & ->). apply sqrt_nan, dot_nan.
  assert (E : Exists (fun x : f32 => is_nan x = true) (differences p q)).
  { destruct p as [[x y] h], q as [[x' y'] h']. apply Exists_exists in H as (v & Hin & Hv). apply cast_nan in Hv. cbn in Hin. cbn.
    destruct Hin as [<-|[<-|[<-|[<-|[<-|[<-|[]]]]]]];
      first [now (left; apply sub_nan; auto)|now (right; left; apply sub_nan; auto)|now (right; right; left; apply sub_nan; auto)]. }
  apply Exists_exists in E as (v & Hin & Hv). apply Exists_exists. exists v. split; [|exact Hv].
  apply Permutation_in with (differences p q); [now symmetry|exact Hin].
Qed.
Lemma distance_inf p q d : Exists (fun v : f64 => is_finite v = false) (coordinates p ++ coordinates q) ->
  pose_distance32 p q d -> is_finite d = false.
Proof.
  intros H (terms & P & ->). apply sqrt_inf, dot_inf.
  assert (E : Exists (fun x : f32 => is_finite x = false) (differences p q)).
  { destruct p as [[x y] h], q as [[x' y'] h']. apply Exists_exists in H as (v & Hin & Hv). apply cast_inf in Hv. cbn in Hin. cbn.
    destruct Hin as [<-|[<-|[<-|[<-|[<-|[<-|[]]]]]]];
      first [now (left; apply sub_inf; auto)|now (right; left; apply sub_inf; auto)|now (right; right; left; apply sub_inf; auto)]. }
  apply Exists_exists in E as (v & Hin & Hv). apply Exists_exists. exists v. split; [|exact Hv].
  apply Permutation_in with (differences p q); [now symmetry|exact Hin].
Qed.
