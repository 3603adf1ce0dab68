(** Proofs about the JSON loaders. *)
From Coq Require Import String List Arith Lia.
From Verif Require Import Base Uuid DynObj Motion Json JsonSpec.
Import ListNotations.
Local Open Scope string_scope.
Local Open Scope list_scope.

(** ** The result monad *)
Lemma rbind_ok {X Y} (x : result X) (f : X -> result Y) y :
  rbind x f = Ok y <-> exists a, x = Ok a /\ f a = Ok y.
Proof.
  destruct x; cbn; split; intros H; try discriminate; try (destruct H as (? & ? & ?); discriminate).
  - eauto.
  - destruct H as (a' & [= ->] & H). exact H.
Qed.
Lemma rbind_ub {X Y} (x : result X) (f : X -> result Y) :
  rbind x f = UB <-> x = UB \/ exists a, x = Ok a /\ f a = UB.
Proof.
  destruct x; cbn; split; intros H; try discriminate; eauto.
  - destruct H as [H|(a' & [= ->] & H)]; [discriminate|exact H].
  - destruct H as [H|(a' & H & _)]; discriminate.
Qed.
Lemma rbind_throw {X Y} (x : result X) (f : X -> result Y) e :
  rbind x f = Throw e <-> x = Throw e \/ exists a, x = Ok a /\ f a = Throw e.
Proof.
  destruct x; cbn; split; intros H; try discriminate; eauto.
  - destruct H as [H|(a' & [= ->] & H)]; [discriminate|exact H].
  - injection H as ->. now left.
  - destruct H as [H|(a' & H & _)]; [injection H as ->; reflexivity|discriminate].
  - destruct H as [H|(a' & H & _)]; discriminate.
Qed.
Lemma rmap_ok {X Y} (f : X -> result Y) l ys :
  rmap f l = Ok ys <-> Forall2 (fun x y => f x = Ok y) l ys.
Proof.
  revert ys. induction l as [|x l IH]; intros ys; cbn.
  - split; [intros [= <-]; constructor|intros H; now inversion H].
  - rewrite rbind_ok. split.
    + intros (y & Hy & H). apply rbind_ok in H as (ys' & H & [= <-]). constructor; [exact Hy|now apply IH].
    + intros H. inversion H as [|? y ? ys' Hy Hr]; subst. exists y. split; [exact Hy|].
      apply IH in Hr. now rewrite Hr.
Qed.
(** The first failure decides. *)
Lemma rmap_fail {X Y} (f : X -> result Y) l (bad : result (list Y)) (bad1 : result Y) :
  (bad = UB /\ bad1 = UB \/ exists e, bad = Throw e /\ bad1 = Throw e) ->
  rmap f l = bad <-> exists l1 x l2 ys, l = l1 ++ x :: l2 /\ Forall2 (fun x y => f x = Ok y) l1 ys /\ f x = bad1.
Proof.
  intros HB. revert bad HB. induction l as [|x l IH]; intros bad HB; cbn.
  - split; [destruct HB as [[-> ->]|(e & -> & ->)]; discriminate|].
    intros (l1 & ? & ? & ? & E & _). destruct l1; discriminate.
  - destruct (f x) as [y|e|] eqn:Ex; cbn.
    + split.
      * intros H. assert (H' : rmap f l = bad).
        { destruct (rmap f l) as [ys|e|]; cbn in H; try exact H. destruct HB as [[-> ->]|(e & -> & ->)]; discriminate. }
        apply (IH bad HB) in H' as (l1 & x' & l2 & ys & -> & Hf & Hx). exists (x :: l1), x', l2, (y :: ys).
        repeat split; [constructor; assumption|exact Hx].
      * intros (l1 & x' & l2 & ys & E & Hf & Hx). destruct l1 as [|x1 l1]; injection E as -> ->.
        -- rewrite Ex in Hx. destruct HB as [[-> ->]|(e & -> & ->)]; discriminate.
        -- inversion Hf as [|? y1 ? ys' H1 H2].
           assert (H' : rmap f (l1 ++ x' :: l2) = bad) by (apply (IH bad HB); exists l1, x', l2, ys'; auto).
           rewrite H'. destruct HB as [[-> ->]|(e & -> & ->)]; reflexivity.
    + split.
      * intros H. exists [], x, l, []. repeat split; [constructor|]. rewrite Ex.
        destruct HB as [[-> ->]|(e' & -> & ->)]; [discriminate|]. now injection H as ->.
      * intros (l1 & x' & l2 & ys & E & Hf & Hx). destruct l1 as [|x1 l1]; injection E as -> ->.
        -- rewrite Ex in Hx. destruct HB as [[-> ->]|(e' & -> & ->)]; [discriminate|]. now injection Hx as ->.
        -- inversion Hf as [|? y1 ? ys' H1 H2]. rewrite Ex in H1. discriminate.
    + split.
      * intros H. exists [], x, l, []. repeat split; [constructor|]. rewrite Ex.
        destruct HB as [[-> ->]|(e' & -> & ->)]; [reflexivity|discriminate].
      * intros (l1 & x' & l2 & ys & E & Hf & Hx). destruct l1 as [|x1 l1]; injection E as -> ->.
        -- rewrite Ex in Hx. destruct HB as [[-> ->]|(e' & -> & ->)]; [reflexivity|discriminate].
        -- inversion Hf as [|? y1 ? ys' H1 H2]. rewrite Ex in H1. discriminate.
Qed.

Lemma forall2_impl {X Y} (P Q : X -> Y -> Prop) l ys : (forall x y, P x y -> Q x y) -> Forall2 P l ys -> Forall2 Q l ys.
Proof. intros H. induction 1; constructor; auto. Qed.

Section Proofs.
Context {N : Type} {A : arith} {F : Type}.
Context (dbl : N -> num A) (flt : N -> F) (flt_bool : bool -> F).
Implicit Types j : json N.

Lemma assoc_iff k (m : list (string * json N)) v :
  assoc k m = Some v <-> exists m1 m2, m = m1 ++ (k, v) :: m2 /\ Forall (fun p => fst p <> k) m1.
Proof.
  induction m as [|[k' v'] m IH]; cbn.
  - split; [discriminate|]. intros (m1 & m2 & E & _). destruct m1; discriminate.
  - destruct (String.eqb_spec k' k) as [->|Hk].
    + split.
      * intros [= ->]. exists [], m. split; [reflexivity|constructor].
      * intros (m1 & m2 & E & Hf). destruct m1 as [|p m1]; injection E as <- E; [now subst|].
        inversion Hf; subst. now destruct H1.
    + rewrite IH. split.
      * intros (m1 & m2 & -> & Hf). exists ((k', v') :: m1), m2. split; [reflexivity|]. now constructor.
      * intros (m1 & m2 & E & Hf). destruct m1 as [|p m1]; injection E as E1 E2.
        -- subst. now destruct Hk.
        -- subst. inversion Hf; subst. eauto.
Qed.
Lemma at_key_ok j k v : at_key j k = Ok v <-> field j k v.
Proof.
  unfold at_key, field. destruct j as [| | | | |m];
    try (split; [discriminate|intros (m1 & m2 & E & _); discriminate]).
  destruct (assoc k m) as [v'|] eqn:E.
  - apply assoc_iff in E as H. split.
    + intros [= ->]. destruct H as (m1 & m2 & -> & Hf). eauto.
    + intros (m1 & m2 & [= ->] & Hf). f_equal. assert (assoc k (m1 ++ (k, v) :: m2) = Some v) by (apply assoc_iff; eauto).
      congruence.
  - split; [discriminate|]. intros (m1 & m2 & [= ->] & Hf).
    assert (assoc k (m1 ++ (k, v) :: m2) = Some v) by (apply assoc_iff; eauto). congruence.
Qed.
Lemma at_key_no_ub j k : at_key j k <> UB.
Proof. unfold at_key. destruct j; try discriminate. destruct (assoc k m); discriminate. Qed.
Lemma at_key_throw j k e : at_key j k = Throw e -> e = json_error.
Proof. unfold at_key. destruct j; try congruence. destruct (assoc k m); congruence. Qed.
Lemma field_unique j k v w : field j k v -> field j k w -> v = w.
Proof. rewrite <- !at_key_ok. congruence. Qed.

Lemma number_iff j k x : (let* v := at_key j k in get_double dbl v) = Ok x <-> number dbl j k x.
Proof.
  unfold number. rewrite rbind_ok. setoid_rewrite at_key_ok. split.
  - intros (v & Hf & Hd). destruct v; try discriminate. injection Hd as <-. eauto.
  - intros (n & Hf & ->). eauto.
Qed.
Lemma number_bind {X} j k (f : num A -> result X) y :
  (let* v := at_key j k in let* x := get_double dbl v in f x) = Ok y <-> exists x, number dbl j k x /\ f x = Ok y.
Proof.
  setoid_rewrite <- number_iff. rewrite rbind_ok. setoid_rewrite rbind_ok. split.
  - intros (v & Hv & x & Hx & Hf). exists x. eauto.
  - intros (x & (v & Hv & Hx) & Hf). eauto.
Qed.
Lemma number_bind_ub {X} j k (f : num A -> result X) :
  (let* v := at_key j k in let* x := get_double dbl v in f x) = UB <-> exists x, number dbl j k x /\ f x = UB.
Proof.
  setoid_rewrite <- number_iff. rewrite rbind_ub. setoid_rewrite rbind_ub. setoid_rewrite rbind_ok. split.
  - intros [H|(v & Hv & [H|(x & Hx & Hf)])]; [now apply at_key_no_ub in H|destruct v; discriminate|].
    exists x. eauto.
  - intros (x & (v & Hv & Hx) & Hf). right. exists v. split; [exact Hv|]. right. eauto.
Qed.
Lemma number_bind_throw {X} j k (f : num A -> result X) e :
  (let* v := at_key j k in let* x := get_double dbl v in f x) = Throw e ->
  e = json_error \/ exists x, number dbl j k x /\ f x = Throw e.
Proof.
  setoid_rewrite <- number_iff. rewrite rbind_throw. setoid_rewrite rbind_throw. setoid_rewrite rbind_ok.
  intros [H|(v & Hv & [H|(x & Hx & Hf)])].
  - left. now apply at_key_throw in H.
  - left. destruct v; cbn in H; congruence.
  - right. eauto.
Qed.

(** ** States *)
Lemma ctrv_state_ok j s : ctrv_state_from_json dbl j = Ok s <-> is_ctrv_state dbl j s.
Proof.
  unfold ctrv_state_from_json, is_ctrv_state. repeat setoid_rewrite number_bind. split.
  - intros (x & Hx & y & Hy & v & Hv & a & Ha & w & Hw & [= <-]). cbn. eauto 10.
  - intros (Hx & Hy & Hv & (a & Ha & E) & Hw). exists (v_x s). split; [exact Hx|]. exists (v_y s). split; [exact Hy|].
    exists (v_vel s). split; [exact Hv|]. exists a. split; [exact Ha|]. exists (v_rate s). split; [exact Hw|].
    rewrite <- E. now destruct s.
Qed.
Lemma ctra_state_ok j s : ctra_state_from_json dbl j = Ok s <-> is_ctra_state dbl j s.
Proof.
  unfold ctra_state_from_json, is_ctra_state. repeat setoid_rewrite number_bind. split.
  - intros (x & Hx & y & Hy & v & Hv & a & Ha & w & Hw & b & Hb & [= <-]). cbn. eauto 10.
  - intros (Hx & Hy & Hv & (a & Ha & E) & Hw & Hb). exists (a_x s). split; [exact Hx|]. exists (a_y s). split; [exact Hy|].
    exists (a_vel s). split; [exact Hv|]. exists a. split; [exact Ha|]. exists (a_rate s). split; [exact Hw|].
    exists (a_acc s). split; [exact Hb|]. rewrite <- E. now destruct s.
Qed.
Lemma ctrv_state_not_ub j : ctrv_state_from_json dbl j <> UB.
Proof.
  unfold ctrv_state_from_json. intros H. repeat (apply number_bind_ub in H as (? & _ & H)). discriminate.
Qed.
Lemma ctra_state_not_ub j : ctra_state_from_json dbl j <> UB.
Proof.
  unfold ctra_state_from_json. intros H. repeat (apply number_bind_ub in H as (? & _ & H)). discriminate.
Qed.
Lemma ctrv_state_throw j e : ctrv_state_from_json dbl j = Throw e -> e = json_error.
Proof.
  unfold ctrv_state_from_json. intros H. repeat (apply number_bind_throw in H as [H|(? & _ & H)]; [exact H|]). discriminate.
Qed.
Lemma ctra_state_throw j e : ctra_state_from_json dbl j = Throw e -> e = json_error.
Proof.
  unfold ctra_state_from_json. intros H. repeat (apply number_bind_throw in H as [H|(? & _ & H)]; [exact H|]). discriminate.
Qed.

(** ** Covariances *)
Lemma floats_ok j data : get_float_vector flt flt_bool j = Ok data <-> floats flt flt_bool j data.
Proof.
  unfold floats. destruct j as [| | | |l|]; cbn;
    try (split; [discriminate|intros (l & E & _); discriminate]).
  rewrite rmap_ok. split.
  - intros H. exists l. split; [reflexivity|]. eapply forall2_impl; [|exact H]. cbn.
    intros a b E. destruct a; try discriminate; injection E as <-; constructor.
  - intros (l' & [= ->] & H). eapply forall2_impl; [|exact H]. cbn. intros a b E. now destruct E.
Qed.
Lemma floats_not_ub j : get_float_vector flt flt_bool j <> UB.
Proof.
  destruct j as [| | | |l|]; try discriminate. cbn. intros H.
  apply (rmap_fail _ _ UB UB) in H as (l1 & x & l2 & ys & _ & _ & Hx); [destruct x; discriminate|]. auto.
Qed.
Lemma floats_throw j e : get_float_vector flt flt_bool j = Throw e -> e = json_error.
Proof.
  destruct j as [| | | |l|]; cbn; try congruence. intros H.
  apply (rmap_fail _ _ (Throw e) (Throw e)) in H as (l1 & x & l2 & ys & _ & _ & Hx); [destruct x; cbn in Hx; congruence|eauto].
Qed.

Lemma forall2_nth {X Y} (P : X -> Y -> Prop) l ys :
  Forall2 P l ys <-> length l = length ys /\ forall i x y, nth_error l i = Some x -> nth_error ys i = Some y -> P x y.
Proof.
  split.
  - intros H. split; [induction H; cbn; congruence|].
    induction H as [|x y l ys Hxy H IH]; intros i a b; destruct i; cbn; try discriminate.
    + intros [= ->] [= ->]. exact Hxy.
    + apply IH.
  - revert ys. induction l as [|x l IH]; intros [|y ys] [Hl H]; try discriminate; constructor.
    + now apply (H 0).
    + apply IH. split; [now injection Hl|]. intros i a b. apply (H (S i)).
Qed.
Lemma nth_seq s n i : i < n -> nth_error (seq s n) i = Some (s + i).
Proof.
  revert s i. induction n as [|n IH]; intros s i Hi; [lia|]. destruct i; cbn; [f_equal; lia|].
  rewrite IH by lia. f_equal. lia.
Qed.
Lemma nth_seq_inv s n i k : nth_error (seq s n) i = Some k -> i < n /\ k = s + i.
Proof.
  intros H. assert (i < n).
  { rewrite <- (seq_length n s). apply nth_error_Some. congruence. }
  rewrite nth_seq in H by assumption. injection H as <-. auto.
Qed.
Lemma rmap_seq {Y} (f : nat -> result Y) n ys :
  rmap f (seq 0 n) = Ok ys <-> length ys = n /\ forall i, i < n -> exists y, nth_error ys i = Some y /\ f i = Ok y.
Proof.
  rewrite rmap_ok, forall2_nth, seq_length. split.
  - intros [Hl H]. split; [easy|]. intros i Hi. destruct (nth_error ys i) as [y|] eqn:E.
    + exists y. split; [reflexivity|]. apply (H i i y); [now apply nth_seq|exact E].
    + apply nth_error_None in E. lia.
  - intros [Hl H]. split; [easy|]. intros i k y Hk Hy. apply nth_seq_inv in Hk as [Hi ->].
    destruct (H i Hi) as (y' & E & Hf). cbn. congruence.
Qed.
Lemma assign_ok n (e : nat -> nat -> result F) c :
  assign n e = Ok c <-> length c = n /\ Forall (fun row => length row = n) c /\
  forall i k, i < n -> k < n -> exists x, entry c i k = Some x /\ e i k = Ok x.
Proof.
  unfold assign, entry. rewrite rmap_seq. split.
  - intros [Hl H]. split; [exact Hl|]. split.
    + apply Forall_forall. intros row Hin. apply In_nth_error in Hin as [i Hi].
      assert (Hin : i < n) by (rewrite <- Hl; apply nth_error_Some; congruence).
      destruct (H i Hin) as (row' & E & Hr). assert (row' = row) by congruence. subst. now apply rmap_seq in Hr.
    + intros i k Hi Hk. destruct (H i Hi) as (row & E & Hr). rewrite E. apply rmap_seq in Hr as [_ Hr]. now apply Hr.
  - intros (Hl & Hf & H). split; [exact Hl|]. intros i Hi.
    destruct (nth_error c i) as [row|] eqn:E; [|apply nth_error_None in E; lia].
    exists row. split; [reflexivity|]. apply rmap_seq. split.
    + rewrite Forall_forall in Hf. apply Hf. now apply nth_error_In in E.
    + intros k Hk. destruct (H i k Hi Hk) as (x & Hx & He). rewrite E in Hx. eauto.
Qed.
Lemma assign_total n (data : list F) : n * n <= length data ->
  exists c, assign n (transpose_of (mapped n data)) = Ok c.
Proof.
  intros Hl. unfold assign.
  assert (R : forall i k, i < n -> k < n -> exists x, transpose_of (mapped n data) i k = Ok x).
  { intros i k Hi Hk. unfold transpose_of, mapped, read. destruct (nth_error data (k + n * i)) eqn:E; [eauto|].
    apply nth_error_None in E. nia. }
  assert (G : forall (Y : Type) (f : nat -> result Y) l, (forall i, In i l -> exists y, f i = Ok y) -> exists ys, rmap f l = Ok ys).
  { intros Y f l. induction l as [|i l IH]; intros H; cbn; [eauto|].
    destruct (H i (or_introl eq_refl)) as [y ->]. destruct IH as [ys ->]; [intros; apply H; now right|]. cbn. eauto. }
  apply G. intros i Hi. apply in_seq in Hi. apply G. intros k Hk. apply in_seq in Hk. apply R; lia.
Qed.
Lemma assign_short n (data : list F) : length data < n * n ->
  assign n (transpose_of (mapped n data)) = UB.
Proof.
  intros Hs. destruct (assign n (transpose_of (mapped n data))) as [c|e|] eqn:E; [| |reflexivity].
  - exfalso. apply assign_ok in E as (_ & _ & H). set (p := length data) in *.
    assert (Hn : n <> 0) by nia. pose proof (Nat.div_mod p n Hn) as D. pose proof (Nat.mod_upper_bound p n Hn) as M.
    assert (Hi : p / n < n) by nia.
    destruct (H (p / n) (p mod n) Hi M) as (x & _ & Hx). unfold transpose_of, mapped, read in Hx.
    replace (p mod n + n * (p / n)) with p in Hx by lia.
    destruct (nth_error data p) eqn:Ep; [|discriminate]. assert (p < length data) by (apply nth_error_Some; congruence). lia.
  - exfalso. unfold assign in E.
    apply (rmap_fail _ _ (Throw e) (Throw e)) in E as (l1 & x & l2 & ys & _ & _ & Hx); [|eauto].
    apply (rmap_fail _ _ (Throw e) (Throw e)) in Hx as (l1' & x' & l2' & ys' & _ & _ & Hx'); [|eauto].
    unfold transpose_of, mapped, read in Hx'. destruct (nth_error _ _); discriminate.
Qed.

Lemma covariance_ok n j c : covariance_from_json flt flt_bool n j = Ok c <-> is_covariance flt flt_bool n j c.
Proof.
  unfold covariance_from_json, is_covariance. rewrite rbind_ok. setoid_rewrite floats_ok. split.
  - intros (data & Hd & H). exists data. split; [exact Hd|].
    destruct (Nat.le_gt_cases (n * n) (length data)) as [L|L]; [|now rewrite assign_short in H].
    split; [exact L|]. apply assign_ok in H as (Hl & Hf & H). split; [exact Hl|]. split; [exact Hf|].
    intros i k Hi Hk. destruct (H i k Hi Hk) as (x & -> & Hx). unfold transpose_of, mapped, read in Hx.
    rewrite Nat.add_comm. destruct (nth_error data (k + n * i)); congruence.
  - intros (data & Hd & L & Hl & Hf & H). exists data. split; [exact Hd|]. apply assign_ok.
    split; [exact Hl|]. split; [exact Hf|]. intros i k Hi Hk. rewrite (H i k Hi Hk).
    unfold transpose_of, mapped, read. rewrite (Nat.add_comm k). destruct (nth_error data (n * i + k)) eqn:E; [eauto|].
    apply nth_error_None in E. nia.
Qed.
Lemma covariance_ub n j : covariance_from_json flt flt_bool n j = UB <->
  exists data, floats flt flt_bool j data /\ length data < n * n.
Proof.
  unfold covariance_from_json. rewrite rbind_ub. setoid_rewrite floats_ok. split.
  - intros [H|(data & Hd & H)]; [now apply floats_not_ub in H|]. exists data. split; [exact Hd|].
    destruct (Nat.le_gt_cases (n * n) (length data)) as [L|L]; [|exact L].
    destruct (assign_total n data L) as [c E]. congruence.
  - intros (data & Hd & L). right. exists data. split; [exact Hd|]. now apply assign_short.
Qed.
Lemma covariance_throw n j e : covariance_from_json flt flt_bool n j = Throw e <->
  e = json_error /\ ~ exists data, floats flt flt_bool j data.
Proof.
  unfold covariance_from_json. rewrite rbind_throw. split.
  - intros [H|(data & Hd & H)].
    + split; [now apply floats_throw in H|]. intros [data Hd]. apply floats_ok in Hd. congruence.
    + exfalso. destruct (Nat.le_gt_cases (n * n) (length data)) as [L|L].
      * destruct (assign_total n data L) as [c E]. congruence.
      * now rewrite assign_short in H.
  - intros [-> Hn]. left. destruct (get_float_vector flt flt_bool j) as [data|e|] eqn:E.
    + exfalso. apply Hn. exists data. now apply floats_ok.
    + f_equal. now apply floats_throw in E.
    + now apply floats_not_ub in E.
Qed.

(** ** Objects *)
Section Object.
Context {S : Type} (state_from_json : json N -> result S) (is_state : json N -> S -> Prop) (n : nat).
Hypothesis state_ok : forall j s, state_from_json j = Ok s <-> is_state j s.
Hypothesis state_not_ub : forall j, state_from_json j <> UB.
Hypothesis state_throw : forall j e, state_from_json j = Throw e -> e = json_error.
Notation parse := (object_from_json dbl flt flt_bool state_from_json n).

Lemma object_ok j o : parse j = Ok o <-> is_object dbl flt flt_bool is_state n j o.
Proof.
  unfold object_from_json, is_object. rewrite number_bind. split.
  - intros (t & Ht & H).
    apply rbind_ok in H as (js & Hjs & H). apply at_key_ok in Hjs.
    apply rbind_ok in H as (s & Hs & H). apply state_ok in Hs.
    apply rbind_ok in H as (jc & Hjc & H). apply at_key_ok in Hjc.
    apply rbind_ok in H as (c & Hc & H). apply covariance_ok in Hc.
    apply rbind_ok in H as (ju & Hju & H). apply at_key_ok in Hju.
    destruct ju; try discriminate. injection H as <-. cbn. eauto 10.
  - intros (Ht & (js & Hjs & Hs) & (jc & Hjc & Hc) & Hu & Hk). exists (o_timestamp o). split; [exact Ht|].
    apply at_key_ok in Hjs, Hjc, Hu. apply state_ok in Hs. apply covariance_ok in Hc.
    rewrite Hjs. cbn [rbind]. rewrite Hs. cbn [rbind]. rewrite Hjc. cbn [rbind]. rewrite Hc. cbn [rbind].
    rewrite Hu. cbn. rewrite <- Hk. now destruct o.
Qed.
Lemma object_ub j : parse j = UB <-> short dbl flt flt_bool is_state n j.
Proof.
  unfold object_from_json, short. rewrite number_bind_ub. split.
  - intros (t & Ht & H). split; [eauto|].
    apply rbind_ub in H as [H|(js & Hjs & H)]; [now apply at_key_no_ub in H|].
    apply rbind_ub in H as [H|(s & Hs & H)]; [now apply state_not_ub in H|].
    split; [exists js, s; split; [now apply at_key_ok|now apply state_ok]|].
    apply rbind_ub in H as [H|(jc & Hjc & H)]; [now apply at_key_no_ub in H|].
    apply rbind_ub in H as [H|(c & Hc & H)].
    + apply covariance_ub in H as (data & Hd & L). exists jc, data. split; [now apply at_key_ok|auto].
    + exfalso. apply rbind_ub in H as [H|(ju & Hju & H)]; [now apply at_key_no_ub in H|].
      apply rbind_ub in H as [H|(u & Hu & H)]; [destruct ju; discriminate|discriminate].
  - intros ((t & Ht) & (js & s & Hjs & Hs) & (jc & data & Hjc & Hd & L)). exists t. split; [exact Ht|].
    apply at_key_ok in Hjs, Hjc. apply state_ok in Hs. rewrite Hjs. cbn. rewrite Hs. cbn. rewrite Hjc. cbn.
    assert (E : covariance_from_json flt flt_bool n jc = UB) by (apply covariance_ub; eauto). now rewrite E.
Qed.
Lemma object_throw j e : parse j = Throw e -> e = json_error.
Proof.
  unfold object_from_json. intros H. apply number_bind_throw in H as [H|(t & _ & H)]; [exact H|].
  apply rbind_throw in H as [H|(js & Hjs & H)]; [now apply at_key_throw in H|].
  apply rbind_throw in H as [H|(s & Hs & H)]; [now apply state_throw in H|].
  apply rbind_throw in H as [H|(jc & Hjc & H)]; [now apply at_key_throw in H|].
  apply rbind_throw in H as [H|(c & Hc & H)]; [now apply covariance_throw in H|].
  apply rbind_throw in H as [H|(ju & Hju & H)]; [now apply at_key_throw in H|].
  apply rbind_throw in H as [H|(u & Hu & H)]; [destruct ju; cbn in H; congruence|discriminate].
Qed.
End Object.

Notation ctrv_parse := (ctrv_from_json dbl flt flt_bool).
Notation ctra_parse := (ctra_from_json dbl flt flt_bool).
Lemma ctrv_ok j o : ctrv_parse j = Ok o <-> is_ctrv dbl flt flt_bool j o.
Proof. apply object_ok, ctrv_state_ok. Qed.
Lemma ctra_ok j o : ctra_parse j = Ok o <-> is_ctra dbl flt flt_bool j o.
Proof. apply object_ok, ctra_state_ok. Qed.
Lemma ctrv_ub j : ctrv_parse j = UB <-> short dbl flt flt_bool (is_ctrv_state dbl) 5 j.
Proof. apply object_ub; [apply ctrv_state_ok|apply ctrv_state_not_ub]. Qed.
Lemma ctra_ub j : ctra_parse j = UB <-> short dbl flt flt_bool (is_ctra_state dbl) 6 j.
Proof. apply object_ub; [apply ctra_state_ok|apply ctra_state_not_ub]. Qed.
Lemma ctrv_throw j e : ctrv_parse j = Throw e -> e = json_error.
Proof. apply object_throw, ctrv_state_throw. Qed.
Lemma ctra_throw j e : ctra_parse j = Throw e -> e = json_error.
Proof. apply object_throw, ctra_state_throw. Qed.

(** ** Elements *)
Lemma model_iff j m : (let* jm := at_key j "motion_model" in get_string jm) = Ok m <-> model j m.
Proof.
  unfold model. rewrite rbind_ok. setoid_rewrite at_key_ok. split.
  - intros (v & Hf & Hs). destruct v; try discriminate. injection Hs as <-. exact Hf.
  - eauto.
Qed.
Lemma model_cases j :
  (exists m, model j m /\ forall X (f : string -> result X),
     (let* jm := at_key j "motion_model" in let* m := get_string jm in f m) = f m) \/
  (~ (exists m, model j m) /\ forall X (f : string -> result X),
     (let* jm := at_key j "motion_model" in let* m := get_string jm in f m) = Throw json_error).
Proof.
  destruct (at_key j "motion_model") as [v|e|] eqn:E.
  - destruct v as [| | |m| |]; [right|right|right|left|right|right];
      try (split; [intros [m' Hm]; apply at_key_ok in Hm; congruence|reflexivity]).
    exists m. split; [now apply at_key_ok|reflexivity].
  - right. split; [intros [m' Hm]; apply at_key_ok in Hm; congruence|].
    intros. cbn. f_equal. now apply at_key_throw in E.
  - now apply at_key_no_ub in E.
Qed.
Lemma model_unique j m m' : model j m -> model j m' -> m = m'.
Proof. intros H H'. pose proof (field_unique _ _ _ _ H H') as [= ->]. reflexivity. Qed.

Notation one_v := (one_variant dbl flt flt_bool).
Definition short_element (j : json N) : Prop :=
  model j "ctrv" /\ short dbl flt flt_bool (is_ctrv_state dbl) 5 j \/
  model j "ctra" /\ short dbl flt flt_bool (is_ctra_state dbl) 6 j.
Lemma variant_ok j v : one_v j = Ok v <-> is_element dbl flt flt_bool j v.
Proof.
  unfold one_variant. destruct (model_cases j) as [(m & Hm & E)|[Hn E]]; rewrite E.
  - destruct (String.eqb_spec m "ctrv") as [->|H1]; [|destruct (String.eqb_spec m "ctra") as [->|H2]].
    + rewrite rbind_ok. setoid_rewrite ctrv_ok. split.
      * intros (d & Hd & [= <-]). split; assumption.
      * destruct v as [d|d]; [intros [_ Hd]; eauto|]. intros [Hm' _]. pose proof (model_unique _ _ _ Hm Hm'); congruence.
    + rewrite rbind_ok. setoid_rewrite ctra_ok. split.
      * intros (d & Hd & [= <-]). split; assumption.
      * destruct v as [d|d]; [|intros [_ Hd]; eauto]. intros [Hm' _]. pose proof (model_unique _ _ _ Hm Hm'); congruence.
    + split; [discriminate|]. destruct v as [d|d]; intros [Hm' _]; pose proof (model_unique _ _ _ Hm Hm'); easy.
  - split; [discriminate|]. destruct v as [d|d]; intros [Hm' _]; exfalso; eauto.
Qed.
Lemma variant_runtime j : one_v j = Throw runtime_error <->
  exists m, model j m /\ m <> "ctrv" /\ m <> "ctra".
Proof.
  unfold one_variant. destruct (model_cases j) as [(m & Hm & E)|[Hn E]]; rewrite E.
  - destruct (String.eqb_spec m "ctrv") as [->|H1]; [|destruct (String.eqb_spec m "ctra") as [->|H2]].
    + split.
      * intros H. apply rbind_throw in H as [H|(d & _ & H)]; [now apply ctrv_throw in H|discriminate].
      * intros (m & Hm' & H & _). pose proof (model_unique _ _ _ Hm Hm'); congruence.
    + split.
      * intros H. apply rbind_throw in H as [H|(d & _ & H)]; [now apply ctra_throw in H|discriminate].
      * intros (m & Hm' & _ & H). pose proof (model_unique _ _ _ Hm Hm'); congruence.
    + split; [eauto|reflexivity].
  - split; [discriminate|]. intros (m & Hm & _). exfalso. eauto.
Qed.
Lemma variant_ub j : one_v j = UB <-> short_element j.
Proof.
  unfold one_variant, short_element. destruct (model_cases j) as [(m & Hm & E)|[Hn E]]; rewrite E.
  - destruct (String.eqb_spec m "ctrv") as [->|H1]; [|destruct (String.eqb_spec m "ctra") as [->|H2]].
    + rewrite rbind_ub, ctrv_ub. split.
      * intros [H|(d & _ & H)]; [auto|discriminate].
      * intros [[_ H]|[Hm' _]]; [auto|]. pose proof (model_unique _ _ _ Hm Hm'); congruence.
    + rewrite rbind_ub, ctra_ub. split.
      * intros [H|(d & _ & H)]; [auto|discriminate].
      * intros [[Hm' _]|[_ H]]; [|auto]. pose proof (model_unique _ _ _ Hm Hm'); congruence.
    + split; [discriminate|]. intros [[Hm' _]|[Hm' _]]; pose proof (model_unique _ _ _ Hm Hm'); easy.
  - split; [discriminate|]. intros [[Hm' _]|[Hm' _]]; exfalso; eauto.
Qed.
Lemma variant_throw j e : one_v j = Throw e -> e = json_error \/ e = runtime_error.
Proof.
  unfold one_variant. destruct (model_cases j) as [(m & Hm & E)|[Hn E]]; rewrite E; [|intros [= <-]; auto].
  destruct (String.eqb m "ctrv"); [|destruct (String.eqb m "ctra")].
  - intros H. apply rbind_throw in H as [H|(d & _ & H)]; [apply ctrv_throw in H; auto|discriminate].
  - intros H. apply rbind_throw in H as [H|(d & _ & H)]; [apply ctra_throw in H; auto|discriminate].
  - intros [= <-]; auto.
Qed.
Lemma plain_ctrv j o : one_ctrv dbl flt flt_bool j = Ok o <-> model j "ctrv" /\ is_ctrv dbl flt flt_bool j o.
Proof.
  unfold one_ctrv. destruct (model_cases j) as [(m & Hm & E)|[Hn E]]; rewrite E.
  - destruct (String.eqb_spec m "ctrv") as [->|H1].
    + rewrite ctrv_ok. tauto.
    + split; [discriminate|]. intros [Hm' _]. pose proof (model_unique _ _ _ Hm Hm'); congruence.
  - split; [discriminate|]. intros [Hm' _]. exfalso. eauto.
Qed.
Lemma plain_ctra j o : one_ctra dbl flt flt_bool j = Ok o <-> model j "ctra" /\ is_ctra dbl flt flt_bool j o.
Proof.
  unfold one_ctra. destruct (model_cases j) as [(m & Hm & E)|[Hn E]]; rewrite E.
  - destruct (String.eqb_spec m "ctra") as [->|H1].
    + rewrite ctra_ok. tauto.
    + split; [discriminate|]. intros [Hm' _]. pose proof (model_unique _ _ _ Hm Hm'); congruence.
  - split; [discriminate|]. intros [Hm' _]. exfalso. eauto.
Qed.
Lemma plain_ctrv_runtime j : one_ctrv dbl flt flt_bool j = Throw runtime_error <-> exists m, model j m /\ m <> "ctrv".
Proof.
  unfold one_ctrv. destruct (model_cases j) as [(m & Hm & E)|[Hn E]]; rewrite E.
  - destruct (String.eqb_spec m "ctrv") as [->|H1].
    + split; [intros H; now apply ctrv_throw in H|]. intros (m & Hm' & H). pose proof (model_unique _ _ _ Hm Hm'); congruence.
    + split; [eauto|reflexivity].
  - split; [discriminate|]. intros (m & Hm & _). exfalso. eauto.
Qed.
Lemma plain_ctra_runtime j : one_ctra dbl flt flt_bool j = Throw runtime_error <-> exists m, model j m /\ m <> "ctra".
Proof.
  unfold one_ctra. destruct (model_cases j) as [(m & Hm & E)|[Hn E]]; rewrite E.
  - destruct (String.eqb_spec m "ctra") as [->|H1].
    + split; [intros H; now apply ctra_throw in H|]. intros (m & Hm' & H). pose proof (model_unique _ _ _ Hm Hm'); congruence.
    + split; [eauto|reflexivity].
  - split; [discriminate|]. intros (m & Hm & _). exfalso. eauto.
Qed.

(** ** Files *)
Lemma elements_listed j : listed j (elements j).
Proof. destruct j; constructor. Qed.
Lemma listed_unique j l : listed j l -> l = elements j.
Proof. now destruct 1. Qed.
Section Files.
Context {T : Type} (one : json N -> result T) (key : string).
Lemma file_ok parsed (ts : list T) : from_json_file one key parsed = Ok ts <->
  exists data j l, parsed = Some data /\ field data key j /\ listed j l /\ Forall2 (fun e t => one e = Ok t) l ts.
Proof.
  unfold from_json_file. destruct parsed as [data|].
  - rewrite rbind_ok. setoid_rewrite at_key_ok. setoid_rewrite rmap_ok. split.
    + intros (j & Hj & H). exists data, j, (elements j). repeat split; try assumption. apply elements_listed.
    + intros (data' & j & l & [= <-] & Hj & Hl & H). apply listed_unique in Hl as ->. eauto.
  - split; [discriminate|]. intros (data & j & l & [=] & _).
Qed.
Lemma file_ub parsed : from_json_file one key parsed = UB <->
  exists data j l1 e l2 ts, parsed = Some data /\ field data key j /\ listed j (l1 ++ e :: l2) /\
  Forall2 (fun e t => one e = Ok t) l1 ts /\ one e = UB.
Proof.
  unfold from_json_file. destruct parsed as [data|].
  - rewrite rbind_ub. split.
    + intros [H|(j & Hj & H)]; [now apply at_key_no_ub in H|].
      apply (rmap_fail _ _ UB UB) in H as (l1 & e & l2 & ts & E & H1 & H2); [|auto].
      exists data, j, l1, e, l2, ts. rewrite <- E. split; [easy|]. split; [now apply at_key_ok|]. split; [apply elements_listed|auto].
    + intros (data' & j & l1 & e & l2 & ts & [= <-] & Hj & Hl & H1 & H2). right. exists j. apply at_key_ok in Hj.
      split; [exact Hj|]. apply listed_unique in Hl. rewrite <- Hl. apply (rmap_fail _ _ UB UB); [auto|]. eauto 8.
  - split; [discriminate|]. intros (data & j & l1 & e & l2 & ts & [=] & _).
Qed.
Lemma file_throw parsed x : from_json_file one key parsed = Throw x <->
  (x = json_error /\ (parsed = None \/ exists data, parsed = Some data /\ ~ exists j, field data key j)) \/
  exists data j l1 e l2 ts, parsed = Some data /\ field data key j /\ listed j (l1 ++ e :: l2) /\
  Forall2 (fun e t => one e = Ok t) l1 ts /\ one e = Throw x.
Proof.
  unfold from_json_file. destruct parsed as [data|].
  - rewrite rbind_throw. split.
    + intros [H|(j & Hj & H)].
      * left. split; [now apply at_key_throw in H|]. right. exists data. split; [reflexivity|].
        intros [j Hj]. apply at_key_ok in Hj. congruence.
      * apply (rmap_fail _ _ (Throw x) (Throw x)) in H as (l1 & e & l2 & ts & E & H1 & H2); [|eauto].
        right. exists data, j, l1, e, l2, ts. rewrite <- E. split; [easy|]. split; [now apply at_key_ok|]. split; [apply elements_listed|auto].
    + intros [[-> [H|(data' & [= <-] & H)]]|(data' & j & l1 & e & l2 & ts & [= <-] & Hj & Hl & H1 & H2)]; [discriminate| |].
      * left. destruct (at_key data key) as [j|e|] eqn:E.
        -- exfalso. apply H. exists j. now apply at_key_ok.
        -- f_equal. now apply at_key_throw in E.
        -- now apply at_key_no_ub in E.
      * right. exists j. apply at_key_ok in Hj. split; [exact Hj|]. apply listed_unique in Hl. rewrite <- Hl.
        apply (rmap_fail _ _ (Throw x) (Throw x)); eauto 8.
  - split; [intros [= <-]; auto|]. intros [[-> _]|(data & j & l1 & e & l2 & ts & [=] & _)]. reflexivity.
Qed.
End Files.
End Proofs.
