(** The algorithm of Assignment.v finds a maximal assignment as long as its
    additions and subtractions do not overflow. *)
From Coq Require Import List ZArith Arith Bool Lia Permutation.
From Verif Require Import Assignment.
Import ListNotations.

Lemma upd_eq {A} (v : nat -> A) i a : upd v i a i = a.
Proof. unfold upd. now rewrite Nat.eqb_refl. Qed.
Lemma upd_neq {A} (v : nat -> A) i j a : j <> i -> upd v i a j = v j.
Proof. unfold upd. intros H. destruct (Nat.eqb_spec j i); congruence. Qed.

Section Proofs.
Context (norm : Z -> outcome Z) (imin imax : Z) (n : nat) (c : nat -> nat -> Z).
Hypothesis norm_ok : forall z, (imin <= z <= imax)%Z -> norm z = Done z.
Local Open Scope Z_scope.

(** ** The search for an augmenting path *)
Section Search.
Context (xy yx : nat -> option nat) (r y0 : nat).
Hypothesis matched : forall x y, (x < n)%nat -> (y < n)%nat -> (xy x = Some y <-> yx y = Some x).
Hypothesis yx_bound : forall x y, (y < n)%nat -> yx y = Some x -> (x < n)%nat.
Hypothesis xy_bound : forall x y, (x < n)%nat -> xy x = Some y -> (y < n)%nat.
Hypothesis root : (r < n)%nat.
Hypothesis root_free : xy r = None.
Hypothesis y0_bound : (y0 < n)%nat.
Hypothesis y0_free : yx y0 = None.

Definition feasible (l l' : nat -> Z) : Prop := forall x y, (x < n)%nat -> (y < n)%nat -> c x y <= l x + l' y.

(** A path of the tree that leads back to the root *)
Inductive path (aug : nat -> option nat) (l l' : nat -> Z) : nat -> list nat -> Prop :=
| path_root : aug r = None -> path aug l l' r [r]
| path_step x p y q : aug x = Some p -> xy x = Some y -> c p y = l p + l' y -> path aug l l' p q -> ~ In x q -> path aug l l' x (x :: q).

(** [done x y]: row [x] has been compared with column [y] in this round *)
Record inv (donex : nat -> nat -> Prop) (s : search) : Prop := {
  v_feasible : feasible (lx s) (ly s);
  v_tight : forall x y, (x < n)%nat -> xy x = Some y -> lx s x + ly s y = c x y;
  v_free : forall y, (y < n)%nat -> yx y = None -> ly s y = 0;
  v_pos : forall y, (y < n)%nat -> 0 <= ly s y;
  v_T : forall y, (y < n)%nat -> in_T s y = true -> exists x, yx y = Some x /\ in_S s x = true;
  v_S : forall x, in_S s x = true -> (x < n)%nat /\ (x = r \/ exists y, (y < n)%nat /\ in_T s y = true /\ yx y = Some x);
  v_root : in_S s r = true;
  v_queue : NoDup (queue s) /\ forall x, In x (queue s) -> in_S s x = true;
  v_path : forall x, in_S s x = true -> exists q, path (aug_path s) (lx s) (ly s) x q /\ forall z, In z q -> in_S s z = true;
  v_slack : forall x y, in_S s x = true -> ~ In x (queue s) -> (y < n)%nat -> in_T s y = false -> slack s y <= lx s x + ly s y - c x y;
  v_done : forall x y, in_S s x = true -> ~ In x (queue s) -> (y < n)%nat -> in_T s y = false -> donex x y -> c x y <> lx s x + ly s y;
  v_slackx : forall y, (y < n)%nat -> in_T s y = false ->
    slack s y = imax \/ (in_S s (slackx s y) = true /\ slack s y = lx s (slackx s y) + ly s y - c (slackx s y) y)
}.

(** Rows whose sums do not overflow *)
Definition safe (l l' : nat -> Z) (x : nat) : Prop :=
  forall y, (y < n)%nat -> imin <= l x + l' y <= imax /\ imin <= l x + l' y - c x y < imax.

Lemma T_y0 d s : inv d s -> in_T s y0 = false.
Proof.
  intros I. destruct (in_T s y0) eqn:E; [|reflexivity]. destruct (v_T _ _ I y0 y0_bound E) as (x & H & _). congruence.
Qed.

(** compute_slack *)
Definition same_but_slack (s s' : search) : Prop :=
  lx s' = lx s /\ ly s' = ly s /\ in_S s' = in_S s /\ in_T s' = in_T s /\ aug_path s' = aug_path s /\ queue s' = queue s.
Lemma compute_slack_spec x : forall ys s, (forall y, In y ys -> (y < n)%nat) -> safe (lx s) (ly s) x ->
  exists s', compute_slack norm c x ys s = Done s' /\ same_but_slack s s' /\
  (forall y, slack s' y <= slack s y) /\
  (forall y, In y ys -> slack s' y <= lx s x + ly s y - c x y) /\
  (forall y, (slack s' y = slack s y /\ slackx s' y = slackx s y) \/ (slackx s' y = x /\ slack s' y = lx s x + ly s y - c x y)).
Proof.
  induction ys as [|y ys IH]; intros s Hy Hs.
  - exists s. cbn. unfold same_but_slack. repeat split; try (intros; lia); auto; contradiction.
  - cbn [compute_slack]. destruct (Hs y (Hy y (or_introl eq_refl))) as [H1 H2].
    rewrite (norm_ok _ H1). cbn [obind]. rewrite (norm_ok (lx s x + ly s y - c x y)) by lia. cbn [obind].
    set (v := lx s x + ly s y - c x y) in *.
    set (s1 := if v <? slack s y then _ else s).
    assert (E : same_but_slack s s1) by (unfold s1, same_but_slack; destruct (v <? slack s y); cbn; auto 10).
    assert (L1 : forall z, slack s1 z <= slack s z).
    { intros z. unfold s1. destruct (Z.ltb_spec v (slack s y)); [|lia]. cbn. unfold upd. destruct (Nat.eqb_spec z y); [subst|]; lia. }
    assert (L2 : slack s1 y <= v).
    { unfold s1. destruct (Z.ltb_spec v (slack s y)); [cbn; rewrite upd_eq|]; lia. }
    assert (L3 : forall z, (slack s1 z = slack s z /\ slackx s1 z = slackx s z) \/ (slackx s1 z = x /\ slack s1 z = lx s x + ly s z - c x z)).
    { intros z. unfold s1. destruct (Z.ltb_spec v (slack s y)); [|auto]. cbn. unfold upd. destruct (Nat.eqb_spec z y); [subst; right|left]; auto. }
    destruct E as (E1 & E2 & E3 & E4 & E5 & E6).
    destruct (IH s1) as (s' & R & (F1 & F2 & F3 & F4 & F5 & F6) & G1 & G2 & G3).
    { intros z Hz. apply Hy. now right. }
    { rewrite E1, E2. exact Hs. }
    exists s'. split; [exact R|]. split; [unfold same_but_slack; repeat split; congruence|].
    rewrite E1, E2 in *. split; [intros z; specialize (G1 z); specialize (L1 z); lia|]. split.
    + intros z [<-|Hz]; [specialize (G1 y); fold v; lia|now apply G2].
    + intros z. destruct (G3 z) as [[A B]|[A B]].
      * destruct (L3 z) as [[C D]|[C D]]; [left; split; congruence|right; split; congruence].
      * right. auto.
Qed.

(** The tree is kept when a node is added *)
Lemma path_upd aug l l' x0 p0 x q : path aug l l' x q -> ~ In x0 q -> path (upd aug x0 p0) l l' x q.
Proof.
  induction 1 as [H|x p y q H1 H2 H3 H4 IH H5]; intros N.
  - constructor. rewrite upd_neq; [exact H|]. intros ->. apply N. now left.
  - apply (path_step _ _ _ x p y).
    + rewrite upd_neq; [exact H1|]. intros ->. apply N. now left.
    + exact H2.
    + exact H3.
    + apply IH. intros Hi. apply N. now right.
    + exact H5.
Qed.

Lemma inv_add d s x y x' : inv d s -> (y < n)%nat -> in_S s x = true -> in_T s y = false -> yx y = Some x' -> c x y = lx s x + ly s y ->
  in_S s x' = false /\
  inv d (Search (lx s) (ly s) (upd (in_S s) x' true) (upd (in_T s) y true) (slack s) (slackx s) (upd (aug_path s) x' (Some x)) (queue s ++ [x'])).
Proof.
  intros I Hy Sx Ty E Tt. pose proof (yx_bound _ _ Hy E) as Hx'.
  assert (NS : in_S s x' = false).
  { destruct (in_S s x') eqn:Q; [|reflexivity]. destruct (v_S _ _ I x' Q) as [_ [->|(z & Hz & Tz & Ez)]].
    - apply matched in E; [congruence|assumption|assumption].
    - apply matched in E; [|assumption|assumption]. apply matched in Ez; [|assumption|assumption]. congruence. }
  split; [exact NS|]. destruct (v_queue _ _ I) as [Qn Qs].
  assert (NX : forall z, in_S s z = true -> z <> x') by (intros z Hz ->; congruence).
  assert (US : forall z, in_S s z = true -> upd (in_S s) x' true z = true) by (intros z Hz; unfold upd; destruct (z =? x')%nat; auto).
  assert (UT : forall z, upd (in_T s) y true z = false -> in_T s z = false /\ z <> y).
  { intros z Hz. unfold upd in Hz. destruct (Nat.eqb_spec z y); [discriminate|auto]. }
  assert (SQ : forall z, upd (in_S s) x' true z = true -> ~ In z (queue s ++ [x']) -> in_S s z = true /\ ~ In z (queue s)).
  { intros z Hz Nz. assert (z <> x') by (intros ->; apply Nz, in_or_app; right; now left).
    rewrite upd_neq in Hz by assumption. split; [exact Hz|]. intros Hi. apply Nz, in_or_app. now left. }
  constructor; cbn [lx ly in_S in_T slack slackx aug_path queue].
  - exact (v_feasible _ _ I).
  - exact (v_tight _ _ I).
  - exact (v_free _ _ I).
  - exact (v_pos _ _ I).
  - intros z Hz Tz. destruct (Nat.eq_dec z y) as [->|N].
    + exists x'. split; [exact E|apply upd_eq].
    + rewrite upd_neq in Tz by assumption. destruct (v_T _ _ I z Hz Tz) as (w & Ew & Sw). exists w. auto.
  - intros z Hz. destruct (Nat.eq_dec z x') as [->|N].
    + split; [exact Hx'|]. right. exists y. split; [exact Hy|]. split; [apply upd_eq|exact E].
    + rewrite upd_neq in Hz by assumption. destruct (v_S _ _ I z Hz) as [B [->|(w & Hw & Tw & Ew)]].
      * auto.
      * split; [exact B|]. right. exists w. split; [exact Hw|]. split; [|exact Ew]. unfold upd. destruct (w =? y)%nat; auto.
  - apply US, (v_root _ _ I).
  - split.
    + apply (Permutation_NoDup (l := x' :: queue s)).
      * apply Permutation_cons_append.
      * constructor; [|exact Qn]. intros Hi. apply Qs in Hi. congruence.
    + intros z Hz. apply in_app_or in Hz. destruct Hz as [Hz|[<-|[]]]; [apply US, Qs, Hz|apply upd_eq].
  - intros z Hz. destruct (Nat.eq_dec z x') as [->|N].
    + destruct (v_path _ _ I x Sx) as (q & P & M). exists (x' :: q).
      assert (Nq : ~ In x' q) by (intros Hi; apply M in Hi; congruence).
      split.
      * apply (path_step _ _ _ x' x y); [apply upd_eq| |exact Tt|now apply path_upd|exact Nq]. apply matched; assumption.
      * intros w [<-|Hw]; [apply upd_eq|apply US, M, Hw].
    + rewrite upd_neq in Hz by assumption. destruct (v_path _ _ I z Hz) as (q & P & M). exists q. split.
      * apply path_upd; [exact P|]. intros Hi. apply M in Hi. congruence.
      * intros w Hw. apply US, M, Hw.
  - intros z w Hz Nz Hw Tw. destruct (SQ z Hz Nz) as [A B]. destruct (UT w Tw) as [C _]. exact (v_slack _ _ I z w A B Hw C).
  - intros z w Hz Nz Hw Tw D. destruct (SQ z Hz Nz) as [A B]. destruct (UT w Tw) as [C _]. exact (v_done _ _ I z w A B Hw C D).
  - intros w Hw Tw. destruct (UT w Tw) as [C _]. destruct (v_slackx _ _ I w Hw C) as [A|[A B]]; [now left|right; auto].
Qed.

(** A found path *)
Definition found_ok (s : search) (x y : nat) : Prop :=
  (y < n)%nat /\ yx y = None /\ in_S s x = true /\ c x y = lx s x + ly s y.

Definition Tcount (s : search) : nat := length (filter (in_T s) (seq 0 n)).
Lemma filter_le {A} (f : A -> bool) l : (length (filter f l) <= length l)%nat.
Proof. induction l as [|a l IH]; cbn; [lia|]. destruct (f a); cbn; lia. Qed.
Lemma Tcount_le s : (Tcount s <= n)%nat.
Proof. unfold Tcount. pose proof (filter_le (in_T s) (seq 0 n)) as H. now rewrite seq_length in H. Qed.
Lemma filter_upd (T : nat -> bool) y l : T y = false -> In y l -> NoDup l ->
  length (filter (upd T y true) l) = S (length (filter T l)).
Proof.
  intros Ty. induction l as [|z l IH]; intros Hi Nd; [destruct Hi|]. inversion_clear Nd as [|? ? N1 N2]. cbn.
  destruct (Nat.eq_dec z y) as [->|N].
  - rewrite upd_eq, Ty. cbn. f_equal. f_equal. apply filter_ext_in. intros w Hw. apply upd_neq. intros ->. contradiction.
  - rewrite upd_neq by assumption. destruct Hi as [->|Hi]; [congruence|]. specialize (IH Hi N2). destruct (T z); cbn; lia.
Qed.
Lemma Tcount_add s y S' sl slx ag q : in_T s y = false -> (y < n)%nat ->
  Tcount (Search (lx s) (ly s) S' (upd (in_T s) y true) sl slx ag q) = S (Tcount s).
Proof. intros H Hy. unfold Tcount. cbn [in_T]. apply filter_upd; [exact H|apply in_seq; lia|apply seq_NoDup]. Qed.

(** The scan of row [x], from column [a] on *)
Lemma scan_spec x : forall k a s, (a + k = n)%nat -> safe (lx s) (ly s) x -> in_S s x = true -> ~ In x (queue s) ->
  inv (fun z w => z = x -> (w < a)%nat) s ->
  exists s' f, scan norm c yx x (seq a k) s = Done (s', f) /\ lx s' = lx s /\ ly s' = ly s /\
    match f with
    | None => inv (fun _ _ => True) s' /\ (Tcount s' + length (queue s) = Tcount s + length (queue s'))%nat /\
        in_S s' x = true /\ ~ In x (queue s') /\ (Tcount s <= Tcount s')%nat
    | Some (x1, y1) => inv (fun _ _ => False) s' /\ found_ok s' x1 y1
    end /\ (forall z, in_S s' z = true -> in_S s z = true \/ xy z <> None).
Proof.
  induction k as [|k IH]; intros a s Hk Hs Sx Nx I.
  - exists s, None. cbn [seq scan]. split; [reflexivity|]. split; [reflexivity|]. split; [reflexivity|]. split; [|auto]. split; [|auto 6].
    destruct I. constructor; auto. intros z w Hz Nz Hw Tw _. apply (v_done0 z w); auto. intros _. lia.
  - cbn [seq scan]. assert (Ha : (a < n)%nat) by lia. destruct (Hs a Ha) as [H1 _]. rewrite (norm_ok _ H1). cbn [obind].
    destruct ((c x a =? lx s x + ly s a) && negb (in_T s a)) eqn:E.
    + apply andb_true_iff in E. destruct E as [E1 E2]. apply Z.eqb_eq in E1. apply negb_true_iff in E2.
      destruct (yx a) as [x'|] eqn:Y.
      * destruct (inv_add _ s x a x' I Ha Sx E2 Y E1) as [NS I'].
        set (s1 := Search _ _ _ _ _ _ _ _) in *.
        destruct (IH (S a) s1) as (s' & f & R & L1 & L2 & P & Q).
        { lia. } { exact Hs. } { cbn. unfold upd. destruct (x =? x')%nat; auto. }
        { cbn. intros Hi. apply in_app_or in Hi. destruct Hi as [Hi|[->|[]]]; [contradiction|congruence]. }
        { destruct I'. constructor; auto. intros z w Hz Nz Hw Tw D. apply (v_done0 z w); auto. intros ->. specialize (D eq_refl).
          cbn in Tw. unfold upd in Tw. destruct (Nat.eqb_spec w a); [discriminate|]. lia. }
        exists s', f. split; [exact R|]. split; [rewrite L1; reflexivity|]. split; [rewrite L2; reflexivity|]. split.
        -- destruct f as [[x1 y1]|]; [exact P|]. destruct P as (P1 & P2 & P3 & P4 & P5). split; [exact P1|].
           unfold s1 in P2, P5. rewrite Tcount_add in P2, P5 by assumption. cbn [queue] in P2. rewrite app_length in P2. cbn in P2.
           split; [lia|]. split; [exact P3|]. split; [exact P4|]. lia.
        -- intros z Hz. destruct (Q z Hz) as [Hz'|Hz']; [|now right]. cbn in Hz'. unfold upd in Hz'.
           destruct (Nat.eqb_spec z x'); [subst; right|now left]. pose proof (yx_bound _ _ Ha Y). apply matched in Y; [congruence|assumption|assumption].
      * exists s, (Some (x, a)). split; [reflexivity|]. split; [reflexivity|]. split; [reflexivity|]. split; [|auto]. split.
        -- destruct I. constructor; auto.
        -- unfold found_ok. auto.
    + apply (IH (S a) s); [lia|exact Hs|exact Sx|exact Nx|].
      destruct I. constructor; auto. intros z w Hz Nz Hw Tw D.
      destruct (Nat.eq_dec z x) as [->|Nzx]; [|apply (v_done0 z w); auto; intros ->; congruence].
      specialize (D eq_refl). destruct (Nat.eq_dec w a) as [->|]; [|apply (v_done0 x w); auto; intros _; lia].
      rewrite Tw in E. cbn in E. rewrite andb_true_r in E. apply Z.eqb_neq in E. exact E.
Qed.

(** One row from the queue *)
Lemma row_spec x q' s : queue s = x :: q' -> safe (lx s) (ly s) x -> inv (fun _ _ => True) s ->
  exists s1 s' f, compute_slack norm c x (seq 0 n) (Search (lx s) (ly s) (in_S s) (in_T s) (slack s) (slackx s) (aug_path s) q') = Done s1 /\
    scan norm c yx x (seq 0 n) s1 = Done (s', f) /\ lx s' = lx s /\ ly s' = ly s /\
    match f with
    | None => inv (fun _ _ => True) s' /\ (S (Tcount s' + length q') = S (Tcount s) + length (queue s'))%nat /\ in_S s' x = true /\ ~ In x (queue s') /\
        (Tcount s <= Tcount s')%nat
    | Some (x1, y1) => inv (fun _ _ => False) s' /\ found_ok s' x1 y1
    end /\ (forall z, in_S s' z = true -> in_S s z = true \/ xy z <> None).
Proof.
  intros Q Hs I. set (s0 := Search _ _ _ _ _ _ _ _).
  destruct (compute_slack_spec x (seq 0 n) s0) as (s1 & R & (E1 & E2 & E3 & E4 & E5 & E6) & G1 & G2 & G3).
  { intros y Hy. apply in_seq in Hy. lia. }
  { exact Hs. }
  cbn in E1, E2, E3, E4, E5, E6, G1, G2, G3. destruct (v_queue _ _ I) as [Qn Qs]. rewrite Q in Qn, Qs.
  assert (Sx : in_S s x = true) by (apply Qs; now left). inversion_clear Qn as [|? ? N1 N2].
  assert (I1 : inv (fun z w => z = x -> (w < 0)%nat) s1).
  { constructor; rewrite ?E1, ?E2, ?E3, ?E4, ?E5, ?E6.
    - exact (v_feasible _ _ I).
    - exact (v_tight _ _ I).
    - exact (v_free _ _ I).
    - exact (v_pos _ _ I).
    - exact (v_T _ _ I).
    - exact (v_S _ _ I).
    - exact (v_root _ _ I).
    - split; [exact N2|]. intros z Hz. apply Qs. now right.
    - exact (v_path _ _ I).
    - intros z w Hz Nz Hw Tw. destruct (Nat.eq_dec z x) as [->|N].
      + apply G2. apply in_seq. lia.
      + specialize (G1 w). assert (L : slack s w <= lx s z + ly s w - c z w); [|lia].
        apply (v_slack _ _ I); auto. rewrite Q. intros [->|Hi]; [congruence|contradiction].
    - intros z w Hz Nz Hw Tw D. destruct (Nat.eq_dec z x) as [->|N]; [specialize (D eq_refl); lia|].
      apply (v_done _ _ I); auto. rewrite Q. intros [->|Hi]; [congruence|contradiction].
    - intros w Hw Tw. destruct (G3 w) as [[A B]|[A B]].
      + rewrite A, B. exact (v_slackx _ _ I w Hw Tw).
      + right. rewrite A. auto. }
  destruct (scan_spec x n 0 s1) as (s' & f & R' & L1 & L2 & P & U).
  { lia. } { rewrite E1, E2. exact Hs. } { rewrite E3. exact Sx. } { rewrite E6. exact N1. } { exact I1. }
  exists s1, s', f. split; [exact R|]. split; [exact R'|]. split; [congruence|]. split; [congruence|]. split.
  - destruct f as [[x1 y1]|]; [exact P|]. destruct P as (P1 & P2 & P3). split; [exact P1|].
    assert (ET : Tcount s1 = Tcount s) by (unfold Tcount; now rewrite E4). rewrite E6, ET in P2. rewrite ET in P3. split; [lia|exact P3].
  - intros z Hz. destruct (U z Hz) as [H|H]; [left; congruence|now right].
Qed.

(** ** The search when all rows it can reach have bounded costs *)
Section Bounded.
Context (lo hi : Z).
Hypothesis bounds : imin <= lo /\ imin <= 0 /\ 2 * hi - lo <= imax /\ 2 * (hi - lo) < imax.
Definition active (x : nat) : Prop := (x < n)%nat /\ (x = r \/ xy x <> None).
Hypothesis rows : forall x y, active x -> (y < n)%nat -> lo <= c x y <= hi.
Definition bnd (s : search) : Prop :=
  (forall x, active x -> lo <= lx s x <= hi) /\ (forall y, (y < n)%nat -> 0 <= ly s y <= hi - lo).
Lemma bnd_safe s x : bnd s -> active x -> feasible (lx s) (ly s) -> safe (lx s) (ly s) x.
Proof.
  intros [B1 B2] A F y Hy. specialize (B1 x A). specialize (B2 y Hy). pose proof (rows x y A Hy) as C. pose proof (F x y (proj1 A) Hy). lia.
Qed.
Lemma S_active d s x : inv d s -> in_S s x = true -> active x.
Proof.
  intros I Hx. destruct (v_S _ _ I x Hx) as [B [->|(y & Hy & Ty & E)]]; (split; [exact B|]); [now left|right].
  apply matched in E; [congruence|assumption|assumption].
Qed.

Lemma drain_spec : forall fuel s, (n - Tcount s + length (queue s) <= fuel)%nat -> inv (fun _ _ => True) s -> bnd s ->
  exists s' f, drain norm n c fuel yx s = Done (s', f) /\ lx s' = lx s /\ ly s' = ly s /\
    match f with
    | None => inv (fun _ _ => True) s' /\ queue s' = [] /\ (Tcount s <= Tcount s')%nat
    | Some (x1, y1) => inv (fun _ _ => False) s' /\ found_ok s' x1 y1
    end.
Proof.
  induction fuel as [|fuel IH]; intros s Hf I B.
  - destruct (queue s) as [|x q'] eqn:Q; [|cbn in Hf; lia]. exists s, None. cbn [drain]. rewrite Q. auto 10.
  - destruct (queue s) as [|x q'] eqn:Q.
    + exists s, None. cbn [drain]. rewrite Q. auto 10.
    + assert (Sx : in_S s x = true) by (apply (v_queue _ _ I); rewrite Q; now left).
      destruct (row_spec x q' s Q) as (s1 & s2 & f & R1 & R2 & L1 & L2 & P & U).
      { apply bnd_safe; [exact B|exact (S_active _ _ _ I Sx)|exact (v_feasible _ _ I)]. }
      { exact I. }
      cbn [drain]. rewrite Q, R1. cbn [obind]. rewrite R2. cbn [obind].
      destruct f as [[x1 y1]|].
      * exists s2, (Some (x1, y1)). split; [reflexivity|]. split; [exact L1|]. split; [exact L2|]. exact P.
      * destruct P as (P1 & P2 & _ & _ & P6). pose proof (Tcount_le s). pose proof (Tcount_le s2). cbn [length] in Hf.
        destruct (IH s2) as (s' & f & R & L3 & L4 & P).
        { lia. } { exact P1. } { destruct B as [B1 B2]. split; [intros z Hz; rewrite L1; auto|intros y Hy; rewrite L2; auto]. }
        exists s', f. split; [exact R|]. split; [congruence|]. split; [congruence|].
        destruct f as [[x1 y1]|]; [exact P|]. destruct P as (P3 & P4 & P5). split; [exact P3|]. split; [exact P4|].
        lia.
Qed.

(** The smallest slack *)
Lemma smallest_slack_le s : forall ys d, let e := fold_left (fun delta i => if in_T s i then delta else Z.min delta (slack s i)) ys d in
  e <= d /\ (forall y, In y ys -> in_T s y = false -> e <= slack s y) /\
  (e = d \/ exists y, In y ys /\ in_T s y = false /\ e = slack s y).
Proof.
  induction ys as [|y ys IH]; intros d e.
  - unfold e. cbn. split; [lia|]. split; [intros y []|now left].
  - unfold e. cbn [fold_left]. clear e. destruct (in_T s y) eqn:E.
    + destruct (IH d) as (A & B & C). split; [exact A|]. split.
      * intros z [<-|Hz] Tz; [congruence|now apply B].
      * destruct C as [C|(z & Hz & C)]; [now left|right; exists z; cbn; tauto].
    + destruct (IH (Z.min d (slack s y))) as (A & B & C). split; [lia|]. split.
      * intros z [<-|Hz] Tz; [lia|now apply B].
      * destruct C as [C|(z & Hz & C)]; [|right; exists z; cbn; tauto].
        destruct (Z.min_spec d (slack s y)) as [[_ M]|[_ M]]; [left; congruence|right; exists y; cbn; split; [auto|]; split; [exact E|congruence]].
Qed.

(** The loop that changes the labels, as a function *)
Lemma relabel_run delta : forall is s, NoDup is ->
  (forall i, In i is -> (in_S s i = true -> imin <= lx s i - delta <= imax) /\
     (if in_T s i then imin <= ly s i + delta <= imax else imin <= slack s i - delta <= imax)) ->
  exists s', relabel norm delta is s = Done s' /\ in_S s' = in_S s /\ in_T s' = in_T s /\ slackx s' = slackx s /\ aug_path s' = aug_path s /\
    (forall i, In i is -> lx s' i = (if in_S s i then lx s i - delta else lx s i) /\
       ly s' i = (if in_T s i then ly s i + delta else ly s i) /\ slack s' i = (if in_T s i then slack s i else slack s i - delta)) /\
    (forall i, ~ In i is -> lx s' i = lx s i /\ ly s' i = ly s i /\ slack s' i = slack s i).
Proof.
  induction is as [|i is IH]; intros s Nd H.
  - exists s. cbn. repeat split; auto; contradiction.
  - inversion_clear Nd as [|? ? N1 N2]. destruct (H i (or_introl eq_refl)) as [H1 H2]. cbn [relabel].
    set (lx' := if in_S s i then upd (lx s) i (lx s i - delta) else lx s).
    assert (E1 : (if in_S s i then obind (norm (lx s i - delta)) (fun v => Done (upd (lx s) i v)) else Done (lx s)) = Done lx').
    { unfold lx'. destruct (in_S s i); [rewrite (norm_ok _ (H1 eq_refl))|]; reflexivity. }
    rewrite E1. cbn [obind].
    set (s1 := Search lx' (if in_T s i then upd (ly s) i (ly s i + delta) else ly s) (in_S s) (in_T s)
                 (if in_T s i then slack s else upd (slack s) i (slack s i - delta)) (slackx s) (aug_path s) (queue s)).
    assert (E2 : (if in_T s i then obind (norm (ly s i + delta)) (fun v => relabel norm delta is (Search lx' (upd (ly s) i v) (in_S s) (in_T s) (slack s) (slackx s) (aug_path s) (queue s)))
      else obind (norm (slack s i - delta)) (fun v => relabel norm delta is (Search lx' (ly s) (in_S s) (in_T s) (upd (slack s) i v) (slackx s) (aug_path s) (queue s))))
      = relabel norm delta is s1).
    { unfold s1. destruct (in_T s i); rewrite (norm_ok _ H2); reflexivity. }
    rewrite E2. clear E1 E2.
    assert (O : forall j, j <> i -> lx s1 j = lx s j /\ ly s1 j = ly s j /\ slack s1 j = slack s j).
    { intros j Hj. unfold s1, lx'. cbn. destruct (in_S s i), (in_T s i); rewrite ?upd_neq by assumption; auto. }
    assert (O' : lx s1 i = (if in_S s i then lx s i - delta else lx s i) /\
       ly s1 i = (if in_T s i then ly s i + delta else ly s i) /\ slack s1 i = (if in_T s i then slack s i else slack s i - delta)).
    { unfold s1, lx'. cbn. destruct (in_S s i), (in_T s i); rewrite ?upd_eq; auto. }
    destruct (IH s1 N2) as (s' & R & A1 & A2 & A3 & A4 & A5 & A6).
    { intros j Hj. assert (Nj : j <> i) by (intros ->; contradiction). destruct (O j Nj) as (-> & -> & ->). apply H. now right. }
    exists s'. split; [exact R|]. split; [exact A1|]. split; [exact A2|]. split; [exact A3|]. split; [exact A4|]. split.
    + intros j [<-|Hj].
      * destruct (A6 i N1) as (-> & -> & ->). exact O'.
      * assert (Nj : j <> i) by (intros ->; contradiction). specialize (A5 j Hj). destruct (O j Nj) as (Q1 & Q2 & Q3). rewrite Q1, Q2, Q3 in A5. exact A5.
    + intros j Hj. assert (Nj : j <> i) by (intros ->; apply Hj; now left). destruct (A6 j) as (-> & -> & ->).
      * intros Hi. apply Hj. now right.
      * exact (O j Nj).
Qed.

Lemma path_labels aug l l' m m' x q : (forall p y, In p q -> (exists z, In z q /\ xy z = Some y) -> l p + l' y = m p + m' y) ->
  path aug l l' x q -> path aug m m' x q.
Proof.
  intros H P. induction P as [P|x p y q H1 H2 H3 H4 IH H5]; [now constructor|].
  apply (path_step _ _ _ x p y); [exact H1|exact H2| | |exact H5].
  - rewrite H3. apply H; [right; inversion H4; now left|]. exists x. split; [now left|exact H2].
  - apply IH. intros p' y' Hp (z & Hz & E). apply H; [now right|]. exists z. split; [now right|exact E].
Qed.

Lemma S_T_matched d s x y : inv d s -> (x < n)%nat -> xy x = Some y -> in_S s x = in_T s y.
Proof.
  intros I Hx E. pose proof (xy_bound _ _ Hx E) as Hy. destruct (in_T s y) eqn:Ty.
  - destruct (v_T _ _ I y Hy Ty) as (x' & E' & S'). pose proof (yx_bound _ _ Hy E') as Hx'. apply matched in E; [|assumption|assumption]. congruence.
  - destruct (in_S s x) eqn:Sx; [|reflexivity]. destruct (v_S _ _ I x Sx) as [_ [->|(y' & Hy' & Ty' & E')]]; [congruence|].
    apply matched in E'; [|assumption|assumption]. congruence.
Qed.

Lemma relabel_spec s : inv (fun _ _ => True) s -> queue s = [] -> bnd s ->
  exists s', relabel norm (smallest_slack imax n s) (seq 0 n) s = Done s' /\
    let s2 := Search (lx s') (ly s') (in_S s') (in_T s') (slack s') (slackx s') (aug_path s') [] in
    inv (fun _ w => (w < 0)%nat) s2 /\ bnd s2 /\ Tcount s2 = Tcount s /\
    (exists y, (y < n)%nat /\ in_T s2 y = false /\ slack s2 y = 0) /\
    (forall x, ~ active x -> (x < n)%nat -> lx s2 x = lx s x).
Proof.
  intros I Q B. pose proof (T_y0 _ _ I) as T0.
  assert (Slt : forall y, (y < n)%nat -> in_T s y = false -> slack s y < imax).
  { intros y Hy Ty. assert (L := v_slack _ _ I r y (v_root _ _ I)). rewrite Q in L. specialize (L (fun f => f) Hy Ty).
    assert (A : active r) by (split; auto). destruct (bnd_safe s r B A (v_feasible _ _ I) y Hy). lia. }
  destruct (smallest_slack_le s (seq 0 n) imax) as (D1 & D2 & D3). fold (smallest_slack imax n s) in D1, D2, D3.
  set (delta := smallest_slack imax n s) in *.
  assert (D2' : forall y, (y < n)%nat -> in_T s y = false -> delta <= slack s y) by (intros y Hy; apply D2, in_seq; lia).
  destruct D3 as [D3|(ys & Hys & Tys & D3)].
  { specialize (D2' y0 y0_bound T0). specialize (Slt y0 y0_bound T0). lia. }
  apply in_seq in Hys. destruct Hys as [_ Hys]. cbn in Hys.
  assert (Feas : forall x y, (x < n)%nat -> in_S s x = true -> (y < n)%nat -> in_T s y = false -> delta <= lx s x + ly s y - c x y).
  { intros x y Hx Sx Hy Ty. assert (L := v_slack _ _ I x y Sx). rewrite Q in L. specialize (L (fun f => f) Hy Ty). specialize (D2' y Hy Ty). lia. }
  assert (Dpos : 0 < delta).
  { destruct (v_slackx _ _ I ys Hys Tys) as [Sl|[Sx Sl]]; [specialize (Slt ys Hys Tys); lia|].
    assert (L := v_done _ _ I (slackx s ys) ys Sx). rewrite Q in L. specialize (L (fun f => f) Hys Tys Logic.I).
    pose proof (v_feasible _ _ I (slackx s ys) ys (proj1 (v_S _ _ I _ Sx)) Hys). lia. }
  assert (LowS : forall x, in_S s x = true -> lo <= lx s x - delta <= hi).
  { intros x Sx. pose proof (S_active _ _ _ I Sx) as A. specialize (Feas x y0 (proj1 A) Sx y0_bound T0).
    rewrite (v_free _ _ I y0 y0_bound y0_free) in Feas. pose proof (rows x y0 A y0_bound). pose proof (proj1 B x A). lia. }
  assert (HighT : forall y, (y < n)%nat -> in_T s y = true -> 0 <= ly s y + delta <= hi - lo).
  { intros y Hy Ty. destruct (v_T _ _ I y Hy Ty) as (x & E & Sx). pose proof (S_active _ _ _ I Sx) as A.
    pose proof (LowS x Sx). apply matched in E; [|exact (proj1 A)|exact Hy]. pose proof (v_tight _ _ I x y (proj1 A) E).
    pose proof (rows x y A Hy). pose proof (v_pos _ _ I y Hy). lia. }
  assert (A0 : active r) by (split; auto).
  assert (LoHi : lo <= hi) by (pose proof (rows r y0 A0 y0_bound); lia).
  destruct (relabel_run delta (seq 0 n) s (seq_NoDup _ _)) as (s' & R & A1 & A2 & A3 & A4 & A5 & _).
  { intros i Hi. apply in_seq in Hi. split.
    - intros Sx. specialize (LowS i Sx). lia.
    - destruct (in_T s i) eqn:Ti; [specialize (HighT i ltac:(lia) Ti); lia|]. specialize (Slt i ltac:(lia) Ti). specialize (D2' i ltac:(lia) Ti). lia. }
  assert (A5' : forall i, (i < n)%nat -> lx s' i = (if in_S s i then lx s i - delta else lx s i) /\
       ly s' i = (if in_T s i then ly s i + delta else ly s i) /\ slack s' i = (if in_T s i then slack s i else slack s i - delta)).
  { intros i Hi. apply A5, in_seq. lia. }
  exists s'. split; [exact R|]. intros s2.
  split; [|split; [|split; [|split]]].
  - constructor; unfold s2; cbn [lx ly in_S in_T slack slackx aug_path queue]; rewrite ?A1, ?A2, ?A3, ?A4.
    + intros x y Hx Hy. destruct (A5' x Hx) as (-> & _). destruct (A5' y Hy) as (_ & -> & _).
      pose proof (v_feasible _ _ I x y Hx Hy). destruct (in_S s x) eqn:Sx, (in_T s y) eqn:Ty; try lia. specialize (Feas x y Hx Sx Hy Ty). lia.
    + intros x y Hx E. pose proof (xy_bound _ _ Hx E) as Hy. destruct (A5' x Hx) as (-> & _). destruct (A5' y Hy) as (_ & -> & _).
      pose proof (v_tight _ _ I x y Hx E). rewrite (S_T_matched _ _ x y I Hx E). destruct (in_T s y); lia.
    + intros y Hy E. destruct (A5' y Hy) as (_ & -> & _). destruct (in_T s y) eqn:Ty; [|exact (v_free _ _ I y Hy E)].
      destruct (v_T _ _ I y Hy Ty) as (x & E' & _). congruence.
    + intros y Hy. destruct (A5' y Hy) as (_ & -> & _). pose proof (v_pos _ _ I y Hy). destruct (in_T s y); lia.
    + exact (v_T _ _ I).
    + exact (v_S _ _ I).
    + exact (v_root _ _ I).
    + split; [constructor|intros x []].
    + intros x Sx. destruct (v_path _ _ I x Sx) as (q & P & M). exists q. split; [|exact M].
      apply (path_labels _ (lx s) (ly s)); [|exact P]. intros p y Hp (z & Hz & E).
      apply M in Hp. apply M in Hz. pose proof (proj1 (v_S _ _ I p Hp)) as Bp. pose proof (proj1 (v_S _ _ I z Hz)) as Bz.
      pose proof (xy_bound _ _ Bz E) as Hy. destruct (A5' p Bp) as (-> & _). destruct (A5' y Hy) as (_ & -> & _).
      rewrite Hp. rewrite <- (S_T_matched _ _ z y I Bz E), Hz. lia.
    + intros x y Sx _ Hy Ty. pose proof (proj1 (v_S _ _ I x Sx)) as Bx. destruct (A5' x Bx) as (-> & _). destruct (A5' y Hy) as (_ & -> & ->).
      rewrite Sx, Ty. assert (L := v_slack _ _ I x y Sx). rewrite Q in L. specialize (L (fun f => f) Hy Ty). lia.
    + intros x y _ _ _ _ D. lia.
    + intros y Hy Ty. right. destruct (A5' y Hy) as (_ & -> & ->). rewrite Ty.
      destruct (v_slackx _ _ I y Hy Ty) as [Sl|[Sx Sl]]; [specialize (Slt y Hy Ty); lia|]. split; [exact Sx|].
      destruct (A5' _ (proj1 (v_S _ _ I _ Sx))) as (-> & _). rewrite Sx. lia.
  - split; unfold s2; cbn [lx ly].
    + intros x A. destruct (A5' x (proj1 A)) as (-> & _). pose proof (proj1 B x A). destruct (in_S s x) eqn:Sx; [now apply LowS|lia].
    + intros y Hy. destruct (A5' y Hy) as (_ & -> & _). pose proof (proj2 B y Hy). destruct (in_T s y) eqn:Ty; [now apply HighT|lia].
  - unfold Tcount, s2. cbn [in_T]. now rewrite A2.
  - exists ys. split; [exact Hys|]. unfold s2. cbn [in_T slack]. rewrite A2. split; [exact Tys|]. destruct (A5' ys Hys) as (_ & _ & ->). rewrite Tys. lia.
  - intros x NA Hx. unfold s2. cbn [lx]. destruct (A5' x Hx) as (-> & _). destruct (in_S s x) eqn:Sx; [|reflexivity]. elim NA. exact (S_active _ _ _ I Sx).
Qed.

(** The loop over the columns after a change of labels *)
Lemma zero_scan_spec : forall k a s, (a + k = n)%nat -> 0 < imax -> inv (fun _ w => (w < a)%nat) s ->
  exists s' f, zero_scan yx (seq a k) s = (s', f) /\ lx s' = lx s /\ ly s' = ly s /\
    match f with
    | None => inv (fun _ _ => True) s' /\ (Tcount s' + length (queue s) = Tcount s + length (queue s'))%nat /\ (Tcount s <= Tcount s')%nat /\
        ((exists y, (a <= y < n)%nat /\ in_T s y = false /\ slack s y = 0) -> (Tcount s < Tcount s')%nat)
    | Some (x1, y1) => inv (fun _ _ => False) s' /\ found_ok s' x1 y1
    end.
Proof.
  induction k as [|k IH]; intros a s Hk Pm I.
  - exists s, None. cbn [seq zero_scan]. split; [reflexivity|]. split; [reflexivity|]. split; [reflexivity|]. split.
    + destruct I. constructor; auto. intros z w Hz Nz Hw Tw _. apply (v_done0 z w); auto. lia.
    + split; [lia|]. split; [lia|]. intros (y & Hy & _). lia.
  - cbn [seq zero_scan]. assert (Ha : (a < n)%nat) by lia.
    destruct (negb (in_T s a) && (slack s a =? 0)) eqn:E.
    + apply andb_true_iff in E. destruct E as [E1 E2]. apply Z.eqb_eq in E2. apply negb_true_iff in E1.
      destruct (v_slackx _ _ I a Ha E1) as [Sl|[Sx Sl]]; [lia|].
      assert (Tt : c (slackx s a) a = lx s (slackx s a) + ly s a) by lia.
      destruct (yx a) as [x'|] eqn:Y.
      * destruct (inv_add _ s (slackx s a) a x' I Ha Sx E1 Y Tt) as [NS I']. rewrite NS.
        set (s1 := Search _ _ _ _ _ _ _ _) in *.
        destruct (IH (S a) s1) as (s' & f & R & L1 & L2 & P).
        { lia. } { exact Pm. }
        { destruct I'. constructor; auto. intros z w Hz Nz Hw Tw D. apply (v_done0 z w); auto.
          cbn in Tw. unfold upd in Tw. destruct (Nat.eqb_spec w a); [discriminate|]. lia. }
        exists s', f. split; [exact R|]. split; [rewrite L1; reflexivity|]. split; [rewrite L2; reflexivity|].
        destruct f as [[x1 y1]|]; [exact P|]. destruct P as (P1 & P2 & P3 & _). split; [exact P1|].
        unfold s1 in P2, P3. rewrite Tcount_add in P2, P3 by assumption. cbn [queue] in P2. rewrite app_length in P2. cbn in P2.
        split; [lia|]. split; [lia|]. intros _. lia.
      * exists s, (Some (slackx s a, a)). split; [reflexivity|]. split; [reflexivity|]. split; [reflexivity|]. split.
        -- destruct I. constructor; auto.
        -- unfold found_ok. auto.
    + destruct (IH (S a) s) as (s' & f & R & L1 & L2 & P).
      { lia. } { exact Pm. }
      { destruct I. constructor; auto. intros z w Hz Nz Hw Tw D.
        destruct (Nat.eq_dec w a) as [->|]; [|apply (v_done0 z w); auto; lia].
        rewrite Tw in E. cbn in E. apply Z.eqb_neq in E. pose proof (v_slack0 z a Hz Nz Hw Tw) as L.
        destruct (v_slackx0 a Hw Tw) as [Sl|[Sx Sl]]; [lia|]. pose proof (v_feasible0 _ a (proj1 (v_S0 _ Sx)) Hw). lia. }
      exists s', f. split; [exact R|]. split; [exact L1|]. split; [exact L2|].
      destruct f as [[x1 y1]|]; [exact P|]. destruct P as (P1 & P2 & P3 & P4). split; [exact P1|]. split; [exact P2|]. split; [exact P3|].
      intros (y & Hy & Ty & Sy). apply P4. exists y. split; [|auto]. destruct (Nat.eq_dec y a) as [->|]; [|lia].
      rewrite Ty, Sy in E. discriminate E.
Qed.

(** The search finds a path *)
Lemma find_path_spec : forall fuel s, (n - Tcount s < fuel)%nat -> (length (queue s) <= S (Tcount s))%nat ->
  inv (fun _ _ => True) s -> bnd s ->
  exists s' x1 y1, find_path norm imax n c fuel yx s = Done (s', (x1, y1)) /\ inv (fun _ _ => False) s' /\ found_ok s' x1 y1 /\ bnd s' /\
    forall x, ~ active x -> (x < n)%nat -> lx s' x = lx s x.
Proof.
  induction fuel as [|fuel IH]; intros s Hf Hq I B; [lia|].
  assert (Pm : 0 < imax).
  { assert (A0 : active r) by (split; auto). pose proof (rows r y0 A0 y0_bound). lia. }
  pose proof (Tcount_le s) as TL. cbn [find_path].
  destruct (drain_spec (S n) s) as (s1 & f & R & L1 & L2 & P); [lia|exact I|exact B|].
  rewrite R. cbn [obind].
  assert (B1 : bnd s1) by (destruct B as [B1 B2]; split; [intros z Hz; rewrite L1; auto|intros y Hy; rewrite L2; auto]).
  destruct f as [[x1 y1]|].
  - exists s1, x1, y1. destruct P as [P1 P2]. split; [reflexivity|]. split; [exact P1|]. split; [exact P2|]. split; [exact B1|].
    intros x _ _. now rewrite L1.
  - destruct P as (P1 & P2 & P3). destruct (relabel_spec s1 P1 P2 B1) as (s2 & R2 & C1 & C2 & C3 & (yz & Hyz & C4) & C5).
    rewrite R2. cbn [obind]. set (s2' := Search _ _ _ _ _ _ _ _) in *.
    destruct (zero_scan_spec n 0 s2') as (s3 & f & R3 & L3 & L4 & P4); [lia|exact Pm|exact C1|].
    rewrite R3.
    assert (B3 : bnd s3) by (destruct C2 as [C2 C2']; split; [intros z Hz; rewrite L3; auto|intros y Hy; rewrite L4; auto]).
    assert (K : forall x, ~ active x -> (x < n)%nat -> lx s3 x = lx s x).
    { intros x NA Hx. rewrite L3, (C5 x NA Hx). now rewrite L1. }
    destruct f as [[x1 y1]|].
    + exists s3, x1, y1. destruct P4 as [P4 P5]. auto 10.
    + destruct P4 as (P4 & P5 & P6 & P7). specialize (P7 (ex_intro _ yz (conj (conj (Nat.le_0_l _) Hyz) C4))).
      cbn [queue s2' length] in P5. pose proof (Tcount_le s3).
      destruct (IH s3) as (s' & x1 & y1 & R4 & K1 & K2 & K3 & K4); [lia|lia|exact P4|exact B3|].
      exists s', x1, y1. split; [exact R4|]. split; [exact K1|]. split; [exact K2|]. split; [exact K3|].
      intros x NA Hx. rewrite (K4 x NA Hx). exact (K x NA Hx).
Qed.
End Bounded.

(** ** Flipping the path *)
Lemma path_NoDup aug l l' x q : path aug l l' x q -> NoDup q /\ In x q.
Proof.
  induction 1 as [H|x p y q H1 H2 H3 H4 [IH _] H5]; split; try (now left); constructor; auto. constructor.
Qed.

Lemma flip_spec aug l l' x q : path aug l l' x q -> forall fuel cy xy' yx', (length q <= fuel)%nat ->
  (forall z, In z q -> (z < n)%nat) ->
  (forall z w, (z < n)%nat -> (w < n)%nat -> w <> cy -> (xy' z = Some w <-> yx' w = Some z)) ->
  (forall z, (z < n)%nat -> xy' z <> Some cy) ->
  (forall z, In z q -> xy' z = xy z) ->
  (cy < n)%nat -> c x cy = l x + l' cy ->
  (forall z w, (z < n)%nat -> xy' z = Some w -> (w < n)%nat /\ l z + l' w = c z w) ->
  (forall z w, (w < n)%nat -> w <> cy -> yx' w = Some z -> (z < n)%nat) ->
  exists fxy fyx, flip fuel aug x (Some cy) xy' yx' = Done (fxy, fyx) /\
    (forall z w, (z < n)%nat -> (w < n)%nat -> (fxy z = Some w <-> fyx w = Some z)) /\
    (forall z w, (z < n)%nat -> fxy z = Some w -> (w < n)%nat /\ l z + l' w = c z w) /\
    (forall z w, (w < n)%nat -> fyx w = Some z -> (z < n)%nat) /\
    (forall z, (z < n)%nat -> (fxy z = None <-> xy' z = None /\ z <> r)) /\
    (forall w, fyx w = None -> yx' w = None).
Proof.
  induction 1 as [H|x p y q H1 H2 H3 H4 IH H5]; intros fuel cy xy' yx' Hf Bq M1 M2 M3 Hcy Tt M5 M6.
  - destruct fuel as [|fuel]; [cbn in Hf; lia|]. cbn [flip]. rewrite H. exists (upd xy' r (Some cy)), (upd yx' cy (Some r)).
    split; [reflexivity|]. assert (E0 : xy' r = None) by (rewrite M3; [exact root_free|now left]).
    split; [|split; [|split; [|split]]].
    + intros z w Hz Hw. unfold upd. destruct (Nat.eqb_spec z r) as [->|Nz], (Nat.eqb_spec w cy) as [->|Nw].
      * tauto.
      * split; [congruence|]. intros E. apply M1 in E; [congruence|assumption|assumption|assumption].
      * split; [intros E; now apply M2 in E|congruence].
      * now apply M1.
    + intros z w Hz. unfold upd. destruct (Nat.eqb_spec z r) as [->|Nz].
      * intros [= <-]. split; [exact Hcy|lia].
      * now apply M5.
    + intros z w Hw. unfold upd. destruct (Nat.eqb_spec w cy) as [->|Nw]; [intros [= <-]; exact root|]. apply M6; assumption.
    + intros z Hz. unfold upd. destruct (Nat.eqb_spec z r) as [->|Nz]; [split; [discriminate|tauto]|tauto].
    + intros w. unfold upd. destruct (Nat.eqb_spec w cy); [discriminate|auto].
  - destruct fuel as [|fuel]; [cbn in Hf; lia|]. cbn [flip]. rewrite H1.
    assert (Hx : (x < n)%nat) by (apply Bq; now left). assert (E0 : xy' x = Some y) by (rewrite M3; [exact H2|now left]). rewrite E0.
    destruct (M5 x y Hx E0) as [Hy _]. assert (Ny : y <> cy) by (intros ->; now apply (M2 x)).
    destruct (IH fuel y (upd xy' x (Some cy)) (upd yx' cy (Some x))) as (fxy & fyx & R & C1 & C2 & C3 & C4 & C5).
    + cbn in Hf. lia.
    + intros z Hz. apply Bq. now right.
    + intros z w Hz Hw Nw. unfold upd. destruct (Nat.eqb_spec z x) as [->|Nz], (Nat.eqb_spec w cy) as [->|Nw'].
      * tauto.
      * split; [congruence|]. intros E. apply M1 in E; [congruence|assumption|assumption|assumption].
      * split; [intros E; now apply M2 in E|congruence].
      * now apply M1.
    + intros z Hz. unfold upd. destruct (Nat.eqb_spec z x) as [->|Nz]; [congruence|]. intros E.
      apply M1 in E; [|assumption|assumption|assumption]. apply M1 in E0; [congruence|assumption|assumption|assumption].
    + intros z Hz. rewrite upd_neq; [apply M3; now right|]. intros ->. contradiction.
    + exact Hy.
    + exact H3.
    + intros z w Hz. unfold upd. destruct (Nat.eqb_spec z x) as [->|Nz]; [intros [= <-]; split; [exact Hcy|lia]|now apply M5].
    + intros z w Hw Nw. unfold upd. destruct (Nat.eqb_spec w cy) as [->|Nw']; [intros [= <-]; exact Hx|]. apply M6; assumption.
    + exists fxy, fyx. split; [exact R|]. split; [exact C1|]. split; [exact C2|]. split; [exact C3|]. split.
      * intros z Hz. rewrite (C4 z Hz). unfold upd. destruct (Nat.eqb_spec z x) as [->|Nz]; [|tauto]. split; [intros [? _]; discriminate|intros [? _]; congruence].
      * intros w Hw. specialize (C5 w Hw). unfold upd in C5. destruct (Nat.eqb_spec w cy); [discriminate|exact C5].
Qed.

Lemma flip_found s x y : inv (fun _ _ => False) s -> found_ok s x y ->
  exists fxy fyx, flip (S n) (aug_path s) x (Some y) xy yx = Done (fxy, fyx) /\
    (forall z w, (z < n)%nat -> (w < n)%nat -> (fxy z = Some w <-> fyx w = Some z)) /\
    (forall z w, (z < n)%nat -> fxy z = Some w -> (w < n)%nat /\ lx s z + ly s w = c z w) /\
    (forall z w, (w < n)%nat -> fyx w = Some z -> (z < n)%nat) /\
    (forall z, (z < n)%nat -> (fxy z = None <-> xy z = None /\ z <> r)) /\
    (forall w, fyx w = None -> yx w = None).
Proof.
  intros I (Hy & Ey & Sx & Tt). destruct (v_path _ _ I x Sx) as (q & P & M).
  assert (Bq : forall z, In z q -> (z < n)%nat) by (intros z Hz; apply (v_S _ _ I z), M, Hz).
  apply (flip_spec _ (lx s) (ly s) x q P).
  - assert (L : (length q <= length (seq 0 n))%nat).
    { apply NoDup_incl_length; [exact (proj1 (path_NoDup _ _ _ _ _ P))|]. intros z Hz. apply in_seq. specialize (Bq z Hz). lia. }
    rewrite seq_length in L. lia.
  - exact Bq.
  - intros z w Hz Hw _. now apply matched.
  - intros z Hz E. apply matched in E; [congruence|assumption|assumption].
  - auto.
  - exact Hy.
  - exact Tt.
  - intros z w Hz E. split; [exact (xy_bound _ _ Hz E)|exact (v_tight _ _ I z w Hz E)].
  - intros z w Hw _ E. exact (yx_bound _ _ Hw E).
Qed.
End Search.

(** ** The largest element of a row *)
Lemma fold_max_le x : forall ys v, let w := fold_left (fun v y => Z.max v (c x y)) ys v in
  v <= w /\ (forall y, In y ys -> c x y <= w) /\ (w = v \/ exists y, In y ys /\ w = c x y).
Proof.
  induction ys as [|y ys IH]; intros v w.
  - unfold w. cbn. split; [lia|]. split; [intros y []|now left].
  - unfold w. cbn [fold_left]. destruct (IH (Z.max v (c x y))) as (A & B & C). split; [lia|]. split.
    + intros z [<-|Hz]; [lia|now apply B].
    + destruct C as [C|(z & Hz & C)]; [|right; exists z; cbn; auto].
      destruct (Z.max_spec v (c x y)) as [[_ Q]|[_ Q]]; [right; exists y; cbn; split; [auto|congruence]|left; congruence].
Qed.
Lemma row_max_spec x : (0 < n)%nat -> (forall y, (y < n)%nat -> c x y <= row_max n c x) /\ exists y, (y < n)%nat /\ row_max n c x = c x y.
Proof.
  intros Hn. unfold row_max. destruct (fold_max_le x (seq 0 n) (c x 0%nat)) as (A & B & C). split.
  - intros y Hy. apply B, in_seq. lia.
  - destruct C as [C|(y & Hy & C)]; [exists 0%nat; auto|]. apply in_seq in Hy. exists y. split; [lia|exact C].
Qed.

(** ** The rounds.  Rows from [R] on are padded with [pad]. *)
Section Rounds.
Context (R : nat) (lo hi pad : Z).
Hypothesis R_le : (R <= n)%nat.
Hypothesis lo_hi : lo <= hi.
Hypothesis bounds : imin <= lo /\ imin <= 0 /\ 2 * hi - lo <= imax /\ 2 * (hi - lo) < imax.
Hypothesis pad_bounds : imin <= pad <= 0.
Hypothesis real_rows : forall x y, (x < R)%nat -> (y < n)%nat -> lo <= c x y <= hi.
Hypothesis padded_rows : forall x y, (R <= x < n)%nat -> (y < n)%nat -> c x y = pad.

Record round_inv (k : nat) (m : matching) : Prop := {
  i_feasible : feasible (m_lx m) (m_ly m);
  i_matched : forall x y, (x < n)%nat -> (y < n)%nat -> (m_xy m x = Some y <-> m_yx m y = Some x);
  i_yx : forall x y, (y < n)%nat -> m_yx m y = Some x -> (x < n)%nat;
  i_tight : forall x y, (x < n)%nat -> m_xy m x = Some y -> (y < n)%nat /\ m_lx m x + m_ly m y = c x y;
  i_free : forall y, (y < n)%nat -> m_yx m y = None -> m_ly m y = 0;
  i_ly : forall y, (y < n)%nat -> 0 <= m_ly m y <= hi - lo;
  i_count : forall x, (x < n)%nat -> (m_xy m x = None <-> (k <= x)%nat);
  i_lx : forall x, (x < R)%nat -> lo <= m_lx m x <= hi;
  i_pad : forall x, (R <= x < n)%nat -> m_lx m x = pad
}.

Lemma find_skip (f : nat -> bool) : forall k a l, (forall x, (a <= x < a + k)%nat -> f x = false) -> find f (seq a k ++ l) = find f l.
Proof.
  induction k as [|k IH]; intros a l H; [reflexivity|]. cbn [seq app find]. rewrite (H a) by lia. apply IH. intros x Hx. apply H. lia.
Qed.
Lemma find_first (f : nat -> bool) k : (k < n)%nat -> (forall x, (x < n)%nat -> (f x = true <-> (k <= x)%nat)) -> find f (seq 0 n) = Some k.
Proof.
  intros Hk H. replace n with (k + S (n - S k))%nat at 1 by lia. rewrite seq_app. cbn [seq plus]. rewrite find_skip.
  - cbn [find]. replace (f k) with true; [reflexivity|]. symmetry. apply H; lia.
  - intros x Hx. destruct (f x) eqn:E; [|reflexivity]. apply H in E; lia.
Qed.

(** While a row is not matched there is a free column *)
Lemma free_column k m : (k < n)%nat -> round_inv k m -> exists y, (y < n)%nat /\ m_yx m y = None.
Proof.
  intros Hk I. destruct (find (fun y => match m_yx m y with None => true | Some _ => false end) (seq 0 n)) as [y|] eqn:E.
  - apply find_some in E. destruct E as [E1 E2]. apply in_seq in E1. exists y. split; [lia|]. now destruct (m_yx m y).
  - exfalso. pose proof (find_none _ _ E) as N.
    set (g := fun y => match m_yx m y with Some x => x | None => 0%nat end).
    assert (G : forall y, (y < n)%nat -> m_yx m y = Some (g y)).
    { intros y Hy. unfold g. specialize (N y ltac:(apply in_seq; lia)). cbn in N. now destruct (m_yx m y). }
    assert (X : forall y, (y < n)%nat -> m_xy m (g y) = Some y /\ (g y < n)%nat).
    { intros y Hy. pose proof (i_yx _ _ I _ _ Hy (G y Hy)) as B. split; [|exact B]. apply (i_matched _ _ I); auto. }
    assert (L : (length (map g (seq 0 n)) <= length (seq 0 k))%nat).
    { apply NoDup_incl_length.
      - assert (ND : forall l, NoDup l -> (forall y, In y l -> (y < n)%nat) -> NoDup (map g l)).
        { induction l as [|a l IH]; intros Nl Bl; cbn; constructor; inversion_clear Nl.
          - intros Hi. apply in_map_iff in Hi. destruct Hi as (b & Eb & Hb).
            destruct (X a) as [Xa _]; [apply Bl; now left|]. destruct (X b) as [Xb _]; [apply Bl; now right|]. rewrite Eb in Xb. congruence.
          - apply IH; [assumption|]. intros y Hy. apply Bl. now right. }
        apply ND; [apply seq_NoDup|]. intros y Hy. apply in_seq in Hy. lia.
      - intros x Hx. apply in_map_iff in Hx. destruct Hx as (y & <- & Hy). apply in_seq in Hy. destruct (X y) as [Xa Xb]; [lia|].
        apply in_seq. split; [lia|]. cbn. destruct (Nat.lt_ge_cases (g y) k) as [|Hge]; [assumption|]. apply (i_count _ _ I) in Hge; [congruence|assumption]. }
    rewrite map_length, !seq_length in L. lia.
Qed.

Lemma round_spec k m : (k < n)%nat -> round_inv k m -> exists m', round norm imax n c m = Done m' /\ round_inv (S k) m'.
Proof.
  intros Hk I. destruct (free_column k m Hk I) as (y0 & Hy0 & Fy0).
  assert (Rk : m_xy m k = None) by (apply (i_count _ _ I); [assumption|lia]).
  pose proof (i_matched _ _ I) as M. pose proof (i_yx _ _ I) as Yb.
  assert (Xb : forall x y, (x < n)%nat -> m_xy m x = Some y -> (y < n)%nat) by (intros x y Hx E; apply (i_tight _ _ I x y Hx E)).
  set (s0 := Search (m_lx m) (m_ly m) (upd (fun _ => false) k true) (fun _ => false) (fun _ => imax) (m_slackx m) (fun _ => None) [k]).
  assert (E0 : round_start imax n m = s0).
  { unfold round_start. rewrite (find_first _ k); [reflexivity|exact Hk|]. intros x Hx.
    pose proof (i_count _ _ I x Hx) as Cx. destruct (m_xy m x); intuition congruence. }
  assert (Sk : forall x, upd (fun _ => false) k true x = true -> x = k).
  { intros x. unfold upd. destruct (Nat.eqb_spec x k); [auto|discriminate]. }
  assert (I0 : inv (m_xy m) (m_yx m) k (fun _ _ => True) s0).
  { constructor; unfold s0; cbn [lx ly in_S in_T slack slackx aug_path queue].
    - exact (i_feasible _ _ I).
    - intros x y Hx E. apply (i_tight _ _ I x y Hx E).
    - exact (i_free _ _ I).
    - intros y Hy. apply (i_ly _ _ I y Hy).
    - discriminate.
    - intros x Hx. apply Sk in Hx. subst. auto.
    - apply upd_eq.
    - split; [repeat constructor; intros []|]. intros x [<-|[]]. apply upd_eq.
    - intros x Hx. apply Sk in Hx. subst. exists [k]. split; [now constructor|]. intros z [<-|[]]. apply upd_eq.
    - intros x y Hx N. apply Sk in Hx. subst. elim N. now left.
    - intros x y Hx N. apply Sk in Hx. subst. elim N. now left.
    - now left. }
  assert (Fin : exists s' x1 y1, find_path norm imax n c (S n) (m_yx m) s0 = Done (s', (x1, y1)) /\
     inv (m_xy m) (m_yx m) k (fun _ _ => False) s' /\ found_ok (m_yx m) s' x1 y1 /\
     (forall y, (y < n)%nat -> 0 <= ly s' y <= hi - lo) /\ (forall x, (x < R)%nat -> lo <= lx s' x <= hi) /\
     (forall x, (R <= x < n)%nat -> lx s' x = pad)).
  { destruct (Nat.lt_ge_cases k R) as [Hr|Hr].
    - assert (Act : forall x, active (m_xy m) k x <-> (x <= k)%nat).
      { intros x. unfold active. split.
        - intros [Hx [->|Nx]]; [lia|]. destruct (Nat.le_gt_cases x k) as [|G]; [assumption|]. elim Nx. apply (i_count _ _ I); [assumption|lia].
        - intros Hx. split; [lia|]. destruct (Nat.eq_dec x k) as [|Nx]; [now left|right]. rewrite (i_count _ _ I x); lia. }
      destruct (find_path_spec (m_xy m) (m_yx m) k y0 M Yb Xb Hk Rk Hy0 Fy0 lo hi bounds) with (fuel := S n) (s := s0)
        as (s' & x1 & y1 & F1 & F2 & F3 & [F4 F4'] & F5).
      + intros x y Hx Hy. apply Act in Hx. apply real_rows; lia.
      + lia.
      + cbn. lia.
      + exact I0.
      + split; unfold s0; cbn [lx ly].
        * intros x Hx. apply Act in Hx. apply (i_lx _ _ I). lia.
        * exact (i_ly _ _ I).
      + exists s', x1, y1. split; [exact F1|]. split; [exact F2|]. split; [exact F3|]. split; [exact F4'|]. split.
        * intros x Hx. destruct (Nat.le_gt_cases x k) as [L|L]; [apply F4, Act; exact L|].
          rewrite (F5 x); [apply (i_lx _ _ I x Hx)|rewrite Act; lia|lia].
        * intros x Hx. rewrite (F5 x); [apply (i_pad _ _ I x Hx)|rewrite Act; lia|lia].
    - pose proof (i_pad _ _ I k (conj Hr Hk)) as Pk.
      destruct (row_spec (m_xy m) (m_yx m) k y0 M Yb) with (x := k) (q' := @nil nat) (s := s0) as (s1 & s2 & f & R1 & R2 & L1 & L2 & P & _); auto.
      { unfold safe, s0. cbn [lx ly]. intros y Hy. rewrite Pk, (padded_rows k y (conj Hr Hk) Hy). pose proof (i_ly _ _ I y Hy). lia. }
      destruct f as [[x1 y1]|].
      + destruct P as [P1 P2]. exists s2, x1, y1. split.
        { unfold s0 in *. cbn [find_path drain queue lx ly in_S in_T slack slackx aug_path obind] in *.
          rewrite R1. cbn [obind]. rewrite R2. reflexivity. }
        split; [exact P1|]. split; [exact P2|]. rewrite L1, L2. unfold s0. cbn [lx ly].
        split; [exact (i_ly _ _ I)|]. split; [exact (i_lx _ _ I)|exact (i_pad _ _ I)].
      + exfalso. destruct P as (P1 & _ & P3 & P4 & _).
        apply (v_done _ _ _ _ _ P1 k y0 P3 P4 Hy0 (T_y0 _ _ _ _ Hy0 Fy0 _ _ P1) Logic.I).
        rewrite L1, L2. unfold s0. cbn [lx ly]. rewrite (i_free _ _ I y0 Hy0 Fy0), Pk, (padded_rows k y0 (conj Hr Hk) Hy0). lia. }
  destruct Fin as (s' & x1 & y1 & F1 & F2 & F3 & F4 & F5 & F6).
  destruct (flip_found (m_xy m) (m_yx m) k y0 M Yb Xb Hk Rk Hy0 s' x1 y1 F2 F3) as (fxy & fyx & G & G1 & G2 & G3 & G4 & G5).
  exists (Matching (lx s') (ly s') (slackx s') fxy fyx). split.
  - unfold round. rewrite E0, F1. cbn [obind]. rewrite G. reflexivity.
  - constructor; cbn [m_lx m_ly m_xy m_yx]; auto.
    + exact (v_feasible _ _ _ _ _ F2).
    + intros y Hy E. apply (v_free _ _ _ _ _ F2 y Hy). exact (G5 y E).
    + intros x Hx. rewrite (G4 x Hx), (i_count _ _ I x Hx). lia.
Qed.

Lemma rounds_spec j : forall k m, (k + j = n)%nat -> round_inv k m -> exists m', rounds norm imax n c j m = Done m' /\ round_inv n m'.
Proof.
  induction j as [|j IH]; intros k m Hk I.
  - exists m. split; [reflexivity|]. replace n with k by lia. exact I.
  - destruct (round_spec k m) as (m1 & R1 & I1); [lia|exact I|]. destruct (IH (S k) m1) as (m' & R2 & I2); [lia|exact I1|].
    exists m'. split; [|exact I2]. cbn [rounds]. rewrite R1. exact R2.
Qed.

(** The result: a perfect matching whose edges are tight for feasible labels *)
Theorem assignment_found : exists f l l',
  max_cost_assignment norm imax n c = Done (map (fun x => Z.of_nat (f x)) (seq 0 n)) /\
  (forall x, (x < n)%nat -> (f x < n)%nat) /\ (forall x x', (x < n)%nat -> (x' < n)%nat -> f x = f x' -> x = x') /\
  feasible l l' /\ forall x, (x < n)%nat -> c x (f x) = l x + l' (f x).
Proof.
  unfold max_cost_assignment. set (m0 := Matching _ _ _ _ _).
  assert (I0 : round_inv 0 m0).
  { unfold m0. constructor; cbn [m_lx m_ly m_xy m_yx].
    - intros x y Hx Hy. destruct (row_max_spec x) as [A _]; [lia|]. specialize (A y Hy). lia.
    - intros; split; discriminate.
    - discriminate.
    - discriminate.
    - reflexivity.
    - intros. lia.
    - intros; split; [lia|reflexivity].
    - intros x Hx. destruct (row_max_spec x) as (_ & y & Hy & ->); [lia|]. now apply real_rows.
    - intros x Hx. destruct (row_max_spec x) as (_ & y & Hy & ->); [lia|]. now apply padded_rows. }
  destruct (rounds_spec n 0 m0 eq_refl I0) as (m & Rm & I). rewrite Rm. cbn [obind].
  set (f := fun x => match m_xy m x with Some y => y | None => 0%nat end).
  assert (F : forall x, (x < n)%nat -> m_xy m x = Some (f x)).
  { intros x Hx. unfold f. destruct (m_xy m x) eqn:E; [reflexivity|]. apply (i_count _ _ I) in E; lia. }
  exists f, (m_lx m), (m_ly m). split; [|split; [|split; [|split]]].
  - f_equal. apply map_ext_in. intros x Hx. apply in_seq in Hx. rewrite (F x) by lia. reflexivity.
  - intros x Hx. apply (i_tight _ _ I x (f x) Hx (F x Hx)).
  - intros x x' Hx Hx' E. pose proof (F x Hx) as A. pose proof (F x' Hx') as A'. destruct (i_tight _ _ I x _ Hx A) as [B _].
    rewrite E in A. rewrite <- E in A'. rewrite <- E in A. apply (i_matched _ _ I) in A; [|assumption|assumption]. apply (i_matched _ _ I) in A'; [|assumption|assumption]. congruence.
  - exact (i_feasible _ _ I).
  - intros x Hx. symmetry. apply (i_tight _ _ I x _ Hx (F x Hx)).
Qed.
End Rounds.
End Proofs.
