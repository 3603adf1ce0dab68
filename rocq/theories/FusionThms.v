(** Proofs about the covariance intersection visitor. *)
From Coq Require String.
From Coq Require Import Reals Lra Lia ZArith.
From mathcomp Require Import all_ssreflect all_algebra.
From Verif Require Import Base Uuid DynObj RealField PosDef Motion RealArith MotionThms StateVec StateVecThms
  CovInt CovIntThms FusionVisitor PiBounds Scoring Matching MatchingSpec Fusing FusingSpec FusingThms MixedFusion.
Set Implicit Arguments.
Unset Strict Implicit.
Unset Printing Implicit Defensive.
Import Order.Theory GRing.Theory Num.Theory.
Local Open Scope ring_scope.

(** ** The constant *)
Lemma natR (n : nat) : (n%:R : R) = INR n.
Proof.
elim: n => [//|n IH]; rewrite S_INR -IH -addn1 natrD; reflexivity.
Qed.
Lemma expR (x : R) n : (x ^+ n = x ^ n)%coqR.
Proof. by elim: n => [//|n IH]; rewrite exprS IH. Qed.
Lemma pi11_R : pi11 R_realFieldType = (314159265359 / 100000000000)%coqR.
Proof.
rewrite /pi11 /digits /= expR !natR -RinvE; last by apply: pow_nonzero; rewrite /=; lra.
rewrite -!RmulE -!RaddE.
have -> : INR 10 = 10%coqR by rewrite /=; lra.
have -> : INR 9 = 9%coqR by rewrite /=; lra.
have -> : INR 6 = 6%coqR by rewrite /=; lra.
have -> : INR 5 = 5%coqR by rewrite /=; lra.
have -> : INR 4 = 4%coqR by rewrite /=; lra.
have -> : INR 3 = 3%coqR by rewrite /=; lra.
have -> : INR 2 = 2%coqR by rewrite /=; lra.
have -> : INR 1 = 1%coqR by rewrite /=; lra.
change (0 : R) with R0.
field.
Qed.

Lemma pi11_bounds : (3.14 < pi11 R_realFieldType < 3.15)%coqR.
Proof. rewrite pi11_R; lra. Qed.

(** wrap in terms of real numbers *)
Lemma wrap_R (x : R) : wrap (x : R_realFieldType) =
  if Rlt_dec (pi11 R_realFieldType) x then (x - 2 * pi11 R_realFieldType)%coqR else x.
Proof.
rewrite /wrap; case: (Rlt_dec _ x) => h.
  by move/RltP: (h) => ->; rewrite natR.
by case: ifP => // /RltP.
Qed.

(** ** What the visitor changes *)
Section Frame.
Variables (n : nat) (S : Type) (to : S -> 'cV[R]_n) (from : 'cV[R]_n -> S).
Implicit Types t d : dyn_obj R S 'M[R]_n.

Lemma ci_frame t d : let f := ci_fuse to from t d in
  o_uuid f = o_uuid t /\ o_class f = o_class t /\ o_timestamp f = o_timestamp d.
Proof. by []. Qed.

Lemma ci_cov t d : spd (o_cov t) -> spd (o_cov d) ->
  let w := generate_weight (invmx (o_cov t)) (invmx (o_cov d)) in
  0 < w < 1 /\ spd (o_cov (ci_fuse to from t d)) /\
  invmx (o_cov (ci_fuse to from t d)) = w *: invmx (o_cov t) + (1 - w) *: invmx (o_cov d).
Proof.
move=> st sd w; have w01 : 0 < w < 1 by apply: weight_bounds; apply: spd_inv.
have w01' : 0 <= w <= 1 by case/andP: w01 => a b; rewrite !ltW.
split=> //; split; last by rewrite invmxK.
exact: (fused_cov_spd (to (o_state t)) (to (o_state d)) (spd_inv st) (spd_inv sd) w01').
Qed.

(** Covariances that agree: plain averaging of the wrapped vectors *)
Lemma ci_equal_cov t d : spd (o_cov t) -> o_cov d = o_cov t ->
  o_state (ci_fuse to from t d) =
    from (2%:R^-1 *: (wrap_heading (to (o_state t)) + wrap_heading (to (o_state d)))) /\
  o_cov (ci_fuse to from t d) = o_cov t.
Proof.
move=> st E; have si := spd_inv st; have ui := spd_unit si.
have h1 : 1 - 2%:R^-1 = 2%:R^-1 :> R.
  by rewrite {1}(splitr 1) mul1r addrK.
have EC : invmx (2%:R^-1 *: invmx (o_cov t) + (1 - 2%:R^-1) *: invmx (o_cov t)) = o_cov t.
  by rewrite -scalerDl addrC subrK scale1r invmxK.
rewrite /ci_fuse /compute_covariance_intersection E weight_self //=.
rewrite EC; split=> //; congr from.
rewrite h1 -!scalemxAl -scalerDr -mulmxDr -scalemxAr mulmxA mulmxV ?mul1mx //.
exact: spd_unit.
Qed.
End Frame.

(** ** Fusing an object with itself *)
Lemma ctrv_fuse_self (t : ctrv_obj) (d : ctrv_obj) : spd (o_cov t) -> on_circle (v_yaw (o_state t)) ->
  (get_angle (v_yaw (o_state t)) <= pi11 R_realFieldType)%coqR ->
  o_state d = o_state t -> o_cov d = o_cov t ->
  ctrv_fuse t d = set_timestamp t (o_timestamp d).
Proof.
move=> st C H Es Ec; have [E1 E2] := ci_equal_cov ctrv_to_vec ctrv_from_vec st Ec.
move: E1 E2; rewrite /ctrv_fuse Es.
have -> : wrap_heading (ctrv_to_vec (o_state t)) = ctrv_to_vec (o_state t).
  apply: wrap_heading_below => i Ei; apply/RleP; rewrite mxE Ei; exact: H.
rewrite -mulr2n -scaler_nat scalerA mulVf ?two_neq0 // scale1r ctrv_round_trip // => E1 E2.
by rewrite /set_timestamp -E1 -E2.
Qed.

(** ** Fused headings across the seam at pi *)
Lemma average_heading (a b : R) : (0 <= a <= pi11 R_realFieldType)%coqR ->
  (pi11 R_realFieldType < b < 2 * PI)%coqR ->
  let t := DynObj 0%coqR (CtrvState (A := reals) 0 0 0 (angleR a) 0) (1%:M : 'M[R]_5) (String.EmptyString : uuid) kUnknown in
  let d := DynObj 0%coqR (CtrvState (A := reals) 0 0 0 (angleR b) 0) (1%:M : 'M[R]_5) (String.EmptyString : uuid) kUnknown in
  v_yaw (o_state (ctrv_fuse t d)) = angleR ((a + b - 2 * pi11 R_realFieldType) / 2)%coqR.
Proof.
move=> Ha Hb t d.
have PB := pi_bounds; have QB := pi11_bounds.
have [-> _] := @ci_equal_cov 5 ctrvR ctrv_to_vec ctrv_from_vec t d (spd_id _ _) erefl.
rewrite /ctrv_from_vec; cbn [v_yaw o_state t d]; congr (angle_of _).
rewrite /ent !mxE inordK // eqxx.
rewrite !wrap_R.
cbn [nth v_yaw v_x v_y v_vel v_rate]; rewrite (get_angle_canonical a); last lra.
rewrite (get_angle_canonical b); last lra.
case: (Rlt_dec _ a) => h1; first lra.
case: (Rlt_dec _ b) => h2; last lra.
rewrite natR -RinvE; last by rewrite /=; lra.
by rewrite -RmulE -RaddE /=; field.
Qed.

(** Headings 3.1 and 3.15, equal covariances. *)
Lemma seam_at_pi : exists t d : ctrv_obj,
  spd (o_cov t) /\ o_cov d = o_cov t /\
  on_circle (v_yaw (o_state t)) /\ on_circle (v_yaw (o_state d)) /\
  (Rabs (get_angle (v_yaw (o_state t)) - get_angle (v_yaw (o_state d))) < / 10)%coqR /\
  forall k : Z,
    (3 < Rabs (get_angle (v_yaw (o_state (ctrv_fuse t d))) - get_angle (v_yaw (o_state t)) + IZR k * (2 * PI)))%coqR /\
    (3 < Rabs (get_angle (v_yaw (o_state (ctrv_fuse t d))) - get_angle (v_yaw (o_state d)) + IZR k * (2 * PI)))%coqR.
Proof.
have [P1 P2] := pi_bounds; have QB := pi11_R.
pose a := (31 / 10)%coqR; pose b := (63 / 20)%coqR.
have A := @average_heading a b; cbv zeta in A.
set t := DynObj 0%coqR (CtrvState (A := reals) 0 0 0 (angleR a) 0) (1%:M : 'M[R]_5) (String.EmptyString : uuid) kUnknown in A.
set d := DynObj 0%coqR (CtrvState (A := reals) 0 0 0 (angleR b) 0) (1%:M : 'M[R]_5) (String.EmptyString : uuid) kUnknown in A.
exists t, d.
rewrite A; [|rewrite QB /a; lra|rewrite QB /b; lra].
split; first exact: spd_id.
split=> //; split; first exact: circle_of.
split; first exact: circle_of.
cbn [v_yaw o_state t d].
rewrite (get_angle_canonical a); last by rewrite /a; lra.
rewrite (get_angle_canonical b); last by rewrite /b; lra.
split; first by rewrite Rabs_left /a /b; lra.
set f := ((a + b - 2 * pi11 R_realFieldType) / 2)%coqR.
have Ef : (f = 6.25 / 2 - 3.14159265359)%coqR by rewrite /f QB /a /b; lra.
rewrite (angle_of_turn f (f + 2 * PI)); last by exists (Zneg xH); lra.
rewrite (get_angle_canonical (f + 2 * PI)); last by lra.
rewrite Ef /a /b.
have far (x : R) (k : Z) : (3.05 < x)%coqR -> (x < 3.2)%coqR -> (3 < Rabs (x + IZR k * (2 * PI)))%coqR.
  move=> x1 x2; case: (Z_le_gt_dec 0 k) => h.
    have k0 := IZR_le _ _ h; rewrite Rabs_pos_eq; nra.
  have k1 : (IZR k <= -1)%coqR by apply: (IZR_le k (Zneg xH)); lia.
  rewrite Rabs_left; nra.
move=> k; split.
  by have := far (6.25 / 2 - 3.14159265359 + 2 * PI - 31 / 10)%coqR k; apply; lra.
by have := far (6.25 / 2 - 3.14159265359 + 2 * PI - 63 / 20)%coqR k; apply; lra.
Qed.

Lemma ctra_fuse_self (t : ctra_obj) (d : ctra_obj) : spd (o_cov t) -> on_circle (a_yaw (o_state t)) ->
  (get_angle (a_yaw (o_state t)) <= pi11 R_realFieldType)%coqR ->
  o_state d = o_state t -> o_cov d = o_cov t ->
  ctra_fuse t d = set_timestamp t (o_timestamp d).
Proof.
move=> st C H Es Ec; have [E1 E2] := ci_equal_cov ctra_to_vec ctra_from_vec st Ec.
move: E1 E2; rewrite /ctra_fuse Es.
have -> : wrap_heading (ctra_to_vec (o_state t)) = ctra_to_vec (o_state t).
  apply: wrap_heading_below => i Ei; apply/RleP; rewrite mxE Ei; exact: H.
rewrite -mulr2n -scaler_nat scalerA mulVf ?two_neq0 // scale1r ctra_round_trip // => E1 E2.
by rewrite /set_timestamp -E1 -E2.
Qed.

(** ** The visitor on variants *)
Lemma visitor_mixed_ub : mixed_ub covariance_intersection_visitor.
Proof. by case=> t; case=> d //=; eexists. Qed.

Lemma fuse_ub assoc (ts ds : list obj) :
  fuse_associations v_uuid v_uuid covariance_intersection_visitor assoc ts ds = UB <->
  exists p t d, demands v_uuid v_uuid assoc ts ds p t d /\
    ((exists a b, t = Ctrv a /\ d = Ctra b) \/ (exists a b, t = Ctra a /\ d = Ctrv b)).
Proof.
rewrite fuse_mixed; last exact: visitor_mixed_ub.
split=> -[p [t [d [D M]]]]; exists p, t, d; split=> //.
  by case: t d M {D} => t [] d //= _; [left|right]; exists t, d.
by case: M => -[a [b [-> ->]]].
Qed.

Lemma fuse_total assoc (ts ds : list obj) :
  let r := fuse_associations v_uuid v_uuid covariance_intersection_visitor assoc ts ds in
  r = UB \/ exists out, r = Ok out.
Proof.
move=> r; case E: r => [out|e|]; [by right; exists out| |by left].
have [_ H] := fuse_outcome v_uuid v_uuid covariance_intersection_visitor assoc ts ds.
by have [p [[t|t] [[d|d] [_ []]]]] := H e E.
Qed.

Lemma pipeline_ub solve dist1 dist2 (now : R) (s1 : ctrvR) (c1 : 'M[R]_5) (s2 : ctraR) (c2 : 'M[R]_6) :
  solver_ok solve -> ordinary (dist1 s1 s1) -> ordinary (dist2 s2 s2) ->
  exists (ts ds : list obj) a,
    gnn_associator solve
      (score_tracks_and_detections v_uuid v_uuid (euclidean_distance_score dist1 dist2) ts ds) = Ok a /\
    fuse_associations v_uuid v_uuid covariance_intersection_visitor a ts ds = UB.
Proof.
move=> Hs H1 H2.
exists (mix_tracks now s1 c1 s2 c2), (mix_detections now s1 c1 s2 c2).
exact: pipeline_mixed visitor_mixed_ub H1 H2.
Qed.

Lemma Forall2_weak (A B : Type) (P Q : A -> B -> Prop) l m : (forall a b, P a b -> Q a b) ->
  List.Forall2 P l m -> List.Forall2 Q l m.
Proof. by move=> H; elim=> [|a b l' m' pab _ IH]; constructor=> //; apply: H. Qed.

Lemma fuse_fields assoc (ts ds out : list obj) :
  fuse_associations v_uuid v_uuid covariance_intersection_visitor assoc ts ds = Ok out ->
  exists places : list place,
    Sorted.StronglySorted before places /\
    (forall p, List.In p places <-> exists t d, demands v_uuid v_uuid assoc ts ds p t d) /\
    List.Forall2 (fun p o => exists t d, demands v_uuid v_uuid assoc ts ds p t d /\
               v_uuid o = v_uuid t /\ v_class o = v_class t /\ v_timestamp o = v_timestamp d) places out.
Proof.
move=> E; have [ps [S [I H]]] := fuse_spec v_uuid v_uuid covariance_intersection_visitor assoc ts ds out E.
exists ps; split=> //; split=> //; apply: Forall2_weak H => p o [t [d [D V]]].
exists t, d; split=> //; by case: t d V {D} => t [] d //= [<-].
Qed.

Lemma ctrv_visit_self (t d : ctrv_obj) : spd (o_cov t) -> on_circle (v_yaw (o_state t)) ->
  (get_angle (v_yaw (o_state t)) <= 3.14159265359)%coqR ->
  o_state d = o_state t -> o_cov d = o_cov t ->
  covariance_intersection_visitor (Ctrv t) (Ctrv d) = Ok (Ctrv (set_timestamp t (o_timestamp d))).
Proof.
move=> st C H Es Ec; rewrite /= ctrv_fuse_self // pi11_R.
by apply: Rle_trans H _; lra.
Qed.
Lemma ctra_visit_self (t d : ctra_obj) : spd (o_cov t) -> on_circle (a_yaw (o_state t)) ->
  (get_angle (a_yaw (o_state t)) <= 3.14159265359)%coqR ->
  o_state d = o_state t -> o_cov d = o_cov t ->
  covariance_intersection_visitor (Ctra t) (Ctra d) = Ok (Ctra (set_timestamp t (o_timestamp d))).
Proof.
move=> st C H Es Ec; rewrite /= ctra_fuse_self // pi11_R.
by apply: Rle_trans H _; lra.
Qed.

(** The covariance of an object is positive definite. *)
Definition obj_spd (o : obj) : Prop :=
  match o with Ctrv o => spd (o_cov o) | Ctra o => spd (o_cov o) end.
Lemma visit_spd (t d : obj) o : covariance_intersection_visitor t d = Ok o ->
  obj_spd t -> obj_spd d -> obj_spd o.
Proof.
case: t d => t [] d //= [<-] /= st sd.
  by have [_ []] := ci_cov ctrv_to_vec ctrv_from_vec st sd.
by have [_ []] := ci_cov ctra_to_vec ctra_from_vec st sd.
Qed.

Lemma seam_visit : exists t d : ctrv_obj,
  spd (o_cov t) /\ o_cov d = o_cov t /\
  on_circle (v_yaw (o_state t)) /\ on_circle (v_yaw (o_state d)) /\
  (Rabs (get_angle (v_yaw (o_state t)) - get_angle (v_yaw (o_state d))) < / 10)%coqR /\
  exists f, covariance_intersection_visitor (Ctrv t) (Ctrv d) = Ok (Ctrv f) /\
  forall k : Z,
    (3 < Rabs (get_angle (v_yaw (o_state f)) - get_angle (v_yaw (o_state t)) + IZR k * (2 * PI)))%coqR /\
    (3 < Rabs (get_angle (v_yaw (o_state f)) - get_angle (v_yaw (o_state d)) + IZR k * (2 * PI)))%coqR.
Proof.
have [t [d [H1 [H2 [H3 [H4 [H5 H6]]]]]]] := seam_at_pi.
exists t, d; do 5 split=> //; by exists (ctrv_fuse t d).
Qed.

Lemma spd_scalar (F : realFieldType) n (x : F) : 0 < x -> spd (x%:M : 'M[F]_n).
Proof. by move=> x0; rewrite -scalemx1; apply: spd_scale x0 (spd_id _ _). Qed.
