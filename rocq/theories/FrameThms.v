(** Fusion in another coordinate frame. *)
From Coq Require Import Reals Lra.
From mathcomp Require Import all_ssreflect all_algebra.
From Verif Require Import Base Uuid DynObj RealField PosDef Motion RealArith MotionThms StateVec StateVecThms
  CovInt CovIntThms PiBounds FusionVisitor FusionThms FrameSpec.
Set Implicit Arguments.
Unset Strict Implicit.
Unset Printing Implicit Defensive.
Import Order.Theory GRing.Theory Num.Theory.
Local Open Scope ring_scope.

Section Affine.
Context (F : realFieldType) (n : nat).
Implicit Types A B T : 'M[F]_n.

Lemma congr_det S A : \det (S^T *m A *m S) = \det S ^+ 2 * \det A.
Proof. by rewrite !det_mulmx det_tr expr2 mulrAC. Qed.

Lemma weight_congr S A B : S \in unitmx ->
  generate_weight (S^T *m A *m S) (S^T *m B *m S) = generate_weight A B.
Proof.
rewrite unitmxE unitfE => u; have d0 : \det S ^+ 2 != 0 by rewrite expf_eq0.
rewrite /generate_weight -mulmxDl -mulmxDr !congr_det; set d := _ ^+ 2 in d0 *.
rewrite -mulrBr -mulrDr mulrCA -mulf_div divff ?mul1r //.
Qed.

Lemma inv_congr T A : T \in unitmx -> A \in unitmx ->
  invmx ((invmx T)^T *m A *m invmx T) = T *m invmx A *m T^T.
Proof.
move=> uT uA; have uTt : T^T \in unitmx by rewrite unitmx_tr.
set X := _ *m _ *m invmx T; set Y := _ *m T^T.
have XY : X *m Y = 1%:M.
  rewrite /X /Y trmx_inv !mulmxA -(mulmxA _ (invmx T) T) mulVmx // mulmx1.
  by rewrite -(mulmxA _ A) mulmxV // mulmx1 mulVmx.
have uX : X \in unitmx by case/mulmx1_unit: XY.
by rewrite -[Y]mul1mx -(mulVmx uX) -mulmxA XY mulmx1.
Qed.

Lemma fused_affine T A B (b m1 m2 : 'cV[F]_n) w : T \in unitmx -> spd A -> spd B -> 0 <= w <= 1 ->
  wrap_heading m1 = m1 -> wrap_heading m2 = m2 ->
  wrap_heading (T *m m1 + b) = T *m m1 + b -> wrap_heading (T *m m2 + b) = T *m m2 + b ->
  let S := invmx T in
  let f := compute_covariance_intersection m1 A m2 B w in
  compute_covariance_intersection (T *m m1 + b) (S^T *m A *m S) (T *m m2 + b) (S^T *m B *m S) w =
  (T *m f.1 + b, T *m f.2 *m T^T).
Proof.
move=> uT sA sB w01 w1 w2 w3 w4 S f.
rewrite /f /compute_covariance_intersection w1 w2 w3 w4 /=.
have sC := spd_convex w01 sA sB; have uC := spd_unit sC.
have EC : w *: (S^T *m A *m S) + (1 - w) *: (S^T *m B *m S) = S^T *m (w *: A + (1 - w) *: B) *m S.
  by rewrite mulmxDr mulmxDl -!scalemxAr -!scalemxAl.
rewrite EC inv_congr //; congr (_, _); set C := invmx _.
pose v := w *: A *m m1 + (1 - w) *: B *m m2.
have ST : S *m T = 1%:M by rewrite mulVmx.
have A1 X (Y : 'M[F]_n) (m : 'cV_n) : X *: (S^T *m Y *m S) *m (T *m m + b) =
    S^T *m (X *: Y *m m) + X *: (S^T *m Y *m S) *m b.
  rewrite mulmxDr; congr (_ + _); rewrite -!scalemxAl -scalemxAr; congr (_ *: _).
  by rewrite mulmxA -(mulmxA _ S T) ST mulmx1 mulmxA.
rewrite !A1 addrACA -mulmxDr -/v -mulmxDl EC mulmxDr; congr (_ + _).
  by rewrite !mulmxA -(mulmxA (T *m C) T^T) -trmx_mul ST trmx1 mulmx1.
rewrite -inv_congr // mulmxA mulVmx ?mul1mx //.
rewrite !unitmx_mul unitmx_tr unitmx_inv uT uC //.
Qed.
End Affine.

(** Objects whose vectors and covariances are affine images of others *)
Section Objects.
Context (n : nat) (S : Type) (to : S -> 'cV[R]_n) (from : 'cV[R]_n -> S).
Context (T : 'M[R]_n) (b : 'cV[R]_n) (uT : T \in unitmx).
Context (g : S -> S).
Local Notation image := (image T g).
Lemma ci_image t d : spd (o_cov t) -> spd (o_cov d) ->
  (forall v, from (T *m v + b) = g (from v)) ->
  (forall o, o = t \/ o = d -> to (g (o_state o)) = T *m to (o_state o) + b /\
     wrap_heading (to (o_state o)) = to (o_state o) /\
     wrap_heading (T *m to (o_state o) + b) = T *m to (o_state o) + b) ->
  ci_fuse to from (image t) (image d) = image (ci_fuse to from t d).
Proof.
move=> st sd Hf Ho.
have [t1 [t2 t3]] := Ho t (or_introl erefl); have [d1 [d2 d3]] := Ho d (or_intror erefl).
have I P : P \in unitmx -> invmx (T *m P *m T^T) = (invmx T)^T *m invmx P *m invmx T.
  move=> uP; have uX : (invmx T)^T *m invmx P *m invmx T \in unitmx.
    by rewrite !unitmx_mul unitmx_tr !unitmx_inv uT uP.
  by rewrite -[RHS]invmxK inv_congr ?unitmx_inv ?invmxK.
have ut := spd_unit st; have ud := spd_unit sd.
pose A := invmx (o_cov t); pose B := invmx (o_cov d); pose w := generate_weight A B.
have /andP [a c] := weight_bounds (spd_inv st) (spd_inv sd).
have w01 : 0 <= w <= 1 by rewrite !ltW.
have E := fused_affine uT (spd_inv st) (spd_inv sd) w01 t2 d2 t3 d3.
pose f := compute_covariance_intersection (to (o_state t)) A (to (o_state d)) B w.
have Ef : ci_fuse to from t d = set_state_covariance
  (set_state (set_timestamp t (o_timestamp d)) (from f.1)) f.2 by [].
pose A' := invmx (T *m o_cov t *m T^T); pose B' := invmx (T *m o_cov d *m T^T).
pose f' := compute_covariance_intersection (to (g (o_state t))) A' (to (g (o_state d))) B' (generate_weight A' B').
have Ef' : ci_fuse to from (image t) (image d) = set_state_covariance
  (set_state (set_timestamp (image t) (o_timestamp d)) (from f'.1)) f'.2 by [].
rewrite Ef Ef'.
have -> : f' = (T *m f.1 + b, T *m f.2 *m T^T).
  rewrite /f' /A' /B' !I // t1 d1 (@weight_congr R_realFieldType) ?unitmx_inv //; exact: E.
by rewrite /image /= Hf.
Qed.
End Objects.

Lemma turn_products (phi : R) : [/\ cos phi * cos phi + - sin phi * (- sin phi)%coqR = 1,
  cos phi * - (- sin phi)%coqR + - sin phi * cos phi = 0, sin phi * cos phi + cos phi * (- sin phi)%coqR = 0 &
  sin phi * - (- sin phi)%coqR + cos phi * cos phi = 1].
Proof.
have E := sin2_cos2 phi; rewrite /Rsqr in E.
split.
- change (cos phi * cos phi + - sin phi * - sin phi = 1)%coqR; lra.
- change (cos phi * - - sin phi + - sin phi * cos phi = 0)%coqR; lra.
- change (sin phi * cos phi + cos phi * - sin phi = 0)%coqR; lra.
- change (sin phi * - - sin phi + cos phi * cos phi = 1)%coqR; lra.
Qed.
Lemma turn_unit5 phi : turn_mx 5 phi \in unitmx.
Proof.
suff E : turn_mx 5 phi *m turn_mx 5 (- phi)%coqR = 1%:M by case/mulmx1_unit: E.
have [E1 E2 E3 E4] := turn_products phi.
apply/matrixP => i j; rewrite mxE !big_ord_recl big_ord0 !mxE cos_neg sin_neg.
by case: i => [[|[|[|[|[|i]]]]] Hi] //; case: j => [[|[|[|[|[|j]]]]] Hj] //=;
  rewrite ?(mulr0, mul0r, addr0, add0r, mulr1, mul1r).
Qed.
Lemma turn_unit6 phi : turn_mx 6 phi \in unitmx.
Proof.
suff E : turn_mx 6 phi *m turn_mx 6 (- phi)%coqR = 1%:M by case/mulmx1_unit: E.
have [E1 E2 E3 E4] := turn_products phi.
apply/matrixP => i j; rewrite mxE !big_ord_recl big_ord0 !mxE cos_neg sin_neg.
by case: i => [[|[|[|[|[|[|i]]]]]] Hi] //; case: j => [[|[|[|[|[|[|j]]]]]] Hj] //=;
  rewrite ?(mulr0, mul0r, addr0, add0r, mulr1, mul1r).
Qed.

(** Entries of the image of a vector *)
Lemma sum5 (f : 'I_5 -> R) : \sum_i f i = f (inord 0) + (f (inord 1) + (f (inord 2) + (f (inord 3) + f (inord 4)))).
Proof.
rewrite !big_ord_recl big_ord0 addr0.
by congr (f _ + (f _ + (f _ + (f _ + f _)))); apply: val_inj; rewrite /= inordK.
Qed.
Lemma sum6 (f : 'I_6 -> R) :
  \sum_i f i = f (inord 0) + (f (inord 1) + (f (inord 2) + (f (inord 3) + (f (inord 4) + f (inord 5))))).
Proof.
rewrite !big_ord_recl big_ord0 addr0.
by congr (f _ + (f _ + (f _ + (f _ + (f _ + f _))))); apply: val_inj; rewrite /= inordK.
Qed.
Definition turned_entry (phi dx dy : R) (e : nat -> R) (k : nat) : R :=
  match k with
  | 0%N => (cos phi * e 0%N - sin phi * e 1%N + dx)%coqR
  | 1%N => (sin phi * e 0%N + cos phi * e 1%N + dy)%coqR
  | 3%N => (e 3%N + phi)%coqR
  | _ => e k end.
Lemma inord_eq n (i j : nat) : (i <= n)%N -> (j <= n)%N -> (inord i == inord j :> 'I_n.+1) = (i == j).
Proof. by move=> Hi Hj; rewrite -val_eqE /= !inordK. Qed.
Lemma turn5 phi dx dy (v : 'cV[R]_5) (k : nat) : (k <= 4)%N ->
  ent (turn_mx 5 phi *m v + turn_shift 5 phi dx dy) k = turned_entry phi dx dy (ent v) k.
Proof.
move=> Hk; rewrite /ent 2!mxE sum5 !mxE !inordK // !inord_eq //.
case: k Hk => [|[|[|[|[|k]]]]] //= _; rewrite ?(mulr0, mul0r, addr0, add0r, mulr1, mul1r) //.
by rewrite mulNr.
Qed.
Lemma turn6 phi dx dy (v : 'cV[R]_6) (k : nat) : (k <= 5)%N ->
  ent (turn_mx 6 phi *m v + turn_shift 6 phi dx dy) k = turned_entry phi dx dy (ent v) k.
Proof.
move=> Hk; rewrite /ent 2!mxE sum6 !mxE !inordK // !inord_eq //.
case: k Hk => [|[|[|[|[|[|k]]]]]] //= _; rewrite ?(mulr0, mul0r, addr0, add0r, mulr1, mul1r) //.
by rewrite mulNr.
Qed.

Lemma angle_turned p phi : angleR (get_angle (angleR p) + phi)%coqR = angleR (p + phi)%coqR.
Proof.
by apply: angle_of_turn; apply: same_turn_add (same_turn_refl _); case: (get_angle_spec p).
Qed.
Lemma ctrv_from_turned phi dx dy v :
  ctrv_from_vec (turn_mx 5 phi *m v + turn_shift 5 phi dx dy) = ctrv_turned phi dx dy (ctrv_from_vec v).
Proof. by rewrite /ctrv_from_vec /ctrv_turned !turn5 //= angle_turned. Qed.
Lemma ctra_from_turned phi dx dy v :
  ctra_from_vec (turn_mx 6 phi *m v + turn_shift 6 phi dx dy) = ctra_turned phi dx dy (ctra_from_vec v).
Proof. by rewrite /ctra_from_vec /ctra_turned !turn6 //= angle_turned. Qed.

Lemma ctrv_to_turned phi dx dy (s : ctrvR) : low_heading (get_angle (v_yaw s) + phi)%coqR ->
  ctrv_to_vec (ctrv_turned phi dx dy s) = turn_mx 5 phi *m ctrv_to_vec s + turn_shift 5 phi dx dy.
Proof.
move=> H; apply: vec_eq => k Hk; rewrite turn5 // /ctrv_to_vec.
have E : get_angle (angleR (get_angle (v_yaw s) + phi)%coqR) = (get_angle (v_yaw s) + phi)%coqR.
  by apply: get_angle_canonical; have [PB1 PB2] := pi_bounds; move: H; rewrite /low_heading; lra.
by case: k Hk => [|[|[|[|[|k]]]]] // _; rewrite /turned_entry !ent_vec_of //= E.
Qed.
Lemma ctra_to_turned phi dx dy (s : ctraR) : low_heading (get_angle (a_yaw s) + phi)%coqR ->
  ctra_to_vec (ctra_turned phi dx dy s) = turn_mx 6 phi *m ctra_to_vec s + turn_shift 6 phi dx dy.
Proof.
move=> H; apply: vec_eq => k Hk; rewrite turn6 // /ctra_to_vec.
have E : get_angle (angleR (get_angle (a_yaw s) + phi)%coqR) = (get_angle (a_yaw s) + phi)%coqR.
  by apply: get_angle_canonical; have [PB1 PB2] := pi_bounds; move: H; rewrite /low_heading; lra.
by case: k Hk => [|[|[|[|[|[|k]]]]]] // _; rewrite /turned_entry !ent_vec_of //= E.
Qed.
Lemma wrap_low n (v : 'cV[R]_n.+4) : low_heading (ent v 3) -> wrap_heading (v : 'cV[R_realFieldType]_n.+4) = v.
Proof.
move=> H; apply: wrap_heading_below => i Hi.
have -> : i = inord 3 by apply: val_inj; rewrite /= inordK.
by apply/RleP; rewrite pi11_R; apply: Rle_trans (proj2 H) _; lra.
Qed.

Lemma ctrv_fuse_turned phi dx dy (t d : ctrv_obj) : spd (o_cov t) -> spd (o_cov d) ->
  (forall o, o = t \/ o = d -> low_heading (get_angle (v_yaw (o_state o))) /\
     low_heading (get_angle (v_yaw (o_state o)) + phi)%coqR) ->
  let move := image (turn_mx 5 phi) (ctrv_turned phi dx dy) in
  ctrv_fuse (move t) (move d) = move (ctrv_fuse t d).
Proof.
move=> st sd H; apply: (ci_image (turn_unit5 phi) st sd (ctrv_from_turned phi dx dy)) => o Ho.
have [H1 H2] := H o Ho; split; first exact: ctrv_to_turned.
by split; apply: wrap_low; rewrite ?turn5 // /turned_entry /ctrv_to_vec ent_vec_of.
Qed.
Lemma ctra_fuse_turned phi dx dy (t d : ctra_obj) : spd (o_cov t) -> spd (o_cov d) ->
  (forall o, o = t \/ o = d -> low_heading (get_angle (a_yaw (o_state o))) /\
     low_heading (get_angle (a_yaw (o_state o)) + phi)%coqR) ->
  let move := image (turn_mx 6 phi) (ctra_turned phi dx dy) in
  ctra_fuse (move t) (move d) = move (ctra_fuse t d).
Proof.
move=> st sd H; apply: (ci_image (turn_unit6 phi) st sd (ctra_from_turned phi dx dy)) => o Ho.
have [H1 H2] := H o Ho; split; first exact: ctra_to_turned.
by split; apply: wrap_low; rewrite ?turn6 // /turned_entry /ctra_to_vec ent_vec_of.
Qed.

Lemma spd_congr n (T P : 'M[R_realFieldType]_n) : T \in unitmx -> spd P -> spd (T *m P *m T^T).
Proof.
move=> uT [sym pos]; split; first by rewrite /symmetric !trmx_mul trmxK sym mulmxA.
move=> v v0; rewrite -{1}[T]trmxK qf_congr; apply: pos; apply: contraNneq v0 => E.
have uTt : T^T \in unitmx by rewrite unitmx_tr.
by rewrite -(mulKmx uTt v) E mulmx0.
Qed.

(** Two headings on either side of the constant: rotated away from it they are fused
    to something else. *)
Lemma turned_seam : exists (t d : ctrv_obj) (phi : R), spd (o_cov t) /\ o_cov d = o_cov t /\
  on_circle (v_yaw (o_state t)) /\ on_circle (v_yaw (o_state d)) /\
  (Rabs (get_angle (v_yaw (o_state t)) - get_angle (v_yaw (o_state d))) < / 10)%coqR /\
  let move := image (turn_mx 5 phi) (ctrv_turned phi 0 0) in
  ctrv_fuse (move t) (move d) <> move (ctrv_fuse t d).
Proof.
have [t [d [st [Ec [Ct [Cd [Hab [f [Ef Hf]]]]]]]]] := seam_visit.
set a := get_angle (v_yaw (o_state t)) in Hab Hf *; set b := get_angle (v_yaw (o_state d)) in Hab Hf *.
exists t, d, (1 - a)%coqR; do 5!split=> //; move=> mv E.
have {Ef} Ef : ctrv_fuse t d = f by case: Ef.
have Lt : low_heading (a + (1 - a))%coqR by split; lra.
have Ld : low_heading (b + (1 - a))%coqR by case/Rabs_def2: Hab => ? ?; split; lra.
have uT := turn_unit5 (1 - a)%coqR.
have sm : spd (o_cov (mv t)) by exact: spd_congr.
have Em : o_cov (mv d) = o_cov (mv t) by rewrite /mv /image /= Ec.
have [E1 _] := ci_equal_cov ctrv_to_vec ctrv_from_vec sm Em.
have : v_yaw (o_state (ctrv_fuse (mv t) (mv d))) = v_yaw (o_state (mv f)) by rewrite E Ef.
rewrite /ctrv_fuse E1 /mv /image /=.
have e3 o : ent (turn_mx 5 (1 - a)%coqR *m ctrv_to_vec o + turn_shift 5 (1 - a)%coqR 0%coqR 0%coqR) 3 =
    (get_angle (v_yaw o) + (1 - a))%coqR by rewrite turn5 // /turned_entry /ctrv_to_vec ent_vec_of.
rewrite !ctrv_to_turned // !wrap_low ?e3 //.
set v1 := _ + turn_shift _ _ _ _; set v2 := _ + turn_shift _ _ _ _.
have -> : ent (2%:R^-1 *: (v1 + v2)) 3 = (/ 2 * (ent v1 3 + ent v2 3))%coqR.
  rewrite /ent mxE addmxE natR -RinvE; last by rewrite /=; lra.
  by [].
rewrite !e3 -/a -/b => /angle_of_iff [k Hk].
have [H1 _] := Hf k.
case/Rabs_def2: Hab => ? ?; move: H1; rewrite /Rabs; case: Rcase_abs => ? ?; lra.
Qed.
