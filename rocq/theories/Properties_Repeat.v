(** Many detections fused into one track: property C95 of properties.jsonl. *)
From Coq Require Import Reals Lra.
From mathcomp Require Import all_ssreflect all_algebra.
From Verif Require Import Base Uuid DynObj RealField PosDef Motion RealArith StateVec
  CovInt CovIntThms FusionVisitor FusionThms RepeatSpec RepeatThms.
Set Implicit Arguments.
Unset Strict Implicit.
Unset Printing Implicit Defensive.
Import Order.Theory GRing.Theory Num.Theory.
Local Open Scope ring_scope.

(** ** C95: a track fused with any number of detections of the same covariance.
    Its information (inverse covariance) [I] approaches the information [J] of the
    detections, whatever their states: the difference shrinks in every step at
    least by the factor [forget I J], which is below one. *)
Theorem C95_forget (F : realFieldType) n (I J : 'M[F]_n) : spd I -> spd J -> 0 < forget I J < 1.
Proof. exact: forget_bounds. Qed.
Theorem C95_ctrv (t : ctrv_obj) (ds : seq ctrv_obj) (Q : 'M[R]_5) : spd (o_cov t) -> spd Q ->
  List.Forall (fun d => o_cov d = Q) ds ->
  let I := invmx (o_cov t) in let J := invmx Q in
  exists o c, fuse_all (Ctrv t) (map (@Ctrv _ _) ds) = Ok (Ctrv o) /\ spd (o_cov o) /\
    0 <= c <= forget I J ^+ size ds /\ invmx (o_cov o) = J + c *: (I - J).
Proof.
move=> st sQ H I J; have [c [Hc [sf E]]] := object_run ctrv_to_vec ctrv_from_vec st sQ H.
by exists (foldl ctrv_fuse t ds), c; rewrite fuse_all_ctrv.
Qed.
Theorem C95_ctra (t : ctra_obj) (ds : seq ctra_obj) (Q : 'M[R]_6) : spd (o_cov t) -> spd Q ->
  List.Forall (fun d => o_cov d = Q) ds ->
  let I := invmx (o_cov t) in let J := invmx Q in
  exists o c, fuse_all (Ctra t) (map (@Ctra _ _) ds) = Ok (Ctra o) /\ spd (o_cov o) /\
    0 <= c <= forget I J ^+ size ds /\ invmx (o_cov o) = J + c *: (I - J).
Proof.
move=> st sQ H I J; have [c [Hc [sf E]]] := object_run ctra_to_vec ctra_from_vec st sQ H.
by exists (foldl ctra_fuse t ds), c; rewrite fuse_all_ctra.
Qed.
(** So detections as uncertain as the track never make the track more certain,
    however many there are. *)
Theorem C95_never_learns (t : ctrv_obj) (ds : seq ctrv_obj) : spd (o_cov t) ->
  List.Forall (fun d => o_cov d = o_cov t) ds ->
  exists o, fuse_all (Ctrv t) (map (@Ctrv _ _) ds) = Ok (Ctrv o) /\ o_cov o = o_cov t.
Proof.
move=> st H; have [o [c [E [_ [_ EI]]]]] := C95_ctrv st st H; exists o; split=> //.
by rewrite subrr scaler0 addr0 in EI; rewrite -[LHS]invmxK EI invmxK.
Qed.
(** In any direction the information stays between the smallest and the largest
    information fused, whatever the covariances. *)
Theorem C95_between (F : realFieldType) n (ds : seq ('cV[F]_n * 'M[F]_n)) (e : 'cV[F]_n * 'M[F]_n) lo hi v :
  spd e.2 -> (forall d, d \in ds -> spd d.2) -> (forall d, d \in e :: ds -> lo <= qf (invmx d.2) v <= hi) ->
  let f := foldl (@fuse_estimate F n) e ds in spd f.2 /\ lo <= qf (invmx f.2) v <= hi.
Proof. exact: between_run. Qed.
(** One detection (mean [z], covariance [Q]) fused [k] times: the deviation of
    the mean from [z], weighted with the information, shrinks in the same way. *)
Theorem C95_mean (F : realFieldType) n k (e : 'cV[F]_n * 'M[F]_n) z (Q : 'M[F]_n) : spd e.2 -> spd Q -> heading_low z ->
  (forall j, (j < k)%N -> heading_low (iter j (fun e => fuse_estimate e (z, Q)) e).1) ->
  let I := invmx e.2 in let J := invmx Q in
  let f := iter k (fun e => fuse_estimate e (z, Q)) e in
  exists c, (0 <= c <= forget I J ^+ k) /\ spd f.2 /\
    invmx f.2 = J + c *: (I - J) /\ invmx f.2 *m (f.1 - z) = c *: (I *m (e.1 - z)).
Proof. exact: mean_run. Qed.
(** Equal covariances: the mean is a running average in which the last detection
    has weight 1/2, the one before 1/4 and so on; averaging over more detections
    does not reduce their influence. *)
Theorem C95_average (F : realFieldType) n (zs : seq 'cV[F]_n) (m : 'cV[F]_n) (Q : 'M[F]_n) :
  spd Q -> heading_low m -> (forall z, z \in zs -> heading_low z) ->
  foldl (@fuse_estimate F n) (m, Q) [seq (z, Q) | z <- zs] =
  (2%:R^-1 ^+ size zs *: m + \sum_(i < size zs) 2%:R^-1 ^+ (size zs - i) *: nth 0 zs i, Q).
Proof. by move=> sQ hm H; have [_] := average_run sQ hm H. Qed.

(** One dimension: information 4 fused with information 1 detections; the first
    weight is (5 - 1 + 4)/10, the information becomes 17/5, and the factor is
    1 - 1/12. *)
Example C95_case : spd (4%:R%:M : 'M[rat]_1) /\ spd (1%:M : 'M[rat]_1) /\
  forget (4%:R%:M : 'M[rat]_1) 1%:M = 11%:R / 12%:R /\
  heading_low (0 : 'cV[rat]_1) /\
  invmx (fuse_estimate (0 : 'cV[rat]_1, (4%:R^-1)%:M) (0, 1%:M)).2 = (17%:R / 5%:R)%:M.
Proof.
split; first exact: spd_scalar.
split; first exact: spd_id.
split; first by rewrite /forget -!raddfD /= !det_scalar; apply/eqP; vm_compute.
split; first by move=> i Hi; exfalso; have := ltn_ord i; rewrite Hi.
rewrite /fuse_estimate /compute_covariance_intersection /= invmxK !invmx_scalar invrK invr1.
rewrite /generate_weight -raddfD /= !det_scalar !expr1 -!mul_scalar_mx -!scalar_mxM -raddfD /=.
by congr (_%:M); apply/eqP; vm_compute.
Qed.

Print Assumptions C95_forget.
Print Assumptions C95_ctrv.
Print Assumptions C95_ctra.
Print Assumptions C95_never_learns.
Print Assumptions C95_between.
Print Assumptions C95_mean.
Print Assumptions C95_average.
