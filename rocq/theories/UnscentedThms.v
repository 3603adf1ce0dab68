(** Proofs about the unscented transform. *)
From Coq Require Import Reals Lra ZArith.
From mathcomp Require Import all_ssreflect all_algebra ring.
From Verif Require Import Base Uuid DynObj RealField PosDef EigenLlt Motion RealArith MotionThms StateVec StateVecThms
  CovInt CovIntThms FusionThms Unscented.
Set Implicit Arguments.
Unset Strict Implicit.
Unset Printing Implicit Defensive.
Import Order.Theory GRing.Theory Num.Theory.
Local Open Scope ring_scope.

(** ** Sums over pairs *)
Lemma sum_pairs (V : zmodType) n (f : nat -> V) :
  \sum_(i < 2 * n) f i = \sum_(c < n) (f (2 * c)%N + f (2 * c).+1).
Proof.
elim: n => [|n IH]; first by rewrite muln0 !big_ord0.
by rewrite [in RHS]big_ord_recr /= -IH mulnS addnC addn2 !big_ord_recr /= addrA.
Qed.

(** ** The weights *)
Section Weights.
Variable F : realFieldType.
Implicit Types (alpha beta kappa lambda : F).

Lemma mean_weights n alpha beta lambda : n%:R + lambda != 0 ->
  \sum_i (generate_weights n alpha beta lambda).1 i 0 = 1.
Proof.
move=> h; rewrite big_ord_recl !mxE /=.
under eq_bigr do rewrite !mxE /=.
rewrite sumr_const card_ord -[X in _ + X = _]mulr_natr natrM div1r.
have t := @two_neq0 F; field; by rewrite ?h ?t.
Qed.
Lemma cov_weights n alpha beta lambda : n%:R + lambda != 0 ->
  \sum_i (generate_weights n alpha beta lambda).2 i 0 = 2%:R - alpha ^+ 2 + beta.
Proof.
move=> h; rewrite big_ord_recl !mxE /=.
under eq_bigr do rewrite !mxE /=.
rewrite sumr_const card_ord -[X in _ + X = _]mulr_natr natrM div1r.
have t := @two_neq0 F; field; by rewrite ?h ?t.
Qed.
Lemma weights_value n alpha beta kappa : alpha != 0 -> n%:R + kappa != 0 ->
  let lambda := generate_lambda n alpha kappa in
  let s := alpha ^+ 2 * (n%:R + kappa) in
  n%:R + lambda = s /\
  (forall i, (generate_weights n alpha beta lambda).1 i 0 =
     if (i : nat) == 0%N then 1 - n%:R / s else (2%:R * s)^-1) /\
  (forall i, (generate_weights n alpha beta lambda).2 i 0 =
     if (i : nat) == 0%N then 2%:R - n%:R / s - alpha ^+ 2 + beta else (2%:R * s)^-1).
Proof.
move=> a0 k0 l s; have ns : n%:R + l = s by rewrite /l /generate_lambda /s; ring.
have s0 : s != 0 by rewrite mulf_neq0 // expf_neq0.
have ls : l = s - n%:R by rewrite -ns; ring.
split=> //; split=> i; rewrite !mxE; case: eqP => // _; rewrite ?ns ?ls; have t := @two_neq0 F; field; by rewrite ?s0 ?t.
Qed.

(** ** The transform of points given by offsets *)
Section Transform.
Variables (m n : nat) (S : 'M[F]_(m, n)) (Wm Wc : 'cV[F]_m).
Let out := compute_unscented_transform S Wm Wc.

Lemma ut_mean j : out.1 j 0 = \sum_i Wm i 0 * S i j.
Proof. by rewrite !mxE; apply: eq_bigr => i _; rewrite !mxE. Qed.

Lemma ut_cov j k : out.2 j k = \sum_i Wc i 0 * ((S i j - out.1 j 0) * (S i k - out.1 k 0)).
Proof.
rewrite /out /compute_unscented_transform /=.
move: ((Wm^T *m S)^T) => x; rewrite mul_diag_mx mxE; apply: eq_bigr => i _.
by rewrite !mxE mulrCA.
Qed.

Lemma ut_sym : out.2^T = out.2.
Proof.
apply/matrixP => j k; rewrite mxE !ut_cov; apply: eq_bigr => i _; congr (_ * _); exact: mulrC.
Qed.

Lemma ut_psd : (forall i, 0 <= Wc i 0) -> psd out.2.
Proof.
move=> W0; split; first exact: ut_sym.
move=> v; rewrite /out /compute_unscented_transform /=; set y := S - _.
rewrite mulmxA; have -> : qf (y^T *m diag_mx Wc^T *m y) v = qf (diag_mx Wc^T) (y *m v) by apply: qf_congr.
rewrite /qf mxE; apply: sumr_ge0 => i _.
rewrite mul_mx_diag !mxE; set z := \sum_j _.
by rewrite mulrAC -expr2 mulr_ge0 // sqr_ge0.
Qed.
End Transform.

(** Points [x], then [x + L_c], [x - L_c] for each column, in coordinates [j] and [k]. *)
Definition offset n (L : 'M[F]_n) (i : nat) (j : 'I_n) : F :=
  match i with
  | 0 => 0
  | i'.+1 => if insub i'./2 is Some c then (if odd i' then - L j c else L j c) else 0
  end.
Lemma offset_even n (L : 'M[F]_n) (c : 'I_n) j : offset L (2 * c)%N.+1 j = L j c.
Proof. by rewrite /offset mul2n doubleK valK odd_double. Qed.
Lemma offset_odd n (L : 'M[F]_n) (c : 'I_n) j : offset L (2 * c)%N.+2 j = - L j c.
Proof. by rewrite /offset mul2n /= uphalf_double valK odd_double. Qed.

Lemma recover_mean n (S : 'M[F]_((2 * n).+1, n)) (L : 'M[F]_n) alpha beta lambda (x : F) Wc j :
  n%:R + lambda != 0 -> (forall i, S i j = x + offset L i j) ->
  (compute_unscented_transform S (generate_weights n alpha beta lambda).1 Wc).1 j 0 = x.
Proof.
move=> h H; rewrite ut_mean.
have -> : \sum_i (generate_weights n alpha beta lambda).1 i 0 * S i j =
  (\sum_i (generate_weights n alpha beta lambda).1 i 0) * x +
  \sum_i (generate_weights n alpha beta lambda).1 i 0 * offset L i j.
  by rewrite mulr_suml -big_split; apply: eq_bigr => i _; rewrite H mulrDr.
rewrite mean_weights // mul1r big_ord_recl /= mulr0 add0r.
under eq_bigr do rewrite !mxE /=.
rewrite -mulr_sumr (sum_pairs n (fun i => offset L i.+1 j)) big1 ?mulr0 ?addr0 // => c _.
by rewrite offset_even offset_odd subrr.
Qed.

Lemma recover_cov n (S : 'M[F]_((2 * n).+1, n)) (L : 'M[F]_n) alpha beta lambda (x y : F) j k :
  n%:R + lambda != 0 ->
  (forall i, S i j = x + offset L i j) -> (forall i, S i k = y + offset L i k) ->
  (compute_unscented_transform S (generate_weights n alpha beta lambda).1
    (generate_weights n alpha beta lambda).2).2 j k = (n%:R + lambda)^-1 * (L *m L^T) j k.
Proof.
move=> h Hj Hk; rewrite ut_cov (recover_mean _ _ _ h Hj) (recover_mean _ _ _ h Hk).
rewrite big_ord_recl Hj Hk !mxE /= !addr0 !subrr mul0r mulr0 add0r.
have Ej (i : 'I_(2 * n)) : S (lift ord0 i) j - x = offset L i.+1 j by rewrite Hj addrC addKr.
have Ek (i : 'I_(2 * n)) : S (lift ord0 i) k - y = offset L i.+1 k by rewrite Hk addrC addKr.
under eq_bigr do rewrite Ej Ek !mxE [_ == 0%N]/=.
rewrite -mulr_sumr (sum_pairs n (fun i => offset L i.+1 j * offset L i.+1 k)).
have -> : \sum_(c < n) (offset L (2 * c)%N.+1 j * offset L (2 * c)%N.+1 k +
    offset L (2 * c)%N.+2 j * offset L (2 * c)%N.+2 k) = 2%:R * \sum_c (L j c * L^T c k).
  rewrite mulr_sumr; apply: eq_bigr => c _; rewrite !offset_even !offset_odd mxE; ring.
rewrite mulrA div1r; congr (_ * _).
by rewrite mulrAC mulVf ?two_neq0 ?mul1r.
Qed.
End Weights.

(** ** The sigma points of the code *)
Lemma nth_pairs (A B : Type) (d : B) (a b : A -> B) (l : seq A) (x : A) k : (k < size l)%N ->
  nth d (flatten [seq [:: a c; b c] | c <- l]) (2 * k)%N = a (nth x l k) /\
  nth d (flatten [seq [:: a c; b c] | c <- l]) (2 * k).+1 = b (nth x l k).
Proof.
elim: l k => [//|y l IH] [|k] h; first by rewrite muln0.
by rewrite mulnS /=; apply: IH.
Qed.

Section Points.
Variables (n : nat) (ST : state_type n).
Notation S := (st_car ST).
Implicit Types (s : S) (P : 'M[R]_n) (lambda dt : R).

(** The scaled factor, and its columns *)
Definition spread P lambda : 'M[R]_n := (sqrt (n%:R + lambda) : R) *: llt_matrixL (P : 'M[R_rcfType]_n).

Lemma sigma_size s P lambda : size (generate_sigma_points s P lambda) = (2 * n)%N.
Proof.
rewrite /generate_sigma_points size_flatten /shape -map_comp /comp /=.
rewrite sumnE big_map big_const_seq count_predT size_enum_ord iter_addn_0.
by [].
Qed.

Lemma sigma_nth s P lambda d (c : 'I_n) :
  let r := st_from ST (col c (spread P lambda)) in
  nth d (generate_sigma_points s P lambda) (2 * c)%N = st_add ST s r /\
  nth d (generate_sigma_points s P lambda) (2 * c).+1 = st_sub ST s r.
Proof.
move=> r.
have -> : r = st_from ST ((sqrt (n%:R + lambda) : R) *: col c (llt_matrixL (P : 'M[R_rcfType]_n))).
  by congr st_from; apply/colP => i; rewrite !mxE.
have h : (c < size (enum 'I_n))%N by rewrite size_enum_ord.
have := @nth_pairs _ _ d _ _ (enum 'I_n) c c h; rewrite nth_ord_enum.
by move=> H; apply: H.
Qed.

(** What LLT makes of a matrix, multiplied out *)
Definition factored P : 'M[R]_n := llt_matrixL (P : 'M[R_rcfType]_n) *m (llt_matrixL (P : 'M[R_rcfType]_n))^T.
Lemma factored_spd P : spd (P : 'M[R_rcfType]_n) -> factored P = P.
Proof. by move=> sP; rewrite /factored (llt_cholesky sP).2 choleskyK. Qed.

Lemma spread_factored P lambda : (0 < n%:R + lambda)%coqR ->
  spread P lambda *m (spread P lambda)^T = (n%:R + lambda) *: factored P.
Proof.
move=> l0; rewrite /spread linearZ /= -scalemxAl -scalemxAr scalerA.
have -> : (sqrt (n%:R + lambda) * sqrt (n%:R + lambda) : R) = n%:R + lambda.
  by rewrite -RmulE sqrt_sqrt //; apply: Rlt_le.
by [].
Qed.
Lemma spread_sq P lambda : spd (P : 'M[R_rcfType]_n) -> (0 < n%:R + lambda)%coqR ->
  spread P lambda *m (spread P lambda)^T = (n%:R + lambda) *: P.
Proof. by move=> sP l0; rewrite spread_factored // factored_spd. Qed.

(** Rows of the matrix: [x] plus an offset in coordinate [j] when the state
    operations and the motion do just that. *)
Lemma row_cases (i : 'I_(2 * n).+1) : i = 0%N :> nat \/
  exists c : 'I_n, i = (2 * c)%N.+1 :> nat \/ i = (2 * c)%N.+2 :> nat.
Proof.
case: i => [[|i] h]; [by left|right]; have ci : (i./2 < n)%N.
  by rewrite ltnS mul2n in h; rewrite -ltn_double; apply: leq_ltn_trans h; rewrite -[X in (_ <= X)%N](odd_double_half i) leq_addl.
exists (Ordinal ci); rewrite /= mul2n; have := odd_double_half i; case: (odd i) => /= E; [right|left]; by rewrite -[in LHS]E.
Qed.

Lemma rows_offset s P lambda (f : S -> S) (x : R) j :
  st_to ST (f s) j 0 = x ->
  (forall c, let v := col c (spread P lambda) in
     st_to ST (f (st_add ST s (st_from ST v))) j 0 = x + v j 0 /\
     st_to ST (f (st_sub ST s (st_from ST v))) j 0 = x - v j 0) ->
  forall i, mean_and_sigma_points_to_matrix_xf (2 * n) (f s)
    [seq f p | p <- generate_sigma_points s P lambda] i j =
    x + offset (spread P lambda : 'M[R_realFieldType]_n) i j.
Proof.
move=> Hx Hc i; rewrite mxE.
case: (row_cases i) => [->|[c [->|->]]]; first by rewrite /= addr0 Hx.
- rewrite offset_even [nth _ _ _]/= (nth_map s) ?sigma_size; last by rewrite ltn_mul2l ltn_ord.
  have [-> _] := sigma_nth s P lambda s c.
  by have [-> _] := Hc c; rewrite mxE.
- rewrite offset_odd [nth _ _ _]/= (nth_map s) ?sigma_size; last first.
    by rewrite !mul2n -doubleS leq_double ltn_ord.
  have [_ ->] := sigma_nth s P lambda s c.
  by have [_ ->] := Hc c; rewrite mxE.
Qed.

Lemma spread_bounded P lambda (r : R) (j c : 'I_n) : (0 < n%:R + lambda)%coqR ->
  (0 <= r)%coqR -> ((n%:R + lambda) * factored P j j <= r * r)%coqR -> (Rabs (spread P lambda j c) <= r)%coqR.
Proof.
move=> l0 r0; have := spread_factored P l0; move: (spread P lambda) (factored P) => L {P}P /matrixP /(_ j j) E H.
have E' : (L j c * L j c + \sum_(i < n | i != c) L j i * L j i = (n%:R + lambda) * P j j :> R).
  have -> : (n%:R + lambda) * P j j = (L *m L^T) j j by rewrite E scalemxE.
  rewrite mxE [RHS](bigD1 c) //=; congr (_ + _); first by rewrite mxE.
  by apply: eq_bigr => i _; rewrite mxE.
have T0 : 0 <= \sum_(i < n | i != c) L j i * L j i.
  by apply: sumr_ge0 => i _; rewrite -expr2; apply: sqr_ge0.
have : (L j c * L j c <= r * r)%coqR.
  apply: Rle_trans H; rewrite [X in Rle _ X](_ : _ = (n%:R + lambda) * P j j) // -E'.
  by apply/RleP; rewrite ler_addl.
move: (L j c) => y; split_Rabs; nra.
Qed.
Lemma spread_bound P lambda (r : R) (j c : 'I_n) : spd (P : 'M[R_rcfType]_n) -> (0 < n%:R + lambda)%coqR ->
  (0 <= r)%coqR -> ((n%:R + lambda) * P j j <= r * r)%coqR -> (Rabs (spread P lambda j c) <= r)%coqR.
Proof. by move=> sP l0 r0 H; apply: spread_bounded => //; rewrite factored_spd. Qed.

(** Zero or more time steps at once: if motion [f] keeps the coordinate structure,
    transform and prediction recover mean and covariance. *)
Lemma recovered_factored s P lambda (f : S -> S) (x : 'cV[R]_n) alpha beta (Q : pred 'I_n) :
  (0 < n%:R + lambda)%coqR ->
  (forall j, Q j -> st_to ST (f s) j 0 = x j 0) ->
  (forall j c, Q j -> let v := col c (spread P lambda) in
     st_to ST (f (st_add ST s (st_from ST v))) j 0 = x j 0 + v j 0 /\
     st_to ST (f (st_sub ST s (st_from ST v))) j 0 = x j 0 - v j 0) ->
  let M := mean_and_sigma_points_to_matrix_xf (2 * n) (f s) [seq f p | p <- generate_sigma_points s P lambda] in
  let W := generate_weights n (alpha : R_realFieldType) beta lambda in
  let out := compute_unscented_transform (M : 'M[R_realFieldType]_(_, _)) W.1 W.2 in
  (forall j, Q j -> out.1 j 0 = x j 0) /\ (forall j k, Q j -> Q k -> out.2 j k = factored P j k).
Proof.
move=> l0 Hx Hc M W out.
have h : (n%:R + lambda : R) != 0 by apply/eqP; exact: Rgt_not_eq _ _ l0.
have R0 j (qj : Q j) := rows_offset (Hx j qj) (fun c => Hc j c qj).
split=> [j qj|j k qj qk]; first exact: recover_mean h (R0 j qj).
rewrite /out (recover_cov _ _ h (R0 j qj) (R0 k qk)) (spread_factored P l0) mxE mulrA mulVf ?mul1r //.
Qed.
Lemma recovered s P lambda (f : S -> S) (x : 'cV[R]_n) alpha beta (Q : pred 'I_n) : spd (P : 'M[R_rcfType]_n) ->
  (0 < n%:R + lambda)%coqR ->
  (forall j, Q j -> st_to ST (f s) j 0 = x j 0) ->
  (forall j c, Q j -> let v := col c (spread P lambda) in
     st_to ST (f (st_add ST s (st_from ST v))) j 0 = x j 0 + v j 0 /\
     st_to ST (f (st_sub ST s (st_from ST v))) j 0 = x j 0 - v j 0) ->
  let M := mean_and_sigma_points_to_matrix_xf (2 * n) (f s) [seq f p | p <- generate_sigma_points s P lambda] in
  let W := generate_weights n (alpha : R_realFieldType) beta lambda in
  let out := compute_unscented_transform (M : 'M[R_realFieldType]_(_, _)) W.1 W.2 in
  (forall j, Q j -> out.1 j 0 = x j 0) /\ (forall j k, Q j -> Q k -> out.2 j k = P j k).
Proof.
move=> sP l0 Hx Hc M W out; have [H1 H2] := recovered_factored alpha beta l0 Hx Hc.
by split=> // j k qj qk; rewrite H2 // factored_spd.
Qed.
End Points.

(** ** The two state types *)
Lemma entP n (v : 'cV[R]_n.+1) (j : 'I_n.+1) : v j 0 = ent v j.
Proof. by rewrite /ent inord_val. Qed.
Lemma angle_sub_of (z : rangle) a : on_circle z -> angle_sub z (angleR a) = angleR (get_angle z - a)%coqR.
Proof.
move=> H; rewrite /angle_sub; apply: angle_of_turn; apply: same_turn_sub; first exact: same_turn_refl.
by have [_] := get_angle_spec a.
Qed.

(** What the two state types have in common; [circle] says that the heading is a
    point of the unit circle. *)
Record tame n (ST : state_type n) (i3 : 'I_n) (circle : st_car ST -> Prop) : Prop := {
  tame_i3 : (i3 : nat) = 3%N;
  tame_linear : forall s v (j : 'I_n), (j : nat) <> 3%N ->
    st_to ST (st_add ST s (st_from ST v)) j 0 = st_to ST s j 0 + v j 0 /\
    st_to ST (st_sub ST s (st_from ST v)) j 0 = st_to ST s j 0 - v j 0;
  tame_heading : forall s (v : 'cV[R]_n), circle s -> let h := st_to ST s i3 0 in let d := v i3 0 in
    ((0 <= h + d < 2 * PI)%coqR -> st_to ST (st_add ST s (st_from ST v)) i3 0 = h + d) /\
    ((0 <= h - d < 2 * PI)%coqR -> st_to ST (st_sub ST s (st_from ST v)) i3 0 = h - d);
  tame_zero : forall s, circle s -> st_next ST s 0%coqR = s;
  tame_circle : forall s v, circle (st_add ST s v) /\ circle (st_sub ST s v);
  tame_back : forall s, circle s -> st_from ST (st_to ST s) = s
}.

Lemma ctrv_tame : @tame 5 ctrv_type (inord 3) (fun s => on_circle (v_yaw s)).
Proof.
split=> /=; first by rewrite inordK.
- move=> s v j hj; rewrite [v j 0]entP !mxE; case: j hj => [[|[|[|[|[|//]]]]] h] // _; split; reflexivity.
- move=> s v C; rewrite !mxE inordK // [nth _ _ _]/= -/(ent v 3).
  cbn [nth v_yaw ctrv_add ctrv_sub ctrv_from_vec].
  split=> H; first by rewrite angle_add_of // get_angle_canonical.
  by rewrite angle_sub_of // get_angle_canonical.
- exact: ctrv_zero.
- by move=> s v; split; apply: circle_of.
- exact: ctrv_round_trip.
Qed.

Lemma ctra_tame : @tame 6 ctra_type (inord 3) (fun s => on_circle (a_yaw s)).
Proof.
split=> /=; first by rewrite inordK.
- move=> s v j hj; rewrite [v j 0]entP !mxE; case: j hj => [[|[|[|[|[|[|//]]]]]] h] // _; split; reflexivity.
- move=> s v C; rewrite !mxE inordK // [nth _ _ _]/= -/(ent v 3).
  cbn [nth a_yaw ctra_add ctra_sub ctra_from_vec].
  split=> H; first by rewrite angle_add_of // get_angle_canonical.
  by rewrite angle_sub_of // get_angle_canonical.
- exact: ctra_zero.
- by move=> s v; split; apply: circle_of.
- exact: ctra_round_trip.
Qed.

Section Tame.
Variables (n : nat) (ST : state_type n) (i3 : 'I_n) (circle : st_car ST -> Prop) (T : tame i3 circle).
Implicit Types (s : st_car ST) (P : 'M[R]_n) (lambda r : R).

(** All coordinates but the heading are always recovered. *)
Lemma recover_rest s P lambda alpha beta : spd (P : 'M[R_rcfType]_n) -> (0 < n%:R + lambda)%coqR ->
  let M := mean_and_sigma_points_to_matrix_xf (2 * n) s (generate_sigma_points s P lambda) in
  let W := generate_weights n (alpha : R_realFieldType) beta lambda in
  let out := compute_unscented_transform (M : 'M[R_realFieldType]_(_, _)) W.1 W.2 in
  (forall j : 'I_n, (j : nat) <> 3%N -> out.1 j 0 = st_to ST s j 0) /\
  (forall j k : 'I_n, (j : nat) <> 3%N -> (k : nat) <> 3%N -> out.2 j k = P j k).
Proof.
move=> sP l0 M W out.
have [H1 H2] := @recovered n ST s P lambda id (st_to ST s) alpha beta (fun j => (j : nat) != 3%N) sP l0
  (fun j _ => erefl) (fun j c qj => tame_linear T s _ (elimN eqP qj)).
rewrite map_id in H1 H2.
by split=> [j /eqP qj|j k /eqP qj /eqP qk]; [exact: H1|exact: H2].
Qed.

(** The heading too if all sigma points stay within one turn. *)
Definition roomy s P lambda r (top : R) : Prop := let h := st_to ST s i3 0 in
  ((n%:R + lambda) * P i3 i3 <= r * r /\ 0 <= r /\ r <= h /\ h + r <= top)%coqR.

Lemma recovers_factored s P lambda r top : (0 < n%:R + lambda)%coqR ->
  circle s -> roomy s (factored P) lambda r top -> (top < 2 * PI)%coqR ->
  forall j c, let v := col c (spread P lambda) in
     st_to ST (st_add ST s (st_from ST v)) j 0 = st_to ST s j 0 + v j 0 /\
     st_to ST (st_sub ST s (st_from ST v)) j 0 = st_to ST s j 0 - v j 0.
Proof.
move=> l0 C [H1 [r0 [H2 H3]]] ht j c v.
case: (eqVneq (j : nat) 3%N) => [E|/eqP nj]; last exact: (tame_linear T s v nj).
have -> : j = i3 by apply: val_inj; rewrite /= E (tame_i3 T).
have B := spread_bounded c l0 r0 H1.
have Ev : v i3 0 = spread P lambda i3 c by rewrite mxE.
rewrite -Ev in B; have [h1 h2] := tame_heading T v C; rewrite -/v; clear Ev.
move: B h1 h2; move: (v i3 0) (st_to ST s i3 0) H2 H3 => a b H2 H3 B h1 h2.
by split; [apply: h1|apply: h2]; split_Rabs; lra.
Qed.

Lemma recovers_all s P lambda r top : spd (P : 'M[R_rcfType]_n) -> (0 < n%:R + lambda)%coqR ->
  circle s -> roomy s P lambda r top -> (top < 2 * PI)%coqR ->
  forall j c, let v := col c (spread P lambda) in
     st_to ST (st_add ST s (st_from ST v)) j 0 = st_to ST s j 0 + v j 0 /\
     st_to ST (st_sub ST s (st_from ST v)) j 0 = st_to ST s j 0 - v j 0.
Proof. by move=> sP l0 C rm; rewrite -(factored_spd sP) in rm; exact: recovers_factored l0 C rm. Qed.

Lemma recover_factored s P lambda r top alpha beta : (0 < n%:R + lambda)%coqR ->
  circle s -> roomy s (factored P) lambda r top -> (top < 2 * PI)%coqR ->
  let M := mean_and_sigma_points_to_matrix_xf (2 * n) s (generate_sigma_points s P lambda) in
  let W := generate_weights n (alpha : R_realFieldType) beta lambda in
  compute_unscented_transform (M : 'M[R_realFieldType]_(_, _)) W.1 W.2 = (st_to ST s, factored P).
Proof.
move=> l0 C rm ht M W.
have A := recovers_factored l0 C rm ht.
have [H1 H2] := @recovered_factored n ST s P lambda id (st_to ST s) alpha beta predT l0
  (fun j _ => erefl) (fun j c _ => A j c).
rewrite map_id in H1 H2; rewrite [LHS]surjective_pairing; congr pair.
  by apply/colP => j; apply: H1.
by apply/matrixP => j k; apply: H2.
Qed.

Lemma recover_all s P lambda r top alpha beta : spd (P : 'M[R_rcfType]_n) -> (0 < n%:R + lambda)%coqR ->
  circle s -> roomy s P lambda r top -> (top < 2 * PI)%coqR ->
  let M := mean_and_sigma_points_to_matrix_xf (2 * n) s (generate_sigma_points s P lambda) in
  let W := generate_weights n (alpha : R_realFieldType) beta lambda in
  compute_unscented_transform (M : 'M[R_realFieldType]_(_, _)) W.1 W.2 = (st_to ST s, P).
Proof.
move=> sP l0 C rm ht; rewrite -(factored_spd sP) in rm.
by have := recover_factored alpha beta l0 C rm ht; rewrite factored_spd.
Qed.

Lemma offset_bound (L : 'M[R_realFieldType]_n) r i j : (0 <= r)%coqR -> (forall c, (Rabs (L j c) <= r)%coqR) ->
  (Rabs (offset L i j) <= r)%coqR.
Proof.
move=> r0 H; rewrite /offset; case: i => [|i]; first by rewrite Rabs_R0.
case: insub => [c|]; last by rewrite Rabs_R0.
by case: odd => //; rewrite Rabs_Ropp.
Qed.

(** Prediction by zero seconds *)
Lemma predict_zero_factored s P alpha beta kappa r :
  (0 < alpha * alpha * (n%:R + kappa))%coqR ->
  circle s -> roomy s (factored P) (generate_lambda n (alpha : R_realFieldType) kappa) r (pi11 R_realFieldType) ->
  unscented_kalman_filter_predict s P 0%coqR alpha beta kappa = (s, factored P).
Proof.
move=> a0 C rm.
have PB := PiBounds.pi_bounds; have QB := pi11_bounds.
rewrite /unscented_kalman_filter_predict /generate_sigma_points_and_weights /=.
set lambda := generate_lambda _ _ _ in rm *.
have El : (n%:R + lambda)%coqR = (alpha * alpha * (n%:R + kappa))%coqR.
  by rewrite /lambda /generate_lambda RaddE addrC subrK.
have l0 : (0 < n%:R + lambda)%coqR by rewrite El.
have -> : [seq st_next ST p 0%coqR | p <- generate_sigma_points s P lambda] = generate_sigma_points s P lambda.
  rewrite /generate_sigma_points map_flatten -map_comp; congr flatten; apply: eq_map => c /=.
  rewrite /sigma_pair; set v := st_from ST _; have [c1 c2] := tame_circle T s v.
  by rewrite !(tame_zero T).
rewrite (tame_zero T) //.
set M := mean_and_sigma_points_to_matrix_xf _ _ _.
have ht : (pi11 R_realFieldType < 2 * PI)%coqR by lra.
have -> : wrap_rows M = M.
  apply/matrixP => i j; rewrite mxE; case: eqP => // j3.
  rewrite (_ : j = i3); last by apply: val_inj; rewrite /= j3 (tame_i3 T).
  apply: wrap_below; apply/RleP.
  have R0 := @rows_offset n ST s P lambda id _ i3 erefl (recovers_factored l0 C rm ht i3) i.
  rewrite map_id in R0; rewrite /M R0; case: rm => [H1 [r0 [H2 H3]]].
  have := offset_bound (L := spread P lambda) (j := i3) i r0 (fun c => spread_bounded c l0 r0 H1).
  rewrite -RaddE; move: (offset _ _ _) (st_to ST s i3 0) H2 H3 => a b; split_Rabs; lra.
have E := recover_factored alpha beta l0 C rm ht.
have -> : (s, factored P) = (st_from ST (st_to ST s, factored P).1, (st_to ST s, factored P).2) by rewrite /= (tame_back T).
by rewrite -E.
Qed.
Lemma predict_zero s P alpha beta kappa r : spd (P : 'M[R_rcfType]_n) ->
  (0 < alpha * alpha * (n%:R + kappa))%coqR ->
  circle s -> roomy s P (generate_lambda n (alpha : R_realFieldType) kappa) r (pi11 R_realFieldType) ->
  unscented_kalman_filter_predict s P 0%coqR alpha beta kappa = (s, P).
Proof.
move=> sP a0 C rm; rewrite -(factored_spd sP) in rm.
by rewrite (predict_zero_factored beta a0 C rm) factored_spd.
Qed.
End Tame.
