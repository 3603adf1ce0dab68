(** Eigen's LLT as used by generate_sigma_points (unscented_transform.hpp:84):
    llt() copies the matrix, factors the copy in place and records in info()
    whether that succeeded; matrixL() is the lower triangle of the copy,
    whatever info() says.  The code never looks at info().  Modelled from
    Eigen's published source, src/Cholesky/LLT.h, llt_inplace::unblocked, which
    is used below size 32; exact arithmetic in place of float. *)
From mathcomp Require Import all_ssreflect all_algebra.
From Verif Require Import PosDef.
Set Implicit Arguments.
Unset Strict Implicit.
Unset Printing Implicit Defensive.
Import Order.Theory GRing.Theory Num.Theory.
Local Open Scope ring_scope.

Section Llt.
Variables (F : rcfType) (n : nat).
Implicit Types (mat : 'M[F]_n) (k i j : 'I_n).

(** x = mat(k,k) - A10.squaredNorm(), A10 being row k left of the diagonal *)
Definition llt_pivot mat k : F := mat k k - \sum_(j < n | (j < k)%N) mat k j * mat k j.
(** mat(k,k) = x = sqrt(x); A21 -= A20 * A10.adjoint(); A21 /= x, A21 being
    column k below the diagonal and A20 the rows left of it *)
Definition llt_column mat k : 'M[F]_n :=
  let x := Num.sqrt (llt_pivot mat k) in
  \matrix_(i, j) if j == k then
    (if i == k then x
     else if (k < i)%N then (mat i k - \sum_(l < n | (l < k)%N) mat i l * mat k l) / x
     else mat i j)
  else mat i j.
(** The loop over k: a pivot that is not positive ends it, and the copy stays as
    it is then.  (Second result: the info() that nobody reads.) *)
Fixpoint llt_loop (ks : seq 'I_n) mat : 'M[F]_n * bool :=
  match ks with
  | [::] => (mat, true)
  | k :: ks' => if llt_pivot mat k <= 0 then (mat, false) else llt_loop ks' (llt_column mat k)
  end.
Definition llt mat : 'M[F]_n * bool := llt_loop (enum 'I_n) mat.
(** matrixL(), assigned to a dense matrix *)
Definition llt_matrixL mat : 'M[F]_n := \matrix_(i, j) if (j <= i)%N then (llt mat).1 i j else 0.

(** ** The loop *)
(** The copy before step [k]: the columns left of [k] are those of the factor,
    the others are untouched. *)
Definition half_done (M A : 'M[F]_n) (k : nat) : Prop :=
  [/\ forall i j, (j <= i)%N -> (k <= j)%N -> A i j = M i j,
      forall j, (j < k)%N -> 0 < A j j
    & forall i j, (j < k)%N -> (j <= i)%N -> \sum_(l < n | (l < j)%N) A i l * A j l + A i j * A j j = M i j].

Lemma column_other mat k i j : j != k -> llt_column mat k i j = mat i j.
Proof. by move=> jk; rewrite mxE (negbTE jk). Qed.
Lemma column_sum mat k i j (m : nat) : (m <= k)%N ->
  \sum_(l < n | (l < m)%N) llt_column mat k i l * llt_column mat k j l = \sum_(l < n | (l < m)%N) mat i l * mat j l.
Proof.
move=> mk; apply: eq_bigr => l lm.
by rewrite !column_other // -(inj_eq val_inj) /= ltn_eqF // (leq_trans lm).
Qed.

Lemma half_step M A k : half_done M A k -> 0 < llt_pivot A k -> half_done M (llt_column A k) k.+1.
Proof.
case=> H1 H2 H3 p0; have s0 : 0 < Num.sqrt (llt_pivot A k) by rewrite sqrtr_gt0.
have nk (j : 'I_n) : (j < k)%N -> j != k by move=> jk; rewrite -(inj_eq val_inj) /= ltn_eqF.
split.
- move=> i j ji kj; rewrite column_other; first by apply: H1 => //; exact: ltnW.
  by rewrite -(inj_eq val_inj) /= gtn_eqF.
- move=> j; rewrite ltnS leq_eqVlt => /orP [/eqP jk|jk]; last by rewrite column_other ?nk // H2.
  by rewrite (val_inj jk) mxE !eqxx.
- move=> i j; rewrite ltnS leq_eqVlt => /orP [/eqP jk|jk] ji; last first.
    by rewrite column_sum ?(ltnW jk) // !column_other ?nk // H3.
  have E : j = k by exact: val_inj.
  move: ji; rewrite {jk j}E => ki; rewrite column_sum // [llt_column A k k k]mxE !eqxx.
  rewrite [llt_column A k i k]mxE eqxx.
  case: eqP => [->|/eqP ik].
    by rewrite -expr2 sqr_sqrtr ?ltW // /llt_pivot addrC subrK H1.
  have ki' : (k < i)%N by rewrite ltn_neqAle ki andbT eq_sym.
  by rewrite ki' divfK ?gt_eqF // addrC subrK H1.
Qed.

Lemma half_loop M : forall (ks : seq 'I_n) A (k : nat), half_done M A k -> map val ks = iota k (n - k) -> (k <= n)%N ->
  let out := llt_loop ks A in
  (out.2 = true /\ half_done M out.1 n) \/
  (out.2 = false /\ exists k, half_done M out.1 k /\ llt_pivot out.1 k <= 0).
Proof.
elim=> [|x ks IH] A k H /= E kn.
  left; split=> //; have : size (iota k (n - k)) = 0%N by rewrite -E.
  by rewrite size_iota => /eqP; rewrite subn_eq0 => nk; rewrite (_ : n = k) in H *; last by apply/eqP; rewrite eqn_leq nk kn.
move: E; case Ek: (n - k)%N => [|m] //= [xk E].
have kx : k = x by [].
case: leP => [p|p]; first by right; split=> //; exists x; rewrite -kx.
apply: (IH _ k.+1).
- by rewrite kx; apply: half_step; rewrite -?kx.
- by rewrite E; congr iota; rewrite subnS Ek.
- by rewrite kx ltn_ord.
Qed.

Lemma llt_cases M : ((llt M).2 = true /\ half_done M (llt M).1 n) \/
  ((llt M).2 = false /\ exists k, half_done M (llt M).1 k /\ llt_pivot (llt M).1 k <= 0).
Proof.
apply: (@half_loop M (enum 'I_n) M 0); rewrite ?val_enum_ord ?subn0 //.
Qed.

Lemma llt_lower M : lower (llt_matrixL M).
Proof. by move=> i j ij; rewrite mxE leqNgt ij. Qed.

Lemma lower_prod (L : 'M[F]_n) i j : lower L -> (j <= i)%N ->
  (L *m L^T) i j = \sum_(l < n | (l < j)%N) L i l * L j l + L i j * L j j.
Proof.
move=> lL ji; rewrite mxE (bigID (fun l : 'I_n => (l < j)%N)) /=; congr (_ + _).
  by apply: eq_bigr => l _; rewrite mxE.
rewrite (bigD1 j) ?ltnn //= mxE big1 ?addr0 // => l /andP [h1 h2].
by rewrite mxE [L j l]lL ?mulr0 // ltn_neqAle [(j <= l)%N]leqNgt h1 andbT eq_sym.
Qed.

(** What the untouched and the finished part of the copy say about matrixL() *)
Lemma half_lower M (k : nat) : half_done M (llt M).1 k -> half_done M (llt_matrixL M) k.
Proof.
case=> H1 H2 H3; split=> [i j ji kj|j jk|i j jk ji].
- by rewrite mxE ji H1.
- by rewrite mxE leqnn H2.
- rewrite -(H3 i j jk ji); rewrite ![llt_matrixL M _ j]mxE ji leqnn; congr (_ + _).
  apply: eq_bigr => l lj; rewrite !mxE (ltnW lj) (leq_trans (ltnW lj) ji) //.
Qed.
Lemma pivot_lower M k : llt_pivot (llt M).1 k = llt_pivot (llt_matrixL M) k.
Proof.
rewrite /llt_pivot mxE leqnn; congr (_ - _); apply: eq_bigr => l lk.
by rewrite mxE (ltnW lk).
Qed.

Lemma gram_spd (L : 'M[F]_n) : lower L -> pos_diag L -> spd (L *m L^T).
Proof.
move=> lL pL.
have uL : L \in unitmx.
  rewrite unitmxE det_trig; last by apply/is_trig_mxP.
  by rewrite unitfE prodf_seq_neq0; apply/allP => i _; rewrite implyTb gt_eqF.
split; first by rewrite /symmetric trmx_mul trmxK.
move=> v v0; have -> : qf (L *m L^T) v = qf 1%:M (L^T *m v) by rewrite -qf_congr trmxK mulmx1.
have [_] := @spd_id F n; apply; apply: contra v0 => /eqP E.
by rewrite -[v]mul1mx -(mulVmx (_ : L^T \in unitmx)) ?unitmx_tr // -mulmxA E mulmx0.
Qed.

(** The finished columns are those of any other factor. *)
Lemma half_unique (M L C : 'M[F]_n) (k : nat) :
  (forall j, (j < k)%N -> 0 < L j j) ->
  (forall i j, (j < k)%N -> (j <= i)%N -> \sum_(l < n | (l < j)%N) L i l * L j l + L i j * L j j = M i j) ->
  (forall j, (j < k)%N -> 0 < C j j) ->
  (forall i j, (j < k)%N -> (j <= i)%N -> \sum_(l < n | (l < j)%N) C i l * C j l + C i j * C j j = M i j) ->
  forall i j, (j < k)%N -> (j <= i)%N -> L i j = C i j.
Proof.
move=> H2 H3 pC EC i j.
move: {2}(j : nat) (leqnn j) => m; elim/ltn_ind: m i j => m IH i j jm jk ji.
have S i' : (j <= i')%N -> L i' j * L j j = C i' j * C j j.
  move=> ji'; have := H3 i' j jk ji'; rewrite -EC //.
  rewrite (eq_bigr (fun l : 'I_n => C i' l * C j l)); first exact: addrI.
  move=> l lj; rewrite !(IH l) ?(leq_trans lj) //; try exact: ltnW; try exact: ltn_trans lj jk.
  by apply: leq_trans ji'; exact: ltnW.
have D : L j j = C j j.
  have := S j (leqnn j); rewrite -!expr2 => /eqP; rewrite eqf_sqr => /orP [/eqP //|/eqP E].
  by have := H2 j jk; rewrite E oppr_gt0 ltNge ltW // pC.
by have := S i ji; rewrite D => /mulIf; apply; rewrite gt_eqF // pC.
Qed.
Lemma half_factor M L C (k : nat) : half_done M L k -> lower C -> pos_diag C -> C *m C^T = M ->
  forall i j, (j < k)%N -> (j <= i)%N -> L i j = C i j.
Proof. by case=> _ H2 H3 lC pC EM; apply: (half_unique H2 H3) => // i j jk ji; rewrite -EM lower_prod. Qed.

Lemma llt_cholesky M : spd M -> (llt M).2 = true /\ llt_matrixL M = cholesky M.
Proof.
move=> sM; have lC := cholesky_lower M; have pC := cholesky_diag sM; have EC := choleskyK sM.
case: (llt_cases M) => [[b H0]|[_ [k [H0]]]]; have H := half_lower H0; clear H0.
  split=> //; apply/matrixP => i j; case: (leqP j i) => ji; first exact: half_factor H lC pC EC _ _ _ ji.
  by rewrite llt_lower // lC.
have U := half_factor H lC pC EC; case: H => H1 _ _.
rewrite pivot_lower /llt_pivot H1 // -{1}EC lower_prod //.
rewrite [X in _ - X](eq_bigr (fun l : 'I_n => cholesky M k l * cholesky M k l)); last first.
  by move=> l lk; rewrite !U // ltnW.
by rewrite addrC addKr leNgt -expr2 exprn_gt0.
Qed.

(** Success means that the matrix is positive definite. *)
Lemma llt_success M : symmetric M -> (llt M).2 = true -> spd M.
Proof.
move=> sM; case: (llt_cases M) => [[_ H] _|[-> //]]; have [_ H2 H3] := half_lower H.
have lL := llt_lower M; have pL : pos_diag (llt_matrixL M) by move=> j; apply: H2.
rewrite (_ : M = llt_matrixL M *m (llt_matrixL M)^T); first exact: gram_spd.
apply/matrixP => i j; case: (leqP j i) => ji; first by rewrite lower_prod // H3.
have -> : M i j = M j i by rewrite -{1}sM mxE.
have [sG _] := gram_spd lL pL.
by rewrite -sG [RHS]mxE lower_prod ?H3 // ltnW.
Qed.

(** The upper triangle is not read. *)
Definition same_lower (A B : 'M[F]_n) : Prop := forall i j, (j <= i)%N -> A i j = B i j.
Lemma pivot_same A B k : same_lower A B -> llt_pivot A k = llt_pivot B k.
Proof.
move=> H; rewrite /llt_pivot H //; congr (_ - _); apply: eq_bigr => l lk.
by rewrite H // ltnW.
Qed.
Lemma column_same A B k : same_lower A B -> same_lower (llt_column A k) (llt_column B k).
Proof.
move=> H i j ji; rewrite !mxE (pivot_same _ H).
case: eqP => [jk|_]; last exact: H.
case: eqP => // _; case: ltnP => [ki|_]; last exact: H.
rewrite H; last exact: ltnW.
congr ((_ - _) / _); apply: eq_bigr => l lk; rewrite !H //; first exact: ltnW.
by apply: leq_trans (ltnW lk) (ltnW ki).
Qed.
Lemma loop_same ks : forall A B, same_lower A B -> same_lower (llt_loop ks A).1 (llt_loop ks B).1.
Proof.
elim: ks => [//|k ks IH] A B H /=; rewrite (pivot_same k H).
by case: leP => // _; apply: IH; exact: column_same.
Qed.
Lemma llt_same A B : same_lower A B -> llt_matrixL A = llt_matrixL B.
Proof.
move=> H; apply/matrixP => i j; rewrite !mxE; case: leqP => // ji.
exact: (@loop_same (enum 'I_n) A B H).
Qed.
End Llt.
