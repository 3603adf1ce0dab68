(** Symmetric positive definite matrices over an arbitrary real field: sums,
    inverses, determinants, Schur complements and the Cholesky factor.  Nothing
    here depends on the modelled code. *)
From mathcomp Require Import all_ssreflect all_algebra ring.
Set Implicit Arguments.
Unset Strict Implicit.
Unset Printing Implicit Defensive.
Import Order.Theory GRing.Theory Num.Theory.
Local Open Scope ring_scope.

Lemma addmxE (T : zmodType) m n (A B : 'M[T]_(m, n)) i j : (A + B) i j = A i j + B i j.
Proof. by rewrite mxE. Qed.
Lemma oppmxE (T : zmodType) m n (A : 'M[T]_(m, n)) i j : (- A) i j = - A i j.
Proof. by rewrite mxE. Qed.
Lemma scalemxE (T : ringType) m n w (A : 'M[T]_(m, n)) i j : (w *: A) i j = w * A i j.
Proof. by rewrite mxE. Qed.
Definition entE := (addmxE, oppmxE, scalemxE).

(** [ring] and [field] with all matrix entries and forms as atoms *)
Ltac atoms := repeat match goal with
  |- context [fun_of_matrix ?A ?i ?j] => move: (fun_of_matrix A i j) => ? end.
Ltac mxring := atoms; ring.

Section Def.
Variable F : realFieldType.

(** v' M v *)
Definition qf n (M : 'M[F]_n) (v : 'cV_n) : F := (v^T *m M *m v) 0 0.

Definition symmetric n (M : 'M[F]_n) : Prop := M^T = M.
(** symmetric positive definite *)
Definition spd n (M : 'M[F]_n) : Prop := symmetric M /\ forall v, v != 0 -> 0 < qf M v.
(** symmetric positive semidefinite *)
Definition psd n (M : 'M[F]_n) : Prop := symmetric M /\ forall v, 0 <= qf M v.

Lemma qfD n (A B : 'M[F]_n) v : qf (A + B) v = qf A v + qf B v.
Proof. by rewrite /qf mulmxDr mulmxDl entE. Qed.
Lemma qfN n (A : 'M[F]_n) v : qf (- A) v = - qf A v.
Proof. by rewrite /qf mulmxN mulNmx entE. Qed.
Lemma qfZ n w (A : 'M[F]_n) v : qf (w *: A) v = w * qf A v.
Proof. by rewrite /qf -scalemxAr -scalemxAl entE. Qed.
Lemma qf0 n (M : 'M[F]_n) : qf M 0 = 0.
Proof. by rewrite /qf mulmx0 mxE. Qed.
Lemma qf_congr n p (M : 'M[F]_n) (A : 'M_(n, p)) v : qf (A^T *m M *m A) v = qf M (A *m v).
Proof. by rewrite /qf trmx_mul !mulmxA. Qed.

Lemma trv (s : 'M[F]_1) : s^T = s.
Proof. by apply/matrixP => i j; rewrite mxE !ord1. Qed.

Lemma sym_swap n (M : 'M[F]_n) (u v : 'cV_n) : symmetric M ->
  (u^T *m M *m v) 0 0 = (v^T *m M *m u) 0 0.
Proof.
move=> sM; rewrite -[u^T *m M *m v]trv !trmx_mul trmxK sM.
by rewrite mulmxA.
Qed.

Lemma qf_id n (v : 'cV[F]_n) : qf 1%:M v = \sum_i v i 0 ^+ 2.
Proof.
rewrite /qf mulmx1 mxE; apply: eq_bigr => i _.
by rewrite mxE expr2.
Qed.

Lemma spd_id n : @spd n 1%:M.
Proof.
split; first exact: trmx1.
move=> v v0; rewrite qf_id.
have [i vi] : exists i, v i 0 != 0.
  apply/existsP; apply: contra_neqT v0; rewrite negb_exists => /forallP h.
  by apply/matrixP => i j; rewrite ord1 mxE; apply/eqP; move: (h i); rewrite negbK.
rewrite (bigD1 i) //=; apply: ltr_paddr; first by apply: sumr_ge0 => j _; exact: sqr_ge0.
by rewrite lt_neqAle sqr_ge0 andbT eq_sym sqrf_eq0.
Qed.

Lemma spd_psd n (M : 'M[F]_n) : spd M -> psd M.
Proof.
move=> [sM pM]; split=> // v; have [->|v0] := eqVneq v 0; first by rewrite qf0.
exact/ltW/pM.
Qed.

Lemma spd_addl n (A B : 'M[F]_n) : spd A -> psd B -> spd (A + B).
Proof.
move=> [sA pA] [sB pB]; split; first by rewrite /symmetric linearD /= sA sB.
by move=> v v0; rewrite qfD; apply: ltr_paddr; [exact: pB|exact: pA].
Qed.

Lemma psd_scale n w (A : 'M[F]_n) : 0 <= w -> psd A -> psd (w *: A).
Proof.
move=> w0 [sA pA]; split; first by rewrite /symmetric linearZ /= sA.
by move=> v; rewrite qfZ mulr_ge0.
Qed.

Lemma spd_scale n w (A : 'M[F]_n) : 0 < w -> spd A -> spd (w *: A).
Proof.
move=> w0 [sA pA]; split; first by rewrite /symmetric linearZ /= sA.
by move=> v v0; rewrite qfZ mulr_gt0 // pA.
Qed.

Lemma spd_convex n w (A B : 'M[F]_n) : 0 <= w <= 1 -> spd A -> spd B ->
  spd (w *: A + (1 - w) *: B).
Proof.
move=> /andP [w0 w1] sA sB.
have [->|w0'] := eqVneq w 0; first by rewrite scale0r add0r subr0 scale1r.
apply: spd_addl; first by apply: spd_scale => //; rewrite lt_neqAle eq_sym w0'.
by apply: psd_scale; [rewrite subr_ge0|exact: spd_psd].
Qed.

Lemma spd_unit n (M : 'M[F]_n) : spd M -> M \in unitmx.
Proof.
move=> [sM pM]; rewrite -row_free_unit -kermx_eq0; apply/rowV0P => v /sub_kermxP vM.
apply/eqP; apply: contraT => v0.
have := pM v^T; rewrite /qf trmxK vM mul0mx mxE ltxx; apply.
by apply: contraNneq v0 => h; rewrite -(trmxK v) h trmx0.
Qed.

Lemma sym_inv n (M : 'M[F]_n) : symmetric M -> symmetric (invmx M).
Proof. by rewrite /symmetric trmx_inv => ->. Qed.

Lemma qf_inv n (M : 'M[F]_n) v : symmetric M -> M \in unitmx ->
  qf (invmx M) v = qf M (invmx M *m v).
Proof.
move=> sM uM; rewrite -qf_congr; congr qf.
by rewrite (sym_inv sM) mulVmx // mul1mx.
Qed.

Lemma spd_inv n (M : 'M[F]_n) : spd M -> spd (invmx M).
Proof.
move=> sM; have uM := spd_unit sM; case: (sM) => syM pM.
split; first exact: sym_inv.
move=> v v0; rewrite qf_inv //; apply: pM.
apply: contraNneq v0 => h.
by rewrite -[v]mul1mx -(mulmxV uM) -mulmxA h mulmx0.
Qed.

Lemma psd_congr n p (M : 'M[F]_n) (A : 'M_(n, p)) : psd M -> psd (A^T *m M *m A).
Proof.
move=> [sM pM]; split; last by move=> v; rewrite qf_congr.
by rewrite /symmetric !trmx_mul trmxK sM mulmxA.
Qed.

(** Expansion of the form around a point. *)
Lemma qf_add n (M : 'M[F]_n) (u v : 'cV_n) : symmetric M ->
  qf M (u + v) = qf M u + qf M v + 2%:R * (u^T *m M *m v) 0 0.
Proof.
move=> sM; rewrite /qf; have -> : (u + v)^T = u^T + v^T by rewrite linearD.
rewrite !mulmxDl !mulmxDr !entE (sym_swap v u sM); mxring.
Qed.

Lemma bil_scale n (M : 'M[F]_n) x y (u v : 'cV_n) :
  ((x *: u)^T *m M *m (y *: v)) 0 0 = x * y * (u^T *m M *m v) 0 0.
Proof.
have -> : (x *: u)^T = x *: u^T by rewrite linearZ.
by rewrite -!scalemxAl -scalemxAr !entE mulrA.
Qed.

Lemma qf_scale n (M : 'M[F]_n) x (v : 'cV_n) : qf M (x *: v) = x ^+ 2 * qf M v.
Proof. by rewrite /qf bil_scale expr2. Qed.

(** A positive semidefinite form is convex. *)
Lemma qf_convex n (M : 'M[F]_n) w (u v : 'cV_n) : psd M -> 0 <= w <= 1 ->
  qf M (w *: u + (1 - w) *: v) <= w * qf M u + (1 - w) * qf M v.
Proof.
move=> [sM pM] /andP [w0 w1].
have key : w * qf M u + (1 - w) * qf M v - qf M (w *: u + (1 - w) *: v)
           = w * (1 - w) * qf M (u + (-1) *: v).
  rewrite !qf_add // !qf_scale bil_scale -[u in (u^T *m M *m (-1 *: v)) 0 0]scale1r bil_scale.
  mxring.
by rewrite -subr_ge0 key !mulr_ge0 // subr_ge0.
Qed.

(** ** Schur complements *)
Section Schur.
Variables (n : nat) (M : 'M[F]_(1 + n)).
Let a : F := ulsubmx M 0 0.
Let c : 'cV[F]_n := dlsubmx M.
Definition schur : 'M[F]_n := drsubmx M - a^-1 *: (c *m c^T).

Lemma sym_blocks : symmetric M -> ursubmx M = c^T /\ symmetric (drsubmx M).
Proof.
move=> sM; split; first by rewrite /c trmx_dlsub sM.
by rewrite /symmetric trmx_drsub sM.
Qed.

Lemma ul_scalar : ulsubmx M = a%:M.
Proof. by rewrite [LHS]mx11_scalar. Qed.

(** The form of a block vector. *)
Lemma qf_block t v : symmetric M ->
  qf M (col_mx t%:M v) = a * t ^+ 2 + 2%:R * t * (c^T *m v) 0 0 + qf (drsubmx M) v.
Proof.
move=> sM; have [ur _] := sym_blocks sM.
rewrite /qf -[in LHS](submxK M) ur -/c ul_scalar tr_col_mx tr_scalar_mx.
rewrite mul_row_block mul_row_col !mulmxDl.
rewrite !mul_scalar_mx !mul_mx_scalar.
have -> : v^T *m c = c^T *m v by rewrite -[LHS]trv trmx_mul trmxK.
rewrite -!scalemxAl !entE !mxE eqxx !mulr1n; mxring.
Qed.

Lemma schur_sym : symmetric M -> symmetric schur.
Proof.
move=> sM; have [_ sD] := sym_blocks sM.
by rewrite /symmetric /schur linearB linearZ /= sD trmx_mul trmxK.
Qed.

Lemma qf_schur v : symmetric M -> a != 0 ->
  qf schur v = qf M (col_mx (- (a^-1 * (c^T *m v) 0 0))%:M v).
Proof.
move=> sM a0; rewrite qf_block // qfD qfN qfZ.
have -> : qf (c *m c^T) v = ((c^T *m v) 0 0) ^+ 2.
  rewrite /qf -mulmxA -[_ *m _ *m v]mulmxA mulmxA [LHS]mxE big_ord1.
  have -> : v^T *m c = c^T *m v by rewrite -[LHS]trv trmx_mul trmxK.
  by rewrite expr2.
by field.
Qed.

Lemma qf_min t v : symmetric M -> 0 < a -> qf schur v <= qf M (col_mx t%:M v).
Proof.
move=> sM a0; have a0' : a != 0 by rewrite gt_eqF.
rewrite qf_schur // !qf_block // -subr_ge0.
have -> : a * t ^+ 2 + 2%:R * t * (c^T *m v) 0 0 + qf (drsubmx M) v -
  (a * (- (a^-1 * (c^T *m v) 0 0)) ^+ 2 +
   2%:R * (- (a^-1 * (c^T *m v) 0 0)) * (c^T *m v) 0 0 + qf (drsubmx M) v)
  = a * (t + a^-1 * (c^T *m v) 0 0) ^+ 2 by field.
by apply: mulr_ge0; [exact: ltW|exact: sqr_ge0].
Qed.

Lemma spd_ul : spd M -> 0 < a.
Proof.
move=> [sM pM]; have := pM (col_mx 1%:M 0); rewrite qf_block // qf0.
rewrite mulmx0 mxE mulr0 !addr0 expr1n mulr1; apply.
rewrite -col_mx0; apply/eqP => /eq_col_mx [/matrixP /(_ 0 0)].
by rewrite !mxE eqxx => /eqP; rewrite oner_eq0.
Qed.

Lemma spd_schur : spd M -> spd schur.
Proof.
move=> sM; have a0 := spd_ul sM; case: (sM) => syM pM.
split; first exact: schur_sym.
move=> v v0; rewrite qf_schur //; last by rewrite gt_eqF.
by apply: pM; apply: contraNneq v0 => /eqP; rewrite col_mx_eq0 => /andP [_].
Qed.

Lemma det_schur : symmetric M -> a != 0 -> \det M = a * \det schur.
Proof.
move=> sM a0; have [ur _] := sym_blocks sM.
have -> : M = block_mx 1%:M 0 (a^-1 *: c) 1%:M *m block_mx a%:M c^T 0 schur.
  rewrite mulmx_block !mul1mx !mul0mx !addr0 -scalemxAl.
  rewrite mul_mx_scalar scalerA mulVf // scale1r -scalemxAl /schur addrC subrK.
  by rewrite -ur -ul_scalar submxK.
by rewrite det_mulmx det_lblock det_ublock !det1 !mul1r det_scalar1.
Qed.
End Schur.

Lemma col_mx_parts n (v : 'cV[F]_(1 + n)) : v = col_mx (usubmx v 0 0)%:M (dsubmx v).
Proof. by rewrite -[LHS]vsubmxK; congr col_mx; rewrite [LHS]mx11_scalar. Qed.

(** The determinant of a positive definite matrix is positive, and grows with
    the matrix. *)
Lemma det_spd_mono n (A M : 'M[F]_n) : spd A -> spd M ->
  (forall v, qf A v <= qf M v) -> 0 < \det A <= \det M.
Proof.
elim: n A M => [|n IH] A M sA sM le; first by rewrite !det_mx00 ltr01 lexx.
have a0 := @spd_ul n A sA; have m0 := @spd_ul n M sM.
have [syA _] := sA; have [syM _] := sM.
rewrite (@det_schur n A) ?(@det_schur n M) ?gt_eqF //.
have /andP [p1 p2] : 0 < \det (schur (A : 'M_(1 + n))) <= \det (schur (M : 'M_(1 + n))).
  apply: IH; [exact: (@spd_schur n A)|exact: (@spd_schur n M)|move=> v].
  rewrite (@qf_schur n M) ?gt_eqF //.
  by apply: le_trans (le _); exact: (@qf_min n A).
have am : ulsubmx (A : 'M_(1 + n)) 0 0 <= ulsubmx (M : 'M_(1 + n)) 0 0.
  have := le (col_mx 1%:M (0 : 'cV_n) : 'cV_(1 + n)).
  have z (c : 'rV[F]_n) : (c *m (0 : 'cV_n)) 0 0 = 0 by rewrite mulmx0 mxE.
  by rewrite (@qf_block n A) // (@qf_block n M) // !qf0 !z !mulr0 !addr0 expr1n !mulr1.
apply/andP; split; first exact: mulr_gt0.
by apply: ler_pmul => //; exact: ltW.
Qed.

Lemma det_spd n (A : 'M[F]_n) : spd A -> 0 < \det A.
Proof. by move=> sA; case/andP: (det_spd_mono sA sA (fun v => lexx _)). Qed.

Lemma det_spd_add n (A B : 'M[F]_n) : spd A -> psd B -> \det A <= \det (A + B).
Proof.
move=> sA sB; have sAB := spd_addl sA sB.
have h v : qf A v <= qf (A + B) v by rewrite qfD ler_addl; case: sB.
by case/andP: (det_spd_mono sA sAB h).
Qed.

End Def.

(** ** The Cholesky factor *)
Section Cholesky.
Variable F : rcfType.

(** Lower triangular with positive diagonal. *)
Definition lower n (L : 'M[F]_n) : Prop := forall i j : 'I_n, (i < j)%N -> L i j = 0.
Definition pos_diag n (L : 'M[F]_n) : Prop := forall i, 0 < L i i.

Fixpoint cholesky n : 'M[F]_n -> 'M[F]_n :=
  match n with
  | 0 => fun M => M
  | n'.+1 => fun M : 'M[F]_(1 + n') =>
      let r := Num.sqrt (ulsubmx M 0 0) in
      block_mx r%:M 0 (r^-1 *: dlsubmx M) (cholesky (schur M)) : 'M[F]_(1 + n')
  end.

Lemma choleskyK n (M : 'M[F]_n) : spd M -> cholesky M *m (cholesky M)^T = M.
Proof.
elim: n M => [|n IH] M sM; first by apply/matrixP => -[].
have a0 := @spd_ul _ n M sM; have [syM _] := sM.
have [ur _] := @sym_blocks _ n M syM.
set r := Num.sqrt (ulsubmx (M : 'M_(1 + n)) 0 0).
have r0 : 0 < r by rewrite sqrtr_gt0.
have rr : r * r = ulsubmx (M : 'M_(1 + n)) 0 0 by rewrite -expr2 sqr_sqrtr // ltW.
rewrite /= -/r (@tr_block_mx _ 1 n 1 n) (@mulmx_block _ 1 n 1 n 1 n) !trmx0 !mul0mx !mulmx0 !addr0 tr_scalar_mx.
rewrite IH; last exact: spd_schur.
rewrite -scalar_mxM rr -ul_scalar.
rewrite [(r^-1 *: _)^T]linearZ /= -scalemxAr mul_scalar_mx scalerA mulVf ?gt_eqF // scale1r.
rewrite -scalemxAl mul_mx_scalar scalerA mulVf ?gt_eqF // scale1r -ur.
rewrite -scalemxAr -scalemxAl scalerA -invfM rr /schur -ur.
rewrite [X in block_mx _ _ _ X]addrC subrK.
by rewrite submxK.
Qed.

Lemma ordS_cases n (i : 'I_(1 + n)) : i = lshift n 0 \/ exists k, i = rshift 1 k.
Proof.
case: (splitP i) => k e; [left|right; exists k]; apply: val_inj; rewrite /= e //.
by rewrite ord1.
Qed.

Lemma cholesky_lower n (M : 'M[F]_n) : lower (cholesky M).
Proof.
elim: n M => [|n IH] M i j; first by case: i.
case: (@ordS_cases n i) => [->|[i' ->]]; case: (@ordS_cases n j) => [->|[j' ->]] //=.
  by move=> _; rewrite (@block_mxEur _ 1 n 1 n) mxE.
by rewrite ltn_add2l => h; rewrite (@block_mxEdr _ 1 n 1 n) IH.
Qed.

Lemma cholesky_diag n (M : 'M[F]_n) : spd M -> pos_diag (cholesky M).
Proof.
elim: n M => [|n IH] M sM i; first by case: i.
case: (@ordS_cases n i) => [->|[i' ->]] /=.
  by rewrite (@block_mxEul _ 1 n 1 n) mxE eqxx mulr1n sqrtr_gt0; exact: spd_ul.
by rewrite (@block_mxEdr _ 1 n 1 n) IH //; exact: spd_schur.
Qed.

(** The factor is unique. *)
Lemma cholesky_unique n (L K : 'M[F]_n) : lower L -> pos_diag L -> lower K -> pos_diag K ->
  L *m L^T = K *m K^T -> L = K.
Proof.
elim: n L K => [|n IH] L K lL pL lK pK; first by move=> _; apply/matrixP => -[].
have parts (A : 'M[F]_n.+1) : lower A -> pos_diag A ->
  exists a (c : 'cV_n) (D : 'M_n), [/\ A = (block_mx a%:M 0 c D : 'M_(1 + n)), 0 < a, lower D & pos_diag D].
  move=> lA pA; exists (ulsubmx (A : 'M_(1 + n)) 0 0), (dlsubmx (A : 'M_(1 + n))), (drsubmx (A : 'M_(1 + n))).
  split.
  - have ur : ursubmx (A : 'M_(1 + n)) = 0.
      by apply/matrixP => i j; rewrite !mxE lA // ord1.
    by rewrite -[in RHS]ur -(@ul_scalar _ n A) (@submxK _ 1 n 1 n).
  - by rewrite !mxE; have := pA (lshift n (0 : 'I_1)).
  - by move=> i j ij; rewrite !mxE; apply: lA; rewrite /= ltn_add2l.
  by move=> i; rewrite !mxE; exact: pA.
have [a [c [D [-> a0 lD pD]]]] := parts L lL pL.
have [b [d [E [-> b0 lE pE]]]] := parts K lK pK.
rewrite !(@tr_block_mx _ 1 n 1 n) !(@mulmx_block _ 1 n 1 n 1 n) !trmx0 !mul0mx !mulmx0 !addr0 !tr_scalar_mx.
move=> /(@eq_block_mx _ 1 n 1 n) [h1 _ h3 h4].
have ab : a = b.
  move: h1; rewrite -!scalar_mxM => /matrixP /(_ 0 0); rewrite !mxE eqxx !mulr1n -!expr2 => /eqP.
  by rewrite eqr_expn2 // ?ltW // => /eqP.
subst b.
have cd : c = d.
  move: h3; rewrite !mul_mx_scalar => h.
  by rewrite -[c]scale1r -(mulVf (lt0r_neq0 a0)) -scalerA h scalerA mulVf ?scale1r // lt0r_neq0.
subst d; move/addrI: h4 => h4.
by rewrite (IH D E).
Qed.
End Cholesky.
