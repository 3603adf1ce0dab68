(** Repeated fusion. *)
From Coq Require Import Reals Lra.
From mathcomp Require Import all_ssreflect all_algebra.
From Verif Require Import Base Uuid DynObj RealField PosDef Motion RealArith StateVec
  CovInt CovIntThms FusionVisitor FusionThms RepeatSpec.
Set Implicit Arguments.
Unset Strict Implicit.
Unset Printing Implicit Defensive.
Import Order.Theory GRing.Theory Num.Theory.
Local Open Scope ring_scope.

Section Matrices.
Context (F : realFieldType) (n : nat).
Implicit Types A B I J : 'M[F]_n.

Lemma mix_spd c I J : 0 <= c <= 1 -> spd I -> spd J -> spd (J + c *: (I - J)).
Proof.
move=> c01 sI sJ; have -> : J + c *: (I - J) = c *: I + (1 - c) *: J.
  by rewrite scalerBl scale1r scalerBr addrC -addrA [- _ + J]addrC.
exact: spd_convex.
Qed.
Lemma mix_step c w I J : w *: (J + c *: (I - J)) + (1 - w) *: J = J + (w * c) *: (I - J).
Proof. by rewrite scalerDr scalerBl scale1r -scalerA addrC addrA subrK. Qed.

Lemma forget_bounds I J : spd I -> spd J -> 0 < forget I J < 1.
Proof.
move=> sI sJ; have dJ := det_spd sJ.
have s1 := spd_addl sI (spd_psd sJ); have s2 := spd_addl s1 (spd_psd sJ).
have D := det_spd s2.
have H : \det J <= \det (I + J + J) by rewrite addrC; apply: det_spd_add => //; exact: spd_psd.
have two : 0 < 2%:R :> F by rewrite ltr0n.
rewrite /forget; apply/andP; split; last by rewrite gtr_addl oppr_lt0 divr_gt0 ?mulr_gt0.
rewrite subr_gt0 ltr_pdivr_mulr ?mulr_gt0 // mul1r; apply: le_lt_trans H _.
by rewrite mulr_natl mulr2n ltr_addl.
Qed.
Lemma weight_forget c I J : 0 <= c <= 1 -> spd I -> spd J ->
  0 < generate_weight (J + c *: (I - J)) J <= forget I J.
Proof.
move=> c01 sI sJ; have sM := mix_spd c01 sI sJ; set M := J + _ in sM *.
have /andP [w0 _] := weight_bounds sM sJ; rewrite w0 /=.
have dJ := det_spd sJ; have dM := det_spd sM.
have sMJ : spd (M + J) by apply: spd_addl => //; exact: spd_psd.
have D := det_spd sMJ.
have sX : psd (c *: J + (1 - c) *: I) by apply: spd_psd; apply: spd_convex.
have E : I + J + J = (M + J) + (c *: J + (1 - c) *: I).
  by apply/matrixP => i j; rewrite /M !entE; mxring.
have H : \det (M + J) <= \det (I + J + J) by rewrite E; exact: det_spd_add.
have H' : \det M <= \det (M + J) by apply: det_spd_add => //; exact: spd_psd.
rewrite /generate_weight /forget; have two : 0 < 2%:R :> F by rewrite ltr0n.
apply: (@le_trans _ _ (1 - \det J / (2%:R * \det (M + J)))).
  have D2 : 0 < 2%:R * \det (M + J) by rewrite mulr_gt0.
  have -> : 1 - \det J / (2%:R * \det (M + J)) = (2%:R * \det (M + J) - \det J) / (2%:R * \det (M + J)).
    by rewrite mulrBl divff // gt_eqF.
  rewrite ler_pmul2r ?invr_gt0 //.
  by rewrite mulr_natl mulr2n addrAC ler_add2r ler_add2l.
rewrite ler_add2l ler_opp2 ler_pmul2l // lef_pinv ?posrE ?mulr_gt0 // ?ler_pmul2l //.
exact: lt_le_trans H.
Qed.

(** ** One detection information J throughout *)
Lemma information_step c I J (m z : 'cV[F]_n) P R : 0 <= c <= 1 -> spd I -> spd J ->
  invmx P = J + c *: (I - J) -> invmx R = J ->
  exists c', (0 <= c' <= c * forget I J) /\ spd (fuse_estimate (m, P) (z, R)).2 /\ invmx (fuse_estimate (m, P) (z, R)).2 = J + c' *: (I - J) /\
  (heading_low m -> heading_low z -> forall u, invmx P *m (m - z) = c *: u ->
    invmx (fuse_estimate (m, P) (z, R)).2 *m ((fuse_estimate (m, P) (z, R)).1 - z) = c' *: u).
Proof.
move=> c01 sI sJ EP ER; have sM := mix_spd c01 sI sJ.
case/andP: (weight_forget c01 sI sJ).
have EF : fuse_estimate (m, P) (z, R) =
    fused m (J + c *: (I - J)) z J (generate_weight (J + c *: (I - J)) J) by rewrite /fuse_estimate /fused EP ER.
rewrite EF EP {EF}; set M := J + _ in sM *; set w := generate_weight M J => w0 wf.
have /andP [_ w1] : 0 < w < 1 by exact: weight_bounds.
have w01 : 0 <= w <= 1 by rewrite !ltW.
have [CM CI] := fused_cov_inv m z sM sJ w01; have sC := fused_cov_spd m z sM sJ w01.
exists (w * c); case/andP: (c01) => c0 c1; split; last split=> //; last split.
- by apply/andP; split; [rewrite mulr_ge0 // ltW|rewrite mulrC ler_wpmul2l].
- by rewrite CI mix_step.
- move=> hm hz u Eu; rewrite (fused_mean_dev m z z sM sJ w01) !wrap_heading_below // subrr mulmx0 scaler0 addr0.
  by rewrite addrC addKr mulmxA mulVmx ?mul1mx ?Eu ?scalerA // spd_unit.
Qed.

Lemma information_run (ds : seq ('cV[F]_n * 'M[F]_n)) (e : 'cV[F]_n * 'M[F]_n) R : spd e.2 -> spd R ->
  (forall d, d \in ds -> d.2 = R) ->
  let I := invmx e.2 in let J := invmx R in
  exists c, (0 <= c <= forget I J ^+ size ds) /\ spd (foldl (@fuse_estimate F n) e ds).2 /\
    invmx (foldl (@fuse_estimate F n) e ds).2 = J + c *: (I - J).
Proof.
move=> sE sR H I J; have sI : spd I by exact: spd_inv.
have sJ : spd J by exact: spd_inv.
have /andP [f0 f1] := forget_bounds sI sJ.
elim/last_ind: ds H => [|ds d IH] H.
  by exists 1; rewrite /= ler01 lexx scale1r addrC subrK.
have [|c [/andP [c0 cb] [sP EP]]] := IH; first by move=> d' h; apply: H; rewrite mem_rcons inE h orbT.
have c1 : c <= 1 by apply: le_trans cb _; rewrite exprn_ile1 // ltW.
have Ed : d.2 = R by apply: H; rewrite mem_rcons inE eqxx.
rewrite -cats1 foldl_cat size_cat addn1 /=; case: (foldl _ _ _) sP EP => m P /= sP EP.
case: d Ed {H} => z R' /= ER; subst R'.
have c01 : 0 <= c <= 1 by rewrite c0.
have [c' [/andP [c0' cb'] [sP' [EP' _]]]] := information_step m z c01 sI sJ EP (erefl _).
exists c'; split=> //; rewrite c0' /=; apply: le_trans cb' _.
by rewrite exprSr ler_pmul2r.
Qed.

Lemma mean_run k (e : 'cV[F]_n * 'M[F]_n) z R : spd e.2 -> spd R -> heading_low z ->
  (forall j, (j < k)%N -> heading_low (iter j (fun e => fuse_estimate e (z, R)) e).1) ->
  let I := invmx e.2 in let J := invmx R in
  let f := iter k (fun e => fuse_estimate e (z, R)) e in
  exists c, (0 <= c <= forget I J ^+ k) /\ spd f.2 /\
    invmx f.2 = J + c *: (I - J) /\ invmx f.2 *m (f.1 - z) = c *: (I *m (e.1 - z)).
Proof.
move=> sE sR hz H I J; have sI : spd I by exact: spd_inv.
have sJ : spd J by exact: spd_inv.
have /andP [f0 f1] := forget_bounds sI sJ.
elim: k H => [|k IH] H /=.
  by exists 1; rewrite /= ler01 lexx !scale1r addrC subrK.
have [|c [/andP [c0 cb] [sP [EP EM]]]] := IH; first by move=> j h; apply: H; exact: ltnW.
have c1 : c <= 1 by apply: le_trans cb _; rewrite exprn_ile1 // ltW.
have hm := H k (ltnSn k).
case: (iter k _ _) hm sP EP EM => m P /= hm sP EP EM.
have c01 : 0 <= c <= 1 by rewrite c0.
have [c' [/andP [c0' cb'] [sP' [EP' EM']]]] := information_step m z c01 sI sJ EP (erefl _).
exists c'; split; first by rewrite c0' /=; apply: le_trans cb' _; rewrite exprSr ler_pmul2r.
by split=> //; split=> //; exact: EM'.
Qed.

(** ** Equal covariances *)
Lemma equal_step (m z : 'cV[F]_n) P : spd P -> heading_low m -> heading_low z ->
  fuse_estimate (m, P) (z, P) = (2%:R^-1 *: (m + z), P).
Proof.
move=> sP hm hz; have si := spd_inv sP; have ui := spd_unit si.
have h1 : 1 - 2%:R^-1 = 2%:R^-1 :> F by rewrite {1}(splitr 1) mul1r addrK.
have EC : invmx (2%:R^-1 *: invmx P + (1 - 2%:R^-1) *: invmx P) = P.
  by rewrite -scalerDl addrC subrK scale1r invmxK.
rewrite /fuse_estimate /compute_covariance_intersection /= weight_self // EC !wrap_heading_below //.
congr (_, _).
rewrite h1 -!scalemxAl -scalerDr -mulmxDr -scalemxAr mulmxA mulmxV ?mul1mx //.
exact: spd_unit.
Qed.
Lemma average_low (m z : 'cV[F]_n) : heading_low m -> heading_low z -> heading_low (2%:R^-1 *: (m + z)).
Proof.
move=> hm hz i Hi; rewrite scalemxE addmxE mulrC ler_pdivr_mulr ?ltr0n // mulr_natr mulr2n.
by apply: ler_add; [exact: hm|exact: hz].
Qed.
Lemma average_run (zs : seq 'cV[F]_n) (m : 'cV[F]_n) P : spd P -> heading_low m -> (forall z, z \in zs -> heading_low z) ->
  let f := foldl (@fuse_estimate F n) (m, P) [seq (z, P) | z <- zs] in
  heading_low f.1 /\
  f = (2%:R^-1 ^+ size zs *: m + \sum_(i < size zs) 2%:R^-1 ^+ (size zs - i) *: nth 0 zs i, P).
Proof.
move=> sP hm; elim/last_ind: zs => [|zs z IH] H /=.
  by split=> //; rewrite big_ord0 expr0 scale1r addr0.
have hz : heading_low z by apply: H; rewrite mem_rcons inE eqxx.
have [|hf Ef] := IH; first by move=> z' h; apply: H; rewrite mem_rcons inE h orbT.
have FR : foldl (@fuse_estimate F n) (m, P) [seq (z0, P) | z0 <- rcons zs z] =
    (2%:R^-1 *: ((foldl (@fuse_estimate F n) (m, P) [seq (z0, P) | z0 <- zs]).1 + z), P).
  rewrite map_rcons -cats1 foldl_cat; set g := foldl _ _ _ in hf Ef *.
  by change (fuse_estimate g (z, P) = (2%:R^-1 *: (g.1 + z), P)); rewrite Ef in hf *; exact: equal_step.
rewrite FR; split; first exact: (average_low hf hz).
rewrite Ef [in LHS]/fst.
congr (_, _); rewrite size_rcons big_ord_recr /= nth_rcons ltnn eqxx subSnn expr1 addrA scalerDr; congr (_ + _).
rewrite scalerDr scalerA -exprS; congr (_ + _); rewrite scaler_sumr; apply: eq_bigr => i _.
by rewrite scalerA -exprS nth_rcons ltn_ord subSn // ltnW.
Qed.

(** ** In between *)
Lemma between_run (ds : seq ('cV[F]_n * 'M[F]_n)) (e : 'cV[F]_n * 'M[F]_n) lo hi v : spd e.2 ->
  (forall d, d \in ds -> spd d.2) -> (forall d, d \in e :: ds -> lo <= qf (invmx d.2) v <= hi) ->
  let f := foldl (@fuse_estimate F n) e ds in spd f.2 /\ lo <= qf (invmx f.2) v <= hi.
Proof.
move=> sE; elim/last_ind: ds => [|ds d IH] H B /=; first by split=> //; apply: B; rewrite inE eqxx.
have sd : spd d.2 by apply: H; rewrite mem_rcons inE eqxx.
have /andP [bl bh] : lo <= qf (invmx d.2) v <= hi by apply: B; rewrite inE mem_rcons inE eqxx orbT.
have [| |sf /andP [fl fh]] := IH.
- by move=> d' h; apply: H; rewrite mem_rcons inE h orbT.
- by move=> d'; rewrite inE => /orP [h|h]; apply: B; rewrite inE ?h // mem_rcons inE h !orbT.
rewrite -cats1 foldl_cat /=; set f := foldl _ _ _ in sf fl fh *.
have si := spd_inv sf; have sdi := spd_inv sd.
have /andP [w0 w1] := weight_bounds si sdi.
have w01 : 0 <= generate_weight (invmx f.2) (invmx d.2) <= 1 by rewrite !ltW.
split; first exact: (fused_cov_spd f.1 d.1 si sdi w01).
have /andP [g1 g2] := information_between f.1 d.1 v si sdi w01.
apply/andP; split.
  by apply: le_trans g1; rewrite le_minr fl bl.
by apply: le_trans g2 _; rewrite le_maxl fh bh.
Qed.
End Matrices.

(** ** Objects *)
Section Objects.
Context (n : nat) (S : Type) (to : S -> 'cV[R]_n) (from : 'cV[R]_n -> S).
Implicit Types t d : dyn_obj R S 'M[R]_n.
(** Covariances do not depend on the states. *)
Lemma fold_cov (ds : seq (dyn_obj R S 'M[R]_n)) t m :
  o_cov (foldl (ci_fuse to from) t ds) = (foldl (@fuse_estimate _ n) (m, o_cov t) [seq (0, o_cov d) | d <- ds]).2.
Proof. by elim: ds t m => [//|d ds IH] t m /=; rewrite (IH _ (fuse_estimate (m, o_cov t) (0, o_cov d)).1). Qed.

Lemma object_run (ds : seq (dyn_obj R S 'M[R]_n)) t (Q : 'M[R]_n) : spd (o_cov t) -> spd Q ->
  List.Forall (fun d => o_cov d = Q) ds ->
  let I := invmx (o_cov t) in let J := invmx Q in let f := foldl (ci_fuse to from) t ds in
  exists c, (0 <= c <= forget I J ^+ size ds) /\ spd (o_cov f) /\ invmx (o_cov f) = J + c *: (I - J).
Proof.
move=> st sQ H I J f; rewrite /f (fold_cov ds t 0).
have K (x : 'cV[R]_n * 'M[R]_n) : x \in [seq (0 : 'cV[R]_n, o_cov d) | d <- ds] -> x.2 = Q.
  elim: H => [//|d ds' E _ IH]; rewrite /= inE => /orP [/eqP ->|]; [exact: E|exact: IH].
by have := information_run (e := (0, o_cov t)) st sQ K; rewrite size_map.
Qed.
End Objects.
Lemma fuse_all_ctrv (ds : seq ctrv_obj) (t : ctrv_obj) :
  fuse_all (Ctrv t) (map (@Ctrv _ _) ds) = Ok (Ctrv (foldl ctrv_fuse t ds)).
Proof. by rewrite /fuse_all; elim: ds t => [//|d ds IH] t; rewrite /= IH. Qed.
Lemma fuse_all_ctra (ds : seq ctra_obj) (t : ctra_obj) :
  fuse_all (Ctra t) (map (@Ctra _ _) ds) = Ok (Ctra (foldl ctra_fuse t ds)).
Proof. by rewrite /fuse_all; elim: ds t => [//|d ds IH] t; rewrite /= IH. Qed.
