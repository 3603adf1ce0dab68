(** The real numbers of Coq's standard library as a MathComp real closed field,
    so that MathComp's matrices can be used over them.  Nothing here depends on
    the modelled code. *)
From Coq Require Import Reals Lra Epsilon ClassicalEpsilon.
From mathcomp Require Import all_ssreflect all_algebra.
Set Implicit Arguments.
Unset Strict Implicit.
Unset Printing Implicit Defensive.
Import GRing.Theory.

Local Open Scope R_scope.

Definition eqr (x y : R) : bool := if Req_EM_T x y then true else false.
Lemma eqrP : Equality.axiom eqr.
Proof. by move=> x y; rewrite /eqr; case: Req_EM_T => h; constructor. Qed.
Canonical R_eqMixin := EqMixin eqrP.
Canonical R_eqType := EqType R R_eqMixin.

(** Choice of a witness, by Hilbert's epsilon. *)
Definition pickR (P : pred R) (_ : nat) : option R :=
  let x := epsilon (inhabits 0) (fun y => P y) in
  if P x then Some x else None.
Lemma pickR_some P n x : pickR P n = Some x -> P x.
Proof. by rewrite /pickR; case: (boolP (P _)) => // Px [<-]. Qed.
Lemma pickR_ex (P : pred R) : (exists x : R, P x) -> exists n, pickR P n.
Proof.
move=> ex; exists 0%N; rewrite /pickR.
by rewrite (epsilon_spec (inhabits 0) (fun y => P y) ex).
Qed.
Lemma pickR_ext (P Q : pred R) : P =1 Q -> pickR P =1 pickR Q.
Proof.
move=> PEQ n; rewrite /pickR.
suff -> : P = Q by [].
exact: FunctionalExtensionality.functional_extensionality PEQ.
Qed.
Definition R_choiceMixin : choiceMixin R := Choice.Mixin pickR_some pickR_ex pickR_ext.
Canonical R_choiceType := ChoiceType R R_choiceMixin.

Fact RplusA : associative Rplus.
Proof. by move=> *; rewrite Rplus_assoc. Qed.
Definition R_zmodMixin := ZmodMixin RplusA Rplus_comm Rplus_0_l Rplus_opp_l.
Canonical R_zmodType := ZmodType R R_zmodMixin.

Fact RmultA : associative Rmult.
Proof. by move=> *; rewrite Rmult_assoc. Qed.
Fact R1_neq_0 : R1 != R0.
Proof. by apply/eqP/R1_neq_R0. Qed.
Definition R_ringMixin :=
  RingMixin RmultA Rmult_1_l Rmult_1_r Rmult_plus_distr_r Rmult_plus_distr_l R1_neq_0.
Canonical R_ringType := RingType R R_ringMixin.
Canonical R_comRingType := ComRingType R Rmult_comm.

Definition Rinvx (r : R) : R := if r != 0 then / r else r.
Definition unit_R (r : R) : bool := r != 0.
Lemma RmultRinvx : {in unit_R, left_inverse 1 Rinvx Rmult}.
Proof.
move=> r; rewrite -topredE /unit_R /Rinvx /= => rNZ; rewrite rNZ.
by rewrite Rinv_l //; apply/eqP.
Qed.
Lemma RinvxRmult : {in unit_R, right_inverse 1 Rinvx Rmult}.
Proof.
move=> r; rewrite -topredE /unit_R /Rinvx /= => rNZ; rewrite rNZ.
by rewrite Rinv_r //; apply/eqP.
Qed.
Lemma intro_unit_R x y : y * x = 1 /\ x * y = 1 -> unit_R x.
Proof.
move=> [yx1 _]; apply/eqP => x0.
by move: yx1; rewrite x0 Rmult_0_r => /esym; apply: R1_neq_R0.
Qed.
Lemma Rinvx_out : {in predC unit_R, Rinvx =1 id}.
Proof. by move=> x; rewrite inE /= /Rinvx -if_neg => ->. Qed.
Definition R_unitRingMixin := UnitRingMixin RmultRinvx RinvxRmult intro_unit_R Rinvx_out.
Canonical R_unitRing := UnitRingType R R_unitRingMixin.
Canonical R_comUnitRingType := Eval hnf in [comUnitRingType of R].
Lemma R_idomainMixin (x y : R) : x * y = 0 -> (x == 0) || (y == 0).
Proof. by move=> /Rmult_integral [] ->; rewrite eqxx ?orbT. Qed.
Canonical R_idomainType := IdomainType R R_idomainMixin.
Lemma R_field_mixin : GRing.Field.mixin_of [unitRingType of R].
Proof. by done. Qed.
Definition R_fieldIdomainMixin := FieldIdomainMixin R_field_mixin.
Canonical R_fieldType := FieldType R R_field_mixin.

Definition Rleb (x y : R) : bool := if Rle_dec x y then true else false.
Definition Rltb (x y : R) : bool := if Rlt_dec x y then true else false.
Lemma RlebP x y : reflect (x <= y) (Rleb x y).
Proof. by rewrite /Rleb; case: Rle_dec => h; constructor. Qed.
Lemma RltbP x y : reflect (x < y) (Rltb x y).
Proof. by rewrite /Rltb; case: Rlt_dec => h; constructor. Qed.

Section Order.
Lemma R_le0_add x y : Rleb 0 x -> Rleb 0 y -> Rleb 0 (x + y).
Proof. by move=> /RlebP ? /RlebP ?; apply/RlebP; lra. Qed.
Lemma R_le0_mul x y : Rleb 0 x -> Rleb 0 y -> Rleb 0 (x * y).
Proof. by move=> /RlebP ? /RlebP ?; apply/RlebP; apply: Rmult_le_pos. Qed.
Lemma R_le0_anti x : Rleb 0 x -> Rleb x 0 -> x = 0.
Proof. by move=> /RlebP ? /RlebP ?; lra. Qed.
Lemma R_sub_ge0 x y : Rleb 0 (y - x) = Rleb x y.
Proof. by apply/RlebP/RlebP => h; lra. Qed.
Lemma R_le0_total x : Rleb 0 x || Rleb x 0.
Proof. by case: (RlebP 0 x) => //= h; apply/RlebP; lra. Qed.
Lemma R_lt_def x y : Rltb x y = (y != x) && Rleb x y.
Proof.
apply/RltbP/andP => [h|[/eqP h1 /RlebP h2]]; last lra.
by split; [apply/eqP; lra|apply/RlebP; lra].
Qed.
Lemma R_ge0_norm x : Rleb 0 x -> Rabs x = x.
Proof. by move=> /RlebP; exact: Rabs_pos_eq. Qed.
End Order.

Definition R_numMixin : realLeMixin R_idomainType :=
  @RealLeMixin R_idomainType Rleb Rltb Rabs R_le0_add R_le0_mul R_le0_anti R_sub_ge0
    R_le0_total Rabs_Ropp R_ge0_norm R_lt_def.
Canonical R_porderType := POrderType ring_display R R_numMixin.
Canonical R_latticeType := LatticeType R R_numMixin.
Canonical R_distrLatticeType := DistrLatticeType R R_numMixin.
Canonical R_orderType := OrderType R R_numMixin.
Canonical R_numDomainType := NumDomainType R R_numMixin.
Canonical R_normedZmodType := NormedZmodType R R R_numMixin.
Canonical R_numFieldType := [numFieldType of R].
Canonical R_realDomainType := [realDomainType of R].
Canonical R_realFieldType := [realFieldType of R].

(** Reflection between the two vocabularies. *)
Lemma RleP (x y : R) : reflect (x <= y) (x <= y)%O.
Proof. exact: RlebP. Qed.
Lemma RltP (x y : R) : reflect (x < y) (x < y)%O.
Proof. exact: RltbP. Qed.
Lemma RaddE (x y : R) : x + y = @GRing.add R_zmodType x y. Proof. by []. Qed.
Lemma RoppE (x : R) : - x = @GRing.opp R_zmodType x. Proof. by []. Qed.
Lemma RmulE (x y : R) : x * y = @GRing.mul R_ringType x y. Proof. by []. Qed.
Lemma RinvE (x : R) : x <> 0 -> / x = @GRing.inv R_unitRing x.
Proof. by move=> /eqP h; rewrite /GRing.inv /= /Rinvx h. Qed.

(** Polynomials are continuous, hence R is real closed. *)
Lemma continuity_poly (p : {poly R}) : continuity (fun x => (p.[x])%R).
Proof.
elim/poly_ind: p => [|p c IH].
  apply: (continuity_const (fun x => ((0 : {poly R}).[x])%R)).
  by move=> x y; rewrite !horner0.
have -> : (fun x => ((p * 'X + c%:P).[x])%R) = (fun x => (p.[x])%R * x + c).
  apply: FunctionalExtensionality.functional_extensionality => x.
  by rewrite hornerD hornerMX hornerC.
apply: (continuity_plus (fun x => (p.[x])%R * x) (fun _ => c)).
  apply: (continuity_mult (fun x => (p.[x])%R) id) => //.
  exact: derivable_continuous derivable_id.
exact: continuity_const.
Qed.

Lemma R_real_closed_axiom : Num.real_closed_axiom [numFieldType of R].
Proof.
move=> p a b /RleP ab /andP [/RleP pa /RleP pb].
have prod : (p.[a])%R * (p.[b])%R <= 0.
  have := Rmult_le_compat_r _ _ _ pb pa.
  by rewrite Rmult_0_l.
have [z [[az zb] pz]] := IVT_cor (fun x => (p.[x])%R) a b (continuity_poly p) ab prod.
exists z; first by apply/andP; split; apply/RleP.
by rewrite /root pz eqxx.
Qed.
Canonical R_rcfType := RcfType R R_real_closed_axiom.

(** The square root of the real closed field is the usual one. *)
Lemma sqrtrE (x : R) : 0 <= x -> sqrt x = Num.sqrt (x : R_rcfType).
Proof.
move=> x0; have s0 : (0%R <= (sqrt x : R))%O by apply/RleP; exact: sqrt_pos.
have sq : ((sqrt x : R_rcfType) ^+ 2 = x :> R_rcfType)%R by rewrite expr2; exact: sqrt_sqrt.
by rewrite -[in RHS]sq Num.Theory.sqrtr_sqr Num.Theory.ger0_norm.
Qed.
