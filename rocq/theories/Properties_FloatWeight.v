(** The fusion weight in single precision: property C92.  The model (FloatWeight.v)
    is of generate_weight for diagonal information matrices; [t] is the order in
    which the diagonal is multiplied up, about which nothing is assumed. *)
From Coq Require Import ZArith Reals Lra Lia List Permutation.
From Flocq Require Import Core IEEE754.BinarySingleNaN.
From mathcomp Require Import all_ssreflect all_algebra.
From Verif Require Import Float FloatDistance FloatWeight FloatWeightThms RealField CovInt FusionThms.
Import GRing.Theory.
Delimit Scope R_scope with coqR.
Delimit Scope Z_scope with coqZ.

(** Finite and positive floats *)
Definition pos32 (x : f32) : Prop := is_finite x = true /\ (0 < B2R x)%coqR.
(** The computed determinant of the sum *)
Notation det_sum t a b := (det32 t (fun i => f32_add (a i) (b i))).

Lemma order_in n t i : order_of n t -> In i (leaves t) <-> (i < n)%coq_nat.
Proof.
move=> H; split=> [Hi|Hi].
- by have := Permutation_in _ H Hi; rewrite in_seq => -[_].
- by apply: (Permutation_in _ (Permutation_sym H)); rewrite in_seq; lia.
Qed.
Lemma order_length n t : order_of n t -> length (leaves t) = n.
Proof. by move/Permutation_length; rewrite seq_length. Qed.

(** C92: for all positive diagonals, the computed weight is in [0, 1] if the
    computed determinant of the sum is positive and below 2^127; above that it
    is zero or NaN; if the determinant is zero or not finite, it is NaN. *)
Theorem C92_range n t (a b : nat -> f32) : order_of n t ->
  (forall i, (i < n)%coq_nat -> pos32 (a i) /\ pos32 (b i)) ->
  let s := det_sum t a b in let w := weight32 t a b in
  (is_finite s = true -> (0 < B2R s < bpow radix2 127)%coqR -> is_finite w = true /\ (0 <= B2R w <= 1)%coqR) /\
  (is_finite s = true -> (bpow radix2 127 <= B2R s)%coqR -> w = B754_nan \/ exists sign, w = B754_zero sign) /\
  (is_finite s = false \/ B2R s = 0%coqR -> w = B754_nan).
Proof.
move=> O H; apply: weight_cases => i /(order_in _ _ _ O) Hi; by case: (H i Hi).
Qed.
(** Entries from 2^k on, with (k+1) n at least 128, so 2^25 for five dimensions and
    2^21 for six, make it NaN ... *)
Theorem C92_overflow n t (a b : nat -> f32) (k : Z) : order_of n t ->
  (0 <= k)%coqZ -> (128 <= (k + 1) * Z.of_nat n)%coqZ ->
  (forall i, (i < n)%coq_nat -> is_finite (a i) = true /\ is_finite (b i) = true /\
     (bpow radix2 k <= B2R (a i))%coqR /\ (bpow radix2 k <= B2R (b i))%coqR) ->
  weight32 t a b = B754_nan.
Proof.
move=> O Hk Hn H; apply: (weight_overflow t a b k Hk); first by rewrite (order_length _ _ O).
by move=> i /(order_in _ _ _ O) Hi; apply: H.
Qed.
(** ... and so do those up to 2^-(k+1), with k n at least 150, so 2^-31 for five
    dimensions and 2^-26 for six. *)
Theorem C92_underflow n t (a b : nat -> f32) (k : Z) : order_of n t ->
  (0 <= k)%coqZ -> (150 <= k * Z.of_nat n)%coqZ ->
  (forall i, (i < n)%coq_nat -> pos32 (a i) /\ pos32 (b i) /\
     (B2R (a i) <= bpow radix2 (- (k + 1)))%coqR /\ (B2R (b i) <= bpow radix2 (- (k + 1)))%coqR) ->
  weight32 t a b = B754_nan.
Proof.
move=> O Hk Hn H; apply: (weight_underflow t a b k Hk); first by rewrite (order_length _ _ O).
- by move=> i /(order_in _ _ _ O) Hi; case: (H i Hi).
- by move=> i /(order_in _ _ _ O) Hi; case: (H i Hi) => _ [].
- by move=> i /(order_in _ _ _ O) Hi; case: (H i Hi) => _ [_].
Qed.
(** A NaN weight makes every entry of the combined information matrix NaN, whatever
    the two matrices are. *)
Theorem C92_spreads (x y : f32) : combined32 B754_nan x y = B754_nan.
Proof. reflexivity. Qed.
(** With a weight in [0, 1] the entries of the combined matrix do not overflow, if
    those of the two matrices are at most 2^126 in absolute value, and are the
    weighted averages up to 2^-22 times the bound. *)
Theorem C92_combined (w a b : f32) (k : Z) : (-119 <= k <= 126)%coqZ ->
  is_finite w = true -> is_finite a = true -> is_finite b = true -> (0 <= B2R w <= 1)%coqR ->
  (Rabs (B2R a) <= bpow radix2 k)%coqR -> (Rabs (B2R b) <= bpow radix2 k)%coqR ->
  is_finite (combined32 w a b) = true /\
  (Rabs (B2R (combined32 w a b) - (B2R w * B2R a + (1 - B2R w) * B2R b)) <= bpow radix2 (k - 22))%coqR.
Proof. exact: combined_accurate. Qed.
Print Assumptions C92_combined.
Print Assumptions C92_range.
Print Assumptions C92_overflow.
Print Assumptions C92_underflow.
Print Assumptions C92_spreads.

(** The exact diagonal matrix *)
Definition diagonal n (a : nat -> f32) : 'M[R]_n := diag_mx (\row_i (B2R (a i) : R)).

Lemma rprod_big (f : nat -> R) l : rprod (List.map f l) = (\prod_(i <- l) (f i : R_realFieldType))%R.
Proof. by elim: l => [|i l IH] /=; rewrite ?big_nil ?big_cons ?IH. Qed.
Lemma seq_iota m n : List.seq m n = iota m n.
Proof. by elim: n m => //= n IH m; rewrite IH. Qed.
Lemma det_diagonal n t (f : nat -> R) : order_of n t ->
  rprod (List.map f (leaves t)) = (\det (diag_mx (\row_(i < n) f i) : 'M[R_realFieldType]_n))%R.
Proof.
move=> O; rewrite det_diag.
rewrite (rprod_perm _ _ (Permutation_map f O)) rprod_big seq_iota -[iota 0 n]/(iota 0 n).
have -> : iota 0 n = index_iota 0 n by rewrite /index_iota subn0.
by rewrite big_mkord; apply: eq_bigr => i _; rewrite mxE.
Qed.

(** With entries between 2^-20 and 2^20 (standard deviations between a thousandth
    and a thousand) and up to six dimensions, the weight is within 2^-19 of the exact
    one. *)
Theorem C92_accuracy n t (a b : nat -> f32) : order_of n t -> (n <= 6)%coq_nat ->
  (forall i, (i < n)%coq_nat -> is_finite (a i) = true /\ is_finite (b i) = true /\
     (bpow radix2 (-20) <= B2R (a i) <= bpow radix2 20)%coqR /\
     (bpow radix2 (-20) <= B2R (b i) <= bpow radix2 20)%coqR) ->
  is_finite (weight32 t a b) = true /\
  (Rabs (B2R (weight32 t a b) - @generate_weight R_realFieldType n (diagonal n a) (diagonal n b))
     <= bpow radix2 (-19))%coqR.
Proof.
move=> O Hn H.
have [|i /(order_in _ _ _ O) Hi|F [S0 E]] := weight_accurate t a b.
- by rewrite (order_length _ _ O).
- by have [A [B [C D]]] := H i Hi.
split=> //; move: S0 E; rewrite !(det_diagonal n t _ O).
set S := (\det _)%R => S0; set D2 := (\det _)%R; set D1 := (\det _)%R.
have ES : S = (\det (diagonal n a + diagonal n b : 'M[R_realFieldType]_n))%R.
  rewrite /S /diagonal -raddfD; congr (\det (diag_mx _))%R; by apply/rowP => i; rewrite !mxE.
have -> : @generate_weight R_realFieldType n (diagonal n a) (diagonal n b) = ((S - D2 + D1) / (2%:R * S))%R.
  by rewrite ES.
have T : (2%:R : R_realFieldType)%R = 2%coqR :> R by rewrite natR /=; lra.
have -> : ((S - D2 + D1) / (2%:R * S))%R = ((S - D2 + D1) / (2 * S))%coqR :> R.
  by rewrite T /Rdiv RinvE //; move=> K; have : (2 * S = 0)%coqR by []; lra.
by [].
Qed.
Print Assumptions C92_accuracy.

(** Left to right, five dimensions *)
Definition in_order : tree := Node (Node (Node (Node (Leaf 0) (Leaf 1)) (Leaf 2)) (Leaf 3)) (Leaf 4).
Example C92_case :
  order_of 5 in_order /\
  (* equal matrices have weight one half, *)
  B2SF (weight32 in_order (fun _ => f32_of_Z 3) (fun _ => f32_of_Z 3)) = SpecFloat.S754_finite false 8388608 (-24) /\
  (* but not if their entries are large *)
  weight32 in_order (fun _ => f32_of_Z (2 ^ 25)) (fun _ => f32_of_Z (2 ^ 25)) = B754_nan /\
  (* the average of 3 and 5 is 4 *)
  B2SF (combined32 (f32_div (f32_of_Z 1) (f32_of_Z 2)) (f32_of_Z 3) (f32_of_Z 5)) = B2SF (f32_of_Z 4).
Proof. by split; [exact: Permutation_refl|split; [|split]; vm_compute]. Qed.
