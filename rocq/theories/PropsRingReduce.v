(* Property C60: null spaces and row reduction of matrices over group algebras. *)
From mathcomp Require Import all_ssreflect all_algebra zify.
From Verif Require Import LinAlg RowReduce Classical Symplectic Quantum PermGroup Abelian GroupRing RingArray RingReduce.
From Verif Require Import PropsClassical PropsGroup PropsGroupRing PropsLifted.
Set Implicit Arguments.
Unset Strict Implicit.
Unset Printing Implicit Defensive.
Import GRing.Theory.
Local Open Scope ring_scope.

(* r is the sum of left multiples of the rows of M *)
Definition left_span (F : fieldType) (G : group) (nc : nat) (M : rarr F) (r : seq (rmem F)) : Prop :=
  exists2 c : nat -> rmem F, forall i, rm_ok G (c i) &
    forall j g, (j < nc)%N -> g \in G -> coef (nth [::] r j) g = \sum_(i < size M) coef (rm_mul (c i) (rent M i j)) g.
(* a row of nc members of the group algebra *)
Definition ring_vec (F : fieldType) (G : group) (nc : nat) (r : seq (rmem F)) : bool := (size r == nc) && all (rm_ok G) r.

Lemma left_spanP (F : fieldType) (G : group) n nc (M : rarr F) r : grp_ok n G -> rwf G nc M -> ring_vec G nc r ->
  left_span G nc M r <-> lspan G nc M r.
Proof.
move=> gG w orr; have oM i j : (i < size M)%N -> rm_ok G (rent M i j) by move=> hi; apply/(okr_ok j)/(rwf_okr w)/mem_nth.
have rr := regr F gG; split=> [[c oc h] | [c [oc h]]]; exists c => //.
  split=> // j hj; rewrite (@coef_rmx F G n gG (size M) _ (fun i => rm_mul (c i) (rent M i j))).
  - by apply: eq_bigr => i _; rewrite (lift_mul gG rr) ?oM.
  - exact: okr_ok orr.
  - by move=> k hk; rewrite (ok_mul gG) ?oM.
  - by move=> i hi; rewrite h ?mem_nth.
move=> j g hj gg; rewrite (reg_coef gG) ?(okr_ok j orr) //.
have h1 := gindex_lt gg; have h2 := gindex_lt (g_one gG).
have /matrixP /(_ (Ordinal h1) (Ordinal h2)) := h j hj; rewrite mxE summxE => ->; apply: eq_bigr => i _.
by rewrite -(lift_mul gG rr) ?oM // mxE /= (reg_coef gG) ?(ok_mul gG) ?oM.
Qed.

(* the rows of null_space() are annihilated by the matrix: self @ null_space().T vanishes *)
Theorem C60_null_space (F : fieldType) (G : group) n nc (A : rarr F) : grp_ok n G -> rwf G nc A ->
  rwf G nc (ra_null_space G nc A) /\
  forall r i g, r \in ra_null_space G nc A -> (i < size A)%N -> g \in G ->
    \sum_(j < nc) coef (rm_mul (rent A i j) (rm_T (nth [::] r j))) g = 0.
Proof.
move=> gG w; have wN := null_space_wf gG w; split=> // r i g rin hi gg; have := null_space_annih gG w rin hi.
have orr := rwf_okr wN rin; have rr := regr F gG.
have oA j : rm_ok G (rent A i j) by apply/(okr_ok j)/(rwf_okr w)/mem_nth.
have oT j : rm_ok G (rm_T (nth [::] r j)) by rewrite (ok_T gG) ?(okr_ok j orr).
have h1 := gindex_lt gg; have h2 := gindex_lt (g_one gG).
move=> /matrixP /(_ (Ordinal h1) (Ordinal h2)); rewrite [RHS]mxE summxE => h; rewrite -[RHS]h; apply: eq_bigr => j _.
by rewrite -(lift_T gG rr) ?(okr_ok j orr) // -(lift_mul gG rr) // mxE /= (reg_coef gG) ?(ok_mul gG).
Qed.

(* over every group the rows of the reduced matrix lie in the row space *)
Theorem C60_reduced_rows (F : fieldType) (G : group) n nc (M : rarr F) : grp_ok n G -> rwf G nc M ->
  rwf G nc (ra_row_reduce G nc M) /\ forall r, r \in ra_row_reduce G nc M -> left_span G nc M r.
Proof.
move=> gG w; have [wR h] := row_reduceP gG w; split=> // r rin; apply/(left_spanP gG w); first exact: rwf_okr rin.
exact: h.
Qed.

(* over an abelian group (whose members are listed from the identity on) the row space is the same *)
Theorem C60_row_space_abelian (F : fieldType) (G : group) n nc (M : rarr F) : grp_ok n G -> head [::] G = pid n ->
  {in G &, forall p q, pmul p q = pmul q p} -> rwf G nc M ->
  forall r, ring_vec G nc r -> left_span G nc (ra_row_reduce G nc M) r <-> left_span G nc M r.
Proof.
move=> gG hd ab w r orr; have [wR h] := row_reduceP gG w; have h' := row_reduce_full gG ab hd w.
by split=> /(left_spanP gG _ orr) h1; apply/(left_spanP gG) => //; apply: (lspan_trans gG) _ (h1 _).
Qed.
(* ... and null_space() generates all the vectors that the matrix annihilates *)
Theorem C60_null_space_complete (F : fieldType) (G : group) n nc (A : rarr F) : grp_ok n G -> head [::] G = pid n ->
  {in G &, forall p q, pmul p q = pmul q p} -> rwf G nc A -> forall r, ring_vec G nc r ->
  (forall i g, (i < size A)%N -> g \in G -> \sum_(j < nc) coef (rm_mul (rent A i j) (rm_T (nth [::] r j))) g = 0) ->
  left_span G nc (ra_null_space G nc A) r.
Proof.
move=> gG hd ab w r orr h; apply/(left_spanP gG (null_space_wf gG w) orr).
apply: (null_space_complete gG ab hd w) => // i hi; have rr := regr F gG.
have oA j : rm_ok G (rent A i j) by apply/(okr_ok j)/(rwf_okr w)/mem_nth.
have oT j : rm_ok G (rm_T (nth [::] r j)) by rewrite (ok_T gG) ?(okr_ok j orr).
transitivity (\sum_(j < nc) mx (size G) (size G) (rm_lift (size G) (regular_lift F G) (rm_mul (rent A i j) (rm_T (nth [::] r j))))).
  by apply: eq_bigr => j _; rewrite (lift_mul gG rr) // (lift_T gG rr) // (okr_ok j orr).
rewrite -(@coef_rmx F G n gG nc [::] (fun j => rm_mul (rent A i j) (rm_T (nth [::] r j)))) ?(rmx0 F gG) //.
- by move=> k hk; rewrite (ok_mul gG).
- by move=> k hk; rewrite h ?mem_nth.
Qed.

(* finding: over a nonabelian group rows are lost, because the test for dependent rows looks at right multiples *)
Definition s3x1 : rmem F2 := rm_make [:: (nth [::] S3 0, 1); (nth [::] S3 3, 1)].
Definition s3M : rarr F2 := [:: [:: s3x1]; [:: rm_mulg s3x1 (nth [::] S3 1)]].
Theorem C60_row_space_nonabelian_refuted : exists (G : group) n nc (M : rarr F2) r,
  [/\ grp_ok n G, head [::] G = pid n, rwf G nc M, r \in M & ~ left_span G nc (ra_row_reduce G nc M) r].
Proof.
have gG := ex_S3; exists S3, 3%N, 1%N, s3M, (nth [::] s3M 1); split; [exact: ex_S3 | by [] | by vm_compute | by vm_compute |].
have szR : size (ra_row_reduce S3 1 s3M) == 1%N by vm_compute.
have o1 : rm_ok S3 (rent (ra_row_reduce S3 1 s3M) 0 0) by vm_compute.
have eR : rm_eq (rent (ra_row_reduce S3 1 s3M) 0 0) s3x1 by vm_compute.
have o2 : rm_ok S3 s3x1 by vm_compute.
move: szR o1 eR; move: (ra_row_reduce S3 1 s3M) => R /eqP szR o1 eR [c oc h]; pose s := nth [::] S3 3.
have e g : g \in S3 -> coef (nth [::] (nth [::] s3M 1) 0) g = coef (rm_mul (c 0%N) s3x1) g.
  move=> gg; rewrite (h 0%N g isT gg) szR big_ord_recl big_ord0 addr0 /=.
  rewrite (coef_mul gG (oc 0%N) o1 gg) (coef_mul gG (oc 0%N) o2 gg); apply: eq_big_seq => k kG; congr (_ * _).
  by apply: (rm_eqP o1 o2 eR); rewrite (g_mul gG) ?(g_inv gG).
(* every left multiple of 1 + s is invariant under multiplication with s from the right *)
have inv g : g \in S3 -> coef (rm_mul (c 0%N) s3x1) g = coef (rm_mul (c 0%N) s3x1) (pmul g s).
  move=> gg; have sG : s \in S3 by []; rewrite (coef_mul gG (oc 0%N) o2 gg) (coef_mul gG (oc 0%N) o2 (g_mul gG gg sG)); apply: eq_big_seq => k kG; congr (_ * _).
  have : pmul (pinv k) g \in S3 by rewrite (g_mul gG) ?(g_inv gG).
  have -> : pmul (pinv k) (pmul g s) = pmul (pmul (pinv k) g) s.
    by apply: (@pmulA 3); apply: (g_valid gG); rewrite ?(g_inv gG).
  move: (pmul (pinv k) g) => t; have : all (fun t => coef s3x1 t == coef s3x1 (pmul t s)) S3 by vm_compute.
  by move/allP => hh /hh /eqP.
by have := inv (nth [::] S3 1) isT; rewrite -!e.
Qed.

(* a sum over a list that can be computed *)
Definition sumof (F : fieldType) (T : Type) (s : seq T) (f : T -> F) : F := foldr (fun x a => f x + a) 0 s.
Lemma sumofE (F : fieldType) (T : Type) (s : seq T) (f : T -> F) : sumof s f = \sum_(x <- s) f x.
Proof. by elim: s => [|x s IH]; rewrite ?big_nil ?big_cons //= IH. Qed.
(* weights of the coefficients that sum to zero for every left translate of every row do so on the whole row space *)
Lemma left_span_weight (F : fieldType) (G : group) n nc (M : rarr F) (W : nat -> seq nat -> F) r : grp_ok n G -> rwf G nc M ->
  (forall i k, (i < size M)%N -> k \in G ->
     \sum_(j < nc) \sum_(h <- G) W j h * coef (rent M i j) (pmul (pinv k) h) = 0) ->
  left_span G nc M r -> \sum_(j < nc) \sum_(h <- G) W j h * coef (nth [::] r j) h = 0.
Proof.
move=> gG w hW [c oc h].
have oM i j : (i < size M)%N -> rm_ok G (rent M i j) by move=> hi; apply/(okr_ok j)/(rwf_okr w)/mem_nth.
transitivity (\sum_(i < size M) \sum_(k <- G) coef (c i) k *
  (\sum_(j < nc) \sum_(h <- G) W j h * coef (rent M i j) (pmul (pinv k) h))); last first.
  by rewrite big1 // => i _; rewrite big_seq big1 // => k kG; rewrite hW ?mulr0.
transitivity (\sum_(j < nc) \sum_(h <- G) \sum_(i < size M) \sum_(k <- G)
   coef (c i) k * (W j h * coef (rent M i j) (pmul (pinv k) h))).
  apply: eq_bigr => j _; apply: eq_big_seq => g gg; rewrite h // mulr_sumr; apply: eq_bigr => i _.
  rewrite (coef_mul gG) ?oM // mulr_sumr; apply: eq_bigr => k _; by rewrite mulrCA.
rewrite (eq_bigr (fun j : 'I_nc => \sum_(i < size M) \sum_(h <- G) \sum_(k <- G)
   coef (c i) k * (W j h * coef (rent M i j) (pmul (pinv k) h)))); last by move=> j _; rewrite exchange_big.
rewrite exchange_big; apply: eq_bigr => i _.
rewrite (eq_bigr (fun j : 'I_nc => \sum_(k <- G) \sum_(h <- G)
   coef (c i) k * (W j h * coef (rent M i j) (pmul (pinv k) h)))); last by move=> j _; rewrite exchange_big.
rewrite exchange_big; apply: eq_bigr => k _; rewrite mulr_sumr; apply: eq_bigr => j _; by rewrite mulr_sumr.
Qed.

(* finding: over a nonabelian group null_space() does not generate all the vectors that the matrix annihilates *)
Definition s3el (bs : seq nat) : rmem F2 := rm_make [seq (nth [::] S3 b, 1) | b <- bs].
Definition s3N : rarr F2 := [:: [:: s3el [:: 2%N; 5%N]; s3el [:: 2%N; 3%N; 4%N]]; [:: s3el [:: 0%N; 1%N; 2%N]; rm_zero F2]].
Definition s3v : seq (rmem F2) := [:: rm_zero F2; s3el [:: 0%N; 1%N; 3%N; 4%N]].
Definition s3w (j : nat) (h : seq nat) : F2 :=
  if h \in [seq nth [::] S3 b | b <- if j == 0%N then [:: 0%N] else [:: 4%N; 5%N]] then 1 else 0.
Theorem C60_null_space_nonabelian_refuted : exists (G : group) n nc (A : rarr F2) r,
  [/\ grp_ok n G, head [::] G = pid n, rwf G nc A & ring_vec G nc r] /\
  (forall i g, (i < size A)%N -> g \in G -> \sum_(j < nc) coef (rm_mul (rent A i j) (rm_T (nth [::] r j))) g = 0) /\
  ~ left_span G nc (ra_null_space G nc A) r.
Proof.
have gG := ex_S3; exists S3, 3%N, 2%N, s3N, s3v; split; first by split; [exact: ex_S3 | by [] | by vm_compute | by vm_compute].
split=> [i g hi gg | ].
  rewrite 2!big_ord_recl big_ord0 addr0 /=; apply/eqP.
  have : all (fun i => all (fun g => coef (rm_mul (rent s3N i 0) (rm_T (nth [::] s3v 0))) g +
     coef (rm_mul (rent s3N i 1) (rm_T (nth [::] s3v 1))) g == 0) S3) (iota 0 2) by vm_compute.
  by move=> /allP /(_ i); rewrite mem_iota => /(_ hi) /allP /(_ g gg).
have wR : rwf S3 2 (ra_null_space S3 2 s3N) by vm_compute.
have szR : size (ra_null_space S3 2 s3N) == 2%N by vm_compute.
have c0 : all (fun i => all (fun k => sumof S3 (fun h => s3w 0 h * coef (rent (ra_null_space S3 2 s3N) i 0) (pmul (pinv k) h)) +
   sumof S3 (fun h => s3w 1 h * coef (rent (ra_null_space S3 2 s3N) i 1) (pmul (pinv k) h)) == 0) S3) (iota 0 2) by vm_compute.
have c1 : sumof S3 (fun h => s3w 0 h * coef (nth [::] s3v 0) h) + sumof S3 (fun h => s3w 1 h * coef (nth [::] s3v 1) h) != 0
  by vm_compute.
move: wR szR c0; move: (ra_null_space S3 2 s3N) => R wR /eqP szR c0 sp.
move/negP: c1; apply; apply/eqP.
have := @left_span_weight F2 S3 3 2 R s3w s3v gG wR _ sp.
rewrite 2!big_ord_recl big_ord0 addr0 -!sumofE; apply=> i k; rewrite szR => hi kG.
rewrite 2!big_ord_recl big_ord0 addr0 -!sumofE; apply/eqP; move/allP: c0 => /(_ i); rewrite mem_iota => /(_ hi).
by move=> /allP /(_ k kG).
Qed.

(* finding: the promise that every returned row has a column where it is 1 and the other rows are 0, or has no invertible
   entry, is broken: the second pass over the rows works on a copy *)
Definition echelon (F : fieldType) (G : group) n nc (M : rarr F) : Prop :=
  forall i, (i < size M)%N ->
    (exists2 j, (j < nc)%N & rm_eq (rent M i j) (rm_one F n) /\
       forall k, (k < size M)%N -> k != i -> rm_eq (rent M k j) (rm_zero F)) \/
    (forall j y, (j < nc)%N -> rm_ok G y -> ~~ rm_eq (rm_mul (rent M i j) y) (rm_one F n)).
Definition c3one : rmem F2 := rm_one F2 3.
Definition c3f : rmem F2 := rm_make [seq (g, 1) | g <- ab3].
Definition c3e : rmem F2 := rm_make [seq (g, 1) | g <- behead ab3].
Definition c3M : rarr F2 := [:: [:: c3e; c3f]; [:: c3one; c3one]].
Theorem C60_echelon_refuted : exists (G : group) n nc (M : rarr F2),
  [/\ grp_ok n G, rwf G nc M, (0 < size (ra_row_reduce G nc M))%N & ~ echelon G n nc (ra_row_reduce G nc M)].
Proof.
exists ab3, 3%N, 2%N, c3M; split; [by apply: grp_okP; vm_compute | by vm_compute | by vm_compute | move=> /(_ 1%N)].
rewrite (_ : size (ra_row_reduce ab3 2 c3M) = 2%N); last by apply/eqP; vm_compute.
move=> /(_ isT) [[j hj [h1 h2]] | h].
  move: hj h1 (h2 0%N isT isT); rewrite !ltnS leq_eqVlt ltnS leqn0 => /orP [] /eqP ->.
    by move=> _; apply/negP; vm_compute.
  by move=> hz; exfalso; move: hz; apply/negP; vm_compute.
have o : rm_ok ab3 c3one by vm_compute.
by move: (h 1%N c3one isT o); apply/negP; vm_compute.
Qed.

(* finding: the promise that the returned rows are linearly independent is broken too: a row with a pivot that is not
   invertible may have another returned row as a multiple *)
Definition c3N : rarr F2 := [:: [:: c3e; c3f]; [:: rm_zero F2; c3f]].
Theorem C60_independent_refuted : exists (G : group) n nc (M : rarr F2) r,
  [/\ grp_ok n G, rwf G nc M, ra_row_reduce G nc M = [:: nth [::] (ra_row_reduce G nc M) 0; r],
      has (@rm_bool F2) r & left_span G nc [:: nth [::] (ra_row_reduce G nc M) 0] r].
Proof.
exists ab3, 3%N, 2%N, c3N, (nth [::] (ra_row_reduce ab3 2 c3N) 1).
split; [by apply: grp_okP; vm_compute | by vm_compute | | by vm_compute |].
  have : size (ra_row_reduce ab3 2 c3N) == 2%N by vm_compute.
  by case: (ra_row_reduce ab3 2 c3N) => [|a [|b []]].
exists (fun _ => c3f) => [i | j g hj gg]; first by vm_compute.
rewrite big_ord_recl big_ord0 addr0.
have : all (fun j => all (fun g => coef (nth [::] (nth [::] (ra_row_reduce ab3 2 c3N) 1) j) g ==
   coef (rm_mul c3f (rent [:: nth [::] (ra_row_reduce ab3 2 c3N) 0] 0 j)) g) ab3) (iota 0 2) by vm_compute.
by move=> /allP /(_ j); rewrite mem_iota => /(_ hj) /allP /(_ g gg) /eqP.
Qed.

(* non-vacuity: the array [[e, f]] over F_2[Z_3] with e f = 0 has two null vectors, and reduction changes an array *)
Example ex_C60 : [/\ grp_ok 3 ab3, head [::] ab3 = pid 3, {in ab3 &, forall p q, pmul p q = pmul q p} & rwf ab3 2 c3M].
Proof.
have g : grp_ok 3 ab3 by apply: grp_okP; vm_compute.
split=> //.
have : all (fun p => all (fun q => pmul p q == pmul q p) ab3) ab3 by vm_compute.
by move=> /allP h p q /h /allP hp /hp /eqP.
Qed.
Example ex_C60_null : let A : rarr F2 := [:: [:: c3e; c3f]] in
  [&& size (ra_null_space ab3 2 A) == 2%N, all (fun r => has (@rm_bool F2) r) (ra_null_space ab3 2 A) & rwf ab3 2 A].
Proof. by vm_compute. Qed.
Example ex_C60_reduce : ra_row_reduce ab3 2 c3M != c3M.
Proof. by vm_compute. Qed.
Example ex_C60_S3 : rwf S3 1 s3M && ~~ has (has (@rm_bool F2)) (ra_mul 1 s3M (ra_T 1 (ra_null_space S3 1 s3M))).
Proof. by vm_compute. Qed.

Print Assumptions C60_null_space.
Print Assumptions C60_reduced_rows.
Print Assumptions C60_row_space_abelian.
Print Assumptions C60_null_space_complete.
Print Assumptions C60_row_space_nonabelian_refuted.
Print Assumptions C60_null_space_nonabelian_refuted.
Print Assumptions C60_echelon_refuted.
Print Assumptions C60_independent_refuted.
