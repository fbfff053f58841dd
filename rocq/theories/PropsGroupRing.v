(* Property C59: the arithmetic of group algebras. *)
From mathcomp Require Import all_ssreflect all_algebra zify.
From Verif Require Import LinAlg RowReduce Classical PermGroup Abelian GroupRing PropsClassical PropsCss PropsGroup.
Set Implicit Arguments.
Unset Strict Implicit.
Unset Printing Implicit Defensive.
Import GRing.Theory.
Local Open Scope ring_scope.

Section Props.
Variables (F : fieldType) (n : nat) (G : group).
Hypothesis gG : grp_ok n G.
Implicit Types x y z : rmem F.
Notation rm_ok := (@rm_ok F G).

(* the terms given to the constructor are summed; equality and truth compare coefficients *)
Theorem C59_coefficients (ts : seq (perm * F)) x y : all (mem G) [seq t.1 | t <- ts] -> rm_ok x -> rm_ok y ->
  [/\ rm_ok (rm_make ts), forall g, coef (rm_make ts) g = \sum_(t <- ts) (if t.1 == g then t.2 else 0),
      rm_eq x y <-> (forall g, g \in G -> coef x g = coef y g)
    & rm_bool x <-> exists2 g, g \in G & coef x g != 0].
Proof.
move=> ht ox oy; split; [exact: ok_make | exact: coef_make | split; move/rm_eqP | split; move/rm_boolP]; apply=> //; exact: gG.
Qed.

(* the operations, coefficient by coefficient: the product is the convolution *)
Theorem C59_operations x y g h (c : int) : rm_ok x -> rm_ok y -> g \in G -> h \in G ->
  [/\ [/\ coef (rm_add x y) h = coef x h + coef y h, coef (rm_sub x y) h = coef x h - coef y h,
        coef (rm_neg x) h = - coef x h & coef (rm_scale x c) h = coef x h *~ c],
      coef (rm_mul x y) h = \sum_(k <- G) coef x k * coef y (pmul (pinv k) h),
      coef (rm_mulg x g) h = coef x (pmul h (pinv g)) /\ coef (rm_gmul g x) h = coef x (pmul (pinv g) h),
      coef (rm_addg x g) h = coef x h + (g == h)%:R /\ coef (rm_one F n) h = (h == pid n)%:R
    & coef (rm_T x) h = coef x (pinv h)].
Proof.
move=> ox oy gg hG; split; first by rewrite (coef_add _ ox oy) (coef_sub _ ox oy) (coef_neg _ ox) (coef_scale _ _ ox) mulrzr.
- exact: (coef_mul gG).
- by rewrite (coef_mulg gG) // (coef_gmul gG).
- by rewrite (@coef_addg F G) // coef_one.
exact: (coef_T gG).
Qed.

(* results are members of the same group algebra *)
Theorem C59_closed x y g (c : int) : rm_ok x -> rm_ok y -> g \in G ->
  [/\ [/\ rm_ok (rm_add x y), rm_ok (rm_sub x y), rm_ok (rm_neg x) & rm_ok (rm_scale x c)],
      rm_ok (rm_mul x y), rm_ok (rm_mulg x g) /\ rm_ok (rm_gmul g x), rm_ok (rm_addg x g) /\ rm_ok (rm_one F n) & rm_ok (rm_T x)].
Proof.
move=> ox oy gg; split; [split; [exact: ok_add | exact: ok_sub | exact: ok_neg | exact: ok_scale] | exact: (ok_mul gG) | | | exact: (ok_T gG)].
  by split; [apply: (ok_mulg gG) | apply: (ok_gmul gG)].
by split; [apply: ok_addg | apply: (ok_one F gG)].
Qed.

(* ring axioms *)
Theorem C59_ring x y z : rm_ok x -> rm_ok y -> rm_ok z ->
  [/\ rm_eq (rm_mul (rm_mul x y) z) (rm_mul x (rm_mul y z)),
      rm_eq (rm_mul x (rm_one F n)) x /\ rm_eq (rm_mul (rm_one F n) x) x,
      rm_eq (rm_mul (rm_add x y) z) (rm_add (rm_mul x z) (rm_mul y z)) /\
      rm_eq (rm_mul x (rm_add y z)) (rm_add (rm_mul x y) (rm_mul x z)),
      rm_eq (rm_add (rm_add x y) z) (rm_add x (rm_add y z)) /\ rm_eq (rm_add x y) (rm_add y x)
    & rm_eq (rm_add x (rm_neg x)) (rm_zero F)].
Proof.
move=> ox oy oz; split; [exact: (rm_mulA gG) | by split; [apply: (rm_mul1 gG) | apply: (rm_1mul gG)] |
  by split; [apply: (rm_mulDl gG) | apply: (rm_mulDr gG)] | | ].
- have oxy := ok_add ox oy; have oyz := ok_add oy oz; have oyx := ok_add oy ox.
  split; [apply/(rm_eqP (ok_add oxy oz) (ok_add ox oyz)) | apply/(rm_eqP oxy oyx)] => g gg.
    by rewrite !(@coef_add F G) // addrA.
  by rewrite !(@coef_add F G) // addrC.
by apply/(rm_eqP (ok_add ox (ok_neg ox)) (ok_zero F G)) => g gg; rewrite (@coef_add F G) ?ok_neg // (@coef_neg F G) // subrr.
Qed.

(* transposition is an involutive anti-automorphism *)
Theorem C59_transpose x y : rm_ok x -> rm_ok y ->
  rm_eq (rm_T (rm_mul x y)) (rm_mul (rm_T y) (rm_T x)) /\ rm_eq (rm_T (rm_T x)) x.
Proof. by move=> ox oy; split; [apply: (rm_T_mul gG) | apply: (rm_TK gG)]. Qed.

(* every representation of the group lifts to a representation of the algebra *)
Theorem C59_lift d (L : perm -> mat F) x y k (c : int) : is_rep n d G L -> rm_ok x -> rm_ok y ->
  let M x := mx d d (rm_lift d L x) in
  [/\ size (rm_lift d L x) = d /\ wf d (rm_lift d L x), M (rm_add x y) = M x + M y /\ M (rm_scale x c) = M x *~ c,
      M (rm_mul x y) = M x *m M y /\ M (rm_one F n) = 1%:M, M (rm_T x) = (M x)^T
    & M (rm_pow n x k) = iter k (mulmxr (M x)) 1%:M].
Proof.
move=> rep ox oy M; have [s w _] := lift_ok gG rep ox; split=> //.
- by rewrite /M (lift_add gG rep ox oy) (lift_scale gG rep _ ox) scaler_int.
- by rewrite /M (lift_mul gG rep ox oy) (lift_one gG rep).
- exact: (lift_T gG rep).
have [_ h] := foldl_pow gG k (ok_one F gG) ox; by rewrite /M /rm_pow (h _ _ rep) (lift_one gG rep).
Qed.
(* the regular representation is faithful *)
Theorem C59_regular_faithful x y : rm_ok x -> rm_ok y ->
  rm_lift (size G) (regular_lift F G) x = rm_lift (size G) (regular_lift F G) y <-> rm_eq x y.
Proof.
move=> ox oy; have rep := regr F gG; have [s1 w1 _] := lift_ok gG rep ox; have [s2 w2 _] := lift_ok gG rep oy.
split=> [e | e]; first by apply: (reg_faithful gG) => //; rewrite e.
by apply: (@mx_inj _ (size G) (size G)) => //; apply: (reg_eq gG).
Qed.

(* vectors *)
Theorem C59_vectors x (v : seq F) : rm_ok x -> size v = size G ->
  [/\ size (to_vector G x) = size G, forall i, (i < size G)%N -> nth 0 (to_vector G x) i = coef x (nth [::] G i),
      rm_ok (from_vector G v), to_vector G (from_vector G v) = v & rm_eq (from_vector G (to_vector G x)) x].
Proof.
move=> ox sv; have [h1 h2] := to_vectorP gG ox.
by split=> //; [apply: ok_from_vector | apply: (to_from_vector gG) | apply: (from_to_vector gG)].
Qed.

(* the inverse, for a group whose first listed member is the identity: it is a two-sided inverse, and None is returned
   only if there is no (right) inverse *)
Theorem C59_inverse x : head [::] G = pid n -> rm_ok x ->
  if rm_inverse G x is Some y then [/\ rm_ok y, rm_eq (rm_mul x y) (rm_one F n) & rm_eq (rm_mul y x) (rm_one F n)]
  else forall y, rm_ok y -> ~~ rm_eq (rm_mul x y) (rm_one F n).
Proof.
move=> hd ox; case e: rm_inverse => [y|]; last by move=> y oy; apply: (inverse_none gG ox oy e).
by have [h1 h2] := inverse_ok gG hd ox e; split=> //; apply: (ok_inverse gG ox e).
Qed.
End Props.

(* if the first listed member is not the identity, the inverse may be wrong *)
Definition C3' : group := [:: [:: 1;2;0]; [:: 0;1;2]; [:: 2;0;1]]%N.
Theorem C59_inverse_order_refuted : exists (G : group) (x y : rmem [fieldType of 'F_3]),
  [/\ grp_ok 3 G, rm_ok G x, rm_inverse G x = Some y & ~~ rm_eq (rm_mul x y) (rm_one _ 3)].
Proof.
pose x : rmem [fieldType of 'F_3] := [:: ([:: 0;1;2]%N, 1); ([:: 1;2;0]%N, 1)].
pose P (y : rmem [fieldType of 'F_3]) := ~~ rm_eq (rm_mul x y) (rm_one _ 3).
have [y ey hy] : exists2 y, rm_inverse C3' x = Some y & P y by apply: (@some_with _ _ P); vm_compute.
exists C3', x, y; split; [by apply: grp_okP; vm_compute | by vm_compute | exact: ey | exact: hy].
Qed.

(* non-vacuity: S3 over F_3 *)
Definition s3x : rmem [fieldType of 'F_3] := rm_make [:: (nth [::] S3 1, 1); (nth [::] S3 3, -1); (nth [::] S3 1, 1)].
Definition s3y : rmem [fieldType of 'F_3] := rm_make [:: (nth [::] S3 4, 1); (nth [::] S3 0, 1)].
Example ex_C59 : [&& rm_ok S3 s3x, rm_ok S3 s3y, head [::] S3 == pid 3, ~~ rm_eq (rm_mul s3x s3y) (rm_mul s3y s3x)
  & isSome (rm_inverse S3 (rm_addg (rm_one [fieldType of 'F_3] 3) (nth [::] S3 1))) && ~~ isSome (rm_inverse S3 s3y)].
Proof. by vm_compute. Qed.

Print Assumptions C59_coefficients.
Print Assumptions C59_operations.
Print Assumptions C59_closed.
Print Assumptions C59_ring.
Print Assumptions C59_transpose.
Print Assumptions C59_lift.
Print Assumptions C59_regular_faithful.
Print Assumptions C59_vectors.
Print Assumptions C59_inverse.
Print Assumptions C59_inverse_order_refuted.
