(* Random arrays, random classical codes and random code words: model of qldpc/codes/common.py:47-70, 338-341 and 521-537. *)
From mathcomp Require Import all_ssreflect all_algebra zify.
From Verif Require Import LinAlg RowReduce Classical ClassicalProofs ClassicalProofs2.
Set Implicit Arguments.
Unset Strict Implicit.
Unset Printing Implicit Defensive.
Import GRing.Theory.
Local Open Scope ring_scope.

(* ============================================================================== model *)
Section Model.
Variable St : Type.                          (* states of NumPy's global random number generator *)
Variable reseed : nat -> St.                 (* the state after np.random.seed(seed) *)
Variable randint : St -> nat * St.           (* np.random.randint(2**31): a number and the next state *)

(* common.py:47-53: get_scrambled_seed(seed): the global state is saved, set from the seed, used, and restored *)
Definition get_scrambled_seed (seed : nat) (st : St) : nat * St :=
  let saved := st in
  let: (new_seed, _) := randint (reseed seed) in
  (new_seed, saved).

Section Arrays.
Variable A : Type.                           (* arrays *)
Variable det : nat -> A.                     (* field.Random(shape, seed=s) for an integer s: determined by s *)
Variable fresh : nat -> A.                   (* field.Random(shape, seed=None), the i-th time: anything *)
(* one call of field.Random(shape, seed=seed), the i-th in the loop *)
Definition field_random (seed : option nat) (i : nat) : A := if seed is Some s then det s else fresh i.
(* common.py:68-70: the loop; at most `fuel` arrays are drawn, and None models running out of fuel *)
Fixpoint resample (fuel : nat) (satisfy : A -> bool) (seed : option nat) (i : nat) : option A :=
  if fuel is f.+1 then
    let array := field_random seed i in
    if satisfy array then Some array else resample f satisfy (omap succn seed) i.+1
  else None.
(* common.py:56-70: get_random_array(field, shape, satisfy=.., seed=..), with the global state after the call *)
Definition get_random_array (fuel : nat) (satisfy : A -> bool) (seed : option nat) (st : St) : option A * St :=
  if seed is Some s then let: (s', st') := get_scrambled_seed s st in (resample fuel satisfy (Some s') 0, st')
  else (resample fuel satisfy None 0, st).
End Arrays.

Variable F : fieldType.
(* common.py:532-534: nontrivial(matrix), for an array of `bits` columns; matrix.T has `bits` rows *)
Definition nontrivial (bits : nat) (m : mat F) : bool := all (@vany F) m && all (@vany F) (trl bits m).
(* common.py:521-537: ClassicalCode.random(bits, checks, field, seed=..).  Simplification: the field is a parameter, and the
   shape (checks, bits) of the arrays is a hypothesis on det and fresh *)
Definition code_random (bits : nat) (det fresh : nat -> mat F) (fuel : nat) (seed : option nat) (st : St) : option (ccode F) * St :=
  let: (m, st') := get_random_array det fresh fuel (nontrivial bits) seed st in (omap (mkcode bits) m, st').
(* common.py:338-341: get_random_word(seed=..); field.Random(num_words) is an array of num_words coefficients *)
Definition get_random_word (c : ccode F) (det fresh : nat -> vec F) (fuel : nat) (seed : option nat) (st : St) : option (vec F) * St :=
  let: (a, st') := get_random_array det fresh fuel (fun _ => true) seed st in (omap (fun a => vmulm (cc_n c) a (generator c)) a, st').
End Model.

(* ============================================================================= proofs *)
Section Proofs.
Variables (St : Type) (reseed : nat -> St) (randint : St -> nat * St).
(* the array of the k-th round *)
Definition drawn (A : Type) (det fresh : nat -> A) (seed : option nat) (k : nat) : A :=
  if seed is Some s then det ((randint (reseed s)).1 + k)%N else fresh k.

Lemma resampleP (A : Type) (det fresh : nat -> A) fuel (p : A -> bool) seed i a :
  resample det fresh fuel p seed i = Some a <->
  exists k, [/\ (k < fuel)%N, a = field_random det fresh (omap (addn k) seed) (i + k), p a &
    forall j, (j < k)%N -> ~~ p (field_random det fresh (omap (addn j) seed) (i + j))].
Proof.
have o0 (t : option nat) : omap (addn 0) t = t by case: t.
have oS k (t : option nat) : omap (addn k) (omap succn t) = omap (addn k.+1) t by case: t => //= s; rewrite addnS addSn.
elim: fuel seed i => [|f IH] seed i /=; first by split=> // -[k []].
case: ifP => hp; split.
- by move=> [<-]; exists 0%N; rewrite addn0 o0; split.
- case=> -[|k] [_ -> _ h]; first by rewrite addn0 o0.
  by have := h 0%N isT; rewrite addn0 o0 hp.
- move/IH => [k [hk ea pa h]]; exists k.+1; split=> //; first by rewrite ea addSnnS oS.
  case=> [_ | j hj]; first by rewrite addn0 o0 hp.
  by have := h j hj; rewrite addSnnS oS.
- case=> -[|k] [hk ea pa h]; first by move: pa; rewrite ea addn0 o0 hp.
  apply/IH; exists k; split=> //; first by rewrite ea addSnnS oS.
  by move=> j hj; have := h j.+1 hj; rewrite addSnnS oS.
Qed.

Lemma random_arrayP (A : Type) (det fresh : nat -> A) fuel (p : A -> bool) seed st :
  (get_random_array reseed randint det fresh fuel p seed st).2 = st /\
  forall a, (get_random_array reseed randint det fresh fuel p seed st).1 = Some a <->
    exists k, [/\ (k < fuel)%N, a = drawn det fresh seed k, p a & forall j, (j < k)%N -> ~~ p (drawn det fresh seed j)].
Proof.
rewrite /get_random_array /get_scrambled_seed /drawn; case: seed => [s|] /=; last first.
  by split=> // a; split=> [/resampleP | h]; rewrite ?resampleP //=.
case: (randint _) => v st' /=; split=> // a; split=> [/resampleP | ] [k [h1 h2 h3 h4]].
  exists k; split=> //; first by rewrite h2 /= addnC.
  by move=> j hj; have := h4 j hj; rewrite /= addnC.
apply/resampleP; exists k; split=> //; first by rewrite h2 /= addnC.
by move=> j hj; have := h4 j hj; rewrite /= addnC.
Qed.
End Proofs.
