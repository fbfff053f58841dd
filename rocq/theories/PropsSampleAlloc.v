(* Property C67: bookkeeping of the logical error rate estimators (qldpc/codes/common.py). *)
From mathcomp Require Import all_ssreflect all_algebra zify.
From Verif Require Import SampleAlloc.
Set Implicit Arguments.
Unset Strict Implicit.
Unset Printing Implicit Defensive.
Import GRing.Theory Num.Theory Order.TTheory.
Local Open Scope ring_scope.

(* the weights are the binomial probabilities of 0, 1, .., n errors, and they sum to one *)
Theorem C67_probabilities n p : 0 <= p <= 1 ->
  [/\ size (error_probs n p None) = n.+1,
      forall k, (k <= n)%N -> nth 0 (error_probs n p None) k = 'C(n, k)%:R * p ^+ k * (1 - p) ^+ (n - k),
      forall k, (k <= n)%N -> 0 <= nth 0 (error_probs n p None) k & \sum_(x <- error_probs n p None) x = 1].
Proof.
move=> hp; have sz := probs_size n p None; rewrite /= in sz.
have nt k : (k <= n)%N -> nth 0 (error_probs n p None) k = binom n p k by move=> hk; apply: probs_nth; rewrite ?sz.
split=> //; first by move=> k hk; rewrite nt // binom_ge0.
by rewrite (big_nth 0) big_mkord sz -[RHS](binom_sum n p); apply: eq_bigr => k _; rewrite nt // -ltnS.
Qed.

(* the allocation has at least the requested number of samples, none at weight zero, at least one at each other weight up to the
   largest one, and follows the flattened distribution up to rounding *)
Theorem C67_allocation fuel num_samples n p a : 0 < p <= 1 -> (0 < n)%N -> sample_allocation fuel num_samples n p = Some a ->
  [/\ (num_samples <= sumn a)%N, (1 < size a <= n.+1)%N, nth 0%N a 0 = 0%N, forall k, (0 < k < size a)%N -> (0 < nth 0%N a k)%N
    & exists m N', [/\ is_peak n p m, (num_samples <= N' <= sumn a)%N & forall k, (k <= n)%N ->
        `|(nth 0%N a k)%:R - N'%:R * alloc_weight n p m k / \sum_(j < n.+1) alloc_weight n p m j| <= 2%:R^-1]].
Proof. exact: allocationP. Qed.
(* the loop that raises the number of samples ends *)
Theorem C67_allocation_ends num_samples n p : 0 < p <= 1 -> (0 < n)%N -> (0 < num_samples)%N ->
  exists fuel, forall f, (fuel <= f)%N -> exists a, sample_allocation f num_samples n p = Some a.
Proof.
move=> hp hn hs; have [fuel h] := allocation_exists hp hn hs; exists fuel => f /h.
by case: sample_allocation => // a _; exists a.
Qed.
(* finding: a maximal error rate of zero is accepted and leads to a division by zero *)
Theorem C67_zero_rate_refuted : exists num_samples n, [/\ (0 < num_samples)%N, (0 < n)%N &
  forall fuel, sample_allocation fuel num_samples n 0 = None].
Proof. by exists 10%N, 3%N; split=> // fuel; rewrite /sample_allocation (_ : normalize _ = None) //; apply/eqP; vm_compute. Qed.

(* whatever the decoder does, every weight is estimated (there is no division by zero), and the reported error rate lies in
   [0, 1].  It counts weights above the largest sampled one as failures: it exceeds the error rate of any decoder with the
   estimated fidelities by at most the probability of those weights *)
Theorem C67_rate fuel num_samples n p_max a fails p : 0 < p_max <= 1 -> (0 < n)%N ->
  sample_allocation fuel num_samples n p_max = Some a ->
  (forall k, (k < (size a).-1)%N -> (nth 0%N fails k <= nth 0%N a k.+1)%N) -> 0 <= p <= p_max ->
  exists es r, [/\ estimates a fails = Some es, logical_error_rate n p_max es p = Some r, 0 <= r.1 <= 1, 0 <= r.2 &
    forall f : nat -> rat, (forall k, 0 <= f k <= 1) -> f 0%N = 1 ->
      (forall k, (0 < k < size a)%N -> f k = 1 - (nth 0%N fails k.-1)%:R / (nth 0%N a k)%:R) ->
      let exact := 1 - \sum_(k < n.+1) 'C(n, k)%:R * p ^+ k * (1 - p) ^+ (n - k) * f k in
      exact <= r.1 <= exact + \sum_(k < n.+1 | (size a <= k)%N) 'C(n, k)%:R * p ^+ k * (1 - p) ^+ (n - k)].
Proof.
move=> hm hn ha hf /andP [p0 pm]; have [_ /andP [s1 sn] _ pos _] := C67_allocation hm hn ha.
have hp : 0 <= p <= 1 by rewrite p0 (le_trans pm) //; case/andP: hm.
have [es ee] : exists es, estimates a fails = Some es.
  rewrite /estimates; case: ifP => [_ | /negbT /negP []]; first by eexists.
  apply/(all_nthP None) => k; rewrite size_mkseq => hk; rewrite nth_mkseq // /estimate; case: eqP => // e0.
  by have := pos k.+1; rewrite e0 /= -ltn_predRL => /(_ hk).
have [se e0 ek eb] := estimatesP hf ee.
have sa : size es = size a by rewrite se prednK // ltnW.
have [r er] : exists r, logical_error_rate n p_max es p = Some r.
  by rewrite /logical_error_rate ltNge pm /=; eexists.
have [|_ r1 r2] := rateP hp _ er; first by rewrite sa s1.
have split_sum (w : nat -> rat) : \sum_(k < n.+1) w k = \sum_(k < size a) w k + \sum_(k < n.+1 | (size a <= k)%N) w k.
  rewrite (bigID (fun k : 'I_n.+1 => (k < size a)%N)) /= (big_ord_widen _ w sn); congr (_ + _).
  by apply: eq_bigl => k; rewrite -leqNgt.
have b0 k : 0 <= binom n p k by apply: binom_ge0.
have bs : \sum_(k < size a) binom n p k <= 1.
  by rewrite -(binom_sum n p) (split_sum (binom n p)) ler_addl sumr_ge0.
exists es, r; split=> //.
- rewrite r1 sa subr_ge0 ler_subl_addr ler_addl; apply/andP; split.
    apply: le_trans bs; apply: ler_sum => k _; rewrite ler_pimulr //; by have [/andP [_ ->]] := eb k.
  by apply: sumr_ge0 => k _; apply: mulr_ge0 => //; have [/andP [-> _]] := eb k.
- by rewrite r2; apply: sumr_ge0 => k _; apply: mulr_ge0; rewrite ?exprn_ge0 //; have [] := eb k.
move=> f hf01 f0 fk; cbv zeta; set ex := 1 - _.
have e1 : r.1 = ex + \sum_(k < n.+1 | (size a <= k)%N) binom n p k * f k.
  rewrite r1 sa /ex (split_sum (fun k => binom n p k * f k)) opprD addrA subrK; congr (1 - _).
  apply: eq_bigr => -[[|k] hk] _ /=; first by rewrite e0 f0.
  by rewrite ek ?fk //; rewrite ltn_predRL.
rewrite e1 ler_addl ler_add2l; apply/andP; split; first by apply: sumr_ge0 => k _; apply: mulr_ge0 => //; case/andP: (hf01 k).
by apply: ler_sum => k _; rewrite ler_pimulr //; case/andP: (hf01 k).
Qed.

(* non-vacuity: four samples for errors on two bits at rate at most 1/2 (three of weight one and one of weight two), with one
   failure at weight one; the reported error rate at 1/2 is one third of 1/2 *)
Example ex_C67 : let p : rat := 1 / 2%:R in
  [/\ 0 < p <= 1, sample_allocation 5 4 2 p = Some [:: 0; 3; 1]%N, is_peak 2 p 1
    & exists2 es, estimates [:: 0; 3; 1]%N [:: 1; 0]%N = Some es & logical_error_rate 2 p es p = Some (1 / 6%:R, 1 / 54%:R)].
Proof.
split; [by vm_compute | by apply/eqP; vm_compute | |].
  by split=> // -[|[|[|k]]].
by exists [:: (1, 0); (2%:R / 3%:R, 2%:R / 27%:R); (1, 0)]; apply/eqP; vm_compute.
Qed.

Print Assumptions C67_probabilities.
Print Assumptions C67_allocation.
Print Assumptions C67_allocation_ends.
Print Assumptions C67_zero_rate_refuted.
Print Assumptions C67_rate.
