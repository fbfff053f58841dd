(* Bookkeeping of the logical error rate estimators: model of qldpc/codes/common.py:638-686, 2345-2375, 2414-2416, 2439-2495.

   Simplification: floating point numbers are rational numbers, and the probabilities are computed without rounding (the code goes
   through logarithms). *)
From mathcomp Require Import all_ssreflect all_algebra zify ring.
Set Implicit Arguments.
Unset Strict Implicit.
Unset Printing Implicit Defensive.
Import GRing.Theory Num.Theory Order.TTheory.
Local Open Scope ring_scope.

(* ============================================================================== model *)
(* common.py:2464-2495: _get_error_probs_by_weight; max_weight = None or 0 is the block length n *)
Definition error_probs (n : nat) (p : rat) (max_weight : option nat) : seq rat :=
  let w := if max_weight is Some (w'.+1) then w'.+1 else n in
  if p == 0 then 1 :: nseq w 0
  else if p == 1 then mkseq (fun k => if (n <= k)%N then 1 else 0) w.+1
  else mkseq (fun k => 'C(n, k)%:R * p ^+ k * (1 - p) ^+ (n - k)) w.+1.
(* np.max of an array of nonnegative numbers, np.argmax *)
Definition vmax (s : seq rat) : rat := foldr Num.max 0 s.
Definition argmax (s : seq rat) : nat := index (vmax s) s.
(* np.round(x).astype(int) for x >= 0: to the nearest integer, halves to the even one *)
Definition round (x : rat) : nat :=
  let a := absz (numq x) in let d := absz (denq x) in
  let q := (a %/ d)%N in let r := (a %% d)%N in
  if (r.*2 < d)%N then q else if (d < r.*2)%N then q.+1 else (q + odd q)%N.
(* common.py:2447-2452: the distribution with its entry at 0 removed and its left side flattened, before normalisation *)
Definition flatten_left (probs : seq rat) : seq rat :=
  let probs := set_nth 0 probs 0 0 in
  mkseq (fun k => if (0 < k < argmax probs)%N then vmax probs else nth 0 probs k) (size probs).
(* np.sum *)
Definition vsum (s : seq rat) : rat := foldr (fun x y => x + y) 0 s.
(* common.py:2453: probs /= np.sum(probs); None is the division by zero *)
Definition normalize (s : seq rat) : option (seq rat) :=
  let t := vsum s in if t == 0 then None else Some [seq x / t | x <- s].
(* common.py:2457-2458: the loop over num_samples; None is out of fuel *)
Fixpoint alloc_loop (probs : seq rat) (fuel num_samples : nat) : option (seq nat) :=
  let a := [seq round (x * num_samples%:R) | x <- probs] in
  if (sumn a < num_samples)%N then (if fuel is f.+1 then alloc_loop probs f num_samples.+1 else None) else Some a.
(* common.py:2461-2462: truncation of trailing zeros; None is the IndexError for an array of zeros *)
Fixpoint trim0 (s : seq nat) : seq nat :=
  if s is x :: s' then let t := trim0 s' in if (x == 0%N) && (t == [::]) then [::] else x :: t else [::].
Definition truncate (s : seq nat) : option (seq nat) := if trim0 s is x :: t then Some (x :: t) else None.
(* common.py:2439-2462: _get_sample_allocation *)
Definition sample_allocation (fuel num_samples n : nat) (p : rat) : option (seq nat) :=
  if normalize (flatten_left (error_probs n p None)) is Some probs then
    if alloc_loop probs fuel num_samples is Some a then truncate a else None
  else None.
(* common.py:680-682 (2414-2416): the fidelity and its variance from the number of failures; None is a division by zero *)
Definition estimate (num_samples num_failures : nat) : option (rat * rat) :=
  if num_samples == 0%N then None else
  let inf := num_failures%:R / num_samples%:R in Some (1 - inf, inf * (1 - inf) / num_samples%:R).
(* common.py:645-651 (2349-2361): one estimate for each weight > 0, from the number of failures at that weight *)
Definition estimates (alloc failures : seq nat) : option (seq (rat * rat)) :=
  let es := mkseq (fun k => estimate (nth 0%N alloc k.+1) (nth 0%N failures k)) (size alloc).-1 in
  if all isSome es then Some ((1, 0) :: pmap id es) else None.
(* common.py:653-662 (2363-2372): get_logical_error_rate; None is the ValueError.  Simplification: the second component is the
   square of the returned uncertainty *)
Definition logical_error_rate (n : nat) (max_error_rate : rat) (es : seq (rat * rat)) (p : rat) : option (rat * rat) :=
  if max_error_rate < p then None else
  let probs := error_probs n p (Some (size es).-1) in
  Some (1 - vsum [seq t.1 * t.2.1 | t <- zip probs es], vsum [seq t.1 ^+ 2 * t.2.2 | t <- zip probs es]).

(* ====================================================================== specification *)
(* the probability of k errors among n places *)
Definition binom (n : nat) (p : rat) (k : nat) : rat := 'C(n, k)%:R * p ^+ k * (1 - p) ^+ (n - k).

(* the distribution of samples over the weights 1, .., n for a most likely weight m > 0: flat to the left of m *)
Definition alloc_weight (n : nat) (p : rat) (m k : nat) : rat :=
  if k == 0%N then 0 else if (k < m)%N then binom n p m else binom n p k.
Definition is_peak (n : nat) (p : rat) (m : nat) : Prop :=
  (0 < m <= n)%N /\ forall k, (0 < k <= n)%N -> binom n p k <= binom n p m.

(* ============================================================================= proofs *)
Lemma vsumE s : vsum s = \sum_(x <- s) x. Proof. by elim: s => [|x s IH]; rewrite ?big_nil // big_cons -IH. Qed.
Lemma probs_nth n p mw k : (if mw is Some (w.+1) then w.+1 <= n else true)%N ->
  (k < size (error_probs n p mw))%N -> nth 0 (error_probs n p mw) k = binom n p k.
Proof.
move=> hw; have {}hw : ((if mw is Some (w.+1) then w.+1 else n) <= n)%N by case: mw hw => [[|w]|].
rewrite /error_probs; move: hw; set w := if mw is Some _ then _ else _ => hw.
rewrite /binom; case: eqP => [-> | p0].
  rewrite /= size_nseq ltnS subr0 => hk; case: k hk => [_ | k hk] /=; first by rewrite bin0 expr0 expr1n !mulr1.
  by rewrite nth_nseq hk exprS mul0r mulr0 mul0r.
case: eqP => [-> | p1]; rewrite size_mkseq => hk; rewrite nth_mkseq // subrr expr1n mulr1.
case: (leqP n k) => h; first by rewrite (_ : k = n) ?binn ?subnn ?expr0 ?mulr1 //; move: h hk hw; clear; lia.
by rewrite -subn_gt0 in h; case: (n - k)%N h => // m _; rewrite exprS mul0r mulr0.
Qed.
Lemma probs_size n p mw : size (error_probs n p mw) = (if mw is Some (w.+1) then w.+1 else n).+1.
Proof. by rewrite /error_probs; case: eqP => _ /=; rewrite ?size_nseq //; case: eqP => _; rewrite size_mkseq. Qed.

Lemma regroup (a b x y u v p q : rat) : a * x = b * y -> a * (p * u) * v * x * q = b * u * (q * v) * y * p.
Proof. by move=> e; transitivity (a * x * (p * u * v * q)); [| rewrite e]; ring. Qed.
Section Binom.
Variables (n : nat) (p : rat).
Hypothesis hp : 0 <= p <= 1.
Let p0 : 0 <= p. Proof. by case/andP: hp. Qed.
Let p1 : 0 <= 1 - p. Proof. by rewrite subr_ge0; case/andP: hp. Qed.
Lemma binom_ge0 k : 0 <= binom n p k.
Proof. by rewrite /binom !mulr_ge0 ?ler0n ?exprn_ge0. Qed.
Lemma binom_sum : \sum_(k < n.+1) binom n p k = 1.
Proof.
rewrite -[RHS](expr1n _ n) -[X in X ^+ n](subrK p 1) exprDn; apply: eq_bigr => k _.
by rewrite /binom -[RHS]mulr_natl -mulrA; congr (_ * _); rewrite mulrC.
Qed.
(* successive probabilities *)
Lemma binom_step k : (k < n)%N -> binom n p k.+1 * k.+1%:R * (1 - p) = binom n p k * (n - k)%:R * p.
Proof.
move=> h; have e : ('C(n, k.+1) * k.+1 = 'C(n, k) * (n - k))%N by rewrite mulnC mul_bin_left mulnC.
rewrite /binom (_ : n - k = (n - k.+1).+1)%N; last by rewrite subnSK.
rewrite !exprS.
by apply: regroup; rewrite -!natrM subnSK // e.
Qed.
Lemma binom_decr k : p < 1 -> (k.+1 < n)%N -> binom n p k.+1 <= binom n p k -> binom n p k.+2 <= binom n p k.+1.
Proof.
move=> lt1 h le; have s1 := binom_step (ltnW h); have s2 := binom_step h.
have q0 : 0 < 1 - p by rewrite subr_gt0.
have c0 : 0 < k.+2%:R * (1 - p) by rewrite mulr_gt0 ?ltr0n.
rewrite -(ler_pmul2r c0) mulrA s2 -mulrA.
have := binom_ge0 k.+1; rewrite le0r => /orP [/eqP -> | v0]; first by rewrite !mul0r.
rewrite (ler_pmul2l v0).
have : (n - k)%:R * p <= k.+1%:R * (1 - p).
  rewrite -(ler_pmul2l v0) [X in _ <= X]mulrA s1 -[X in _ <= X]mulrA; exact: (ler_wpmul2r (mulr_ge0 (ler0n _ _) p0) le).
move=> h1; apply: le_trans (le_trans _ h1) _.
  by apply: ler_wpmul2r => //; rewrite ler_nat leq_sub2l.
by apply: ler_wpmul2r => //; rewrite ler_nat.
Qed.
Lemma binom_mono m k : p < 1 -> (m < n)%N -> binom n p m.+1 <= binom n p m -> (m <= k)%N -> (k < n)%N -> binom n p k.+1 <= binom n p k.
Proof.
move=> lt1 hm le /subnK <-; elim: (k - m)%N => //= j IH h; rewrite addSn; apply: binom_decr => //.
by rewrite addSn in h; apply: IH; exact: ltnW.
Qed.
End Binom.

(* ---------------------------------------------------------------- rounding *)
Lemma rat_nat (x : rat) : 0 <= x -> x * (absz (denq x))%:R = (absz (numq x))%:R.
Proof.
move=> x0; have e : ((absz (denq x))%:R : rat) = (denq x)%:~R by rewrite pmulrn absz_denq.
have e' : ((absz (numq x))%:R : rat) = (numq x)%:~R by rewrite pmulrn gez0_abs // numq_ge0.
by rewrite e e' -{1}[x]divq_num_den divfK // intr_eq0 denq_eq0.
Qed.
Lemma absz_den_gt0 (x : rat) : (0 < absz (denq x))%N. Proof. by rewrite absz_gt0 denq_eq0. Qed.
Lemma round_bound (x : rat) : 0 <= x -> x *+ 2 - 1 <= (round x).*2%:R <= x *+ 2 + 1.
Proof.
move=> x0; have d0 := absz_den_gt0 x; have ex := rat_nat x0; rewrite /round.
move: ex d0; move: (absz (numq x)) (absz (denq x)) => a d ex d0.
set q := (a %/ d)%N; set r := (a %% d)%N; set m := if _ then _ else _.
have ea := divn_eq a d; have rd : (r < d)%N by rewrite ltn_mod.
have h : (a.*2 <= m.*2 * d + d)%N && (m.*2 * d <= a.*2 + d)%N.
  rewrite /m; move: ea rd; rewrite -/q -/r; clear; case: ifP => h1; [| case: ifP => h2]; rewrite -!muln2 in h1 *.
  - by move=> ea rd; apply/andP; split; nia.
  - by rewrite -muln2 in h2 => ea rd; apply/andP; split; nia.
  by rewrite -muln2 in h2; case: odd => /= ea rd; apply/andP; split; nia.
have d0r : 0 < (d%:R : rat) by rewrite ltr0n.
case/andP: h => h1 h2; apply/andP; split; rewrite -(ler_pmul2r d0r).
  by rewrite mulrBl mul1r mulrnAl ex -mulrnA muln2 -natrM ler_subl_addr -natrD ler_nat.
by rewrite mulrDl mul1r [x *+ 2 * _]mulrnAl ex -mulrnA muln2 -natrM -natrD ler_nat.
Qed.
Lemma round_mono (x y : rat) : 0 <= x -> x <= y -> (round x <= round y)%N.
Proof.
move=> x0 le; case: (eqVneq x y) => [-> // | ne].
have lt : x < y by rewrite lt_neqAle ne.
rewrite leqNgt; apply/negP => h.
have /andP [_ h1] := round_bound x0; have /andP [h2 _] := round_bound (le_trans x0 le).
have : (round y).*2%:R + 2%:R <= (round x).*2%:R :> rat by rewrite -natrD ler_nat; move: h; clear; lia.
move=> h3; have := le_trans (le_trans (ler_add h2 (lexx _)) h3) h1.
rewrite -addrA (_ : - 1 + 2%:R = 1 :> rat) // ler_add2r.
by rewrite ler_pmuln2r // leNgt lt.
Qed.
Lemma round_nat k : round k%:R = k.
Proof.
have /andP [h1 h2] := round_bound (ler0n _ k); move: h1 h2.
rewrite -mulrnA muln2 ler_subl_addr -![_%:R + 1]mulrSr !ler_nat; move: (round _) => m; clear; lia.
Qed.

(* ---------------------------------------------------------------- the distribution *)
Lemma vmax_ge s x : x \in s -> x <= vmax s.
Proof. by elim: s => //= y s IH; rewrite inE le_maxr => /orP [/eqP -> | /IH ->]; rewrite ?lexx ?orbT. Qed.
Lemma vmax_mem s : all (fun x => 0 <= x) s -> s != [::] -> vmax s \in s.
Proof.
elim: s => //= y s IH /andP [y0 /IH {}IH] _; case: (eqVneq s [::]) => [-> | /IH h] /=; first by rewrite max_l // inE.
by rewrite inE; case: (leP (vmax s) y) => _; rewrite ?eqxx // h orbT.
Qed.
Section Dist.
Variables (n : nat) (p : rat).
Hypotheses (hp : 0 < p <= 1) (hn : (0 < n)%N).
Let p01 : 0 <= p <= 1. Proof. by case/andP: hp => /ltW -> ->. Qed.
Let pr := set_nth 0 (error_probs n p None) 0 0.
Let szp : size pr = n.+1. Proof. by rewrite /pr size_set_nth probs_size; apply/maxn_idPr. Qed.
Let pr_nth k : (0 < k <= n)%N -> nth 0 pr k = binom n p k.
Proof. by case: k => // k h; rewrite nth_set_nth /= probs_nth // probs_size. Qed.
Let pr0 : nth 0 pr 0 = 0. Proof. by rewrite nth_set_nth. Qed.
Let pr_ge0 : all (fun x => 0 <= x) pr.
Proof.
apply/(all_nthP 0) => -[|k]; rewrite ?pr0 // szp => h; rewrite pr_nth //; exact: binom_ge0.
Qed.
Let m := argmax pr.
Let hm : (m < n.+1)%N. Proof. by rewrite -szp index_mem vmax_mem //; case: (pr) szp. Qed.
Let maxm : nth 0 pr m = vmax pr. Proof. by rewrite nth_index // vmax_mem //; case: (pr) szp. Qed.
Let max_gt0 : 0 < vmax pr.
Proof.
have [h | h] := boolP (p == 1).
  have : binom n p n <= vmax pr by rewrite -pr_nth ?hn ?leqnn //; apply/vmax_ge/mem_nth; rewrite szp.
  by apply: lt_le_trans; rewrite /binom (eqP h) binn subnn expr0 expr1n !mulr1.
have : binom n p n <= vmax pr by rewrite -pr_nth ?hn ?leqnn //; apply/vmax_ge/mem_nth; rewrite szp.
by apply: lt_le_trans; rewrite /binom binn subnn expr0 mulr1 mul1r exprn_gt0 //; case/andP: hp.
Qed.
Let m_gt0 : (0 < m)%N.
Proof. by case: (posnP m) => // e; move: max_gt0; rewrite -maxm e pr0 ltxx. Qed.
Let hmn : (0 < m <= n)%N. Proof. by rewrite m_gt0 -ltnS hm. Qed.

Lemma peak_range : (0 < m <= n)%N. Proof. exact: hmn. Qed.
Lemma flat_nth k : (0 < k <= n)%N -> nth 0 (flatten_left (error_probs n p None)) k =
  if (k < m)%N then binom n p m else binom n p k.
Proof.
move=> h; have hk : (k < size pr)%N by rewrite szp ltnS; case/andP: h.
rewrite nth_mkseq // -/m; have -> : (0 < k)%N by case/andP: h.
by rewrite andTb; case: ifP => _; [exact: etrans (esym maxm) (pr_nth hmn) | exact: pr_nth].
Qed.
Lemma flat_size : size (flatten_left (error_probs n p None)) = n.+1. Proof. by rewrite size_mkseq szp. Qed.
Lemma flat0 : nth 0 (flatten_left (error_probs n p None)) 0 = 0. Proof. by rewrite nth_mkseq ?szp. Qed.
Lemma peak_max k : (0 < k <= n)%N -> binom n p k <= binom n p m.
Proof.
move=> h; rewrite -(pr_nth hmn) -(pr_nth h) maxm; apply/vmax_ge/mem_nth; rewrite szp ltnS; by case/andP: h.
Qed.
Lemma flat_mono j k : (0 < j <= k)%N -> (k <= n)%N ->
  nth 0 (flatten_left (error_probs n p None)) k <= nth 0 (flatten_left (error_probs n p None)) j.
Proof.
move=> /andP [j0 jk] kn; have k0 := leq_trans j0 jk; rewrite !flat_nth ?j0 ?k0 ?kn ?(leq_trans jk kn) //.
case: (ltnP j m) => hj; first by case: ifP => // _; apply: peak_max; rewrite k0.
rewrite ltnNge (leq_trans hj jk) /=.
have [h | lt1] := boolP (p == 1).
  (* the peak is at n *)
  have e : m = n; last by move: hj jk kn; rewrite e => h1 h2 h3; rewrite (_ : j = k) //; move: h1 h2 h3; clear; lia.
  apply/eqP; case: (ltngtP m n) => // [lt | ]; last by rewrite ltnNge -ltnS hm.
  by move: max_gt0; rewrite -maxm (pr_nth hmn) /binom (eqP h) subrr expr0n subn_eq0 leqNgt lt mulr0 ltxx.
have {lt1} lt1 : p < 1 by rewrite lt_neqAle lt1; case/andP: hp.
have mono i : (m <= i)%N -> (i < n)%N -> binom n p i.+1 <= binom n p i.
  by move=> h1 h2; apply: (@binom_mono n p p01 m i) => //; [exact: leq_ltn_trans h2 | apply: peak_max; rewrite (leq_ltn_trans h1)].
suff gen i : (i + j <= n)%N -> binom n p (i + j) <= binom n p j by rewrite -(subnK jk); apply: gen; rewrite subnK.
elim: i => // i IH h; rewrite addSn in h *.
by apply: le_trans (IH (ltnW h)); apply: mono => //; exact: leq_trans (leq_addl _ _).
Qed.
Lemma flat_ge0 : all (fun x => 0 <= x) (flatten_left (error_probs n p None)).
Proof.
apply/(all_nthP 0) => -[|k]; rewrite ?flat0 // flat_size => h; rewrite flat_nth //.
by case: ifP => _; apply: binom_ge0.
Qed.
Lemma flat_gt0 : 0 < \sum_(x <- flatten_left (error_probs n p None)) x.
Proof.
have hlt : (m < size (flatten_left (error_probs n p None)))%N by rewrite flat_size.
rewrite (big_nth 0) big_mkord (bigD1 (Ordinal hlt)) //=.
apply: ltr_paddr; first by apply: sumr_ge0 => i _; have /allP := flat_ge0; apply; rewrite mem_nth.
by rewrite (flat_nth hmn) ltnn -(pr_nth hmn) maxm.
Qed.
End Dist.

(* ---------------------------------------------------------------- the loop over the number of samples *)
Section Loop.
Variable probs : seq rat.
Hypotheses (pos : all (fun x => 0 <= x) probs) (sum1 : \sum_(x <- probs) x = 1).
Definition rounds (N : nat) : seq nat := [seq round (x * N%:R) | x <- probs].
Lemma loop_some fuel N a : alloc_loop probs fuel N = Some a ->
  exists2 N', (N <= N')%N & a = rounds N' /\ (N' <= sumn a)%N.
Proof.
elim: fuel N => [|f IH] N /=; case: ltnP => // h.
- by case=> <-; exists N.
- by move=> /IH [N' h1 h2]; exists N' => //; exact: ltnW.
by case=> <-; exists N.
Qed.
Lemma loop_fuel N N' fuel : (N <= N')%N -> (N' - N <= fuel)%N -> (N' <= sumn (rounds N'))%N -> isSome (alloc_loop probs fuel N).
Proof.
move=> le hf hN; elim: fuel N le hf => [|f IH] N le hf /=; case: ltnP => // h.
  by move: h; rewrite (_ : N = N') ?ltnNge ?hN //; move: le hf; clear; lia.
apply: IH; last by move: le hf; clear; lia.
by rewrite ltn_neqAle le andbT; apply/eqP => e; move: h; rewrite ltnNge e hN.
Qed.
(* a number of samples for which nothing is rounded *)
Definition denoms : nat := \prod_(x <- probs) absz (denq x).
Lemma denoms_gt0 : (0 < denoms)%N. Proof. by rewrite /denoms; apply: prodn_gt0 => i; exact: absz_den_gt0. Qed.
Lemma exact_round x c : x \in probs -> exists2 k, x * (c * denoms)%:R = k%:R & round (x * (c * denoms)%:R) = k.
Proof.
move=> xp; have x0 : 0 <= x by move/allP: pos; apply.
have : (absz (denq x) %| c * denoms)%N.
  apply: dvdn_mull; rewrite /denoms; move: xp; elim: (probs) => // y s IH; rewrite inE big_cons => /orP [/eqP -> | /IH h].
    exact: dvdn_mulr.
  exact: dvdn_mull.
move=> /dvdnP [k ->]; exists (k * absz (numq x))%N; first by rewrite mulnC natrM mulrA rat_nat // -natrM mulnC.
by rewrite mulnC natrM mulrA rat_nat // -natrM mulnC round_nat.
Qed.
Lemma exact_sum c : sumn (rounds (c * denoms)) = (c * denoms)%N.
Proof.
have e : (c * denoms)%:R = \sum_(x <- probs) x * (c * denoms)%:R by rewrite -mulr_suml sum1 mul1r.
apply/eqP; rewrite -(eqr_nat [numDomainType of rat]) [X in _ == X]e /rounds.
rewrite sumnE big_map natr_sum; apply/eqP; rewrite !big_seq; apply: eq_bigr => x xp.
by have [k e1 ->] := exact_round c xp; rewrite e1.
Qed.
Lemma loop_ends N : exists fuel, forall f, (fuel <= f)%N -> isSome (alloc_loop probs f N).
Proof.
exists (N * denoms - N)%N => f hf; apply: (@loop_fuel N (N * denoms)) => //; last by rewrite exact_sum.
by rewrite leq_pmulr // denoms_gt0.
Qed.
End Loop.

Lemma normalizeP s : 0 < \sum_(x <- s) x -> exists2 q, normalize s = Some q &
  size q = size s /\ (\sum_(x <- q) x = 1) /\ forall k, (k < size s)%N -> nth 0 q k = nth 0 s k / \sum_(x <- s) x.
Proof.
move=> h; rewrite /normalize !vsumE; case: eqP => [e | _]; first by rewrite e ltxx in h.
exists [seq x / \sum_(x <- s) x | x <- s] => //; rewrite size_map; split=> //; split.
  by rewrite big_map -mulr_suml divff // gt_eqF.
by move=> k hk; rewrite (nth_map 0).
Qed.

Lemma trim0_nth s k : nth 0%N (trim0 s) k = nth 0%N s k.
Proof.
elim: s k => //= x s IH k; case: ifP => [/andP [/eqP -> /eqP e] | _]; last by case: k => //= k; rewrite IH.
by rewrite nth_nil; case: k => //= k; rewrite -IH e nth_nil.
Qed.
Lemma trim0_size s : (size (trim0 s) <= size s)%N.
Proof. by elim: s => //= x s IH; case: ifP => //= _; rewrite ltnS. Qed.
Lemma trim0_last s : trim0 s != [::] -> nth 0%N s (size (trim0 s)).-1 != 0%N.
Proof.
elim: s => //= x s IH; case: ifP => //= /negbT; rewrite negb_and.
case: (eqVneq (trim0 s) [::]) => [-> | ne]; first by rewrite orbF.
by move=> _ _; move: (IH ne); case: (trim0 s) ne.
Qed.
Lemma trim0_nil s : trim0 s = [::] -> sumn s = 0%N.
Proof. by elim: s => //= x s IH; case: ifP => // /andP [/eqP -> /eqP /IH ->]. Qed.
Lemma trim0_sum s : sumn (trim0 s) = sumn s.
Proof.
by elim: s => //= x s IH; case: ifP => [/andP [/eqP -> /eqP e] | _] /=; rewrite -IH ?e.
Qed.

(* the allocation of samples *)
Lemma allocationP fuel N n p a : 0 < p <= 1 -> (0 < n)%N -> sample_allocation fuel N n p = Some a ->
  [/\ (N <= sumn a)%N, (1 < size a <= n.+1)%N, nth 0%N a 0 = 0%N, forall k, (0 < k < size a)%N -> (0 < nth 0%N a k)%N
    & exists m N', [/\ is_peak n p m, (N <= N' <= sumn a)%N & forall k, (k <= n)%N ->
        `|(nth 0%N a k)%:R - N'%:R * alloc_weight n p m k / \sum_(j < n.+1) alloc_weight n p m j| <= 2%:R^-1]].
Proof.
move=> hp hn; rewrite /sample_allocation; have g0 := flat_gt0 hp hn.
set fl := flatten_left _ in g0 *; have [q -> [sq [sum1 nq]]] := normalizeP g0.
have szf : size fl = n.+1 := flat_size n p.
have q0 : all (fun x => 0 <= x) q.
  apply/(all_nthP 0) => k; rewrite sq => hk; rewrite nq //; apply: divr_ge0; last exact: ltW.
  by have /allP := flat_ge0 hp hn; apply; rewrite mem_nth.
case e: alloc_loop => [b|] //; have [N' le [eb sb]] := loop_some e.
rewrite /truncate; case et: (trim0 b) => [|x s] // [ea] /=; rewrite -ea -et.
have b0 : nth 0%N b 0 = 0%N.
  rewrite eb (nth_map 0) ?sq ?szf // nq ?szf // (flat0 n p) mul0r mul0r; exact: (round_nat 0).
have szb : size b = n.+1 by rewrite eb size_map sq szf.
have bmono j k : (0 < j <= k)%N -> (k <= n)%N -> (nth 0%N b k <= nth 0%N b j)%N.
  move=> /andP [j0 jk] kn; have jn := leq_trans jk kn.
  have hk : (k < size q)%N by rewrite sq szf.
  have hj : (j < size q)%N by rewrite sq szf.
  rewrite eb !(nth_map 0) //; apply: round_mono; first by apply: mulr_ge0; rewrite ?ler0n //; move/allP: q0; apply; rewrite mem_nth.
  apply: ler_wpmul2r; rewrite ?ler0n // !nq -?sq //; apply: ler_wpmul2r; first by rewrite invr_ge0 ltW.
  by apply: (flat_mono hp hn) => //; rewrite j0.
have nt : trim0 b != [::] by rewrite et.
have lst := trim0_last nt; have sz := trim0_size b; rewrite szb in sz.
have sz1 : (1 < size (trim0 b))%N.
  by case: (size (trim0 b)) lst (nt) => [|[|k]] //=; rewrite ?b0 // => _; rewrite -size_eq0 et.
rewrite trim0_sum; split=> //; rewrite ?trim0_nth //; first exact: leq_trans sb.
- by rewrite sz1.
- move=> k /andP [k0 hk]; rewrite trim0_nth.
  have h1 : ((size (trim0 b)).-1 <= n)%N by move: sz; clear; lia.
  have h2 : (0 < k <= (size (trim0 b)).-1)%N by move: hk k0; clear; lia.
  by apply: leq_trans (bmono _ _ h2 h1); rewrite lt0n.
set m := argmax (set_nth 0 (error_probs n p None) 0 0).
have ef k : (k <= n)%N -> nth 0 fl k = alloc_weight n p m k.
  by case: k => [_ | k hk]; [exact: flat0 | rewrite (flat_nth hp hn)].
have tf : \sum_(x <- fl) x = \sum_(k < n.+1) alloc_weight n p m k.
  by rewrite (big_nth 0) big_mkord szf; apply: eq_bigr => k _; rewrite ef // -ltnS.
exists m, N'; split; [split; [exact: peak_range | exact: peak_max] | by rewrite le |].
move=> k hk; rewrite trim0_nth -tf -ef //.
have hk' : (k < size q)%N by rewrite sq szf.
have ew : nth 0 q k * N'%:R = N'%:R * nth 0 fl k / \sum_(x <- fl) x by rewrite nq -?sq // mulrC mulrA.
rewrite -ew eb (nth_map 0) //.
have x0 : 0 <= nth 0 q k * N'%:R by apply: mulr_ge0; rewrite ?ler0n //; move/allP: q0; apply; rewrite mem_nth.
have /andP [h1 h2] := round_bound x0; move: h1 h2; move: (nth 0 q k * N'%:R) => y.
rewrite -muln2 natrM -[y *+ 2]mulr_natr ler_norml => h1 h2; have t0 : 0 < (2%:R : rat) by [].
apply/andP; split; rewrite -(ler_pmul2r t0) mulrBl.
  by rewrite mulNr mulVf // ler_subr_addl.
by rewrite mulVf // ler_subl_addl.
Qed.

(* enough fuel *)
Lemma allocation_exists N n p : 0 < p <= 1 -> (0 < n)%N -> (0 < N)%N ->
  exists fuel, forall f, (fuel <= f)%N -> isSome (sample_allocation f N n p).
Proof.
move=> hp hn hN; have g0 := flat_gt0 hp hn; rewrite /sample_allocation.
set fl := flatten_left _ in g0 *; have [q -> [sq [sum1 nq]]] := normalizeP g0.
have q0 : all (fun x => 0 <= x) q.
  apply/(all_nthP 0) => k; rewrite sq => hk; rewrite nq //; apply: divr_ge0; last exact: ltW.
  by have /allP := flat_ge0 hp hn; apply; rewrite mem_nth.
have [fuel h] := loop_ends q0 sum1 N; exists fuel => f hf; have := h f hf.
case e: alloc_loop => [b|] // _; have [N' le [eb sb]] := loop_some e.
rewrite /truncate; case et: (trim0 b) => [|x s] //.
by move: sb; rewrite (trim0_nil et) leqn0 => /eqP e0; move: le; rewrite e0 leqNgt hN.
Qed.

(* ---------------------------------------------------------------- the estimate *)
Lemma estimatesP alloc fails es : (forall k, (k < (size alloc).-1)%N -> (nth 0%N fails k <= nth 0%N alloc k.+1)%N) ->
  estimates alloc fails = Some es ->
  [/\ size es = (size alloc).-1.+1, nth (0, 0) es 0 = (1, 0),
      forall k, (k < (size alloc).-1)%N -> (nth (0, 0) es k.+1).1 = 1 - (nth 0%N fails k)%:R / (nth 0%N alloc k.+1)%:R
    & forall k, 0 <= (nth (0, 0) es k).1 <= 1 /\ 0 <= (nth (0, 0) es k).2].
Proof.
move=> le; rewrite /estimates; set l := mkseq _ _; case: ifP => // al [<-].
have sl : size l = (size alloc).-1 by rewrite size_mkseq.
have sp : size (pmap id l) = (size alloc).-1.
  rewrite size_pmap (_ : count _ _ = count isSome l) //; move: al; rewrite all_count => /eqP ->; exact: sl.
have h k : (k < (size alloc).-1)%N -> (nth 0%N alloc k.+1 != 0%N) /\
    let inf := (nth 0%N fails k)%:R / (nth 0%N alloc k.+1)%:R in
    nth (0, 0) (pmap id l) k = (1 - inf, inf * (1 - inf) / (nth 0%N alloc k.+1)%:R).
  move=> hk; have : nth None l k = Some (nth (0, 0) (pmap id l) k).
    move: al hk; rewrite -sl; elim: (l) k => // -[x|] l' IH [|k] //= al hk; by rewrite IH.
  by rewrite /l nth_mkseq // /estimate; case: eqP => //= _ [<-].
split=> //=; first by rewrite sp.
  by move=> k hk; have [_ ->] := h k hk.
case=> [|k] //=; case: (ltnP k (size alloc).-1) => hk; last by rewrite nth_default ?sp.
have [nz -> /=] := h k hk; have n0 : 0 < ((nth 0%N alloc k.+1)%:R : rat) by rewrite ltr0n lt0n.
set inf := _ / _; have i0 : 0 <= inf by rewrite divr_ge0 ?ler0n.
have i1 : inf <= 1 by rewrite ler_pdivr_mulr // mul1r ler_nat le.
have i2 : 0 <= 1 - inf by rewrite subr_ge0.
split; first by rewrite i2 /= ger_addl oppr_le0.
by apply: divr_ge0; [exact: mulr_ge0 | exact: ltW].
Qed.

Lemma rateP n max_error_rate es p r : 0 <= p <= 1 -> (1 < size es <= n.+1)%N ->
  logical_error_rate n max_error_rate es p = Some r ->
  [/\ p <= max_error_rate, r.1 = 1 - \sum_(k < size es) binom n p k * (nth (0, 0) es k).1
    & r.2 = \sum_(k < size es) binom n p k ^+ 2 * (nth (0, 0) es k).2].
Proof.
move=> hp /andP [s1 sn]; rewrite /logical_error_rate; case: ltP => // le [<-] /=; rewrite !vsumE !big_map.
have sz : size (error_probs n p (Some (size es).-1)) = size es by rewrite probs_size; case: (size es) s1 => [|[]].
have nt k : (k < size es)%N -> nth 0 (error_probs n p (Some (size es).-1)) k = binom n p k.
  move=> hk; apply: probs_nth; last by rewrite sz.
  by case: (size es) s1 sn => [|[]].
have zs : size (zip (error_probs n p (Some (size es).-1)) es) = size es by rewrite size_zip sz minnn.
by split=> //; [congr (1 - _) |]; rewrite (big_nth (0, (0, 0))) big_mkord zs; apply: eq_bigr => k _; rewrite nth_zip // nt.
Qed.
