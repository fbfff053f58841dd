(* Property C98: random codes and random code words. *)
From mathcomp Require Import all_ssreflect all_algebra zify.
From Verif Require Import LinAlg RowReduce Classical ClassicalProofs ClassicalProofs2 RandomCode.
From Verif Require Import PropsClassical.
Set Implicit Arguments.
Unset Strict Implicit.
Unset Printing Implicit Defensive.
Import GRing.Theory.
Local Open Scope ring_scope.

(* ---- specification *)
(* a checks x bits array *)
Definition of_shape (F : fieldType) (checks bits : nat) (m : seq (seq F)) : Prop :=
  size m = checks /\ forall i, (i < checks)%N -> size (nth [::] m i) = bits.
(* no trivial check and no unchecked bit *)
Definition no_zero_line (F : fieldType) (checks bits : nat) (m : seq (seq F)) : Prop :=
  (forall i, (i < checks)%N -> exists2 j, (j < bits)%N & nth 0 (nth [::] m i) j <> 0) /\
  (forall j, (j < bits)%N -> exists2 i, (i < checks)%N & nth 0 (nth [::] m i) j <> 0).
(* the arrays that a call asks for: with a seed, those of consecutive seeds from a number fixed by the seed on *)
Definition asked_for (St : Type) (reseed : nat -> St) (randint : St -> nat * St) (A : Type) (det fresh : nat -> A)
  (seed : option nat) (k : nat) : A := if seed is Some s then det ((randint (reseed s)).1 + k)%N else fresh k.

Section Props.
Variables (St : Type) (reseed : nat -> St) (randint : St -> nat * St) (F : fieldType).
Notation asked := (asked_for reseed randint).
Notation random := (@code_random St reseed randint F).

Lemma nontrivialP checks bits (m : seq (seq F)) : of_shape checks bits m -> nontrivial bits m <-> no_zero_line checks bits m.
Proof.
case=> sm rm; rewrite /nontrivial; split=> [/andP [/allP h1 /allP h2] | [h1 h2]].
  split=> [i hi | j hj].
    have /h1 /hasP [x /(nthP 0) [j hj <-] nz] : nth [::] m i \in m by rewrite mem_nth ?sm.
    by exists j; [rewrite -(rm i hi) | apply/eqP].
  have /h2 : nth [::] (trl bits m) j \in trl bits m by rewrite mem_nth ?size_trl.
  rewrite nth_trl // => /hasP [x /mapP [r /(nthP [::]) [i hi <-] ->] nz].
  by exists i; [rewrite -sm | apply/eqP].
apply/andP; split; apply/allP => r /(nthP [::]) [i hi <-].
  rewrite sm in hi; have [j hj nz] := h1 i hi; apply/hasP; exists (nth 0 (nth [::] m i) j); last exact/eqP.
  by rewrite mem_nth ?rm.
rewrite size_trl in hi; have [j hj nz] := h2 i hi; rewrite nth_trl //; apply/hasP; exists (nth 0 (nth [::] m j) i); last exact/eqP.
by apply/mapP; exists (nth [::] m j) => //; rewrite mem_nth ?sm.
Qed.

(* ClassicalCode.random: the first array without zero rows and columns among those asked for is the parity check matrix *)
Theorem C98_first checks bits (det fresh : nat -> seq (seq F)) fuel seed st c :
  (forall k, of_shape checks bits (asked det fresh seed k)) ->
  (random bits det fresh fuel seed st).1 = Some c <->
  exists k, [/\ (k < fuel)%N, c = mkcode bits (asked det fresh seed k), no_zero_line checks bits (asked det fresh seed k) &
                forall j, (j < k)%N -> ~ no_zero_line checks bits (asked det fresh seed j)].
Proof.
move=> sh; have [_ h] := random_arrayP reseed randint det fresh fuel (nontrivial bits) seed st.
rewrite /code_random; move: h; case: (get_random_array _ _ _ _ _ _ _ _) => o st' /= h.
have nP k := nontrivialP (sh k).
split.
  case: o h => //= m /(_ m) [/(_ erefl) [k [hk em pm hj]] _] [<-]; exists k.
  split=> //; first by rewrite em.
    by apply: (proj1 (nP k)); move: pm; rewrite em.
  by move=> j /hj /negP h /nP.
case=> k [hk -> nz hj]; rewrite (proj2 (h (asked det fresh seed k))) //; exists k; split=> //.
  by apply: (proj2 (nP k)).
by move=> j lj; apply/negP => /nP; exact: hj.
Qed.
(* so the code has the number of bits and checks that were asked for, no trivial check and no unchecked bit *)
Theorem C98_shape checks bits (det fresh : nat -> seq (seq F)) fuel seed st c :
  (forall k, of_shape checks bits (asked det fresh seed k)) -> (random bits det fresh fuel seed st).1 = Some c ->
  [/\ cc_n c = bits, of_shape checks bits (cc_mat c) & no_zero_line checks bits (cc_mat c)].
Proof. by move=> sh /(proj1 (@C98_first checks bits det fresh fuel seed st c sh)) [k [_ -> nz _]]; split=> //; exact: sh. Qed.

(* with a seed nothing but the seed matters, and NumPy's global random numbers are left alone *)
Theorem C98_reproducible bits (det fresh fresh' : nat -> seq (seq F)) fuel s st st' :
  (random bits det fresh fuel (Some s) st).2 = st /\
  (random bits det fresh fuel (Some s) st).1 = (random bits det fresh' fuel (Some s) st').1.
Proof.
have [e1 _] := random_arrayP reseed randint det fresh fuel (nontrivial bits) (Some s) st.
split; first by rewrite /code_random; move: e1; case: (get_random_array _ _ _ _ _ _ _ _).
rewrite /code_random /get_random_array /get_scrambled_seed; case: (randint _) => v _ /=; congr omap.
by elim: fuel v 0%N {e1} => //= f IH v i; case: ifP => // _; exact: IH.
Qed.

(* the call can end exactly when there are both bits and checks, or neither *)
Theorem C98_possible checks bits :
  (exists2 m : seq (seq F), of_shape checks bits m & no_zero_line checks bits m) <-> ((0 < checks)%N = (0 < bits)%N).
Proof.
split=> [[m [sm rm] [h1 h2]] | e].
  case: (posnP checks) => [c0 | pc]; case: (posnP bits) => [b0 | pb] //.
    by have [i] := h2 0%N pb; rewrite c0.
  by have [i] := h1 0%N pc; rewrite b0.
exists (nseq checks (nseq bits 1)).
  by split=> [|i hi]; rewrite ?size_nseq // nth_nseq hi size_nseq.
split=> [i hi | j hj].
  have pb : (0 < bits)%N by rewrite -e; apply: leq_ltn_trans hi.
  by exists 0%N => //; rewrite nth_nseq hi nth_nseq pb; apply/eqP; exact: oner_neq0.
have pc : (0 < checks)%N by rewrite e; apply: leq_ltn_trans hj.
by exists 0%N => //; rewrite nth_nseq pc nth_nseq hj; apply/eqP; exact: oner_neq0.
Qed.
(* finding: with bits but no checks (or checks but no bits) the call never ends *)
Theorem C98_endless_refuted : exists checks bits, forall (det fresh : nat -> seq (seq F)) seed st fuel,
  (forall k, of_shape checks bits (asked det fresh seed k)) -> (random bits det fresh fuel seed st).1 = None.
Proof.
exists 0%N, 3%N => det fresh seed st fuel sh; case e: (random _ _ _ _ _ _).1 => [c|] //.
have [k [_ _ nz _]] := proj1 (@C98_first 0 3 det fresh fuel seed st c sh) e.
by have /C98_possible := ex_intro2 _ _ _ (sh k) nz.
Qed.

(* get_random_word: a code word, made from one array of coefficients; every word is made from exactly one of them *)
Theorem C98_word (c : ccode F) (det fresh : nat -> seq F) fuel seed st : code_ok c ->
  size (asked det fresh seed 0) = size (generator c) ->
  exists w, [/\ (get_random_word reseed randint c det fresh fuel.+1 seed st).1 = Some w, is_word (cc_n c) (cc_mat c) w &
    is_comb (cc_n c) (generator c) (asked det fresh seed 0) w].
Proof.
move=> ok sz; have [_ h] := random_arrayP reseed randint det fresh fuel.+1 (fun _ => true) seed st.
have [_ /(_ _)/proj2] := random_arrayP reseed randint det fresh fuel.+1 (fun _ => true) seed st.
move=> /(_ (asked det fresh seed 0)) h1; exists (vmulm (cc_n c) (asked det fresh seed 0) (generator c)); split.
- rewrite /get_random_word; move: h1; case: (get_random_array _ _ _ _ _ _ _ _) => o st' /= -> //.
  by exists 0%N.
- have b := gen_basis ok; apply: (iffRL (word_span b (size_vmulm _ _ _))); apply/combP; rewrite ?size_vmulm //.
  by exists (asked det fresh seed 0); apply: vmulm_comb.
exact: vmulm_comb.
Qed.
Theorem C98_words_once (c : ccode F) w : code_ok c -> is_word (cc_n c) (cc_mat c) w ->
  exists2 a, is_comb (cc_n c) (generator c) a w & forall a', is_comb (cc_n c) (generator c) a' w -> a' = a.
Proof.
move=> ok hw; have [_ ex un] := gen_basis ok; have [a ha] := ex w hw; exists a => // a' h'; exact: un h' ha.
Qed.
End Props.

(* ---- non-vacuity: streams of arrays of the right shape; the second array of the unseeded stream is the first good one *)
Definition exR : nat -> seq (seq 'F_2) :=
  fun k => if k is 0%N then [:: [:: 0; 1; 1]; [:: 0; 1; 0]] else [:: [:: 1; 1; 0]; [:: 0; 1; 1]].
Example ex_C98 (St : Type) (reseed : nat -> St) (randint : St -> nat * St) st :
  (forall k, of_shape 2 3 (asked_for reseed randint exR exR None k)) /\
  omap (@cc_mat _) (code_random reseed randint 3 exR exR 5 None st).1 = Some (cc_mat rep3) /\ omap (@cc_mat _) (code_random reseed randint 3 exR exR 1 None st).1 = None.
Proof. by split; [case=> [|k]; split=> // -[|[|]] | split; apply/eqP; vm_compute]. Qed.
Example ex_C98_seed st : omap (@cc_mat _) (code_random (fun s => s) (fun s => (7 * s, s.+1))%N 3 exR exR 5 (Some 0%N) st).1 = Some (cc_mat rep3) /\
  omap (@cc_mat _) (code_random (fun s => s) (fun s => (7 * s, s.+1))%N 3 exR exR 1 (Some 3%N) st).1 = Some (cc_mat rep3).
Proof. by split; apply/eqP; vm_compute. Qed.
Example ex_C98_word (st : nat) : code_ok hamming /\ size (generator hamming) = 4%N /\
  (get_random_word (fun s => s) (fun s => (s, s)) hamming (fun _ => [:: 1; 0; 1; 1]) (fun _ => [:: 1; 0; 1; 1]) 1 None st).1
     != Some (nseq 7 0).
Proof. by split; [case: ex_codes | split; [apply/eqP; vm_compute | vm_compute]]. Qed.

Print Assumptions C98_first.
Print Assumptions C98_shape.
Print Assumptions C98_reproducible.
Print Assumptions C98_possible.
Print Assumptions C98_endless_refuted.
Print Assumptions C98_word.
Print Assumptions C98_words_once.
