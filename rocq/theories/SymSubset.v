(* Random symmetric subsets of a group: model of qldpc/abstract.py:81-82 (order of group members) and 351-400
   (Group.random_symmetric_subset). *)
From mathcomp Require Import all_ssreflect zify.
From Verif Require Import PermGroup.
Set Implicit Arguments.
Unset Strict Implicit.
Unset Printing Implicit Defensive.

(* ============================================================================== model *)
(* abstract.py:81-82: p < q compares the ranks of two permutations of the same size (external: SymPy); that is the lexicographic
   order of their array forms *)
Fixpoint plt (p q : perm) : bool :=
  match p, q with
  | [::], _ :: _ => true
  | x :: p', y :: q' => (x < y) || ((x == y) && plt p' q')
  | _, [::] => false
  end.
Definition ple (p q : perm) : bool := ~~ plt q p.
(* python's set.add and set.remove (KeyError is None), for sets listed without repetition *)
Definition set_add (x : perm) (s : seq perm) : seq perm := if x \in s then s else rcons s x.
Definition set_remove (x : perm) (s : seq perm) : option (seq perm) := if x \in s then Some (rem x s) else None.
(* outcome of a python call: an exception, still running, a value *)
Inductive outcome := Raised | Running | Returned of seq perm.

Section Subset.
(* rnd t: the group member returned by the t-th call of self.random() (external: SymPy); ri k m: the value of the k-th call of
   sympy.core.random.randint(0, m - 1) *)
Variables (rnd : nat -> perm) (ri : nat -> nat -> nat).

(* sorted(s)[randint(0, len(s) - 1)]; randint raises ValueError on the empty range *)
Definition pick (k : nat) (s : seq perm) : option perm :=
  if (0 < size s) && (ri k (size s) < size s) then Some (nth [::] (sort ple s) (ri k (size s))) else None.
(* abstract.py:392-395: throw away k pairs *)
Fixpoint drop_pairs (k : nat) (d : seq perm) : option (seq perm) :=
  if k is k'.+1 then
    if pick k' d is Some m then
      if set_remove m d is Some d1 then if set_remove (pinv m) d1 is Some d2 then drop_pairs k' d2 else None else None
    else None
  else Some d.
(* abstract.py:390-399: throw away `extra` members and return the union of the two (disjoint) sets *)
Definition finish (extra : nat) (s d : seq perm) : outcome :=
  if drop_pairs extra./2 d is Some d' then
    if odd extra then
      if pick extra s is Some m then if set_remove m s is Some s' then Returned (s' ++ d') else Raised else Raised
    else Returned (s ++ d')
  else Raised.
(* abstract.py:371-399: the loop; t counts the calls of self.random(), fuel bounds their number *)
Fixpoint subset_loop (idn : perm) (size_ : nat) (excl : bool) (fuel t : nat) (s d : seq perm) : outcome :=
  if fuel is f.+1 then
    let m := rnd t in
    if excl && (m == idn) then subset_loop idn size_ excl f t.+1 s d else
    let s' := if m == pinv m then set_add m s else s in
    let d' := if m == pinv m then d else set_add (pinv m) (set_add m d) in
    let n := size s' + size d' in
    if n == size_ then Returned (s' ++ d') else
    if (size_ < n) && (0 < size s') then finish (n - size_) s' d' else
    subset_loop idn size_ excl f t.+1 s' d'
  else Running.
(* abstract.py:351-400: Group.random_symmetric_subset on the group G of permutations of n points; the seed is in rnd and ri *)
Definition random_symmetric_subset (n : nat) (G : group) (size_ : nat) (excl : bool) (fuel : nat) : outcome :=
  if (0 < size_) && (size_ <= size G) then subset_loop (pid n) size_ excl fuel 0 [::] [::] else Raised.
End Subset.

(* ============================================================================= proofs *)
Lemma plt_irr p : plt p p = false.
Proof. by elim: p => //= x p ->; rewrite ltnn andbF. Qed.
Lemma plt_trans : transitive plt.
Proof.
move=> q p r; elim: q p r => [|y q IH] [|x p] [|z r] //= /orP [a | /andP [/eqP -> a]] /orP [b | /andP [/eqP <- b]].
- by rewrite (ltn_trans a b).
- by rewrite a.
- by rewrite b.
- by rewrite eqxx (IH p r a b) orbT.
Qed.
Lemma plt_total p q : p != q -> plt p q || plt q p.
Proof.
elim: p q => [|x p IH] [|y q] //=; rewrite eqseq_cons; case: (ltngtP x y) => //= _ /IH; by [].
Qed.

Section Proofs.
Variables (n : nat) (G : group) (gG : grp_ok n G).
Variables (rnd : nat -> perm) (ri : nat -> nat -> nat).
Hypothesis hrnd : forall t, rnd t \in G.
Hypothesis hri : forall k m, 0 < m -> ri k m < m.

Definition sym (s : seq perm) := forall p, p \in s -> pinv p \in s.
Definition good (excl : bool) (s d : seq perm) :=
  [/\ uniq s, uniq d, {subset s ++ d <= G}, forall p, p \in s -> pinv p = p
    & sym d /\ (forall p, p \in d -> pinv p != p) /\ (excl -> pid n \notin s)].

Lemma set_addP x s y : (y \in set_add x s) = (y == x) || (y \in s).
Proof. rewrite /set_add; case: ifP => h; last by rewrite mem_rcons inE. by case: eqP => // ->. Qed.
Lemma set_add_uniq x s : uniq s -> uniq (set_add x s).
Proof. by rewrite /set_add; case: ifP => // h u; rewrite rcons_uniq h u. Qed.
Lemma add_size x s : size (set_add x s) <= (size s).+1.
Proof. by rewrite /set_add; case: ifP => _; rewrite ?size_rcons. Qed.
Lemma remP (x p : perm) s : uniq s -> (p \in rem x s) = (p != x) && (p \in s).
Proof. by move=> u; rewrite mem_rem_uniq. Qed.
Lemma pinvKG p : p \in G -> pinv (pinv p) = p. Proof. by move=> h; apply: (@pinvK n); apply: (g_valid gG). Qed.

Lemma pickP k s : 0 < size s -> exists2 m, pick ri k s = Some m & m \in s.
Proof.
move=> h; rewrite /pick h hri //=; exists (nth [::] (sort ple s) (ri k (size s))) => //.
by rewrite -(mem_sort ple) mem_nth // size_sort hri.
Qed.

Lemma good_step excl s d m : good excl s d -> m \in G -> ~~ (excl && (m == pid n)) ->
  good excl (if m == pinv m then set_add m s else s) (if m == pinv m then d else set_add (pinv m) (set_add m d)).
Proof.
move=> [us ud sub hs [hd [hd2 hx]]] mG; rewrite negb_and => nx.
have sG p : p \in s -> p \in G by move=> h; apply: sub; rewrite mem_cat h.
have dG p : p \in d -> p \in G by move=> h; apply: sub; rewrite mem_cat h orbT.
case: eqP => [e | ne]; split=> //; rewrite ?set_add_uniq //.
- by move=> p; rewrite mem_cat set_addP -orbA => /or3P [/eqP -> | /sG | /dG].
- by move=> p; rewrite set_addP => /orP [/eqP -> | /hs].
- split=> //; split=> // ex; rewrite set_addP negb_or hx // andbT; move: nx; rewrite ex /= eq_sym; by [].
- by move=> p; rewrite mem_cat !set_addP => /or4P [/sG | /eqP -> | /eqP -> | /dG] //; apply: (g_inv gG).
split; [| split=> //].
  move=> p; rewrite !set_addP => /or3P [/eqP -> | /eqP -> | /hd ->]; rewrite ?orbT ?eqxx ?orbT //.
  by rewrite pinvKG // eqxx orbT.
move=> p; rewrite !set_addP => /or3P [/eqP -> | /eqP -> | /hd2 //].
  by rewrite pinvKG //; apply/eqP.
by apply/eqP => e; apply: ne.
Qed.

Lemma drop_pairsP excl k s d : good excl s d -> k.*2 <= size d ->
  exists d', [/\ drop_pairs ri k d = Some d', good excl s d' & size d' + k.*2 = size d].
Proof.
elim: k d => [|k IH] d g sz; first by exists d; rewrite addn0.
have [us ud sub hs [hd [hd2 hx]]] := g.
have dpos : 0 < size d by move: sz; clear; lia.
have [m em md] := pickP k dpos; rewrite /= em /set_remove md.
have im : pinv m \in rem m d by rewrite mem_rem_uniq //; apply/andP; split; [apply: hd2 | apply: hd].
rewrite im; set d2 : seq perm := rem _ _.
have s2 : (@size perm d2).+2 = @size perm d.
  have gt1 : 1 < size d by apply: leq_trans sz; rewrite doubleS.
  by rewrite /d2 (size_rem im) (size_rem md) !prednK // -ltnS prednK.
have m2 p : (p \in d2) = [&& p != pinv m, p != m & p \in d].
  by rewrite /d2 remP ?rem_uniq // remP.
have mG : m \in G by apply: sub; rewrite mem_cat md orbT.
have g2 : good excl s d2.
  split=> //; rewrite ?rem_uniq //.
    by move=> p; rewrite mem_cat m2 => /orP [h | /and3P [_ _ h]]; apply: sub; rewrite mem_cat h ?orbT.
  split; last by split=> // p; rewrite m2 => /and3P [_ _ /hd2].
  move=> p; rewrite !m2 => /and3P [h1 h2 h3]; rewrite hd // andbT.
  have pG : p \in G by apply: sub; rewrite mem_cat h3 orbT.
  apply/andP; split; apply/negP => /eqP e; first by move: h2; rewrite -(pinvKG mG) -e pinvKG // eqxx.
  by move: h1; rewrite -e pinvKG // eqxx.
have [|d' [e1 e2 e3]] := IH d2 g2; first by move: sz s2; clear; lia.
by exists d'; split=> //; move: e3 s2; clear; lia.
Qed.

Definition result_ok (size_ : nat) (excl : bool) (r : seq perm) :=
  [/\ uniq r, size r = size_, {subset r <= G}, sym r & excl -> pid n \notin r].

Lemma good_result excl s d : good excl s d -> result_ok (size s + size d) excl (s ++ d).
Proof.
move=> [us ud sub hs [hd [hd2 hx]]]; split; rewrite ?size_cat //.
- rewrite cat_uniq us ud andbT; apply/hasPn => p /hd2 h; apply/negP => /hs e; by rewrite e eqxx in h.
- move=> p; rewrite !mem_cat => /orP [h | h]; first by rewrite (hs _ h) h.
  by rewrite hd // orbT.
move=> ex; rewrite mem_cat negb_or hx //=; apply/negP => /hd2.
by rewrite (@pinv1 n) eqxx.
Qed.

Lemma finishP excl size_ s d : good excl s d -> 0 < size s -> size_ < size s + size d ->
  (size s + size d - size_)./2.*2 <= size d ->
  exists2 r, finish ri (size s + size d - size_) s d = Returned r & result_ok size_ excl r.
Proof.
move=> g ps lt hd; have [d' [e1 g' e3]] := drop_pairsP g hd; rewrite /finish e1.
have eo := odd_double_half (size s + size d - size_).
case: ifP => od; last first.
  exists (s ++ d') => //; have [r1 r2 r3 r4 r5] := good_result g'; split=> //; rewrite r2.
  by move: eo e3 lt; rewrite od add0n; clear; lia.
have [m -> ms] := pickP (size s + size d - size_) ps; rewrite /set_remove ms; exists (rem m s ++ d') => //.
have [us ud sub hs [hd1 [hd2 hx]]] := g'.
have g2 : good excl (rem m s) d'.
  split=> //; rewrite ?rem_uniq //.
  - by move=> p; rewrite mem_cat => /orP [/mem_rem h | h]; apply: sub; rewrite mem_cat h ?orbT.
  - by move=> p /mem_rem; apply: hs.
  - by split=> //; split=> // ex; apply/negP => /mem_rem; apply/negP; apply: hx.
have [r1 r2 r3 r4 r5] := good_result g2; split=> //; rewrite r2 (size_rem ms : @size perm _ = (@size perm _).-1).
by move: eo e3 lt ps; rewrite od add1n; clear; lia.
Qed.

(* at the start of each turn: too few members, or no member that is its own inverse *)
Lemma loopP excl size_ fuel t s d : 0 < size_ -> good excl s d -> size s = 0 \/ size s + size d < size_ ->
  subset_loop rnd ri (pid n) size_ excl fuel t s d = Running \/
  exists2 r, subset_loop rnd ri (pid n) size_ excl fuel t s d = Returned r & result_ok size_ excl r.
Proof.
move=> p0; elim: fuel t s d => [|f IH] t s d g inv; first by left.
rewrite /=; case: ifP => [_ | /negbT nx]; first exact: IH.
have := good_step g (hrnd t) nx.
have [us ud _ _ _] := g.
set s' := if _ then _ else _; set d' := if _ then _ else _ => g'.
have hsz : (size s' <= (size s).+1) && (size d' <= (size d).+2) && ((size s' == size s) || (d' == d)).
  have := add_size (rnd t) s; have := add_size (pinv (rnd t)) (set_add (rnd t) d); have := add_size (rnd t) d.
  rewrite /s' /d'; case: (rnd t == _); rewrite ?eqxx ?orbT ?andbT; clear; lia.
case: eqP => [e | ne]; first by right; exists (s' ++ d') => //; rewrite -e; apply: good_result.
case: ifP => [/andP [lt ps] | nlt]; last first.
  apply: IH => //; move/negbT: nlt; rewrite negb_and -leqNgt -eqn0Ngt => /orP [h | /eqP h]; last by left.
  by right; move: h ne; clear; lia.
right; apply: finishP => //.
have eo := odd_double_half (size s' + size d' - size_); move: eo; set o := nat_of_bool _ => eo.
case/andP: hsz => /andP [a b] /orP [/eqP c | /eqP c]; case: inv => i; move: eo a b c i ps lt p0; clear; lia.
Qed.

Lemma finish_not_running k s d : finish ri k s d <> Running.
Proof.
rewrite /finish; case: (drop_pairs _ _ _) => // d'; case: (odd k) => //.
by case: (pick _ _ _) => // m; case: (set_remove _ _).
Qed.
Lemma running excl size_ fuel t s d : 0 < size_ -> good excl s d -> size s = 0 \/ size s + size d < size_ ->
  subset_loop rnd ri (pid n) size_ excl fuel t s d = Running ->
  exists s' d', [/\ good excl s' d', size s' = 0 \/ size s' + size d' < size_, {subset s ++ d <= s' ++ d'}
    & forall i, t <= i < t + fuel -> ~~ (excl && (rnd i == pid n)) -> rnd i \in s' ++ d'].
Proof.
move=> p0; elim: fuel t s d => [|f IH] t s d g inv.
  by move=> _; exists s, d; split=> // i; rewrite addn0 => /andP [/leq_ltn_trans h /h]; rewrite ltnn.
rewrite /=; case: ifP => [ex | /negbT nx].
  move=> /(IH _ _ _ g inv) [s' [d' [h1 h2 h3 h4]]]; exists s', d'; split=> // i /andP [i1 i2] ne.
  case: (ltngtP t i) i1 => // [lt | e] _; first by apply: h4 => //; rewrite lt addSnnS.
  by rewrite -e ex in ne.
have := good_step g (hrnd t) nx.
set s1 := if _ then _ else _; set d1 := if _ then _ else _ => g1.
have m1 : rnd t \in s1 ++ d1.
  by rewrite /s1 /d1 mem_cat; case: eqP => _; rewrite !set_addP ?eqxx ?orbT.
have sub1 : {subset s ++ d <= s1 ++ d1}.
  by move=> p; rewrite !mem_cat /s1 /d1; case: eqP => _; rewrite !set_addP => /orP [] ->; rewrite ?orbT.
case: eqP => // ne; case: ifP => [_ /finish_not_running // | nlt].
have inv1 : size s1 = 0 \/ size s1 + size d1 < size_.
  move/negbT: nlt; rewrite negb_and -leqNgt -eqn0Ngt => /orP [h | /eqP h]; last by left.
  by right; move: h ne; clear; lia.
move=> /(IH _ _ _ g1 inv1) [s' [d' [h1 h2 h3 h4]]]; exists s', d'; split=> //; first by move=> p /sub1 /h3.
move=> i /andP [i1 i2] ni; case: (ltngtP t i) i1 => // [lt | e] _; first by apply: h4 => //; rewrite lt addSnnS.
by rewrite -e; apply: h3.
Qed.

Lemma not_running (excl : bool) size_ fuel : 0 < size_ <= size G - excl ->
  (exists p, [/\ p \in G, pinv p = p & ~~ (excl && (p == pid n))]) ->
  (forall p, p \in G -> exists2 i, i < fuel & rnd i = p) ->
  subset_loop rnd ri (pid n) size_ excl fuel 0 [::] [::] <> Running.
Proof.
move=> /andP [p0 le] [p [pG pp pne]] all_ run.
have g0 : good excl [::] [::] by [].
have [s [d [[us ud sub hs [hd [hd2 hx]]] inv _ h]]] := running p0 g0 (or_introl erefl) run.
have mem q : q \in G -> ~~ (excl && (q == pid n)) -> q \in s ++ d.
  by move=> /all_ [i hi <-] ne; apply: h.
have ps : p \in s by have := mem p pG pne; rewrite mem_cat => /orP [// | /hd2]; rewrite pp eqxx.
have szs : 0 < size s by case: (s) ps.
case: inv => [e | lt]; first by rewrite e in szs.
have uG : uniq G by case: gG.
have : size [seq q <- G | ~~ (excl && (q == pid n))] <= size (s ++ d).
  by apply: uniq_leq_size => [| q]; rewrite ?filter_uniq // mem_filter => /andP [ne qG]; apply: mem.
rewrite size_cat leqNgt (leq_trans lt) //; apply: (leq_trans le).
rewrite size_filter; case: (excl) => /=; last by rewrite subn0 count_predT.
by rewrite -(count_predC (pred1 (pid n)) G) count_uniq_mem // (g_one gG) addnC addnK.
Qed.
End Proofs.
