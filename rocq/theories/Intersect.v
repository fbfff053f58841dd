(* Intersection of the automorphisms of the instrumental code with the group of gates: model of qldpc/circuits.py:226-260 with the
   conventions of sympy for the sizes of permutations, on top of TransAut.v. *)
From mathcomp Require Import all_ssreflect zify.
From Verif Require Import Circuits TransAut.
Set Implicit Arguments.
Unset Strict Implicit.
Unset Printing Implicit Defensive.

(* ====================================================================== specification *)
(* permutations of the columns *)
Definition col_perm (N : nat) (a : nat -> nat) : Prop :=
  [/\ forall x, x < N -> a x < N, forall x y, x < N -> y < N -> a x = a y -> x = y & forall x, N <= x -> a x = x].

(* products of allowed gates, seen on the columns *)
Definition gate_group (n : nat) (gs : seq lgate) (sw : bool) (a : nat -> nat) : Prop :=
  exists2 b, gen_by (is_gen n gs sw) b & forall x, x < size (sectors gs) * n -> b x = a x.

(* ============================================================================== model *)
(* a generator as GAP prints it and as circuits.py:230-243 builds it: a list of disjoint cycles *)
Definition cycles := seq (seq nat).
Definition cyc_fun (g : cycles) (x : nat) : nat := foldr (fun c r => if x \in c then next c x else r) x g.
(* sympy (external): the size of a permutation given by cycles is one more than the largest number in them, and the degree of a
   group is the largest size of a generator; without generators it is 0 *)
Definition gdegree (gens : seq cycles) : nat := foldr maxn 0 [seq x.+1 | x <- flatten (flatten gens)].
(* circuits.py:228-244: the generators of the group of gates *)
Definition column_perms (n : nat) (gs : seq lgate) (sw : bool) : seq cycles :=
  (if sw then [seq [seq [:: s * n + q; s * n + q + 1] | s <- iota 0 (size (sectors gs))] | q <- iota 0 (n - 1)] else [::]) ++
  (if gs is [::] then [::]
   else [seq [:: [:: s * n + q; (s + 1) * n + q]] | s <- iota 0 (size (sectors gs) - 1), q <- iota 0 n]).
(* the group with the given generators *)
Definition generated (gens : seq cycles) : (nat -> nat) -> Prop := gen_by (fun b => exists2 g, g \in gens & b =1 cyc_fun g).
(* sympy (external): PermutationGroup.contains is strict, so that members of a group of another degree are not contained *)
Definition contains (dG : nat) (G : (nat -> nat) -> Prop) (da : nat) (a : nat -> nat) : Prop := da = dG /\ G a.
(* circuits.py:246-248 and 251-260: subgroup_search (sympy, external) finds the elements with the given property, besides the
   identity; gens are the generators of the automorphism group of the instrumental code *)
Definition intersection (n : nat) (gs : seq lgate) (sw : bool) (gens : seq cycles) (a : nat -> nat) : Prop :=
  (generated gens a /\ contains (gdegree (column_perms n gs sw)) (generated (column_perms n gs sw)) (gdegree gens) a) \/ a =1 id.

(* ============================================================================= proofs *)
Lemma foldr_max_le N l : all (fun x => x < N) l -> foldr maxn 0 [seq x.+1 | x <- l] <= N.
Proof. by elim: l => //= x l IH /andP [hx /IH h]; rewrite geq_max hx. Qed.
Lemma foldr_max_ge l x : x \in l -> x < foldr maxn 0 [seq x.+1 | x <- l].
Proof. by elim: l => //= y l IH; rewrite inE leq_max => /orP [/eqP ->|/IH ->]; rewrite ?leqnn ?orbT. Qed.
Lemma foldr_max_mem l m : foldr maxn 0 [seq x.+1 | x <- l] = m.+1 -> m \in l.
Proof.
elim: l => //= y l IH; rewrite inE maxnE; case: (leqP (foldr maxn 0 [seq x.+1 | x <- l]) y.+1) => h e.
  by apply/orP; left; apply/eqP; move: h e; clear; lia.
by apply/orP; right; apply: IH; move: h e; clear; lia.
Qed.
Lemma gdegree_full N gens : 0 < N -> all (fun x => x < N) (flatten (flatten gens)) ->
  gdegree gens = N <-> N.-1 \in flatten (flatten gens).
Proof.
move=> N0 h; split=> [e | m]; first by apply: foldr_max_mem; rewrite prednK.
apply/eqP; rewrite eqn_leq foldr_max_le //=.
by have := foldr_max_ge m; rewrite prednK.
Qed.

Lemma cyc_moves g x : all (fun c => uniq c && (1 < size c)) g -> (x \in flatten g) = (cyc_fun g x != x).
Proof.
rewrite /cyc_fun; elim: g => [|c g IH] /=; first by rewrite eqxx.
case/andP => /andP [u s] /IH e; rewrite mem_cat e; case: ifP => //= hx.
case: c u s hx {IH e} => [|y [|z c]] // u _ hx; apply/esym/eqP => e.
have [i s' er] := rot_to hx; have ur : uniq (x :: s') by rewrite -er rot_uniq.
have sr : size (x :: s') = (size c).+2 by rewrite -er size_rot.
have := next_rot i u x; rewrite er e; case: s' ur sr {er} => [|w s'] //= ur _.
by rewrite eqxx => ew; move: ur; rewrite ew inE eqxx.
Qed.
(* cycles of different points, of length at least two, on the first N points, as GAP and sympy print them *)
Definition proper (N : nat) (gens : seq cycles) : bool :=
  all (fun g => all (fun c => [&& uniq c, 1 < size c & all (fun x => x < N) c]) g) gens.
Lemma proper_lt N gens : proper N gens -> all (fun x => x < N) (flatten (flatten gens)).
Proof.
move=> /allP h; apply/allP => x /flattenP [c /flattenP [g /h /allP hg /hg /and3P [_ _ /allP hc]]]; exact: hc.
Qed.
Lemma proper_moves N gens x : proper N gens ->
  x \in flatten (flatten gens) <-> exists2 g, g \in gens & cyc_fun g x != x.
Proof.
move=> /allP h.
have hm g : g \in gens -> (x \in flatten g) = (cyc_fun g x != x).
  by move=> /h hg; apply: cyc_moves; apply: sub_all hg => c /and3P [-> ->].
split=> [/flattenP [c /flattenP [g hg hc] hx] | [g hg]].
  by exists g => //; rewrite -hm //; apply/flattenP; exists c.
by rewrite -hm // => /flattenP [c hc hx]; apply/flattenP; exists c => //; apply/flattenP; exists g.
Qed.

Lemma sectors_ge2 gs : 1 < size (sectors gs). Proof. by case: gs => [|[] [|g gs]]. Qed.
Lemma column_perms_lt n gs sw : all (fun x => x < size (sectors gs) * n) (flatten (flatten (column_perms n gs sw))).
Proof.
apply/allP => x /flattenP [c /flattenP [g]]; rewrite /column_perms mem_cat => /orP [].
  case: sw => // /mapP [q]; rewrite mem_iota => hq -> /mapP [s]; rewrite mem_iota => hs ->; rewrite !inE.
  set k := size _ in hs *.
  have : (s + 1) * n <= k * n by rewrite leq_mul2r; move: hs; clear; lia.
  by move: hq; clear; move=> hq hs /orP [] /eqP ->; move: hq hs; rewrite !mulnDl ?mul1n; lia.
case: gs => // l gs; set k := size _.
case/allpairsP => -[s q] /= []; rewrite !mem_iota => hs hq -> ; rewrite inE => /eqP ->; rewrite !inE.
have : (s + 2) * n <= k * n by rewrite leq_mul2r; move: hs; clear; lia.
by move: hq; clear; move=> hq hs /orP [] /eqP ->; move: hq hs; rewrite !mulnDl ?mul1n; lia.
Qed.
Lemma column_perms_last n gs sw : (sw && (1 < n)) || ((gs != [::]) && (0 < n)) ->
  (size (sectors gs) * n).-1 \in flatten (flatten (column_perms n gs sw)).
Proof.
have k2 := sectors_ge2 gs; move=> h; set k := size _ in k2 *.
have en : forall d, d <= k -> (k - d) * n + d * n = k * n by move=> d hd; rewrite -mulnDl subnK.
case/orP: h => /andP [].
  move=> -> n1; apply/flattenP; exists [:: (k - 1) * n + (n - 2); (k - 1) * n + (n - 2) + 1]; last first.
    by rewrite !inE; apply/orP; right; apply/eqP; have := en 1 (ltnW k2); move: n1; clear; lia.
  apply/flattenP; exists [seq [:: s * n + (n - 2); s * n + (n - 2) + 1] | s <- iota 0 k]; last first.
    by apply/mapP; exists (k - 1) => //; rewrite mem_iota; move: k2; clear; lia.
  rewrite /column_perms mem_cat; apply/orP; left; apply/mapP; exists (n - 2) => //.
  by rewrite mem_iota; move: n1; clear; lia.
move=> g0 n0; apply/flattenP; exists [:: (k - 2) * n + (n - 1); (k - 2 + 1) * n + (n - 1)]; last first.
  rewrite !inE; apply/orP; right; apply/eqP; have := en 1 (ltnW k2).
  have -> : k - 2 + 1 = k - 1 by move: k2; clear; lia.
  by move: n0; clear; lia.
apply/flattenP; exists [:: [:: (k - 2) * n + (n - 1); (k - 2 + 1) * n + (n - 1)]]; last exact: mem_head.
rewrite /column_perms mem_cat; apply/orP; right; rewrite -/k.
suff : [:: [:: (k - 2) * n + (n - 1); (k - 2 + 1) * n + (n - 1)]] \in
   [seq [:: [:: s * n + q; (s + 1) * n + q]] | s <- iota 0 (k - 1), q <- iota 0 n] by case: (gs) g0.
apply/allpairsP; exists (k - 2, n - 1); rewrite /= !mem_iota; split=> //; by move: n0 k2; clear; lia.
Qed.

Lemma degrees_agree n gs sw gens : (sw && (1 < n)) || ((gs != [::]) && (0 < n)) -> proper (size (sectors gs) * n) gens ->
  gdegree gens = gdegree (column_perms n gs sw) <->
  exists2 g, g \in gens & cyc_fun g (size (sectors gs) * n).-1 != (size (sectors gs) * n).-1.
Proof.
move=> h hp; have k2 := sectors_ge2 gs.
have N0 : 0 < size (sectors gs) * n by rewrite muln_gt0 (ltnW k2); case/orP: h => /andP [_ //]; exact: ltnW.
have e : gdegree (column_perms n gs sw) = size (sectors gs) * n.
  by apply/gdegree_full => //; [apply: column_perms_lt | apply: column_perms_last].
rewrite e -(proper_moves _ hp); exact: (gdegree_full N0 (proper_lt hp)).
Qed.

Lemma generated_fix gens y a : (forall g, g \in gens -> cyc_fun g y = y) -> generated gens a -> a y = y.
Proof. by move=> h; elim=> [b -> | b c d _ IH [g hg ec] ed] //; rewrite ed IH ec h. Qed.
(* ---- the cycles are the generators of Circuits.v *)
Lemma swap_cycles n q l x : q.+1 < n -> cyc_fun [seq [:: s * n + q; s * n + q + 1] | s <- l] x =
  if (x %/ n \in l) && (x %% n == q) then x.+1 else if (x %/ n \in l) && (x %% n == q.+1) then x.-1 else x.
Proof.
move=> hq; rewrite /cyc_fun; elim: l => //= s l ->; rewrite !inE; have n0 : 0 < n by move: hq; clear; lia.
have E r : r < n -> (x == s * n + r) = (x %/ n == s) && (x %% n == r).
  move=> hr; apply/eqP/andP => [-> | [/eqP e1 /eqP e2]]; last by rewrite (divn_eq x n) e1 e2.
  by rewrite divnMDl // modnMDl divn_small // modn_small // addn0 !eqxx.
rewrite -addnA addn1 !E ?(ltnW hq) //; case: (x %/ n == s) / eqP => [es|] //=; rewrite ?orbF.
case: (x %% n == q) / eqP => [eq_|nq] /=; first by rewrite addnS (divn_eq x n) es eq_.
case: (x %% n == q.+1) / eqP => [eq_|nq'] /=; last by rewrite ?andbF.
by rewrite ?eqxx (divn_eq x n) es eq_ addnS.
Qed.
Lemma swap_cols n k q x : q.+1 < n -> x < k * n ->
  cyc_fun [seq [:: s * n + q; s * n + q + 1] | s <- iota 0 k] x = swap_gen n q x.
Proof.
move=> hq hx; have n0 : 0 < n by move: hq; clear; lia.
by rewrite swap_cycles // mem_iota add0n /= ltn_divLR // hx.
Qed.
Lemma sector_cols n s q x : cyc_fun [:: [:: s * n + q; (s + 1) * n + q]] x = sector_gen n s q x.
Proof.
rewrite /cyc_fun /sector_gen /swap_loc /= addn1 !inE.
by case: (x == s * n + q) / eqP => //= h1; case: (x == s.+1 * n + q) / eqP.
Qed.
Lemma perms_gen n gs sw g : g \in column_perms n gs sw ->
  exists2 c, is_gen n gs sw c & forall x, x < size (sectors gs) * n -> c x = cyc_fun g x.
Proof.
rewrite /column_perms mem_cat => /orP [].
  case: sw => // /mapP [q]; rewrite mem_iota => hq ->; exists (swap_gen n q); last first.
    by move=> x hx; rewrite swap_cols //; move: hq; clear; lia.
  by left; split=> //; exists q => //; move: hq; clear; lia.
case: gs => // l gs; case/allpairsP => -[s q]; rewrite [(s, q).1]/= [(s, q).2]/= !mem_iota => -[hs hq ->].
exists (sector_gen n s q); last by move=> x _; rewrite sector_cols.
right; split=> //; exists s, q; split; last by [].
  by move: hs; set k := size _; clearbody k; clear; lia.
by move: hq; clear; lia.
Qed.
Lemma gen_perms n gs sw c : is_gen n gs sw c ->
  exists2 g, g \in column_perms n gs sw & forall x, x < size (sectors gs) * n -> cyc_fun g x = c x.
Proof.
case=> [[-> [q hq ec]] | [g0 [s [q [hs hq ec]]]]].
  exists [seq [:: s * n + q; s * n + q + 1] | s <- iota 0 (size (sectors gs))]; last by move=> x hx; rewrite swap_cols // ec.
  by rewrite /column_perms mem_cat; apply/orP; left; apply/mapP; exists q => //; rewrite mem_iota; move: hq; clear; lia.
exists [:: [:: s * n + q; (s + 1) * n + q]]; last by move=> x hx; rewrite sector_cols ec.
rewrite /column_perms mem_cat; apply/orP; right; case: gs g0 hs => // l gs _ hs.
apply/allpairsP; exists (s, q); rewrite [(s, q).1]/= [(s, q).2]/= !mem_iota; split; last by [].
  by move: hs; set k := size _; clearbody k; clear; lia.
by move: hq; clear; lia.
Qed.
Lemma generated_gate n gs sw a : generated (column_perms n gs sw) a -> gate_group n gs sw a.
Proof.
elim=> [b eb | b c d _ [b' gb' eb'] [g hg ec] ed]; first by exists id; [apply: gen_id | move=> x _; rewrite eb].
have [c' gc' ec'] := perms_gen hg; exists (fun x => c' (b' x)); first exact: (gen_mul gb' gc').
by move=> x hx; have [lt _] := group_perm gb'; rewrite ec' ?lt // ed ec eb'.
Qed.
Lemma gate_generated n gs sw a : gate_group n gs sw a -> (forall x, size (sectors gs) * n <= x -> a x = x) ->
  generated (column_perms n gs sw) a.
Proof.
case=> b gb eb fa.
have [a' ga' ea'] : exists2 a', generated (column_perms n gs sw) a' & forall x, x < size (sectors gs) * n -> a' x = b x.
  elim: gb {eb} => [b1 e1 | b1 c1 d1 gb1 [a' ga' ea'] gc1 ed1]; first by exists id; [apply: gen_id | move=> x _; rewrite e1].
  have [g hg eg] := gen_perms gc1; exists (fun x => cyc_fun g (a' x)); first by apply: (gen_mul ga') => //; exists g.
  by move=> x hx; have [lt _] := group_perm gb1; rewrite ea' // eg ?lt // ed1.
have fa' x : size (sectors gs) * n <= x -> a' x = x.
  move=> hx; apply: generated_fix ga' => g hg; apply/eqP/negPn/negP => hm.
  suff : x < size (sectors gs) * n by rewrite ltnNge hx.
  apply: (allP (column_perms_lt n gs sw)); apply/flattenP.
  move: hm; rewrite /cyc_fun => hm; have /hasP [c hc hx'] : has (fun c => x \in c) g.
    by apply/negPn/negP => hn; move/eqP: hm; apply; elim: (g) hn => //= c l IH; rewrite negb_or => /andP [/negbTE -> /IH].
  by exists c => //; apply/flattenP; exists g.
have e x : a' x = a x by case: (ltnP x (size (sectors gs) * n)) => hx; [rewrite ea' // eb | rewrite fa' // fa].
case: ga' e => [a1 e1 e | b1 c1 d1 h1 h2 h3 e]; first by apply: gen_id => x; rewrite -e e1.
by apply: (gen_mul h1 h2) => x; rewrite -e h3.
Qed.

Lemma aut_id n gs H a : a =1 id -> automorphism n gs H a.
Proof.
move=> ea e e' he hw h hh; rewrite -(hw h hh) /dot !big_seq; apply: eq_bigr => x.
by rewrite mem_iota add0n => hx; rewrite -(he x hx) ea.
Qed.
Lemma aut_comp n gs H a b c : automorphism n gs H a -> automorphism n gs H b -> (forall x, c x = b (a x)) -> automorphism n gs H c.
Proof.
move=> ha hb hc e e' he hw; apply: (hb (fun y => e' (b y))) => //.
by apply: (ha e) => // x hx; rewrite -hc he.
Qed.
Lemma aut_generated n gs H gens a : (forall g, g \in gens -> automorphism n gs H (cyc_fun g)) -> generated gens a ->
  automorphism n gs H a.
Proof.
move=> h; elim=> [b eb | b c d _ IH [g hg ec] ed]; first exact: aut_id.
apply: (aut_comp IH _ ed) => e e' he; apply: (h g hg e e') => x hx; by rewrite -ec he.
Qed.
Lemma gate_id n gs sw a : a =1 id -> gate_group n gs sw a.
Proof. by move=> ea; exists id; [apply: gen_id | move=> x _; rewrite ea]. Qed.

(* gens generate the automorphism group, as GAP computes it (external) *)
Definition aut_gens (n : nat) (gs : seq lgate) (H : seq check) (gens : seq cycles) : Prop :=
  proper (size (sectors gs) * n) gens /\
  forall a, col_perm (size (sectors gs) * n) a -> automorphism n gs H a <-> generated gens a.
Lemma exact n gs sw H gens a : (sw && (1 < n)) || ((gs != [::]) && (0 < n)) -> aut_gens n gs H gens ->
  col_perm (size (sectors gs) * n) a ->
  intersection n gs sw gens a <->
  a =1 id \/
  (automorphism n gs H a /\ gate_group n gs sw a) /\
  exists g, g \in gens /\ cyc_fun g (size (sectors gs) * n).-1 != (size (sectors gs) * n).-1.
Proof.
move=> h [hp hg] pa; have hd := degrees_agree h hp; rewrite /intersection /contains hg //.
split=> [[[ga [/hd [g g1 g2] gb]] | e] | [e | [[ga gb] [g [g1 g2]]]]]; [right | left | right | left] => //.
  by split; [split=> //; apply: generated_gate | exists g].
by split=> //; split; [apply/hd; exists g | apply: gate_generated gb _; case: pa].
Qed.
Lemma complete n gs sw H gens a b : (sw && (1 < n)) || ((gs != [::]) && (0 < n)) -> aut_gens n gs H gens ->
  col_perm (size (sectors gs) * n) b -> automorphism n gs H b -> b (size (sectors gs) * n).-1 <> (size (sectors gs) * n).-1 ->
  col_perm (size (sectors gs) * n) a ->
  intersection n gs sw gens a <-> automorphism n gs H a /\ gate_group n gs sw a.
Proof.
move=> h hg pb ab mb pa; rewrite (exact h hg pa); case: (hg) => hp hgen.
have [g g1 g2] : exists2 g, g \in gens & cyc_fun g (size (sectors gs) * n).-1 != (size (sectors gs) * n).-1.
  case E: (has (fun g => cyc_fun g (size (sectors gs) * n).-1 != (size (sectors gs) * n).-1) gens); first exact/hasP.
  case: mb; apply: (@generated_fix gens); last by apply/hgen.
  by move=> g g1; apply/eqP; move/negbT: E => /hasPn /(_ g g1); rewrite negbK.
split=> [[e | [] //] | [aa ga]]; first by split; [apply: aut_id | apply: gate_id].
by right; split=> //; exists g.
Qed.
