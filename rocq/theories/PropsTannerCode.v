(* C20, C21: classical Tanner codes (qldpc/codes/classical.py, TannerCode). *)
From mathcomp Require Import all_ssreflect all_algebra.
From Verif Require Import LinAlg Classical TannerCode.
Set Implicit Arguments.
Unset Strict Implicit.
Unset Printing Implicit Defensive.
Import GRing.Theory.
Local Open Scope ring_scope.

(* C20: for a simple directed graph whose sources all have as many (strictly ordered) edges as the subcode has bits, the words of
   the Tanner code are the assignments of values to the sinks that restrict, at every source, to a word of the subcode *)
Theorem C20_membership (V : eqType) (ltV : rel V) (F : fieldType) g (sub : ccode F) c sk :
  (forall x y, ltV x y -> ~~ ltV y x) ->
  simple g -> wf (cc_n sub) (cc_mat sub) ->
  (forall s, s \in sources g -> exists2 l, in_order ltV g s l & size l = cc_n sub) ->
  perm_eq sk (sinks g) -> pairwise ltV sk ->
  tanner_code ltV g sub = Some c ->
  [/\ cc_n c = size sk, size (cc_mat c) = (size (sources g) * size (cc_mat sub))%N &
    forall w x, assigns sk w x ->
        (is_word (cc_n c) (cc_mat c) w <->
         forall s l, s \in sources g -> in_order ltV g s l -> is_word (cc_n sub) (cc_mat sub) [seq x t.1 | t <- l])].
Proof. move=> asym; exact: tanner_words. Qed.

Theorem C20_accepted (V : eqType) (ltV : rel V) (F : fieldType) g (sub : ccode F) :
  (forall x y, ltV x y -> ~~ ltV y x) ->
  simple g ->
  (forall s, s \in sources g -> exists2 l, in_order ltV g s l & size l = cc_n sub) ->
  (forall e, e \in dedges g -> e.1.2 \in sinks g) -> exists c, tanner_code ltV g sub = Some c.
Proof. move=> asym; exact: tanner_exists. Qed.

(* C20 for undirected graphs: bit i is the i-th edge, and every node with an edge is a check node *)
Theorem C20_undirected (g : ugraph) (F : fieldType) (sub : ccode F) c g' :
  usimple g -> wf (cc_n sub) (cc_mat sub) -> degree_ok g (cc_n sub) ->
  utanner g sub = (Some c, g') ->
  cc_n c = size (uedges g) /\
  forall w, size w = size (uedges g) ->
    (is_word (cc_n c) (cc_mat c) w <->
     forall a l, has (touches g a) (iota 0 (size (uedges g))) -> ulist g a l ->
       is_word (cc_n sub) (cc_mat sub) [seq nth 0 w i | i <- l]).
Proof. move=> sg; exact: utanner_words. Qed.

Theorem C20_undirected_accepted (g : ugraph) (F : fieldType) (sub : ccode F) :
  usimple g -> degree_ok g (cc_n sub) -> exists c, utanner g sub = (Some c, popped g).
Proof. move=> sg; exact: utanner_exists. Qed.

(* C21: two constructions from the same graph object.  True when no edge carries "sort" data (and then the graph is unchanged);
   missing from the full statement: graphs with "sort" data, for which it is false *)
Theorem C21_twice_partial (g : ugraph) (F : fieldType) (sub : ccode F) :
  all (fun e => e.2 == None) (uedges g) ->
  (utanner g sub).2 = g /\ utanner (utanner g sub).2 sub = utanner g sub.
Proof.
move=> h; have e : (utanner g sub).2 = g; last by rewrite e.
case: g h => es /= h; congr UGraph; elim: es h => //= [[e k] es IH] /andP [/eqP /= -> h]; by rewrite IH.
Qed.

(* the triangle 0, 1, 2 with sort data on its edges, and the code of length two whose first bit is zero *)
Definition triangle : ugraph := UGraph [:: (0, 1, Some (1, 0)); (0, 2, Some (0, 1)); (1, 2, Some (1, 0))]%N.
Definition sub2 : ccode [fieldType of 'F_2] := mkcode 2 [:: [:: 1; 0]].

Theorem C21_twice_refuted : exists (g g' g'' : ugraph) (sub c c' : ccode [fieldType of 'F_2]) w,
  [/\ utanner g sub = (Some c, g'), utanner g' sub = (Some c', g''),
      ~ is_word (cc_n c) (cc_mat c) w & is_word (cc_n c') (cc_mat c') w].
Proof.
exists triangle, (popped triangle), (popped triangle), sub2.
exists (mkcode 3 [:: [:: 0; 1; 0]; [:: 1; 0; 0]; [:: 0; 0; 1]]), (mkcode 3 [:: [:: 1; 0; 0]; [:: 1; 0; 0]; [:: 0; 1; 0]]).
exists [:: 0; 0; 1]; split.
- by [].
- by [].
- by case=> _ /(_ [:: 0; 0; 1]); rewrite !inE eqxx !orbT => /(_ isT); rewrite !big_ord_recl big_ord0.
- by split=> // r; rewrite !inE => /or3P [] /eqP ->; rewrite !big_ord_recl big_ord0; apply/eqP.
Qed.

(* non-vacuity *)
(* sources 0 and 1, sinks 10, 11 and 12; the edges of 1 are ordered by their "sort" data *)
Definition gr : dgraph nat_eqType := DGraph [:: 0; 11; 10; 1; 12]%N
  [:: (0, 11, None); (0, 10, None); (1, 11, Some 5); (1, 12, Some 3)]%N.
Definition order (s : nat) : seq (nat * option nat) := if s == 0%N then [:: (10, None); (11, None)]%N else [:: (12, Some 3); (11, Some 5)]%N.
Example ex_C20 : exists c, [/\ simple gr, forall s, s \in sources gr -> in_order ltn gr s (order s) /\ size (order s) = cc_n sub2,
  perm_eq [:: 10; 11; 12]%N (sinks gr) /\ tanner_code ltn gr sub2 = Some c, ~ is_word (cc_n c) (cc_mat c) [:: 1; 1; 0]
  & is_word (cc_n c) (cc_mat c) [:: 0; 1; 0]].
Proof.
exists (mkcode 3 [:: [:: 1; 0; 0]; [:: 0; 0; 1]]); split=> //.
- by split=> // e; rewrite !inE => /or4P [] /eqP ->.
- move=> s; rewrite -[sources gr]/[:: 0; 1]%N !inE => /orP [] /eqP ->; split=> //; split=> // t k; rewrite !inE !xpair_eqE /=.
    by rewrite orbF orbC.
  by rewrite orbC.
- by case=> _ /(_ [:: 1; 0; 0]); rewrite !inE eqxx => /(_ isT); rewrite !big_ord_recl big_ord0.
- by split=> // r; rewrite !inE => /orP [] /eqP ->; rewrite !big_ord_recl big_ord0; apply/eqP.
Qed.
Definition uorder (a : nat) : seq nat := nth [::] [:: [:: 1; 0]; [:: 0; 2]; [:: 2; 1]]%N a.
Example ex_C20_undirected : usimple triangle /\ degree_ok triangle (cc_n sub2).
Proof.
split=> //; move=> a h; exists (uorder a).
  have ha : (a < 3)%N by case: a h => [|[|[|a]]].
  case: a ha h => [|[|[|a]]] // _ _; split=> // i; case: i => [|[|[|i]]] //.
by move: h; case: a => [|[|[|a]]].
Qed.
Example ex_C21 : all (fun e => e.2 == None) (uedges (popped triangle)) /\ (utanner (popped triangle) sub2).1 <> None.
Proof. by []. Qed.

Print Assumptions C20_membership.
Print Assumptions C20_accepted.
Print Assumptions C20_undirected.
Print Assumptions C20_undirected_accepted.
Print Assumptions C21_twice_partial.
Print Assumptions C21_twice_refuted.
