(* Property C94: random members of a group (qldpc/abstract.py, Group.random, TrivialGroup.random, SmallGroup.random). *)
From mathcomp Require Import all_ssreflect zify.
From Verif Require Import PermGroup Abelian SymSubset GroupRandom PropsGroup PropsLifted PropsSymSubset.
Set Implicit Arguments.
Unset Strict Implicit.
Unset Printing Implicit Defensive.

(* whatever is drawn, and for every class of groups, a returned permutation is a member of the group *)
Theorem C94_member n (G : group) unrank c r p : grp_ok n G -> unranks unrank G -> r < size G ->
  random_member n unrank c r = Some p -> p \in G.
Proof. by move=> gG uG; apply: (random_in gG uG). Qed.

(* of the ranks that may be drawn, exactly one gives each member: the draw is uniform if the rank is. This holds for the base
   class and for small groups of index above one, *)
Theorem C94_uniform_partial n (G : group) unrank c p : grp_ok n G -> unranks unrank G -> 0 < n ->
  c = BaseGroup \/ (exists2 i, 1 < i & c = SmallG i) -> p \in G -> hits n unrank c G p = 1.
Proof.
move=> gG uG n0 hc pG; rewrite -(hits_unrank gG uG pG); apply: eq_count => r.
by case: hc => [-> | [i i1 ->]] /=; rewrite ?i1 /group_random gtn_eqF.
Qed.

(* and a class reaches all members of a group exactly when it is one of these or the group has a single member *)
Theorem C94_reaches n (G : group) unrank c : grp_ok n G -> unranks unrank G -> 0 < n ->
  (forall p, p \in G -> exists2 r, r < size G & random_member n unrank c r = Some p) <->
  c = BaseGroup \/ (exists2 i, 1 < i & c = SmallG i) \/ size G = 1.
Proof.
move=> gG uG n0; have n0' := gtn_eqF n0; have oG := one_in gG.
have lone : size G = 1 -> forall p, p \in G -> p = pid n.
  by case: G oG {gG uG} => [|a [|]] // oG _ p; move: oG; rewrite !inE => /eqP -> /eqP.
have s0 : 0 < size G by case: G oG {gG uG lone}.
have stuck : (forall p, p \in G -> p = pid n) -> size G = 1.
  move=> h; apply/eqP; rewrite eqn_leq s0 andbT; have [uq _ _ _ _] := gG.
  by have := @uniq_leq_size _ G [:: pid n] uq; apply=> p pG; rewrite inE (h p pG).
split=> [h | hc p pG].
- case: c h => [h | h | i h]; [by left | right; right | right].
    by apply: stuck => p /h [r _ /= [<-]].
  case: (ltnP 1 i) => hi; first by left; exists i.
  right; apply: stuck => p /h [r _ /=]; by rewrite ltnNge hi /= => -[<-].
- have base : exists2 r, r < size G & group_random n unrank r = Some p.
    by have [r hr e] := unrank_hit uG pG; exists r; rewrite // /group_random n0' e.
  case: hc => [-> // | [[i i1 ->] | h1]]; first by rewrite /= i1.
  case: c => [//||i]; first by exists 0; rewrite //= (lone h1 p pG).
  rewrite /=; case: (1 < i); first exact: base.
  by exists 0; rewrite //= (lone h1 p pG).
Qed.

(* A finding: the first small group of each order is taken for the trivial group. In every group of order above one that is
   called SmallGroup(order, 1), there are members that are never drawn, *)
Theorem C94_small_group_refuted n (G : group) unrank num c : grp_ok n G -> 1 < size G -> small_group num (size G) 1 = Some c ->
  exists2 p, p \in G & forall r, random_member n unrank c r <> Some p.
Proof.
move=> gG s1; rewrite /small_group; case: ifP => // _ [<-] /=; have [uq _ _ _ _] := gG.
case: (altP (@hasP _ (fun p => p != pid n) G)) => [[p pG np] | /hasPn h].
  by exists p => // r [e]; rewrite e eqxx in np.
suff : size G <= 1 by rewrite leqNgt s1.
apply: (@uniq_leq_size _ G [:: pid n] uq) => p pG.
by rewrite inE; have := h p pG; rewrite negbK.
Qed.

(* so that the search for a symmetric subset of two or more members never ends, whatever is drawn, *)
Theorem C94_subset_endless_refuted n (G : group) unrank num c rs ri size_ (excl : bool) fuel : grp_ok n G ->
  small_group num (size G) 1 = Some c -> 1 < size_ + excl -> 0 < size_ <= size G ->
  random_symmetric_subset (draws n unrank c rs) ri n G size_ excl fuel = Running.
Proof.
move=> gG; rewrite /small_group; case: ifP => // _ [<-] s1 hs; rewrite /random_symmetric_subset hs.
apply: loop_identity => //; first by rewrite (pinv1 n).
rewrite eqxx andbT; move: s1 hs; case: excl => /=; clear; lia.
Qed.

(* although such subsets exist and are found in the same group, given as any other group *)
Theorem C94_subset_found n (G : group) unrank c rs ri size_ (excl : bool) fuel : grp_ok n G -> unranks unrank G -> 0 < n ->
  c = BaseGroup \/ (exists2 i, 1 < i & c = SmallG i) ->
  (forall t, rs t < size G) -> (forall k m, 0 < m -> ri k m < m) -> (forall r, r < size G -> exists2 t, t < fuel & rs t = r) ->
  0 < size_ <= size G - excl -> (excl -> exists p, [/\ p \in G, pinv p = p & p != pid n]) ->
  exists s, [/\ random_symmetric_subset (draws n unrank c rs) ri n G size_ excl fuel = Returned s, uniq s, size s = size_
              & {subset s <= G}].
Proof.
move=> gG uG n0 hc hrs hri hall hsz hx.
have dE t : draws n unrank c rs t = unrank (rs t).
  by rewrite /draws; case: hc => [-> | [i i1 ->]] /=; rewrite ?i1 /group_random gtn_eqF.
have hd t : draws n unrank c rs t \in G by rewrite dE; apply: (unrank_in uG).
have [|s e] := @C61_terminates n G (draws n unrank c rs) ri size_ excl fuel gG hd hri hsz hx.
  by move=> p /(unrank_hit uG) [r /hall [t ht <-] <-]; exists t; rewrite ?dE.
exists s; have := C61_subset size_ excl fuel gG hd hri; rewrite e => -[_ [u z] sub _ _]; by split.
Qed.

(* non-vacuity: the cyclic group of order four, which GAP lists as SmallGroup(4, 1) *)
Definition cyc4 : group := ab_group [:: 4].
Example C94_ex : let unrank := nth [::] cyc4 in let num := fun order => if order == 4 then 2 else 1 in
  [/\ grp_ok 4 cyc4 /\ unranks unrank cyc4, small_group num 4 1 = Some (SmallG 1) /\ small_group num 4 3 = None,
      forall t, random_member 4 unrank (SmallG 1) t = Some (pid 4),
      [seq random_member 4 unrank BaseGroup r | r <- iota 0 4] = [seq Some p | p <- cyc4]
    & exists s, random_symmetric_subset (draws 4 unrank BaseGroup (fun t => t %% 4)) (fun _ _ => 0) 4 cyc4 2 false 4 = Returned s].
Proof.
split=> //; last by eexists; vm_compute; reflexivity.
by split; [apply: grp_okP; vm_compute | rewrite /unranks; vm_compute].
Qed.

Print Assumptions C94_member.
Print Assumptions C94_uniform_partial.
Print Assumptions C94_reaches.
Print Assumptions C94_small_group_refuted.
Print Assumptions C94_subset_endless_refuted.
Print Assumptions C94_subset_found.
