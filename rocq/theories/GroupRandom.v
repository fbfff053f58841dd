(* Random members of a group: model of qldpc/abstract.py:251-255 (Group.random), 1099-1104 (TrivialGroup.random) and 1236-1256
   (SmallGroup.__init__, SmallGroup.random). *)
From mathcomp Require Import all_ssreflect zify.
From Verif Require Import PermGroup SymSubset.
Set Implicit Arguments.
Unset Strict Implicit.
Unset Printing Implicit Defensive.

(* ============================================================================== model *)
(* The classes of groups whose random method differs: any class that inherits Group.random, abstract.py:1080-1117 (TrivialGroup),
   and abstract.py:1231-1256 (SmallGroup, with its index). *)
Inductive gclass := BaseGroup | TrivialG | SmallG of nat.

Section Random.
(* unrank r: the member that SymPy's coset_unrank assigns to the rank r (external) *)
Variables (n : nat) (unrank : nat -> perm).
(* abstract.py:251-255: Group.random for a group of permutations of n points. SymPy draws a rank r below the order of the group
   and unranks it, which raises an exception for the empty permutation (abstract.py:1100-1103); the seed is in r. *)
Definition group_random (r : nat) : option perm := if n == 0 then None else Some (unrank r).
(* abstract.py:1099-1104 and 1254-1256: the overriding methods *)
Definition random_member (c : gclass) (r : nat) : option perm :=
  match c with
  | BaseGroup => group_random r
  | TrivialG => Some (pid n)
  | SmallG i => if 1 < i then group_random r else Some (pid n)
  end.
End Random.
(* abstract.py:1236-1252: SmallGroup(order, index); num is the number of groups of that order (external: GAP). AssertionError and
   ValueError are None. The group itself comes from GAP. *)
Definition small_group (num : nat -> nat) (order index : nat) : option gclass :=
  if (0 < order) && (1 <= index <= num order) then Some (SmallG index) else None.
(* the draws of a run of random_symmetric_subset: rs t is the rank drawn in the t-th call; an exception in a call of self.random
   is not modelled here, it is excluded by n > 0 *)
Definition draws n unrank c (rs : nat -> nat) (t : nat) : perm := odflt (pid n) (random_member n unrank c (rs t)).

(* ====================================================================== specification *)
(* coset_unrank lists every member of G once *)
Definition unranks (unrank : nat -> perm) (G : group) : Prop := perm_eq [seq unrank r | r <- iota 0 (size G)] G.
(* over all ranks, the number of draws that give p *)
Definition hits n unrank c (G : group) (p : perm) : nat := count (fun r => random_member n unrank c r == Some p) (iota 0 (size G)).

(* ============================================================================= proofs *)
Section Proofs.
Variables (n : nat) (G : group) (unrank : nat -> perm).
Hypotheses (gG : grp_ok n G) (uG : unranks unrank G).

Lemma one_in : pid n \in G. Proof. by case: gG. Qed.
Lemma unrank_in r : r < size G -> unrank r \in G.
Proof. by move=> h; rewrite -(perm_mem uG); apply/mapP; exists r; rewrite ?mem_iota. Qed.
Lemma unrank_hit p : p \in G -> exists2 r, r < size G & unrank r = p.
Proof. by rewrite -(perm_mem uG) => /mapP [r]; rewrite mem_iota /= add0n => h ->; exists r. Qed.
Lemma random_in c r p : r < size G -> random_member n unrank c r = Some p -> p \in G.
Proof.
move=> h; case: c => [|| i] /=; last case: ifP => _; rewrite /group_random; try case: ifP => _ //;
  by case=> <-; rewrite ?one_in ?unrank_in.
Qed.
Lemma hits_unrank p : p \in G -> count (fun r => Some (unrank r) == Some p) (iota 0 (size G)) = 1.
Proof.
move=> pG; have [uq _ _ _ _] := gG.
have -> : count (fun r => Some (unrank r) == Some p) (iota 0 (size G)) = count (pred1 p) [seq unrank r | r <- iota 0 (size G)].
  by rewrite count_map; apply: eq_count => r.
by rewrite (permP uG) count_uniq_mem // pG.
Qed.
End Proofs.

(* when every draw is the identity, only the identity is ever found *)
Lemma loop_identity ri idn size_ excl fuel t rnd s : (forall t, rnd t = idn) -> pinv idn = idn ->
  s \in [:: [::]; [:: idn]] -> (1 < size_) || ((size_ == 1) && excl && (s == [::])) ->
  subset_loop rnd ri idn size_ excl fuel t s [::] = Running.
Proof.
move=> hr hi; elim: fuel t s => //= f IH t s hs hz; rewrite hr eqxx andbT.
case: ifP => [_ | nx]; first exact: IH.
rewrite nx andbF /= orbF in hz; rewrite hi eqxx.
have e : set_add idn s = [:: idn].
  by move: hs; rewrite !inE => /orP [] /eqP ->; rewrite /set_add ?inE ?eqxx.
rewrite e /=; have -> : (1 + 0 == size_) = false by apply/eqP; move: hz; clear; lia.
have -> : size_ < 1 + 0 = false by move: hz; clear; lia.
by apply: IH; rewrite ?inE ?eqxx ?orbT // hz.
Qed.
