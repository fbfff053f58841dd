(* Property C61: random symmetric subsets of a group (qldpc/abstract.py, Group.random_symmetric_subset). *)
From mathcomp Require Import all_ssreflect zify.
From Verif Require Import PermGroup SymSubset PropsGroup PropsLifted.
Set Implicit Arguments.
Unset Strict Implicit.
Unset Printing Implicit Defensive.

(* whatever group members and random numbers are drawn: an exception is raised only for a size out of range, and a returned
   subset has the given size, is symmetric and avoids the identity if asked to *)
Theorem C61_subset n (G : group) rnd ri size_ excl fuel : grp_ok n G ->
  (forall t, rnd t \in G) -> (forall k m, 0 < m -> ri k m < m) ->
  match random_symmetric_subset rnd ri n G size_ excl fuel with
  | Raised => ~ (0 < size_ <= size G)
  | Running => 0 < size_ <= size G
  | Returned s => [/\ 0 < size_ <= size G, uniq s /\ size s = size_, {subset s <= G}, forall p, p \in s -> pinv p \in s
                    & excl -> pid n \notin s]
  end.
Proof.
move=> gG hr hi; rewrite /random_symmetric_subset; case: ifP => // sz.
have /andP [p0 _] := sz; have g0 : good n G excl [::] [::] by [].
by have [-> // | [r -> [r1 r2 r3 r4 r5]]] := loopP gG hr hi fuel 0 p0 g0 (or_introl erefl).
Qed.

(* the search ends once every group member has been drawn, if some admissible member is its own inverse (the identity is one,
   unless it is excluded) *)
Theorem C61_terminates n (G : group) rnd ri size_ (excl : bool) fuel : grp_ok n G ->
  (forall t, rnd t \in G) -> (forall k m, 0 < m -> ri k m < m) ->
  0 < size_ <= size G - excl -> (excl -> exists p, [/\ p \in G, pinv p = p & p != pid n]) ->
  (forall p, p \in G -> exists2 i, i < fuel & rnd i = p) ->
  exists s, random_symmetric_subset rnd ri n G size_ excl fuel = Returned s.
Proof.
move=> gG hr hi sz hx all_; have := C61_subset size_ excl fuel gG hr hi.
have sz' : 0 < size_ <= size G by move: sz; clear; lia.
have nr : random_symmetric_subset rnd ri n G size_ excl fuel <> Running.
  rewrite /random_symmetric_subset sz'; move=> run; apply: (not_running gG hr sz _ all_ run).
  case: excl hx {sz run} => [/(_ isT) [p [h1 h2 h3]] | _]; first by exists p.
  by exists (pid n); split=> //; [exact: g_one | exact: pinv1].
by case: (random_symmetric_subset _ _ _ _ _ _ _) nr => // s _; exists s.
Qed.

(* the documented warning is real: without the identity, the cyclic group of order three has no symmetric subset of size one,
   and the search never ends *)
Theorem C61_endless rnd ri fuel : (forall t, rnd t \in ab3) -> random_symmetric_subset rnd ri 3 ab3 1 true fuel = Running.
Proof.
move=> hr; rewrite /random_symmetric_subset (_ : (0 < 1) && (1 <= size ab3)) //.
pose a := nth [::] ab3 1; pose b := nth [::] ab3 2.
suff h t d : d \in [:: [::]; [:: a; b]; [:: b; a]] -> subset_loop rnd ri (pid 3) 1 true fuel t [::] d = Running by apply: h.
elim: fuel t d => // f IH t d hd.
have : rnd t \in [:: pid 3; a; b] by exact: hr.
by move: hd; rewrite !inE => /or3P [] /eqP -> /or3P [] /eqP e; rewrite /= e; apply: IH.
Qed.

(* non-vacuity: draws that run through the symmetric group of three letters; subsets of size two and three *)
Example ex_C61 : let rnd t := nth (pid 3) S3 (t.+1 %% 6) in
  [/\ grp_ok 3 S3, forall t, rnd t \in S3, forall p, p \in S3 -> exists2 i, i < 6 & rnd i = p,
      random_symmetric_subset rnd (fun _ _ => 0) 3 S3 3 true 6 = Returned (nth [::] S3 3 :: take 2 (behead S3))
    & random_symmetric_subset rnd (fun _ _ => 0) 3 S3 1 true 6 = Returned [:: nth [::] S3 3]].
Proof.
split; [exact: ex_S3 | by move=> t; rewrite mem_nth // ltn_mod | | by vm_compute | by vm_compute].
by move=> p; rewrite !inE => /orP [/eqP -> | /or4P [| | | /orP []] /eqP ->];
  [exists 5 | exists 0 | exists 1 | exists 2 | exists 3 | exists 4].
Qed.
Example ex_C61_size : random_symmetric_subset (fun _ => pid 3) (fun _ _ => 0) 3 S3 7 true 6 = Raised.
Proof. by []. Qed.

Print Assumptions C61_subset.
Print Assumptions C61_terminates.
Print Assumptions C61_endless.
