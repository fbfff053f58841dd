(* Calls of the automorphisms found by get_transversal_automorphism_group: model of the calls automorphism(...) in
   qldpc/circuits.py:318-370, on top of Intersect.v. *)
From mathcomp Require Import all_ssreflect zify.
From Verif Require Import Circuits TransAut Intersect.
Set Implicit Arguments.
Unset Strict Implicit.
Unset Printing Implicit Defensive.

(* ============================================================================== model *)
(* sympy's Permutation.__call__ (external): the image of a point, or an exception (None) if the point is not below the size d *)
Definition call (d : nat) (a : nat -> nat) (x : nat) : option nat := if x < d then Some (a x) else None.
(* circuits.py:340-352: the columns on which the automorphism is called for the local gates *)
Definition gate_calls (n : nat) (gs : seq lgate) : seq nat :=
  match gs with
  | [::] => [::]
  | [:: _] => iota 0 n
  | _ => [seq q + s * n | q <- iota 0 n, s <- iota 0 3]
  end.
(* circuits.py:317-320: the columns on which the automorphism is called for the SWAPs *)
Definition swap_calls (n : nat) : seq nat := iota 0 n.
(* circuits.py:275-277: both circuits are built, unless a call raises an exception *)
Definition calls_ok (n : nat) (gs : seq lgate) (d : nat) (a : nat -> nat) : bool :=
  all (fun x => isSome (call d a x)) (gate_calls n gs ++ swap_calls n).
(* the size of the permutations in the group that is returned: sympy's subgroup_search (external) returns a subgroup of the first
   group, of the same degree *)
Definition found_size (gens : seq cycles) : nat := gdegree gens.

(* ============================================================================= proofs *)
Lemma calls_full n gs a d : size (sectors gs) * n <= d -> calls_ok n gs d a.
Proof.
move=> hd; apply/allP => x; rewrite mem_cat /call => hx.
suff -> : x < d by [].
apply: leq_trans hd; have k2 := sectors_ge2 gs.
have small : x < n -> x < size (sectors gs) * n.
  by move=> h; apply: (leq_trans h); rewrite leq_pmull // ltnW.
case/orP: hx; last by rewrite mem_iota => /small.
case: gs k2 small => [|g [|g' gs]] k2 small; [by [] | by rewrite mem_iota => /small |].
have -> : size (sectors [:: g, g' & gs]) = 3 by case: g {k2 small}.
rewrite /gate_calls => /allpairsP [[q s]]; rewrite [(q, s).1]/= [(q, s).2]/= !mem_iota !add0n => -[hq hs ->].
have : s.+1 * n <= 3 * n by rewrite leq_mul2r; case/andP: hs => _ ->; rewrite orbT.
by move: hq; clear; rewrite mulSn; lia.
Qed.
Lemma calls_last n g g' gs a d : 0 < n -> d < size (sectors [:: g, g' & gs]) * n -> ~~ calls_ok n [:: g, g' & gs] d a.
Proof.
have -> : size (sectors [:: g, g' & gs]) = 3 by case: g.
move=> n0 hd; apply/negP => /allP /(_ (n.-1 + 2 * n)); rewrite mem_cat.
have -> : n.-1 + 2 * n \in gate_calls n [:: g, g' & gs].
  by apply/allpairsP; exists (n.-1, 2); split=> //; rewrite mem_iota add0n /= prednK.
move=> /(_ isT); rewrite /call; case: ifP => // h _; move: n0 hd h; clear; lia.
Qed.

(* a column that is different from all others, while all other nonzero columns occur twice *)
Definition lonely (N : nat) (R : seq (seq bool)) (L : nat) : bool :=
  has (fun r => nth false r L) R &&
  all (fun x => (x == L) ||
    (has (fun r => nth false r x (+) nth false r L) R &&
     (all (fun r => ~~ nth false r x) R ||
      has (fun y => (y != x) && all (fun r => nth false r x == nth false r y) R) (iota 0 N)))) (iota 0 N).
Lemma dot1 N r x0 : x0 < N -> dot N r (fun x => x == x0) = nth false r x0.
Proof.
move=> h; rewrite /dot (bigD1_seq x0) ?iota_uniq ?mem_iota //= eqxx andbT big1 ?addbF // => x /negbTE ->.
by rewrite andbF.
Qed.
Lemma dot2 N r x0 x1 : x0 < N -> x1 < N -> x0 != x1 ->
  dot N r (fun x => (x == x0) || (x == x1)) = nth false r x0 (+) nth false r x1.
Proof.
move=> h0 h1 d; rewrite -(dot1 r h0) -(dot1 r h1) /dot -big_split /=; apply: eq_bigr => x _.
case: (x == x0) / eqP => [->|_] /=; last by case: (nth _ _ _).
by rewrite (negbTE d); case: (nth _ _ _).
Qed.
Lemma lonely_fixed n gs H L b : L < size (sectors gs) * n -> lonely (size (sectors gs) * n) (map (inst_row gs) H) L ->
  col_perm (size (sectors gs) * n) b -> automorphism n gs H b -> b L = L.
Proof.
set N := size _ * n => hL /andP [/hasP [r0 /mapP [h0 hh0 er0] nz] /allP hall] [lt inj _] aut.
have [x0 hx0 ex0] : exists2 x0, x0 < N & b x0 = L.
  have : L \in map b (iota 0 N) by rewrite (perm_mem (perm_iota lt inj)) mem_iota.
  by case/mapP => x; rewrite mem_iota add0n => hx ->; exists x.
have := hall x0; rewrite mem_iota add0n => /(_ hx0) /orP [/eqP e | ]; first by rewrite -{1}e.
case/andP => dif /orP [/allP z | /hasP [x1]].
  have W : word n gs H (fun x => x == x0).
    by move=> h hh; rewrite dot1 //; apply/negbTE/z/map_f.
  have E x : x < N -> (b x == L) = (x == x0).
    by move=> hx; apply/eqP/eqP => [| -> //]; rewrite -ex0; apply: inj.
  have := aut _ (fun y => y == L) E W h0 hh0; by rewrite dot1 // -er0 nz.
rewrite mem_iota add0n => hx1 /andP [d /allP same].
have W : word n gs H (fun x => (x == x0) || (x == x1)).
  by move=> h hh; rewrite dot2 // 1?eq_sym // (eqP (same _ (map_f _ hh))) addbb.
have E x : x < N -> (b x == L) || (b x == b x1) = (x == x0) || (x == x1).
  move=> hx; congr (_ || _); apply/eqP/eqP => [| -> //]; last exact: inj.
  by rewrite -ex0; apply: inj.
have nL : L != b x1 by rewrite -ex0; apply/eqP => /(inj _ _ hx0 hx1) e; rewrite e eqxx in d.
have W' h : h \in H -> nth false (inst_row gs h) L = nth false (inst_row gs h) (b x1).
  move=> hh; have := aut _ (fun y => (y == L) || (y == b x1)) E W h hh; rewrite dot2 ?lt //.
  by case: (nth _ _ L); case: (nth _ _ (b x1)).
have := hall (b x1); rewrite mem_iota add0n => /(_ (lt _ hx1)); rewrite eq_sym (negbTE nL) /=.
case/andP => /hasP [r /mapP [h hh ->]]; by rewrite (W' h hh) addbb.
Qed.
