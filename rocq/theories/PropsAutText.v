(* C101: the automorphism group of a classical code is looked up under a text that stands for exactly this code *)
From Coq Require Import NArith String.
From mathcomp Require Import all_ssreflect all_algebra zify.
From Verif Require Import LinAlg RowReduce Classical ClassicalProofs ClassicalProofs2 AutText PropsClassical.
Set Implicit Arguments.
Unset Strict Implicit.
Unset Printing Implicit Defensive.
Import GRing.Theory.
Local Open Scope ring_scope.

(* common.py:561-566: the text for a code over the field with q elements, whose elements galois numbers by rep *)
Definition code_query (F : fieldType) (rep : F -> N) (q : N) (c : ccode F) : string :=
  aut_query q [seq [seq rep x | x <- r] | r <- cc_mat (canonicalized c)].

Section Props.
Variables (F : fieldType) (rep : F -> N).
Hypothesis rep_inj : injective rep.

(* codes with the same words share the text (and so the cached group), whatever their parity checks *)
Theorem C101_same q (a b : ccode F) : code_ok a -> code_ok b -> cc_n a = cc_n b ->
  (forall w, is_word (cc_n a) (cc_mat a) w <-> is_word (cc_n b) (cc_mat b) w) -> code_query rep q a = code_query rep q b.
Proof.
move=> [wa _ _] [wb _ _] en h; have := proj2 (equivP wa wb) (conj en h).
by rewrite /equiv /code_query /= => /andP [_ /eqP ->].
Qed.

(* codes with different words, lengths or fields do not, unless all vectors are words *)
Theorem C101_distinct q q' (a b : ccode F) w0 : code_ok a -> code_ok b ->
  size w0 = cc_n a -> ~ is_word (cc_n a) (cc_mat a) w0 -> code_query rep q a = code_query rep q' b ->
  [/\ q = q', cc_n a = cc_n b & forall w, is_word (cc_n a) (cc_mat a) w <-> is_word (cc_n b) (cc_mat b) w].
Proof.
move=> [wa _ _] [wb _ _] s0 n0 /query_inj [eq /(inj_map (inj_map rep_inj)) /= em].
have en : cc_n a = cc_n b.
  have wca := wf_canon wa; have wcb := wf_canon wb.
  case ec: (canon (cc_n a) (cc_mat a)) wca em => [|r R] wca em.
    by case: n0; apply/canon_words; rewrite // ec; split.
  have := wfP _ _ wca r (mem_head _ _) => <-; have := wfP _ _ wcb r => <- //; by rewrite -em mem_head.
by split=> //; apply: (proj2 (proj1 (equivP wa wb) _)); rewrite /equiv /= en eqxx -{1}en; apply/eqP.
Qed.
End Props.
(* texts for codes over different fields are different, also if their elements are numbered in the same way *)
Theorem C101_fields (F F' : fieldType) (rep : F -> N) (rep' : F' -> N) q q' (a : ccode F) (b : ccode F') :
  q <> q' -> code_query rep q a <> code_query rep' q' b.
Proof. by move=> ne /query_inj []. Qed.

(* without that condition this is false: the text for a code without (independent) parity checks does not contain its length,
   so that all these codes, whose automorphism groups are different symmetric groups, share one text *)
Theorem C101_no_checks_refuted (F : fieldType) (rep : F -> N) q n n' : exists a b : ccode F,
  [/\ code_ok a, code_ok b, cc_n a = n, cc_n b = n' & code_query rep q a = code_query rep q b].
Proof.
exists (mkcode n [::]), (mkcode n' [::]).
split; [exact: mkcode_ok | exact: mkcode_ok | by [] | by [] | ].
have c0 m : canon m ([::] : seq (seq F)) = [::].
  by apply: size0nil; rewrite size_canon //; apply/eqP; rewrite -leqn0; apply: rank_leq_row.
by rewrite /code_query /canonicalized /= !c0.
Qed.

(* non-vacuity *)
Definition rep2 (x : 'F_2) : N := N.of_nat (val x).
Lemma rep2_inj : injective rep2.
Proof. by move=> x y /Nnat.Nat2N.inj /val_inj. Qed.
Definition code_a := mkcode 3 (b2 [:: [:: 1;1;0]; [:: 0;1;1]]%N).
Definition code_b := mkcode 3 (b2 [:: [:: 1;0;1]; [:: 0;1;1]; [:: 1;1;0]]%N).
Example ex_C101 : [/\ code_ok code_a, code_ok code_b, code_query rep2 2 code_a = code_query rep2 2 code_b
  & code_query rep2 2 code_a = "AutomorphismGroup(CheckMatCode([[1,0,1],[0,1,1]],GF(2)))"%string].
Proof. by split; [apply: mkcode_ok | apply: mkcode_ok | vm_compute | vm_compute]. Qed.
Example ex_C101_word : ~ is_word 3 (cc_mat code_a) [:: 1; 0; 0].
Proof.
move=> [_ /(_ [:: 1; 1; 0])] h; have {h} := h (mem_head _ _).
by rewrite !big_ord_recl big_ord0 /= !mulr0 !addr0 mulr1 => /eqP; rewrite oner_eq0.
Qed.

Print Assumptions C101_same.
Print Assumptions C101_distinct.
Print Assumptions C101_fields.
Print Assumptions C101_no_checks_refuted.
