(* Property C92: Reed-Muller codes are evaluation codes, and their duals are Reed-Muller codes in characteristic 2. *)
From mathcomp Require Import all_ssreflect all_algebra.
From Verif Require Import LinAlg RowReduce Classical ClassicalProofs ClassicalDist Families ReedMuller.
Set Implicit Arguments.
Unset Strict Implicit.
Unset Printing Implicit Defensive.
Import GRing.Theory.
Local Open Scope ring_scope.

Section Props.
Variable F : fieldType.

(* over every field, the words are the lists of values, at the points of {0, 1}^m, of the polynomials of degree at most r in m
   variables *)
Theorem C92_words r m c d (w : seq F) : reed_muller F r m = Some (c, d) -> size w = (2 ^ m)%N ->
  is_word (cc_n c) (cc_mat c) w <-> is_poly r m (nth 0 w).
Proof. exact: rm_words. Qed.

(* in characteristic 2, ~ReedMullerCode(r, m) == ReedMullerCode(m - r - 1, m): the parity check matrices are equal *)
Theorem C92_dual r m c d c' d' : 2%:R = 0 :> F -> (r < m)%N ->
  reed_muller F r m = Some (c, d) -> reed_muller F (m - r.+1) m = Some (c', d') ->
  cc_n (dual c) = cc_n c' /\ cc_mat (dual c) = cc_mat c'.
Proof. exact: rm_dual. Qed.

(* the words of ~ReedMullerCode(r, m), also if m = r + 1 *)
Theorem C92_dual_words r m c d (w : seq F) : 2%:R = 0 :> F -> (r < m)%N -> reed_muller F r m = Some (c, d) -> size w = (2 ^ m)%N ->
  is_word (cc_n (dual c)) (cc_mat (dual c)) w <-> is_poly (m - r.+1) m (nth 0 w).
Proof. exact: rm_dual_words. Qed.

(* in no other characteristic is the dual code a Reed-Muller code of the complementary order *)
Theorem C92_dual_characteristic r m c d c' d' : (r < m)%N ->
  reed_muller F r m = Some (c, d) -> reed_muller F (m - r.+1) m = Some (c', d') ->
  (forall w, is_word (cc_n (dual c)) (cc_mat (dual c)) w <-> is_word (cc_n c') (cc_mat c') w) <-> 2%:R = 0 :> F.
Proof. exact: rm_dual_char. Qed.
End Props.

(* ~ReedMullerCode(1, 3, 3) is not equivalent to ReedMullerCode(1, 3, 3) *)
Theorem C92_dual_refuted : exists c c' d d', [/\ reed_muller [fieldType of 'F_3] 1 3 = Some (c, d),
  reed_muller [fieldType of 'F_3] (3 - 2) 3 = Some (c', d') &
  ~ forall w, is_word (cc_n (dual c)) (cc_mat (dual c)) w <-> is_word (cc_n c') (cc_mat c') w].
Proof.
do 4!eexists; split; [reflexivity | reflexivity |].
move=> h; have := @C92_dual_characteristic [fieldType of 'F_3] 1 3 _ _ _ _ isT erefl erefl.
by case=> /(_ h) /eqP; vm_compute.
Qed.

(* the hypotheses can be met: the [8, 4, 4] code ReedMullerCode(1, 3) is self-dual; a word of degree 2 is not in it *)
Example C92_ex : exists c d, [/\ reed_muller [fieldType of 'F_2] 1 3 = Some (c, d), cc_mat (dual c) = cc_mat c,
  is_word 8 (cc_mat c) [:: 0; 1; 0; 1; 1; 0; 1; 0] & ~ is_poly 1 3 (nth (0 : 'F_2) [:: 0; 0; 0; 1; 0; 0; 0; 1])].
Proof.
pose H : seq (seq 'F_2) := [:: [:: 1; 0; 0; 1; 0; 1; 1; 0]; [:: 0; 1; 0; 1; 0; 1; 0; 1]; [:: 0; 0; 1; 1; 0; 0; 1; 1]; [:: 0; 0; 0; 0; 1; 1; 1; 1]].
pose c := @CCode [fieldType of 'F_2] 8 (null_space 8 (rm_generator [fieldType of 'F_2] 1 3)) None (Some 4%N).
have eH : cc_mat c = H by apply/eqP; vm_compute.
have e : reed_muller [fieldType of 'F_2] 1 3 = Some (c, Dist 4) by reflexivity.
have ee : cc_mat (dual c) = cc_mat c.
  have c2 : 2%:R = 0 :> 'F_2 by apply/eqP; vm_compute.
  exact: (proj2 (@C92_dual [fieldType of 'F_2] 1 3 c (Dist 4) c (Dist 4) c2 isT e e)).
have ew : is_word 8 (cc_mat c) [:: 0; 1; 0; 1; 1; 0; 1; 0].
  rewrite eH; split; first reflexivity.
  move=> r; rewrite !inE => /or4P [] /eqP ->; rewrite !big_ord_recl big_ord0; apply/eqP; by vm_compute.
have en : ~ is_poly 1 3 (nth (0 : 'F_2) [:: 0; 0; 0; 1; 0; 0; 0; 1]).
  move=> h; have [_] := proj2 (@C92_words [fieldType of 'F_2] 1 3 c (Dist 4) [:: 0; 0; 0; 1; 0; 0; 0; 1] e erefl) h.
  rewrite eH => /(_ [:: 0; 0; 0; 0; 1; 1; 1; 1]).
  rewrite !inE eqxx !orbT => /(_ isT) /eqP; rewrite !big_ord_recl big_ord0; by vm_compute.
exists c, (Dist 4); exact: And4 e ee ew en.
Qed.

Print Assumptions C92_words.
Print Assumptions C92_dual.
Print Assumptions C92_dual_words.
Print Assumptions C92_dual_characteristic.
Print Assumptions C92_dual_refuted.
