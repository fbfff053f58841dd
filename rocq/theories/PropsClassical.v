(* Properties C01 - C09: classical linear codes. *)
From mathcomp Require Import all_ssreflect all_algebra zify.
From Verif Require Import LinAlg RowReduce Classical ClassicalProofs ClassicalProofs2.
Set Implicit Arguments.
Unset Strict Implicit.
Unset Printing Implicit Defensive.
Import GRing.Theory.
Local Open Scope ring_scope.

(* concrete codes used as non-vacuity examples *)
Definition b2 (A : seq (seq nat)) : seq (seq 'F_2) := [seq [seq (x%:R : 'F_2) | x <- r] | r <- A].
Definition b3 (A : seq (seq nat)) : seq (seq 'F_3) := [seq [seq (x%:R : 'F_3) | x <- r] | r <- A].
Definition hamming := mkcode 7 (b2 [:: [:: 0;0;0;1;1;1;1]; [:: 0;1;1;0;0;1;1]; [:: 1;0;1;0;1;0;1]]%N).
Definition redundant := mkcode 3 (b3 [:: [:: 0;1;2]; [:: 0;2;1]; [:: 1;1;1]]%N).
Definition rep3 := mkcode 3 (b2 [:: [:: 1;1;0]; [:: 0;1;1]]%N).

Section Props.
Variable F : fieldType.
Implicit Types a b c : ccode F.

(* C01 *)
Theorem C01_canonicalized_words c w : code_ok c ->
  is_word (cc_n (canonicalized c)) (cc_mat (canonicalized c)) w <-> is_word (cc_n c) (cc_mat c) w.
Proof. by case=> wH _ _; exact: canon_words. Qed.

Theorem C01_contains c w : code_ok c -> size w = cc_n c -> contains c w <-> is_word (cc_n c) (cc_mat c) w.
Proof. by case=> wH _ _; exact: containsE. Qed.

Theorem C01_canonicalized_rref c : code_ok c ->
  wf (cc_n c) (cc_mat (canonicalized c)) /\ rref_spec (cc_n c) (cc_mat (canonicalized c)).
Proof. by case=> wH _ _; split; [exact: wf_canon | apply: rref_spec_ok; exact: canon_rref]. Qed.

Theorem C01_rank_dimension c : code_ok c ->
  size (cc_mat (canonicalized c)) = rank c /\ dimension c = (cc_n c - rank c)%N /\
  has_dim (cc_n c) (cc_mat c) (dimension c).
Proof.
move=> ok; have [wH _ _] := ok; rewrite rank_ok // size_canon //; split=> //; split; first exact: dim_ok.
by apply/has_dimE => //; apply: dim_ok.
Qed.

(* C02 *)
Theorem C02_equiv a b : code_ok a -> code_ok b ->
  equiv a b <-> (cc_n a = cc_n b /\ forall w, is_word (cc_n a) (cc_mat a) w <-> is_word (cc_n b) (cc_mat b) w).
Proof. by case=> wa _ _ [wb _ _]; exact: equivP wa wb. Qed.

(* C03 *)
Theorem C03_generator_basis c : code_ok c -> is_basis (cc_n c) (cc_mat c) (generator c).
Proof. exact: gen_basis. Qed.

Theorem C03_iter_words c (el : seq F) : code_ok c -> uniq (0 :: el) -> (forall x, x \in 0 :: el) ->
  [/\ uniq (iter_words (0 :: el) c false),
      forall w, w \in iter_words (0 :: el) c false <-> is_word (cc_n c) (cc_mat c) w,
      uniq (iter_words (0 :: el) c true)
    & forall w, w \in iter_words (0 :: el) c true <-> is_word (cc_n c) (cc_mat c) w /\ exists j, nth 0 w j <> 0].
Proof. exact: iter_words_ok. Qed.

(* C04 *)
Theorem C04_dual_words c w : code_ok c -> size w = cc_n c ->
  is_word (cc_n (dual c)) (cc_mat (dual c)) w <->
  (forall y, is_word (cc_n c) (cc_mat c) y -> \sum_(j < cc_n c) nth 0 w j * nth 0 y j = 0).
Proof. exact: dual_words_ok. Qed.

Theorem C04_dual_dual c : code_ok c -> equiv (dual (dual c)) c.
Proof. exact: dual_dual. Qed.

Theorem C04_dual_dimension c : code_ok c -> (dimension c + dimension (dual c))%N = cc_n c.
Proof. exact: dual_dim. Qed.

(* C05: bit (i, j) of a word of the tensor product is entry i * n_b + j *)
Theorem C05_tensor_words a b w : code_ok a -> code_ok b -> size w = (cc_n a * cc_n b)%N ->
  is_word (cc_n (tensor_product a b)) (cc_mat (tensor_product a b)) w <->
  (forall j, (j < cc_n b)%N -> is_word (cc_n a) (cc_mat a) [seq nth 0 w (i * cc_n b + j) | i <- iota 0 (cc_n a)]) /\
  (forall i, (i < cc_n a)%N -> is_word (cc_n b) (cc_mat b) [seq nth 0 w (i * cc_n b + j) | j <- iota 0 (cc_n b)]).
Proof. exact: tensor_words. Qed.

Theorem C05_tensor_dimension a b : code_ok a -> code_ok b ->
  dimension (tensor_product a b) = (dimension a * dimension b)%N.
Proof. exact: tensor_dimension. Qed.

(* C06 *)
Theorem C06_puncture_words c (bits : seq nat) w : code_ok c -> size w = cc_n (puncture c bits) ->
  is_word (cc_n (puncture c bits)) (cc_mat (puncture c bits)) w <->
  exists x, is_word (cc_n c) (cc_mat c) x /\ w = [seq nth 0 x j | j <- iota 0 (cc_n c) & j \notin bits].
Proof. by move=> ok sw; rewrite -{1}sw; exact: puncture_words. Qed.

(* C07, under the assumption that the code words take all values on the shortened bits *)
Theorem C07_shorten_words_partial c (bits : seq nat) w : code_ok c -> uniq bits -> all (fun b : nat => b < cc_n c)%N bits ->
  bits_independent (cc_n c) (cc_mat c) bits -> size w = (cc_n c - size bits)%N ->
  cc_n (shorten c bits) = (cc_n c - size bits)%N /\
  (is_word (cc_n (shorten c bits)) (cc_mat (shorten c bits)) w <->
   exists x, [/\ is_word (cc_n c) (cc_mat c) x, forall b : nat, b \in bits -> nth 0 x b = 0
               & w = [seq nth 0 x j | j <- iota 0 (cc_n c) & j \notin bits]]).
Proof. exact: shorten_words_ok. Qed.

(* C08 *)
Theorem C08_stack_words (cs : seq (ccode F)) w : (forall i, (i < size cs)%N -> code_ok (nth (dflt F) cs i)) ->
  is_word (cc_n (stack cs)) (cc_mat (stack cs)) w <->
  exists ws, [/\ size ws = size cs, w = flatten ws
             & forall i, (i < size cs)%N ->
                 is_word (cc_n (nth (dflt F) cs i)) (cc_mat (nth (dflt F) cs i)) (nth [::] ws i)].
Proof. exact: stack_words'. Qed.

Theorem C08_stack_dimension (cs : seq (ccode F)) : (forall i, (i < size cs)%N -> code_ok (nth (dflt F) cs i)) ->
  dimension (stack cs) = sumn [seq dimension c | c <- cs].
Proof. exact: stack_dimension. Qed.

Theorem C08_stack_distance (cs : seq (ccode F)) d : (forall i, (i < size cs)%N -> code_ok (nth (dflt F) cs i)) ->
  is_dist (cc_n (stack cs)) (cc_mat (stack cs)) d <->
  (exists2 i, (i < size cs)%N & is_dist (cc_n (nth (dflt F) cs i)) (cc_mat (nth (dflt F) cs i)) d) /\
  (forall i e, (i < size cs)%N -> is_dist (cc_n (nth (dflt F) cs i)) (cc_mat (nth (dflt F) cs i)) e -> (d <= e)%N).
Proof. exact: stack_dist. Qed.

(* C09: accepted generators consist of code words and span the code; they are a basis if the number of rows is right *)
Theorem C09_set_generator_partial c g c' : code_ok c -> wf (cc_n c) g -> set_generator c g = Some c' ->
  [/\ cc_n c' = cc_n c /\ cc_mat c' = cc_mat c, generator c' = g, (forall r, r \in g -> is_word (cc_n c) (cc_mat c) r),
      (forall w, is_word (cc_n c) (cc_mat c) w -> exists x, is_comb (cc_n c) g x w)
    & (size g <= dimension c)%N -> is_basis (cc_n c) (cc_mat c) g /\ code_ok c'].
Proof. exact: set_generator_ok. Qed.

Theorem C09_set_generator_accepts_bases c g : code_ok c -> is_basis (cc_n c) (cc_mat c) g ->
  exists2 c', set_generator c g = Some c' & generator c' = g.
Proof. exact: set_generator_basis_accepted. Qed.

End Props.

(* ------------------------------------------------------------------------------------------- refuted statements *)
(* C07 as documented is false: shortening the zero bit of the code {00, 01} gives {0} and not {0, 1} *)
Theorem C07_shorten_refuted :
  exists (c : ccode [fieldType of 'F_2]) (bits : seq nat) (w : seq 'F_2),
    [/\ code_ok c, uniq bits, all (fun b : nat => b < cc_n c)%N bits, size w = (cc_n c - size bits)%N
      & ~ (is_word (cc_n (shorten c bits)) (cc_mat (shorten c bits)) w <->
           exists x, [/\ is_word (cc_n c) (cc_mat c) x, forall b : nat, b \in bits -> nth 0 x b = 0
                       & w = [seq nth 0 x j | j <- iota 0 (cc_n c) & j \notin bits]])].
Proof. exact: shorten_refuted. Qed.

(* C07: a repeated bit removes a bit that was not asked for *)
Theorem C07_shorten_repeated_bit_refuted :
  exists (c : ccode [fieldType of 'F_2]) (bits : seq nat),
    [/\ code_ok c, all (fun b : nat => b < cc_n c)%N bits
      & cc_n (shorten c bits) <> size (bits_to_keep (cc_n c) bits)].
Proof. exact: shorten_repeated_refuted. Qed.

(* C09: set_generator accepts rows that are not a basis, after which iter_words lists words twice *)
Theorem C09_set_generator_refuted :
  exists (c : ccode [fieldType of 'F_2]) g c',
    [/\ code_ok c, wf (cc_n c) g, set_generator c g = Some c', ~ is_basis (cc_n c) (cc_mat c) g
      & ~~ uniq (iter_words [:: 0; 1] c' false) /\ vzero [fieldType of 'F_2] (cc_n c) \in iter_words [:: 0; 1] c' true].
Proof. exact: set_generator_refuted. Qed.

(* --------------------------------------------------------------------------------------------------- examples *)
Example ex_codes : code_ok hamming /\ code_ok redundant /\ code_ok rep3.
Proof. by []. Qed.
Example ex_C01 : rank redundant = 2%N /\ size (cc_mat redundant) = 3%N /\ dimension hamming = 4%N.
Proof. by vm_compute. Qed.
Example ex_C02 : equiv redundant (mkcode 3 (b3 [:: [:: 1;0;2]; [:: 2;2;2]]%N)) /\ ~~ equiv rep3 (mkcode 3 (b2 [:: [:: 1;1;0]]%N)).
Proof. by vm_compute. Qed.
Example ex_C03 : uniq ((0 : 'F_2) :: [:: 1]) /\ (forall x : 'F_2, x \in 0 :: [:: 1]) /\ size (iter_words [:: 0; 1] hamming true) = 15%N.
Proof. by split; [vm_compute | split; [case=> -[|[]] // | vm_compute]]. Qed.
Example ex_C04 : dimension (dual hamming) = 3%N /\ contains (dual rep3) [:: 1; 1; 0] /\ ~~ contains (dual rep3) [:: 1; 1; 1].
Proof. by vm_compute. Qed.
Example ex_C05 : dimension (tensor_product rep3 hamming) = 4%N /\ cc_n (tensor_product rep3 hamming) = 21%N.
Proof. by vm_compute. Qed.
Example ex_C06 : cc_n (puncture hamming [:: 1; 4]%N) = 5%N /\ dimension (puncture hamming [:: 1; 4]%N) = 4%N.
Proof. by vm_compute. Qed.
Example ex_C07 : bits_independent (cc_n rep3) (cc_mat rep3) [:: 1%N] /\ dimension (shorten hamming [:: 3; 0]%N) = 2%N.
Proof.
split; last by vm_compute.
move=> a; exists [:: a 1%N; a 1%N; a 1%N]; split.
  split=> // r; rewrite !inE => /orP [] /eqP ->; rewrite !big_ord_recl big_ord0 /= ?mul0r ?mul1r ?addr0 ?add0r;
    by move: (a 1%N); case=> -[|[]] // lt; apply: val_inj; vm_compute.
by move=> b; rewrite inE => /eqP ->.
Qed.
Example ex_C08 : dimension (stack [:: hamming; rep3]) = 5%N /\ (forall i, (i < size [:: hamming; rep3])%N -> code_ok (nth (dflt _) [:: hamming; rep3] i)).
Proof. by split; [vm_compute | case=> [|[]]]. Qed.
Example ex_C09 : isSome (set_generator rep3 (b2 [:: [:: 1;1;1]]%N)) && (size (b2 [:: [:: 1;1;1]]%N) <= dimension rep3)%N.
Proof. by vm_compute. Qed.

Print Assumptions C01_canonicalized_words.
Print Assumptions C01_contains.
Print Assumptions C01_canonicalized_rref.
Print Assumptions C01_rank_dimension.
Print Assumptions C02_equiv.
Print Assumptions C03_generator_basis.
Print Assumptions C03_iter_words.
Print Assumptions C04_dual_words.
Print Assumptions C04_dual_dual.
Print Assumptions C04_dual_dimension.
Print Assumptions C05_tensor_words.
Print Assumptions C05_tensor_dimension.
Print Assumptions C06_puncture_words.
Print Assumptions C07_shorten_words_partial.
Print Assumptions C07_shorten_refuted.
Print Assumptions C07_shorten_repeated_bit_refuted.
Print Assumptions C08_stack_words.
Print Assumptions C08_stack_dimension.
Print Assumptions C08_stack_distance.
Print Assumptions C09_set_generator_partial.
Print Assumptions C09_set_generator_accepts_bases.
Print Assumptions C09_set_generator_refuted.
