(* Properties C10 - C16: distances of classical codes and the exhaustive search. *)
From Coq Require Import NArith List.
From mathcomp Require Import all_ssreflect all_algebra zify.
From Verif Require Import LinAlg RowReduce Classical ClassicalProofs ClassicalProofs2 BitWeight Pack GrayCode ClassicalDist.
From Verif Require Import PropsClassical.
Set Implicit Arguments.
Unset Strict Implicit.
Unset Printing Implicit Defensive.
Import GRing.Theory.
Local Open Scope ring_scope.

(* rows of bits, used in the examples *)
Definition b2v (r : seq nat) : list bool := [seq x != 0%N | x <- r].
Definition b2l (A : seq (seq nat)) : list (list bool) := map b2v A.

Section Props.
Variable F : fieldType.
Implicit Types c : ccode F.

(* C10.  Missing for the full statement: binary codes of length 256 or more with np.bitwise_count, see the refutation.
   0 :: el are the elements of the field; kd is the distance stored in the code object, if any *)
Theorem C10_distance_exact_partial (be : backend) (el : seq F) c kd :
  code_ok c -> known_ok c kd -> uniq (0 :: el) -> (forall x, x \in 0 :: el) ->
  (size el = 1%N -> (N.of_nat (cc_n c) < first_modulus be)%num) -> dimension c <> 0%N ->
  exists2 d, get_distance_exact be (0 :: el) c kd None = Some (Dist d) & is_dist (cc_n c) (cc_mat c) d.
Proof. exact: exact_ok. Qed.

Theorem C10_trivial_code (be : backend) (el : seq F) c kd : dimension c = 0%N ->
  get_distance_exact be el c kd None = Some NaN.
Proof. exact: exact_trivial. Qed.

Theorem C10_distance_to_vector (be : backend) (el : seq F) c kd v :
  code_ok c -> uniq (0 :: el) -> (forall x, x \in 0 :: el) -> size v = cc_n c ->
  exists2 d, get_distance_exact be (0 :: el) c kd (Some v) = Some (Dist d) & is_vdist (cc_n c) (cc_mat c) v d.
Proof. exact: exact_vector. Qed.

(* C15: whatever the random words and the answers of the decoder are *)
Theorem C15_one_bound c fuel (rnd : nat -> seq F) (dec : nat -> seq (seq F) -> seq F -> seq F) b d :
  code_ok c -> is_dist (cc_n c) (cc_mat c) d -> get_one_distance_bound c None fuel rnd dec = Some b -> (d <= b)%N.
Proof. exact: one_bound_ok. Qed.

Theorem C15_bound num_trials cutoff c kd fuel (rnd : nat -> nat -> seq F) (dec : nat -> nat -> seq (seq F) -> seq F -> seq F) r d :
  code_ok c -> known_ok c kd -> is_dist (cc_n c) (cc_mat c) d ->
  get_distance_bound num_trials cutoff c kd None fuel rnd dec = Some r -> exists2 b, r = Dist b & (d <= b)%N.
Proof. exact: bound_ok. Qed.

(* C16, for decoders whose corrections have the syndrome they were given *)
Theorem C16_vector_bound_partial num_trials cutoff c v kd fuel (rnd : nat -> nat -> seq F) (dec : nat -> nat -> seq (seq F) -> seq F -> seq F) r d :
  code_ok c -> size v = cc_n c ->
  (forall i, let e := dec i 0%N (cc_mat c) (mulmv (cc_mat c) v) in size e = cc_n c /\ mulmv (cc_mat c) e = mulmv (cc_mat c) v) ->
  is_vdist (cc_n c) (cc_mat c) v d -> get_distance_bound num_trials cutoff c kd (Some v) fuel rnd dec = Some r ->
  exists2 b, r = Dist b & (d <= b)%N.
Proof. exact: vector_distance_bound_ok. Qed.
End Props.

(* C10: for a binary code of length 256, get_distance_exact raises an exception although the distance is defined *)
Theorem C10_distance_exact_refuted : exists (c : ccode [fieldType of 'F_2]) d,
  [/\ code_ok c, dimension c <> 0%N, is_dist (cc_n c) (cc_mat c) d
    & get_distance_exact BitwiseCount [:: 0; 1] c None None = None].
Proof. exact: overflow_refuted. Qed.

(* C16: with a decoder that returns a wrong correction, the bound is smaller than the distance *)
Theorem C16_vector_bound_refuted : exists (c : ccode [fieldType of 'F_2]) v d dec,
  [/\ code_ok c, size v = cc_n c, is_vdist (cc_n c) (cc_mat c) v d,
      get_one_distance_bound c (Some v) 0 (fun _ => [::]) (dec 0%N) = Some 0%N /\
      get_distance_bound 1 None c None (Some v) 0 (fun _ _ => [::]) dec = Some (Dist 0) & (0 < d)%N].
Proof. exact: vector_bound_refuted. Qed.

(* C11: the search returns the minimum weight of a sum of at least one logical operator and any stabilizers *)
Theorem C11_search (be : backend) (homogeneous : bool) (block_size nb : nat) (logs stabs : list (list bool)) :
  Peano.lt 0 nb -> (homogeneous = false -> PeanoNat.Nat.Even nb) -> (N.of_nat nb < first_modulus be)%num ->
  Forall (fun r => length r = nb) logs -> Forall (fun r => length r = nb) stabs ->
  exists d, get_distance_quantum be homogeneous block_size nb logs stabs = Some d /\ (d <= N.of_nat nb)%num /\
    (forall s t, length s = length logs -> length t = length stabs -> In true s ->
       (d <= weight homogeneous (xorl (combo nb s logs) (combo nb t stabs)))%num) /\
    (logs <> nil -> exists s t, length s = length logs /\ length t = length stabs /\ In true s /\
       d = weight homogeneous (xorl (combo nb s logs) (combo nb t stabs))).
Proof. exact: distance_ok. Qed.

(* C12 *)
Theorem C12_hamming_weight (x : N) : (x < 2 ^ 64)%num -> hamming_weight x = ones 64 x /\ hamming_weight_single x = ones 64 x.
Proof. by move=> h; split; [exact: hamming_weight_correct | exact: hamming_weight_single_correct]. Qed.
Theorem C12_symplectic_weight (x : N) : (x < 2 ^ 64)%num -> symplectic_weight x = pairs 32 x /\ symplectic_weight_single x = pairs 32 x.
Proof. by move=> h; split; [exact: symplectic_weight_correct | exact: symplectic_weight_single_correct]. Qed.

(* C13 *)
Theorem C13_packing_weight (row : list bool) : fold_right N.add 0%num (List.map (ones 64) (to_ints row)) = wt row.
Proof. exact: to_ints_wt. Qed.
Theorem C13_packing_injective (a b : list bool) : length a = length b -> to_ints a = to_ints b -> a = b.
Proof. exact: to_ints_inj. Qed.
Theorem C13_packing_xor (a b : list bool) : length a = length b -> to_ints (xorl a b) = xorw (to_ints a) (to_ints b).
Proof. exact: to_ints_xor. Qed.
Theorem C13_packing_words (row : list bool) : Forall (fun x => (x < 2 ^ 64)%num) (to_ints row) /\
  length (to_ints row) = PeanoNat.Nat.div (Nat.add (length row) 63) 64.
Proof. by split; [exact: to_ints_lt | exact: to_ints_length]. Qed.
Theorem C13_riffle_weight (row : list bool) : PeanoNat.Nat.Even (length row) ->
  fold_right N.add 0%num (List.map (pairs 32) (to_ints (riffle row))) = swt row.
Proof.
move=> ev; rewrite -riffle_pwt; apply: to_ints_pwt; rewrite riffle_length; exists (PeanoNat.Nat.div2 (length row)).
by case: ev => k ->.
Qed.

(* C14: the total weight of a row is right if the number of columns fits the type of the counts *)
Theorem C14_row_weight_partial (be : backend) (M : N) (row : list bool) : Peano.lt 0 (length row) -> (64 < M)%num ->
  (N.of_nat (length row) < M)%num ->
  inplace_rowsum M (List.map (hamming_fn be) (to_ints row)) = wt row /\
  (PeanoNat.Nat.Even (length row) -> inplace_rowsum M (List.map (symplectic_fn be) (to_ints (riffle row))) = swt row).
Proof.
move=> l0 M64 lM; have h1 := wt_le row; have h2 := swt_le row.
by split=> [|ev]; [apply: hamming_row | apply: symplectic_row]; rewrite ?ev //; apply: N.le_lt_trans lM.
Qed.

(* C14: with np.bitwise_count, the sum for 256 columns wraps around, and the search does not return a value *)
Theorem C14_overflow_refuted : exists (logs : list (list bool)) (nb : nat),
  [/\ Forall (fun r => length r = nb) logs, Peano.lt 0 nb,
      (exists r, In r logs /\ wt r = 256%num /\
         inplace_rowsum (first_modulus BitwiseCount) (List.map (hamming_fn BitwiseCount) (to_ints r)) = 0%num)
    & forall bs, get_distance_classical BitwiseCount bs nb logs = None].
Proof.
exists (repeat true 256 :: nil), 256%N; split.
- by constructor; [vm_compute | constructor].
- by apply/ltP.
- exists (repeat true 256); split; [by left | by vm_compute].
- by move=> bs; apply: distance_overflow; vm_compute.
Qed.

(* --------------------------------------------------------------------------------------------------- examples *)
Example ex_C10 : known_ok hamming None /\ dimension hamming <> 0%N /\
  get_distance_exact Swar [:: 0; 1] hamming None None = Some (Dist 3) /\
  get_distance_exact Numba [:: 0; 1] hamming None (Some [:: 1;1;0;0;0;0;0]) = Some (Dist 1).
Proof. by vm_compute. Qed.

Example ex_C10_ternary : get_distance_exact Swar [:: 0; 1; 2%:R] redundant None None = Some (Dist 3).
Proof. by vm_compute. Qed.
Example ex_C11 : get_distance_quantum BitwiseCount false 15 10
   (b2l [:: [:: 1;1;1;1;1; 0;0;0;0;0]; [:: 0;0;0;0;0; 1;1;1;1;1]]%N)
   (b2l [:: [:: 1;0;0;1;0; 0;1;1;0;0]; [:: 0;1;0;0;1; 0;0;1;1;0]; [:: 1;0;1;0;0; 0;0;0;1;1]; [:: 0;1;0;1;0; 1;0;0;0;1]]%N) = Some 3%num.
Proof. by vm_compute. Qed.
Example ex_C11_block : forall bs, In bs (0 :: 1 :: 2 :: 3 :: 7 :: nil)%N -> get_distance_quantum Swar true bs 7
   (b2l [:: [:: 1;1;1;1;1;1;1]]%N) (b2l [:: [:: 0;0;0;1;1;1;1]; [:: 0;1;1;0;0;1;1]; [:: 1;0;1;0;1;0;1]]%N) = Some 3%num.
Proof. by move=> bs /=; intuition; subst; vm_compute. Qed.
Example ex_C12 : hamming_weight 0xFFFFFFFFFFFFFFFF = 64%num /\ symplectic_weight 0x8000000000000007 = 3%num.
Proof. by vm_compute. Qed.
Example ex_C13 : to_ints (repeat true 65) = (18446744073709551615 :: 1 :: nil)%num /\ riffle (b2v [:: 1;0;0;1]%N) = b2v [:: 1;0;0;1]%N /\
  riffle (b2v [:: 1;1;0;0]%N) = b2v [:: 1;0;1;0]%N.
Proof. by vm_compute. Qed.
Example ex_C14 : inplace_rowsum (first_modulus BitwiseCount) (List.map (hamming_fn BitwiseCount) (to_ints (repeat true 255))) = 255%num.
Proof. by vm_compute. Qed.
Example ex_C15 : get_one_distance_bound hamming None 3 (fun i => if i == 0%N then nseq 7 0 else nseq 7 1)
   (fun _ _ _ => [:: 1;1;1;0;0;0;0]) = Some 3%N /\
  get_distance_bound 2 (Some 1%N) hamming None None 3 (fun _ _ => nseq 7 1) (fun _ _ _ _ => [:: 1;1;1;0;0;0;0]) = Some (Dist 3).
Proof. by vm_compute. Qed.
Example ex_C16 : let e := [:: 0;0;1;0;0;0;0] : seq 'F_2 in
  mulmv (cc_mat hamming) e == mulmv (cc_mat hamming) [:: 1;1;0;0;0;0;0].
Proof. by vm_compute. Qed.

Print Assumptions C10_distance_exact_partial.
Print Assumptions C10_trivial_code.
Print Assumptions C10_distance_to_vector.
Print Assumptions C15_one_bound.
Print Assumptions C15_bound.
Print Assumptions C16_vector_bound_partial.
Print Assumptions C10_distance_exact_refuted.
Print Assumptions C16_vector_bound_refuted.
Print Assumptions C11_search.
Print Assumptions C12_hamming_weight.
Print Assumptions C12_symplectic_weight.
Print Assumptions C13_packing_weight.
Print Assumptions C13_packing_injective.
Print Assumptions C13_packing_xor.
Print Assumptions C13_packing_words.
Print Assumptions C13_riffle_weight.
Print Assumptions C14_row_weight_partial.
Print Assumptions C14_overflow_refuted.
