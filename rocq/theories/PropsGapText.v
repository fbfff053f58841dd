(* C69, C78, C79: reading the output of GAP (qldpc/external/groups.py, qldpc/external/codes.py). *)
From Coq Require Import String Ascii List ZArith Lia Bool.
From Verif Require Import Text QTSave GapText.
Import ListNotations.
Open Scope string_scope.

(* C69: the generators read from the output of GAP are the generators that GAP printed, with the points counted from zero; cycles
   of any length and any points *)
Theorem C69_gap gens : (forall g, In g gens -> forall c, In c g -> c <> []) -> gap_generators (gap_print gens) = Some gens.
Proof.
  intros h. apply gap_ok. apply Forall_forall. intros g hg. apply Forall_forall. exact (h g hg).
Qed.
(* the generators found on GroupNames.org, which separates the points with blanks *)
Theorem C69_groupnames cycles : cycles <> [] -> groupnames_generator (groupnames_print cycles) = Some cycles.
Proof. exact (groupnames_ok cycles). Qed.
Example C69_ex :
  gap_print [[[0; 10; 2]; [1; 5]]; []; [[3; 4]]]%Z = "(1,11,3)(2,6)
()
(4,5)
" /\ gap_generators "(1,11,3)(2,6)

()
(4,5)" = Some [[[0; 10; 2]; [1; 5]]; []; [[3; 4]]]%Z /\ gap_generators "(1,x)" = None /\
  groupnames_print [[0; 10; 2]; [1; 5]]%Z = "(1 11 3)(2 6)".
Proof. repeat split; vm_compute; reflexivity. Qed.

(* C78: the code read from the output of GAP has the printed checks and the printed field, for all primes p, exponents k and
   matrices with at least one row *)
Theorem C78_code p k checks : checks <> [] -> get_code (gap_code p k checks) = Some (checks, Some (Z.of_N (p ^ k))).
Proof. exact (get_code_ok p k checks). Qed.
(* a code without checks is refused *)
Theorem C78_no_checks p k : get_code (gap_code p k []) = None.
Proof.
  unfold get_code, gap_code. rewrite splitlines_write by (constructor; [ apply field_nobreak | constructor ]).
  assert (eb : blank (gap_field p k) = false) by (unfold gap_field; now destruct (N.eqb k 1)).
  cbn [code_loop map]. now rewrite eb, search_field, !int_of_dec.
Qed.
Example C78_ex : gap_code 2 3 [[1; 0; 7]; [0; 1; 12]]%Z = "GF(2^3)
[ 1, 0, 7 ]
[ 0, 1, 12 ]
" /\ get_code "GF(2^3)
[ 1, 0, 7 ]
[ 0, 1, 12 ]
" = Some ([[1; 0; 7]; [0; 1; 12]]%Z, Some 8%Z).
Proof. split; vm_compute; reflexivity. Qed.

(* C79: GAP prints the elements of GF(16) of order three as Z(2^2) and Z(2^2)^2; they are roots of X^2 + X + 1.  The integer that is
   taken for Z(2^2) in galois.GF(16) is not: its order is 15, and the integer of the square is not the square of the integer *)
Theorem C79_subfield_refuted :
  let c := coefficient 4 2 1 in
  gf_pow 2 (primitive 2) 3 = 1%N /\
  gf_pow 4 c 3 <> 1%N /\ N.lxor (gf_pow 4 c 2) (N.lxor c 1) <> 0%N /\ coefficient 4 2 2 <> gf_pow 4 c 2 /\
  exists e, gf_pow 4 e 3 = 1%N /\ N.lxor (gf_pow 4 e 2) (N.lxor e 1) = 0%N.
Proof.
  intros c. split; [ vm_compute; reflexivity | ]. split; [ vm_compute; discriminate | ]. split; [ vm_compute; discriminate | ].
  split; [ vm_compute; discriminate | ]. exists 6%N. split; vm_compute; reflexivity.
Qed.
(* the nonzero elements of the prime field, and of the whole field, keep their products *)
Theorem C79_whole_field_partial n m m' : (n = 1 \/ n = 2 \/ n = 3 \/ n = 4) ->
  coefficient n n (m + m') = gf_mul n (conway n) (coefficient n n m) (coefficient n n m') /\ coefficient n 1 m = 1%N.
Proof. exact (coefficient_mul n m m'). Qed.

Print Assumptions C69_gap.
Print Assumptions C69_groupnames.
Print Assumptions C78_code.
Print Assumptions C78_no_checks.
Print Assumptions C79_subfield_refuted.
Print Assumptions C79_whole_field_partial.
