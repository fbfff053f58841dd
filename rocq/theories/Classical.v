(* Classical linear codes: model of qldpc/codes/common.py:196-607 (ClassicalCode) and proofs about it. *)
From mathcomp Require Import all_ssreflect all_algebra zify.
From mathcomp Require Import mxtens.
From Verif Require Import LinAlg RowReduce Kron.
Set Implicit Arguments.
Unset Strict Implicit.
Unset Printing Implicit Defensive.
Import GRing.Theory.
Local Open Scope ring_scope.

(* ====================================================================== specification *)
Section Spec.
Variable F : fieldType.
Notation vec := (seq F).
Notation mat := (seq (seq F)).

(* w is a code word: H w = 0, written out with sums of products (common.py:200-206, class docstring) *)
Definition is_word (n : nat) (H : mat) (w : vec) : Prop :=
  size w = n /\ forall r, r \in H -> \sum_(j < n) nth 0 r j * nth 0 w j = 0.

(* v = sum_i c_i G_i *)
Definition is_comb (n : nat) (G : mat) (c v : vec) : Prop :=
  [/\ size c = size G, size v = n
    & forall j, (j < n)%N -> nth 0 v j = \sum_(i < size G) nth 0 c i * nth 0 (nth [::] G i) j].

(* the rows of G form a basis of the code with parity checks H *)
Definition is_basis (n : nat) (H G : mat) : Prop :=
  [/\ forall g, g \in G -> is_word n H g,
      forall w, is_word n H w -> exists c, is_comb n G c w
    & forall c c' w, is_comb n G c w -> is_comb n G c' w -> c = c'].

(* reduced row echelon form without zero rows: ps are the pivot columns *)
Definition rref_spec (n : nat) (A : mat) : Prop :=
  exists ps : seq nat,
    [/\ size ps = size A, (forall i, (i < size A)%N -> (nth 0%N ps i < n)%N),
        (forall i j, (i < j < size A)%N -> (nth 0%N ps i < nth 0%N ps j)%N),
        (forall i c, (i < size A)%N -> (c < nth 0%N ps i)%N -> nth 0 (nth [::] A i) c = 0)
      & (forall i k, (i < size A)%N -> (k < size A)%N -> nth 0 (nth [::] A i) (nth 0%N ps k) = (i == k)%:R)].

(* Hamming weight; minimum Hamming weight of a nonzero code word *)
Definition hwt (w : vec) : nat := count (fun x => x != 0) w.
Definition is_dist (n : nat) (H : mat) (d : nat) : Prop :=
  (exists w, [/\ is_word n H w, exists j, nth 0 w j <> 0 & hwt w = d]) /\
  (forall w, is_word n H w -> (exists j, nth 0 w j <> 0) -> (d <= hwt w)%N).

(* the code with checks H has dimension k *)
Definition has_dim (n : nat) (H : mat) (k : nat) : Prop := exists G, is_basis n H G /\ size G = k.
End Spec.

(* ============================================================================== model *)
Section Model.
Variable F : fieldType.
Notation vec := (seq F).
Notation mat := (seq (seq F)).

(* common.py:196-223: a ClassicalCode object: its parity check matrix (with its number of columns), and the cached fields
   _generator and _dimension.  Simplification: the field is a parameter, not a component. *)
Record ccode := CCode { cc_n : nat; cc_mat : mat; cc_gen : option mat; cc_dim : option nat }.

(* common.py:212-223: ClassicalCode(matrix) *)
Definition mkcode (n : nat) (H : mat) : ccode := CCode n H None None.

(* the objects a user can hold: a rectangular parity check matrix, and cached fields (set by set_generator, by
   constructors of code families, or not at all) that are right *)
Definition code_ok (c : ccode) : Prop :=
  [/\ wf (cc_n c) (cc_mat c), forall g, cc_gen c = Some g -> is_basis (cc_n c) (cc_mat c) g
    & forall d, cc_dim c = Some d -> has_dim (cc_n c) (cc_mat c) d].

(* common.py:238-242: __contains__ for one word *)
Definition contains (c : ccode) (w : vec) : bool := ~~ vany (mulmv (cc_mat c) w).

(* common.py:244-249: canonicalized *)
Definition canonicalized (c : ccode) : ccode := mkcode (cc_n c) (canon (cc_n c) (cc_mat c)).

(* common.py:151-155: equiv, for codes over the same field; np.array_equal also compares shapes *)
Definition equiv (a b : ccode) : bool :=
  (cc_n a == cc_n b) && (cc_mat (canonicalized a) == cc_mat (canonicalized b)).

(* common.py:260-265 and 166-169: rank *)
Definition rank (c : ccode) : nat :=
  if cc_dim c is Some d then cc_n c - d else size (cc_mat (canonicalized c)).

(* common.py:300-305: dimension *)
Definition dimension (c : ccode) : nat := if cc_dim c is Some d then d else (cc_n c - rank c)%N.

(* common.py:307-312: generator *)
Definition generator (c : ccode) : mat := if cc_gen c is Some g then g else null_space (cc_n c) (cc_mat c).

(* common.py:314-327: set_generator; None models the ValueError.  np.linalg.matrix_rank is the number of nonzero rows of
   the row reduced array. *)
Definition set_generator (c : ccode) (g : mat) : option ccode :=
  if many (mull (size g) (cc_mat c) (trl (cc_n c) g)) then None
  else if size (canon (cc_n c) g) == (cc_n c - rank c)%N then Some (CCode (cc_n c) (cc_mat c) (Some g) (cc_dim c))
  else None.

(* v @ G for a 1-D array v *)
Definition vmulm (n : nat) (v : vec) (G : mat) : vec := [seq dot v col | col <- trl n G].

(* itertools.product(elements, repeat=k) *)
Fixpoint product (el : vec) (k : nat) : seq vec :=
  if k is k'.+1 then flatten [seq [seq x :: v | v <- product el k'] | x <- el] else [:: [::]].

(* common.py:329-336: iter_words; el is self.field.elements *)
Definition iter_words (el : vec) (c : ccode) (skip_zero : bool) : seq vec :=
  let vectors := product el (size (generator c)) in
  [seq vmulm (cc_n c) v (generator c) | v <- (if skip_zero then behead vectors else vectors)].

(* common.py:343-350: dual *)
Definition dual (c : ccode) : ccode := mkcode (cc_n c) (generator c).

(* common.py:539-544: from_generator *)
Definition from_generator (n : nat) (g : mat) : ccode := dual (mkcode n g).

(* common.py:355-369: tensor_product *)
Definition tensor_product (a b : ccode) : ccode :=
  dual (mkcode (cc_n a * cc_n b) (kron (generator a) (generator b))).

(* common.py:568-580: stack, for a list of codes; scipy.linalg.block_diag of several matrices *)
Fixpoint block_diag (ms : seq (nat * mat)) : mat :=
  if ms is (n, A) :: ms' then bdiag n (sumn [seq p.1 | p <- ms']) A (block_diag ms') else [::].
Definition stack (cs : seq ccode) : ccode :=
  mkcode (sumn [seq cc_n c | c <- cs]) (block_diag [seq (cc_n c, cc_mat c) | c <- cs]).

(* common.py:582-591: puncture; the assertion on the bits is a hypothesis of the theorems *)
Definition bits_to_keep (n : nat) (bits : seq nat) : seq nat := [seq b <- iota 0 n | b \notin bits].
Definition puncture (c : ccode) (bits : seq nat) : ccode :=
  let keep := bits_to_keep (cc_n c) bits in
  from_generator (size keep) (selcols keep (generator c)).

(* common.py:593-607: shorten; np.roll(g, -bit, axis=1) moves the first `bit` columns to the end *)
Definition roll_left (b : nat) (A : mat) : mat := [seq rot b r | r <- A].
Definition roll_right (b : nat) (A : mat) : mat := [seq rotr b r | r <- A].
(* one round of the loop, for an array with n columns; the result has n - 1 columns *)
Definition shorten1 (n : nat) (g : mat) (bit : nat) : mat :=
  let g1 := roll_left bit g in
  let g2 := [seq behead r | r <- behead (row_reduce n g1)] in
  roll_right bit g2.
Definition shorten_gen (n : nat) (g : mat) (bits : seq nat) : nat * mat :=
  foldl (fun st bit => (st.1.-1, shorten1 st.1 st.2 bit)) (n, g) (sort (fun i j => j <= i)%N bits).
Definition shorten (c : ccode) (bits : seq nat) : ccode :=
  let st := shorten_gen (cc_n c) (generator c) bits in from_generator st.1 st.2.

End Model.
Arguments mkcode {F}.
