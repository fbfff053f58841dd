(* Elementary families of classical codes: model of qldpc/codes/classical.py:33-102, 140-181 and 255-300.
   Every constructor yields a code together with the value of the attribute _distance; None models an exception. *)
From mathcomp Require Import all_ssreflect all_algebra.
From Verif Require Import LinAlg RowReduce Classical ClassicalDist.
Set Implicit Arguments.
Unset Strict Implicit.
Unset Printing Implicit Defensive.
Import GRing.Theory.
Local Open Scope ring_scope.

Section Model.
Variable F : fieldType.
Notation vec := (seq F).
Notation mat := (seq (seq F)).

(* classical.py:33-44: RepetitionCode(bits); field.Zeros raises an error for -1 rows *)
Definition repetition (bits : nat) : option (ccode F * dvalue) :=
  if bits is b.+1 then
    Some (CCode bits (mkmat b bits (fun i j => if j == i.+1 then -1 else if j == i then 1 else 0)) None (Some 1%N), Dist bits)
  else None.

(* classical.py:47-58: RingCode(bits) *)
Definition ring_code (bits : nat) : ccode F * dvalue :=
  (CCode bits (mkmat bits bits (fun i j => if j == (i.+1 %% bits)%N then -1 else if j == i then 1 else 0)) None (Some 1%N), Dist bits).

(* classical.py:69-80: the columns of the parity check matrix; `el` is field.elements.  Integers that galois converts to field
   elements are modelled by the field elements themselves, in the order of the integers *)
Definition hamming_cols (el : vec) (rank : nat) : seq vec :=
  if size el == 2%N then behead (product [:: 0; 1] rank)
  else flatten [seq [seq nseq top_row 0 ++ 1 :: rest | rest <- product el (rank - top_row - 1)] | top_row <- rev (iota 0 rank)].
(* classical.py:61-84: HammingCode(rank, field).  For rank 0 there are no columns, the matrix is one-dimensional and len fails *)
Definition hamming_code (el : vec) (rank : nat) : option (ccode F * dvalue) :=
  let cols := hamming_cols el rank in
  if cols is [::] then None
  else Some (CCode (size cols) (trl rank cols) None (Some (size cols - rank)%N), Dist 3).

(* classical.py:87-102: ExtendedHammingCode(rank), a binary code *)
Definition ext_hamming_code (rank : nat) : option (ccode F * dvalue) :=
  if hamming_code [:: 0; 1] rank is Some (c, _) then
    let n := (cc_n c).+1 in
    let M := nseq n 1 :: [seq 0 :: r | r <- cc_mat c] in
    let M := vadd (nth [::] M 0) (nth [::] M 1) :: behead M in
    Some (CCode n M None (Some (n - size M)%N), Dist 4)
  else None.

(* classical.py:161-174: ReedMullerCode.get_generator, for order <= size.  The result for order = 0 is one-dimensional in the
   code; np.block treats it as one row, like here *)
Fixpoint rm_generator (order size : nat) : mat :=
  if order == 0%N then [:: nseq (2 ^ size) 1]
  else if order == size then idl F (2 ^ size)
  else if size is m.+1 then
    [seq a ++ a | a <- rm_generator order m] ++ [seq nseq (2 ^ m) 0 ++ b | b <- rm_generator order.-1 m]
  else [::].
(* classical.py:148-181: ReedMullerCode(order, size, field).  None: ValueError, and the error that galois raises for the null
   space of a one-dimensional array if order = 0 *)
Definition reed_muller (order m : nat) : option (ccode F * dvalue) :=
  if (m < order)%N || (order == 0%N) then None
  else let G := rm_generator order m in
       Some (CCode (2 ^ m) (generator (mkcode (2 ^ m) G)) None (Some (size G)), Dist (2 ^ (m - order))).

(* classical.py:278-300: SimplexCode.get_polynomial_exponents *)
Definition simplex_exponents (dim : nat) : option (seq nat) :=
  match dim with
  | 2 => Some [:: 0; 1; 2]%N | 3 => Some [:: 0; 2; 3]%N | 4 => Some [:: 0; 3; 4]%N
  | 5 => Some [:: 0; 3; 5]%N | 6 => Some [:: 0; 5; 6]%N | 7 => Some [:: 0; 6; 7]%N | _ => None
  end.
(* classical.py:255-275: SimplexCode(dim) *)
Definition simplex_code (dim : nat) : option (ccode F * dvalue) :=
  if simplex_exponents dim is Some es then
    let n := (2 ^ dim - 1)%N in
    Some (CCode n (mkmat n n (fun i j => if j \in [seq (i + e) %% n | e <- es]%N then 1 else 0)) None (Some dim), Dist (2 ^ (dim - 1)))
  else None.
End Model.
