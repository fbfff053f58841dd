(* Encoding tableaus: model of qldpc/circuits.py:44-86. *)
From mathcomp Require Import all_ssreflect all_algebra zify.
From Verif Require Import LinAlg RowReduce Classical Quantum Css.
Set Implicit Arguments.
Unset Strict Implicit.
Unset Printing Implicit Defensive.
Import GRing.Theory.
Local Open Scope ring_scope.

Section Spec.
Variable F : fieldType.
Notation mat := (seq (seq F)).

(* the specification of the rows of a tableau: X_1, ..., X_n and Z_1, ..., Z_n are mapped to operators with the same
   commutation relations; the first k pairs are logical operators of the code with gauge group A, the next g pairs are
   gauge operators, and the remaining operators of Z type generate the stabilizer group *)
Definition encodes (n k g : nat) (A xs zs : mat) : Prop :=
  [/\ size xs = n, dual_pairs n n (xs ++ zs), logical_basis n k A (take k xs ++ take k zs),
      forall v, v \in take g (drop k xs) ++ take g (drop k zs) -> span (n + n) A v
    & center_basis n A (drop (k + g) zs)].

(* every column that contains the first nonzero entry of a row is a unit vector *)
Definition unit_pivots (A : mat) : Prop :=
  forall i j, (i < size A)%N -> (j < size A)%N -> ent A i (first_nz (nth [::] A j)) = (i == j)%:R.
End Spec.

Section Model.
Variable F : fieldType.
Notation vec := (seq F).
Notation mat := (seq (seq F)).

(* circuits.py:62-65: candidates; np.argmax of the nonzero pattern of a row is first_nz *)
Definition destab_candidates (n : nat) (S : mat) : mat :=
  [seq vunit F (n + n) ((first_nz s + n) %% (n + n)) | s <- S].

(* circuits.py:68-69: ops.reshape(2, -1)[::-1, :].reshape(ops.shape) exchanges the halves of an even number of rows *)
Definition swap_halves (L : mat) : mat := drop (size L %/ 2) L ++ take (size L %/ 2) L.

(* circuits.py:70-71: D -= D @ symplectic_conjugate(dual).T @ L, row by row *)
Definition remove_ops (n : nat) (L D : mat) : mat :=
  [seq vsub d (vmulm (n + n) (mulmv (symplectic_conjugate n (swap_halves L)) d) L) | d <- D].

(* circuits.py:78-79: the loop over rows; `acc` are the rows that are already updated.  Row 0, which the loop skips, is
   updated by zero *)
Definition fix_destabs (n : nat) (S D : mat) : mat :=
  foldl (fun acc d => rcons acc (vsub d (vmulm (n + n) (mulmv (symplectic_conjugate n acc) d) (take (size acc) S)))) [::] D.

Definition destabilizers (n : nat) (S L G : mat) : mat :=
  fix_destabs n S (remove_ops n G (remove_ops n L (destab_candidates n S))).

(* stim.Tableau.from_conjugated_generators raises a ValueError unless the operators satisfy the commutation relations of
   X_1, ..., X_n, Z_1, ..., Z_n.  u and v commute iff symplectic_conjugate(u) @ v = 0 *)
Definition pair_table (n : nat) (A B : mat) : mat := [seq mulmv B (conj_row n a) | a <- A].
Definition stim_accepts (n : nat) (xs zs : mat) : bool :=
  [&& size xs == n, size zs == n, pair_table n xs xs == zerol F n n, pair_table n zs zs == zerol F n n
    & pair_table n xs zs == idl F n].

(* circuits.py:81-86, from the operators of a code with k logical and g gauge qubits: xs and zs, without signs *)
Definition tableau_of (n k g : nat) (S L G : mat) : option (mat * mat) :=
  let xs := take k L ++ take g G ++ destabilizers n S L G in
  let zs := drop k L ++ drop g G ++ S in
  if stim_accepts n xs zs then Some (xs, zs) else None.

(* circuits.py:44-86: get_encoding_tableau of a QuditCode and of a CSSCode.  The call of get_stabilizer_ops may replace the
   stored stabilizers; None models an exception *)
Definition encoding_tableau (c : qcode F) : option (mat * mat) :=
  let (S, c1) := get_stabilizer_ops c false true in
  if get_logical_ops c1 is Some L then
    if q_get_gauge_ops c1 is Some G then tableau_of (q_n c) (q_dimension c1) (q_gauge_dimension c1) S L G else None
  else None.
Definition css_encoding_tableau (c : csscode F) : option (mat * mat) :=
  let (S, c1) := c_get_stabilizer_ops c false true in
  if c_get_logical_ops c1 false is Some L then
    if c_get_gauge_ops c1 is Some G then tableau_of (c_n c) (c_dimension c1) (c_gauge_dimension c1) S L G else None
  else None.
End Model.
