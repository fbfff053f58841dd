(* Rotated surface codes and rotated toric codes: model of qldpc/codes/quantum.py:1311-1522. *)
From mathcomp Require Import all_ssreflect all_algebra zify.
From Verif Require Import LinAlg RowReduce Classical ClassicalDist Quantum Css CssDist.
Set Implicit Arguments.
Unset Strict Implicit.
Unset Printing Implicit Defensive.
Import GRing.Theory.
Local Open Scope ring_scope.

Section Model.
Variable F : fieldType.
Notation vec := (seq F).
Notation mat := (seq (seq F)).

(* quantum.py:1405-1406 (and 1509-1510): the tile whose upper left corner is (row, col) *)
Definition corners (row col : nat) : seq (nat * nat) := [:: (row, col); (row.+1, col); (row, col.+1); (row.+1, col.+1)].

(* quantum.py:1391-1399: get_check, for the tile (row, col).  All rows and columns are larger by one than in the code, where
   they start at -1; entries that are out of bounds are dropped *)
Definition sf_check (rows cols row col : nat) : vec :=
  mkseq (fun q => if ((q %/ cols).+1, (q %% cols).+1) \in corners row col then 1 else 0) (rows * cols).
(* quantum.py:1368-1425: SurfaceCode.get_rotated_checks *)
Definition sf_rotated_checks (rows cols : nat) : mat * mat :=
  foldl (fun (st : mat * mat) (t : nat * nat) =>
      let chk := sf_check rows cols t.1 t.2 in
      if count (fun x => x != 0) chk == 1%N then st
      else if odd t.1 == odd t.2 then (if (0 < t.1 < rows)%N then (rcons st.1 chk, st.2) else st)
      else if (0 < t.2 < cols)%N then (st.1, rcons st.2 chk) else st)
    ([::], [::]) [seq (row, col) | row <- iota 0 rows.+1, col <- iota 0 cols.+1].

(* quantum.py:1337-1347 and 1457-1468: _default_conjugate, and the multiplication of the columns listed there by -1 *)
Definition default_conjugate (rows cols : nat) : seq nat := [seq q <- iota 0 (rows * cols) | odd (q %/ cols + q %% cols)].
Definition negate_cols (cols : seq nat) (M : mat) : mat :=
  [seq mkseq (fun q => if q \in cols then - nth 0 r q else nth 0 r q) (size r) | r <- M].

(* quantum.py:1319-1363: SurfaceCode(rows, cols, field) with rotated=True; `order` is the order of the field.  None models
   the error that np.array([]) causes in CSSCode (it is one-dimensional, so the number of its columns does not exist) *)
Definition surface_code (order rows cols : nat) : option (csscode F) :=
  let (X, Z) := sf_rotated_checks rows cols in
  if (X == [::]) || (Z == [::]) then None
  else let Z := if (2 < order)%N then negate_cols (default_conjugate rows cols) Z else Z in
       let c := mkcss (rows * cols) X Z None in
       Some (CSS (c_n c) (c_x c) (c_z c) (c_sub c) None None None (Some 1%N)).
(* quantum.py:1331-1333, 1359-1361 and common.py:1599-1602: the distances that are stored *)
Definition surface_distances (rows cols : nat) (c : csscode F) : dstate :=
  DState (Some (Dist cols)) (Some (Dist rows)) (Some (Dist (minn cols rows))) ((rows == cols) || (c_x c == c_z c)).

(* quantum.py:1498-1505: get_check with periodic boundary conditions *)
Definition tc_check (rows cols row col : nat) : vec :=
  mkseq (fun q => if (q %/ cols, q %% cols)%N \in [seq (t.1 %% rows, t.2 %% cols)%N | t <- corners row col] then 1 else 0) (rows * cols).
(* quantum.py:1488-1522: ToricCode.get_rotated_checks *)
Definition tc_rotated_checks (rows cols : nat) : mat * mat :=
  foldl (fun (st : mat * mat) (t : nat * nat) =>
      let chk := tc_check rows cols t.1 t.2 in
      if odd t.1 == odd t.2 then (rcons st.1 chk, st.2) else (st.1, rcons st.2 chk))
    ([::], [::]) [seq (row, col) | row <- iota 0 rows, col <- iota 0 cols].
(* quantum.py:1435-1491: ToricCode(rows, cols, field) with rotated=True.  None models ValueError, or the error caused by
   np.array([]) *)
Definition toric_code (order rows cols : nat) : option (csscode F) :=
  if odd rows || odd cols then None
  else
    let (X, Z) := tc_rotated_checks rows cols in
    if (X == [::]) || (Z == [::]) then None
    else let Z := if (2 < order)%N then negate_cols (default_conjugate rows cols) Z else Z in
         let small := (rows == cols) && (cols == 2%N) in
         let X := if small then take (size X).-1 X else X in
         let Z := if small then take (size Z).-1 Z else Z in
         let c := mkcss (rows * cols) X Z None in
         Some (CSS (c_n c) (c_x c) (c_z c) (c_sub c) None None None (Some 2%N)).
(* quantum.py:1448-1449 and 1488-1490 *)
Definition toric_distances (rows cols : nat) (c : csscode F) : dstate :=
  let d := minn rows cols in DState (Some (Dist d)) (Some (Dist d)) (Some (Dist d)) ((rows == cols) || (c_x c == c_z c)).
End Model.
