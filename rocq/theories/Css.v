(* CSS codes: model of qldpc/codes/common.py:1556-1986 (CSSCode). *)
From mathcomp Require Import all_ssreflect all_algebra zify.
From Verif Require Import LinAlg RowReduce Classical Quantum.
Set Implicit Arguments.
Unset Strict Implicit.
Unset Printing Implicit Defensive.
Import GRing.Theory.
Local Open Scope ring_scope.

Section Model.
Variable F : fieldType.
Notation vec := (seq F).
Notation mat := (seq (seq F)).

(* common.py:1556-1602: a CSSCode object: number of qudits, X-type and Z-type checks (n columns each), the flag
   _is_subsystem_code, and the cached fields _stabilizer_ops, _gauge_ops, _logical_ops, _dimension.
   Simplification: the field is a parameter; distances are kept elsewhere. *)
Record csscode := CSS { c_n : nat; c_x : mat; c_z : mat; c_sub : bool; c_stab : option mat; c_gauge : option mat;
                        c_logs : option mat; c_dim : option nat }.

(* common.py:1595-1598: CSSCode(matrix_x, matrix_z, is_subsystem_code=sub) *)
Definition mkcss (n : nat) (X Z : mat) (sub : option bool) : csscode :=
  CSS n X Z (if sub is Some b then b else many (mull (size Z) X (trl n Z))) None None None None.

(* common.py:1654-1662: matrix *)
Definition css_mat (n : nat) (X Z : mat) : mat := bdiag n n X Z.

(* a CSSCode seen as a QuditCode (the methods that CSSCode inherits work on these fields) *)
Definition c_q (c : csscode) : qcode F :=
  QCode (c_n c) (css_mat (c_n c) (c_x c) (c_z c)) (c_sub c) (c_stab c) (c_gauge c) (c_logs c) (c_dim c).

(* common.py:1664-1671: canonicalized; classical canonicalization as in common.py:239-246 *)
Definition c_canon (c : csscode) : csscode :=
  mkcss (c_n c) (canon (c_n c) (c_x c)) (canon (c_n c) (c_z c)) (Some (c_sub c)).

(* common.py:1701-1707: rank *)
Definition c_rank (c : csscode) : nat := (size (canon (c_n c) (c_x c)) + size (canon (c_n c) (c_z c)))%N.

(* common.py:1949-1960: the X-type and Z-type stabilizers of a subsystem code, from canonical check matrices *)
Definition css_stabs (n : nat) (X Z : mat) : mat * mat :=
  let logs_x := null_space n Z in
  let logs_z := null_space n X in
  (null_space n (Z ++ logs_z), null_space n (X ++ logs_x)).

Definition c_set_stab (c : csscode) (s : mat) : csscode :=
  CSS (c_n c) (c_x c) (c_z c) (c_sub c) (Some s) (c_gauge c) (c_logs c) (c_dim c).

(* common.py:1935-1967 with common.py:1202-1214: get_stabilizer_ops(None, recompute=.., canonicalized=..) *)
Definition c_get_stabilizer_ops (c : csscode) (recompute canonicalized : bool) : mat * csscode :=
  if ~~ c_sub c then
    ((if canonicalized then css_mat (c_n c) (c_x (c_canon c)) (c_z (c_canon c)) else css_mat (c_n c) (c_x c) (c_z c)), c)
  else
    let preset := css_stabs (c_n c) (c_x (c_canon c)) (c_z (c_canon c)) in
    let s0 := if c_stab c is Some s then s else bdiag (c_n c) (c_n c) preset.1 preset.2 in
    let fresh := compute_stabs (c_n c) (css_mat (c_n c) (c_x (c_canon c)) (c_z (c_canon c))) in
    let s := if recompute then fresh else s0 in
    if canonicalized && ~~ is_canonicalized s then (fresh, c_set_stab c fresh) else (s, c_set_stab c s).

(* common.py:1962-1967 with common.py:1196-1200: get_stabilizer_ops(pauli); the argument `canonicalized` is not used *)
Definition c_get_stabilizer_ops_pauli (c : csscode) (x : bool) : mat :=
  let s := (c_get_stabilizer_ops c false false).1 in
  if x then x_part (c_n c) [seq r <- s | (first_nz r < c_n c)%N]
  else z_part (c_n c) [seq r <- s | ~~ (first_nz r < c_n c)%N].

(* common.py:1243-1261: dimension, gauge_dimension *)
Definition c_dimension (c : csscode) : nat :=
  if c_dim c is Some d then d
  else if c_logs c is Some l then (size l %/ 2)%N
  else if ~~ c_sub c then (c_n c - c_rank c)%N
  else (c_n c - (c_rank c + size (c_get_stabilizer_ops c false true).1) %/ 2)%N.
Definition c_gauge_dimension (c : csscode) : nat :=
  if ~~ c_sub c then 0%N
  else ((c_rank c - size (c_get_stabilizer_ops c false true).1) %/ 2)%N.

(* common.py:1799-1922: the data returned by get_standard_form_data_xz; sectors are lists of indices *)
Record cform := CForm { cf_x : mat; cf_z : mat; cf_locs : seq nat;
  cf_rsx : seq nat; cf_rgx : seq nat; cf_rsz : seq nat; cf_rgz : seq nat;
  cf_csx : seq nat; cf_cgx : seq nat; cf_clx : seq nat; cf_csz : seq nat; cf_cgz : seq nat; cf_clz : seq nat }.

(* common.py:1818-1856: get_standard_form_data_xz of a stabilizer code *)
Definition css_stab_form (n : nat) (X Z : mat) : cform :=
  let X0 := canon n X in
  let Z0 := canon n Z in
  let piv_x := first_nonzero_cols X0 in
  let p1 := [seq q <- iota 0 n | q \notin piv_x] ++ piv_x in
  let X1 := selcols p1 X0 in
  let Z1 := selcols p1 Z0 in
  let locs1 := [seq nth 0%N (iota 0 n) q | q <- p1] in
  let Z2 := row_reduce n Z1 in
  let piv_z := first_nonzero_cols Z2 in
  let p2 := [seq q <- iota 0 n | q \notin piv_z] ++ piv_z in
  let sx := size piv_x in
  let sz := size piv_z in
  let nl := (n - sx - sz)%N in
  CForm (selcols p2 X1) (selcols p2 Z2) [seq nth 0%N locs1 q | q <- p2]
        (iota 0 sx) [::] (iota 0 sz) [::]
        (iota nl sx) [::] (iota 0 nl) (iota (nl + sx) sz) [::] (iota 0 nl).

(* common.py:1881-1886 and 1899-1901 (1889-1893 and 1902-1904): the check matrix of one type in standard form, and the
   gauge pivots.  `st` are the stabilizers in standard form, `checks` the canonical checks, both with permuted qudits.
   Natural number subtraction stands for the subtraction at common.py:1885 and 1892 (no pivot is smaller) *)
Definition css_sector (n : nat) (st checks : mat) (perm : seq nat) : mat * seq nat :=
  let s := size st in
  let M1 := canon n (selcols perm (st ++ checks)) in
  let piv := [seq (p - s)%N | p <- drop s (first_nonzero_cols M1)] in
  let M2 := selcols (argsort perm) M1 in
  (madd (take s M2) (mull n (selcols piv (take s st)) (drop s M2)) ++ drop s M2, piv).

(* common.py:1858-1914: get_standard_form_data_xz of a subsystem code with stabilizers Sx, Sz.  None models an index out
   of range at common.py:1911-1912 *)
Definition css_sub_form (n : nat) (X Z Sx Sz : mat) (num_gauges : nat) : option cform :=
  let f := css_stab_form n Sx Sz in
  let gl := cf_clz f in
  let sx := size (cf_x f) in
  let sz := size (cf_z f) in
  let (MX, piv_gx) := css_sector n (cf_x f) (selcols (cf_locs f) (canon n X)) (cf_csx f ++ gl ++ cf_csz f) in
  let (MZ, piv_gz) := css_sector n (cf_z f) (selcols (cf_locs f) (canon n Z)) (cf_csz f ++ gl ++ cf_csx f) in
  if all (fun p => p < size gl)%N piv_gx && all (fun p => p < size gl)%N piv_gz then
    let cols_gx := [seq nth 0%N gl p | p <- piv_gx] in
    let cols_gz := [seq nth 0%N gl p | p <- piv_gz] in
    Some (CForm MX MZ (cf_locs f) (iota 0 sx) (iota sx num_gauges) (iota 0 sz) (iota sz num_gauges)
                (cf_csx f) cols_gx [seq q <- gl | q \notin cols_gx]
                (cf_csz f) cols_gz [seq q <- gl | q \notin cols_gz])
  else None.

(* common.py:1799-1922: get_standard_form_data_xz *)
Definition css_standard_form (c : csscode) : option cform :=
  if ~~ c_sub c then Some (css_stab_form (c_n c) (c_x c) (c_z c))
  else css_sub_form (c_n c) (c_x c) (c_z c) (c_get_stabilizer_ops_pauli c true) (c_get_stabilizer_ops_pauli c false)
                    (c_gauge_dimension c).

(* common.py:1768-1794: the X-type and Z-type logical operators (with n columns) of a code with k logical qudits.  None
   models the exceptions: arrays of different shapes in an assignment, and a singular matrix *)
Definition css_logicals (n k : nat) (sub : bool) (f : cform) : option (mat * mat) :=
  let zero := zerol F n k in
  let seeds : option (mat * mat) :=
    if ~~ sub then
      if (size (cf_clz f) == k) && (size (cf_clx f) == k)
      then Some (assign (cf_clz f) (idl F k) zero, assign (cf_clx f) (idl F k) zero) else None
    else
      let gl := [seq q <- iota 0 n | q \in cf_cgx f ++ cf_clx f] in
      let U := null_space (size gl) (selcols gl (selrows (cf_rgz f) (cf_z f))) in
      let W := null_space (size gl) (selcols gl (selrows (cf_rgx f) (cf_x f))) in
      if (size U == k) && (size W == k) then
        if inv_mat k (mull k U (trl (size gl) W)) is Some inv
        then Some (assign gl (trl (size gl) U) zero, assign gl (mull k (trl (size gl) W) inv) zero) else None
      else None in
  if seeds is Some (xx0, zz0) then
    let xx := assign (cf_csz f) (mull k (mopp (selrows (cf_rsz f) (cf_z f))) xx0) xx0 in
    let zz := assign (cf_csx f) (mull k (mopp (selrows (cf_rsx f) (cf_x f))) zz0) zz0 in
    let p := argsort (cf_locs f) in
    Some (trl k (selrows p xx), trl k (selrows p zz))
  else None.

(* common.py:1709-1797: get_logical_ops(None, recompute=..) *)
Definition c_get_logical_ops (c : csscode) (recompute : bool) : option mat :=
  let fresh := if css_standard_form c is Some f then
                 if css_logicals (c_n c) (c_dimension c) (c_sub c) f is Some (lx, lz)
                 then Some (bdiag (c_n c) (c_n c) lx lz) else None
               else None in
  if c_logs c is Some l then (if recompute then fresh else Some l) else fresh.

(* common.py:1739-1753: get_logical_ops(pauli) without `symplectic`.  reshape raises an error (None) unless the
   number of entries is as expected *)
Definition c_get_logical_ops_pauli (c : csscode) (x : bool) : option mat :=
  let k := c_dimension c in
  if c_get_logical_ops c false is Some l then
    if size l == (k + k)%N then
      Some (if x then x_part (c_n c) (take k l) else z_part (c_n c) (drop k l))
    else None
  else None.

(* common.py:1924-1933: set_logical_ops_xz(logicals_x, logicals_z) *)
Definition of_q (c : csscode) (d : qcode F) : csscode :=
  CSS (c_n c) (c_x c) (c_z c) (c_sub c) (q_stab d) (q_gauge d) (q_logs d) (q_dim d).
Definition c_set_logical_ops (c : csscode) (ops : mat) (validate : bool) : option csscode :=
  if set_logical_ops (c_q c) ops validate is Some d then Some (of_q c d) else None.
Definition c_set_logical_ops_xz (c : csscode) (lx lz : mat) (validate : bool) : option csscode :=
  c_set_logical_ops c (bdiag (c_n c) (c_n c) lx lz) validate.

(* common.py:1982-1986: get_dual_subsystem_code; None if the logical operators cannot be computed *)
Definition c_dual (c : csscode) : option csscode :=
  match c_get_logical_ops_pauli c true, c_get_logical_ops_pauli c false with
  | Some lx, Some lz => Some (mkcss (c_n c) (c_get_stabilizer_ops_pauli c true ++ lx)
                                    (c_get_stabilizer_ops_pauli c false ++ lz) (Some (c_dimension c != 0%N)))
  | _, _ => None
  end.

(* common.py:1216-1236 and 1969-1980: get_gauge_ops(); the argument `recompute` of CSSCode.get_gauge_ops is not used *)
Definition c_get_gauge_ops (c : csscode) : option mat :=
  if ~~ c_sub c then Some [::]
  else if c_gauge c is Some g then Some g
  else if c_dual c is Some d then c_get_logical_ops d false else None.

(* the CSSCode objects a user can hold: as for QuditCode objects, and cached stabilizers and logical operators are of
   X type or of Z type *)
Definition css_typed (n : nat) (r : vec) : Prop := drop n r = vzero F n \/ take n r = vzero F n.
Definition c_ok (c : csscode) : Prop :=
  [/\ q_ok (c_q c), wf (c_n c) (c_x c), wf (c_n c) (c_z c),
      forall s, c_stab c = Some s -> forall r, r \in s -> css_typed (c_n c) r
    & forall l, c_logs c = Some l -> exists lx lz, l = bdiag (c_n c) (c_n c) lx lz /\ size lx = size lz].
End Model.
