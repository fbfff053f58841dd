(* Quantum codes: model of qldpc/codes/common.py:691-1553 (QuditCode). *)
From mathcomp Require Import all_ssreflect all_algebra zify.
From Verif Require Import LinAlg RowReduce Classical.
Set Implicit Arguments.
Unset Strict Implicit.
Unset Printing Implicit Defensive.
Import GRing.Theory.
Local Open Scope ring_scope.

(* ====================================================================== specification *)
Section Spec.
Variable F : fieldType.
Notation vec := (seq F).
Notation mat := (seq (seq F)).

(* symplectic inner product of [u_x|u_z] and [v_x|v_z]: Pauli strings commute iff it vanishes *)
Definition symp (n : nat) (u v : vec) : F :=
  \sum_(j < n) (nth 0 u j * nth 0 v (n + j) - nth 0 u (n + j) * nth 0 v j).

(* all rows of A commute with each other *)
Definition commuting (n : nat) (A : mat) : Prop := forall u v, u \in A -> v \in A -> symp n u v = 0.

(* v is a product of the rows of A *)
Definition span (n : nat) (A : mat) (v : vec) : Prop := exists c, is_comb n A c v.
Definition indep (n : nat) (A : mat) : Prop := forall c c' w, is_comb n A c w -> is_comb n A c' w -> c = c'.

(* v is in the group generated by the rows of A and commutes with all of it *)
Definition central (n : nat) (A : mat) (v : vec) : Prop :=
  span (n + n) A v /\ forall r, r \in A -> symp n r v = 0.

(* the rows of S are a minimal generating set of the centre of the group generated by A *)
Definition center_basis (n : nat) (A S : mat) : Prop :=
  [/\ wf (n + n) S, indep (n + n) S & forall v, span (n + n) S v <-> central n A v].

(* the rows of B are a minimal generating set of the group generated by A *)
Definition basis_of (n : nat) (A B : mat) : Prop :=
  [/\ wf n B, indep n B & forall v, span n B v <-> span n A v].

(* the code with gauge group generated by A encodes k logical and g gauge qudits *)
Definition counts (n : nat) (A : mat) (k g : nat) : Prop :=
  exists B S, [/\ basis_of (n + n) A B, center_basis n A S, size B = (size S + g + g)%N & n = (k + g + size S)%N].

(* row j and row j + k are dual, all other pairs commute *)
Definition dual_pairs (n k : nat) (L : mat) : Prop :=
  [/\ size L = (k + k)%N, wf (n + n) L
    & forall i j, (i < k + k)%N -> (j < k + k)%N ->
        symp n (nth [::] L i) (nth [::] L j) = (j == i + k)%N%:R - (i == j + k)%N%:R].

(* valid logical operators for the gauge group generated by A *)
Definition logical_basis (n k : nat) (A L : mat) : Prop :=
  dual_pairs n k L /\ forall r l, r \in A -> l \in L -> symp n r l = 0.
End Spec.

(* ============================================================================== model *)
Section Model.
Variable F : fieldType.
Notation vec := (seq F).
Notation mat := (seq (seq F)).

(* math.py:55-66: symplectic_conjugate; the arrays have n + n columns *)
Definition conj_row (n : nat) (r : vec) : vec := vopp (drop n r) ++ take n r.
Definition symplectic_conjugate (n : nat) (A : mat) : mat := map (conj_row n) A.

(* common.py:691-747: a QuditCode object: number of qudits, parity check matrix (n + n columns), the flag
   _is_subsystem_code, and the cached fields _stabilizer_ops, _gauge_ops, _logical_ops, _dimension.
   Simplification: the field is a parameter. *)
Record qcode := QCode { q_n : nat; q_mat : mat; q_sub : bool; q_stab : option mat; q_gauge : option mat;
                        q_logs : option mat; q_dim : option nat }.

(* common.py:727-747: QuditCode(matrix, is_subsystem_code=sub) *)
Definition any_anticommute (n : nat) (H : mat) : bool :=
  many (mull (size H) (symplectic_conjugate n H) (trl (n + n) H)).
Definition mkq (n : nat) (H : mat) (sub : option bool) : qcode :=
  QCode n H (if sub is Some b then b else any_anticommute n H) None None None None.

(* the objects a user can hold: the matrix is rectangular, a code flagged as stabilizer code has commuting checks, and the
   cached fields (set by set_logical_ops, by constructors of code families, or not at all) are right *)
Definition q_ok (c : qcode) : Prop :=
  let n := q_n c in
  [/\ wf (n + n) (q_mat c), q_sub c = false -> commuting n (q_mat c),
      forall s, q_stab c = Some s -> wf (n + n) s /\ forall v, span (n + n) s v <-> central n (q_mat c) v,
      forall l, q_logs c = Some l -> exists k g, logical_basis n k (q_mat c) l /\ counts n (q_mat c) k g
    & forall k, q_dim c = Some k -> exists g, counts n (q_mat c) k g].

(* common.py:772-777: canonicalized *)
Definition q_canon (c : qcode) : qcode := mkq (q_n c) (canon (q_n c + q_n c) (q_mat c)) (Some (q_sub c)).

(* common.py:166-169: rank *)
Definition q_rank (c : qcode) : nat := size (q_mat (q_canon c)).

(* common.py:2431-2436: _is_canonicalized *)
Definition is_canonicalized (A : mat) : bool :=
  all (fun row => let pivot := first_nz (nth [::] A row) in
                  (ent A row pivot != 0) && ~~ has (fun i => ent A i pivot != 0) (iota 0 row)) (iota 0 (size A)).

(* common.py:1205-1209: the computation of _stabilizer_ops *)
Definition compute_stabs (n : nat) (canonical : mat) : mat :=
  let logs := null_space (n + n) (symplectic_conjugate n canonical) in
  null_space (n + n) (symplectic_conjugate n (canonical ++ logs)).

Definition set_stab (c : qcode) (s : mat) : qcode :=
  QCode (q_n c) (q_mat c) (q_sub c) (Some s) (q_gauge c) (q_logs c) (q_dim c).

(* common.py:1185-1214: get_stabilizer_ops(None, recompute=.., canonicalized=..): the result and the new state *)
Definition get_stabilizer_ops (c : qcode) (recompute canonicalized : bool) : mat * qcode :=
  if ~~ q_sub c then ((if canonicalized then q_mat (q_canon c) else q_mat c), c)
  else
    let fresh := compute_stabs (q_n c) (q_mat (q_canon c)) in
    let s := if q_stab c is Some s then (if recompute then fresh else s) else fresh in
    if canonicalized && ~~ is_canonicalized s then (fresh, set_stab c fresh) else (s, set_stab c s).

(* common.py:1196-1200: get_stabilizer_ops(pauli) *)
Definition get_stabilizer_ops_pauli (c : qcode) (x : bool) : mat :=
  [seq r <- (get_stabilizer_ops c false false).1 | (first_nz r < q_n c)%N == x].

(* common.py:1243-1253: dimension *)
Definition q_dimension (c : qcode) : nat :=
  if q_dim c is Some d then d
  else if q_logs c is Some l then (size l %/ 2)%N
  else if ~~ q_sub c then (q_n c - q_rank c)%N
  else (q_n c - (q_rank c + size (get_stabilizer_ops c false true).1) %/ 2)%N.

(* common.py:1255-1261: gauge_dimension *)
Definition q_gauge_dimension (c : qcode) : nat :=
  if ~~ q_sub c then 0%N
  else ((q_rank c - size (get_stabilizer_ops c false true).1) %/ 2)%N.

(* matrix.reshape(-1, len(self))[:, permutation].reshape(matrix.shape), common.py:1042-1046 and 974-976 *)
Definition permq (n : nat) (p : seq nat) (A : mat) : mat := [seq vsel p (take n r) ++ vsel p (drop n r) | r <- A].
Definition x_part (n : nat) (A : mat) : mat := map (take n) A.
Definition z_part (n : nat) (A : mat) : mat := map (drop n) A.

(* np.argsort, for the permutations of 0, ..., n - 1 to which it is applied *)
Definition argsort (p : seq nat) : seq nat := [seq index i p | i <- iota 0 (size p)].

(* A[rows] = B: assignment to rows; the number of rows must agree (guarded where it is used) *)
Definition assign (rows : seq nat) (B A : mat) : mat :=
  mkseq (fun i => if i \in rows then nth [::] B (index i rows) else nth [::] A i) (size A).

(* np.linalg.inv of a galois array: Gauss-Jordan elimination of [A | I]; None models the LinAlgError *)
Definition inv_mat (k : nat) (A : mat) : option mat :=
  let R := row_reduce (k + k) (hcat A (idl F k)) in
  if x_part k R == idl F k then Some (z_part k R) else None.

(* common.py:982-1164: the data returned by get_standard_form_data; row and column sectors are lists of indices *)
Record sform := SForm { sf_mat : mat; sf_locs : seq nat;
  sf_rsx : seq nat; sf_rgx : seq nat; sf_rsz : seq nat; sf_rgz : seq nat;
  sf_csx : seq nat; sf_cgx : seq nat; sf_clx : seq nat; sf_csz : seq nat; sf_cgz : seq nat; sf_clz : seq nat }.

(* common.py:1048-1090: get_standard_form_data of a stabilizer code with `dim` logical qudits.  None models the
   ValueError of the assignment at common.py:1067 when the shapes differ (simplification: NumPy would broadcast one row) *)
Definition stab_form (n : nat) (H : mat) (dim : nat) : option sform :=
  let M := canon (n + n) H in
  let piv_x := [seq p <- first_nonzero_cols M | (p < n)%N] in
  let sx := size piv_x in
  let p1 := [seq q <- iota 0 n | q \notin piv_x] ++ piv_x in
  let M1 := permq n p1 M in
  let locs1 := [seq nth 0%N (iota 0 n) q | q <- p1] in
  let sub0 := z_part n (drop sx M1) in
  let sub := canon n sub0 in
  if size sub != size sub0 then None
  else
    let M2 := take sx M1 ++ hcat (x_part n (drop sx M1)) sub in
    let piv_z := take (n - sx - dim) (first_nonzero_cols sub) in
    let sz := size piv_z in
    let p2 := [seq q <- iota 0 n | q \notin piv_z] ++ piv_z in
    let M3 := permq n p2 M2 in
    let locs2 := [seq nth 0%N locs1 q | q <- p2] in
    let nl := (n - sx - sz)%N in
    Some (SForm M3 locs2 (iota 0 sx) [::] (iota sx sz) [::]
                (iota nl sx) [::] (iota 0 nl) (iota (nl + sx) sz) [::] (iota 0 nl)).

(* common.py:1092-1156: get_standard_form_data of a subsystem code.  None models an exception: an index out of range at
   common.py:1148-1149, or a failure for the stabilizer group.  Natural number subtraction stands for the subtraction at
   common.py:1121 and 1128, where Python would go on with negative (wrapping) indices. *)
Definition sub_form (n : nat) (H stabs : mat) (stab_dim num_gauges : nat) : option sform :=
  if stab_form n stabs stab_dim is Some f then
    let st_x := selrows (sf_rsx f) (sf_mat f) in
    let st_z := z_part n (selrows (sf_rsz f) (sf_mat f)) in
    let cols_sx := sf_csx f in
    let cols_sz := sf_csz f in
    let cols_gl := sf_clz f in
    let sx := size st_x in
    let sz := size st_z in
    let g := num_gauges in
    let checks := permq n (sf_locs f) (canon (n + n) H) in
    let checks_x := take (sx + g) checks in
    let checks_z := z_part n (drop (sx + g) checks) in
    let perm_x := cols_sx ++ cols_gl ++ cols_sz in
    let mx1 := take (sx + g) (canon (n + n) (permq n perm_x (st_x ++ checks_x))) in
    let piv_gx := [seq (p - sx)%N | p <- drop sx (first_nonzero_cols mx1)] in
    let mx2 := permq n (argsort perm_x) mx1 in
    let perm_z := cols_sz ++ cols_gl ++ cols_sx in
    let mz1 := canon n (selcols perm_z (st_z ++ checks_z)) in
    let piv_gz := [seq (p - sz)%N | p <- drop sz (first_nonzero_cols mz1)] in
    let mz2 := selcols (argsort perm_z) mz1 in
    let mx3 := madd (take sx mx2) (mull (n + n) (selcols piv_gx st_x) (drop sx mx2)) ++ drop sx mx2 in
    let mz3 := madd (take sz mz2) (mull n (selcols piv_gz st_z) (drop sz mz2)) ++ drop sz mz2 in
    if all (fun p => p < size cols_gl)%N piv_gx && all (fun p => p < size cols_gl)%N piv_gz then
      let cols_gx := [seq nth 0%N cols_gl p | p <- piv_gx] in
      let cols_gz := [seq nth 0%N cols_gl p | p <- piv_gz] in
      Some (SForm (mx3 ++ hcat (zerol F (size mz3) n) mz3) (sf_locs f)
                  (iota 0 sx) (iota sx g) (iota (sx + g) sz) (iota (sx + g + sz) g)
                  cols_sx cols_gx [seq q <- cols_gl | q \notin cols_gx]
                  cols_sz cols_gz [seq q <- cols_gl | q \notin cols_gz])
    else None
  else None.

(* common.py:982-1164: get_standard_form_data *)
Definition standard_form (c : qcode) : option sform :=
  if ~~ q_sub c then stab_form (q_n c) (q_mat c) (q_dimension c)
  else let s := (get_stabilizer_ops c false false).1 in
       sub_form (q_n c) (q_mat c) s (q_dimension (mkq (q_n c) s (Some false))) (q_gauge_dimension c).

(* common.py:911-979: computation of the logical operators from the standard form of a code with k logical qudits.  None
   models the exceptions: arrays of different shapes in an assignment, and a singular matrix.  np.sort of the GL columns
   is a filter of 0, ..., n - 1. *)
Definition logicals_of_form (n k : nat) (sub : bool) (f : sform) : option mat :=
  let Mx := x_part n (sf_mat f) in
  let Mz := z_part n (sf_mat f) in
  let zero := zerol F n k in
  let seeds : option (mat * mat) :=
    if ~~ sub then
      if (size (sf_clz f) == k) && (size (sf_clx f) == k)
      then Some (assign (sf_clz f) (idl F k) zero, assign (sf_clx f) (idl F k) zero) else None
    else
      let gl := [seq q <- iota 0 n | q \in sf_cgx f ++ sf_clx f] in
      let U := null_space (size gl) (selcols gl (selrows (sf_rgz f) Mz)) in
      let W := null_space (size gl) (selcols gl (selrows (sf_rgx f) Mx)) in
      if (size U == k) && (size W == k) then
        if inv_mat k (mull k U (trl (size gl) W)) is Some inv
        then Some (assign gl (trl (size gl) U) zero, assign gl (mull k (trl (size gl) W) inv) zero) else None
      else None in
  if seeds is Some (xx0, zz0) then
    let xx := assign (sf_csz f) (mull k (mopp (selrows (sf_rsz f) Mz)) xx0) xx0 in
    let zz := assign (sf_csx f) (mull k (mopp (selrows (sf_rsx f) Mx)) zz0) zz0 in
    if size (sf_clx f) == k then
      let xz0 := assign (sf_clx f) (idl F k) zero in
      let fill rows xz := madd (mull k (mopp (selrows rows Mx)) xz) (mull k (selrows rows Mz) xx) in
      let xz1 := assign (sf_cgx f) (fill (sf_rgx f) xz0) xz0 in
      let xz2 := assign (sf_csx f) (fill (sf_rsx f) xz1) xz1 in
      let lx := trl k (xx ++ xz2) in
      let lz := trl k (zero ++ zz) in
      Some (permq n (argsort (sf_locs f)) lx ++ permq n (argsort (sf_locs f)) lz)
    else None
  else None.

(* common.py:876-980: get_logical_ops(); recompute=False *)
Definition get_logical_ops (c : qcode) : option mat :=
  if q_logs c is Some l then Some l
  else if standard_form c is Some f then logicals_of_form (q_n c) (q_dimension c) (q_sub c) f else None.

(* common.py:1166-1183: set_logical_ops with validation; None is the ValueError.  np.array_equal also compares the
   shapes, so an odd number of operators is rejected by it. *)
Definition set_logical_ops (c : qcode) (ops : mat) (validate : bool) : option qcode :=
  let k := (size ops %/ 2)%N in
  let ops_x := take k ops in
  let ops_z := drop k ops in
  let n := q_n c in
  let c' := QCode n (q_mat c) (q_sub c) (q_stab c) (q_gauge c) (Some ops) (Some k) in
  if ~~ validate then Some c'
  else if (size ops_z != k) || (mull (size ops_z) (symplectic_conjugate n ops_x) (trl (n + n) ops_z) != idl F k) then None
  else if many (mull (size ops) (symplectic_conjugate n (q_mat c)) (trl (n + n) ops)) then None
  else if k != q_dimension c then None
  else Some c'.

(* common.py:1238-1241: get_dual_subsystem_code; None if the logical operators cannot be computed *)
Definition q_dual (c : qcode) : option qcode :=
  if get_logical_ops c is Some l
  then Some (mkq (q_n c) ((get_stabilizer_ops c false false).1 ++ l) (Some (q_dimension c != 0%N))) else None.

(* common.py:1216-1236: get_gauge_ops() *)
Definition q_get_gauge_ops (c : qcode) : option mat :=
  if ~~ q_sub c then Some [::]
  else if q_gauge c is Some g then Some g
  else if q_dual c is Some d then get_logical_ops d else None.

(* common.py:1361-1375: conjugated(qudits); `qudits` are the conjugated positions *)
Definition swap_row (n : nat) (qs : seq nat) (r : vec) : vec :=
  mkseq (fun j => if j \in qs then nth 0 r (n + j) else nth 0 r j) n ++
  mkseq (fun j => if j \in qs then nth 0 r j else nth 0 r (n + j)) n.
Definition conjugated (c : qcode) (qs : seq nat) : option qcode :=
  let n := q_n c in
  let code := mkq n (map (swap_row n qs) (q_mat c)) (Some (q_sub c)) in
  if q_logs c is Some l then set_logical_ops code (map (swap_row n qs) l) true else Some code.

(* common.py:1377-1413: deformed(circuit, preserve_logicals); `act` is the map from [x|z] to [x|z] computed by
   stim (tableau(string).to_numpy(), signs dropped) *)
Definition deformed (c : qcode) (act : vec -> vec) (preserve : bool) : option qcode :=
  let code := mkq (q_n c) (map act (q_mat c)) (Some (q_sub c)) in
  if preserve then (if get_logical_ops c is Some l then set_logical_ops code l true else None)
  else if q_logs c is Some l then set_logical_ops code (map act l) true
  else Some code.

(* values of a list of computations, if none of them fails *)
Fixpoint all_some (T : Type) (s : seq (option T)) : option (seq T) :=
  if s is x :: s' then (if x is Some v then (if all_some s' is Some t then Some (v :: t) else None) else None)
  else Some [::].

(* common.py:1416-1450: stack; get_logical_ops(pauli) is one half of the logical operators (common.py:908-909) *)
Definition stack_logs (cls : seq (nat * mat)) : mat :=
  let lx (p : nat * mat) := take (size p.2 %/ 2)%N p.2 in
  let lz (p : nat * mat) := drop (size p.2 %/ 2)%N p.2 in
  let bd (f : nat * mat -> mat) := block_diag [seq (p.1, f p) | p <- cls] in
  hcat (bd (fun p => x_part p.1 (lx p))) (bd (fun p => z_part p.1 (lx p))) ++
  hcat (bd (fun p => x_part p.1 (lz p))) (bd (fun p => z_part p.1 (lz p))).
Definition stack_mat (cls : seq (nat * mat)) : mat :=
  hcat (cc_mat (stack [seq mkcode p.1 (x_part p.1 p.2) | p <- cls]))
       (cc_mat (stack [seq mkcode p.1 (z_part p.1 p.2) | p <- cls])).
Definition q_stack (cs : seq qcode) (inherit : bool) : option qcode :=
  let n := sumn [seq q_n c | c <- cs] in
  let code := mkq n (stack_mat [seq (q_n c, q_mat c) | c <- cs]) (Some (has q_sub cs)) in
  if ~~ inherit then Some code
  else if all_some [seq get_logical_ops c | c <- cs] is Some ls
       then set_logical_ops code (stack_logs (zip (map q_n cs) ls)) true
       else None.

(* common.py:1501-1553: the map used when outer_physical_to_inner_logical is None:
   np.arange(no * ki).reshape(no, ki).T.ravel() *)
Definition default_wiring (no ki : nat) : seq nat := flatten (mkseq (fun a => mkseq (fun b => b * ki + a)%N no) ki).

(* common.py:1548-1553: permutation of the inner logical operators *)
Definition permute_logs (wiring : seq nat) (ki : nat) (logs : mat) : mat :=
  [seq nth [::] (take ki logs) i | i <- wiring] ++ [seq nth [::] (drop ki logs) i | i <- wiring].

Definition set_logs (c : qcode) (l : mat) : qcode :=
  QCode (q_n c) (q_mat c) (q_sub c) (q_stab c) (q_gauge c) (Some l) (q_dim c).

(* common.py:1478-1498: the last part of concatenate, given standardised inputs and their logical operators *)
Definition concat_core (inner outer : qcode) (ilogs ologs : mat) (inherit : bool) : qcode :=
  let n := q_n inner in
  let outer_checks := mull (n + n) (q_mat outer) ilogs in
  let code := mkq n (q_mat inner ++ outer_checks) (Some (q_sub inner || q_sub outer)) in
  if inherit then set_logs code (mull (n + n) ologs ilogs) else code.

(* common.py:1453-1498 and 1501-1553: concatenate.  None models the exceptions.  The result comes with the objects
   `inner` and `outer` passed by the caller in their new state: when no stacking happens, the local variable `inner` is the
   caller's object and its _logical_ops are overwritten (common.py:1548-1553). *)
Definition concatenate (inner outer : qcode) (wiring : option (seq nat)) (inherit : bool) :
    option (qcode * (qcode * qcode)) :=
  let ki := q_dimension inner in
  let no := q_n outer in
  let w := if wiring is Some w then w else default_wiring no ki in
  if ~~ [&& (0 < ki)%N, (0 < no)%N, (size w %% ki == 0)%N & (size w %% no == 0)%N] then None
  else
    let bi := (size w %/ ki)%N in
    let bo := (size w %/ no)%N in
    if (if (1 < bi)%N then q_stack (nseq bi inner) true else Some inner) is Some inner1 then
      if (if (1 < bo)%N then q_stack (nseq bo outer) true else Some outer) is Some outer1 then
        if get_logical_ops inner1 is Some li then
          let ki1 := q_dimension inner1 in
          if all (fun i => i < ki1)%N w && (size w == ki1) then
            let ilogs := permute_logs w ki1 li in
            let inner2 := set_logs inner1 ilogs in
            if (if inherit then get_logical_ops outer1 else Some [::]) is Some lo then
              Some (concat_core inner2 outer1 ilogs lo inherit, (if (1 < bi)%N then inner else inner2, outer))
            else None
          else None
        else None
      else None
    else None.
End Model.
