(* Properties C80, C81: stacking and concatenating CSS codes; distances of stacked codes (C33, C80). *)
From mathcomp Require Import all_ssreflect all_algebra zify.
From Verif Require Import LinAlg RowReduce Classical ClassicalProofs ClassicalProofs2 Symplectic Quantum QuantumProofs
  QuantumStack QuantumConcat Css CssProofs CssGauge QuantumDist ClassicalDist CssDist CssStack PropsClassical PropsQuantum PropsQuantumOps.
Set Implicit Arguments.
Unset Strict Implicit.
Unset Printing Implicit Defensive.
Import GRing.Theory.
Local Open Scope ring_scope.

(* ---------------------------------------------------------------------------- specification *)
Section Spec.
Variable F : fieldType.
(* the rows of all matrices, where the rows of the i-th matrix (with nth 0 ns i columns) are preceded by zeros for the columns
   of the matrices before it, and followed by zeros for those after it *)
Definition blocks (ns : seq nat) (Ms : seq (seq (seq F))) : seq (seq F) :=
  flatten (mkseq (fun i => [seq nseq (sumn (take i ns)) 0 ++ r ++ nseq (sumn (drop i.+1 ns)) 0 | r <- nth [::] Ms i]) (size ns)).

(* row i of B is the combination of the rows of L with the coefficients in row i of A *)
Definition expanded (n : nat) (L A B : seq (seq F)) : Prop :=
  size B = size A /\ forall i, (i < size A)%N -> is_comb n L (nth [::] A i) (nth [::] B i).

(* the operators x ++ 0 for the rows x of X, then 0 ++ z for the rows z of Z *)
Definition xz_rows (n : nat) (X Z : seq (seq F)) : seq (seq F) :=
  [seq x ++ nseq n 0 | x <- X] ++ [seq nseq n 0 ++ z | z <- Z].
End Spec.

Section Aux.
Variable F : fieldType.
Lemma block_diag_blocks (ps : seq (nat * seq (seq F))) : block_diag ps = blocks (map fst ps) (map snd ps).
Proof.
rewrite block_diag_rows /blocks size_map; congr flatten; rewrite /mkseq; apply/eq_in_map => i; rewrite mem_iota /= add0n => li.
rewrite (nth_map (0%N, [::])) //; apply: eq_map => r; congr (_ ++ (_ ++ nseq _ _)).
have : sumn (map fst ps) = (sumn (take i (map fst ps)) + sumn (drop i (map fst ps)))%N by rewrite -sumn_cat cat_take_drop.
rewrite (drop_nth 0%N) ?size_map //= (nth_map (0%N, [::])) //; move: (sumn _) (sumn _) (sumn _) => a b c; lia.
Qed.

Lemma expanded_mull n (L A : seq (seq F)) : wf (size L) A -> wf n L -> expanded n L A (mull n A L).
Proof.
move=> wA wL; split=> [|i li]; first exact: size_mull.
have si : size (nth [::] A i) = size L by apply: wf_nth.
rewrite /mull (nth_map [::]) //; split=> //; first by rewrite size_map size_trl.
move=> j lj; rewrite (nth_map [::]) ?size_trl // nth_trl // (@dotE _ (size L)) ?size_map //.
by apply: eq_bigr => k _; rewrite (nth_map [::]).
Qed.

End Aux.

Section Props.
Variable F : fieldType.
Implicit Types (c : csscode F) (cs : seq (csscode F)).
Notation nc cs i := (nth (ccdflt F) cs i).

(* ---------------------------------------------------------------------------- C80 *)
(* stacking never fails; the checks are those of the parts, side by side; the numbers of logical and gauge qudits add up; the
   result is marked as a subsystem code iff one of the parts is; checks commute iff those of all parts do *)
Theorem C80_stack cs (inherit : bool) : (forall i, (i < size cs)%N -> c_ok (nc cs i)) ->
  exists c, [/\ c_stack cs inherit = Some c, c_ok c, c_n c = sumn (map (@c_n F) cs),
      c_x c = blocks (map (@c_n F) cs) (map (@c_x F) cs) /\ c_z c = blocks (map (@c_n F) cs) (map (@c_z F) cs)
    & [/\ c_dimension c = sumn (map (@c_dimension F) cs), c_gauge_dimension c = sumn (map (@c_gauge_dimension F) cs),
          c_sub c = has (@c_sub F) cs
        & commuting (c_n c) (css_mat (c_n c) (c_x c) (c_z c)) <->
          forall i, (i < size cs)%N -> commuting (c_n (nc cs i)) (css_mat (c_n (nc cs i)) (c_x (nc cs i)) (c_z (nc cs i)))]].
Proof.
move=> ok; have [c [e okc [en ex ez] es [ed eg _]]] := c_stack_ok inherit ok; exists c.
have [_ _ _ hc] := stack_base_ok ok.
have hb (f : csscode F -> seq (seq F)) : block_diag [seq (c_n c, f c) | c <- cs] = blocks (map (@c_n F) cs) (map f cs).
  by rewrite block_diag_blocks -!map_comp.
by split=> //; [rewrite ex ez !hb | split=> //; rewrite en ex ez].
Qed.

(* with inherit_logicals, the logical operators are those of the parts, side by side, and they are valid *)
Theorem C80_inherit cs : (forall i, (i < size cs)%N -> c_ok (nc cs i)) ->
  exists c lx lz, [/\ c_stack cs true = Some c, size lx = size cs /\ size lz = size cs,
      forall i, (i < size cs)%N -> c_get_logical_ops_pauli (nc cs i) true = Some (nth [::] lx i) /\
                                   c_get_logical_ops_pauli (nc cs i) false = Some (nth [::] lz i)
    & let L := xz_rows (c_n c) (blocks (map (@c_n F) cs) lx) (blocks (map (@c_n F) cs) lz) in
      c_get_logical_ops c false = Some L /\ logical_basis (c_n c) (c_dimension c) (css_mat (c_n c) (c_x c) (c_z c)) L].
Proof.
move=> ok; have [c [e okc [en ex ez] es [ed eg hl]]] := c_stack_ok true ok.
exists c, (map (@c_lx F) cs), (map (@c_lz F) cs); split; rewrite ?size_map //.
  by move=> i li; rewrite !(nth_map (ccdflt F)) //; have [-> ->] := c_lxz (ok _ li).
have hb (f : csscode F -> seq (seq F)) : block_diag [seq (c_n c, f c) | c <- cs] = blocks (map (@c_n F) cs) (map f cs).
  by rewrite block_diag_blocks -!map_comp.
have [] := hl isT; rewrite !hb en => h1 h2; split; [exact: h1 | exact: h2].
Qed.

(* d is the distance of the stacked code iff it is the distance of one of the parts, and no part has a nontrivial operator of
   smaller weight; likewise for the operators of X type and of Z type *)
Theorem C80_distance cs inherit c d : (forall i, (i < size cs)%N -> c_ok (nc cs i)) -> c_stack cs inherit = Some c ->
  is_qdist (c_n c) (css_mat (c_n c) (c_x c) (c_z c)) d <->
  let A i := css_mat (c_n (nc cs i)) (c_x (nc cs i)) (c_z (nc cs i)) in
  (exists2 i, (i < size cs)%N & is_qdist (c_n (nc cs i)) (A i) d) /\
  (forall i v, (i < size cs)%N -> nontrivial (c_n (nc cs i)) (A i) v -> (d <= qwt (c_n (nc cs i)) v)%N).
Proof.
move=> ok e; rewrite -min_qdist (c_stack_min None d ok e) /=.
split=> -[[i li /min_qdist h] m]; (split; first by exists i) => j v lj nv; first by apply: m.
by move=> _; apply: m.
Qed.

Theorem C80_distance_xz x cs inherit c d : (forall i, (i < size cs)%N -> c_ok (nc cs i)) -> c_stack cs inherit = Some c ->
  is_tdist x (c_n c) (css_mat (c_n c) (c_x c) (c_z c)) d <->
  let A i := css_mat (c_n (nc cs i)) (c_x (nc cs i)) (c_z (nc cs i)) in
  (exists2 i, (i < size cs)%N & is_tdist x (c_n (nc cs i)) (A i) d) /\
  (forall i v, (i < size cs)%N -> size v = c_n (nc cs i) -> nontrivial (c_n (nc cs i)) (A i) (emb x (c_n (nc cs i)) v) -> (d <= hwt v)%N).
Proof.
move=> ok e; rewrite -min_tdist (c_stack_min (Some x) d ok e) /=.
split=> -[[i li /min_tdist h] m]; (split; first by exists i) => j v lj.
  move=> sv nv; rewrite -(qwt_emb x sv); apply: m => //.
  by rewrite /emb; case: (x); rewrite ?drop_size_cat ?take_size_cat ?size_nseq.
move=> nv tv; have [sv _ _] := nv; have st := half_take sv; have sd := half_drop sv.
have [u su eu] : exists2 u, size u = c_n (nc cs j) & v = emb x (c_n (nc cs j)) u.
  case: (x) tv => tv; [exists (take (c_n (nc cs j)) v) | exists (drop (c_n (nc cs j)) v)] => //;
    by rewrite /emb -{1}(cat_take_drop (c_n (nc cs j)) v) tv.
by rewrite eu qwt_emb //; apply: (m j) => //; rewrite -eu.
Qed.

(* the parameters stated in the documentation: [n1, k1, d1] and [n2, k2, d2] give [n1 + n2, k1 + k2, min(d1, d2)] ... *)
Theorem C80_parameters c1 c2 d1 d2 inherit : c_ok c1 -> c_ok c2 ->
  is_qdist (c_n c1) (css_mat (c_n c1) (c_x c1) (c_z c1)) d1 -> is_qdist (c_n c2) (css_mat (c_n c2) (c_x c2) (c_z c2)) d2 ->
  exists c, [/\ c_stack [:: c1; c2] inherit = Some c, c_n c = (c_n c1 + c_n c2)%N, c_dimension c = (c_dimension c1 + c_dimension c2)%N
               & is_qdist (c_n c) (css_mat (c_n c) (c_x c) (c_z c)) (minn d1 d2)].
Proof.
move=> ok1 ok2 q1 q2; have ok i : (i < size [:: c1; c2])%N -> c_ok (nc [:: c1; c2] i) by case: i => [|[|i]].
have [c [e _ [en _ _] _ [ed _ _]]] := c_stack_ok inherit ok; exists c; split=> //; rewrite ?en ?ed /= ?addn0 //.
have := C80_distance (minn d1 d2) ok e; rewrite en /= addn0 => h; apply/h; split.
  by case: (leqP d1 d2) => [le | lt]; [exists 0%N | exists 1%N].
case=> [|[|i]] // v _ /=; [case: q1 | case: q2] => _ m /m; apply: leq_trans; [exact: geq_minl | exact: geq_minr].
Qed.

(* ... and a part without logical qudits does not affect the distance *)
Theorem C80_trivial_part c1 c2 d inherit c : c_ok c1 -> c_ok c2 -> c_dimension c2 = 0%N -> c_stack [:: c1; c2] inherit = Some c ->
  is_qdist (c_n c) (css_mat (c_n c) (c_x c) (c_z c)) d <-> is_qdist (c_n c1) (css_mat (c_n c1) (c_x c1) (c_z c1)) d.
Proof.
move=> ok1 ok2 k0 e; have ok i : (i < size [:: c1; c2])%N -> c_ok (nc [:: c1; c2] i) by case: i => [|[|i]].
have [_ wX wZ _ _] := ok2; have hc := c_counts ok2; rewrite k0 in hc.
have no v := @no_nontrivial _ _ _ _ v (wf_css wX wZ) hc.
rewrite (C80_distance d ok e); split=> [[[[|[|i]] // _ h] _] | h] //; first by case: h => -[v nv _]; case: (no v).
by split; [exists 0%N | case: h => _ m [|[|i]] // v _ /=; [exact: m | move=> nv; case: (no v)]].
Qed.

(* the promise of equal X- and Z-distances, recorded in the stacked code, is kept if those of the parts are *)
Theorem C80_promise (el : seq F) cs (sts : seq dstate) inherit c : (forall y, y \in el) ->
  (forall i, (i < size cs)%N -> c_ok (nc cs i)) -> size sts = size cs ->
  (forall i, (i < size cs)%N -> dstate_ok (nc cs i) (nth (DState None None None false) sts i)) ->
  c_stack cs inherit = Some c -> dstate_ok c (c_stack_dist sts c).
Proof.
move=> ael ok ss hs e; have [c' [e' okc _ _ _]] := c_stack_ok inherit ok; move: e'; rewrite e => -[ec]; subst c'.
apply: fresh_ok => // /(all_nthP (DState None None None false)) hall; apply: (stack_promise ok e ael) => i li.
by have [_ _ _ h] := hs _ li; apply: h; apply: hall; rewrite ss.
Qed.

(* ---------------------------------------------------------------------------- C33: distances of stacks of qudit codes *)
Theorem C33_distance (qs : seq (qcode F)) (c : qcode F) d : (forall i, (i < size qs)%N -> q_ok (nth (cdflt F) qs i)) ->
  q_stack qs false = Some c ->
  is_qdist (q_n c) (q_mat c) d <->
  (exists2 i, (i < size qs)%N & is_qdist (q_n (nth (cdflt F) qs i)) (q_mat (nth (cdflt F) qs i)) d) /\
  (forall i v, (i < size qs)%N -> nontrivial (q_n (nth (cdflt F) qs i)) (q_mat (nth (cdflt F) qs i)) v ->
     (d <= qwt (q_n (nth (cdflt F) qs i)) v)%N).
Proof.
move=> ok [<-] /=.
have np i : (i < size qs)%N -> nth (0%N, [::]) [seq (q_n c, q_mat c) | c <- qs] i = (q_n (nth (cdflt F) qs i), q_mat (nth (cdflt F) qs i)).
  by move=> li; rewrite (nth_map (cdflt F)).
have wps : wfq [seq (q_n c, q_mat c) | c <- qs].
  by apply/(all_nthP (0%N, [::])) => i; rewrite size_map => li; rewrite np //; have [] := ok _ li.
have en : sumn [seq q_n c | c <- qs] = sumn [seq p.1 | p <- [seq (q_n c, q_mat c) | c <- qs]] by rewrite -map_comp.
rewrite en -min_qdist; apply: iff_trans (stack_min None d wps) _; rewrite size_map.
split=> -[[i li h] m].
  split; first by exists i => //; move: h; rewrite np // => /min_qdist.
  by move=> j v lj nv; have := m j v lj; rewrite np //; apply.
split; first by exists i; rewrite // np //; apply/min_qdist.
by move=> j v lj /=; rewrite np // => nv _; apply: (m j).
Qed.

(* ---------------------------------------------------------------------------- C81 *)
(* for wirings that are permutations: concatenation never fails; inner1 and outer1 are the stacked inputs.  The X checks are
   those of the inner code, followed by those of the outer code with X-type logical operators of the inner code in place of
   physical operators; likewise for Z.  The result is marked as a subsystem code iff its checks do not commute *)
Theorem C81_concatenate_partial (inner outer : csscode F) wiring (inherit : bool) :
  let w := if wiring is Some w then w else default_wiring (c_n outer) (c_dimension inner) in
  c_ok inner -> c_ok outer -> (0 < c_dimension inner)%N -> (0 < c_n outer)%N -> (0 < size w)%N ->
  (c_dimension inner %| size w)%N -> (c_n outer %| size w)%N -> perm_eq w (iota 0 (size w)) ->
  let bi := (size w %/ c_dimension inner)%N in let bo := (size w %/ c_n outer)%N in
  exists c st inner1 outer1 lx lz BX BZ,
    [/\ c_concatenate inner outer wiring inherit = Some (c, st),
        (if (1 < bi)%N then c_stack (nseq bi inner) true else Some inner) = Some inner1,
        (if (1 < bo)%N then c_stack (nseq bo outer) true else Some outer) = Some outer1,
        c_get_logical_ops_pauli inner1 true = Some lx & c_get_logical_ops_pauli inner1 false = Some lz] /\
    [/\ c_ok c, c_n c = (bi * c_n inner)%N, c_dimension c = (bo * c_dimension outer)%N,
        c_gauge_dimension c = (bi * c_gauge_dimension inner + bo * c_gauge_dimension outer)%N
      & c_sub c = false <-> commuting (c_n c) (css_mat (c_n c) (c_x c) (c_z c))] /\
    let px := [seq nth [::] lx i | i <- w] in let pz := [seq nth [::] lz i | i <- w] in
    [/\ expanded (c_n c) px (c_x outer1) BX, expanded (c_n c) pz (c_z outer1) BZ,
        c_x c = c_x inner1 ++ BX, c_z c = c_z inner1 ++ BZ
      & inherit -> exists kx kz Qx Qz,
          [/\ c_get_logical_ops_pauli outer1 true = Some kx, c_get_logical_ops_pauli outer1 false = Some kz,
              expanded (c_n c) px kx Qx, expanded (c_n c) pz kz Qz
            & let L := xz_rows (c_n c) Qx Qz in
              c_get_logical_ops c false = Some L /\ logical_basis (c_n c) (c_dimension c) (css_mat (c_n c) (c_x c) (c_z c)) L]].
Proof.
move=> w oki oko k0 n0 w0 dk dn pw bi bo.
have [c [c1 [c2 [st [[e0 e1 e2 [ok1 ok2]] [[est n1 d1 n2] [[okc en ed eg [hs _]] [lP ex ez hl]]]]]]]] :=
  c_concatenate_ok inherit oki oko k0 n0 w0 dk dn pw.
have [h1 h2 h3 [h4 h5] [h6 h7 h8]] := c_lxz ok1; have [g1 g2 g3 [g4 g5] [g6 g7 g8]] := c_lxz ok2.
have [_ wX2 wZ2 _ _] := ok2.
set px := [seq nth [::] (c_lx c1) i | i <- w] in lP ex hl; set pz := [seq nth [::] (c_lz c1) i | i <- w] in lP ez hl.
have [[_ wL _] _] := lP; have [wpx wpz] := wf_bdiag_inv wL.
have spx : size px = size w by rewrite size_map.
have spz : size pz = size w by rewrite size_map.
have hex A L : wf (c_n c2) A -> size L = size w -> wf (c_n c) L -> expanded (c_n c) L A (mull (c_n c) A L).
  by move=> wA sL wL'; apply: expanded_mull => //; rewrite sL -n2.
exists c, st, c1, c2, (c_lx c1), (c_lz c1), (mull (c_n c) (c_x c2) px), (mull (c_n c) (c_z c2) pz).
split; first by split; [exact: e0 | exact: e1 | exact: e2 | exact: h1 | exact: h2].
split; first by split.
rewrite -/px -/pz; split; [exact: hex | exact: hex | by [] | by [] |].
move=> hi; exists (c_lx c2), (c_lz c2), (mull (c_n c) (c_lx c2) px), (mull (c_n c) (c_lz c2) pz).
by split; [exact: g1 | exact: g2 | exact: hex | exact: hex | exact: hl].
Qed.

(* stabilizer codes, default wiring *)
Theorem C81_stabilizer (inner outer : csscode F) (inherit : bool) :
  c_ok inner -> c_ok outer -> c_sub inner = false -> c_sub outer = false ->
  (0 < c_dimension inner)%N -> (0 < c_n outer)%N ->
  exists c st,
    [/\ c_concatenate inner outer None inherit = Some (c, st), c_sub c = false,
        commuting (c_n c) (css_mat (c_n c) (c_x c) (c_z c)), c_n c = (c_n outer * c_n inner)%N
      & c_dimension c = (c_dimension inner * c_dimension outer)%N /\
        exists2 L, c_get_logical_ops c false = Some L & logical_basis (c_n c) (c_dimension c) (css_mat (c_n c) (c_x c) (c_z c)) L].
Proof.
move=> oki oko si so k0 n0; set w := default_wiring (c_n outer) (c_dimension inner).
have pw : perm_eq w (iota 0 (c_n outer * c_dimension inner)) by apply: default_perm.
have sw : size w = (c_n outer * c_dimension inner)%N by rewrite (perm_size pw) size_iota.
have := @c_concatenate_ok F inner outer None inherit oki oko k0 n0.
rewrite -/w sw; case=> //; first by rewrite muln_gt0 n0.
- exact: dvdn_mull.
- exact: dvdn_mulr.
move=> c [c1 [c2 [st [[e _ _ _] [_ [[okc en ed _ [hs hs']] _]]]]]]; exists c, st.
have s0 : c_sub c = false by apply: hs'.
split=> //; first exact/hs.
  by rewrite en mulnK.
split; first by rewrite ed mulKn.
by have [lx [lz [e1 e2 e3 lb]]] := c_logicals_ok false okc; eexists; [exact: e1 | exact: lb].
Qed.
End Props.

(* ---------------------------------------------------------------------------- examples and witnesses *)
Definition c4 : csscode [fieldType of 'F_2] := mkcss 4 (b2 [:: [:: 1;1;1;1]]%N) (b2 [:: [:: 1;1;1;1]]%N) None.
Definition rep3 : csscode [fieldType of 'F_2] := mkcss 3 [::] (b2 [:: [:: 1;1;0]; [:: 0;1;1]]%N) None.

(* a wiring that sends two outer qubits to the same inner logical qubit is accepted here, too: with no outer check, the logical
   operators of the two outer qubits become equal, so that they are not dual to each other *)
Theorem C81_wiring_refuted : exists (F : fieldType) (inner outer : csscode F) w c st L,
  [/\ c_ok inner, c_ok outer, c_concatenate inner outer (Some w) true = Some (c, st), c_get_logical_ops c false = Some L
    & ~ exists k, logical_basis (c_n c) k (css_mat (c_n c) (c_x c) (c_z c)) L].
Proof.
pose outer : csscode [fieldType of 'F_2] := mkcss 2 [::] [::] None.
pose o := c_concatenate c4 outer (Some [:: 0; 0]%N) true.
pose r := if o is Some r then r else (c4, (c4, c4)).
exists [fieldType of 'F_2], c4, outer, [:: 0; 0]%N, r.1, r.2, (odflt [::] (c_get_logical_ops r.1 false)).
have en : c_n r.1 = 4%N by apply/eqP; vm_compute.
split; [by apply: c_ok_mk | by apply: c_ok_mk | | |].
- have : isSome o by vm_compute.
  by rewrite -/o /r; case: (o) => [[]|].
- have : isSome (c_get_logical_ops r.1 false) by vm_compute.
  by case: (c_get_logical_ops r.1 false).
set L := odflt _ _; case=> k [[sL _ dp] _].
have eL : L = b2 [:: [:: 0;1;1;0; 0;0;0;0]; [:: 0;1;1;0; 0;0;0;0]; [:: 0;0;0;0; 1;0;1;0]; [:: 0;0;0;0; 1;0;1;0]]%N.
  by apply/eqP; vm_compute.
have k2 : k = 2%N by move: sL; rewrite eL size_map /=; clear; lia.
have := dp 0%N 3%N; rewrite k2 en eL => /(_ isT isT).
rewrite /symp !big_ord_recl big_ord0 /= => /eqP; by vm_compute.
Qed.

(* as for C35: the outer code is left alone, and so is the inner code if blocks of it are stacked; otherwise the logical
   operators of the object passed as inner code are replaced *)
Theorem C81_inputs_partial (F : fieldType) (inner outer : csscode F) wiring inherit c st :
  let w := if wiring is Some w then w else default_wiring (c_n outer) (c_dimension inner) in
  c_concatenate inner outer wiring inherit = Some (c, st) ->
  st.2 = outer /\ ((1 < size w %/ c_dimension inner)%N -> st.1 = inner).
Proof.
move=> w; rewrite /c_concatenate -/w; do 2!case: ifP => // _.
  case: (c_stack _ _) => // i1; case: (if _ then _ else _) => // o1; case: (c_get_logical_ops i1 false) => // li.
  by case: ifP => // _; case: c_concat_core => // c' [_ <-].
case: (if _ then _ else _) => // o1; case: (c_get_logical_ops inner false) => // li.
by case: ifP => // _; case: c_concat_core => // c' [_ <-].
Qed.

Theorem C81_inputs_refuted : exists (F : fieldType) (inner outer : csscode F) w c st,
  [/\ c_ok inner, c_ok outer, perm_eq w (iota 0 (size w)), c_concatenate inner outer (Some w) true = Some (c, st)
    & c_get_logical_ops st.1 false != c_get_logical_ops inner false].
Proof.
pose outer : csscode [fieldType of 'F_2] := mkcss 2 [::] [::] None.
pose r := if c_concatenate c4 outer (Some [:: 1; 0]%N) true is Some (c, st) then (c, st) else (c4, (c4, c4)).
exists [fieldType of 'F_2], c4, outer, [:: 1; 0]%N, r.1, r.2.
split; [by apply: c_ok_mk | by apply: c_ok_mk | by [] | |].
  have : isSome (c_concatenate c4 outer (Some [:: 1; 0]%N) true) by vm_compute.
  by rewrite /r; case: c_concatenate => [[c [i o]]|].
by vm_compute.
Qed.

(* ---------------------------------------------------------------------------- the hypotheses can be met *)
Example ex_C80 : let cs := [:: c4; rep3; c4] in
  (forall i, (i < size cs)%N -> c_ok (nth (ccdflt _) cs i)) /\ isSome (c_stack cs true).
Proof. by split; [case=> [|[|[|i]]] // _; apply: c_ok_mk | vm_compute]. Qed.
Example ex_C80_checks : blocks [:: 2; 1; 2]%N [:: b2 [:: [:: 1;1]]; b2 [:: [:: 1]; [:: 0]]; b2 [:: [:: 1;0]]]%N
  = b2 [:: [:: 1;1; 0; 0;0]; [:: 0;0; 1; 0;0]; [:: 0;0; 0; 0;0]; [:: 0;0; 0; 1;0]]%N.
Proof. by apply/eqP; vm_compute. Qed.
Example ex_C80_trivial : c_dimension (mkcss 1 (b2 [:: [:: 1]]%N) [::] None) = 0%N.
Proof. by vm_compute. Qed.
Example ex_C81 : let w := default_wiring (c_n rep3) (c_dimension c4) in
  [/\ (0 < c_dimension c4)%N, (c_dimension c4 %| size w)%N, (c_n rep3 %| size w)%N, (0 < size w)%N
    & isSome (c_concatenate c4 rep3 None true)].
Proof. by split; vm_compute. Qed.
Example ex_C81_stab : c_sub c4 = false /\ c_sub rep3 = false.
Proof. by split; apply/eqP; vm_compute. Qed.
Example ex_C81_inputs : (1 < size (default_wiring (c_n rep3) (c_dimension c4)) %/ c_dimension c4)%N.
Proof. by vm_compute. Qed.

Print Assumptions C80_stack.
Print Assumptions C80_inherit.
Print Assumptions C80_distance.
Print Assumptions C80_distance_xz.
Print Assumptions C80_parameters.
Print Assumptions C80_trivial_part.
Print Assumptions C80_promise.
Print Assumptions C33_distance.
Print Assumptions C81_concatenate_partial.
Print Assumptions C81_stabilizer.
Print Assumptions C81_wiring_refuted.
Print Assumptions C81_inputs_partial.
Print Assumptions C81_inputs_refuted.
