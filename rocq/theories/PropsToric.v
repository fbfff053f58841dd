(* Properties C90 and C91: toric layouts of bivariate bicycle codes. *)
From mathcomp Require Import all_ssreflect all_algebra zify.
From Verif Require Import LinAlg RowReduce Kron Classical Symplectic Quantum QuantumProofs.
From Verif Require Import Css CssProofs Product PermGroup Abelian GroupRing RingArray BBLayout QCPoly QuasiCyclic ToricLayout CodeEquiv BBConnect.
Set Implicit Arguments.
Unset Strict Implicit.
Unset Printing Implicit Defensive.
Import GRing.Theory.
Local Open Scope ring_scope.

(* C90: no ValueError is raised, no two entries are the same, and every pair of quotients of monomials that is a basis of
   the torus gives an entry *)
Theorem C90_defined ra rb connected pa pb : (0 < ra)%N -> (0 < rb)%N ->
  exists2 l, toric_data ra rb connected pa pb = Some l & pairwise (fun d e => ~~ same_data e d) l.
Proof. by move=> a0 b0; have [l [e _ _ p]] := toric_dataP a0 b0 connected pa pb; exists l. Qed.

Theorem C90_complete ra rb pa pb (a1 a2 b1 b2 : int * int) l : (0 < ra)%N -> (0 < rb)%N -> (1 < size pa)%N -> (1 < size pb)%N ->
  a1 \in [seq evec t.2 | t <- pa] -> a2 \in [seq evec t.2 | t <- pa] ->
  b1 \in [seq evec t.2 | t <- pb] -> b2 \in [seq evec t.2 | t <- pb] -> a1 != a2 -> b1 != b2 ->
  is_valid_basis ra rb (quot a2 a1) (quot b2 b1) -> toric_data ra rb true pa pb = Some l ->
  exists2 d, d \in l & d.1 = (maxn (get_order ra rb (quot a2 a1)) (get_order ra rb (quot b2 b1)),
                              minn (get_order ra rb (quot a2 a1)) (get_order ra rb (quot b2 b1))).
Proof. move=> a0 b0 sa sb h1 h2 h3 h4 n1 n2 hv e; exact: (toric_complete a0 b0 sa sb h1 h2 h3 h4 n1 n2 hv e). Qed.

(* the polynomials look like 1 + x + ... and 1 + y + ..., no two of their terms can be merged, the torus has the same
   number of plaquettes and is at least as wide as it is tall *)
Theorem C90_form ra rb connected pa pb l d : (0 < ra)%N -> (0 < rb)%N -> (1 < size pa)%N -> (1 < size pb)%N ->
  distinct_terms ra rb pa -> distinct_terms ra rb pb -> toric_data ra rb connected pa pb = Some l -> d \in l ->
  [/\ (d.1.1 * d.1.2 = ra * rb)%N, (1 < d.1.2 <= d.1.1)%N,
   distinct_terms d.1.1 d.1.2 d.2.1 /\ distinct_terms d.1.1 d.1.2 d.2.2,
   [:: 0; 0] \in [seq t.2 | t <- d.2.1] /\ [:: 1; 0] \in [seq t.2 | t <- d.2.1] &
   [:: 0; 0] \in [seq t.2 | t <- d.2.2] /\ [:: 0; 1] \in [seq t.2 | t <- d.2.2]].
Proof. move=> a0 b0; exact: toric_form. Qed.

(* the new code is the old one up to a permutation of qudits and checks *)
Theorem C90_equivalent_partial (F : fieldType) (fld : int -> F) ra rb connected pa pb l d c : (0 < ra)%N -> (0 < rb)%N -> fld 0 = 0 ->
  (1 < size pa)%N -> (1 < size pb)%N -> (forall t, t \in pa ++ pb -> fld (t.1 ^+ 2) = fld t.1) ->
  toric_data ra rb connected pa pb = Some l -> d \in l -> qc_code fld [:: ra; rb] pa pb = Some c ->
  exists2 c', qc_code fld [:: d.1.1; d.1.2] d.2.1 d.2.2 = Some c' & perm_equiv c c'.
Proof. move=> a0 b0 f0; exact: toric_equiv. Qed.

Lemma qc_fresh (F : fieldType) (fld : int -> F) os pa pb c : qc_code fld os pa pb = Some c -> [/\ c_dim c = None, c_logs c = None & c_sub c = false].
Proof. by rewrite /qc_code /tb_code andFb; case: ifP => // _ [<-]. Qed.

(* hence it has as many qudits, encodes as many logical qudits, and has nontrivial logical operators of the same weights *)
Theorem C90_parameters_partial (F : fieldType) (fld : int -> F) ra rb connected pa pb l d c c' : (0 < ra)%N -> (0 < rb)%N -> fld 0 = 0 ->
  (1 < size pa)%N -> (1 < size pb)%N -> (forall t, t \in pa ++ pb -> fld (t.1 ^+ 2) = fld t.1) ->
  toric_data ra rb connected pa pb = Some l -> d \in l -> qc_code fld [:: ra; rb] pa pb = Some c ->
  qc_code fld [:: d.1.1; d.1.2] d.2.1 d.2.2 = Some c' ->
  [/\ c_n c' = c_n c, c_dimension c' = c_dimension c,
   forall w, (exists2 v, logical_word (c_n c') (c_x c') (c_z c') v & fweight v = w) <-> (exists2 v, logical_word (c_n c) (c_x c) (c_z c) v & fweight v = w) &
   forall w, (exists2 v, logical_word (c_n c') (c_z c') (c_x c') v & fweight v = w) <-> (exists2 v, logical_word (c_n c) (c_z c) (c_x c) v & fweight v = w)].
Proof.
move=> a0 b0 f0 sa sb hc el dl ec ec'.
have [c2 ec2 eqv] := C90_equivalent_partial a0 b0 f0 sa sb hc el dl ec.
have e2 : c2 = c' by [rewrite ec' in ec2; case: ec2]; subst c2.
have [k1 k2] : (0 < d.1.1)%N /\ (0 < d.1.2)%N.
  have [l' [el' hl _ _]] := toric_dataP a0 b0 connected pa pb; have e : l' = l by [rewrite el in el'; case: el']; subst l'.
  have [q hq] := hl _ dl; have [x [y]] := toric_entryE a0 b0 sa sb hq; case: ifP => _ [_ _ _ ->] [<-] /=; by rewrite !get_order_gt0.
have [cc [e ok _ _]] := qc_ok fld (os_pos a0 b0) isT pa pb.
have [cc' [e' ok' _ _]] := qc_ok fld (os_pos k1 k2) isT d.2.1 d.2.2.
have q1 : cc = c by [rewrite ec in e; case: e]; have q2 : cc' = c' by [rewrite ec' in e'; case: e']; subst cc cc'.
case: ok => _ wx wz _ _; case: ok' => _ wx' wz' _ _.
have [d1 l1 s1] := qc_fresh ec; have [d2 l2 s2] := qc_fresh ec'.
have en : c_n c' = c_n c by case: eqv.
split=> // [|w|w].
- by rewrite /c_dimension d1 l1 s1 d2 l2 s2 /= en (perm_equiv_rank wx wz wx' wz' eqv).
- exact: (proj1 (perm_equiv_logical w wx wz wx' wz' eqv)).
exact: (proj2 (perm_equiv_logical w wx wz wx' wz' eqv)).
Qed.

(* the case of qubits: the condition on the coefficients holds for the coefficient 1 *)
Notation F2 := [fieldType of 'F_2].
Notation F3 := [fieldType of 'F_3].
Definition i2 (k : int) : F2 := k%:~R.
Definition i3 (k : int) : F3 := k%:~R.
Lemma i2_sq (z : int) : i2 (z ^+ 2) = i2 z.
Proof. by rewrite /i2 rmorphX; exact: F2_expr. Qed.

Theorem C90_qubits_partial ra rb connected pa pb l d c : (0 < ra)%N -> (0 < rb)%N -> (1 < size pa)%N -> (1 < size pb)%N ->
  toric_data ra rb connected pa pb = Some l -> d \in l -> qc_code i2 [:: ra; rb] pa pb = Some c ->
  exists2 c', qc_code i2 [:: d.1.1; d.1.2] d.2.1 d.2.2 = Some c' & perm_equiv c c'.
Proof. by move=> a0 b0 sa sb; apply: C90_equivalent_partial => // t _; apply: i2_sq. Qed.

(* x^3 + y + y^2 and y^3 + x + x^2 on the 6 x 6 torus (arXiv:2308.07915) *)
Definition exA : seq term := [:: (1, [:: 3; 0]); (1, [:: 0; 1]); (1, [:: 0; 2])].
Definition exB : seq term := [:: (1, [:: 0; 3]); (1, [:: 1; 0]); (1, [:: 2; 0])].
Definition exD : tdata := ((6, 6)%N, ([:: (1, [:: 0; 0]); (1, [:: 1; 0]); (1, [:: -1; 3])], [:: (1, [:: 0; 0]); (1, [:: 3; 2]); (1, [:: 0; 1])])).
Definition listed (ra rb : nat) (pa pb : seq term) (d : tdata) : bool :=
  if toric_data ra rb true pa pb is Some l then d \in l else false.
Example C90_ex : [/\ (1 < size exA)%N && (1 < size exB)%N, distinct_terms 6 6 exA && distinct_terms 6 6 exB,
  omap size (toric_data 6 6 true exA exB) = Some 4%N & listed 6 6 exA exB exD].
Proof. by split; [| vm_compute | apply/eqP; vm_compute | vm_compute]. Qed.
Example C90_complete_ex : [/\ (0, 1) \in [seq evec t.2 | t <- exA], (0, 2) \in [seq evec t.2 | t <- exA],
  (1, 0) \in [seq evec t.2 | t <- exB], (2, 0) \in [seq evec t.2 | t <- exB] & is_valid_basis 6 6 (quot (0, 2) (0, 1)) (quot (2, 0) (1, 0))].
Proof. by split; vm_compute. Qed.

Lemma listedP ra rb pa pb d : listed ra rb pa pb d -> exists2 l, toric_data ra rb true pa pb = Some l & d \in l.
Proof. by rewrite /listed; case: (toric_data _ _ _ _ _) => // l h; exists l. Qed.
Lemma not_equiv (F : fieldType) (fld : int -> F) os os' pa pb pa' pb' : all (ltn 0%N) os -> all (ltn 0%N) os' -> (0 < size os)%N -> (0 < size os')%N ->
  omap (@c_rank F) (qc_code fld os pa pb) != omap (@c_rank F) (qc_code fld os' pa' pb') ->
  exists c c', [/\ qc_code fld os pa pb = Some c, qc_code fld os' pa' pb' = Some c' & ~ perm_equiv c c'].
Proof.
move=> p p' s s'; have [c [e ok _ _]] := qc_ok fld p s pa pb; have [c' [e' ok' _ _]] := qc_ok fld p' s' pa' pb'.
rewrite e e' /= => ne; exists c, c'; split=> // eqv; case/eqP: ne; congr Some; apply/esym.
by case: ok => _ wx wz _ _; case: ok' => _ wx' wz' _ _; apply: perm_equiv_rank.
Qed.

(* Finding: with a polynomial that is one monomial the factors of the monomial are taken for its terms.  The data of
   BBCode((3, 3), x*y, 1 + x + y) contain x + y, 1 + y + x*y, which encode 4 qubits, while the code encodes none *)
Definition mA : seq term := [:: (1, [:: 1; 1])].
Definition mB : seq term := [:: (1, [:: 0; 0]); (1, [:: 1; 0]); (1, [:: 0; 1])].
Definition mD : tdata := ((3, 3)%N, ([:: (1, [:: 1; 0]); (1, [:: 0; 1])], [:: (1, [:: 0; 0]); (1, [:: 0; 1]); (1, [:: 1; 1])])).
Theorem C90_monomial_refuted : exists ra rb pa pb l d c c',
  [/\ distinct_terms ra rb pa && distinct_terms ra rb pb, toric_data ra rb true pa pb = Some l /\ d \in l,
   qc_code i2 [:: ra; rb] pa pb = Some c, qc_code i2 [:: d.1.1; d.1.2] d.2.1 d.2.2 = Some c' & ~ perm_equiv c c'].
Proof.
have h : listed 3 3 mA mB mD by vm_compute.
have [l el dl] := listedP h.
have ne : omap (@c_rank F2) (qc_code i2 [:: 3; 3]%N mA mB) != omap (@c_rank F2) (qc_code i2 [:: 3; 3]%N mD.2.1 mD.2.2) by vm_compute.
have [c [c' [e e' n]]] := @not_equiv F2 i2 [:: 3; 3]%N [:: 3; 3]%N mA mB mD.2.1 mD.2.2 isT isT isT isT ne.
exists 3%N, 3%N, mA, mB, l, mD, c, c'; split; [by vm_compute | exact: conj el dl | exact: e | exact: e' | exact: n].
Qed.

(* Finding: orders given as a dictionary whose symbols are not sorted.  The symbols of BBCode({y: 4, x: 2}, 1 + y + y^2 + y^3,
   1 + x) are (y, x), the data contain (4, 2), 1 + y + y^2 + y^-1, 1 + x, and BBCode((4, 2), ...) of them takes 4 for
   the order of x *)
Definition dA : seq term := [:: (1, [:: 0; 0]); (1, [:: 1; 0]); (1, [:: 2; 0]); (1, [:: 3; 0])].
Definition dB : seq term := [:: (1, [:: 0; 0]); (1, [:: 0; 1])].
Definition dD : tdata := ((4, 2)%N, ([:: (1, [:: 0; 0]); (1, [:: 1; 0]); (1, [:: 2; 0]); (1, [:: -1; 0])], dB)).
Theorem C90_symbols_refuted : exists ra rb pa pb l d c c',
  [/\ (1 < size pa)%N && (1 < size pb)%N, distinct_terms ra rb pa && distinct_terms ra rb pb,
   toric_data ra rb true pa pb = Some l /\ d \in l, qc_code i2 [:: ra; rb] pa pb = Some c &
   qc_code i2 [:: d.1.1; d.1.2] (swap_symbols d.2.1) (swap_symbols d.2.2) = Some c' /\ ~ perm_equiv c c'].
Proof.
have h : listed 4 2 dA dB dD by vm_compute.
have [l el dl] := listedP h.
have ne : omap (@c_rank F2) (qc_code i2 [:: 4; 2]%N dA dB) != omap (@c_rank F2) (qc_code i2 [:: 4; 2]%N (swap_symbols dD.2.1) (swap_symbols dD.2.2)) by vm_compute.
have [c [c' [e e' n]]] := @not_equiv F2 i2 [:: 4; 2]%N [:: 4; 2]%N dA dB (swap_symbols dD.2.1) (swap_symbols dD.2.2) isT isT isT isT ne.
exists 4%N, 2%N, dA, dB, l, dD, c, c'; split; [by vm_compute | by vm_compute | exact: conj el dl | exact: e | exact: conj e' n].
Qed.

(* Finding: the coefficients of the data are squares, which need not be elements of the field (GF(3), 2 becomes 4) *)
Theorem C90_coefficients_refuted : exists ra rb pa pb l d t,
  [/\ (1 < size pa)%N && (1 < size pb)%N, all (fun t : term => (t.1 == 1) || (t.1 == 2)) (pa ++ pb),
   toric_data ra rb true pa pb = Some l /\ d \in l, t \in d.2.1 & t.1 = 4].
Proof.
pose pa : seq term := [:: (1, [:: 0; 0]); (2, [:: 1; 0])]; pose pb : seq term := [:: (1, [:: 0; 0]); (1, [:: 0; 1])].
pose d : tdata := ((3, 3)%N, ([:: (1, [:: 0; 0]); (4, [:: 1; 0])], pb)).
have h : listed 3 3 pa pb d by vm_compute.
have [l el dl] := listedP h.
exists 3%N, 3%N, pa, pb, l, d, (4, [:: 1; 0]); split; [by [] | by vm_compute | exact: conj el dl | by vm_compute | by []].
Qed.

(* C91: a check qubit addresses a data qubit with the coefficient of the polynomial at the displacement *)
Theorem C91_connections (F : fieldType) (fld : int -> F) ra rb pa pb c i j s a b s' a' b' : (0 < ra)%N -> (0 < rb)%N -> fld 0 = 0 ->
  qc_code fld [:: ra; rb] pa pb = Some c ->
  node_label ra rb (i, false) = Some (s, a, b) -> node_label ra rb (j, true) = Some (s', a', b') ->
  connection c i j =
    match s, s' with
    | SX, SL => pcoef fld ra rb pa (a'%:Z - a%:Z, b'%:Z - b%:Z)
    | SX, SR => pcoef fld ra rb pb (a'%:Z - a%:Z, b'%:Z - b%:Z)
    | SZ, SL => pcoef fld ra rb pb (a%:Z - a'%:Z, b%:Z - b'%:Z)
    | SZ, SR => - pcoef fld ra rb pa (a%:Z - a'%:Z, b%:Z - b'%:Z)
    | _, _ => 0
    end.
Proof. move=> a0 b0 f0 e; exact: connections. Qed.

(* in a toric layout, the four neighbours on the torus of every check qubit are data qubits that it addresses, and they are
   at distance at most 2 when the layout is folded *)
Theorem C91_neighbours (F : fieldType) (fld : int -> F) ra rb pa pb c i p q : (0 < ra)%N -> (0 < rb)%N -> fld 0 = 0 ->
  qc_code fld [:: ra; rb] pa pb = Some c -> distinct_terms ra rb pa -> distinct_terms ra rb pb ->
  occurs fld pa [:: 0; 0] -> occurs fld pa [:: 1; 0] -> occurs fld pb [:: 0; 0] -> occurs fld pb [:: 0; 1] ->
  (i < 2 * (ra * rb))%N -> qubit_pos false ra rb (i, false) = Some p -> q \in neighbours ra rb p ->
  exists j, [/\ (j < 2 * (ra * rb))%N, qubit_pos false ra rb (j, true) = Some q, connection c i j != 0 &
    forall p' q', qubit_pos true ra rb (i, false) = Some p' -> qubit_pos true ra rb (j, true) = Some q' -> (dist_l1 p' q' <= 2)%N].
Proof. move=> a0 b0 f0 ec da db h1 h2 h3 h4; exact: (nearest f0 a0 b0 ec da db h1 h2 h3 h4). Qed.

Lemma occursP (F : fieldType) (fld : int -> F) p es : has (fun t : term => (t.2 == es) && (fld t.1 != 0)) p -> occurs fld p es.
Proof. by case/hasP => t tp /andP [/eqP e nz]; exists t. Qed.
Example C91_ex : [/\ exists c, qc_code i2 [:: 6; 6]%N exD.2.1 exD.2.2 = Some c, distinct_terms 6 6 exD.2.1 /\ distinct_terms 6 6 exD.2.2,
  occurs i2 exD.2.1 [:: 0; 0] /\ occurs i2 exD.2.1 [:: 1; 0], occurs i2 exD.2.2 [:: 0; 0] /\ occurs i2 exD.2.2 [:: 0; 1] &
  qubit_pos false 6 6 (36%N, false) = Some (0, 0)%N /\ neighbours 6 6 (0, 0)%N = [:: (1, 0); (11, 0); (0, 1); (0, 11)]%N].
Proof.
split; [by have [c [e _]] := @qc_ok F2 i2 [:: 6; 6]%N isT isT exD.2.1 exD.2.2; exists c | by split; vm_compute | | | by []].
  by split; apply: occursP; vm_compute.
by split; apply: occursP; vm_compute.
Qed.

Print Assumptions C90_defined.
Print Assumptions C90_complete.
Print Assumptions C90_form.
Print Assumptions C90_equivalent_partial.
Print Assumptions C90_parameters_partial.
Print Assumptions C90_qubits_partial.
Print Assumptions C90_monomial_refuted.
Print Assumptions C90_symbols_refuted.
Print Assumptions C90_coefficients_refuted.
Print Assumptions C91_connections.
Print Assumptions C91_neighbours.
