(* Properties C88 and C89: logical tableaus of physical circuits, and signs of transversal gates. *)
From mathcomp Require Import all_ssreflect all_algebra zify.
From Verif Require Import LinAlg Classical Quantum Css CssGauge Tableau SignedPauli LogicalTab EncTab.
From Verif Require Import QuantumProofs PropsQuantum PropsCss PropsTableau.
Set Implicit Arguments.
Unset Strict Implicit.
Unset Printing Implicit Defensive.
Import GRing.Theory.
Local Open Scope ring_scope.

(* the encoders of codes satisfy the hypotheses of the theorems below *)
Theorem C88_encoder (c : qcode [fieldType of 'F_2]) : q_ok c -> q_sub c = false ->
  exists xs zs, encoding_tableau c = Some (xs, zs) /\
    (tval (q_n c) (op_tableau (q_n c) xs zs) /\ size (op_tableau (q_n c) xs zs) = q_n c).
Proof.
move=> ok ns; have [xs [zs [L [e _ [sx dp _ _ _] _ _]]]] := C70_stabilizer_codes F2_two ok ns.
by exists xs, zs; split => //; apply: op_tableau_val.
Qed.
Theorem C88_encoder_css (c : csscode [fieldType of 'F_2]) xs zs : c_ok c -> c_gauge c = None -> css_encoding_tableau c = Some (xs, zs) ->
  tval (c_n c) (op_tableau (c_n c) xs zs) /\ size (op_tableau (c_n c) xs zs) = c_n c.
Proof. by move=> ok gN e; have [[sx dp _ _ _] _] := C70_css_sound F2_two ok gN e; apply: op_tableau_val. Qed.

Section Props.
Variables (n k g : nat) (E E' U : tableau).
Hypotheses (kg : (k + g <= n)%N) (vE : tval n E) (sE : size E = n) (vE' : tval n E') (sE' : size E' = n) (vU : tval n U) (sU : size U = n).

(* the inverse tableau is the inverse *)
Theorem C88_inverse p : size p.2 = n ->
  tapply n (tinv n E) (tapply n E p) = p /\ tapply n E (tapply n (tinv n E) p) = p.
Proof. by move=> sp; rewrite !tinvE ?size_tapply // pinvK // tapplyK. Qed.

(* C88: the returned tableau is a tableau on the logical qubits; a logical operator p is mapped to the logical operator L(p), times
   stabilizers; stabilizers are mapped to stabilizers, and gauge operators to gauge operators, up to signs *)
Theorem C88_logical L : logical_data k g n E (tinv n E') U = Some L ->
  [/\ tval k L, size L = k, implements k g n E E' U L, keeps_stabilizers k g n E E' U & keeps_gauge k g n E E' U].
Proof. exact: logical_dataP. Qed.
(* ... there is no other such tableau *)
Theorem C88_unique L L' : logical_data k g n E (tinv n E') U = Some L -> tval k L' -> size L' = k -> implements k g n E E' U L' -> L = L'.
Proof. by move=> /C88_logical [vL sL iL _ _] vL' sL'; apply: implements_inj iL. Qed.
(* ... and a tableau is returned whenever stabilizers and gauge operators are preserved *)
Theorem C88_defined : (exists L, logical_data k g n E (tinv n E') U = Some L) <-> keeps_stabilizers k g n E E' U /\ keeps_gauge k g n E E' U.
Proof.
split=> [[L /C88_logical [_ _ _ hs hg]] // | [hs hg]].
by exists (block k (decoded n E U (tinv n E'))); apply: logical_data_def.
Qed.

(* C89: the correction in front of the circuit of an automorphism does not change its logical tableau, and makes it preserve the signs
   of all stabilizers *)
Theorem C89_correction L V : transversal_data k g n E (tinv n E') U = Some (L, V) ->
  [/\ logical_data k g n E (tinv n E') U = Some L, logical_data k g n E (tinv n E') V = Some L, keeps_code k g n E E' V
    & exists2 c, size c = n & V = tthen n (tpauli n c) U].
Proof.
move=> h; have [-> e1 e2 e3] := transversal_dataP kg vE sE vE' sE' vU sU h; split => //.
by exists (tapply n E (0, correction k n (decoded n E U (tinv n E')))).2; rewrite ?size_papply.
Qed.
Theorem C89_defined : isSome (transversal_data k g n E (tinv n E') U) = isSome (logical_data k g n E (tinv n E') U).
Proof. exact: transversal_def. Qed.
End Props.

(* logical tableaus of circuits compose, if the second circuit preserves the signs of stabilizers *)
Theorem C88_compose n k g E E' E'' U1 U2 L1 L2 : (k + g <= n)%N -> tval n E -> size E = n -> tval n E' -> size E' = n -> tval n E'' -> size E'' = n ->
  tval n U1 -> size U1 = n -> tval n U2 -> size U2 = n ->
  logical_data k g n E (tinv n E') U1 = Some L1 -> logical_data k g n E' (tinv n E'') U2 = Some L2 -> keeps_code k g n E' E'' U2 ->
  logical_data k g n E (tinv n E'') (tthen n U1 U2) = Some (tthen k L1 L2).
Proof.
move=> kg vE sE vE' sE' vE'' sE'' v1 s1 v2 s2 e1 e2 kc.
have [vL1 sL1 i1 hs1 hg1] := C88_logical kg vE sE vE' sE' v1 s1 e1; have [vL2 sL2 i2 hs2 hg2] := C88_logical kg vE' sE' vE'' sE'' v2 s2 e2.
have v12 : tval n (tthen n U1 U2) by apply: tval_then. have s12 : size (tthen n U1 U2) = n by rewrite size_map.
have ph s p F : tapply n F (s, p) = pph s (tapply n F (0, p)) by rewrite /tapply /= pphD addr0.
have [L e] : exists L, logical_data k g n E (tinv n E'') (tthen n U1 U2) = Some L.
  apply/(C88_defined kg vE sE vE'' sE'' v12 s12); split.
    move=> r sr hr; have [s [r' [sr' hr' er]]] := hs1 r sr hr; have [s2' [r2 [sr2 hr2 er2]]] := hs2 r' sr' hr'.
    exists (s + s2'), r2; split => //; rewrite tapply_then // er ph tapply_ph er2 -tapply_ph; by [].
  move=> w sw; have [s [w' [r' [sw' sr' hr' er]]]] := hg1 w sw; have [s2' [w2 [r2 [sw2 sr2 hr2 er2]]]] := hg2 w' sw'.
  have [s3 [r3 [sr3 hr3 er3]]] := hs2 r' sr' hr'; exists (s + (s2' + s3 + tw (cross (nseq k pI ++ w2 ++ r2) (nseq (k + g) pI ++ r3)))), w2, (padd r2 r3).
  split; rewrite ?size_padd ?noX_padd ?sr2 ?sr3 // tapply_then // er ph tapply_ph.
  have -> : (0, nseq k pI ++ w' ++ r') = pm (0, nseq k pI ++ w' ++ nseq (n - (k + g)) pI) (0, nseq (k + g) pI ++ r').
    have sn := size_nseq (n - (k + g)) pI; rewrite /pm /= nseqD -catA !padd_cat ?size_nseq // padd_nseq padd0 // [padd (nseq _ _) r']paddC padd0 //.
    by rewrite !cross_cat ?size_nseq // cross_noX ?noX_nseq // cross0 cross0l !addr0.
  have z1 : size (nseq k pI ++ w' ++ nseq (n - (k + g)) pI) = n by rewrite !size_cat !size_nseq sw' addnA subnKC.
  have z2 : size (nseq (k + g) pI ++ r') = n by rewrite size_cat size_nseq sr' subnKC.
  have z3 : size (nseq k pI ++ w2 ++ r2) = n by rewrite !size_cat !size_nseq sw2 sr2 addnA subnKC.
  have z4 : size (nseq (k + g) pI ++ r3) = n by rewrite size_cat size_nseq sr3 subnKC.
  rewrite tapplyM ?sE' // tapplyM ?s2 ?size_tapply // er2 er3 -tapplyM ?sE'' // -tapply_ph; congr (tapply n E'' _).
  rewrite /pm /pph /=; congr (_, _).
  by rewrite nseqD -catA !padd_cat ?size_nseq // padd_nseq padd0.
rewrite e; congr Some; apply: (C88_unique kg vE sE vE'' sE'' v12 s12 e).
- exact: tval_then.
- by rewrite size_map.
exact: (implements_then kg vE sE vE' sE' vE'' sE'' v1 s1 v2 s2 vL1 sL1 vL2 sL2 i1 i2 kc).
Qed.

(* non-vacuity: the [[4,1]] Bacon-Shor code with one gauge qubit, and a Hadamard gate on every qubit with an exchange of two qubits *)
Definition bsE : tableau := if css_encoding_tableau bacon_shor_css is Some t then op_tableau 4 t.1 t.2 else [::].
Definition bsU : tableau := [seq (opz 4 i, opx 4 i) | i <- [:: 0; 2; 1; 3]%N].
Example ex_C88 : [/\ tval 4 bsE, size bsE = 4%N, tval 4 bsU, size bsU = 4%N
  & if logical_data 1 1 4 bsE (tinv 4 bsE) bsU is Some L then ~~ is_pauli_tableau L else false].
Proof. by vm_compute. Qed.
(* a circuit for which there is no logical tableau *)
Example ex_C88_none : let U := tthen 4 (tid 4) [seq (if i == 0%N then opz 4 i else opx 4 i, if i == 0%N then opx 4 i else opz 4 i) | i <- iota 0 4] in
  tval 4 U && (logical_data 1 1 4 bsE (tinv 4 bsE) U == None).
Proof. by vm_compute. Qed.
Example ex_C88_code : q_ok five_qubit /\ q_sub five_qubit = false.
Proof. by split; [apply: q_ok_mk |]. Qed.
Example ex_C88_css : [/\ c_ok bacon_shor_css, c_gauge bacon_shor_css = None & isSome (css_encoding_tableau bacon_shor_css)].
Proof. by split. Qed.

(* the two-qubit repetition code: stabilizer ZZ, logical operators XX and ZI *)
Definition repE : tableau := [:: ((0, [:: (true, false); (true, false)]), (0, [:: (false, true); pI])); ((0, [:: pI; (true, false)]), (0, [:: (false, true); (false, true)]))].
(* ... and with the logical operators XX and IZ *)
Definition repE' : tableau := [:: ((0, [:: (true, false); (true, false)]), (0, [:: pI; (false, true)])); ((0, [:: (true, false); pI]), (0, [:: (false, true); (false, true)]))].
Definition flip1 : tableau := tpauli 2 [:: pI; (true, false)].

(* a circuit that takes the code space to an orthogonal space has a logical tableau, which depends on the choice of logical operators *)
Theorem C88_code_refuted : exists n k E E' U L L', [/\ tval n E /\ tval n E', tval n U, [seq h.2 | h <- drop k E] = [seq h.2 | h <- drop k E'],
  logical_data k 0 n E (tinv n E) U = Some L /\ logical_data k 0 n E' (tinv n E') U = Some L'
  & ~ keeps_code k 0 n E E U /\ L <> L'].
Proof.
exists 2%N, 1%N, repE, repE', flip1, (tid 1), [:: (opx 1 0, pph 2%:R (opz 1 0))].
split; [by split | by [] | by [] | by split; apply/eqP; vm_compute |].
split; last by move/(congr1 (fun t : tableau => (nth (pone 1, pone 1) t 0).2.1 == 0)) => /eqP; vm_compute.
move=> h; have [[|a [|b r']] [sr hr]] := h [:: (false, true)] erefl erefl; rewrite // ?(eqP (_ : (size _ == _))) //.
case: a sr hr => [[] z] // _ _; move/(congr1 fst)/eqP; by case: z; vm_compute.
Qed.
(* ... and logical tableaus do not compose in general *)
Theorem C88_compose_refuted : exists n k E U1 U2 L1 L2 L, [/\ tval n E, tval n U1 /\ tval n U2,
  logical_data k 0 n E (tinv n E) U1 = Some L1 /\ logical_data k 0 n E (tinv n E) U2 = Some L2,
  logical_data k 0 n E (tinv n E) (tthen n U1 U2) = Some L & L <> tthen k L1 L2].
Proof.
pose cz : tableau := [:: ((0, [:: (true, false); (false, true)]), (0, [:: (false, true); pI])); ((0, [:: (false, true); (true, false)]), (0, [:: pI; (false, true)]))].
exists 2%N, 1%N, (tid 2), cz, flip1, (tid 1), (tid 1), [:: (pph 2%:R (opx 1 0), opz 1 0)].
split; [by [] | by [] | by split; apply/eqP; vm_compute | by apply/eqP; vm_compute |].
by move/(congr1 (fun t : tableau => (nth (pone 1, pone 1) t 0).1.1 == 0)) => /eqP; vm_compute.
Qed.

(* C89: tableaus are compared by what they do to Pauli operators, up to signs *)
Theorem C89_equiv k L M : tval k L -> size L = k -> tval k M -> size M = k ->
  equiv_mod_paulis L M <-> forall p, size p.2 = k -> (tapply k L p).2 = (tapply k M p).2.
Proof. by move=> vL sL vM sM; split => /(equivP vL sL vM sM). Qed.
Theorem C89_pauli k L : tval k L -> size L = k -> is_pauli_tableau L <-> forall p, size p.2 = k -> (tapply k L p).2 = p.2.
Proof. by move=> vL sL; split => /(is_pauliP vL sL). Qed.
(* get_transversal_ops: the returned gates are gates of generators in order, no two agree up to Pauli operators and none is a Pauli operator,
   and every generator is a Pauli operator or agrees with a returned gate up to Pauli operators *)
Theorem C89_ops data : let ops := get_ops false data in
  [/\ subseq ops data, all (fun d => ~~ is_pauli_tableau d.1) ops, pairwise (fun o d => ~~ equiv_mod_paulis d.1 o.1) ops
    & forall d, d \in data -> is_pauli_tableau d.1 \/ exists2 o, o \in ops & equiv_mod_paulis d.1 o.1].
Proof. exact: get_opsP. Qed.
Theorem C89_ops_all data : get_ops true data = data.
Proof. by rewrite /get_ops -{2}[data]cat0s; elim: data [::] => [|d data IH] acc /=; rewrite ?cats0 // IH cat_rcons. Qed.
(* get_transversal_circuits: a returned circuit implements the requested gate exactly, with all its signs, and preserves the code space; it is
   the circuit of an automorphism up to Pauli gates. If no circuit is returned, no automorphism implements the gate up to Pauli operators *)
Theorem C89_circuits n k g E (Ef : tableau -> tableau) ts Us res : (k + g <= n)%N -> tval n E -> size E = n ->
  (forall U, U \in Us -> tval n (Ef U) && (size (Ef U) == n)) -> (forall U, U \in Us -> tval n U && (size U == n)) ->
  (forall L, L \in ts -> tval k L && (size L == k)) ->
  get_circuits k g n E Ef ts Us = Some res -> size res = size ts /\ forall t, (t < size ts)%N ->
  match nth None res t with
  | Some V => exists2 U, U \in Us & [/\ logical_data k g n E (tinv n (Ef U)) V = Some (nth [::] ts t), keeps_code k g n E (Ef U) V
      & exists2 c, size c = n & V = tthen n (tpauli n c) U]
  | None => forall U, U \in Us -> exists2 L, logical_data k g n E (tinv n (Ef U)) U = Some L & ~~ equiv_mod_paulis (nth [::] ts t) L
  end.
Proof. by move=> kg vE sE vEf vUs vts; apply: get_circuitsP. Qed.

(* non-vacuity: a circuit that flips a stabilizer is corrected, and logical gates with all four signs are found *)
Example ex_C89 : let U := tthen 4 bsU (tpauli 4 [:: (true, false); pI; (false, true); pI]) in
  [&& tval 4 U, (correction 1 4 (decoded 4 bsE U (tinv 4 bsE)) != nseq 4 pI) & isSome (transversal_data 1 1 4 bsE (tinv 4 bsE) U)].
Proof. by vm_compute. Qed.
Definition hads : seq tableau := [seq [:: (pph s (opz 1 0), pph t (opx 1 0))] | s <- [:: 0; 2%:R], t <- [:: 0; 2%:R]] ++ [:: [:: ((1, [:: (true, true)]), opz 1 0)]].
Example ex_C89_circuits : all (fun L => tval 1 L && (size L == 1%N)) hads &&
  (if get_circuits 1 1 4 bsE (fun _ => bsE) hads [:: tid 4; bsU] is Some res then [seq isSome x | x <- res] == [:: true; true; true; true; false] else false).
Proof. by vm_compute. Qed.
Example ex_C89_ops : let d := (tid 1, bsU) in let h := (head [::] hads, bsU) in size (get_ops false [:: d; h; h]) = 1%N.
Proof. by vm_compute. Qed.

Print Assumptions C88_encoder.
Print Assumptions C88_encoder_css.
Print Assumptions C88_inverse.
Print Assumptions C88_logical.
Print Assumptions C88_unique.
Print Assumptions C88_defined.
Print Assumptions C88_compose.
Print Assumptions C88_code_refuted.
Print Assumptions C88_compose_refuted.
Print Assumptions C89_correction.
Print Assumptions C89_defined.
Print Assumptions C89_equiv.
Print Assumptions C89_pauli.
Print Assumptions C89_ops.
Print Assumptions C89_ops_all.
Print Assumptions C89_circuits.
