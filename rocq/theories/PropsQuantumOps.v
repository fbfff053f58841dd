(* Properties C31 - C35: conjugation, deformation, stacking and concatenation of qudit codes. *)
From mathcomp Require Import all_ssreflect all_algebra zify.
From Verif Require Import LinAlg RowReduce Classical ClassicalProofs ClassicalProofs2 Symplectic Quantum QuantumProofs
  QuantumPerm QuantumStab QuantumLogs QuantumOps QuantumStack QuantumConcat Clifford CliffordSem PropsClassical PropsQuantum.
Set Implicit Arguments.
Unset Strict Implicit.
Unset Printing Implicit Defensive.
Import GRing.Theory.
Local Open Scope ring_scope.

(* ---------------------------------------------------------------------------- specification *)
Section Spec.
Variable F : fieldType.
(* exchange of the X and Z exponents at the positions qs *)
Definition exchanged (n : nat) (qs : seq nat) (r s : seq F) : Prop :=
  size s = (n + n)%N /\
  forall j, (j < n)%N ->
    if j \in qs then nth 0 s j = nth 0 r (n + j) /\ nth 0 s (n + j) = nth 0 r j
    else nth 0 s j = nth 0 r j /\ nth 0 s (n + j) = nth 0 r (n + j).

(* the Pauli string r on m qudits, placed on the qudits off, ..., off + m - 1 of N qudits *)
Definition placed (N off m : nat) (r : seq F) : seq F :=
  mkseq (fun j => if (off <= j < off + m)%N then nth 0 r (j - off) else 0) N ++
  mkseq (fun j => if (off <= j < off + m)%N then nth 0 r (m + (j - off)) else 0) N.

(* row i of B is the product of rows of L with the exponents in row i of A *)
Definition encoded (n : nat) (L A B : seq (seq F)) : Prop :=
  size B = size A /\ forall i, (i < size A)%N -> is_comb (n + n) L (nth [::] A i) (nth [::] B i).

(* the logical operators L of k qudits in the order given by the wiring w *)
Definition rewired (w : seq nat) (k : nat) (L P : seq (seq F)) : Prop :=
  size P = (k + k)%N /\
  forall i, (i < k)%N -> nth [::] P i = nth [::] L (nth 0%N w i) /\ nth [::] P (k + i) = nth [::] L (k + nth 0%N w i).
End Spec.

Section Aux.
Variable F : fieldType.
Implicit Types c : qcode F.

Lemma swap_exchanged n qs (r : seq F) : exchanged n qs r (swap_row n qs r).
Proof.
split; first exact: size_swap_row.
by move=> j lj; rewrite nth_swap_x // nth_swap_z //; case: (j \in qs).
Qed.

Lemma injl_placed n m (r : seq F) : size r = (n + n)%N -> injl n m r = placed (n + m) 0 n r.
Proof.
move=> sr; have st : size (take n r) = n by apply: half_take.
have sd : size (drop n r) = n by apply: half_drop.
rewrite /injl /placed; congr (_ ++ _); apply: (@eq_from_nth _ 0);
  rewrite ?size_mkseq ?size_cat ?st ?sd ?size_vzero // => i li;
  rewrite nth_mkseq // nth_cat ?st ?sd add0n /= subn0; case: ltnP => h; rewrite ?nth_take ?nth_drop //; by rewrite nth_nseq if_same.
Qed.

Lemma injr_placed n m off k (r : seq F) : injr n m (placed m off k r) = placed (n + m) (n + off) k r.
Proof.
rewrite /injr /placed take_size_cat ?size_mkseq // drop_size_cat ?size_mkseq //.
congr (_ ++ _); apply: (@eq_from_nth _ 0); rewrite ?size_cat ?size_vzero ?size_mkseq // => i li;
  rewrite nth_cat size_vzero [RHS]nth_mkseq //; case: ltnP => h.
- by rewrite nth_nseq h; case: ifP => //; lia.
- rewrite nth_mkseq; last by lia.
  have -> : (off <= i - n < off + k)%N = (n + off <= i < n + off + k)%N by lia.
  by rewrite subnDA.
- by rewrite nth_nseq h; case: ifP => //; lia.
rewrite nth_mkseq; last by lia.
have -> : (off <= i - n < off + k)%N = (n + off <= i < n + off + k)%N by lia.
by rewrite subnDA.
Qed.

Lemma stack_placed (ps : seq (nat * seq (seq F))) : wfq ps ->
  stack_mat ps = flatten (mkseq (fun i => map (placed (sumn (map fst ps)) (sumn (take i (map fst ps))) (nth (0%N, [::]) ps i).1)
                                             (nth (0%N, [::]) ps i).2) (size ps)).
Proof.
elim: ps => [|[n A] ps IH] // /andP [wA wps]; rewrite stack_mat_cons // /side.
rewrite /mkseq /=; congr (_ ++ _).
  by move/wfP: wA => wA; apply/eq_in_map => r /wA /injl_placed.
rewrite (iotaDl 1 0) -map_comp IH // map_flatten -map_comp; congr flatten; apply: eq_map => i /=.
by rewrite -map_comp; apply: eq_map => r /=; rewrite injr_placed.
Qed.
End Aux.

Section Props.
Variable F : fieldType.
Implicit Types c : qcode F.

(* C31, fields of characteristic 2 (all qubit codes): every code can be conjugated, on every subset of its qudits *)
Theorem C31_conjugated_partial c qs : (1 + 1 : F) = 0 -> q_ok c ->
  exists c', [/\ conjugated c qs = Some c', q_ok c', q_dimension c' = q_dimension c,
                 q_gauge_dimension c' = q_gauge_dimension c
               & [/\ q_n c' = q_n c, q_sub c' = q_sub c, size (q_mat c') = size (q_mat c)
                   & forall i, (i < size (q_mat c))%N -> exchanged (q_n c) qs (nth [::] (q_mat c) i) (nth [::] (q_mat c') i)]].
Proof.
move=> ch2 ok; have [c' [e ok' em ed [en eg es]]] := conjugated_ok qs ch2 ok.
exists c'; split=> //; split; rewrite // em ?size_map // => i li.
rewrite (nth_map [::]) //; exact: swap_exchanged.
Qed.

(* C32: deformation by any symplectic map, in particular by any Clifford circuit *)
Theorem C32_deformed c act : q_ok c -> symp_map (q_n c) act ->
  exists c', [/\ deformed c act false = Some c', q_ok c', q_mat c' = map act (q_mat c),
                 q_dimension c' = q_dimension c
               & [/\ q_n c' = q_n c, q_gauge_dimension c' = q_gauge_dimension c, q_sub c' = q_sub c
                   & q_logs c' = omap (map act) (q_logs c)]].
Proof. exact: deformed_ok. Qed.

Theorem C32_circuit c gs : (1 + 1 : F) = 0 -> q_ok c -> all (gate_ok (q_n c)) gs ->
  exists c', [/\ deformed c (circuit_act (q_n c) gs) false = Some c', q_ok c',
                 q_mat c' = map (circuit_act (q_n c) gs) (q_mat c), q_dimension c' = q_dimension c
               & [/\ q_n c' = q_n c, q_gauge_dimension c' = q_gauge_dimension c, q_sub c' = q_sub c
                   & q_logs c' = omap (map (circuit_act (q_n c) gs)) (q_logs c)]].
Proof. by move=> ch2 ok h; apply: deformed_ok => //; apply: circuit_symp. Qed.

(* the action of the gates is conjugation by their matrices, up to phase *)
Theorem C32_gates n g (r : seq 'F_2) : gate_ok n g -> size r = (n + n)%N ->
  let r' := gate_act n g r in
  [/\ size r' = (n + n)%N, forall j, (j < n)%N -> j \notin addressed g -> at_qubit n r' j = at_qubit n r j &
  match g with
  | GH q => conjugates mat_H (at_qubit n r q) (at_qubit n r' q)
  | GS q => conjugates mat_S (at_qubit n r q) (at_qubit n r' q)
  | GCX a b => conjugates mat_CX (gkron (at_qubit n r a) (at_qubit n r b)) (gkron (at_qubit n r' a) (at_qubit n r' b))
  end].
Proof. exact: gate_act_sem. Qed.

(* with preserve_logicals the old logical operators are kept, or the call raises an error *)
Theorem C32_preserve c act c' : q_ok c -> symp_map (q_n c) act ->
  deformed c act true = Some c' ->
  (forall L, get_logical_ops c = Some L -> dual_pairs (q_n c) (q_dimension c) L) ->
  [/\ q_ok c', q_mat c' = map act (q_mat c), q_logs c' = get_logical_ops c & q_dimension c' = q_dimension c].
Proof. exact: deformed_preserve. Qed.

(* C33 *)
Theorem C33_stack (cs : seq (qcode F)) : (forall i, (i < size cs)%N -> q_ok (nth (cdflt F) cs i)) ->
  exists c, [/\ q_stack cs false = Some c, q_ok c, q_n c = sumn (map (@q_n F) cs),
      q_mat c = flatten (mkseq (fun i => map (placed (q_n c) (sumn (take i (map (@q_n F) cs))) (q_n (nth (cdflt F) cs i)))
                                             (q_mat (nth (cdflt F) cs i))) (size cs))
    & [/\ q_dimension c = sumn (map (@q_dimension F) cs), q_gauge_dimension c = sumn (map (@q_gauge_dimension F) cs),
          q_sub c = has (@q_sub F) cs
        & commuting (q_n c) (q_mat c) <->
          forall i, (i < size cs)%N -> commuting (q_n (nth (cdflt F) cs i)) (q_mat (nth (cdflt F) cs i))]].
Proof.
move=> ok; have [okc ek eg hc] := stack_code ok.
eexists; split; [reflexivity | exact: okc | by [] | | by split].
rewrite stack_placed ?size_map.
  have e : map fst [seq (q_n c, q_mat c) | c <- cs] = map (@q_n F) cs by rewrite -map_comp.
  rewrite e; congr flatten; rewrite /mkseq; apply/eq_in_map => i; rewrite mem_iota /= add0n => li.
  by rewrite (nth_map (cdflt F)).
by apply/(all_nthP (0%N, [::])) => i; rewrite size_map => li; rewrite nth_pairs //; have [] := ok _ li.
Qed.

Theorem C33_inherit (cs : seq (qcode F)) : (forall i, (i < size cs)%N -> q_ok (nth (cdflt F) cs i)) ->
  (forall i, (i < size cs)%N -> has_logs (nth (cdflt F) cs i)) ->
  exists c c0 L, [/\ q_stack cs true = Some c, q_stack cs false = Some c0, q_mat c = q_mat c0 /\ q_n c = q_n c0, q_ok c
                 & [/\ q_sub c = q_sub c0, get_logical_ops c = Some L & logical_basis (q_n c) (q_dimension c) (q_mat c) L]].
Proof.
move=> ok hl; have [//|c0 [e0 ok0 en0 em0 [ed0 eg0 es0 _]]] := @q_stack_ok F cs false ok.
have [//|c [e okc en em [ed eg es el]]] := @q_stack_ok F cs true ok.
have [L eL vL] := el isT; exists c, c0, L; split=> //; first by rewrite em em0 en en0.
by split=> //; rewrite ?es ?es0 // /get_logical_ops eL.
Qed.

(* the hypothesis on logical operators holds for all stabilizer codes *)
Theorem C33_inherit_stabilizer (cs : seq (qcode F)) : (forall i, (i < size cs)%N -> q_ok (nth (cdflt F) cs i)) ->
  (forall i, (i < size cs)%N -> q_sub (nth (cdflt F) cs i) = false) ->
  exists c L, [/\ q_stack cs true = Some c, q_ok c, q_sub c = false, get_logical_ops c = Some L
                & logical_basis (q_n c) (q_dimension c) (q_mat c) L].
Proof.
move=> ok hs; have hl i : (i < size cs)%N -> has_logs (nth (cdflt F) cs i).
  by move=> li; apply: stab_logical_ops; [apply: ok | apply: hs].
have [c [c0 [L [e e0 _ okc [es eL lb]]]]] := C33_inherit ok hl; exists c, L; split=> //.
rewrite es; case: e0 => <- /=; apply/negbTE/negP => /(has_nthP (cdflt F)) [i li].
by rewrite hs.
Qed.

(* C34: codes that report valid logical operators and wirings that are permutations.  None of the calls of `stack` fails;
   inner1 and outer1 are the stacked inputs. *)
Theorem C34_concatenate_partial (inner outer : qcode F) wiring (inherit : bool) :
  let w := if wiring is Some w then w else default_wiring (q_n outer) (q_dimension inner) in
  q_ok inner -> q_ok outer -> has_logs inner -> has_logs outer ->
  (0 < q_dimension inner)%N -> (0 < q_n outer)%N -> (0 < size w)%N ->
  (q_dimension inner %| size w)%N -> (q_n outer %| size w)%N -> perm_eq w (iota 0 (size w)) ->
  let bi := (size w %/ q_dimension inner)%N in let bo := (size w %/ q_n outer)%N in
  exists c st inner1 outer1 L K P B, 
    [/\ concatenate inner outer wiring inherit = Some (c, st),
        (if (1 < bi)%N then q_stack (nseq bi inner) true else Some inner) = Some inner1,
        (if (1 < bo)%N then q_stack (nseq bo outer) true else Some outer) = Some outer1,
        get_logical_ops inner1 = Some L & get_logical_ops outer1 = Some K] /\
    [/\ q_ok c, q_n c = (bi * q_n inner)%N, q_dimension c = (bo * q_dimension outer)%N,
        q_gauge_dimension c = (bi * q_gauge_dimension inner + bo * q_gauge_dimension outer)%N
      & q_sub c = q_sub inner || q_sub outer] /\
    [/\ rewired w (size w) L P, encoded (q_n c) P (q_mat outer1) B, q_mat c = q_mat inner1 ++ B
      & inherit -> exists2 Q, get_logical_ops c = Some Q &
          encoded (q_n c) P K Q /\ logical_basis (q_n c) (q_dimension c) (q_mat c) Q].
Proof.
move=> w oki oko hi ho k0 n0 w0 dk dn pw bi bo.
have [c [c1 [c2 [L [K [[e0 e1 e2 e3 e4] [[ok en ed eg es] [em el lb _]]]]]]]] := 
  concatenate_ok inherit oki oko hi ho k0 n0 w0 dk dn pw.
have bi0 : (0 < bi)%N by rewrite divn_gt0 //; apply: dvdn_leq.
have bo0 : (0 < bo)%N by rewrite divn_gt0 //; apply: dvdn_leq.
have [c1' [L' [e1' ok1 eL' vL [n1 d1 _ _ _]]]] := stacked oki hi bi0.
move: e1'; rewrite [LHS]e1 => -[ec]; subst c1'; move: eL'; rewrite e3 => -[eL]; subst L'.
have [c2' [K' [e2' ok2 eK' vK [n2 d2 _ _ _]]]] := stacked oko ho bo0.
move: e2'; rewrite [LHS]e2 => -[ec]; subst c2'; move: eK'; rewrite e4 => -[eK]; subst K'.
have [[sL _ _] _] := vL; have [[sK wK _] _] := vK; have [w2 _ _ _ _] := ok2.
have k1 : q_dimension c1 = size w by rewrite d1 divnK.
have k2 : q_n c2 = size w by rewrite n2 divnK.
have e12 : q_n c1 = q_n c by rewrite en n1.
have nw i : (i < size w)%N -> (nth 0%N w i < size w)%N.
  by move=> li; have := mem_nth 0%N li; rewrite (perm_mem pw) mem_iota.
have sP : size (permute_logs w (size w) L) = (size w + size w)%N by rewrite size_cat !size_map.
exists c; eexists; exists c1, c2, L, K, (permute_logs w (size w) L); eexists.
split; first by split; [exact: e0 | exact: e1 | exact: e2 | exact: e3 | exact: e4].
split=> //; split; [| | exact: em |].
- split=> // i li; rewrite /permute_logs !nth_cat !size_map li ltnNge leq_addr /= addKn.
  by rewrite !(nth_map 0%N) // nth_take ?nw // nth_drop.
- split; rewrite ?size_map // => i li; rewrite (nth_map [::]) // e12.
  by apply: enc_comb; rewrite sP -k2; apply: wf_nth.
move=> hin; eexists; first by rewrite /get_logical_ops (el hin).
split; last exact: (lb hin).
split; rewrite ?size_map // => i li; rewrite (nth_map [::]) // e12.
by apply: enc_comb; rewrite sP -k2; apply: wf_nth.
Qed.

(* stabilizer codes, default wiring: concatenation always succeeds *)
Theorem C34_stabilizer_partial (inner outer : qcode F) (inherit : bool) :
  q_ok inner -> q_ok outer -> q_sub inner = false -> q_sub outer = false ->
  (0 < q_dimension inner)%N -> (0 < q_n outer)%N ->
  exists c st, 
    [/\ concatenate inner outer None inherit = Some (c, st), q_sub c = false, commuting (q_n c) (q_mat c),
        q_n c = (q_n outer * q_n inner)%N
      & q_dimension c = (q_dimension inner * q_dimension outer)%N /\
        (inherit -> exists2 Q, get_logical_ops c = Some Q & logical_basis (q_n c) (q_dimension c) (q_mat c) Q)].
Proof.
move=> oki oko si so k0 n0; set w := default_wiring (q_n outer) (q_dimension inner).
have pw : perm_eq w (iota 0 (q_n outer * q_dimension inner)) by apply: default_perm.
have sw : size w = (q_n outer * q_dimension inner)%N by rewrite (perm_size pw) size_iota.
have := @C34_concatenate_partial inner outer None inherit oki oko (stab_logical_ops oki si) (stab_logical_ops oko so) k0 n0.
rewrite -/w sw; case=> //; first by rewrite muln_gt0 n0.
- exact: dvdn_mull.
- exact: dvdn_mulr.
move=> c [st [c1 [c2 [L [K [P [B [[e _ _ _ _] [[ok en ed _ es] [_ _ _ h]]]]]]]]]].
exists c, st; have s0 : q_sub c = false by rewrite es si so.
have [_ hc _ _ _] := ok; split=> //; first exact: hc.
  by rewrite en mulnK.
split; first by rewrite ed mulKn.
by move=> /h [Q eQ [_ lb]]; exists Q.
Qed.

(* C35: the outer code is left alone; so is the inner code if blocks of it are stacked *)
Theorem C35_inputs_partial (inner outer : qcode F) wiring inherit c st :
  let w := if wiring is Some w then w else default_wiring (q_n outer) (q_dimension inner) in
  concatenate inner outer wiring inherit = Some (c, st) ->
  st.2 = outer /\ ((1 < size w %/ q_dimension inner)%N -> st.1 = inner).
Proof.
move=> w; rewrite /concatenate -/w; do 2!case: ifP => // _.
  case: (q_stack _ _) => // i1; case: (if _ then _ else _) => // o1; case: (get_logical_ops i1) => // li.
  by case: ifP => // _; case: (if _ then _ else _) => // lo [_ <-].
case: (if _ then _ else _) => // o1; case: (get_logical_ops inner) => // li.
by case: ifP => // _; case: (if _ then _ else _) => // lo [_ <-].
Qed.

(* what happens to the inner code otherwise: its logical operators are replaced by a permutation of them, still valid *)
Theorem C35_inner_valid (inner outer : qcode F) wiring inherit c st L :
  let w := if wiring is Some w then w else default_wiring (q_n outer) (q_dimension inner) in
  concatenate inner outer wiring inherit = Some (c, st) -> q_ok inner -> 
  get_logical_ops inner = Some L -> logical_basis (q_n inner) (q_dimension inner) (q_mat inner) L ->
  (size w %/ q_dimension inner <= 1)%N -> perm_eq w (iota 0 (size w)) ->
  exists2 P, st.1 = set_logs inner P & rewired w (size w) L P /\ logical_basis (q_n inner) (q_dimension inner) (q_mat inner) P.
Proof.
move=> w; rewrite /concatenate -/w; case: ifP => // _ e ok eL lb le pw.
move: e; rewrite ltnNge le /=; case: (if _ then _ else _) => // o1; rewrite eL.
case: ifP => // /andP [_ /eqP sw]; case: (if _ then _ else _) => // lo [_ <-].
have lP := permuted_logs (_ : perm_eq w (iota 0 (q_dimension inner))) lb; rewrite -sw in lP *.
exists (permute_logs w (size w) L) => //; split; last exact: lP.
have nw i : (i < size w)%N -> (nth 0%N w i < size w)%N.
  by move=> li; have := mem_nth 0%N li; rewrite (perm_mem pw) mem_iota.
split=> [|i li]; first by rewrite size_cat !size_map.
rewrite /permute_logs !nth_cat !size_map li ltnNge leq_addr /= addKn.
by rewrite !(nth_map 0%N) // nth_take ?nw // nth_drop.
Qed.
End Props.

(* C31 is false in odd characteristic: the checks X1 Z2, Z1 X2 on two qutrits, conjugated on the first qutrit *)
Theorem C31_conjugated_refuted : exists (F : fieldType) (c c' : qcode F) qs,
  [/\ q_ok c, q_sub c = false, conjugated c qs = Some c', q_sub c' = false & ~ commuting (q_n c') (q_mat c')].
Proof.
exists [fieldType of 'F_3], qutrits, (mkq 2 (b3 [:: [:: 0;0; 1;1]; [:: 1;1; 0;0]]%N) (Some false)), [:: 0%N].
split=> //; first by apply: q_ok_mk.
move=> /(_ [:: 0; 0; 1; 1] [:: 1; 1; 0; 0]) h.
have : (symp 2 [:: 0; 0; 1; 1] [:: 1; 1; 0; 0] : 'F_3) = 0 by apply: h; apply/idP; vm_compute.
rewrite /symp !big_ord_recl big_ord0 /= => /eqP; by vm_compute.
Qed.

(* the inner code Z3 on three qubits (two logical qubits) and the outer checks X1, Z2 on two qubits *)
Definition xz_code := mkq 2 (b2 [:: [:: 1;0; 0;0]; [:: 0;0; 0;1]]%N) None.

(* a wiring that sends both outer qubits to the same inner logical qubit is accepted *)
Theorem C34_wiring_refuted : exists (F : fieldType) (inner outer : qcode F) w c st,
  [/\ q_ok inner, q_ok outer, q_sub inner = false /\ q_sub outer = false,
      concatenate inner outer (Some w) false = Some (c, st) & q_sub c = false /\ ~ commuting (q_n c) (q_mat c)].
Proof.
pose r := if concatenate z3_code xz_code (Some [:: 0; 0]%N) false is Some (c, st) then (c, st) else (z3_code, (z3_code, z3_code)).
exists [fieldType of 'F_2], z3_code, xz_code, [:: 0; 0]%N, r.1, r.2.
split; [by apply: q_ok_mk | by apply: q_ok_mk | by split; apply/eqP; vm_compute | |].
  have : isSome (concatenate z3_code xz_code (Some [:: 0; 0]%N) false) by vm_compute.
  by rewrite /r; case: concatenate => [[c [i o]]|].
have em : q_mat r.1 = b2 [:: [:: 0;0;0; 0;0;1]; [:: 1;0;0; 1;0;0]; [:: 0;0;0; 1;0;0]]%N by apply/eqP; vm_compute.
have en : q_n r.1 = 3%N by apply/eqP; vm_compute.
split; first by apply/eqP; vm_compute.
rewrite em en => /(_ [:: 1; 0; 0; 1; 0; 0] [:: 0; 0; 0; 1; 0; 0]) h.
have : (symp 3 [:: 1; 0; 0; 1; 0; 0] [:: 0; 0; 0; 1; 0; 0] : 'F_2) = 0 by apply: h; apply/idP; vm_compute.
rewrite /symp !big_ord_recl big_ord0 /= => /eqP; by vm_compute.
Qed.

Theorem C35_inputs_refuted : exists (F : fieldType) (inner outer : qcode F) w c st,
  [/\ q_ok inner, q_ok outer, perm_eq w (iota 0 (size w)), concatenate inner outer (Some w) true = Some (c, st)
    & get_logical_ops st.1 != get_logical_ops inner].
Proof.
pose r := if concatenate z3_code xz_code (Some [:: 1; 0]%N) true is Some (c, st) then (c, st) else (z3_code, (z3_code, z3_code)).
exists [fieldType of 'F_2], z3_code, xz_code, [:: 1; 0]%N, r.1, r.2.
split; [by apply: q_ok_mk | by apply: q_ok_mk | by [] | |].
  have : isSome (concatenate z3_code xz_code (Some [:: 1; 0]%N) true) by vm_compute.
  by rewrite /r; case: concatenate => [[c [i o]]|].
by vm_compute.
Qed.

Example ex_C31 : q_ok five_qubit /\ (1 + 1 : 'F_2) = 0.
Proof. by split; [apply: q_ok_mk | apply/eqP; vm_compute]. Qed.
Example ex_C32 : all (gate_ok (q_n five_qubit)) [:: GH 0; GS 3; GCX 1 4; GCX 4 2].
Proof. by []. Qed.
Example ex_C32_preserve : isSome (deformed five_qubit (circuit_act 5 [:: GCX 0 1; GCX 0 1]) true).
Proof. by vm_compute. Qed.
Example ex_C33 : let cs := [:: five_qubit; xz_code; z3_code] in
  (forall i, (i < size cs)%N -> q_ok (nth (cdflt _) cs i)) /\ isSome (q_stack cs true).
Proof. by split; [case=> [|[|[|i]]] // _; apply: q_ok_mk | vm_compute]. Qed.
Example ex_C34 : let w := default_wiring (q_n five_qubit) (q_dimension z3_code) in
  [/\ (0 < q_dimension z3_code)%N, (q_dimension z3_code %| size w)%N, (q_n five_qubit %| size w)%N, (0 < size w)%N
    & isSome (concatenate z3_code five_qubit None true)].
Proof. by split; vm_compute. Qed.
Example ex_C34' : has_logs z3_code /\ has_logs five_qubit.
Proof. by split; apply: stab_logical_ops; [apply: q_ok_mk | apply/eqP; vm_compute | apply: q_ok_mk | apply/eqP; vm_compute]. Qed.
Example ex_C35 : let w := default_wiring (q_n five_qubit) (q_dimension z3_code) in (1 < size w %/ q_dimension z3_code)%N.
Proof. by vm_compute. Qed.
Example ex_C35_inner : isSome (concatenate z3_code xz_code (Some [:: 1; 0]%N) true) /\ (2 %/ q_dimension z3_code <= 1)%N.
Proof. by split; vm_compute. Qed.

Print Assumptions C31_conjugated_partial.
Print Assumptions C31_conjugated_refuted.
Print Assumptions C32_deformed.
Print Assumptions C32_circuit.
Print Assumptions C32_gates.
Print Assumptions C32_preserve.
Print Assumptions C33_stack.
Print Assumptions C33_inherit.
Print Assumptions C33_inherit_stabilizer.
Print Assumptions C34_concatenate_partial.
Print Assumptions C34_stabilizer_partial.
Print Assumptions C34_wiring_refuted.
Print Assumptions C35_inputs_partial.
Print Assumptions C35_inner_valid.
Print Assumptions C35_inputs_refuted.
