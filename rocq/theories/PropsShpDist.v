(* Property C83: distances of subsystem hypergraph product codes, Bacon-Shor codes and SHYPS codes. *)
From mathcomp Require Import all_ssreflect all_algebra zify.
From Verif Require Import LinAlg RowReduce Classical ClassicalProofs ClassicalProofs2 ClassicalDist Symplectic Quantum QuantumProofs
  QuantumOps Css CssForm CssLogs CssProofs CssGauge CssStack Product Families QuantumDist CssDist ShpDist PropsClassical PropsFamilies
  PropsCss PropsProduct.
Set Implicit Arguments.
Unset Strict Implicit.
Unset Printing Implicit Defensive.
Import GRing.Theory.
Local Open Scope ring_scope.

Section Props.
Variable F : fieldType.
Notation vec := (seq F).
Implicit Types (a b : ccode F) (c : csscode F).

(* the parameters of the code with gauge group A on n qudits: k logical qudits, g gauge qudits, minimal weights dx, dz of
   nontrivial operators of X type and of Z type, and distance min(dx, dz) *)
Definition shp_params (n k g dx dz : nat) c : Prop :=
  let A := css_mat n (c_x c) (c_z c) in
  [/\ c_n c = n, counts n A k g, is_tdist true n A dx, is_tdist false n A dz & is_qdist n A (minn dx dz)].

(* if both codes have nonzero words, the nontrivial operators of X type have the minimal weight of the second code, those of
   Z type the minimal weight of the first code *)
Theorem C83_distance_xz a b set_logicals c ka kb d : code_ok a -> code_ok b -> shp a b set_logicals = Some c ->
  has_dim (cc_n a) (cc_mat a) ka -> has_dim (cc_n b) (cc_mat b) kb -> (0 < ka)%N -> (0 < kb)%N ->
  (is_tdist true (c_n c) (css_mat (c_n c) (c_x c) (c_z c)) d <-> is_dist (cc_n b) (cc_mat b) d) /\
  (is_tdist false (c_n c) (css_mat (c_n c) (c_x c) (c_z c)) d <-> is_dist (cc_n a) (cc_mat a) d).
Proof.
move=> oka okb e ha hb ka0 kb0; have [wA _ _] := oka; have [wB _ _] := okb.
have [c' [e' _ _ _ [en ex ez _ _]]] := shp_ok set_logicals oka okb; move: e'; rewrite e => -[ec]; subst c'.
by rewrite en ex ez; split; [apply: shp_dist_x ha ka0 | apply: shp_dist_z hb kb0].
Qed.

(* [n1, k1, d1] and [n2, k2, d2] codes give an [n1 n2, k1 k2, min(d1, d2)] code *)
Theorem C83_parameters a b set_logicals ka kb da db : code_ok a -> code_ok b ->
  has_dim (cc_n a) (cc_mat a) ka -> has_dim (cc_n b) (cc_mat b) kb -> (0 < ka)%N -> (0 < kb)%N ->
  is_dist (cc_n a) (cc_mat a) da -> is_dist (cc_n b) (cc_mat b) db ->
  exists c, [/\ shp a b set_logicals = Some c, c_ok c, c_dimension c = (ka * kb)%N &
    shp_params (cc_n a * cc_n b) (ka * kb) ((cc_n a - ka) * (cc_n b - kb)) db da c].
Proof.
move=> oka okb ha hb ka0 kb0 hda hdb; have [wA _ _] := oka; have [wB _ _] := okb.
have [c [e okc ed _ [en ex ez _ _]]] := shp_ok set_logicals oka okb; exists c.
have ea : ka = dimension a by rewrite (dim_ok oka); apply/(has_dimE _ wA).
have eb : kb = dimension b by rewrite (dim_ok okb); apply/(has_dimE _ wB).
have [h1 _] := C83_distance_xz db oka okb e ha hb ka0 kb0; have [_ h2] := C83_distance_xz da oka okb e ha hb ka0 kb0.
split=> //; first by rewrite ed ea eb.
have tx := proj2 h1 hdb; have tz := proj2 h2 hda; have [_ wX wZ _ _] := okc.
rewrite en in tx tz; split=> //; last by apply: css_qdist => //; rewrite -en.
have := shp_counts wA wB; rewrite ex ez ea eb (dim_ok oka) (dim_ok okb) !subKn ?rank_leq_col //.
Qed.

(* ... and if one of the codes has no nonzero word then there is no nontrivial operator *)
Theorem C83_trivial a b set_logicals c ka kb v : code_ok a -> code_ok b -> shp a b set_logicals = Some c ->
  has_dim (cc_n a) (cc_mat a) ka -> has_dim (cc_n b) (cc_mat b) kb -> (ka * kb)%N = 0%N ->
  c_dimension c = 0%N /\ ~ nontrivial (c_n c) (css_mat (c_n c) (c_x c) (c_z c)) v.
Proof.
move=> oka okb e ha hb k0; have [wA _ _] := oka; have [wB _ _] := okb.
have [c' [e' okc ed _ [en ex ez _ _]]] := shp_ok set_logicals oka okb; move: e'; rewrite e => -[ec]; subst c'.
have ea : ka = dimension a by rewrite (dim_ok oka); apply/(has_dimE _ wA).
have eb : kb = dimension b by rewrite (dim_ok okb); apply/(has_dimE _ wB).
have hd : c_dimension c = 0%N by rewrite ed -ea -eb.
have [_ wX wZ _ _] := okc; split=> //; apply: no_nontrivial (wf_css wX wZ) _; rewrite -hd; exact: c_counts okc.
Qed.

(* the gauge group depends only on the words of the two codes, not on their parity check matrices *)
Theorem C83_words a b a' b' sl sl' c c' : code_ok a -> code_ok b -> code_ok a' -> code_ok b' ->
  shp a b sl = Some c -> shp a' b' sl' = Some c' ->
  (forall w, is_word (cc_n a) (cc_mat a) w <-> is_word (cc_n a') (cc_mat a') w) ->
  (forall w, is_word (cc_n b) (cc_mat b) w <-> is_word (cc_n b') (cc_mat b') w) ->
  c_n c = c_n c' /\ forall v, span (c_n c + c_n c) (css_mat (c_n c) (c_x c) (c_z c)) v <->
                              span (c_n c' + c_n c') (css_mat (c_n c') (c_x c') (c_z c')) v.
Proof.
move=> oka okb oka' okb' e e' ha hb; have [wA _ _] := oka; have [wB _ _] := okb; have [wA' _ _] := oka'; have [wB' _ _] := okb'.
have [c1 [e1 _ _ _ [en ex ez _ _]]] := shp_ok sl oka okb; move: e1; rewrite e => -[ec]; subst c1.
have [c1 [e1 _ _ _ [en' ex' ez' _ _]]] := shp_ok sl' oka' okb'; move: e1; rewrite e' => -[ec]; subst c1.
rewrite en ex ez en' ex' ez'; exact: shp_words.
Qed.

(* Bacon-Shor codes: X errors are witnessed by columns, Z errors by rows *)
Theorem C83_bacon_shor rows cols set_logicals : (0 < rows)%N -> (0 < odflt rows cols)%N ->
  exists c, [/\ bacon_shor_code F rows cols set_logicals = Some c, c_ok c, c_dimension c = 1%N &
    let cols := odflt rows cols in shp_params (rows * cols) 1 ((rows - 1) * (cols - 1)) cols rows c].
Proof.
move=> r0 k0; have [a [ea na oka [ha _] [da _]]] := C52_repetition F r0.
have [b [eb nb okb [hb _] [db _]]] := C52_repetition F k0; subst rows.
rewrite -nb in hb db.
have [c [e okc ed h]] := @C83_parameters a b set_logicals 1 1 (cc_n a) (cc_n b) oka okb ha hb isT isT da db; exists c.
have eq : bacon_shor_code F (cc_n a) cols set_logicals = shp a b set_logicals.
  by rewrite /bacon_shor_code ea; case: (cols) nb eb => [k|] /= nb eb; rewrite ?eb //; move: eb; rewrite ea => -[<-].
by rewrite eq /= -nb.
Qed.

Theorem C83_bacon_shor_none set_logicals : bacon_shor_code F 0 None set_logicals = None /\
  forall rows, bacon_shor_code F rows (Some 0%N) set_logicals = None.
Proof. by split=> //; case=> [|r] //; rewrite /bacon_shor_code; case: (repetition F r.+1) => [[]|]. Qed.

(* SHYPS codes: the stored dimension and distances are those of the code *)
Theorem C83_shyps dim_x dim_z set_logicals : (forall x : F, x \in [:: 0; 1]) -> (1 < dim_x < 8)%N -> (1 < odflt dim_x dim_z < 8)%N ->
  exists c st, let dz := odflt dim_x dim_z in
  [/\ shyps F dim_x dim_z set_logicals = Some (c, st),
      c_ok c, c_dimension c = (dim_x * dz)%N,
      [/\ dstate_ok c st, (c_if_known c st (Some true)).1 = Some (Dist (2 ^ dz.-1)),
          (c_if_known c st (Some false)).1 = Some (Dist (2 ^ dim_x.-1))
        & forall be el, c_exact be el c st None = Some (Dist (2 ^ (minn dim_x dz).-1), st)]
    & shp_params ((2 ^ dim_x - 1) * (2 ^ dz - 1)) (dim_x * dz) ((2 ^ dim_x - 1 - dim_x) * (2 ^ dz - 1 - dz))
        (2 ^ dz.-1) (2 ^ dim_x.-1) c].
Proof.
move=> bin hx hz; move: hz; set dz := odflt _ _ => hz.
have [a [ea na oka [ha _] [da _]]] := C52_simplex bin hx; have [b [eb nb okb [hb _] [db _]]] := C52_simplex bin hz.
have x0 : (0 < dim_x)%N by case/andP: hx => /ltnW.
have z0 : (0 < dz)%N by case/andP: hz => /ltnW.
have [c [e okc ed h]] := C83_parameters set_logicals oka okb ha hb x0 z0 da db.
rewrite na nb in h; have [hn hc tx tz hq] := h; have [[q1 q2 q3 q4 q5] wX wZ hs hl] := okc.
set c' := CSS (c_n c) (c_x c) (c_z c) (c_sub c) (c_stab c) (c_gauge c) (c_logs c) (Some (dim_x * dz)%N).
exists c', (DState (Some (Dist (2 ^ dz.-1))) (Some (Dist (2 ^ dim_x.-1))) None (c_x c == c_z c)).
have nz : (dim_x * dz == 0)%N = false by apply/negbTE; rewrite muln_eq0 negb_or -!lt0n x0.
have eq1 : shyps F dim_x dim_z set_logicals = Some (c', DState (Some (Dist (2 ^ dz.-1))) (Some (Dist (2 ^ dim_x.-1))) None (c_x c == c_z c)).
  by rewrite /shyps -/dz ea eb e.
split=> //.
- split=> //; split=> //= k [<-]; rewrite hn; by exists ((2 ^ dim_x - 1 - dim_x) * (2 ^ dz - 1 - dz))%N.
split; rewrite /c_if_known /c_dimension /= ?nz //.
- have okc' : c_ok c' by split=> //; split=> //= k [<-]; rewrite hn; exists ((2 ^ dim_x - 1 - dim_x) * (2 ^ dz - 1 - dz))%N.
  have [_ _ _ /= heq] := @fresh_ok _ c' false okc' (fun h => match Bool.diff_false_true h with end).
  by split=> //=; rewrite /c_mat /= hn.
move=> be el; rewrite /c_exact /c_exact_pauli /c_if_known /c_dimension /= !nz /=; congr (Some (Dist _, _)).
by case: (leqP dim_x dz) => le; [apply/minn_idPr | apply/minn_idPl]; rewrite leq_pexp2l // -!subn1 leq_sub2r // ltnW.
Qed.
End Props.

(* hypotheses that are met, and values *)
Example ex_C83_bacon : exists c, bacon_shor_code [fieldType of 'F_2] 3 (Some 4%N) true = Some c /\ shp_params 12 1 6 4 3 c.
Proof. by have [c [e _ _ h]] := @C83_bacon_shor [fieldType of 'F_2] 3 (Some 4%N) true isT isT; exists c. Qed.
(* Pauli X on a row of four qubits is undetected and not in the gauge group *)
Example ex_C83_value : if bacon_shor_code [fieldType of 'F_2] 3 (Some 4%N) true is Some c then
  [&& c_n c == 12%N, c_dimension c == 1%N & c_gauge_dimension c == 6%N] else false.
Proof. by vm_compute. Qed.
Example ex_C83_shyps : exists c st, shyps [fieldType of 'F_2] 3 (Some 2%N) true = Some (c, st) /\ shp_params 21 6 4 2 4 c.
Proof.
have bin (x : 'F_2) : x \in [:: 0; 1] by rewrite !inE; case: x => [[|[|m]] h] //.
by have [c [st [e _ _ _ h]]] := @C83_shyps [fieldType of 'F_2] 3 (Some 2%N) true bin isT isT; exists c, st.
Qed.
(* two matrices of one code *)
Example ex_C83_words : let a := mkcode 3 (b2 [:: [:: 1;1;0]; [:: 0;1;1]]%N) in let a' := mkcode 3 (b2 [:: [:: 1;0;1]; [:: 0;1;1]; [:: 1;1;0]]%N) in
  [/\ code_ok a, code_ok a', cc_mat a <> cc_mat a' & forall w, is_word 3 (cc_mat a) w <-> is_word 3 (cc_mat a') w].
Proof.
move=> a a'; split; [exact: mkcode_ok | exact: mkcode_ok | by [] |].
have e : canon 3 (b2 [:: [:: 1;1;0]; [:: 0;1;1]]%N) = canon 3 (b2 [:: [:: 1;0;1]; [:: 0;1;1]; [:: 1;1;0]]%N) by apply/eqP; vm_compute.
move=> w; rewrite [cc_mat a]/= [cc_mat a']/=; split=> /canon_words; [rewrite e | rewrite -e] => h; apply/canon_words => //; exact: h.
Qed.
(* a code without nonzero words *)
Example ex_C83_trivial : code_ok (mkcode 1 (b2 [:: [:: 1]]%N)) /\ has_dim 1 (b2 [:: [:: 1]]%N) 0.
Proof.
have ok : code_ok (mkcode 1 (b2 [:: [:: 1]]%N)) by exact: mkcode_ok.
by split=> //; apply/has_dimE => //; rewrite -(dim_ok ok); vm_compute.
Qed.

Print Assumptions C83_distance_xz.
Print Assumptions C83_parameters.
Print Assumptions C83_trivial.
Print Assumptions C83_words.
Print Assumptions C83_bacon_shor.
Print Assumptions C83_bacon_shor_none.
Print Assumptions C83_shyps.

