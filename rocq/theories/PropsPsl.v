(* Property C87: ProjectiveSpecialLinearGroup(d, q). *)
From mathcomp Require Import all_ssreflect all_algebra zify.
From Verif Require Import LinAlg Classical ClassicalProofs PermGroup GroupTable GroupTerm SlGen PropsGroup PropsSL Psl.
Set Implicit Arguments.
Unset Strict Implicit.
Unset Printing Implicit Defensive.
Import GRing.Theory.
Local Open Scope ring_scope.

Section Props.
Variables (F : finFieldType) (pe : F) (d : nat).
Hypotheses (p0 : pe != 0) (prim : primitive pe) (d2 : (1 < d)%N).
Let q := #|F|.
Let SL := [set A : 'M[F]_d | \det A == 1].

(* the roots are the d-th roots of unity, in both places *)
Theorem C87_roots (r : F) : [/\ uniq (psl_roots pe q d), size (psl_roots pe q d) = gcdn d q.-1,
  (r \in psl_roots pe q d) = (r ^+ d == 1) & (r \in psl_roots_iter pe q d) = (r ^+ d == 1)].
Proof.
have d0 := ltnW d2; split; [exact: uniq_roots | by rewrite size_map size_iota | exact: mem_roots | exact: mem_roots_iter].
Qed.

(* linear_rep=True: for every choice of the target space, the generated permutations are those of the matrices of determinant
   one; they multiply as the matrices do (in the opposite order); two matrices have the same permutation if and only if they
   differ by a root of unity; so the order of the group is that of SL(d, q) divided by gcd(d, q - 1) *)
Theorem C87_linear (el : seq F) (T : seq (vec F)) : uniq (0 :: el) -> (forall x, x \in 0 :: el) ->
  psl_space (psl_roots pe q d) (0 :: el) d T ->
  let act (A : 'M[F]_d) := psl_perm (psl_roots pe q d) T (lmx A) in
  [/\ forall p, (exists w, all (fun i => i < 2)%N w /\
         p = word_perm (size T) [seq psl_perm (psl_roots pe q d) T A | A <- sl_gens d q pe] w) <->
       (exists A, \det A = 1 /\ p = act A),
      forall A, \det A = 1 -> perm_eq (act A) (iota 0 (size T)),
      forall A B, \det A = 1 -> \det B = 1 -> pmul (act A) (act B) = act (B *m A),
      forall A B, \det A = 1 -> \det B = 1 -> act A = act B <-> exists2 c, c ^+ d = 1 & A = c *: B
    & exists G, [/\ uniq G, forall p, p \in G <-> (exists A, \det A = 1 /\ p = act A) & (size G * gcdn d q.-1)%N = #|SL|]].
Proof.
rewrite /SL /q; case: d d2 => [|[|d']] // _; set dd := d'.+2 => uel ael hT.
have d0 : (0 < dd)%N by []; have rE := mem_roots p0 prim d0.
have [uT nT rT iT] := spaceP d0 rE uel ael hT; split.
- by move=> p; apply: (psl_linear p0 prim uT nT rT iT).
- by move=> A dA; apply: (pp_valid d0 rE uT nT rT iT); apply: sq_lmx; apply: unit_det.
- move=> A B /unit_det uA /unit_det uB; rewrite (pp_mul d0 rE uT nT rT iT (sq_lmx uA) (sq_lmx uB)); congr (psl_perm _ _ _).
  by apply: (@sq_eq _ dd); rewrite ?sq_closed ?sq_lmx ?unitmx_mul ?uA ?uB // sq_mulE ?sq_lmx // !mx_lmx.
- by move=> A B dA dB; apply: (psl_eq p0 prim nT rT iT).
have [G [uG hG sG]] := psl_order p0 prim uT nT rT iT; exists G; split=> // p; rewrite hG.
exact: (psl_linear p0 prim uT nT rT iT).
Qed.

(* the lift of the permutation of a matrix A, when it is defined, is A with every column multiplied by some root of unity *)
Theorem C87_lift (el : seq F) (T : seq (vec F)) (A : 'M[F]_d) (B : mat F) : uniq (0 :: el) -> (forall x, x \in 0 :: el) ->
  psl_space (psl_roots pe q d) (0 :: el) d T -> \det A = 1 ->
  psl_lift T d (psl_perm (psl_roots pe q d) T (lmx A)) = Some B ->
  exists D : 'rV[F]_d, (forall j, D 0 j ^+ d = 1) /\ mx d d B = A *m diag_mx D.
Proof.
rewrite /q; case: d d2 A => [|[|d']] // _ A; set dd := d'.+2 in A * => uel ael hT /unit_det uA.
have d0 : (0 < dd)%N by []; have rE := mem_roots p0 prim d0.
have [uT nT rT iT] := spaceP d0 rE uel ael hT => hB.
have [sB wB h] := lift_pp nT rT (sq_lmx uA) hB.
have /fin_all_exists [D hD] : forall j, exists r, r ^+ dd = 1 /\ col j (mx dd dd B) = r *: col j A.
  by move=> j; have [r] := h j; rewrite rE mx_lmx => /eqP hr e; exists r.
exists (\row_j D j); split=> [j | ]; first by rewrite mxE; have [] := hD j.
apply/matrixP => i j; rewrite mul_mx_diag; have [_ /colP /(_ i)] := hD j; by rewrite !mxE mulrC.
Qed.

(* so it is right if there is only one root of unity *)
Theorem C87_lift_trivial (el : seq F) (T : seq (vec F)) (A : 'M[F]_d) : uniq (0 :: el) -> (forall x, x \in 0 :: el) ->
  psl_space (psl_roots pe q d) (0 :: el) d T -> gcdn d q.-1 = 1%N -> \det A = 1 ->
  psl_lift T d (psl_perm (psl_roots pe q d) T (lmx A)) = Some (lmx A).
Proof.
move=> uel ael hT g1 dA; have d0 := ltnW d2; have rE := mem_roots p0 prim d0.
have [uT nT rT iT] := spaceP d0 rE uel ael hT.
have r1 (r : F) : r ^+ d = 1 -> r = 1.
  by move/eqP; rewrite -rE /psl_roots g1 /= inE => /eqP.
have uu : all (fun e => unit_vec F d e \in T) (iota 0 d).
  apply/allP => e; rewrite mem_iota /= add0n => he.
  have nz : nzvec d (unit_vec F d e).
    rewrite /nzvec size_mkseq eqxx /=; apply/eqP => /(congr1 (fun v => nth 0 v e)).
    by rewrite nth_mkseq // eqxx nth_nseq he => /eqP; rewrite oner_eq0.
  by have [r] := rT _ nz; rewrite rE => /eqP /r1 ->; rewrite vscale1.
case e: (psl_lift _ _ _) => [B|]; last by move: e; rewrite /psl_lift uu.
have uA : A \in unitmx by rewrite unitmxE dA unitr1.
have [sB wB h] := lift_pp nT rT (sq_lmx uA) e.
congr Some; rewrite -(lmx_mx sB wB); congr lmx; apply/matrixP => i j; have [r] := h j.
by rewrite rE => /eqP /r1 ->; rewrite scale1r mx_lmx => /colP /(_ i); rewrite !mxE.
Qed.

(* iter_mats: flattened matrices of determinant one, and one of every class *)
Theorem C87_iter (el : seq F) (out : seq (vec F)) : uniq el -> (forall x, x \in el) ->
  psl_iter (psl_roots_iter pe q d) (sl_iter el d) out ->
  [/\ uniq out, forall v, v \in out -> exists2 A : 'M[F]_d, \det A = 1 & v = flatten (lmx A),
      forall A : 'M[F]_d, \det A = 1 -> exists2 B : 'M[F]_d, flatten (lmx B) \in out & exists2 c, c ^+ d = 1 & B = c *: A,
      forall (A : 'M[F]_d) c, c ^+ d = 1 -> flatten (lmx A) \in out -> flatten (lmx (c *: A)) \in out -> c *: A = A
    & (size out * gcdn d q.-1)%N = #|SL|].
Proof.
rewrite /SL /q; case: d d2 => [|[|d']] // _ uel ael ho; have [h1 h2 h3 h4] := psl_iterP p0 prim uel ael ho.
by split=> //; apply: (psl_iter_size p0 prim uel ael ho).
Qed.
End Props.

(* linear_rep=False, q = 2: the matrices themselves are used, and PSL(d, 2) = SL(d, 2) *)
Theorem C87_regular_binary (F : finFieldType) (pe : F) (d : nat) : primitive pe -> (1 < d)%N -> #|F| = 2%N ->
  exists fuel gs table idx, gen_mats (mull d) [::] fuel (psl_gens d #|F| pe) = Some (gs, table, idx) /\
  (size table * gcdn d #|F|.-1)%N = #|[set A : 'M[F]_d | \det A == 1]|.
Proof.
move=> prim d2 q2; have [fuel [gs [table [idx [e [_ _ h _]]]]]] := C86_regular prim d2.
by exists fuel, gs, table, idx; rewrite /psl_gens q2 eqxx gcdn1 muln1 -h; move: e; rewrite q2.
Qed.

(* linear_rep=False, d = 2: two products of the Kronecker products are equal if and only if those of the matrices differ by a
   square root of one; the constructor returns a group of the right order *)
Theorem C87_regular_two (F : finFieldType) (pe : F) : pe != 0 -> primitive pe -> #|F| <> 2%N ->
  (forall w w', all (fun i => i < 2)%N w -> all (fun i => i < 2)%N w' ->
    word_prod 4 (psl_gens 2 #|F| pe) w = word_prod 4 (psl_gens 2 #|F| pe) w' <->
    exists2 c, c ^+ 2 = 1 & word_prod 2 (sl_gens 2 #|F| pe) w = c *: word_prod 2 (sl_gens 2 #|F| pe) w') /\
  exists fuel gs table idx, gen_mats (mull 4) [::] fuel (psl_gens 2 #|F| pe) = Some (gs, table, idx) /\
  (size table * gcdn 2 #|F|.-1)%N = #|[set A : 'M[F]_2 | \det A == 1]|.
Proof.
move=> p0 prim /eqP q2; split=> [w w' hw hw' |]; [exact: (psl2_words p0 prim q2 hw hw') | exact: psl2_regular].
Qed.

Lemma card3 : #|[finFieldType of 'F_3]| = 3%N. Proof. by rewrite card_Fp. Qed.
Lemma card5 : #|[finFieldType of 'F_5]| = 5%N. Proof. by rewrite card_Fp. Qed.

(* linear_rep=False, larger d: the Kronecker product with the inverse, which is not transposed, does not multiply as the matrices
   do; in PSL(3, 5) = SL(3, 5) these two products are equal, but the products of the matrices returned are not *)
Lemma lw_word (F : fieldType) d (mats : seq (mat F)) w : all (fun A => (size A == d) && wf d A) mats -> all (fun i => i < size mats)%N w ->
  let L := foldr (fun a M => mull d (nth [::] mats a) M) (idl F d) w in [/\ size L = d, wf d L & mx d d L = word_prod d mats w].
Proof.
move=> /allP h; elim: w => [|a w IH] /=; first by rewrite mx_idl size_mkmat wf_mkmat.
case/andP => ha /IH [s1 w1 e1]; have /andP [/eqP sa wa] := h _ (mem_nth [::] ha).
by rewrite size_mull wf_mull (mx_mull _ sa wa s1) e1.
Qed.
Lemma inv_list (F : finFieldType) d (A B : mat F) : size A = d -> wf d A -> size B = d -> wf d B -> mull d A B = idl F d ->
  lmx (invmx (mx d d A)) = B.
Proof.
move=> sA wA sB wB e; have e' : mx d d A *m mx d d B = 1%:M by rewrite -(mx_mull _ sA wA sB) e mx_idl.
have [uA _] := mulmx1_unit e'.
by rewrite -[invmx _]mulmx1 -e' mulmxA mulVmx // mul1mx lmx_mx.
Qed.

Lemma lw_eq (F : finFieldType) d (mats : seq (mat F)) w w' : all (fun A => (size A == d) && wf d A) mats ->
  all (fun i => i < size mats)%N w -> all (fun i => i < size mats)%N w' -> word_prod d mats w = word_prod d mats w' ->
  foldr (fun a M => mull d (nth [::] mats a) M) (idl F d) w = foldr (fun a M => mull d (nth [::] mats a) M) (idl F d) w'.
Proof.
move=> h hw hw'; have [s1 w1 <-] := lw_word h hw; have [s2 w2 <-] := lw_word h hw' => e.
by rewrite -(lmx_mx s1 w1) e (lmx_mx s2 w2).
Qed.
Definition g35 := sl_gens 3 5 (2%:R : 'F_5).
Definition i35 : seq (mat [fieldType of 'F_5]) := [:: [:: [:: 3%:R; 0; 0]; [:: 0; 2%:R; 0]; [:: 0; 0; 1]]; [:: [:: 0; - 1; 0]; [:: 0; 0; - 1]; [:: 1; - 1; 0]]].
Definition w35 := [:: 1; 1; 0; 0; 0; 1; 0; 1; 1; 1; 0]%N.
Definition v35 := [:: 0; 1; 0; 0; 1; 0; 0; 1; 0; 1; 1]%N.
Definition k35 := [seq kron A.1 A.2 | A <- zip i35 g35].
Definition lw9 w := foldr (fun a M => mull 9 (nth [::] k35 a) M) (idl [finFieldType of 'F_5] 9) w.
Lemma ne9 : lw9 w35 <> lw9 v35. Proof. by apply/eqP; vm_compute. Qed.
Theorem C87_regular_refuted : exists (F : finFieldType) (pe : F) d w w', [/\ pe != 0 /\ primitive pe, all (fun i => i < 2)%N w,
  all (fun i => i < 2)%N w', word_prod d (sl_gens d #|F| pe) w = word_prod d (sl_gens d #|F| pe) w'
  & word_prod (d * d) (psl_gens d #|F| pe) w <> word_prod (d * d) (psl_gens d #|F| pe) w'].
Proof.
exists [finFieldType of 'F_5], 2%:R, 3%N, w35, v35; rewrite card5.
have gok : all (fun A => (size A == 3%N) && wf 3 A) g35 by vm_compute.
have kE : psl_gens 3 5 (2%:R : 'F_5) = k35.
  have i0 : lmx (invmx (mx 3 3 (nth [::] g35 0))) = nth [::] i35 0 by apply: inv_list; try (by vm_compute); apply/eqP; vm_compute.
  have i1 : lmx (invmx (mx 3 3 (nth [::] g35 1))) = nth [::] i35 1 by apply: inv_list; try (by vm_compute); apply/eqP; vm_compute.
  rewrite -[LHS]/[:: kron (lmx (invmx (mx 3 3 (nth [::] g35 0)))) (nth [::] g35 0); kron (lmx (invmx (mx 3 3 (nth [::] g35 1)))) (nth [::] g35 1)].
  by rewrite i0 i1.
have kok : all (fun A => (size A == 9%N) && wf 9 A) k35 by vm_compute.
split; [by split; [| exact: prim5] | by [] | by [] | |].
  have [_ _ <-] := lw_word gok (isT : all (fun i => i < size g35)%N w35).
  have [_ _ <-] := lw_word gok (isT : all (fun i => i < size g35)%N v35); congr (mx 3 3 _); apply/eqP; by vm_compute.
rewrite kE => e; have h := @lw_eq [finFieldType of 'F_5] 9%N k35 w35 v35 kok isT isT e.
exact: ne9 h.
Qed.

(* concrete target spaces for PSL(2, 3) *)
Definition eqset (T : eqType) (a b : seq T) := all (mem b) a && all (mem a) b.
Lemma eqsetP (T : eqType) (a b : seq T) : reflect (a =i b) (eqset a b).
Proof.
apply: (iffP andP) => [[/allP h1 /allP h2] x | h]; first by apply/idP/idP => [/h1 | /h2].
by split; apply/allP => x; rewrite /= h.
Qed.
Definition set_ofb (T : eqType) (s os : seq (seq T)) : bool :=
  [&& all (mem s) os, all (fun o => has (fun o' => eqset o' o) os) s
    & all (fun i => all (fun j => eqset (nth [::] os i) (nth [::] os j) ==> (i == j)) (iota 0 (size os))) (iota 0 (size os))].
Lemma set_ofbP (T : eqType) (s os : seq (seq T)) : set_ofb s os -> set_of s os.
Proof.
case/and3P => /allP h1 /allP h2 /allP h3; split=> [o /h1 // | o /h2 /hasP [o' h /eqsetP e] | i j hi hj e]; first by exists o'.
have /h3 /allP h : i \in iota 0 (size os) by rewrite mem_iota.
have /h /implyP hh : j \in iota 0 (size os) by rewrite mem_iota.
by apply/eqP/hh/eqsetP.
Qed.
(* every list of nonempty sets can be listed without repetitions, and one member of each picked *)
Lemma set_exists (T : eqType) (x : T) (s : seq (seq T)) : [::] \notin s -> exists os t, set_of s os /\ picks x os t.
Proof.
move=> ne; have [os so] : exists os, set_of s os.
  elim: s {ne} => [|o s [os [h1 h2 h3]]]; first by exists [::].
  case h: (has (fun o' => eqset o' o) os); last first.
    exists (o :: os); split=> [y | y | ].
    - by rewrite !inE => /orP [-> // | /h1 ->]; rewrite orbT.
    - by rewrite inE => /orP [/eqP -> | /h2 [o' ho' e]]; [exists o; rewrite ?mem_head | exists o'; rewrite // inE ho' orbT].
    have no i : (i < size os)%N -> ~ (nth [::] os i =i o).
      by move=> hi /eqsetP e; move/negP: h; apply; apply/hasP; exists (nth [::] os i); rewrite ?mem_nth.
    move=> [|i] [|j] //= hi hj e; first by case: (no j hj) => z; rewrite e.
      by case: (no i hi).
    by congr S; apply: h3.
  exists os; split=> // [y /h1 | y]; first by rewrite inE orbC => ->.
  by rewrite inE => /orP [/eqP -> | /h2 //]; have /hasP [o' ho' /eqsetP e] := h; exists o'.
exists os, [seq head x o | o <- os]; split=> //; split; first by rewrite size_map.
move=> i hi; rewrite (nth_map [::]) //; have [h1 _ _] := so.
have := h1 _ (mem_nth [::] hi); case: (nth [::] os i) => [h | y o _]; last exact: mem_head.
by rewrite h in ne.
Qed.
Example ex_C87_iter (F : finFieldType) (pe : F) el d : (0 < d)%N -> exists out, psl_iter (psl_roots_iter pe #|F| d) (sl_iter el d) out.
Proof.
move=> d0; have ne : [::] \notin psl_mat_orbits (psl_roots_iter pe #|F| d) (sl_iter el d).
  by apply/negP => /mapP [A _] /(congr1 size); rewrite /= !size_map size_iota => e; rewrite -e in d0.
by have [os [t [h1 h2]]] := set_exists [::] ne; exists t, os.
Qed.
Definition el3 : seq 'F_3 := [:: 1; 2%:R].
Definition T3 : seq (vec [fieldType of 'F_3]) := [:: [:: 0; 1]; [:: 1; 0]; [:: 1; 1]; [:: 1; 2%:R]].
Definition T3' : seq (vec [fieldType of 'F_3]) := [:: [:: 0; 2%:R]; [:: 1; 0]; [:: 1; 1]; [:: 1; 2%:R]].
Definition r3 : seq 'F_3 := psl_roots (- 1) 3 2.
Lemma space3 : psl_space r3 (0 :: el3) 2 T3.
Proof.
exists [seq psl_orbit r3 v | v <- T3]; first by apply: set_ofbP; vm_compute.
by split=> // [[|[|[|[|i]]]]].
Qed.
Lemma space3' : psl_space r3 (0 :: el3) 2 T3'.
Proof.
exists [seq psl_orbit r3 v | v <- T3]; first by apply: set_ofbP; vm_compute.
by split=> // [[|[|[|[|i]]]]].
Qed.
Lemma el3P : uniq (0 :: el3) /\ forall x, x \in 0 :: el3.
Proof. by split; [vm_compute | move=> [[|[|[|k]]] h]]. Qed.
Example ex_C87 : exists (F : finFieldType) (pe : F) el T, [/\ pe != 0 /\ primitive pe, uniq (0 :: el), forall x, x \in 0 :: el
  & psl_space (psl_roots pe #|F| 2) (0 :: el) 2 T].
Proof.
have [h1 h2] := el3P; exists [finFieldType of 'F_3], (- 1), el3, T3; rewrite card3; split; [by split; [| exact: prim3] | exact: h1 | exact: h2 |].
exact: space3.
Qed.
Example ex_C87_group : uniq [seq psl_perm r3 T3 A | A <- sl_gens 2 3 (- 1 : 'F_3)] /\ gcdn 2 3.-1 = 2%N.
Proof. by vm_compute. Qed.

(* the lift fails for every member if a basis vector is not the chosen member of its orbit; and if they all are, it does not
   preserve products, not even up to a scalar *)
Theorem C87_lift_refuted : exists (F : finFieldType) (pe : F) el T T', [/\ [/\ pe != 0, primitive pe, uniq (0 :: el) & forall x, x \in 0 :: el],
  psl_space (psl_roots pe #|F| 2) (0 :: el) 2 T, psl_space (psl_roots pe #|F| 2) (0 :: el) 2 T',
  forall p, psl_lift T' 2 p = None
  & exists (A : 'M[F]_2) P R, let p := psl_perm (psl_roots pe #|F| 2) T (lmx A) in
    [/\ \det A = 1, psl_lift T 2 p = Some P, psl_lift T 2 (pmul p p) = Some R & forall c, R <> mscale c (mull 2 P P)]].
Proof.
have [h1 h2] := el3P; exists [finFieldType of 'F_3], (- 1), el3, T3, T3'; rewrite card3; split.
- by split; [ | exact: prim3 | exact: h1 | exact: h2].
- exact: space3.
- exact: space3'.
- by [].
pose A : mat [fieldType of 'F_3] := [:: [:: 0; 1]; [:: 2%:R; 1]].
exists (mx 2 2 A), [:: [:: 0; 1]; [:: 1; 1]], [:: [:: 1; 1]; [:: 1; 0]]; rewrite /= (@lmx_mx [finFieldType of 'F_3] 2 A) //; split.
- by rewrite (expand_det_row _ 0) !big_ord_recl big_ord0 /cofactor !det_mx11 !mxE; apply/eqP; vm_compute.
- by congr Some; apply/eqP; vm_compute.
- by congr Some; apply/eqP; vm_compute.
by move=> [[|[|[|c]]] hc] // /eqP; vm_compute.
Qed.
Example ex_C87_two : exists (F : finFieldType) (pe : F), [/\ pe != 0, primitive pe & #|F| <> 2%N].
Proof. by exists [finFieldType of 'F_5], 2%:R; rewrite card5; split=> //; exact: prim5. Qed.
Example ex_C87_trivial : gcdn 3 #|[finFieldType of 'F_3]|.-1 = 1%N.
Proof. by rewrite card_Fp. Qed.

Print Assumptions C87_roots.
Print Assumptions C87_linear.
Print Assumptions C87_lift.
Print Assumptions C87_lift_trivial.
Print Assumptions C87_lift_refuted.
Print Assumptions C87_iter.
Print Assumptions C87_regular_binary.
Print Assumptions C87_regular_two.
Print Assumptions C87_regular_refuted.
