(* Property C84: distances of hypergraph product codes. *)
From mathcomp Require Import all_ssreflect all_algebra zify.
From Verif Require Import LinAlg RowReduce Classical ClassicalProofs ClassicalProofs2 ClassicalDist Symplectic Quantum QuantumProofs
  QuantumOps Css CssForm CssLogs CssProofs CssGauge CssStack Product Families FamiliesProofs QuantumDist CssDist ShpDist HgpDist PropsClassical
  PropsFamilies PropsCss PropsProduct.
Set Implicit Arguments.
Unset Strict Implicit.
Unset Printing Implicit Defensive.
Import GRing.Theory.
Local Open Scope ring_scope.

Section Spec.
Variable F : fieldType.
Notation vec := (seq F).
Notation mat := (seq (seq F)).
Definition nonzero_word n (H : mat) (w : vec) : Prop := is_word n H w /\ exists j, nth 0 w j <> 0.
Definition min_weight (S : vec -> Prop) (d : nat) : Prop := (exists2 w, S w & hwt w = d) /\ forall w, S w -> (d <= hwt w)%N.
End Spec.

Section Props.
Variable F : fieldType.
Notation vec := (seq F).
Implicit Types (a b : ccode F) (c : csscode F).

(* the minimal weight of nontrivial operators of X type is that of the words of the second code, if the first code has nonzero
   words, and of the words of the transposed first code, if the transposed second code has nonzero words; likewise for Z *)
Theorem C84_distance_xz a b set_logicals c ka kb kat kbt d : code_ok a -> code_ok b -> hgp a b set_logicals = Some c ->
  has_dim (cc_n a) (cc_mat a) ka -> has_dim (cc_n b) (cc_mat b) kb ->
  has_dim (size (cc_mat a)) (trl (cc_n a) (cc_mat a)) kat -> has_dim (size (cc_mat b)) (trl (cc_n b) (cc_mat b)) kbt ->
  (is_tdist true (c_n c) (css_mat (c_n c) (c_x c) (c_z c)) d <->
   min_weight (fun w => ((0 < ka)%N /\ nonzero_word (cc_n b) (cc_mat b) w) \/
                        ((0 < kbt)%N /\ nonzero_word (size (cc_mat a)) (trl (cc_n a) (cc_mat a)) w)) d) /\
  (is_tdist false (c_n c) (css_mat (c_n c) (c_x c) (c_z c)) d <->
   min_weight (fun w => ((0 < kb)%N /\ nonzero_word (cc_n a) (cc_mat a) w) \/
                        ((0 < kat)%N /\ nonzero_word (size (cc_mat b)) (trl (cc_n b) (cc_mat b)) w)) d).
Proof.
move=> oka okb e ha hb hat hbt; have [wA _ _] := oka; have [wB _ _] := okb.
have [c' [e' _ _ _ [en ex ez _]]] := hgp_ok set_logicals oka okb; move: e'; rewrite e => -[ec]; subst c'.
by rewrite en ex ez; split; [exact: hgp_dist_x | exact: hgp_dist_z].
Qed.

Lemma min_one (p : bool) (n : nat) (H : seq vec) (q : bool) S d : p -> ~~ q -> is_dist n H d ->
  min_weight (fun w => (p /\ nonzero_word n H w) \/ (q /\ S w)) d.
Proof.
move=> hp hq [[w [ww nz e]] m]; split; first by exists w => //; left.
by move=> v [[_ [wv nv]] | [qt _]]; [apply: m | rewrite qt in hq].
Qed.
Lemma min_two (p q : bool) n m (H K : seq vec) d d' : p -> q -> is_dist n H d -> is_dist m K d' ->
  min_weight (fun w => (p /\ nonzero_word n H w) \/ (q /\ nonzero_word m K w)) (minn d d').
Proof.
move=> hp hq [[w [ww nz e]] h] [[w' [ww' nz' e']] h']; split.
  by case: (leqP d d') => _; [exists w => //; left | exists w' => //; right].
by move=> v [[_ [wv nv]] | [_ [wv nv]]]; rewrite geq_min; [rewrite h | rewrite h' // orbT].
Qed.

(* matrices without redundant checks: [n1, k1, d1] and [n2, k2, d2] codes give an
   [n1 n2 + (n1 - k1)(n2 - k2), k1 k2, min(d1, d2)] code *)
Theorem C84_parameters a b set_logicals ka kb da db : code_ok a -> code_ok b ->
  has_dim (cc_n a) (cc_mat a) ka -> has_dim (cc_n b) (cc_mat b) kb ->
  has_dim (size (cc_mat a)) (trl (cc_n a) (cc_mat a)) 0 -> has_dim (size (cc_mat b)) (trl (cc_n b) (cc_mat b)) 0 ->
  (0 < ka)%N -> (0 < kb)%N -> is_dist (cc_n a) (cc_mat a) da -> is_dist (cc_n b) (cc_mat b) db ->
  exists c, let n := (cc_n a * cc_n b + (cc_n a - ka) * (cc_n b - kb))%N in let A := css_mat n (c_x c) (c_z c) in
  [/\ hgp a b set_logicals = Some c, c_ok c, c_n c = n /\ counts n A (ka * kb) 0,
      is_tdist true n A db /\ is_tdist false n A da & is_qdist n A (minn db da)].
Proof.
move=> oka okb ha hb hat hbt ka0 kb0 hda hdb; have [wA _ _] := oka; have [wB _ _] := okb.
have [c [e okc [en _] _ cnt]] := C42_hgp_code set_logicals oka okb; exists c => n A.
have ea := proj1 (has_dimE _ wA) ha; have eb := proj1 (has_dimE _ wB) hb.
have rk m (H : seq vec) k : wf m H -> has_dim m H k -> has_dim (size H) (trl m H) 0 -> (m - k)%N = size H.
  move=> wH /(has_dimE _ wH) -> /(has_dimE _ (wf_trl _ _)); rewrite (sp_rank _ (size_trl m H)) (mx_trl _ (m := size H)) // mxrank_tr.
  rewrite -/(sp m H) subKn ?rank_leq_col // => h; apply/eqP; by rewrite eqn_leq rank_leq_row -subn_eq0 -h.
have en' : c_n c = n by rewrite en /n (rk _ _ _ wA ha hat) (rk _ _ _ wB hb hbt).
have [h1 _] := C84_distance_xz db oka okb e ha hb hat hbt; have [_ h2] := C84_distance_xz da oka okb e ha hb hat hbt.
have tx := proj2 h1 (min_one _ ka0 (isT : ~~ (0 < 0)%N) hdb); have tz := proj2 h2 (min_one _ kb0 (isT : ~~ (0 < 0)%N) hda).
have [_ wX wZ _ _] := okc; rewrite en' in tx tz wX wZ; split=> //; last exact: css_qdist.
by split=> //; have [_] := cnt _ _ _ _ ha hb hat hbt; rewrite muln0 addn0 en'.
Qed.

(* ... with redundant checks, the words of the transposed codes matter too *)
Theorem C84_redundant a b set_logicals ka kb kat kbt da db dat dbt : code_ok a -> code_ok b ->
  has_dim (cc_n a) (cc_mat a) ka -> has_dim (cc_n b) (cc_mat b) kb ->
  has_dim (size (cc_mat a)) (trl (cc_n a) (cc_mat a)) kat -> has_dim (size (cc_mat b)) (trl (cc_n b) (cc_mat b)) kbt ->
  (0 < ka)%N -> (0 < kb)%N -> (0 < kat)%N -> (0 < kbt)%N -> is_dist (cc_n a) (cc_mat a) da -> is_dist (cc_n b) (cc_mat b) db ->
  is_dist (size (cc_mat a)) (trl (cc_n a) (cc_mat a)) dat -> is_dist (size (cc_mat b)) (trl (cc_n b) (cc_mat b)) dbt ->
  exists c, let n := (cc_n a * cc_n b + size (cc_mat a) * size (cc_mat b))%N in let A := css_mat n (c_x c) (c_z c) in
  [/\ hgp a b set_logicals = Some c, c_ok c, c_n c = n /\ counts n A (ka * kb + kat * kbt) 0,
      is_tdist true n A (minn db dat) /\ is_tdist false n A (minn da dbt)
    & is_qdist n A (minn (minn db dat) (minn da dbt))].
Proof.
move=> oka okb ha hb hat hbt ka0 kb0 kat0 kbt0 hda hdb hdat hdbt.
have [c [e okc [en _] _ cnt]] := C42_hgp_code set_logicals oka okb; exists c => n A.
have [h1 _] := C84_distance_xz (minn db dat) oka okb e ha hb hat hbt; have [_ h2] := C84_distance_xz (minn da dbt) oka okb e ha hb hat hbt.
have tx := proj2 h1 (min_two ka0 kbt0 hdb hdat); have tz := proj2 h2 (min_two kb0 kat0 hda hdbt).
have [_ wX wZ _ _] := okc; rewrite en in tx tz wX wZ; split=> //; last exact: css_qdist.
by split=> //; have [_] := cnt _ _ _ _ ha hb hat hbt; rewrite en.
Qed.

(* a code without logical qudits has no nontrivial operators *)
Theorem C84_trivial a b set_logicals c ka kb kat kbt v : code_ok a -> code_ok b -> hgp a b set_logicals = Some c ->
  has_dim (cc_n a) (cc_mat a) ka -> has_dim (cc_n b) (cc_mat b) kb ->
  has_dim (size (cc_mat a)) (trl (cc_n a) (cc_mat a)) kat -> has_dim (size (cc_mat b)) (trl (cc_n b) (cc_mat b)) kbt ->
  (ka * kb + kat * kbt)%N = 0%N -> ~ nontrivial (c_n c) (css_mat (c_n c) (c_x c) (c_z c)) v.
Proof.
move=> oka okb e ha hb hat hbt k0; have [c' [e' okc _ _ cnt]] := C42_hgp_code set_logicals oka okb.
move: e'; rewrite e => -[ec]; subst c'; have [_ wX wZ _ _] := okc.
have [_] := cnt _ _ _ _ ha hb hat hbt; rewrite k0; exact: no_nontrivial (wf_css wX wZ).
Qed.

(* the product of two repetition codes: the surface code with rows * cols + (rows - 1)(cols - 1) qudits *)
Theorem C84_surface rows cols set_logicals : (0 < rows)%N -> (0 < cols)%N ->
  exists a b c, let n := (rows * cols + (rows - 1) * (cols - 1))%N in let A := css_mat n (c_x c) (c_z c) in
  [/\ repetition F rows = Some (a, Dist rows), repetition F cols = Some (b, Dist cols), hgp a b set_logicals = Some c,
      c_n c = n /\ counts n A 1 0
    & [/\ is_tdist true n A cols, is_tdist false n A rows & is_qdist n A (minn cols rows)]].
Proof.
move=> r0 k0; have [a [ea na oka [ha _] [da _]]] := C52_repetition F r0; have [b [eb nb okb [hb _] [db _]]] := C52_repetition F k0.
have full m (c0 : ccode F) : (0 < m)%N -> repetition F m = Some (c0, Dist m) -> has_dim m (cc_mat c0) 1 -> has_dim (size (cc_mat c0)) (trl m (cc_mat c0)) 0.
  case: m => // m _ [<-] /= hd; apply/(has_dimE _ (wf_trl _ _)).
  rewrite rank_trl; have sz := size_mkmat m m.+1 (fun i j : nat => if j == i.+1 then -1 else if j == i then 1 else 0 : F).
  move/(has_dimE _ (wf_mkmat _ _ _)): hd.
  have := rank_leq_col (sp m.+1 (mkmat m m.+1 (fun i j : nat => if j == i.+1 then -1 else if j == i then 1 else 0 : F))).
  by move: (\rank _) => rk; rewrite sz; clear; lia.
have fa := full _ _ r0 ea ha; have fb := full _ _ k0 eb hb; exists a, b; subst rows cols.
have [c [e okc h1 [h2 h3] h4]] := C84_parameters set_logicals oka okb ha hb fa fb isT isT da db.
by exists c; split.
Qed.

(* the product of two rings: the toric code *)
Theorem C84_toric rows cols set_logicals : (1 < rows)%N -> (1 < cols)%N ->
  exists c, let n := (rows * cols + rows * cols)%N in let A := css_mat n (c_x c) (c_z c) in
  [/\ hgp (ring_code F rows).1 (ring_code F cols).1 set_logicals = Some c, c_n c = n /\ counts n A 2 0,
      is_tdist true n A (minn cols rows), is_tdist false n A (minn rows cols) & is_qdist n A (minn rows cols)].
Proof.
move=> r1 k1; have [_ _ oka [ha _] [da _]] := C52_ring F r1; have [_ _ okb [hb _] [db _]] := C52_ring F k1.
have tr m (m1 : (1 < m)%N) : has_dim (size (cc_mat (ring_code F m).1)) (trl m (cc_mat (ring_code F m).1)) 1 /\
    is_dist (size (cc_mat (ring_code F m).1)) (trl m (cc_mat (ring_code F m).1)) m.
  have h w := @ring_words_t F _ w m1; have wt := wf_trl m (cc_mat (ring_code F m).1); move: h wt; rewrite /= size_mkmat => h wt.
  by have [_ h1 h2] := const_code (ltnW m1) wt h.
have [hat dat] := tr _ r1; have [hbt dbt] := tr _ k1.
have [c [e okc h1 [h2 h3] h4]] := C84_redundant set_logicals oka okb ha hb hat hbt isT isT isT isT da db dat dbt.
exists c; move: h1 h2 h3 h4; rewrite /= !size_mkmat !muln1 => h1 h2 h3 h4; split=> //.
by move: h4; rewrite [minn cols rows]minnC minnn.
Qed.
End Props.

(* hypotheses that are met, and values *)
Example ex_C84_toric : exists c, hgp (ring_code [fieldType of 'F_2] 3).1 (ring_code [fieldType of 'F_2] 4).1 true = Some c /\
  is_qdist 24 (css_mat 24 (c_x c) (c_z c)) 3.
Proof. by have [c [e _ _ _ h]] := @C84_toric [fieldType of 'F_2] 3 4 true isT isT; exists c. Qed.
Example ex_C84_surface : exists c, c_n c = 18%N /\ is_qdist 18 (css_mat 18 (c_x c) (c_z c) : seq (seq 'F_2)) 3.
Proof. by have [a [b [c [_ _ _ [e _] [_ _ h]]]]] := @C84_surface [fieldType of 'F_2] 3 4 true isT isT; exists c. Qed.

Print Assumptions C84_distance_xz.
Print Assumptions C84_parameters.
Print Assumptions C84_redundant.
Print Assumptions C84_trivial.
Print Assumptions C84_surface.
Print Assumptions C84_toric.
