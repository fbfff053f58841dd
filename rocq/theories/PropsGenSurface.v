(* Property C85: parameters of generalized surface codes. *)
From mathcomp Require Import all_ssreflect all_algebra zify.
From Verif Require Import LinAlg RowReduce Classical ClassicalProofs ClassicalDist Symplectic Quantum QuantumProofs Css CssForm CssLogs CssProofs
  CssGauge CssStack Product Families QuantumDist CssDist ShpDist HgpDist Chain ChainInst GenSurface.
Set Implicit Arguments.
Unset Strict Implicit.
Unset Printing Implicit Defensive.
Import GRing.Theory.
Local Open Scope ring_scope.

Section Spec.
Variable F : fieldType.
(* c is a stabilizer code on n qudits with k logical qudits; dx and dz are the least weights of nontrivial operators of one type,
   and the least weight of any nontrivial operator is the smaller one *)
Definition surface_params (n k dx dz : nat) (c : csscode F) : Prop :=
  let A := css_mat n (c_x c) (c_z c) in
  [/\ c_n c = n, counts n A k 0, is_tdist true n A dx, is_tdist false n A dz & is_qdist n A (minn dx dz)].
End Spec.

Section Props.
Variable F : fieldType.

Lemma from_core K n l1 (L : 'M[F]_(n, l1)) (a : 'rV[F]_n) (e f : 'M[F]_(K, l1)) (B : Chain.arr F) dim : (K <= 1)%N -> (1 < dim)%N ->
  link L a e f -> is_arr B L^T -> exists c, surface_chain B dim.-1 = Some c /\
  surface_params (n ^ dim + (dim - 1) * l1 ^ 2 * n ^ (dim - 2)) (1 + (dim - 1) * K) (n ^ (dim - 1)) n
    (mkcss (nc (op (0 : F) c 1)) (arr_mat (op 0 c 1)) (arr_mat (arr_T (op 0 c 2))) None).
Proof.
case: dim => [|[|d]] // K1 _ hl aB.
have [c [ec [c0 [c1 [c2 [D1 [D2 [Z [X [gz [h1 h2 h3 _ [_ e1]]]]]]]]]]]] := loop d.+1 K1 hl aB; exists c; split=> //.
have [tx tz cn] := core_dist h3 (ltn0Sn _) h1 h2; have [_ en _] := h1.
have [_ w1 _] := sp_arr h1; have [_ w2 _] := sp_arr (arr_Tr h2).
have ed : (n ^ d.+2 + (d.+2 - 1) * l1 ^ 2 * n ^ (d.+2 - 2))%N = c1 by rewrite e1 subSS subn0 subnS subSS subn0.
rewrite ed subSS subn0 en; split=> //; exact: css_qdist.
Qed.

Lemma params_dim n k dx dz (c : csscode F) : c_ok c -> surface_params n k dx dz c -> c_dimension c = k.
Proof.
move=> ok [en cn _ _ _]; have [_ wX wZ _ _] := ok; have cc := c_counts ok; rewrite en in wX wZ cc.
by have [] := counts_unique (wf_css wX wZ) cc cn.
Qed.

Lemma of_chain size dim (periodic : bool) ch (c : csscode F) : surface_code F size dim periodic = Some c ->
  surface_chain (if periodic then ring_arr F size else rep_arr F size) dim.-1 = Some ch ->
  mkcss (nc (op (0 : F) ch 1)) (arr_mat (op 0 ch 1)) (arr_mat (arr_T (op 0 ch 2))) None = c.
Proof. by rewrite /surface_code; case: ifP => // _; case: ifP => // _ + e; rewrite e => -[]. Qed.

(* open boundaries: one logical qudit, and distances size ^ (dim - 1) and size *)
Theorem C85_surface size dim : (0 < size)%N -> (1 < dim)%N ->
  exists c : csscode F, [/\ surface_code F size dim false = Some c, c_ok c, c_dimension c = 1%N
    & surface_params (size ^ dim + (dim - 1) * (size - 1) ^ 2 * size ^ (dim - 2)) 1 (size ^ (dim - 1)) size c].
Proof.
move=> s0 d1; have [|c [e ok _]] := @surface_code_ok F size dim false d1; first by rewrite s0.
exists c; case: size s0 e => // m _ e.
have aB : is_arr (rep_arr F m.+1) ((rep_mx F m)^T)^T by rewrite trmxK; exact: rep_is.
have [ch [ec]] := from_core (isT : (0 <= 1)%N) d1 (rep_link F m) aB; rewrite muln0 addn0.
have ecc := @of_chain _ _ false _ _ e ec; rewrite ecc [(m.+1 - 1)%N]subn1 => h; split=> //; exact: params_dim h.
Qed.

(* periodic boundaries: one logical qudit for every dimension of the lattice *)
Theorem C85_toric size dim : (1 < size)%N -> (1 < dim)%N ->
  exists c : csscode F, [/\ surface_code F size dim true = Some c, c_ok c, c_dimension c = dim
    & surface_params (dim * size ^ dim) dim (size ^ (dim - 1)) size c].
Proof.
move=> s1 d1; have [|c [e ok _]] := @surface_code_ok F size dim true d1; first by rewrite orbT.
exists c; case: size s1 e => [|[|m]] // _ e.
have aB : is_arr (ring_arr F m.+2) ((ring_mx F m.+2)^T)^T by rewrite trmxK; exact: ring_is.
have [ch [ec]] := from_core (isT : (1 <= 1)%N) d1 (ring_link F m) aB.
have -> : (m.+2 ^ dim + (dim - 1) * m.+2 ^ 2 * m.+2 ^ (dim - 2))%N = (dim * m.+2 ^ dim)%N.
  rewrite -mulnA -expnD (_ : (2 + (dim - 2))%N = dim) ?subnKC // -mulSn; congr muln; move: d1; clear; lia.
have -> : (1 + (dim - 1) * 1)%N = dim by rewrite muln1 subnKC // ltnW.
have ecc := @of_chain _ _ true _ _ e ec; rewrite ecc => h; split=> //; exact: params_dim h.
Qed.

(* a ring of one site has an invertible parity check matrix: no logical qudits *)
Theorem C85_single_site dim : (1 < dim)%N ->
  exists c : csscode F, [/\ surface_code F 1 dim true = Some c, c_ok c & c_dimension c = 0%N].
Proof.
move=> d1; have [|c [e ok _]] := @surface_code_ok F 1 dim true d1; first by rewrite orbT.
exists c; split=> //; have aB : is_arr (ring_arr F 1) ((ring_mx F 1)^T)^T by rewrite trmxK; exact: ring_is.
have u : (ring_mx F 1)^T \in unitmx.
  have -> : (ring_mx F 1)^T = - 1%:M by apply/matrixP => i j; rewrite (ord1 i) (ord1 j) !mxE.
  by rewrite -scaleN1r unitmxZ ?unitmx1 // unitrN unitr1.
have [ch [ec [c0 [c1 [c2 [D1 [D2 [h1 h2 h3 _ _]]]]]]]] := exact_loop dim.-1 u aB.
have cn := exact_counts h3 h1 h2; have [_ en _] := h1.
have ecc := @of_chain _ _ true _ _ e ec; have cc := c_counts ok.
have [_ wX wZ _ _] := ok; move: cn; rewrite -en => cn; rewrite -ecc in wX wZ cc *.
by have [] := counts_unique (wf_css wX wZ) cc cn.
Qed.

(* the size has to be positive, and the lattice at least two-dimensional *)
Theorem C85_none size dim periodic : surface_code F size dim periodic = None <-> (dim <= 1)%N \/ (size = 0%N /\ periodic = false).
Proof.
split=> [|[d1|[-> ->]]]; last 2 first.
- by rewrite /surface_code ltnS d1.
- by rewrite /surface_code; case: ifP.
case: (leqP dim 1) => [|d1]; first by left.
case hs: ((0 < size)%N || periodic).
  by have [c [-> _]] := @surface_code_ok F _ _ _ d1 hs.
by move/norP: (negbT hs) => [] /negbTE + /negbTE; case: (size) => // _ ->; right.
Qed.

(* the stored distances are those of the code, and are what the code reports *)
Theorem C85_stored size dim (periodic : bool) be el : (periodic < size)%N -> (1 < dim)%N ->
  exists c : csscode F, let st := surface_state size dim c in
  [/\ surface_code F size dim periodic = Some c, dstate_ok c st, (c_if_known c st (Some true)).1 = Some (Dist (size ^ (dim - 1))),
      (c_if_known c st (Some false)).1 = Some (Dist size) & c_exact be el c st None = Some (Dist size, st)].
Proof.
move=> s1 d1.
have [c [n [k [e ok ek k0 [en _ tx tz td]]]]] : exists c n k, [/\ surface_code F size dim periodic = Some c, c_ok c, c_dimension c = k, (0 < k)%N
    & surface_params n k (size ^ (dim - 1)) size c].
  case: periodic s1 => s1; [have [c [e ok ek h]] := C85_toric s1 d1 | have [c [e ok ek h]] := C85_surface s1 d1];
  by exists c; do 2!eexists; split; first exact: e; last exact: h; rewrite // ltnW.
have mn : minn (size ^ (dim - 1)) size = size.
  apply/minn_idPr; rewrite -{1}[size]expn1 leq_pexp2l ?subn_gt0 //; exact: leq_ltn_trans (leq0n _) s1.
have kn : (c_dimension c == 0%N) = false by rewrite ek; case: (k) k0.
exists c => st; rewrite /c_exact /c_if_known kn /st /surface_state /= mn; split=> //.
have [_ _ _ h4] := @fresh_ok F c false ok (fun f => match Bool.diff_false_true f with end).
by split=> //=; rewrite /c_mat en // -mn.
Qed.

(* ... while a code without logical qudits reports no distance *)
Theorem C85_single_site_distance dim be el pauli : (1 < dim)%N -> exists c : csscode F, surface_code F 1 dim true = Some c /\
  exists st, c_exact be el c (surface_state 1 dim c) pauli = Some (NaN, st).
Proof. by move=> d1; have [c [e _ k0]] := C85_single_site d1; exists c; split=> //; apply: exact_trivial. Qed.
End Props.

(* hypotheses that are met, and values *)
Example ex_C85_surface : exists c : csscode [fieldType of 'F_3], surface_code _ 3 3 false = Some c /\ surface_params 51 1 9 3 c.
Proof. have [c [e _ _ h]] := @C85_surface [fieldType of 'F_3] 3 3 isT isT; exists c; split; [exact: e | exact: h]. Qed.
Example ex_C85_toric : exists c : csscode [fieldType of 'F_2], surface_code _ 3 4 true = Some c /\ surface_params 324 4 27 3 c.
Proof. have [c [e _ _ h]] := @C85_toric [fieldType of 'F_2] 3 4 isT isT; exists c; split; [exact: e | exact: h]. Qed.
Example ex_C85_value : if surface_code [fieldType of 'F_2] 2 3 true is Some c then (c_n c == 24%N) && (c_dimension c == 3%N) else false.
Proof. by vm_compute. Qed.
Example ex_C85_open : if surface_code [fieldType of 'F_3] 2 3 false is Some c then (c_n c == 12%N) && (c_dimension c == 1%N) else false.
Proof. by vm_compute. Qed.
Example ex_C85_none : surface_code [fieldType of 'F_2] 0 3 false = None. Proof. by apply/C85_none; right. Qed.
Example ex_C85_site : if surface_code [fieldType of 'F_2] 1 3 true is Some c then (c_n c == 3%N) && (c_dimension c == 0%N) else false.
Proof. by vm_compute. Qed.

Print Assumptions C85_surface.
Print Assumptions C85_toric.
Print Assumptions C85_single_site.
Print Assumptions C85_none.
Print Assumptions C85_stored.
Print Assumptions C85_single_site_distance.
