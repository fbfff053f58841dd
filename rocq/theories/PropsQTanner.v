(* C54: quantum Tanner codes. *)
From mathcomp Require Import all_ssreflect all_algebra zify.
From Verif Require Import LinAlg RowReduce Kron Classical ClassicalProofs ClassicalProofs2 TannerCode Symplectic Quantum Css CssGauge PermGroup SymSubset QTanner QTannerProofs.
From Verif Require Import PropsGroup PropsLifted.
Set Implicit Arguments.
Unset Strict Implicit.
Unset Printing Implicit Defensive.
Import GRing.Theory.
Local Open Scope ring_scope.

Section Props.
Variable F : fieldType.
(* popn: the member taken by set.pop(); iter: the order in which python iterates over a set *)
Variables (popn : seq perm -> nat) (iter : seq perm -> seq perm).
Hypothesis iterP : forall s, perm_eq (iter s) s.

Definition code_b (ca : ccode F) (cb : option (ccode F)) : ccode F := if cb is Some c then c else dual ca.

Lemma init_cases G A B (ca : ccode F) cb bip fuel c : qt_init popn iter G A B ca cb bip fuel = Some c ->
  [/\ forall a, a \in undup A -> pinv a \in undup A, forall b, b \in undup B -> pinv b \in undup B,
      bip -> no_conjugacy G (undup A) (undup B) &
      qt_code popn iter (undup A) (undup B) ca (code_b ca cb) bip fuel = Some c].
Proof.
rewrite /qt_init; have -> : (if cb is Some c then Some c else if size A == size B then Some (dual ca) else None) =
  (if isSome cb || (size A == size B) then Some (code_b ca cb) else None) by case: cb.
case: ifP => // _; case: ifP => // /and3P [/allP h1 /allP h2 /implyP h3] hq; split=> //.
- by move=> a; rewrite !mem_undup; exact: h1.
- by move=> a; rewrite !mem_undup; exact: h2.
move=> /h3 /allP h; apply/allP => g /h /allP hg; apply/allP => a; rewrite mem_undup => /hg /allP ha.
by apply/allP => b; rewrite mem_undup; exact: ha.
Qed.

(* C54: when the local codes have as many bits as the subsets have members, every QTCode that is built is a valid stabilizer
   code: each X check is orthogonal to each Z check.  G is the group that the subsets generate, or a larger one *)
Theorem C54_commute n G (A B : seq perm) (ca : ccode F) cb bip fuel c :
  grp_ok n G -> {subset A <= G} -> {subset B <= G} -> code_ok ca -> code_ok (code_b ca cb) ->
  cc_n ca = size (undup A) -> cc_n (code_b ca cb) = size (undup B) ->
  qt_init popn iter G A B ca cb bip fuel = Some c ->
  [/\ c_ok c, c_sub c = false & orthogonal (c_x c) (c_z c)].
Proof.
move=> gG AG BG oka okb na nb /init_cases [sA sB tnc hq].
have AG' : {subset undup A <= G} by move=> x; rewrite mem_undup; exact: AG.
have BG' : {subset undup B <= G} by move=> x; rewrite mem_undup; exact: BG.
have [gs [p0 [x [z [_ _ _ -> [en wx wz h]]]]]] :=
  qt_ok gG (undup_uniq A) (undup_uniq B) AG' BG' sA sB tnc iterP oka okb na nb hq.
have orth : orthogonal (cc_mat x) (cc_mat z).
  by move=> r s hr hs; rewrite (dotE (n := cc_n x)) ?h //; [exact: (wfP _ _ wx) | rewrite en; exact: (wfP _ _ wz)].
rewrite en in wx h; rewrite en; split=> //; apply: c_ok_mk => // _.
by apply/(css_commP wx wz)/(commuting_orthogonal wx wz).
Qed.

(* an array with |A| rows and |B| columns, flattened, all of whose columns are words of ca and all of whose rows are words of cb *)
Definition tensor_word (ca cb : ccode F) (y : seq F) : Prop :=
  [/\ size y = (cc_n ca * cc_n cb)%N,
      forall j, (j < cc_n cb)%N -> is_word (cc_n ca) (cc_mat ca) [seq nth 0 y (i * cc_n cb + j) | i <- iota 0 (cc_n ca)]
    & forall i, (i < cc_n ca)%N -> is_word (cc_n cb) (cc_mat cb) [seq nth 0 y (i * cc_n cb + j) | j <- iota 0 (cc_n cb)]].
Definition orth_to_tensor (ca cb : ccode F) (v : seq F) : Prop :=
  forall y, tensor_word ca cb y -> \sum_(k < cc_n ca * cc_n cb) nth 0 v k * nth 0 y k = 0.

Lemma sub_wordsP (ca cb : ccode F) v : code_ok ca -> code_ok cb -> size v = (cc_n ca * cc_n cb)%N ->
  is_word (cc_n ca * cc_n cb) (cc_mat (dual (tensor_product ca cb))) v <-> orth_to_tensor ca cb v.
Proof.
move=> oka okb sv; rewrite (dual_words_ok (tensor_ok oka okb)) //; split=> h y.
  by move=> [sy c r]; apply: h; apply/(tensor_words oka okb sy).
by move=> hy; apply: h; have [sy _] := hy; have [c r] := proj1 (tensor_words oka okb sy) hy.
Qed.

(* the structure of the code.  Vx and Vz are the nodes that carry X and Z checks; the qubits are numbered by the faces
   {g, ag, gb, agb}; w commutes with the X checks iff its restriction to the faces at each node of Vx, listed by the ranks of a
   and b, is orthogonal to the tensor product of the local codes, and with the Z checks iff its restriction to the faces at each
   node of Vz is orthogonal to the tensor product of their duals *)
Theorem C54_local n G (A B : seq perm) (ca : ccode F) cb bip fuel c :
  grp_ok n G -> {subset A <= G} -> {subset B <= G} -> code_ok ca -> code_ok (code_b ca cb) ->
  cc_n ca = size (undup A) -> cc_n (code_b ca cb) = size (undup B) ->
  qt_init popn iter G A B ca cb bip fuel = Some c ->
  exists (Vx Vz : seq perm) (num : perm -> perm -> perm -> nat),
    let A' := cover_a bip (undup A) in let B' := cover_b bip (undup B) in let cb' := code_b ca cb in
    let view (w : seq F) (g : perm) := [seq nth 0 w (num g (nth [::] (sort ple A') (k %/ cc_n cb')%N)
      (nth [::] (sort ple B') (k %% cc_n cb')%N)) | k <- iota 0 (cc_n ca * cc_n cb')] in
  [/\ [/\ exists m, pid m \in Vx, forall g a b, g \in Vx -> a \in A' -> b \in B' -> pmul (pmul a g) b \in Vx
        & forall h, h \in Vz <-> exists a g, [/\ a \in A', g \in Vx & h = pmul a g]],
      (forall g a b, g \in Vx ++ Vz -> a \in A' -> b \in B' -> (num g a b < c_n c)%N) /\
      (forall j, (j < c_n c)%N -> exists g a b, [/\ g \in Vx, a \in A', b \in B' & num g a b = j]),
      forall g a b g' a' b', g \in Vx ++ Vz -> a \in A' -> b \in B' -> g' \in Vx ++ Vz -> a' \in A' -> b' \in B' ->
        num g a b = num g' a' b' <-> [:: g; pmul a g; pmul g b; pmul (pmul a g) b] =i [:: g'; pmul a' g'; pmul g' b'; pmul (pmul a' g') b'],
      forall w, size w = c_n c -> (forall r, r \in c_x c -> dot r w = 0) <->
        forall g, g \in Vx -> orth_to_tensor ca cb' (view w g)
    & forall w, size w = c_n c -> (forall r, r \in c_z c -> dot r w = 0) <->
        forall g, g \in Vz -> orth_to_tensor (dual ca) (dual cb') (view w g)].
Proof.
move=> gG AG BG oka okb na nb /init_cases [sA sB tnc hq].
have AG' : {subset undup A <= G} by move=> x; rewrite mem_undup; exact: AG.
have BG' : {subset undup B <= G} by move=> x; rewrite mem_undup; exact: BG.
have [Vx [Vz [num [[h1 h2 h3] h4 h5 h6 h7]]]] :=
  qt_local gG (undup_uniq A) (undup_uniq B) AG' BG' sA sB tnc iterP oka okb na nb hq.
exists Vx, Vz, num; cbv zeta; split=> //.
- by split=> //; eexists; exact: h1.
- move=> w sw; rewrite (h6 w sw); split=> h g hg.
    by apply/(sub_wordsP oka okb); rewrite ?size_map ?size_iota //; apply: h.
  by apply/(sub_wordsP oka okb); rewrite ?size_map ?size_iota //; apply: h.
move=> w sw; rewrite (h7 w sw); split=> h g hg.
  by apply/(sub_wordsP (dual_ok oka) (dual_ok okb)); rewrite ?size_map ?size_iota //; apply: h.
by apply/(sub_wordsP (dual_ok oka) (dual_ok okb)); rewrite ?size_map ?size_iota //; apply: h.
Qed.

(* symmetric subsets, without conjugates if the complex is bipartite, and local codes of the right lengths are accepted: the loop
   over the nodes ends *)
Theorem C54_accepted n G (A B : seq perm) (ca : ccode F) cb (bip : bool) :
  grp_ok n G -> {subset A <= G} -> {subset B <= G} -> code_ok ca -> code_ok (code_b ca cb) ->
  cc_n ca = size (undup A) -> cc_n (code_b ca cb) = size (undup B) ->
  A <> [::] -> (cb = None -> size A = size B) ->
  (forall a, a \in A -> pinv a \in A) -> (forall b, b \in B -> pinv b \in B) ->
  (bip -> forall g a b, g \in G -> a \in A -> b \in B -> pmul a g <> pmul g b) ->
  exists c, qt_init popn iter G A B ca cb bip (4 * size G).+1 = Some c.
Proof.
move=> gG AG BG oka okb na nb ne hs sA sB tnc.
have AG' : {subset undup A <= G} by move=> x; rewrite mem_undup; exact: AG.
have BG' : {subset undup B <= G} by move=> x; rewrite mem_undup; exact: BG.
have sA' a : a \in undup A -> pinv a \in undup A by rewrite !mem_undup; exact: sA.
have sB' a : a \in undup B -> pinv a \in undup B by rewrite !mem_undup; exact: sB.
have tnc' : bip -> no_conjugacy G (undup A) (undup B).
  move=> hb; apply/allP => g hg; apply/allP => a; rewrite mem_undup => ha; apply/allP => b; rewrite mem_undup => hb'.
  by apply/eqP; exact: tnc.
have [||c e] := @qt_some F n G bip (undup A) (undup B) ca (code_b ca cb) popn iter (4 * size G).+1
  gG (undup_uniq A) (undup_uniq B) AG' BG' sA' sB' tnc' iterP oka okb na nb.
- rewrite /cover_group /gprod size_allpairs ltnS mulnC leq_mul2r.
  by case: (bip); rewrite orbT.
- by case: (A) ne => // x s _; rewrite /=; case: ifP => // h e; move: h; rewrite -mem_undup e.
exists c; rewrite /qt_init; have -> : (if cb is Some c then Some c else if size A == size B then Some (dual ca) else None) =
  Some (code_b ca cb) by case: cb hs {okb nb e} => // -> //; rewrite eqxx.
have -> : complex_ok G A B bip.
  apply/and3P; split; [exact/allP | exact/allP | apply/implyP => hb].
  by apply/allP => g hg; apply/allP => a ha; apply/allP => b hb'; apply/eqP; exact: tnc.
exact: e.
Qed.
End Props.

(* ------------------------------------------------------------------------------------------------------------------------ *)
(* the lengths of the local codes are only checked through their product: with a subset of one member and one of four, and two
   repetition codes of length two, a QTCode is built (and declared to be a stabilizer code), and its checks do not commute *)
Definition V4 : group := [:: [:: 0; 1; 2; 3]; [:: 1; 0; 3; 2]; [:: 2; 3; 0; 1]; [:: 3; 2; 1; 0]]%N.
Definition rep2 : ccode F2 := mkcode 2 [:: [:: 1; 1]].
Definition some_code (o : option (csscode F2)) : csscode F2 := if o is Some c then c else mkcss 0 [::] [::] None.
Theorem C54_lengths_refuted : exists (n : nat) (G : group) (A B : seq perm) (ca cb : ccode F2) (popn : seq perm -> nat)
    (iter : seq perm -> seq perm) (fuel : nat) (c : csscode F2),
  [/\ [/\ grp_ok n G, {subset A <= G} & {subset B <= G}], (uniq A /\ uniq B) /\ (code_ok ca /\ code_ok cb), forall s, perm_eq (iter s) s,
      qt_init popn iter G A B ca (Some cb) false fuel = Some c & c_sub c = false /\ ~ orthogonal (c_x c) (c_z c)].
Proof.
exists 4%N, V4, [:: [:: 0; 1; 2; 3]]%N, V4, rep2, rep2, (fun=> 0%N), id, 40%N.
exists (some_code (qt_init (fun=> 0%N) id V4 [:: [:: 0; 1; 2; 3]]%N V4 rep2 (Some rep2) false 40)); split.
- split; [by apply: grp_okP; vm_compute | by move=> x; rewrite inE => /eqP -> | by []].
- by split; split=> //; apply: mkcode_ok.
- by [].
- have : isSome (qt_init (fun=> 0%N) id V4 [:: [:: 0; 1; 2; 3]]%N V4 rep2 (Some rep2) false 40) by vm_compute.
  by move: (qt_init _ _ _ _ _ _ _ _ _) => -[].
split; first by vm_compute.
set c := some_code _; have : ~~ all (fun r => all (fun s => dot r s == 0) (c_z c)) (c_x c) by vm_compute.
move: (c) => {c} c /negP h o; apply: h; apply/allP => r hr; apply/allP => s hs; apply/eqP; exact: o.
Qed.

(* non-vacuity *)
Definition Z3 : group := [:: [:: 0; 1; 2]; [:: 1; 2; 0]; [:: 2; 0; 1]]%N.
Definition gens : seq perm := [:: [:: 1; 2; 0]; [:: 2; 0; 1]]%N.
Definition ex_qt := qt_init (fun=> 0%N) id Z3 gens gens rep2 None false 40.
Example ex_hyps : grp_ok 3 Z3 /\ code_ok rep2 /\ code_ok (dual rep2) /\ cc_n rep2 = size (undup gens).
Proof. by split; [apply: grp_okP; vm_compute | split; [apply: mkcode_ok | split; [apply: dual_ok; apply: mkcode_ok |]]]. Qed.
Example ex_accepted : exists2 c, ex_qt = Some c & (c_n c, size (c_x c), size (c_z c)) = (12, 6, 6)%N.
Proof.
have : isSome ex_qt && ((fun c => (c_n c, size (c_x c), size (c_z c))) (some_code ex_qt) == (12, 6, 6)%N) by vm_compute.
by move: ex_qt => -[c /eqP e|//]; exists c.
Qed.
(* a bipartite one: the subsets have no conjugates in common *)
Definition S3r : seq perm := [:: [:: 1; 0; 2]; [:: 0; 2; 1]; [:: 2; 1; 0]]%N.
Example ex_bipartite : complex_ok S3 S3r gens true. Proof. by vm_compute. Qed.
Example ex_not_symmetric : qt_init (fun=> 0%N) id Z3 [:: [:: 1; 2; 0]]%N gens rep2 None false 40 = None. Proof. by []. Qed.

Print Assumptions C54_commute.
Print Assumptions C54_local.
Print Assumptions C54_accepted.
Print Assumptions C54_lengths_refuted.
