(* Weights of parity checks: model of qldpc/codes/common.py:296-298 (ClassicalCode.get_weight) and 870-874 (QuditCode.get_weight), and
   proofs about hypergraph product and bivariate bicycle codes. *)
From mathcomp Require Import all_ssreflect all_algebra zify ring.
From Verif Require Import LinAlg RowReduce Kron Classical Symplectic Quantum QuantumProofs.
From Verif Require Import Css CssProofs Product PermGroup Abelian GroupRing RingArray BBLayout QCPoly QuasiCyclic ToricLayout BBConnect.
Set Implicit Arguments.
Unset Strict Implicit.
Unset Printing Implicit Defensive.
Import GRing.Theory Num.Theory.
Local Open Scope ring_scope.

(* ============================================================================== model *)
(* np.max of an array of natural numbers (external); None is the ValueError for an empty array *)
Definition npmax (s : seq nat) : option nat := if nilp s then None else Some (foldr maxn 0%N s).
Section Model.
Variable F : fieldType.
(* common.py:296-298: ClassicalCode.get_weight *)
Definition c_get_weight (A : mat F) : option nat := npmax [seq hwt r | r <- A].
(* common.py:870-874: QuditCode.get_weight of a matrix with n + n columns; the bitwise or of two integers is zero only if both
   are *)
Definition q_row_weight (n : nat) (r : vec F) : nat :=
  count (fun p : F * F => (p.1 != 0) || (p.2 != 0)) (zip (take n r) (drop n r)).
Definition q_get_weight (n : nat) (A : mat F) : option nat := npmax [seq q_row_weight n r | r <- A].
End Model.

(* ====================================================================== specification *)
(* the number of bits that a check addresses, and of qudits on which a Pauli operator is not the identity *)
Definition bits_of (F : fieldType) (n : nat) (A : mat F) (i : nat) : nat := #|[set j : 'I_n | ent A i j != 0]|.
Definition qudits_of (F : fieldType) (n : nat) (A : mat F) (i : nat) : nat :=
  #|[set j : 'I_n | (ent A i j != 0) || (ent A i (n + j)%N != 0)]|.
(* w is the largest of the values f i for i < m *)
Definition largest (m : nat) (f : nat -> nat) (w : nat) : Prop :=
  (exists2 i, (i < m)%N & f i = w) /\ forall i, (i < m)%N -> (f i <= w)%N.

(* ============================================================================= proofs *)
Lemma foldr_maxP s x : x \in s -> (x <= foldr maxn 0%N s)%N.
Proof. by elim: s => //= y s IH; rewrite inE => /orP [/eqP -> | /IH h]; rewrite leq_max ?leqnn // h orbT. Qed.
Lemma foldr_max_in s : ~~ nilp s -> foldr maxn 0%N s \in s.
Proof.
elim: s => //= x [_ _ | y s IH _] /=; first by rewrite maxn0 mem_head.
have {IH} := IH isT; rewrite /maxn; case: ifP => _ h; by rewrite inE ?h ?eqxx ?orbT.
Qed.
Lemma npmaxP s w : npmax s = Some w <-> largest (size s) (nth 0%N s) w.
Proof.
rewrite /npmax; split.
  case: ifP => // /negbT n0 [<-]; split; last by move=> i hi; apply: foldr_maxP; apply: mem_nth.
  by have /(nthP 0%N) [i hi e] := foldr_max_in n0; exists i.
case=> -[i hi e] h; case: nilP => [e0 | /nilP n0]; first by rewrite e0 in hi.
congr Some; apply/eqP; rewrite eqn_leq -{2}e foldr_maxP ?mem_nth // andbT.
by have /(nthP 0%N) [j hj <-] := foldr_max_in n0; apply: h.
Qed.
Lemma largest_eq m f g w : (forall i, (i < m)%N -> f i = g i) -> largest m f w <-> largest m g w.
Proof.
by move=> e; split=> -[[i hi <-] h]; split; [exists i => //; rewrite e | move=> j hj; rewrite -e ?h //
  | exists i => //; rewrite -e | move=> j hj; rewrite e ?h //].
Qed.

Section Rows.
Variable F : fieldType.
Implicit Types (u v r : vec F) (A B : mat F).

Lemma count_card n (P : nat -> bool) : count P (iota 0 n) = #|[set j : 'I_n | P j]|.
Proof.
rewrite -sum1_card -sum1_count -{1}[n]subn0 -/(index_iota 0 n) big_mkord.
by apply: eq_bigl => j; rewrite inE.
Qed.
Lemma hwt_card n r : size r = n -> hwt r = #|[set j : 'I_n | nth 0 r j != 0]|.
Proof.
move=> sr; rewrite -(count_card n (fun j => nth 0 r j != 0)) /hwt -{1}(mkseq_nth 0 r) sr count_map.
by apply: eq_count.
Qed.
Lemma q_row_card n r : size r = (n + n)%N -> q_row_weight n r = #|[set j : 'I_n | (nth 0 r j != 0) || (nth 0 r (n + j)%N != 0)]|.
Proof.
move=> sr; rewrite -(count_card n (fun j => (nth 0 r j != 0) || (nth 0 r (n + j)%N != 0))) /q_row_weight.
have s1 : size (take n r) = n by rewrite size_takel // sr leq_addr.
have s2 : size (drop n r) = n by rewrite size_drop sr addnK.
have -> : zip (take n r) (drop n r) = mkseq (fun j => (nth 0 r j, nth 0 r (n + j)%N)) n.
  apply: (@eq_from_nth _ (0, 0)); first by rewrite size_zip s1 s2 minnn size_mkseq.
  move=> j; rewrite size_zip s1 s2 minnn => hj; rewrite nth_zip ?s1 ?s2 // nth_mkseq //.
  by rewrite nth_take // nth_drop.
by rewrite count_map; apply: eq_count.
Qed.
Lemma hwt_cat u v : hwt (u ++ v) = (hwt u + hwt v)%N. Proof. exact: count_cat. Qed.
Lemma hwt_opp u : hwt (vopp u) = hwt u.
Proof. by rewrite /hwt count_map; apply: eq_count => x /=; rewrite oppr_eq0. Qed.
Lemma hwt_kron u v : hwt (vkron u v) = (hwt u * hwt v)%N.
Proof.
elim: u => [//|x u IH]; rewrite /vkron /= -/(vkron u v) hwt_cat IH mulnDl; congr (_ + _)%N.
rewrite /hwt count_map; case: (x =P 0) => [-> | /eqP nx] /=.
  by rewrite mul0n (eq_count (a2 := pred0)) ?count_pred0 // => y /=; rewrite mul0r eqxx.
by rewrite mul1n; apply: eq_count => y /=; rewrite mulf_eq0 (negbTE nx).
Qed.
Lemma hwt_idl n i : (i < n)%N -> hwt (nth [::] (idl F n) i) = 1%N.
Proof.
move=> hi; have si : size (nth [::] (idl F n) i) = n by rewrite (@wf_nth _ n) ?wf_idl ?size_mkmat.
rewrite (hwt_card si); apply/eqP/cards1P; exists (Ordinal hi); apply/setP => j; rewrite !inE.
have -> : nth 0 (nth [::] (idl F n) i) j = (i == j)%:R by rewrite /idl /mkmat !nth_mkseq.
have -> : (j == Ordinal hi) = (i == j :> nat) by rewrite -val_eqE eq_sym.
by case: (i == j :> nat); rewrite ?oner_eq0 ?eqxx.
Qed.
Lemma q_row_x n r : size r = n -> q_row_weight n (r ++ nseq n 0) = hwt r.
Proof.
move=> sr; rewrite /q_row_weight -sr take_size_cat // drop_size_cat // {sr}.
by elim: r => //= x r ->; rewrite eqxx orbF.
Qed.
Lemma q_row_z n r : size r = n -> q_row_weight n (nseq n 0 ++ r) = hwt r.
Proof.
move=> sr; rewrite /q_row_weight take_size_cat ?size_nseq // drop_size_cat ?size_nseq // -sr {sr}.
by elim: r => //= x r ->; rewrite eqxx.
Qed.
Lemma q_weight_css n (X Z : mat F) : wf n X -> wf n Z -> q_get_weight n (css_mat n X Z) = npmax ([seq hwt r | r <- X] ++ [seq hwt r | r <- Z]).
Proof.
move=> /allP wX /allP wZ; rewrite /q_get_weight /css_mat /bdiag map_cat -!map_comp; congr (npmax (_ ++ _)); apply/eq_in_map => r hr /=.
  by apply: q_row_x; apply/eqP/wX.
by apply: q_row_z; apply/eqP/wZ.
Qed.
Lemma npmax_cat s t w w' : npmax s = Some w -> npmax t = Some w' -> npmax (s ++ t) = Some (maxn w w').
Proof.
rewrite /npmax; case: ifP => // n1 [<-]; case: ifP => // n2 [<-]; rewrite ifF; last by case: s n1.
congr Some; rewrite foldr_cat; elim: s {n1} => [|x s IH] /=; first by rewrite max0n.
by rewrite IH maxnA.
Qed.
Lemma npmax_pairs (s t : seq nat) w w' k : (0 < size t)%N -> npmax s = Some w -> npmax t = Some w' -> k = (size s * size t)%N ->
  npmax (mkseq (fun i => nth 0%N s (i %/ size t) + nth 0%N t (i %% size t))%N k) = Some (w + w')%N.
Proof.
move=> t0 /npmaxP [[i hi ei] hs] /npmaxP [[j hj ej] ht] ->; apply/npmaxP; rewrite size_mkseq; split.
  have lt : (i * size t + j < size s * size t)%N.
    by apply: (@leq_trans (i.+1 * size t)%N); [rewrite mulSn addnC ltn_add2r | rewrite leq_mul2r hi orbT].
  by exists (i * size t + j)%N => //; rewrite nth_mkseq // divnMDl // (divn_small hj) addn0 modnMDl (modn_small hj) ei ej.
move=> x hx; rewrite nth_mkseq // leq_add //; first by apply: hs; rewrite ltn_divLR.
by apply: ht; rewrite ltn_mod.
Qed.
Lemma nth_hcat A B i : size A = size B -> (i < size A)%N -> nth [::] (hcat A B) i = nth [::] A i ++ nth [::] B i.
Proof. by move=> e hi; rewrite /hcat (nth_map ([::], [::])) ?size_zip -?e ?minnn // nth_zip. Qed.

Lemma hgp_x_weights n1 n2 A B : wf n1 A -> wf n2 B ->
  [seq hwt r | r <- hgp_x n1 n2 A B] = let s := [seq hwt r | r <- A] in let t := [seq hwt r | r <- trl n2 B] in
  mkseq (fun i => nth 0%N s (i %/ size t) + nth 0%N t (i %% size t))%N (size s * size t).
Proof.
move=> wA wB; cbv zeta; set s := [seq hwt r | r <- A]; set t := [seq hwt r | r <- trl n2 B].
have st : size t = n2 by rewrite size_map size_trl.
have ss : size s = size A by rewrite size_map.
have e1 : size (kron A (idl F n2)) = (size A * n2)%N by rewrite size_kron size_mkmat.
have e2 : size (kron (idl F (size A)) (trl n2 B)) = (size A * n2)%N by rewrite size_kron size_mkmat size_trl.
have sz : size (hgp_x n1 n2 A B) = (size A * n2)%N by rewrite size_hcat // e1 e2.
apply: (@eq_from_nth _ 0%N); first by rewrite size_map size_mkseq sz ss st.
move=> i; rewrite size_map sz => hi; rewrite nth_mkseq ?ss ?st // (nth_map [::]) ?sz //.
have n20 : (0 < n2)%N by case: (n2) hi; rewrite ?muln0.
have d1 : (i %/ n2 < size A)%N by rewrite ltn_divLR.
have d2 : (i %% n2 < n2)%N by rewrite ltn_mod.
rewrite nth_hcat ?e1 ?e2 // hwt_cat (@nth_kron _ n2) ?wf_idl ?size_mkmat //.
rewrite (@nth_kron _ (size B)) ?wf_trl ?size_mkmat ?size_trl // !hwt_kron !hwt_idl // muln1 mul1n.
by rewrite /s /t !(nth_map [::]) ?size_trl.
Qed.
Lemma hgp_z_weights n1 n2 A B : wf n1 A -> wf n2 B ->
  [seq hwt r | r <- hgp_z n1 n2 A B] = let s := [seq hwt r | r <- trl n1 A] in let t := [seq hwt r | r <- B] in
  mkseq (fun i => nth 0%N s (i %/ size t) + nth 0%N t (i %% size t))%N (size s * size t).
Proof.
move=> wA wB; cbv zeta; set s := [seq hwt r | r <- trl n1 A]; set t := [seq hwt r | r <- B].
have st : size t = size B by rewrite size_map.
have ss : size s = n1 by rewrite size_map size_trl.
have e1 : size (mopp (kron (idl F n1) B)) = (n1 * size B)%N by rewrite size_mopp size_kron size_mkmat.
have e2 : size (kron (trl n1 A) (idl F (size B))) = (n1 * size B)%N by rewrite size_kron size_mkmat size_trl.
have sz : size (hgp_z n1 n2 A B) = (n1 * size B)%N by rewrite size_hcat // e1 e2.
apply: (@eq_from_nth _ 0%N); first by rewrite size_map size_mkseq sz ss st.
move=> i; rewrite size_map sz => hi; rewrite nth_mkseq ?ss ?st // (nth_map [::]) ?sz //.
have m20 : (0 < size B)%N by case: (size B) hi; rewrite ?muln0.
have d1 : (i %/ size B < n1)%N by rewrite ltn_divLR.
have d2 : (i %% size B < size B)%N by rewrite ltn_mod.
rewrite nth_hcat ?e1 ?e2 // hwt_cat /mopp (nth_map [::]) ?hwt_opp; last by rewrite size_kron size_mkmat.
rewrite (@nth_kron _ n2) ?wf_idl ?size_mkmat // (@nth_kron _ (size B)) ?wf_idl ?size_mkmat ?size_trl //.
rewrite !hwt_kron !hwt_idl // muln1 mul1n addnC.
by rewrite /s /t !(nth_map [::]) ?size_trl.
Qed.
End Rows.

Section Bicycle.
Variables (F : fieldType) (fld : int -> F) (ra rb : nat).
Hypotheses (f0 : fld 0 = 0) (ra0 : (0 < ra)%N) (rb0 : (0 < rb)%N).
Notation D := (ra * rb)%N.

Lemma pcoef_mem p v : distinct_terms ra rb p -> (forall t, t \in p -> fld t.1 != 0) ->
  (pcoef fld ra rb p v != 0) = (idx ra rb v \in [seq idx ra rb (evec t.2) | t <- p]).
Proof.
move=> dp nz; apply/idP/mapP => [h | [t tp e]].
  suff /hasP [t tp /samebP s] : has (fun t : term => sameb ra rb (evec t.2) v) p.
    by exists t => //; apply: idx_same; apply: same_sym.
  apply: contraR h => /hasPn h; rewrite /pcoef big_seq_cond big_pred0 // => t.
  by case tp: (t \in p) => //=; apply/negbTE/h.
apply: (pcoef_occurs dp (es := t.2)); first by exists t => //; split; last exact: nz.
by apply: same_idx => //; rewrite e.
Qed.
Lemma count_idx (g : nat -> nat) S : (forall j, (j < D)%N -> (g j < D)%N) -> (forall i j, (i < D)%N -> (j < D)%N -> g i = g j -> i = j) ->
  uniq S -> (forall x, x \in S -> (x < D)%N) -> count (fun j => g j \in S) (iota 0 D) = size S.
Proof.
move=> g1 g2 uS hS; have pe : perm_eq (map g (iota 0 D)) (iota 0 D).
  have u : uniq (map g (iota 0 D)).
    rewrite map_inj_in_uniq ?iota_uniq // => i j; rewrite !mem_iota !add0n => hi hj; exact: g2.
  apply: uniq_perm; rewrite ?iota_uniq //; apply: (uniq_min_size u _ _).2; last by rewrite size_map.
  by move=> x /mapP [j]; rewrite !mem_iota !add0n => hj ->; apply: g1.
rewrite -(count_map g (mem S)) (permP pe) -size_filter; apply/eqP.
have : perm_eq [seq x <- iota 0 D | x \in S] S.
  apply: uniq_perm; rewrite ?filter_uniq ?iota_uniq // => x; rewrite mem_filter mem_iota add0n /=.
  by case xS: (x \in S) => //=; apply: hS.
by move/perm_size => ->.
Qed.
Lemma count_pcoef p i : (i < D)%N -> distinct_terms ra rb p -> (forall t, t \in p -> fld t.1 != 0) ->
  count (fun j => pcoef fld ra rb p (quot (pos rb j) (pos rb i)) != 0) (iota 0 D) = size p /\
  count (fun j => pcoef fld ra rb p (quot (pos rb i) (pos rb j)) != 0) (iota 0 D) = size p.
Proof.
move=> hi dp nz; have hS x : x \in [seq idx ra rb (evec t.2) | t <- p] -> (x < D)%N by case/mapP => t _ ->; apply: idx_lt.
have back j k : (j < D)%N -> (k < D)%N -> same ra rb (pos rb j) (pos rb k) -> j = k.
  by move=> hj hk /idx_same; rewrite !idx_pos.
split; rewrite -[RHS](size_map (fun t : term => idx ra rb (evec t.2))).
- rewrite -(@count_idx (fun j => idx ra rb (quot (pos rb j) (pos rb i)))) //.
  + by apply: eq_count => j; apply: pcoef_mem.
  + by move=> j _; apply: idx_lt.
  + move=> j k hj hk /(same_idx ra0 rb0) h; apply: back => //.
    have e (x y : vec2) : quot (quot x y) (quot (0, 0) y) = x by case: x y => [a b] [c d]; rewrite /quot /=; congr pair; ring.
    by rewrite -(e (pos rb j) (pos rb i)) -(e (pos rb k) (pos rb i)); apply: same_sub.
- rewrite -(@count_idx (fun j => idx ra rb (quot (pos rb i) (pos rb j)))) //.
  + by apply: eq_count => j; apply: pcoef_mem.
  + by move=> j _; apply: idx_lt.
  + move=> j k hj hk /(same_idx ra0 rb0) h; apply: back => //.
    have e (x y : vec2) : quot x (quot x y) = y by case: x y => [a b] [c d]; rewrite /quot /=; congr pair; ring.
    by rewrite -(e (pos rb i) (pos rb j)) -(e (pos rb i) (pos rb k)); apply: same_sub.
Qed.
Lemma bb_row_weights pa pb c i : qc_code fld [:: ra; rb] pa pb = Some c -> wf (D + D) (c_x c) -> wf (D + D) (c_z c) ->
  distinct_terms ra rb pa -> distinct_terms ra rb pb -> (forall t, t \in pa ++ pb -> fld t.1 != 0) -> (i < D)%N ->
  hwt (nth [::] (c_x c) i) = (size pa + size pb)%N /\ hwt (nth [::] (c_z c) i) = (size pa + size pb)%N.
Proof.
move=> ec wx wz da db nz hi; have [c' [ec' _ xc zc h]] := bb_code f0 pa pb ra0 rb0.
have ecc : c' = c by [rewrite ec in ec'; case: ec']; subst c'.
have na t : t \in pa -> fld t.1 != 0 by move=> ht; apply: nz; rewrite mem_cat ht.
have nb t : t \in pb -> fld t.1 != 0 by move=> ht; apply: nz; rewrite mem_cat ht orbT.
have [a1 a2] := count_pcoef hi da na; have [b1 b2] := count_pcoef hi db nb.
have split2 (r : vec F) : size r = (D + D)%N ->
    hwt r = (count (fun j => nth 0%R r j != 0%R) (iota 0 D) + count (fun j => nth 0%R r (D + j)%N != 0%R) (iota 0 D))%N.
  move=> sr; rewrite (hwt_card sr) -(count_card _ (fun j => nth 0%R r j != 0%R)) iotaD count_cat add0n -{2}[D]addn0 iotaDl count_map.
  by congr (_ + _)%N.
have en j : (j < D)%N -> [/\ (j < D + D)%N, (D + j < D + D)%N, (j %% D = j)%N & ((D + j) %% D = j)%N].
  by move=> hj; rewrite ltn_add2l modnDl modn_small //; split=> //; apply: leq_trans hj (leq_addr _ _).
have nlt j : (D + j < D)%N = false by rewrite ltnNge leq_addr.
split.
- rewrite split2; last by rewrite (wf_nth wx) // xc.
  rewrite -{1}a1 -{1}b1; congr (_ + _)%N; apply: eq_in_count => j; rewrite mem_iota add0n /= => hj; have [h1 h2 m1 m2] := en j hj.
    by have [e _] := h i j hi h1; rewrite -[nth 0 _ _]/(ent (c_x c) i j) e /x_ent m1 hj.
  by have [e _] := h i (D + j)%N hi h2; rewrite -[nth 0 _ _]/(ent (c_x c) i (D + j)) e /x_ent m2 nlt.
- rewrite split2; last by rewrite (wf_nth wz) // zc.
  rewrite addnC -{1}a2 -{1}b2; congr (_ + _)%N; apply: eq_in_count => j; rewrite mem_iota add0n /= => hj; have [h1 h2 m1 m2] := en j hj.
    by have [_ e] := h i (D + j)%N hi h2; rewrite -[nth 0 _ _]/(ent (c_z c) i (D + j)) e /z_ent m2 nlt oppr_eq0.
  by have [_ e] := h i j hi h1; rewrite -[nth 0 _ _]/(ent (c_z c) i j) e /z_ent m1 hj.
Qed.
End Bicycle.
