(* Generalized union-find decoder: model of qldpc/decoders.py:224-359. *)
From mathcomp Require Import all_ssreflect all_algebra zify.
From Verif Require Import LinAlg RowReduce Classical ClassicalProofs Symplectic Quantum QuantumProofs Lookup.
Set Implicit Arguments.
Unset Strict Implicit.
Unset Printing Implicit Defensive.
Import GRing.Theory.
Local Open Scope ring_scope.

(* ============================================================================== model *)
Section GUF.
Variables (F : fieldType) (el : seq F).  (* el: field.elements *)
Notation vec := (seq F).
Notation mat := (seq (seq F)).

Section Graph.
(* decoders.py:256-266: rep is 2 for symplectic=True and 1 otherwise; H is the matrix of self.code, with rep * n columns: the
   given matrix or, for symplectic=True, its symplectic conjugate.  Check i and data node j are neighbours in self.graph iff row i
   has a nonzero entry at site j (common.py:267-283, 779-802; see TannerGraph.v); only nodes with a neighbour are in the graph *)
Variables (rep n : nat) (H : mat).
Definition adj (i j : nat) : bool := acts rep n (nth [::] H i) j.
Definition in_graph (i : nat) : bool := has (adj i) (iota 0 n).
(* an error set: indices of check nodes and of data nodes *)
Definition eset := (seq nat * seq nat)%type.
Definition esize (E : eset) : nat := (size E.1 + size E.2)%N.
(* decoders.py:277: the check nodes of nonzero syndrome entries *)
Definition start (s : vec) : eset := ([seq i <- iota 0 (size H) | nth 0 s i != 0], [::]).
(* decoders.py:282-284: add all neighbours *)
Definition grow (E : eset) : eset :=
  ([seq i <- iota 0 (size H) | (i \in E.1) || has (adj i) E.2],
   [seq j <- iota 0 n | (j \in E.2) || has (adj^~ j) E.1]).
(* decoders.py:343-347: data nodes all of whose neighbours are in the error set *)
Definition interior (E : eset) : seq nat := [seq j <- E.2 | all (fun i => adj i j ==> (i \in E.1)) (iota 0 (size H))].
(* decoders.py:348-359: check and bit indices of the sub-problem, in decreasing order *)
Definition sub_checks (E : eset) : seq nat :=
  rev [seq i <- iota 0 (size H) | (i \in E.1) || has (adj i) (interior E)].
Definition sub_bits (E : eset) : seq nat := flatten [seq [seq (k * n + j)%N | j <- rev (interior E)] | k <- rev (iota 0 rep)].
Definition sub_matrix (E : eset) : mat := selcols (sub_bits E) (selrows (sub_checks E) H).
(* decoders.py:291-302: null vectors [y, c] of [H | -s] with nonzero c *)
Definition augmented (E : eset) (s : vec) : mat := hcat (sub_matrix E) [seq [:: - x] | x <- vsel (sub_checks E) s].
Definition solutions (E : eset) (s : vec) : mat :=
  let b := size (sub_bits E) in [seq v <- null_space b.+1 (augmented E s) | nth 0 v b != 0].
(* decoders.py:304-308: y / c.  For q = 2 the division is skipped: c is 1 *)
Definition converted (E : eset) (s : vec) : mat :=
  let b := size (sub_bits E) in [seq [seq x / nth 0 v b | x <- take b v] | v <- solutions E s].

(* decoders.py:253-262, 208-217: the weight of a vector of the sub-problem *)
Definition sub_weight (y : vec) : nat := swt rep (size y %/ rep) y.
(* python min with a key: the first minimum *)
Definition argmin (T : Type) (key : T -> nat) (x : T) (l : seq T) : T := foldl (fun b y => if (key y < key b)%N then y else b) x l.
(* decoders.py:325-333: the loop over combinations of null vectors *)
Fixpoint improve (W : nat) (one : vec) (N : mat) (cs : seq vec) (best : vec) : vec :=
  if cs is c :: cs' then
    let sol := vadd one (vmulm (size one) c N) in
    if (sub_weight sol < sub_weight best)%N then
      (if (sub_weight sol <= W)%N then sol else improve W one N cs' sol)
    else improve W one N cs' best
  else best.
(* decoders.py:310-333 *)
Definition choose_solution (max_weight : option nat) (E : eset) (s : vec) : vec :=
  let sol := argmin sub_weight (head [::] (converted E s)) (behead (converted E s)) in
  if max_weight is Some W then
    if (W < sub_weight sol)%N then
      let N := null_space (size (sub_bits E)) (sub_matrix E) in
      improve W sol N (behead (product el (size N))) sol
    else sol
  else sol.
(* decoders.py:335-338: error[bits] = solution *)
Definition place (N : nat) (bits : seq nat) (y : vec) : vec :=
  mkseq (fun p => if p \in bits then nth 0 y (index p bits) else 0) N.

(* decoders.py:269-338: decode.  None is a NetworkXError (a check node that is not in the graph), or the loop did not finish
   within the given number of steps *)
Fixpoint guf_loop (max_weight : option nat) (s : vec) (fuel : nat) (E : eset) (last_size : nat) : option vec :=
  if fuel is fuel'.+1 then
    if ~~ all in_graph E.1 then None
    else
      let E' := grow E in
      if esize E' == last_size then Some (vzero F (rep * n))
      else if solutions E' s is [::] then guf_loop max_weight s fuel' E' (esize E')
      else Some (place (rep * n) (sub_bits E') (choose_solution max_weight E' s))
  else None.
Definition guf_decode (max_weight : option nat) (s : vec) : option vec :=
  guf_loop max_weight s (size H + n).+2 (start s) 0.

(* ============================================================================= proofs *)
Hypothesis wH : wf (rep * n) H.

Lemma size_place N bits y : size (place N bits y) = N.
Proof. by rewrite size_mkseq. Qed.

Lemma dot_place N bits (r y : vec) : uniq bits -> all (fun p => p < N)%N bits -> size r = N -> size y = size bits ->
  dot r (place N bits y) = dot (vsel bits r) y.
Proof.
move=> ub /allP lb sr sy; rewrite (dotE sr (size_place N bits y)) (@dotE _ (size bits)) ?size_vsel //.
transitivity (\sum_(p <- bits) nth 0 r p * nth 0 y (index p bits)).
  transitivity (\sum_(p < N | (p : nat) \in bits) nth 0 r p * nth 0 y (index (p : nat) bits)).
    rewrite [RHS]big_mkcond /=; apply: eq_bigr => p _; rewrite nth_mkseq //; case: ifP => _ //; by rewrite mulr0.
  rewrite -(big_mkord (fun p => p \in bits) (fun p => nth 0 r p * nth 0 y (index p bits))) -big_filter.
  apply: perm_big; apply: uniq_perm; rewrite ?filter_uniq ?iota_uniq // => p.
  by rewrite mem_filter mem_index_iota /=; case hp: (p \in bits) => //=; rewrite lb.
rewrite (big_nth 0%N) big_mkord; apply: eq_bigr => k _.
by rewrite index_uniq // /vsel (nth_map 0%N).
Qed.

Lemma adjP i j : (i < size H)%N -> (j < n)%N ->
  reflect (exists2 k, (k < rep)%N & ent H i (k * n + j) != 0) (adj i j).
Proof.
move=> hi hj; apply: (iffP hasP) => [[k]|[k hk ne]]; first by rewrite mem_iota => hk ne; exists k.
by exists k => //; rewrite mem_iota.
Qed.

(* error sets with indices in range and without repetition *)
Definition eset_ok (E : eset) : Prop :=
  [/\ uniq E.1, uniq E.2, all (fun i => i < size H)%N E.1 & all (fun j => j < n)%N E.2].

Lemma all_iota_filter (p : pred nat) m : all (fun i => i < m)%N [seq i <- iota 0 m | p i].
Proof. by apply/allP => i; rewrite mem_filter mem_iota => /andP []. Qed.

Lemma start_ok s : eset_ok (start s).
Proof. by split; rewrite //= ?filter_uniq ?iota_uniq ?all_iota_filter. Qed.
Lemma grow_ok E : eset_ok (grow E).
Proof. by split; rewrite /= ?filter_uniq ?iota_uniq ?all_iota_filter. Qed.

Lemma interior_ok E : eset_ok E -> uniq (interior E) /\ all (fun j => j < n)%N (interior E).
Proof.
case=> _ u2 _ /allP a2; split; first exact: filter_uniq.
by apply/allP => j; rewrite mem_filter => /andP [_ /a2].
Qed.

Lemma mod_inj (d k k' j j' : nat) : (j < d)%N -> (j' < d)%N -> (k * d + j = k' * d + j')%N -> k = k' /\ j = j'.
Proof.
move=> hj hj' e; have d0 : (0 < d)%N by apply: leq_ltn_trans hj.
have := congr1 (divn^~ d) e; have := congr1 (modn^~ d) e.
by rewrite !modnMDl !modn_small // !divnMDl // !divn_small // !addn0.
Qed.

Lemma mem_sub_bits E k j : eset_ok E -> (j < n)%N -> (k * n + j \in sub_bits E)%N = (k < rep)%N && (j \in interior E).
Proof.
move=> ok hj; have [_ /allP a] := interior_ok ok; apply/flatten_mapP/andP => [[k' hk /mapP [j' hj' e]] | [hk hi]].
  rewrite mem_rev in hj'; have lj' := a _ hj'.
  by have [-> ->] := mod_inj hj lj' e; rewrite mem_rev mem_iota in hk.
by exists k; [rewrite mem_rev mem_iota | apply/mapP; exists j; rewrite ?mem_rev].
Qed.

Lemma sub_bits_ok E : eset_ok E -> uniq (sub_bits E) /\ all (fun p => p < rep * n)%N (sub_bits E).
Proof.
move=> ok; have [u /allP a] := interior_ok ok; split.
  rewrite /sub_bits; apply: allpairs_uniq => //; rewrite ?rev_uniq ?iota_uniq //.
  move=> [k j] [k' j'] /allpairsP [[x y] /= [_ hy [-> ->]]] /allpairsP [[x' y'] /= [_ hy' [-> ->]]] /=.
  rewrite !mem_rev in hy hy' => e; have lj := a _ hy; have lj' := a _ hy'.
  by have [-> ->] := mod_inj lj lj' e.
apply/allP => p /flatten_mapP [k hk /mapP [j hj ->]]; rewrite mem_rev in hj; rewrite mem_rev mem_iota /= add0n in hk.
have := a _ hj => lj; apply: (@leq_trans (k.+1 * n)%N); last by rewrite leq_mul2r hk orbT.
by rewrite mulSn addnC ltn_add2r.
Qed.

Lemma mem_sub_checks E i : (i \in sub_checks E) = (i < size H)%N && ((i \in E.1) || has (adj i) (interior E)).
Proof. by rewrite mem_rev mem_filter mem_iota andbC. Qed.

Section Region.
Variables (E : eset) (s : vec).
Hypotheses (ok : eset_ok E) (ss : size s = size H).
Hypothesis sup : forall i, (i < size H)%N -> nth 0 s i != 0 -> i \in E.1.
Let bits := sub_bits E.
Let b := size bits.

(* the solutions of the sub-problem are the errors on its bits that have the syndrome *)
Definition local_sol (y : vec) : Prop := size y = b /\ mulmv (sub_matrix E) y = vsel (sub_checks E) s.

Lemma local_row y i : size y = b -> (i < size H)%N ->
  dot (nth [::] H i) (place (rep * n) bits y) = dot (vsel bits (nth [::] H i)) y.
Proof. by move=> sy hi; have [u a] := sub_bits_ok ok; rewrite dot_place // (wf_nth wH). Qed.

Lemma mulmv_sub_matrix y : mulmv (sub_matrix E) y = [seq dot (vsel bits (nth [::] H i)) y | i <- sub_checks E].
Proof. by rewrite /mulmv /sub_matrix /selcols /selrows -!map_comp. Qed.

Lemma local_solP y : size y = b -> mulmv (sub_matrix E) y = vsel (sub_checks E) s <-> mulmv H (place (rep * n) bits y) = s.
Proof.
move=> sy; rewrite mulmv_sub_matrix /vsel; split=> [/eq_in_map h | h].
  apply: (@eq_from_nth _ 0); rewrite size_mulmv // => i hi.
  rewrite (nth_map [::]) // local_row //; case hc: (i \in sub_checks E); first exact: h.
  move: hc; rewrite mem_sub_checks hi /= => /negbT /norP [nE nI].
  have -> : nth 0 s i = 0 by apply/eqP/negPn/negP => /(sup hi); apply/negP.
  rewrite (@dotE _ b) ?size_vsel // big1 // => k _; rewrite /vsel (nth_map 0%N) //.
  suff -> : nth 0 (nth [::] H i) (nth 0%N bits k) = 0 by rewrite mul0r.
  have /flatten_mapP [x hx /mapP [j hj ->]] := mem_nth 0%N (ltn_ord k); rewrite !mem_rev in hx hj.
  have [_ /allP /(_ _ hj) lj] := interior_ok ok.
  apply/eqP/negPn/negP => ne; move/negP: nI; apply; apply/hasP; exists j => //; apply/adjP => //.
  by exists x => //; rewrite mem_iota in hx.
apply/eq_in_map => i; rewrite mem_sub_checks => /andP [hi _].
by rewrite -h (nth_map [::]) // local_row.
Qed.

Lemma size_sub_checks : size (vsel (sub_checks E) s) = size (sub_matrix E).
Proof. by rewrite size_vsel size_selcols size_selrows. Qed.

Lemma wf_sub_matrix : wf b (sub_matrix E).
Proof. exact: wf_selcols. Qed.

Lemma wf_augmented : wf b.+1 (augmented E s).
Proof.
rewrite -addn1; apply: wf_hcat; first exact: wf_sub_matrix.
by apply/allP => r /mapP [x _ ->].
Qed.

Lemma aug_mulmv d (M : mat) (t y : vec) c : wf d M -> size y = d ->
  mulmv (hcat M [seq [:: - x] | x <- t]) (rcons y c) = [seq dot p.1 y - p.2 * c | p <- zip M t].
Proof.
move=> wM sy; elim: M t wM => [|r M IH] [|x t] //; rewrite wf_cons => /andP [/eqP sr wM].
rewrite /= -(IH t wM); congr cons.
rewrite -cats1 (@dotE _ (d + 1)) ?size_cat ?sr ?sy // big_split_ord big_ord1 /= (dotE sr sy).
rewrite !nth_cat sr sy addn0 ltnn subnn /= mulNr; congr (_ - _).
by apply: eq_bigr => k _; rewrite !nth_cat sr sy ltn_ord.
Qed.

Lemma aug_word (y : vec) c : size y = b ->
  is_word b.+1 (augmented E s) (rcons y c) <-> mulmv (sub_matrix E) y = vscale c (vsel (sub_checks E) s).
Proof.
move=> sy; have sr : size (rcons y c) = b.+1 by rewrite size_rcons sy.
rewrite -(mulmv_word wf_augmented sr).
rewrite /augmented (aug_mulmv _ _ wf_sub_matrix sy).
rewrite size_hcat; last by rewrite [RHS]size_map size_sub_checks.
rewrite /mulmv; have := size_sub_checks.
elim: (sub_matrix E) (vsel (sub_checks E) s) => [|r M IH] [|x t] //= [/IH h]; split.
  by case=> /eqP; rewrite subr_eq0 => /eqP -> /h ->; rewrite mulrC.
by case=> -> /h ->; rewrite mulrC subrr.
Qed.

Lemma converted_sol y : y \in converted E s -> local_sol y.
Proof.
move=> /mapP [v]; rewrite mem_filter => /andP [ne hv] ->.
have [hw _ _] := null_basis wf_augmented; have [sv _] := hw _ hv.
have st : size (take b v) = b by rewrite size_takel // sv.
split; first by rewrite size_map.
have ev : v = rcons (take b v) (nth 0 v b).
  by rewrite -(take_nth 0) ?sv // -sv take_size.
have := hw _ hv; rewrite {1}ev => /(aug_word _ st) h.
have -> : [seq x / nth 0 v b | x <- take b v] = vscale (nth 0 v b)^-1 (take b v).
  by apply: eq_map => x; rewrite mulrC.
transitivity (vscale (nth 0 v b)^-1 (mulmv (sub_matrix E) (take b v))).
  rewrite /mulmv /vscale -[RHS]map_comp; apply/eq_in_map => r hr /=.
  have sr : size r = b by apply/(wfP _ _ wf_sub_matrix).
  rewrite (@dotE _ b) ?size_map // (dotE sr st) big_distrr /=; apply: eq_bigr => k _.
  by rewrite (nth_map 0) ?st // mulrCA.
rewrite h /vscale -map_comp -[RHS]map_id; apply: eq_map => x /=; by rewrite mulrA mulVf // mul1r.
Qed.

Lemma solutions_nil : solutions E s = [::] -> forall y, ~ local_sol y.
Proof.
move=> e y [sy hy]; have /(aug_word _ sy) : mulmv (sub_matrix E) y = vscale 1 (vsel (sub_checks E) s).
  by rewrite hy /vscale -[LHS]map_id; apply: eq_map => x; rewrite mul1r.
have [_ sp _] := null_basis wf_augmented; move=> /sp [c [sc _ /(_ b (ltnSn b))]].
rewrite nth_rcons sy ltnn eqxx big1 => [/eqP|i _]; first by rewrite oner_eq0.
have hm := mem_nth [::] (ltn_ord i); apply/eqP; rewrite mulf_eq0; apply/orP; right; apply/negPn/negP => ne.
by have : nth [::] (null_space b.+1 (augmented E s)) i \in solutions E s; [rewrite mem_filter ne | rewrite e].
Qed.

Lemma argminP (T : eqType) (key : T -> nat) x l :
  argmin key x l \in x :: l /\ forall y, y \in x :: l -> (key (argmin key x l) <= key y)%N.
Proof.
rewrite /argmin; elim: l x => [|y l IH] x /=; first by split=> [|z]; rewrite inE // => /eqP ->.
have [h1 h2] := IH (if (key y < key x)%N then y else x); split.
  by move: h1; case: ifP => _; rewrite !inE => /orP [->|->]; rewrite ?orbT.
move=> z; have h3 := h2 _ (mem_head _ _); rewrite !inE => /or3P [/eqP -> | /eqP -> | hz].
- by apply: (leq_trans h3); case: ltnP => // /ltnW.
- by apply: (leq_trans h3); case: ltnP.
by apply: h2; rewrite inE hz orbT.
Qed.

Lemma local_null one c : local_sol one -> size c = size (null_space b (sub_matrix E)) ->
  local_sol (vadd one (vmulm b c (null_space b (sub_matrix E)))).
Proof.
move=> [so ho] sc; set N := null_space _ _ in sc *.
have [hN _ _] := null_basis wf_sub_matrix; have sv : size (vmulm b c N) = b by exact: size_vmulm.
split; first by rewrite size_vadd ?so ?sv.
rewrite -ho; apply/eq_in_map => r hr; have sr : size r = b by apply/(wfP _ _ wf_sub_matrix).
rewrite (dotE sr so) (@dotE _ b) ?size_vadd ?so ?sv //.
under eq_bigr do rewrite nth_vadd ?so ?sv // mulrDr.
rewrite big_split /= -[RHS]addr0; congr (_ + _).
have [_ _ e] := vmulm_comb b sc.
under eq_bigr do rewrite e // mulr_sumr.
rewrite exchange_big big1 //= => i _.
under eq_bigr do rewrite mulrCA.
rewrite -mulr_sumr; have [|_ h] := hN (nth [::] N i); first by rewrite mem_nth.
by rewrite h // mulr0.
Qed.

Lemma improve_sol W one cs best : local_sol one -> local_sol best ->
  (forall c, c \in cs -> size c = size (null_space b (sub_matrix E))) ->
  local_sol (improve W one (null_space b (sub_matrix E)) cs best).
Proof.
move=> ho; elim: cs best => //= c cs IH best hb hc.
have hs : local_sol (vadd one (vmulm (size one) c (null_space b (sub_matrix E)))).
  by have [so _] := ho; rewrite so; apply: local_null => //; apply: hc; rewrite mem_head.
have hc' x : x \in cs -> size x = size (null_space b (sub_matrix E)) by move=> hx; apply: hc; rewrite inE hx orbT.
by case: ifP => _; [case: ifP => _ // |]; apply: IH.
Qed.

Lemma choose_sol mw : solutions E s <> [::] -> local_sol (choose_solution mw E s).
Proof.
move=> ne; have nc : converted E s <> [::] by rewrite /converted; case: (solutions E s) ne.
have h0 : local_sol (argmin sub_weight (head [::] (converted E s)) (behead (converted E s))).
  apply: converted_sol; have [h _] := argminP sub_weight (head [::] (converted E s)) (behead (converted E s)).
  by move: h; case: (converted E s) nc.
rewrite /choose_solution; case: mw => // W; case: ifP => // _; apply: improve_sol => //.
move=> c /mem_behead; rewrite mem_product => /andP [/eqP -> _]; by [].
Qed.
End Region.

(* growing keeps the error set; a set of unchanged size is closed *)
Lemma grow_sub E : eset_ok E -> {subset E.1 <= (grow E).1} /\ {subset E.2 <= (grow E).2}.
Proof.
case=> _ _ /allP a1 /allP a2; split=> i hi; rewrite mem_filter hi mem_iota /= add0n; [exact: a1 | exact: a2].
Qed.

Lemma grow_size E : eset_ok E -> (esize E <= esize (grow E))%N.
Proof.
move=> ok; have [s1 s2] := grow_sub ok; have [u1 u2 _ _] := ok; exact: leq_add (uniq_leq_size u1 s1) (uniq_leq_size u2 s2).
Qed.

Lemma sum_sizes (a b c d : nat) : (a + b = c + d)%N -> (c <= a)%N -> (d <= b)%N -> a = c /\ b = d.
Proof. lia. Qed.

Lemma grow_fix E : eset_ok E -> esize (grow E) = esize E ->
  forall i j, (i < size H)%N -> (j < n)%N -> adj i j -> (i \in E.1) = (j \in E.2).
Proof.
move=> ok e i j hi hj a; have [s1 s2] := grow_sub ok; have [u1 u2 _ _] := ok.
have l1 := uniq_leq_size u1 s1; have l2 := uniq_leq_size u2 s2.
have [e1 e2] := sum_sizes e l1 l2.
have [_ h1] := uniq_min_size u1 s1 (eq_leq e1); have [_ h2] := uniq_min_size u2 s2 (eq_leq e2).
apply/idP/idP => h.
  by rewrite h2 mem_filter mem_iota /= add0n hj andbT; apply/orP; right; apply/hasP; exists i.
by rewrite h1 mem_filter mem_iota /= add0n hi andbT; apply/orP; right; apply/hasP; exists j.
Qed.

Lemma esize_bound E : eset_ok E -> (esize E <= size H + n)%N.
Proof.
case=> u1 u2 /allP a1 /allP a2; apply: leq_add.
  by rewrite -(size_iota 0 (size H)); apply: uniq_leq_size => // i /a1; rewrite mem_iota.
by rewrite -[X in (_ <= X)%N](size_iota 0 n); apply: uniq_leq_size => // i /a2; rewrite mem_iota.
Qed.

(* in a closed error set, every error with the syndrome gives a solution of the sub-problem *)
Lemma closed_sol E s e : eset_ok E -> size s = size H -> (forall i, (i < size H)%N -> nth 0 s i != 0 -> i \in E.1) ->
  (forall i j, (i < size H)%N -> (j < n)%N -> adj i j -> (i \in E.1) = (j \in E.2)) ->
  size e = (rep * n)%N -> mulmv H e = s -> local_sol E s (vsel (sub_bits E) e).
Proof.
move=> ok ss sup cl se he; have [ub ab] := sub_bits_ok ok; split; first by rewrite size_vsel.
rewrite mulmv_sub_matrix; apply/eq_in_map => i; rewrite mem_sub_checks => /andP [hi hc].
have iE : i \in E.1.
  case/orP: hc => // /hasP [j]; rewrite mem_filter => /andP [/allP h _] a; move: (h i); rewrite mem_iota hi a => /(_ isT); exact.
have -> : nth 0 s i = dot (nth [::] H i) e by rewrite -he (nth_map [::]).
rewrite -(dot_place ub ab) ?(wf_nth wH) ?size_vsel //.
rewrite (@dotE _ (rep * n)) ?size_place ?(wf_nth wH) // (dotE (wf_nth wH hi) se); apply: eq_bigr => p _.
rewrite nth_mkseq //; case: ifP => [hp | hp]; first by rewrite /vsel (nth_map 0%N) ?index_mem // nth_index.
rewrite mulr0; apply/esym/eqP; rewrite mulf_eq0; apply/orP; left; apply/negPn/negP => ne; move/negP: hp; apply.
have n0 : (0 < n)%N by have := ltn_ord p; move: (p : nat) => x; case: (n) => //; rewrite muln0.
have pm : (p %% n < n)%N by rewrite ltn_mod.
have pk : (p %/ n < rep)%N by rewrite ltn_divLR.
have a : adj i (p %% n) by apply/adjP => //; exists (p %/ n)%N => //; rewrite -divn_eq.
rewrite {1}(divn_eq p n) mem_sub_bits // pk /= mem_filter; apply/andP; split; last by rewrite -(cl i).
by apply/allP => i'; rewrite mem_iota /= => hi'; apply/implyP => a'; rewrite (cl i' (p %% n)%N) // -(cl i).
Qed.

Lemma guf_loop_ok mw s fuel E e lst : eset_ok E -> size s = size H ->
  (forall i, (i < size H)%N -> nth 0 s i != 0 -> i \in E.1) ->
  size e = (rep * n)%N -> mulmv H e = s -> all in_graph E.1 ->
  (lst = 0%N \/ lst = esize E /\ solutions E s = [::]) -> (size H + n < fuel + lst)%N ->
  exists r, [/\ guf_loop mw s fuel E lst = Some r, size r = (rep * n)%N & mulmv H r = s].
Proof.
move=> ok ss sup se he; elim: fuel E lst ok sup => [|fuel IH] E lst ok sup ig hE lf.
  have := esize_bound ok; move: lf hE; rewrite add0n; case: (lst) => // l h1 [// | [<- _] h2].
  by have := leq_trans h1 h2; rewrite ltnn.
rewrite /= ig /=; case: eqP => [eq | ne].
  exists (vzero F (rep * n)); rewrite size_vzero; split=> //; rewrite (mulmv0 wH).
  case: hE => [z | [el' none]].
    apply: (@eq_from_nth _ 0); rewrite size_vzero ?ss // => i hi; rewrite nth_vzero; apply/esym/eqP/negPn/negP => /(sup _ hi).
    have := grow_size ok; rewrite eq z leqn0 => /eqP z'.
    by move/eqP: z'; rewrite /esize addn_eq0 => /andP [/nilP ->].
  rewrite el' in eq; by have := solutions_nil none (closed_sol ok ss sup (grow_fix ok eq) se he).
have sup' i : (i < size H)%N -> nth 0 s i != 0 -> i \in (grow E).1.
  by move=> hi h; have [h1 _] := grow_sub ok; apply: h1; apply: sup.
have ok' := grow_ok E.
case es: (solutions (grow E) s) => [|v vs].
  apply: IH => //; [| by right; split | ].
    apply/allP => i; rewrite mem_filter => /andP [/orP [hi _ | /hasP [j hj a] _]]; first by move/allP: ig; apply.
    by apply/hasP; exists j => //; have [_ _ _ /allP a2] := ok; rewrite mem_iota; apply: a2.
  have : (lst <= esize E)%N by case: hE => [-> | [-> _]].
  have := grow_size ok; move: (esize E) (esize (grow E)) lf ne => x y; clear; lia.
exists (place (rep * n) (sub_bits (grow E)) (choose_solution mw (grow E) s)); rewrite size_place; split=> //.
have [|sc hc] := @choose_sol (grow E) s mw; first by rewrite es.
by apply/(local_solP ok' ss sup').
Qed.

Theorem guf_ok mw s e : size e = (rep * n)%N -> mulmv H e = s ->
  exists r, [/\ guf_decode mw s = Some r, size r = (rep * n)%N & mulmv H r = s].
Proof.
move=> se he; have ss : size s = size H by rewrite -he size_mulmv.
rewrite /guf_decode; apply: (@guf_loop_ok mw s _ (start s) e) => //; [exact: start_ok | | | by left | by rewrite addn0 ltnS leqnSn].
  by move=> i hi ne; rewrite mem_filter ne mem_iota.
apply/allP => i; rewrite mem_filter mem_iota /= add0n => /andP [ne hi].
apply/negPn/negP => /hasPn no; move/eqP: ne; apply.
rewrite -he (nth_map [::]) // (dotE (wf_nth wH hi) se) big1 // => p _.
have n0 : (0 < n)%N by have := ltn_ord p; move: (p : nat) => x; case: (n) => //; rewrite muln0.
apply/eqP; rewrite mulf_eq0; apply/orP; left; apply/negPn/negP => ne; move: (no (p %% n)%N).
rewrite mem_iota /= add0n ltn_mod n0 => /(_ isT) /negP; apply; apply/adjP; rewrite ?ltn_mod //.
by exists (p %/ n)%N; rewrite -?divn_eq // ltn_divLR.
Qed.

(* if no error has the syndrome, the result is zero (or the decoder raises an error for a nonzero syndrome of an empty check) *)
Lemma guf_loop_none mw s fuel E lst : eset_ok E -> size s = size H ->
  (forall i, (i < size H)%N -> nth 0 s i != 0 -> i \in E.1) ->
  (forall e, size e = (rep * n)%N -> mulmv H e <> s) ->
  guf_loop mw s fuel E lst \in [:: None; Some (vzero F (rep * n))].
Proof.
move=> ok ss sup no; elim: fuel E lst ok sup => [|fuel IH] E lst ok sup //=.
case: ifP => // _; case: eqP => [_ | _]; first by rewrite !inE eqxx orbT.
have sup' i : (i < size H)%N -> nth 0 s i != 0 -> i \in (grow E).1.
  by move=> hi h; have [h1 _] := grow_sub ok; apply: h1; apply: sup.
have ok' := grow_ok E.
case es: (solutions (grow E) s) => [|v vs]; first exact: IH.
have [|sc hc] := @choose_sol (grow E) s mw; first by rewrite es.
by have /(local_solP ok' ss sup') := hc => /(_ sc) /no; rewrite size_place => /(_ erefl).
Qed.

Theorem guf_none mw s r : size s = size H -> (forall e, size e = (rep * n)%N -> mulmv H e <> s) ->
  guf_decode mw s = Some r -> r = vzero F (rep * n).
Proof.
move=> ss no e; have := @guf_loop_none mw s (size H + n).+2 (start s) 0 (start_ok s) ss _ no.
rewrite -/(guf_decode mw s) e !inE => h; apply/eqP; apply: h => i hi ne.
by rewrite mem_filter ne mem_iota.
Qed.
End Graph.
End GUF.
