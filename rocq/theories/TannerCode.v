(* Classical Tanner codes: model of qldpc/codes/classical.py:184-252. *)
From mathcomp Require Import all_ssreflect all_algebra zify.
From Verif Require Import LinAlg RowReduce Kron Classical.
Set Implicit Arguments.
Unset Strict Implicit.
Unset Printing Implicit Defensive.
Import GRing.Theory.
Local Open Scope ring_scope.

(* ============================================================================== model *)
(* networkx.DiGraph (external): nodes and edges in order of insertion, with the optional edge attribute "sort" *)
Record dgraph (V : Type) := DGraph { dnodes : seq V; dedges : seq (V * V * option nat) }.

Section Tanner.
(* V: nodes; ltV: python's `<` on nodes *)
Variables (V : eqType) (ltV : rel V).
Definition leV (x y : V) : bool := ~~ ltV y x.

(* classical.py:219-221: nodes without incoming (outgoing) edges *)
Definition sources (g : dgraph V) : seq V := [seq v <- dnodes g | ~~ has (fun e => e.1.2 == v) (dedges g)].
Definition sinks (g : dgraph V) : seq V := [seq v <- dnodes g | ~~ has (fun e => e.1.1 == v) (dedges g)].
(* neighbors with the "sort" attribute of the edge *)
Definition neighbors (g : dgraph V) (v : V) : seq (V * option nat) := [seq (e.1.2, e.2) | e <- dedges g & e.1.1 == v].
(* classical.py:234-239: _get_sorted_neighbors.  Simplification: a "sort" attribute is a natural number, and comparing an
   attribute with a node (python raises TypeError unless both are numbers) gives true *)
Definition leK (a b : V * option nat) : bool :=
  match a.2, b.2 with
  | Some i, Some j => (i <= j)%N
  | None, None => leV a.1 b.1
  | _, _ => true
  end.
Definition sorted_neighbors (g : dgraph V) (v : V) : seq V := [seq x.1 | x <- sort leK (neighbors g v)].

Variable F : fieldType.
(* matrix[np.ix_(checks, bits)] = subcode.matrix, one row: r is written to the positions `bits` of a row of zeros.  A subcode on
   one bit is broadcast by numpy *)
Definition scatter (n : nat) (bits : seq nat) (r : seq F) : seq F :=
  let r' := if size r == 1%N then nseq (size bits) (nth 0 r 0%N) else r in
  foldl (fun row bv => set_nth 0 row bv.1 bv.2) (nseq n 0) (zip bits r').

(* classical.py:212-232: TannerCode.__init__ for a directed graph; None is a KeyError for an edge that does not end in a sink, or
   a ValueError for a source whose degree is not the length of the subcode *)
Definition tanner_code (g : dgraph V) (sub : ccode F) : option (ccode F) :=
  let ss := sort leV (sinks g) in
  let n := size ss in
  let blocks := [seq (let nb := sorted_neighbors g s in
      if all (fun t => t \in ss) nb && ((size nb == cc_n sub) || (cc_n sub == 1%N))
      then Some [seq scatter n [seq index t ss | t <- nb] r | r <- cc_mat sub] else None) | s <- sort leV (sources g)] in
  if all isSome blocks then Some (mkcode n (flatten (pmap id blocks))) else None.

(* ====================================================================== specification *)
(* a simple directed graph: no node or edge twice, edges join nodes *)
Definition simple (g : dgraph V) := [/\ uniq (dnodes g), uniq [seq e.1 | e <- dedges g] &
  forall e, e \in dedges g -> (e.1.1 \in dnodes g) && (e.1.2 \in dnodes g)].
(* the bits of the code are the sinks; a word assigns a value to each sink *)
Definition assigns (sk : seq V) (w : seq F) (x : V -> F) := size w = size sk /\ forall t, t \in sk -> x t = nth 0 w (index t sk).

(* ============================================================================= proofs *)
Lemma sum_set n (z x : seq F) b a : size z = n -> (b < n)%N -> nth 0 z b = 0 ->
  \sum_(j < n) nth 0 (set_nth 0 z b a) j * nth 0 x j = \sum_(j < n) nth 0 z j * nth 0 x j + a * nth 0 x b.
Proof.
move=> sz hb zb; rewrite (bigD1 (Ordinal hb)) //= [X in _ = X + _](bigD1 (Ordinal hb)) //= zb mul0r add0r addrC.
congr (_ + _); last by rewrite nth_set_nth /= eqxx.
apply: eq_bigr => j ne; rewrite nth_set_nth /=; case: eqP => // e.
by case/eqP: ne; apply: val_inj.
Qed.

Lemma sum_scatter_gen n (z r x : seq F) bits : size z = n -> size r = size bits -> uniq bits -> all (fun b => b < n)%N bits ->
  (forall b, b \in bits -> nth 0 z b = 0) ->
  let z' := foldl (fun row bv => set_nth 0 row bv.1 bv.2) z (zip bits r) in
  size z' = n /\ \sum_(j < n) nth 0 z' j * nth 0 x j =
    \sum_(j < n) nth 0 z j * nth 0 x j + \sum_(k < size bits) nth 0 r k * nth 0 x (nth 0%N bits k).
Proof.
elim: bits z r => [|b bits IH] z [|a r] //= sz.
  by move=> _ _ _ _; split=> //; rewrite big_ord0 addr0.
case=> sr /andP [nb u] /andP [hb hbs] zb.
have [|| s1 e1] := IH (set_nth 0 z b a) r _ sr u hbs.
- by rewrite size_set_nth sz; apply/maxn_idPr.
- move=> b' hb'; rewrite nth_set_nth /=; case: eqP => [e | _]; first by rewrite -e hb' in nb.
  by apply: zb; rewrite inE hb' orbT.
split=> //; rewrite e1 (sum_set _ _ sz hb) ?zb ?mem_head // big_ord_recl /= -addrA; congr (_ + (_ + _)).
Qed.

Lemma sum_scatter n (r x : seq F) bits : size r = size bits -> uniq bits -> all (fun b => b < n)%N bits ->
  size (scatter n bits r) = n /\
  \sum_(j < n) nth 0 (scatter n bits r) j * nth 0 x j = \sum_(k < size bits) nth 0 r k * nth 0 x (nth 0%N bits k).
Proof.
move=> sr u hb; have e : (if size r == 1%N then nseq (size bits) (nth 0 r 0%N) else r) = r.
  by case: eqP => // e; rewrite -sr; case: r sr e => // a [].
rewrite /scatter e; have [|s1 s2] := @sum_scatter_gen n (nseq n 0) r x bits (size_nseq _ _) sr u hb.
  by move=> b _; rewrite nth_nseq; case: ifP.
by split=> //; rewrite s2 [X in X + _]big1 ?add0r // => j _; rewrite nth_nseq ltn_ord mul0r.
Qed.

Lemma tanner_ok g (sub : ccode F) c : simple g -> wf (cc_n sub) (cc_mat sub) ->
  (forall s, s \in sources g -> size (neighbors g s) = cc_n sub) ->
  tanner_code g sub = Some c ->
  let sk := sort leV (sinks g) in
  [/\ cc_n c = size (sinks g), wf (cc_n c) (cc_mat c), size (cc_mat c) = (size (sources g) * size (cc_mat sub))%N,
      perm_eq sk (sinks g)
    & forall w x, assigns sk w x ->
        (is_word (cc_n c) (cc_mat c) w <->
         forall s, s \in sources g -> is_word (cc_n sub) (cc_mat sub) [seq x t.1 | t <- sort leK (neighbors g s)])].
Proof.
move=> [ug ue ends] wsub deg; rewrite /tanner_code; set sk := sort leV (sinks g).
set f := fun s => _; case: ifP => // allS [<-] /=.
have skm : sk =i sinks g by move=> t; rewrite mem_sort.
have usk : uniq sk by rewrite sort_uniq filter_uniq.
have ssk : size sk = size (sinks g) by rewrite size_sort.
have nbs s : s \in sources g -> [/\ all (fun t => t \in sk) (sorted_neighbors g s),
    size (sorted_neighbors g s) = cc_n sub, uniq (sorted_neighbors g s) &
    f s = Some [seq scatter (size sk) [seq index t sk | t <- sorted_neighbors g s] r | r <- cc_mat sub]].
  move=> hs; have sz : size (sorted_neighbors g s) = cc_n sub by rewrite size_map size_sort deg.
  have : isSome (f s) by move/allP: allS; apply; apply/mapP; exists s; rewrite // mem_sort.
  rewrite /f; case: ifP => // /andP [h1 _] _; split=> //.
  have pe : perm_eq (sorted_neighbors g s) [seq x.1 | x <- neighbors g s] by rewrite perm_map // perm_sort.
  rewrite (perm_uniq pe) /neighbors -map_comp; apply: (@map_uniq _ _ (pair s)).
  rewrite -map_comp (_ : map _ _ = [seq e.1 | e <- dedges g & e.1.1 == s]).
    by apply: subseq_uniq ue; apply/map_subseq/filter_subseq.
  by apply/eq_in_map => -[[a b] k]; rewrite mem_filter /= => /andP [/eqP -> _].
have idxs s : s \in sources g -> let bits := [seq index t sk | t <- sorted_neighbors g s] in
    [/\ size bits = cc_n sub, uniq bits & all (fun b => b < size sk)%N bits].
  move=> hs bits; have [/allP h1 h2 h3 _] := nbs s hs; split; first by rewrite size_map.
    rewrite map_inj_in_uniq // => t t' ht ht' e.
    by rewrite -(nth_index t (h1 _ ht)) e nth_index // h1.
  by apply/allP => b /mapP [t /h1 ht ->]; rewrite index_mem.
have mem_rows r : r \in flatten (pmap id [seq f s | s <- sort leV (sources g)]) <->
    exists s r0, [/\ s \in sources g, r0 \in cc_mat sub & r = scatter (size sk) [seq index t sk | t <- sorted_neighbors g s] r0].
  split=> [/flattenP [B] | [s [r0 [hs h0 ->]]]].
    rewrite mem_pmap map_id => /mapP [s]; rewrite mem_sort => hs; have [_ _ _ ->] := nbs s hs => -[->] /mapP [r0 h0 ->].
    by exists s, r0.
  apply/flattenP; exists [seq scatter (size sk) [seq index t sk | t <- sorted_neighbors g s] r | r <- cc_mat sub].
    rewrite mem_pmap map_id; apply/mapP; exists s; rewrite ?mem_sort //.
    by have [_ _ _ ->] := nbs s hs.
  by apply/mapP; exists r0.
have szr r0 : r0 \in cc_mat sub -> size r0 = cc_n sub by move=> h; apply/eqP; move/allP: wsub; apply.
split=> //.
- apply/allP => r /mem_rows [s [r0 [hs h0 ->]]]; have [b1 b2 b3] := idxs s hs.
  by have [-> _] := @sum_scatter (size sk) r0 [::] _ (etrans (szr _ h0) (esym b1)) b2 b3.
- rewrite -[size (sources g)](size_sort leV).
  have : forall s, s \in sort leV (sources g) -> s \in sources g by move=> s; rewrite mem_sort.
  elim: (sort leV (sources g)) => [|s ss IH] h //=.
  have [_ _ _ ->] := nbs s (h s (mem_head _ _)); rewrite /= size_cat size_map mulSn IH // => s' h'.
  by apply: h; rewrite inE h' orbT.
- by rewrite perm_sort.
move=> w x [sw hx].
have key s r0 : s \in sources g -> r0 \in cc_mat sub ->
    \sum_(j < size sk) nth 0 (scatter (size sk) [seq index t sk | t <- sorted_neighbors g s] r0) j * nth 0 w j =
    \sum_(k < cc_n sub) nth 0 r0 k * nth 0 [seq x t.1 | t <- sort leK (neighbors g s)] k.
  move=> hs h0; have [b1 b2 b3] := idxs s hs; have [/allP n1 n2 _ _] := nbs s hs.
  have [_ ->] := @sum_scatter (size sk) r0 w _ (etrans (szr _ h0) (esym b1)) b2 b3.
  rewrite b1; apply: eq_bigr => k _; congr (_ * _).
  have -> : [seq x t.1 | t <- sort leK (neighbors g s)] = [seq x t | t <- sorted_neighbors g s] by rewrite -map_comp.
  have hk : (k < size (sorted_neighbors g s))%N by rewrite n2.
  have [t0 _] : exists t : V, True by case: (sorted_neighbors g s) hk => // t ? _; exists t.
  by rewrite (nth_map t0) // (nth_map t0) // hx // n1 // mem_nth.
split=> [[_ hw] s hs | h].
  split; first by rewrite size_map size_sort deg.
  by move=> r0 h0; rewrite -key // hw //; apply/mem_rows; exists s, r0.
split=> // r /mem_rows [s [r0 [hs h0 ->]]]; rewrite key //.
by have [_ ->] := h s hs.
Qed.

(* a graph whose edges run from sources to sinks, with the right degrees, is accepted *)
Lemma tanner_some g (sub : ccode F) : simple g ->
  (forall s, s \in sources g -> size (neighbors g s) = cc_n sub) ->
  (forall e, e \in dedges g -> e.1.2 \in sinks g) -> exists c, tanner_code g sub = Some c.
Proof.
move=> [ug ue ends] deg es; rewrite /tanner_code.
case: ifP => [_ | /negbT]; first by eexists.
case/allPn => o /mapP [s]; rewrite mem_sort => hs ->.
have -> : all (fun t => t \in sort leV (sinks g)) (sorted_neighbors g s).
  apply/allP => t /mapP [[t' k]]; rewrite (mem_sort leK) /neighbors => h ->; have [e] := mapP h; rewrite mem_filter => /andP [_ he] [-> _].
  by rewrite mem_sort es.
by rewrite size_map size_sort deg // eqxx.
Qed.

(* ====================================================================== specification *)
(* strict order of the edges of a node: by "sort" attribute when both have one, by neighbor when neither has *)
Definition before (a b : V * option nat) : bool :=
  match a.2, b.2 with
  | Some i, Some j => (i < j)%N
  | None, None => ltV a.1 b.1
  | _, _ => false
  end.
(* l lists the edges that leave s (target and attribute), in strictly increasing order *)
Definition in_order (g : dgraph V) (s : V) (l : seq (V * option nat)) : Prop :=
  [/\ forall t k, (t, k) \in l = ((s, t, k) \in dedges g), uniq l & pairwise before l].

(* ============================================================================= proofs *)
Hypothesis asym : forall x y, ltV x y -> ~~ ltV y x.

Lemma sort_by (T : eqType) (lt le : rel T) (l l' : seq T) : {in l &, forall a b, lt a b -> le a b} ->
  {in l &, forall a b, lt a b -> le b a = false} -> {in l, forall a, le a a} ->
  uniq l -> pairwise lt l -> perm_eq l l' -> sort le l' = l.
Proof.
move=> le_of nle refl u pw pe.
have bef a b : a \in l -> b \in l -> (index a l < index b l)%N -> lt a b.
  move=> ha hb h.
  move/(pairwiseP a): pw => /(_ (index a l) (index b l)); rewrite !inE !index_mem ha hb !nth_index //; exact.
have leE : {in l &, le =2 (fun a b => index a l <= index b l)%N}.
  move=> a b ha hb /=; case: (ltngtP (index a l) (index b l)) => [h | h | h].
  - exact: le_of _ _ ha hb (bef _ _ ha hb h).
  - exact: nle _ _ hb ha (bef _ _ hb ha h).
  - by move: (congr1 (nth a l) h); rewrite !nth_index // => ->; rewrite refl.
have -> : sort le l' = sort le l.
  apply/esym/perm_sort_inP => //.
  - by move=> a b ha hb; rewrite !leE // leq_total.
  - move=> a b c ha hb hc; rewrite !leE //; exact: leq_trans.
  - move=> a b ha hb; rewrite !leE // => /anti_leq h.
    by move: (congr1 (nth a l) h); rewrite !nth_index.
apply: pairwise_sort; apply: (sub_in_pairwise le_of) pw; exact/allP.
Qed.

Lemma leV_refl a : leV a a.
Proof. by rewrite /leV; case e: (ltV a a) => //; move: (asym e); rewrite e. Qed.

Lemma sort_unique (l l' : seq (V * option nat)) : uniq l -> pairwise before l -> perm_eq l l' -> sort leK l' = l.
Proof.
apply: sort_by.
- by move=> [a [i|]] [b [j|]] _ _ //=; rewrite /before /leK /=; [exact: ltnW | exact: asym].
- by move=> [a [i|]] [b [j|]] _ _ //=; rewrite /before /leK /= => h; [rewrite leqNgt h | rewrite /leV h].
- by move=> [a [i|]] _; rewrite /leK //= leV_refl.
Qed.

Lemma sortV_unique (l l' : seq V) : uniq l -> pairwise ltV l -> perm_eq l l' -> sort leV l' = l.
Proof.
apply: sort_by; [by move=> a b _ _; exact: asym | by move=> a b _ _ h; rewrite /leV h | by move=> a _; exact: leV_refl].
Qed.

Lemma tanner_order g s l : simple g -> in_order g s l -> sort leK (neighbors g s) = l.
Proof.
move=> [_ ue _] [ml u pw]; apply: sort_unique => //; apply: uniq_perm => //.
  rewrite map_inj_in_uniq.
    by apply: filter_uniq; move: ue; apply: map_uniq.
  move=> [[a b] k] [[a' b'] k']; rewrite !mem_filter /= => /andP [/eqP -> _] /andP [/eqP -> _] [-> ->] //.
move=> [t k]; rewrite ml; apply/idP/mapP => [h | [[[a b] k'] ]].
  by exists (s, t, k); rewrite // mem_filter eqxx.
by rewrite mem_filter /= => /andP [/eqP <- h] [-> ->].
Qed.

Theorem tanner_words g (sub : ccode F) c sk : simple g -> wf (cc_n sub) (cc_mat sub) ->
  (forall s, s \in sources g -> exists2 l, in_order g s l & size l = cc_n sub) ->
  perm_eq sk (sinks g) -> pairwise ltV sk ->
  tanner_code g sub = Some c ->
  [/\ cc_n c = size sk, size (cc_mat c) = (size (sources g) * size (cc_mat sub))%N &
    forall w x, assigns sk w x ->
        (is_word (cc_n c) (cc_mat c) w <->
         forall s l, s \in sources g -> in_order g s l -> is_word (cc_n sub) (cc_mat sub) [seq x t.1 | t <- l])].
Proof.
move=> sg wsub hl pe pw tc.
have deg s : s \in sources g -> size (neighbors g s) = cc_n sub.
  by case/hl => l io <-; rewrite -(tanner_order sg io) size_sort.
have usk : uniq sk by rewrite (perm_uniq pe) filter_uniq //; case: sg.
have [cn _ cm _ h] := tanner_ok sg wsub deg tc.
rewrite (sortV_unique usk pw pe) in h.
split=> //; first by rewrite cn (perm_size pe).
move=> w x a; rewrite (h w x a); split=> [H s l hs io | H s hs].
  by rewrite -(tanner_order sg io); apply: H.
by have [l io _] := hl s hs; rewrite (tanner_order sg io); apply: H io.
Qed.

Theorem tanner_exists g (sub : ccode F) : simple g ->
  (forall s, s \in sources g -> exists2 l, in_order g s l & size l = cc_n sub) ->
  (forall e, e \in dedges g -> e.1.2 \in sinks g) -> exists c, tanner_code g sub = Some c.
Proof.
move=> sg hl; apply: tanner_some => // s /hl [l io <-].
by rewrite -(tanner_order sg io) size_sort.
Qed.
End Tanner.

(* ============================================================================== model *)
(* classical.py:241-252: as_directed_subgraph.  Undirected simple graphs on the nodes 0, 1, 2, ...; an edge may carry the
   attribute "sort", a dictionary from its ends to numbers (a pair in the order of the ends here).  The bits of the code are the
   edges, as frozensets; `frozenset < frozenset` is proper inclusion *)
Definition unode := (nat + nat * nat)%type.
Definition fset (a b : nat) : unode := inr (minn a b, maxn a b).
Definition ult (x y : unode) : bool :=
  match x, y with
  | inl a, inl b => (a < b)%N
  | inr (a, b), inr (c, d) => [&& a == b, (a == c) || (a == d) & c != d]
  | _, _ => false
  end.
Record ugraph := UGraph { uedges : seq (nat * nat * option (nat * nat)) }.
Definition add_new (T : eqType) (s : seq T) (x : T) := if x \in s then s else rcons s x.
Definition add_dedge (g : dgraph unode) (u v : unode) (k : option nat) : dgraph unode :=
  DGraph (add_new (add_new (dnodes g) u) v)
    (if has (fun e => e.1 == (u, v)) (dedges g)
     then [seq (if e.1 == (u, v) then (e.1, if k is Some _ then k else e.2) else e) | e <- dedges g]
     else rcons (dedges g) (u, v, k)).
Definition as_directed (g : ugraph) : dgraph unode :=
  foldl (fun d e => let s := fset e.1.1 e.1.2 in
    add_dedge (add_dedge d (inl e.1.1) s (omap fst e.2)) (inl e.1.2) s (omap snd e.2)) (DGraph [::] [::]) (uedges g).
(* `edge_data.pop("sort", None)` removes the attribute from the graph of the caller: the graph after the construction *)
Definition popped (g : ugraph) : ugraph := UGraph [seq (e.1, None) | e <- uedges g].
(* TannerCode(graph, subcode) for an undirected graph: the code, and the state of the graph afterwards *)
Definition utanner (F : fieldType) (g : ugraph) (sub : ccode F) : option (ccode F) * ugraph :=
  (tanner_code ult (as_directed g) sub, popped g).

(* ====================================================================== specification *)
(* a simple undirected graph: no loops and no edge twice *)
Definition usimple (g : ugraph) : Prop :=
  all (fun e => e.1.1 != e.1.2) (uedges g) /\ uniq [seq fset e.1.1 e.1.2 | e <- uedges g].
Definition uedge (g : ugraph) (i : nat) : nat * nat * option (nat * nat) := nth (0, 0, None)%N (uedges g) i.
(* node a is an end of the i-th edge; the "sort" number of the i-th edge at its end a *)
Definition touches (g : ugraph) (a i : nat) : bool := (a == (uedge g i).1.1) || (a == (uedge g i).1.2).
Definition sort_at (g : ugraph) (a i : nat) : option nat :=
  omap (fun k => if a == (uedge g i).1.1 then k.1 else k.2) (uedge g i).2.
(* l lists the edges at node a: by increasing "sort" number if there are such numbers, in the order of the graph otherwise *)
Definition ubefore (g : ugraph) (a i j : nat) : bool :=
  match sort_at g a i, sort_at g a j with
  | Some x, Some y => (x < y)%N
  | None, None => (i < j)%N
  | _, _ => false
  end.
Definition ulist (g : ugraph) (a : nat) (l : seq nat) : Prop :=
  [/\ forall i, (i \in l) = ((i < size (uedges g))%N && touches g a i), uniq l & pairwise (ubefore g a) l].

(* ============================================================================= proofs *)
Definition uedge_pair (e : nat * nat * option (nat * nat)) : seq (unode * unode * option nat) :=
  [:: (inl e.1.1, fset e.1.1 e.1.2, omap fst e.2); (inl e.1.2, fset e.1.1 e.1.2, omap snd e.2)].
Definition is_set (v : unode) := if v is inr _ then true else false.

Lemma inl_eq (a b : nat) : (inl a == inl b :> unode) = (a == b). Proof. by []. Qed.
Lemma has_pairs es u t : has (fun e => e.1 == (u, t)) (flatten (map uedge_pair es)) -> t \in [seq fset e.1.1 e.1.2 | e <- es].
Proof.
case/hasP => [[[u' t'] k]] /flatten_mapP [e he]; rewrite !inE => h /eqP /= [_ <-].
apply/mapP; exists e => //; by case/orP: h => /eqP [_ -> _].
Qed.

Lemma mem_add (T : eqType) (s : seq T) x y : (y \in add_new s x) = (y == x) || (y \in s).
Proof. by rewrite /add_new; case: ifP => [h | _]; [case: eqP => // -> | rewrite mem_rcons inE]. Qed.
Lemma uniq_add (T : eqType) (s : seq T) x : uniq s -> uniq (add_new s x).
Proof. by rewrite /add_new; case: ifP => // h u; rewrite rcons_uniq h u. Qed.
Lemma filter_add (T : eqType) (P : pred T) (s : seq T) x :
  [seq y <- add_new s x | P y] = if P x && (x \notin s) then rcons [seq y <- s | P y] x else [seq y <- s | P y].
Proof. by rewrite /add_new; case: ifP => h; rewrite ?andbF // andbT filter_rcons. Qed.

Lemma as_directed_ok g : usimple g -> let d := as_directed g in
  [/\ dedges d = flatten (map uedge_pair (uedges g)), uniq (dnodes d),
      [seq v <- dnodes d | is_set v] = [seq fset e.1.1 e.1.2 | e <- uedges g]
    & forall a, (inl a \in dnodes d) = has (fun e => (a == e.1.1) || (a == e.1.2)) (uedges g)].
Proof.
case: g => es; rewrite /usimple /as_directed /=.
elim/last_ind: es => [|es e IH] //.
rewrite all_rcons map_rcons rcons_uniq => -[/andP [ne al] /andP [nf u]].
rewrite foldl_rcons; have [e1 e2 e3 e4] := IH (conj al u).
set d := foldl _ _ es in e1 e2 e3 e4 *.
have new : fset e.1.1 e.1.2 \notin dnodes d.
  apply: contra nf => h; rewrite -e3 mem_filter h andbT; by [].
have n1 u' : has (fun e' => e'.1 == (u', fset e.1.1 e.1.2)) (dedges d) = false.
  by apply/negP; rewrite e1 => /has_pairs; apply/negP.
rewrite /add_dedge /= n1 has_rcons n1 orbF /= xpair_eqE eqxx andbT.
rewrite inl_eq (negbTE ne).
split.
- by rewrite e1 map_rcons flatten_rcons /= -!cats1 -catA.
- by do 4! apply: uniq_add.
- rewrite !filter_add /= !mem_add eqxx /= (negbTE new) /= e3.
  by rewrite -map_rcons.
- by move=> a; rewrite !mem_add e4 has_rcons /= !inl_eq; do !case: (_ == _); rewrite /= ?orbT.
Qed.

Lemma ult_asym x y : ult x y -> ~~ ult y x.
Proof.
case: x y => [a | [a b]] [c | [c d]] //=; first by rewrite -leqNgt => /ltnW.
by case/and3P => /eqP -> _ /negbTE ->.
Qed.

Lemma minmax a b : minn a b = maxn a b -> a = b. Proof. clear; lia. Qed.

Section Undirected.
Variables (g : ugraph) (sg : usimple g).
Notation d := (as_directed g).
Notation es := (uedges g).
Notation m := (size (uedges g)).
Definition ufs := [seq fset e.1.1 e.1.2 | e <- uedges g].

Lemma mem_dedges s t k : ((s, t, k) \in dedges d) =
  has (fun i => [&& t == nth (inl 0%N) ufs i, (if s is inl a then touches g a i else false) &
                    k == (if s is inl a then sort_at g a i else None)]) (iota 0 m).
Proof.
have [-> _ _ _] := as_directed_ok sg.
apply/flatten_mapP/hasP => [[e he] | [i]].
  have hi : (index e es < m)%N by rewrite index_mem.
  have ne : e.1.1 != e.1.2 by have [/allP/(_ e he)] := sg.
  rewrite !inE => h; exists (index e es); first by rewrite mem_iota add0n.
  rewrite (nth_map (0, 0, None)%N) // /touches /sort_at /uedge nth_index //.
  case/orP: h => /eqP [-> -> ->]; rewrite !eqxx ?orbT /=; first by case: (e.2).
  by case: (e.2) => //= k'; rewrite [e.1.2 == _]eq_sym (negbTE ne).
rewrite mem_iota add0n /= => hi /and3P [/eqP ->]; case: s => // a ta /eqP ->.
exists (uedge g i); first exact: mem_nth.
rewrite (nth_map (0, 0, None)%N) // -/(uedge g i) !inE /sort_at.
move: ta; rewrite /touches; case: eqP => [-> _ | _ /= /eqP ->]; rewrite ?eqxx ?orbT //=.
Qed.

Lemma dsinks : sinks d = ufs.
Proof.
have [e1 _ e3 e4] := as_directed_ok sg; rewrite /ufs -e3 /sinks; apply: eq_in_filter => v hv.
apply/idP/idP.
  case: v hv => [a | //] hv /negP []; move: hv; rewrite e4 => /hasP [e he ha].
  rewrite e1; apply/hasP; case/orP: ha => /eqP ->.
    by exists (inl e.1.1, fset e.1.1 e.1.2, omap fst e.2); rewrite //; apply/flatten_mapP; exists e; rewrite // inE eqxx.
  by exists (inl e.1.2, fset e.1.1 e.1.2, omap snd e.2); rewrite //; apply/flatten_mapP; exists e; rewrite // !inE eqxx orbT.
case: v hv => // p _ _; apply/hasPn => [[[s t] k]]; rewrite e1 => /flatten_mapP [e _].
by rewrite !inE; case/orP => /eqP [-> _ _].
Qed.

Lemma neighborsE a : neighbors d (inl a) = [seq (nth (inl 0%N) ufs i, sort_at g a i) | i <- iota 0 m & touches g a i].
Proof.
rewrite /neighbors; have [-> _ _ _] := as_directed_ok sg; have [loopless _] := sg.
pose key (e : nat * nat * option (nat * nat)) := omap (fun k => if a == e.1.1 then k.1 else k.2) e.2.
transitivity [seq (fset e.1.1 e.1.2, key e) | e <- es & (a == e.1.1) || (a == e.1.2)].
  elim: (es) loopless => //= e l IH /andP [ne al].
  rewrite !inl_eq !(eq_sym _ a); case: (a =P e.1.1) => [ea | na] /=.
    rewrite {1}ea (negbTE ne) /=; rewrite IH // /key ea eqxx; by congr ((_, _) :: _); case: (e.2).
  case: eqP => [ea | _] /=; last exact: IH.
  rewrite IH // /key; congr ((_, _) :: _); case: (e.2) => //= k; by case: eqP.
have {1}-> : es = [seq uedge g i | i <- iota 0 m] by exact/esym/(mkseq_nth (0, 0, None)%N).
rewrite filter_map -map_comp; apply/eq_in_map => i; rewrite mem_filter mem_iota add0n => /andP [_ /= hi].
by rewrite (nth_map (0, 0, None)%N).
Qed.

Lemma ulist_sort a l : ulist g a l ->
  sort (leK ult) (neighbors d (inl a)) = [seq (nth (inl 0%N) ufs i, sort_at g a i) | i <- l].
Proof.
move=> [ml u pw]; rewrite neighborsE sort_map; congr map.
set f := fun i => _; set s := [seq i <- _ | _].
have us : uniq s by rewrite filter_uniq ?iota_uniq.
have ms : s =i l by move=> i; rewrite ml mem_filter mem_iota add0n andbC.
have incomp i j : i \in s -> j \in s -> leV ult (f i).1 (f j).1.
  have [loopless _] := sg; rewrite !mem_filter !mem_iota !add0n /= => /andP [_ hi] /andP [_ hj].
  rewrite !(nth_map (0, 0, None)%N) // /leV /fset /=; apply/negP => /and3P [/eqP e1 _ _].
  move/(all_nthP (0, 0, None)%N)/(_ j hj)/eqP: loopless; case; exact: minmax.
have mix i j : i \in l -> j \in l -> isSome (sort_at g a i) = isSome (sort_at g a j).
  move=> hi hj.
  have gen i' j' : i' \in l -> j' \in l -> (index i' l < index j' l)%N -> isSome (sort_at g a i') = isSome (sort_at g a j').
    move=> hi' hj' h; move/(pairwiseP 0%N): pw => /(_ (index i' l) (index j' l)); rewrite !inE !index_mem hi' hj' !nth_index //.
    by move=> /(_ isT isT h); rewrite /ubefore; case: (sort_at _ _ _) => [?|]; case: (sort_at _ _ _).
  case: (ltngtP (index i l) (index j l)) => [h | h | e]; [exact: gen | exact/esym/gen | ].
  by move: (congr1 (nth 0%N l) e); rewrite !nth_index // => ->.
case e: (has (fun i => isSome (sort_at g a i)) l).
  case/hasP: e => i0 h0 s0.
  have sm i : i \in l -> isSome (sort_at g a i) by move=> hi; rewrite -(mix i0).
  have pl : perm_eq l s by apply: uniq_perm => // i; rewrite ms.
  apply: (@sort_by _ (ubefore g a)) => //.
  - move=> i j hi hj.
    move: (sm i hi) (sm j hj); rewrite /ubefore /leK /=; case: (sort_at _ _ _) => // x _; case: (sort_at _ _ _) => // y _; exact: ltnW.
  - move=> i j hi hj.
    move: (sm i hi) (sm j hj); rewrite /ubefore /leK /=; case: (sort_at _ _ _) => // x _; case: (sort_at _ _ _) => // y _.
    by move=> h; rewrite leqNgt h.
  - by move=> i hi; move: (sm i hi); rewrite /leK /=; case: (sort_at _ _ _) => /=.
have nn i : i \in l -> sort_at g a i = None.
  by move=> hi; move/negbT/hasPn/(_ i hi): e; case: (sort_at _ _ _).
have -> : sort (relpre f (leK ult)) s = s.
  apply: pairwise_sort; apply/(pairwiseP 0%N) => i j; rewrite !inE => hi hj _.
  have [hi' hj'] : nth 0%N s i \in s /\ nth 0%N s j \in s by rewrite !mem_nth.
  by rewrite /leK /= !nn -?ms //; apply: incomp.
apply: (irr_sorted_eq ltn_trans ltnn) => //.
- by rewrite sorted_filter ?iota_ltn_sorted //; apply: ltn_trans.
- apply: pairwise_sorted; apply: (@sub_in_pairwise _ (mem l) (ubefore g a)) pw; last exact/allP.
  by move=> i j hi hj; rewrite /ubefore !nn.
Qed.

Definition degree_ok (n : nat) := forall a, has (touches g a) (iota 0 m) -> exists2 l, ulist g a l & size l = n.

Lemma dsources a : (inl a \in sources d) = has (touches g a) (iota 0 m).
Proof.
have [e1 _ _ e4] := as_directed_ok sg.
rewrite mem_filter e4.
have -> : has (fun e : unode * unode * option nat => e.1.2 == inl a) (dedges d) = false.
  apply/negP => /hasP [[[s t] k]]; rewrite e1 => /flatten_mapP [e _]; rewrite !inE.
  by case/orP => /eqP [_ -> _].
rewrite /=; apply/(has_nthP (0, 0, None)%N)/hasP => [[i hi h] | [i]]; first by exists i => //; rewrite mem_iota.
by rewrite mem_iota add0n => /= hi h; exists i.
Qed.

Lemma dsources_set p : inr p \notin sources d.
Proof.
have [e1 _ e3 _] := as_directed_ok sg; rewrite mem_filter; apply/negP => /andP [h hp].
have : inr p \in ufs by rewrite /ufs -e3 mem_filter hp.
case/mapP => e he pe; case/hasP: h; exists (inl e.1.1, fset e.1.1 e.1.2, omap fst e.2); last by rewrite /= pe.
by rewrite e1; apply/flatten_mapP; exists e; rewrite // inE eqxx.
Qed.

Lemma simple_d : simple d.
Proof.
have [e1 e2 e3 e4] := as_directed_ok sg; have [loopless u] := sg; split=> //.
- rewrite e1; elim: (es) loopless u => //= e l IH /andP [ne al] /andP [nf u].
  rewrite IH // andbT !inE !xpair_eqE inl_eq (negbTE ne) /=.
  apply/andP; split; apply: contra nf => /mapP [x hx ex];
    apply: (@has_pairs l x.1.1); apply/hasP; exists x => //; by rewrite -ex.
- move=> [[s t] k]; rewrite mem_dedges => /hasP [i]; rewrite mem_iota add0n /= => hi /and3P [/eqP -> ts _].
  apply/andP; split.
    case: s ts => // a ts; rewrite e4; apply/(has_nthP (0, 0, None)%N); by exists i.
  have : nth (inl 0%N) ufs i \in ufs by rewrite mem_nth // size_map.
  by rewrite /ufs -e3 mem_filter => /andP [].
Qed.

Theorem utanner_words (F : fieldType) (sub : ccode F) c g' : wf (cc_n sub) (cc_mat sub) -> degree_ok (cc_n sub) ->
  utanner g sub = (Some c, g') ->
  cc_n c = m /\
  forall w, size w = m ->
    (is_word (cc_n c) (cc_mat c) w <->
     forall a l, has (touches g a) (iota 0 m) -> ulist g a l -> is_word (cc_n sub) (cc_mat sub) [seq nth 0 w i | i <- l]).
Proof.
move=> wsub deg [tc _].
have deg' s : s \in sources d -> size (neighbors d s) = cc_n sub.
  case: s => [a | p]; last by rewrite (negbTE (dsources_set p)).
  by rewrite dsources => /deg [l io <-]; rewrite -(size_sort (leK ult)) (ulist_sort io) size_map.
have ss : sort (leV ult) (sinks d) = ufs.
  rewrite dsinks; apply: pairwise_sort; apply/(pairwiseP (inl 0%N)) => i j; rewrite !inE !size_map => hi hj _.
  have [loopless _] := sg.
  rewrite !(nth_map (0, 0, None)%N) // /leV /fset /=; apply/negP => /and3P [/eqP e1 _ _].
  move/(all_nthP (0, 0, None)%N)/(_ j hj)/eqP: loopless; case; exact: minmax.
have uf : uniq ufs by have [] := sg.
have [cn _ _ _ h] := tanner_ok simple_d wsub deg' tc.
rewrite ss in h; have sm : size ufs = m by rewrite size_map.
split; first by rewrite cn dsinks.
move=> w sw; pose x t := nth 0 w (index t ufs).
have ax : assigns ufs w x by split; rewrite ?sm.
rewrite (h w x ax).
have conv a l : ulist g a l -> [seq x t.1 | t <- sort (leK ult) (neighbors d (inl a))] = [seq nth 0 w i | i <- l].
  move=> io; rewrite (ulist_sort io) -map_comp; apply/eq_in_map => i; have [ml _ _] := io.
  by rewrite ml /x /= => /andP [hi _]; rewrite index_uniq ?sm.
split=> [H a l ha io | H].
  by rewrite -(conv a) //; apply: H; rewrite dsources.
case=> [a | p]; last by rewrite (negbTE (dsources_set p)).
rewrite dsources => ha; have [l io _] := deg a ha; rewrite (conv a l io); exact: (H a).
Qed.

Theorem utanner_exists (F : fieldType) (sub : ccode F) : degree_ok (cc_n sub) -> exists c, utanner g sub = (Some c, popped g).
Proof.
move=> deg; have [|| c tc] := @tanner_some _ ult F d sub simple_d; last by exists c; rewrite /utanner tc.
- case=> [a | p]; last by rewrite (negbTE (dsources_set p)).
  by rewrite dsources => /deg [l io <-]; rewrite -(size_sort (leK ult)) (ulist_sort io) size_map.
- move=> [[s t] k]; rewrite mem_dedges dsinks => /hasP [i]; rewrite mem_iota add0n /= => hi /and3P [/eqP -> _ _].
  by rewrite mem_nth // size_map.
Qed.
End Undirected.
