(* Cayley complexes and quantum Tanner codes: model of qldpc/objects.py:246-349 (CayleyComplex) and
   qldpc/codes/quantum.py:1111-1242 (QTCode). *)
From mathcomp Require Import all_ssreflect all_algebra zify.
From Verif Require Import LinAlg RowReduce Kron Classical ClassicalProofs ClassicalProofs2 TannerCode Symplectic Quantum Css PermGroup SymSubset.
Set Implicit Arguments.
Unset Strict Implicit.
Unset Printing Implicit Defensive.
Import GRing.Theory.
Local Open Scope ring_scope.

(* ============================================================================== model *)
(* abstract.py:84-90: GroupMember.__matmul__ *)
Definition pten (p q : perm) : perm := p ++ [seq (v + size p)%N | v <- q].
(* objects.py:286, 295: identity, shift = CyclicGroup(2).generate() *)
Definition z2id : perm := [:: 0; 1]%N.
Definition z2sh : perm := [:: 1; 0]%N.
(* objects.py:283-299: cover_subset_a, cover_subset_b; python sets are listed without repetition *)
Definition cover_a (bip : bool) (A : seq perm) : seq perm :=
  undup [seq pten a (if bip then z2sh else pten z2sh z2id) | a <- A].
Definition cover_b (bip : bool) (B : seq perm) : seq perm :=
  undup [seq pten b (if bip then z2sh else pten z2id z2sh) | b <- B].
(* objects.py:339-349: satisfies_total_no_conjugacy; G lists the group generated by the two subsets (external: SymPy) *)
Definition no_conjugacy (G : group) (A B : seq perm) : bool :=
  all (fun g => all (fun a => all (fun b => pmul a g != pmul g b) B) A) G.
(* objects.py:246-276: CayleyComplex.__init__ raises no ValueError *)
Definition complex_ok (G : group) (A B : seq perm) (bip : bool) : bool :=
  [&& all (fun p => pinv p \in A) A, all (fun p => pinv p \in B) B & bip ==> no_conjugacy G A B].

(* nodes of the subgraphs: group members, and faces (frozensets of group members, in a normal form) *)
Definition qnode := (perm + seq perm)%type.
Definition face (g a b : perm) : qnode := inr (sort ple (undup [:: g; pmul a g; pmul g b; pmul (pmul a g) b])).
(* python's `<`: by rank for group members, proper inclusion for frozensets (a TypeError otherwise) *)
Definition qlt (x y : qnode) : bool :=
  match x, y with
  | inl p, inl q => plt p q
  | inr s, inr t => all (fun p => p \in t) s && ~~ all (fun p => p \in s) t
  | _, _ => false
  end.
(* networkx.DiGraph.add_edge(u, v, sort=k) *)
Definition add_edge (V : eqType) (g : dgraph V) (e : V * V * option nat) : dgraph V :=
  DGraph (add_new (add_new (dnodes g) e.1.1) e.1.2)
    (if has (fun e' => e'.1 == e.1) (dedges g)
     then [seq (if e'.1 == e.1 then (e.1, if e.2 is Some _ then e.2 else e'.2) else e') | e' <- dedges g]
     else rcons (dedges g) e).

Section Subgraphs.
(* popn: the choice of set.pop() *)
Variable popn : seq perm -> nat.
Variables A B : seq perm.
(* the value of the attribute "sort" is the pair (a, b); python compares pairs lexicographically.  Simplification: the pair is
   represented by its position in that order *)
Definition label (a b : perm) : nat := (index a (sort ple A) * size B + index b (sort ple B))%N.
(* quantum.py:1206-1207: the edges added for a group member g and a pair (a, b) *)
Definition edge_x (t : perm * (perm * perm)) : qnode * qnode * option nat :=
  let: (g, (a, b)) := t in (inl g, face g a b, Some (label a b)).
Definition edge_z (t : perm * (perm * perm)) : qnode * qnode * option nat :=
  let: (g, (a, b)) := t in (inl (pmul a g), face g a b, Some (label (pinv a) b)).
(* quantum.py:1191-1212: the loop, given the state of the two graphs; None is out of fuel *)
Fixpoint sub_loop (fuel : nat) (todo : seq perm) (gx gz : dgraph qnode) : option (dgraph qnode * dgraph qnode) :=
  if todo is [::] then Some (gx, gz) else
  if fuel is f.+1 then
    let g := nth [::] todo (popn todo %% size todo) in
    let ts := [seq (g, (a, b)) | a <- A, b <- B] in
    let new := [seq pmul (pmul ab.1 g) ab.2 | ab <- [seq (a, b) | a <- A, b <- B]] in
    let todo' := foldl (@add_new _) (rem g todo) [seq h <- new | inl h \notin dnodes gx] in
    sub_loop f todo' (foldl (@add_edge _) gx (map edge_x ts)) (foldl (@add_edge _) gz (map edge_z ts))
  else None.
(* quantum.py:1155-1214: get_subgraphs; the StopIteration for an empty subset is None.  A and B are listed in the order in which
   python iterates over the sets *)
Definition get_subgraphs (fuel : nat) : option (dgraph qnode * dgraph qnode) :=
  if A is m :: _ then sub_loop fuel [:: pmul m (pinv m)] (DGraph [::] [::]) (DGraph [::] [::]) else None.
End Subgraphs.

Section Code.
Variable F : fieldType.
Variables (popn : seq perm -> nat) (iter : seq perm -> seq perm).
(* quantum.py:1141-1143 and 1155-1164: get_subcodes and the CSSCode; iter is the order of iteration of python sets *)
Definition qt_code (A B : seq perm) (ca cb : ccode F) (bip : bool) (fuel : nat) : option (csscode F) :=
  if get_subgraphs popn (iter (cover_a bip A)) (iter (cover_b bip B)) fuel is Some (gx, gz) then
    let sx := dual (tensor_product ca cb) in
    let sz := dual (tensor_product (dual ca) (dual cb)) in
    if tanner_code qlt gx sx is Some x then
      if tanner_code qlt gz sz is Some z then
        if cc_n x == cc_n z then Some (mkcss (cc_n x) (cc_mat x) (cc_mat z) (Some false)) else None
      else None
    else None
  else None.
(* quantum.py:1111-1143: QTCode.__init__; None is a ValueError (or a numpy error of the Tanner codes).  G: see no_conjugacy *)
Definition qt_init (G : group) (A B : seq perm) (ca : ccode F) (cb : option (ccode F)) (bip : bool) (fuel : nat) : option (csscode F) :=
  let cb' := if cb is Some c then Some c else if size A == size B then Some (dual ca) else None in
  if cb' is Some c then
    if complex_ok G A B bip then qt_code (undup A) (undup B) ca c bip fuel else None
  else None.
End Code.

(* ============================================================================= proofs *)
Lemma sub_loopS popn A B f t0 todo0 gx gz : let todo := t0 :: todo0 in sub_loop popn A B f.+1 todo gx gz =
  let g := nth [::] todo (popn todo %% size todo) in
  let ts := [seq (g, (a, b)) | a <- A, b <- B] in
  let new := [seq pmul (pmul ab.1 g) ab.2 | ab <- [seq (a, b) | a <- A, b <- B]] in
  let todo' := foldl (@add_new _) (rem g todo) [seq h <- new | inl h \notin dnodes gx] in
  sub_loop popn A B f todo' (foldl (@add_edge _) gx (map (edge_x A B) ts)) (foldl (@add_edge _) gz (map (edge_z A B) ts)).
Proof. by []. Qed.

(* ---------------------------------------------------------------- adding edges *)
Section Build.
Variable V : eqType.
Implicit Types (g : dgraph V) (e : V * V * option nat) (es : seq (V * V * option nat)).
Lemma mem_add_new (s : seq V) x y : (y \in add_new s x) = (y == x) || (y \in s).
Proof. rewrite /add_new; case: ifP => h; last by rewrite mem_rcons inE. by case: eqP => // ->. Qed.
Lemma add_new_uniq (s : seq V) x : uniq s -> uniq (add_new s x).
Proof. by rewrite /add_new; case: ifP => // h u; rewrite rcons_uniq h u. Qed.
Definition build es := foldl (@add_edge V) (DGraph [::] [::]) es.

(* edges with the same ends have the same attribute *)
Definition consistent es := forall e e', e \in es -> e' \in es -> e.1 = e'.1 -> e = e'.

Lemma build_ok es : consistent es -> all (fun e => isSome e.2) es ->
  [/\ uniq (dnodes (build es)), uniq [seq e.1 | e <- dedges (build es)], dedges (build es) =i es
    & forall v, (v \in dnodes (build es)) = has (fun e => (e.1.1 == v) || (e.1.2 == v)) es].
Proof.
rewrite /build; elim/last_ind: es => [//|es e IH] cons allS.
have [|| u1 u2 em nm] := IH.
- by move=> a b ha hb; apply: cons; rewrite mem_rcons inE ?ha ?hb orbT.
- by move: allS; rewrite all_rcons => /andP [].
rewrite foldl_rcons; set g := foldl _ _ es in u1 u2 em nm *.
have sh : has (fun e' => e'.1 == e.1) (dedges g) -> e \in dedges g /\
    [seq (if e'.1 == e.1 then (e.1, if e.2 is Some _ then e.2 else e'.2) else e') | e' <- dedges g] = dedges g.
  have eq e' : e' \in dedges g -> e'.1 == e.1 -> e' = e.
    by rewrite em => h /eqP; apply: cons; rewrite mem_rcons inE ?h ?eqxx ?orbT.
  case/hasP => e' he' h; split; first by rewrite -(eq _ he' h).
  apply: map_id_in => e2 h2; case: eqP => // /eqP h3; rewrite (eq _ h2 h3).
  by move: allS; rewrite all_rcons => /andP []; case: (e) => ? [].
split=> /=.
- by rewrite !add_new_uniq.
- case: ifP => [/sh [_ ->] // | /negbT h]; rewrite map_rcons rcons_uniq u2 andbT.
  by apply/mapP => -[e' h1 h2]; move/hasPn: h => /(_ e' h1); rewrite h2 eqxx.
- move=> e2; rewrite mem_rcons inE -em; case: ifP => [/sh [h ->] | _]; last by rewrite mem_rcons inE.
  by case: eqP => // ->.
by move=> v; rewrite !mem_add_new nm has_rcons [v == _]eq_sym [v == e.1.1]eq_sym orbA [_ || (e.1.1 == v)]orbC.
Qed.

(* the order of the nodes of one kind *)
Lemma build_filter (P : pred V) es : all (fun e => ~~ P e.1.1 && P e.1.2) es ->
  [seq v <- dnodes (build es) | P v] = foldl (@add_new V) [::] [seq e.1.2 | e <- es].
Proof.
rewrite /build; elim/last_ind: es => //= es e IH; rewrite all_rcons => /andP [/andP [h1 h2] /IH {}IH].
rewrite foldl_rcons map_rcons foldl_rcons /= -IH; move: (dnodes _) => s.
have e1 x t : [seq v <- add_new t x | P v] = if P x then add_new [seq v <- t | P v] x else [seq v <- t | P v].
  rewrite /add_new mem_filter; case: (boolP (x \in t)) => hx; first by case: ifP => // ->.
  by rewrite filter_rcons; case: ifP => // ->.
by rewrite !e1 (negbTE h1) h2.
Qed.
End Build.

(* ---------------------------------------------------------------- entries of scattered rows, rows of Tanner codes *)
Lemma nth_scatter (F : fieldType) n (bits : seq nat) (r : seq F) b : size r = size bits -> uniq bits -> all (fun x => x < n)%N bits ->
  (b < n)%N -> nth 0 (scatter n bits r) b = if b \in bits then nth 0 r (index b bits) else 0.
Proof.
move=> sr u al hb.
have [_ s2] := @sum_scatter F n r (mkseq (fun i => (i == b)%:R) n) bits sr u al.
move: s2; rewrite (bigD1 (Ordinal hb)) //= nth_mkseq // eqxx mulr1 big1 => [|i ne]; last first.
  by rewrite nth_mkseq // (negbTE (_ : (i : nat) != b)) ?mulr0.
rewrite addr0 => ->; case: ifP => h.
  have hi : (index b bits < size bits)%N by rewrite index_mem.
  rewrite (bigD1 (Ordinal hi)) //= nth_index // nth_mkseq // eqxx mulr1 big1 ?addr0 // => i ne.
  rewrite nth_mkseq; last by move/allP: al; apply; apply: mem_nth.
  case: eqP => [e|]; last by rewrite mulr0.
  by move: ne; rewrite -val_eqE /= -e index_uniq // eqxx.
rewrite big1 // => i _; rewrite nth_mkseq; last by move/allP: al; apply; apply: mem_nth.
by case: eqP => [e|]; rewrite ?mulr0 //; move: h; rewrite -e mem_nth.
Qed.

Section Rows.
Variables (V : eqType) (ltV : rel V) (F : fieldType).
Lemma tanner_rows (g : dgraph V) (sub c : ccode F) r : tanner_code ltV g sub = Some c -> r \in cc_mat c ->
  exists s r0, let sk := sort (leV ltV) (sinks g) in let nb := sorted_neighbors ltV g s in
  [/\ s \in sources g, r0 \in cc_mat sub, all (fun t => t \in sk) nb, (size nb == cc_n sub) || (cc_n sub == 1%N) &
      r = scatter (size sk) [seq index t sk | t <- nb] r0].
Proof.
rewrite /tanner_code; case: ifP => // al [<-] /= /flattenP [b]; rewrite mem_pmap map_id => /mapP [s]; rewrite mem_sort => hs.
case: ifP => // /andP [h1 h2] [->] /mapP [r0 h0 ->].
by exists s, r0.
Qed.
Lemma tanner_n (g : dgraph V) (sub c : ccode F) : tanner_code ltV g sub = Some c -> cc_n c = size (sort (leV ltV) (sinks g)).
Proof. by rewrite /tanner_code; case: ifP => // _ [<-]. Qed.
End Rows.

(* ---------------------------------------------------------------- faces *)
Lemma qlt_asym x y : qlt x y -> ~~ qlt y x.
Proof.
case: x y => [p|s] [q|t] //=; last by case/andP => -> /negbTE ->.
by move=> h; apply/negP => /(plt_trans h); rewrite plt_irr.
Qed.

Lemma mem_gt0 (T : eqType) (x : T) s : x \in s -> (0 < size s)%N. Proof. by case: s. Qed.

Section Complex.
Variables (n : nat) (U : group).
Hypothesis gU : grp_ok n U.
Variables A B : seq perm.
Hypotheses (uA : uniq A) (uB : uniq B) (AU : {subset A <= U}) (BU : {subset B <= U}).
Hypotheses (symA : forall a, a \in A -> pinv a \in A) (symB : forall b, b \in B -> pinv b \in B).
Variable par : perm -> bool.
Hypotheses (parA : forall a g, a \in A -> g \in U -> par (pmul a g) = ~~ par g)
           (parB : forall b g, b \in B -> g \in U -> par (pmul g b) = ~~ par g).
Hypothesis noconj : forall a b g, a \in A -> b \in B -> g \in U -> pmul a g <> pmul g b.

Let vA a : a \in A -> valid n a. Proof. by move/AU/(g_valid gU). Qed.
Let vB a : a \in B -> valid n a. Proof. by move/BU/(g_valid gU). Qed.
Let vU a : a \in U -> valid n a. Proof. exact: (g_valid gU). Qed.
Let UA a g : a \in A -> g \in U -> pmul a g \in U. Proof. by move=> /AU ha hg; apply: (g_mul gU). Qed.
Let UB b g : b \in B -> g \in U -> pmul g b \in U. Proof. by move=> /BU hb hg; apply: (g_mul gU). Qed.

Lemma inA a a' g : a \in A -> a' \in A -> g \in U -> pmul a g = pmul a' g -> a = a'.
Proof.
move=> ha ha' hg /(congr1 (fun p => pmul p (pinv g))); have v := vA ha; have v' := vA ha'; have vg := vU hg.
by rewrite !(@pmulpK n).
Qed.
Lemma inB b b' g : b \in B -> b' \in B -> g \in U -> pmul g b = pmul g b' -> b = b'.
Proof.
move=> ha ha' hg /(congr1 (fun p => pmul (pinv g) p)); have v := vB ha; have v' := vB ha'; have vg := vU hg.
by rewrite !(@pmulKp n).
Qed.

Definition corners (g a b : perm) : seq perm := [:: g; pmul a g; pmul g b; pmul (pmul a g) b].
Lemma corners_uniq g a b : g \in U -> a \in A -> b \in B -> uniq (corners g a b).
Proof.
move=> hg ha hb; have p1 := parA ha hg; have p2 := parB hb hg; have p3 := parB hb (UA ha hg).
have ne p q : par p != par q -> p != q by apply: contra => /eqP ->.
have n1 : g != pmul (pmul a g) b.
  apply/eqP => e; apply: (noconj ha (symB hb) hg); rewrite {2}e (@pmulpK n) //; [exact: vB | exact/vU/UA].
have n2 : pmul a g != pmul g b by apply/eqP; exact: noconj.
by rewrite /= !inE !negb_or n1 n2 !ne ?p3 ?p1 ?p2 //; case: (par g).
Qed.

Lemma face_mem g a b g' a' b' : face g a b = face g' a' b' -> corners g a b =i corners g' a' b'.
Proof. by case=> e p; rewrite -[LHS]mem_undup -[RHS]mem_undup -[LHS](mem_sort ple) -[RHS](mem_sort ple) e. Qed.
Lemma ple_total : total ple.
Proof.
move=> p q; rewrite /ple; case h: (plt q p) => //=; apply/negP => h'; by move: (plt_trans h h'); rewrite plt_irr.
Qed.
Lemma ple_trans : transitive ple.
Proof.
move=> q p r; rewrite /ple => h1 h2; apply/negP => h.
case: (altP (p =P q)) h1 h2 h => [-> _ /negbTE -> // | ne h1 h2 h].
by move/plt_total: ne; rewrite (negbTE h1) orbF => h3; move: h2; rewrite (plt_trans h h3).
Qed.
Lemma ple_anti : antisymmetric ple.
Proof. by move=> p q /andP [h1 h2]; apply/eqP/negPn/negP => /plt_total; rewrite (negbTE h1) (negbTE h2). Qed.
Lemma face_eq g a b g' a' b' : corners g a b =i corners g' a' b' -> face g a b = face g' a' b'.
Proof.
move=> h; congr inr; apply/perm_sortP; [exact: ple_total | exact: ple_trans | exact: ple_anti |].
by apply: uniq_perm; rewrite ?undup_uniq // => p; rewrite !mem_undup; exact: h.
Qed.
Lemma face_left g a b : g \in U -> a \in A -> face g a b = face (pmul a g) (pinv a) b.
Proof.
move=> hg ha; apply: face_eq => p; rewrite /corners (@pmulKp n) ?(vA ha) ?(vU hg) // !inE.
by case: (p == g); case: (p == pmul a g); case: (p == pmul g b); case: (p == _).
Qed.
Lemma face_right g a b : g \in U -> a \in A -> b \in B -> face g a b = face (pmul g b) a (pinv b).
Proof.
move=> hg ha hb; apply: face_eq => p; rewrite /corners; have va := vA ha; have vb := vB hb; have vg := vU hg; have vag := vU (UA ha hg).
rewrite (@pmulA n) // !(@pmulpK n) // !inE.
by case: (p == g); case: (p == pmul a g); case: (p == pmul g b); case: (p == _).
Qed.
Lemma face_inj g a b a' b' : g \in U -> a \in A -> b \in B -> a' \in A -> b' \in B ->
  face g a b = face g a' b' -> a = a' /\ b = b'.
Proof.
move=> hg ha hb ha' hb' /face_mem e.
have np p q : par p = ~~ par q -> p <> q by move=> h h'; move: h; rewrite h'; case: (par q).
split.
- have : pmul a g \in corners g a' b' by rewrite -e !inE eqxx orbT.
  rewrite !inE => /or4P [] /eqP h.
  + by case: (np _ _ (parA ha hg)).
  + exact: inA h.
  + by case: (noconj ha hb' hg).
  + case: (np (pmul (pmul a' g) b') (pmul a g)); last by [].
    by rewrite parB ?UA // !parA.
have : pmul g b \in corners g a' b' by rewrite -e !inE eqxx !orbT.
rewrite !inE => /or4P [] /eqP h.
+ by case: (np _ _ (parB hb hg)).
+ by case: (noconj ha' hb hg).
+ exact: inB h.
case: (np (pmul (pmul a' g) b') (pmul g b)); last by [].
by rewrite parB ?UA // parA // parB.
Qed.
(* the faces of a node on the other side *)
Lemma face_cross s h a b a' b' : s \in U -> h \in U -> par h = ~~ par s -> a \in A -> b \in B -> a' \in A -> b' \in B ->
  face s a b = face h a' b' -> (h = pmul a s /\ a' = pinv a /\ b' = b) \/ (h = pmul s b /\ a' = a /\ b' = pinv b).
Proof.
move=> hs hh ph ha hb ha' hb' e.
have np p q : par p = ~~ par q -> p <> q by move=> h1 h'; move: h1; rewrite h'; case: (par q).
have : h \in corners s a b by rewrite (face_mem e) inE eqxx.
rewrite !inE => /or4P [] /eqP eh.
- by case: (np _ _ ph).
- left; split=> //; move: e; rewrite eh (face_left _ hs ha) => e.
  by have [|||||<- <-] := face_inj _ _ _ _ _ e; rewrite ?UA ?symA.
- right; split=> //; move: e; rewrite eh (face_right hs ha hb) => e.
  by have [|||||<- <-] := face_inj _ _ _ _ _ e; rewrite ?UB ?symB.
case: (np _ _ ph); rewrite eh; move: ph; rewrite eh parB ?UA // parA // negbK; by case: (par s).
Qed.

(* ---------------------------------------------------------------- the two graphs *)
Definition anth (k : nat) : perm := nth [::] (sort ple A) (k %/ size B).
Definition bnth (k : nat) : perm := nth [::] (sort ple B) (k %% size B).
Lemma anthA k : (k < size A * size B)%N -> anth k \in A.
Proof.
move=> h; rewrite -(mem_sort ple) mem_nth // size_sort ltn_divLR //.
by move: h; case: (size B) => //; rewrite muln0.
Qed.
Lemma bnthB k : (k < size A * size B)%N -> bnth k \in B.
Proof.
move=> h; rewrite -(mem_sort ple) mem_nth // size_sort ltn_mod.
by move: h; case: (size B) => //; rewrite muln0.
Qed.
Lemma label_nth k : (k < size A * size B)%N -> label A B (anth k) (bnth k) = k.
Proof.
move=> h; have hB : (0 < size B)%N by move: h; case: (size B) => //; rewrite muln0.
rewrite /label /anth /bnth !index_uniq ?size_sort ?sort_uniq ?ltn_mod ?ltn_divLR //.
by rewrite -divn_eq.
Qed.
Lemma label_lt a b : a \in A -> b \in B -> (label A B a b < size A * size B)%N.
Proof.
move=> ha hb; rewrite /label.
have : (index a (sort ple A) < size A)%N by rewrite -(size_sort ple) index_mem mem_sort.
have : (index b (sort ple B) < size B)%N by rewrite -(size_sort ple) index_mem mem_sort.
by clear; nia.
Qed.
Lemma nth_label a b : a \in A -> b \in B -> anth (label A B a b) = a /\ bnth (label A B a b) = b.
Proof.
move=> ha hb; rewrite /label /anth /bnth.
have h : (index b (sort ple B) < size B)%N by rewrite -(size_sort ple) index_mem mem_sort.
have h0 : (0 < size B)%N by case: (size B) h.
by rewrite divnMDl // divn_small // addn0 modnMDl modn_small // !nth_index ?mem_sort.
Qed.

Definition slots := iota 0 (size A * size B).
Definition face_at (g : perm) (k : nat) : qnode := face g (anth k) (bnth k).
Lemma face_at_inj g : g \in U -> {in slots &, injective (face_at g)}.
Proof.
move=> hg k k'; rewrite !mem_iota !add0n /= => hk hk' e.
have [|||||e1 e2] := face_inj _ _ _ _ _ e; rewrite ?anthA ?bnthB //.
by rewrite -(label_nth hk) e1 e2 label_nth.
Qed.

Section Graph.
Variables (es : seq (qnode * qnode * option nat)) (Q : seq perm).
Hypothesis esP : forall e, e \in es <->
  exists g a b, [/\ g \in Q, a \in A, b \in B & e = (inl g, face g a b, Some (label A B a b))].
Hypothesis QU : {subset Q <= U}.

Lemma es_cons : consistent es.
Proof.
move=> e e' /esP [g [a [b [hg ha hb ->]]]] /esP [g' [a' [b' [hg' ha' hb' ->]]]] [<-] ef.
by have [-> ->] := face_inj (QU hg) ha hb ha' hb' (congr1 inr ef : face g a b = face g a' b').
Qed.
Lemma es_some : all (fun e => isSome e.2) es.
Proof. by apply/allP => e /esP [g [a [b [_ _ _ ->]]]]. Qed.
Lemma es_simple : simple (build es).
Proof.
have [u1 u2 em nm] := build_ok es_cons es_some; split=> // e; rewrite em => he.
by rewrite !nm; apply/andP; split; apply/hasP; exists e; rewrite // eqxx ?orbT.
Qed.
Lemma es_order g : g \in Q -> in_order qlt (build es) (inl g) [seq (face_at g k, Some k) | k <- slots].
Proof.
move=> hg; have [_ _ em _] := build_ok es_cons es_some; split.
- move=> t k; rewrite em; apply/mapP/idP => [|/esP].
    case=> i; rewrite mem_iota add0n /= => hi [-> ->]; apply/esP; exists g, (anth i), (bnth i).
    by rewrite anthA ?bnthB ?label_nth.
  case=> g' [a [b [_ ha hb [<- -> ->]]]]; exists (label A B a b); first by rewrite mem_iota label_lt.
  by rewrite /face_at; have [-> ->] := nth_label ha hb.
- by rewrite map_inj_uniq ?iota_uniq // => i j [].
rewrite pairwise_map; apply: (@sub_pairwise _ ltn) => [i j //|].
by rewrite -sorted_pairwise ?iota_ltn_sorted //; exact: ltn_trans.
Qed.
Lemma es_neighbors g : g \in Q -> sorted_neighbors qlt (build es) (inl g) = [seq face_at g k | k <- slots].
Proof.
move=> hg; rewrite /sorted_neighbors (tanner_order qlt_asym es_simple (es_order hg)) -map_comp.
by apply: eq_map.
Qed.
Lemma es_node p : inl p \in dnodes (build es) -> p \in Q.
Proof.
have [_ _ _ ->] := build_ok es_cons es_some; case/hasP => e /esP [g [a [b [hg _ _ ->]]]] /=.
by rewrite orbF => /eqP [<-].
Qed.
Lemma es_sources s : s \in sources (build es) -> exists2 g, g \in Q & s = inl g.
Proof.
have [_ _ em nm] := build_ok es_cons es_some.
rewrite mem_filter => /andP [h1 h2]; case: s h1 h2 => [p | f] h1 h2; first by exists p; rewrite ?es_node.
exfalso; move: h2; rewrite nm => /hasP [e he /orP [] h]; last by move/hasPn: h1 => /(_ e); rewrite em he h => /(_ isT).
by move/esP: he h => [g [a [b [_ _ _ ->]]]].
Qed.
Definition isface (v : qnode) : bool := if v is inr _ then true else false.
Lemma es_sinks : sinks (build es) = foldl (@add_new _) [::] [seq e.1.2 | e <- es].
Proof.
have [_ _ em nm] := build_ok es_cons es_some.
rewrite -(@build_filter _ isface); last by apply/allP => e /esP [g [a [b [_ _ _ ->]]]].
apply: eq_in_filter => v hv; apply/hasPn/idP => [h | hf e].
  case: v h hv => // p h; rewrite nm => /hasP [e he /orP [] hp].
    by move: (h e); rewrite em he hp => /(_ isT).
  by move/esP: he hp => [g [a [b [_ _ _ ->]]]].
by rewrite em => /esP [g [a [b [_ _ _ ->]]]] /=; case: v hf {hv}.
Qed.
Lemma mem_add_list (T : eqType) (s l : seq T) x : (x \in foldl (@add_new T) s l) = (x \in s) || (x \in l).
Proof. by elim: l s => [|y l IH] s /=; rewrite ?orbF // IH mem_add_new inE orbA [(_ == _) || _]orbC. Qed.
Lemma es_sink t : t \in sinks (build es) -> exists g a b, [/\ g \in Q, a \in A, b \in B & t = face g a b].
Proof.
rewrite es_sinks mem_add_list /= => /mapP [e /esP [g [a [b [hg ha hb ->]]]] ->].
by exists g, a, b.
Qed.
Lemma es_sort : sort (leV qlt) (sinks (build es)) = sinks (build es).
Proof.
apply: pairwise_sort; apply/(pairwiseP (inl [::])) => i j hi hj _.
have [g [a [b [hg ha hb ->]]]] := es_sink (mem_nth (inl [::]) hi).
have [g' [a' [b' [hg' ha' hb' ->]]]] := es_sink (mem_nth (inl [::]) hj).
have u x y z : x \in Q -> y \in A -> z \in B -> let s := sort ple (undup (corners x y z)) in uniq s /\ size s = 4%N.
  move=> hx hy hz; cbv zeta; rewrite sort_uniq undup_uniq size_sort undup_id //.
  exact: corners_uniq (QU hx) hy hz.
rewrite /leV /qlt /face -/(corners g a b) -/(corners g' a' b').
have [u1 s1] := u _ _ _ hg ha hb; have [u2 s2] := u _ _ _ hg' ha' hb'.
rewrite negb_and negbK -implybE; apply/implyP => /allP sub.
have [|_ h] := uniq_min_size u2 sub; first by rewrite s1 s2.
by apply/allP => p hp; rewrite h.
Qed.
End Graph.

Lemma sum_divmod (V : zmodType) a b (f : nat -> nat -> V) :
  \sum_(m < a * b) f (m %/ b)%N (m %% b)%N = \sum_(i < a) \sum_(j < b) f i j.
Proof.
elim: a => [|a IH]; first by rewrite mul0n !big_ord0.
rewrite mulSnr big_split_ord big_ord_recr; congr (_ + _); first by rewrite -IH; apply: eq_bigr.
apply: eq_bigr => j _ /=; have b0 : (0 < b)%N by apply: leq_ltn_trans (ltn_ord j).
by rewrite divnMDl // divn_small // addn0 modnMDl modn_small.
Qed.

(* ---------------------------------------------------------------- checks of neighbouring nodes *)
Section Overlap.
Variable F : fieldType.
Variables r0 r1 : seq F.
Let nA := size A.
Let nB := size B.
Hypothesis rows0 : forall i i', (i < nA)%N -> (i' < nA)%N -> \sum_(j < nB) nth 0 r0 (i * nB + j) * nth 0 r1 (i' * nB + j) = 0.
Hypothesis cols0 : forall j j', (j < nB)%N -> (j' < nB)%N -> \sum_(i < nA) nth 0 r0 (i * nB + j) * nth 0 r1 (i * nB + j') = 0.

Definition value (h : perm) (t : qnode) : F := let nb := [seq face_at h k | k <- slots] in if t \in nb then nth 0 r1 (index t nb) else 0.
Lemma value_face h a b : h \in U -> a \in A -> b \in B -> value h (face h a b) = nth 0 r1 (label A B a b).
Proof.
move=> hh ha hb; rewrite /value; have [e1 e2] := nth_label ha hb.
have -> : face h a b = face_at h (label A B a b) by rewrite /face_at e1 e2.
have hl : label A B a b \in slots by rewrite mem_iota label_lt.
rewrite map_f // -[X in index _ X]/(map (face_at h) slots).
congr nth; have {2}-> : label A B a b = index (label A B a b) slots.
  have {2}-> : label A B a b = nth 0%N slots (label A B a b) by rewrite nth_iota // label_lt.
  by rewrite index_uniq ?iota_uniq // size_iota label_lt.
elim: slots (@face_at_inj h hh) hl => //= x l IH inj; rewrite inE.
case: (altP (label A B a b =P x)) => [-> _ | ne /= hl]; first by rewrite !eqxx.
rewrite [x == _]eq_sym (negbTE ne); case: eqP => [e|_].
  by case/negP: ne; apply/eqP/inj; rewrite ?inE ?eqxx ?hl ?orbT.
by rewrite IH // => y z hy hz; apply: inj; rewrite inE ?hy ?hz orbT.
Qed.
Lemma value_none h t : (forall a b, a \in A -> b \in B -> t <> face h a b) -> value h t = 0.
Proof.
move=> ne; rewrite /value; case: ifP => // /mapP [k]; rewrite mem_iota add0n /= => hk e.
by case: (ne _ _ (anthA hk) (bnthB hk) e).
Qed.

Lemma overlap s h : s \in U -> h \in U -> par h = ~~ par s ->
  \sum_(k < nA * nB) nth 0 r0 k * value h (face_at s k) = 0.
Proof.
move=> hs hh ph.
case: (boolP (has (fun a => pmul a s == h) A)) => [/hasP [a0 ha0 /eqP e0] | /hasPn nl].
  have hi0 : (index a0 (sort ple A) < nA)%N by rewrite /nA -(size_sort ple A) index_mem mem_sort.
  have hi1 : (index (pinv a0) (sort ple A) < nA)%N by rewrite /nA -(size_sort ple A) index_mem mem_sort symA.
  pose f i j := if i == index a0 (sort ple A) then nth 0 r0 (i * nB + j) * nth 0 r1 (index (pinv a0) (sort ple A) * nB + j) else 0.
  transitivity (\sum_(k < nA * nB) f (k %/ nB)%N (k %% nB)%N).
    apply: eq_bigr => k _; have hk := ltn_ord k; have ha := anthA hk; have hb := bnthB hk.
    have hB : (0 < nB)%N := mem_gt0 hb.
    rewrite /f -divn_eq; have -> : ((k %/ nB)%N == index a0 (sort ple A)) = (anth k == a0).
      apply/eqP/eqP => [e | <-]; first by rewrite /anth -/nB e nth_index ?mem_sort.
      by rewrite /anth index_uniq ?sort_uniq ?size_sort ?ltn_divLR.
    case: eqP => [ea | ne]; last first.
      rewrite value_none ?mulr0 // => a b ha' hb' e.
      case: (face_cross hs hh ph ha hb ha' hb' e) => [[eh _] | [eh _]].
        by apply: ne; apply: (@inA _ _ s) => //; rewrite -eh.
      by apply: (noconj ha0 hb hs); rewrite e0.
    congr (_ * _); rewrite /face_at ea (face_left _ hs ha0) e0 value_face ?symA //; congr nth.
    rewrite /label -/nB; congr (_ + _)%N.
    by rewrite /bnth index_uniq ?sort_uniq ?size_sort ?ltn_mod.
  rewrite sum_divmod (bigD1 (Ordinal hi0)) //= /f eqxx rows0 // add0r big1 // => i ne.
  by rewrite big1 // => j _; rewrite -val_eqE /= in ne; rewrite (negbTE ne).
case: (boolP (has (fun b => pmul s b == h) B)) => [/hasP [b0 hb0 /eqP e0] | /hasPn nr].
  have hi0 : (index b0 (sort ple B) < nB)%N by rewrite /nB -(size_sort ple B) index_mem mem_sort.
  have hi1 : (index (pinv b0) (sort ple B) < nB)%N by rewrite /nB -(size_sort ple B) index_mem mem_sort symB.
  pose f i j := if j == index b0 (sort ple B) then nth 0 r0 (i * nB + j) * nth 0 r1 (i * nB + index (pinv b0) (sort ple B)) else 0.
  transitivity (\sum_(k < nA * nB) f (k %/ nB)%N (k %% nB)%N).
    apply: eq_bigr => k _; have hk := ltn_ord k; have ha := anthA hk; have hb := bnthB hk.
    have hB : (0 < nB)%N := mem_gt0 hb.
    rewrite /f -divn_eq; have -> : ((k %% nB)%N == index b0 (sort ple B)) = (bnth k == b0).
      apply/eqP/eqP => [e | <-]; first by rewrite /bnth -/nB e nth_index ?mem_sort.
      by rewrite /bnth index_uniq ?sort_uniq ?size_sort ?ltn_mod.
    case: eqP => [eb | ne]; last first.
      rewrite value_none ?mulr0 // => a b ha' hb' e.
      case: (face_cross hs hh ph ha hb ha' hb' e) => [[eh _] | [eh _]].
        by move: (nl _ ha); rewrite eh eqxx.
      by apply: ne; apply: (@inB _ _ s) => //; rewrite -eh.
    congr (_ * _); rewrite /face_at eb (face_right hs ha hb0) e0 value_face ?symB //; congr nth.
    rewrite /label -/nB; congr (_ * _ + _)%N.
    by rewrite /anth index_uniq ?sort_uniq ?size_sort ?ltn_divLR.
  rewrite sum_divmod exchange_big (bigD1 (Ordinal hi0)) //= /f eqxx cols0 // add0r big1 // => i ne.
  by rewrite big1 // => j _; rewrite -val_eqE /= in ne; rewrite (negbTE ne).
apply: big1 => k _; have hk := ltn_ord k; have ha := anthA hk; have hb := bnthB hk.
rewrite value_none ?mulr0 // => a b ha' hb' e.
case: (face_cross hs hh ph ha hb ha' hb' e) => [[eh _] | [eh _]].
  by move: (nl _ ha); rewrite eh eqxx.
by move: (nr _ hb); rewrite eh eqxx.
Qed.
End Overlap.

(* ---------------------------------------------------------------- the loop *)
Definition block (g : perm) : seq (perm * (perm * perm)) := [seq (g, (a, b)) | a <- A, b <- B].
Definition blocks (gs : seq perm) := flatten (map block gs).
Lemma mem_blocks gs g a b : ((g, (a, b)) \in blocks gs) = [&& g \in gs, a \in A & b \in B].
Proof.
apply/flattenP/and3P => [[l /mapP [g' hg ->]] /allpairsP [[a' b'] /= [ha hb [-> -> ->]]] | [hg ha hb]].
  by rewrite hg ha hb.
by exists (block g); [apply: map_f | apply/allpairsP; exists (a, b)].
Qed.
Definition gx_of gs := build (map (edge_x A B) (blocks gs)).
Definition gz_of gs := build (map (edge_z A B) (blocks gs)).
Lemma blocks_rcons gs g : blocks (rcons gs g) = blocks gs ++ block g.
Proof. by rewrite /blocks map_rcons flatten_rcons. Qed.
Lemma gx_rcons gs g : foldl (@add_edge _) (gx_of gs) (map (edge_x A B) (block g)) = gx_of (rcons gs g).
Proof. by rewrite /gx_of /build blocks_rcons map_cat foldl_cat. Qed.
Lemma gz_rcons gs g : foldl (@add_edge _) (gz_of gs) (map (edge_z A B) (block g)) = gz_of (rcons gs g).
Proof. by rewrite /gz_of /build blocks_rcons map_cat foldl_cat. Qed.

Definition zs_of gs := [seq pmul a g | a <- A, g <- gs].
Definition closed (gs gs' : seq perm) := forall g a b, g \in gs -> a \in A -> b \in B -> pmul (pmul a g) b \in gs'.
Lemma xP gs e : e \in map (edge_x A B) (blocks gs) <->
  exists g a b, [/\ g \in gs, a \in A, b \in B & e = (inl g, face g a b, Some (label A B a b))].
Proof.
split=> [/mapP [[g [a b]]] | [g [a [b [hg ha hb ->]]]]].
  by rewrite mem_blocks => /and3P [hg ha hb] ->; exists g, a, b.
by apply/mapP; exists (g, (a, b)); rewrite // mem_blocks hg ha hb.
Qed.
Lemma zP gs e : {subset gs <= U} -> closed gs gs -> e \in map (edge_z A B) (blocks gs) <->
  exists g a b, [/\ g \in zs_of gs, a \in A, b \in B & e = (inl g, face g a b, Some (label A B a b))].
Proof.
move=> gsU cl; split=> [/mapP [[g [a b]]] | [h [a [b [/allpairsP [[a1 g] /= [ha1 hg ->]] ha hb ->]]]]].
  rewrite mem_blocks => /and3P [hg ha hb] ->; exists (pmul a g), (pinv a), b; split=> //; last 1 first.
    by rewrite /= (face_left _ (gsU _ hg) ha).
    by apply/allpairsP; exists (a, g).
  exact: symA.
have hgU := gsU _ hg; have v := vU hgU; have va := vA ha; have va1 := vA ha1; have vb := vB hb; have vag := vU (UA ha1 hgU).
have hU := UA ha (UA ha1 hgU).
have hg' : pmul a (pmul a1 g) \in gs.
  have := cl _ a (pinv b) (cl _ a1 b hg ha1 hb) ha (symB hb).
  by rewrite (@pmulA n a) ?valid_pmul // (@pmulpK n) // valid_pmul.
apply/mapP; exists (pmul a (pmul a1 g), (pinv a, b)); first by rewrite mem_blocks hg' symA.
rewrite /= -(face_left _ (UA ha1 hgU) ha) (@pmulKp n) // (@pinvK n) //.
Qed.

Section Loop.
Variable popn : seq perm -> nat.
Variable p0 : bool.
Definition fine (gs : seq perm) := {subset gs <= U} /\ forall g, g \in gs -> par g = p0.
Lemma sub_loopP fuel todo gs gx gz : fine (gs ++ todo) -> closed gs (gs ++ todo) ->
  sub_loop popn A B fuel todo (gx_of gs) (gz_of gs) = Some (gx, gz) ->
  exists gs', [/\ gx = gx_of gs', gz = gz_of gs', fine gs', closed gs' gs' & {subset gs ++ todo <= gs'}].
Proof.
elim: fuel todo gs => [|f IH] [|t0 todo] gs fi cl //.
- by case=> <- <-; exists gs; rewrite cats0 in fi cl *; split.
- by case=> <- <-; exists gs; rewrite cats0 in fi cl *; split.
rewrite sub_loopS; cbv zeta; set td := t0 :: todo in fi cl *; set g := nth _ td _.
have gt : g \in td by rewrite mem_nth // ltn_mod.
rewrite gx_rcons gz_rcons; set td' := foldl _ _ _.
have [fU fp] := fi.
have gU' : g \in U by apply: fU; rewrite mem_cat gt orbT.
have pg : par g = p0 by apply: fp; rewrite mem_cat gt orbT.
have gsU : {subset gs <= U} by move=> x hx; apply: fU; rewrite mem_cat hx.
have tdm x : x \in td' -> (x \in td) \/ exists a b, [/\ a \in A, b \in B & x = pmul (pmul a g) b].
  rewrite mem_add_list => /orP [/mem_rem -> | ]; first by left.
  rewrite mem_filter => /andP [_ /mapP [[a b] /allpairsP [[a' b'] /= [ha hb [-> ->]]] ->]].
  by right; exists a', b'.
have tdk x : x \in td -> x = g \/ x \in td'.
  move=> hx; case: (x =P g) => [-> | ne]; first by left.
  right; rewrite mem_add_list; apply/orP; left.
  by move: hx; rewrite (perm_mem (perm_to_rem gt)) inE => /orP [/eqP /ne | ].
have fi' : fine (rcons gs g ++ td').
  split=> x; rewrite mem_cat mem_rcons inE -orbA => /or3P [/eqP -> // | hx | /tdm [hx | [a [b [ha hb ->]]]]].
  - exact: gsU.
  - by apply: fU; rewrite mem_cat hx orbT.
  - by rewrite UB ?UA.
  - by apply: fp; rewrite mem_cat hx.
  - by apply: fp; rewrite mem_cat hx orbT.
  - by rewrite parB ?UA // parA // negbK.
have cl' : closed (rcons gs g) (rcons gs g ++ td').
  move=> x a b; rewrite mem_rcons inE => /orP [/eqP -> | hx] ha hb; rewrite mem_cat mem_rcons inE.
    case h: (inl (pmul (pmul a g) b) \in dnodes (gx_of gs)).
      by rewrite (es_node (@xP gs) gsU h) !orbT.
    apply/orP; right; rewrite mem_add_list mem_filter h /=; apply/orP; right.
    by apply/mapP; exists (a, b) => //; apply/allpairsP; exists (a, b).
  have := cl x a b hx ha hb; rewrite mem_cat => /orP [-> | /tdk [-> | ->]]; by rewrite ?eqxx ?orbT.
move=> e; have [gs' [e1 e2 e3 e4 e5]] := IH _ _ fi' cl' e; exists gs'; split=> // x.
rewrite mem_cat => /orP [hx | /tdk [-> | hx]]; apply: e5; by rewrite mem_cat mem_rcons inE ?eqxx ?hx ?orbT.
Qed.

(* the loop ends *)
Lemma sub_loop_ends fuel todo gs : fine (gs ++ todo) -> uniq (gs ++ todo) -> (size U < size gs + fuel)%N ->
  sub_loop popn A B fuel todo (gx_of gs) (gz_of gs) <> None.
Proof.
elim: fuel todo gs => [|f IH] [|t0 todo] gs fi u lt //.
  by move: (leq_ltn_trans (uniq_leq_size u fi.1) lt); rewrite addn0 size_cat ltnNge leq_addr.
rewrite sub_loopS; cbv zeta.
set td := t0 :: todo in fi u *; set g := nth _ td _.
have gt : g \in td by rewrite mem_nth // ltn_mod.
rewrite gx_rcons gz_rcons; set td' := foldl _ _ _.
have [fU fp] := fi.
have gU' : g \in U by apply: fU; rewrite mem_cat gt orbT.
have pg : par g = p0 by apply: fp; rewrite mem_cat gt orbT.
have gsU : {subset gs <= U} by move=> x hx; apply: fU; rewrite mem_cat hx.
move: (u); rewrite cat_uniq => /and3P [ugs nt ut].
have tdm x : x \in td' -> (x \in td /\ x != g) \/
    (exists a b, [/\ a \in A, b \in B & x = pmul (pmul a g) b]) /\ inl x \notin dnodes (gx_of gs).
  rewrite mem_add_list => /orP [ | ]; first by rewrite mem_rem_uniq // => /andP [h1 h2]; left.
  rewrite mem_filter => /andP [nn /mapP [[a b] /allpairsP [[a' b'] /= [ha hb [-> ->]]] ex]].
  by right; split=> //; exists a', b'.
apply: IH; last by rewrite size_rcons addSnnS.
  split=> x; rewrite mem_cat mem_rcons inE -orbA => /or3P [/eqP -> // | hx | /tdm [[hx _] | [[a [b [ha hb ->]]] _]]].
  - exact: gsU.
  - by apply: fU; rewrite mem_cat hx orbT.
  - by rewrite UB ?UA.
  - by apply: fp; rewrite mem_cat hx.
  - by apply: fp; rewrite mem_cat hx orbT.
  - by rewrite parB ?UA // parA // negbK.
have gn : g \notin gs by apply/negP => h; move/hasPn: nt => /(_ g gt); rewrite /= h.
rewrite cat_uniq rcons_uniq gn ugs /=; apply/andP; split.
  apply/hasPn => x /tdm; rewrite /= mem_rcons inE negb_or => -[[hx ne] | [[a [b [ha hb ex]]] nn]].
    by rewrite ne /=; move/hasPn: nt => /(_ x hx).
  have := corners_uniq gU' ha hb; rewrite /= !inE !negb_or -ex => /and4P [/and3P [_ _ h] _ _ _].
  rewrite eq_sym h /=; apply/negP => hx; move/negP: nn; apply.
  have [_ _ _ ->] := build_ok (es_cons (@xP gs) gsU) (es_some (@xP gs)).
  apply/hasP; exists (inl x, face x a b, Some (label A B a b)); last by rewrite /= eqxx.
  by apply/xP; exists x, a, b.
have : uniq (rem g td) by rewrite rem_uniq.
by rewrite /td'; elim: [seq _ <- _ | _] (rem g td) => //= y l IHl s us; apply: IHl; rewrite add_new_uniq.
Qed.

End Loop.

(* ---------------------------------------------------------------- the two Tanner codes *)
Variable popn : seq perm -> nat.
Lemma subgraphsE fuel : A <> [::] -> get_subgraphs popn A B fuel = sub_loop popn A B fuel [:: pid n] (gx_of [::]) (gz_of [::]).
Proof.
have e m A1 : A = m :: A1 -> get_subgraphs popn A B fuel =
    sub_loop popn A B fuel [:: pmul m (pinv m)] (DGraph [::] [::]) (DGraph [::] [::]) by move->.
case eA: {1}A => [//|m A1] _; rewrite (e m A1 eA) (@pmulpV n) //.
by apply: vA; rewrite eA mem_head.
Qed.
Lemma fine1 : fine (par (pid n)) [:: pid n].
Proof. by split=> x; rewrite inE => /eqP -> //; exact: (g_one gU). Qed.
Lemma subgraphsP fuel gx gz : get_subgraphs popn A B fuel = Some (gx, gz) -> exists gs p0,
  [/\ gx = gx_of gs, gz = gz_of gs, fine p0 gs, closed gs gs & pid n \in gs].
Proof.
have [eA | /eqP nA] := altP (A =P [::]); first by rewrite {1}eA.
rewrite subgraphsE // => h; have [||gs [-> -> f c sb]] := @sub_loopP popn (par (pid n)) _ _ _ _ _ _ _ h => //.
  exact: fine1.
by exists gs, (par (pid n)); split=> //; apply: sb; rewrite inE.
Qed.
Lemma subgraphs_end fuel : (size U < fuel)%N -> A <> [::] -> get_subgraphs popn A B fuel <> None.
Proof.
move=> hf nA; rewrite subgraphsE //; apply: (@sub_loop_ends popn (par (pid n))) => //; exact: fine1.
Qed.

Section Commute.
Variable F : fieldType.
Variables sx sz : ccode F.
Hypotheses (nx : cc_n sx = (size A * size B)%N) (nz : cc_n sz = (size A * size B)%N).
Hypotheses (wx : wf (cc_n sx) (cc_mat sx)) (wz : wf (cc_n sz) (cc_mat sz)).
Hypothesis rows_orth : forall r0 r1, r0 \in cc_mat sx -> r1 \in cc_mat sz -> forall i i', (i < size A)%N -> (i' < size A)%N ->
  \sum_(j < size B) nth 0 r0 (i * size B + j) * nth 0 r1 (i' * size B + j) = 0.
Hypothesis cols_orth : forall r0 r1, r0 \in cc_mat sx -> r1 \in cc_mat sz -> forall j j', (j < size B)%N -> (j' < size B)%N ->
  \sum_(i < size A) nth 0 r0 (i * size B + j) * nth 0 r1 (i * size B + j') = 0.

Lemma es_degree (sub : ccode F) (es : seq (qnode * qnode * option nat)) (Q : seq perm) : (forall e, e \in es <->
  exists g a b, [/\ g \in Q, a \in A, b \in B & e = (inl g, face g a b, Some (label A B a b))]) -> {subset Q <= U} ->
  cc_n sub = (size A * size B)%N -> forall s, s \in sources (build es) -> size (neighbors (build es) s) = cc_n sub.
Proof.
move=> eP QU en s hs; have [g hg ->] := es_sources eP QU hs.
rewrite -(size_sort (leK qlt)) (tanner_order qlt_asym (es_simple eP QU) (es_order eP QU hg)).
by rewrite size_map size_iota en.
Qed.

Lemma commute_nodes gs p0 x z : fine p0 gs -> closed gs gs ->
  tanner_code qlt (gx_of gs) sx = Some x -> tanner_code qlt (gz_of gs) sz = Some z ->
  [/\ cc_n x = cc_n z, wf (cc_n x) (cc_mat x), wf (cc_n z) (cc_mat z) &
      forall r s, r \in cc_mat x -> s \in cc_mat z -> \sum_(j < cc_n x) nth 0 r j * nth 0 s j = 0].
Proof.
move=> [gsU gsp] cl tx tz.
have ZU : {subset zs_of gs <= U} by move=> h /allpairsP [[a g] /= [ha hg ->]]; apply/UA/gsU.
have xPg := @xP gs; have zPg : forall e, _ := fun e => @zP gs e gsU cl.
have faces : sinks (gx_of gs) = sinks (gz_of gs).
  rewrite /gx_of /gz_of (es_sinks xPg gsU) (es_sinks zPg ZU) -!map_comp; congr foldl.
  by apply: eq_map => -[g [a b]].
have [nx' wx' _ _ _] := tanner_ok (es_simple xPg gsU) wx (es_degree xPg gsU nx) tx.
have [nz' wz' _ _ _] := tanner_ok (es_simple zPg ZU) wz (es_degree zPg ZU nz) tz.
have enn : cc_n x = cc_n z by rewrite nx' nz' -/(gx_of gs) faces.
split=> // r r' hr hr'.
have [s [r0 [hs h0 _ _ er]]] := tanner_rows tx hr; have [t [r1 [ht h1 _ _ er']]] := tanner_rows tz hr'.
have [g hg es] := es_sources xPg gsU hs; have [h hh et] := es_sources zPg ZU ht.
move: er er'; rewrite es et (es_neighbors xPg gsU hg) (es_neighbors zPg ZU hh).
rewrite (es_sort xPg gsU) (es_sort zPg ZU) -/(gx_of gs) -/(gz_of gs) -faces.
set sk := sinks (gx_of gs).
have usk : uniq sk by rewrite filter_uniq //; case: (es_simple xPg gsU).
have inx g' k : g' \in gs -> k \in slots -> face_at g' k \in sk.
  move=> hg'; rewrite mem_iota add0n /= => hk; rewrite /sk /gx_of (es_sinks xPg gsU) mem_add_list /=.
  apply/mapP; exists (inl g', face_at g' k, Some (label A B (anth k) (bnth k))) => //.
  by apply/xP; exists g', (anth k), (bnth k); rewrite anthA ?bnthB.
have inz g' k : g' \in zs_of gs -> k \in slots -> face_at g' k \in sk.
  move=> hg'; rewrite mem_iota add0n /= => hk; rewrite /sk faces /gz_of (es_sinks zPg ZU) mem_add_list /=.
  apply/mapP; exists (inl g', face_at g' k, Some (label A B (anth k) (bnth k))) => //.
  by apply/zPg; exists g', (anth k), (bnth k); rewrite anthA ?bnthB.
have bits g' : g' \in U -> (forall k, k \in slots -> face_at g' k \in sk) ->
    let bs := [seq index t0 sk | t0 <- [seq face_at g' k | k <- slots]] in
    [/\ size bs = (size A * size B)%N, uniq bs & all (fun b => b < size sk)%N bs].
  move=> hU inn /=; rewrite !size_map size_iota; split=> //.
    rewrite -map_comp map_inj_in_uniq ?iota_uniq // => k k' hk hk' /= e.
    apply: (face_at_inj hU hk hk').
    by rewrite -(nth_index (inl [::]) (inn _ hk)) e nth_index // inn.
  by apply/allP => b /mapP [t0 /mapP [k hk ->] ->]; rewrite index_mem inn.
have [b1 b2 b3] := bits g (gsU _ hg) (fun k => @inx g k hg); have [c1 c2 c3] := bits h (ZU _ hh) (fun k => @inz h k hh).
move=> -> ->.
have sz0 : size r0 = (size A * size B)%N by rewrite -nx; apply/eqP; move/allP: wx; apply.
have sz1 : size r1 = (size A * size B)%N by rewrite -nz; apply/eqP; move/allP: wz; apply.
rewrite nx' -/(gx_of gs) -/sk.
have [_ ->] := @sum_scatter F (size sk) r0 (scatter (size sk) [seq index t0 sk | t0 <- [seq face_at h k | k <- slots]] r1) _ (etrans sz0 (esym b1)) b2 b3.
rewrite b1.
have ph : par h = ~~ par g.
  by move: hh => /allpairsP [[a g'] /= [ha hg' ->]]; rewrite parA ?gsU // !gsp.
rewrite -[RHS](overlap (rows_orth h0 h1) (cols_orth h0 h1) (gsU _ hg) (ZU _ hh) ph).
apply: eq_bigr => k _; congr (_ * _).
have hk : (k : nat) \in slots by rewrite mem_iota ltn_ord.
have ek : nth 0%N [seq index t0 sk | t0 <- [seq face_at g k | k <- slots]] k = index (face_at g k) sk.
  rewrite (nth_map (inl [::])) ?size_map ?size_iota // (nth_map 0%N) ?size_iota // nth_iota //.
rewrite ek nth_scatter ?(etrans sz1 (esym c1)) //; last by rewrite index_mem inx.
rewrite /value.
have inj : {in sk &, injective (index^~ sk)}.
  by move=> u v hu hv /= e; rewrite -(nth_index (inl [::]) hu) e nth_index.
have sub : {subset [seq face_at h k0 | k0 <- slots] <= sk} by move=> u /mapP [k0 hk0 ->]; exact: inz.
have -> : (index (face_at g k) sk \in [seq index t0 sk | t0 <- [seq face_at h k0 | k0 <- slots]]) =
          (face_at g k \in [seq face_at h k0 | k0 <- slots]).
  apply/mapP/idP => [[u hu /inj e] | hu]; last by exists (face_at g k).
  by rewrite e ?inx ?sub.
case: ifP => // _; congr nth.
move: sub; have := inx g k hg hk; move: (face_at g k) => u hu; elim: [seq face_at h k0 | k0 <- slots] => //= v l IH sub.
rewrite IH => [|w hw]; last by apply: sub; rewrite inE hw orbT.
by rewrite (inj_in_eq inj) // sub ?mem_head.
Qed.

(* words of a Tanner code on such a graph *)
Lemma local_words (sub : ccode F) (es : seq (qnode * qnode * option nat)) (Q : seq perm) c : (forall e, e \in es <->
  exists g a b, [/\ g \in Q, a \in A, b \in B & e = (inl g, face g a b, Some (label A B a b))]) -> {subset Q <= U} ->
  cc_n sub = (size A * size B)%N -> wf (cc_n sub) (cc_mat sub) -> tanner_code qlt (build es) sub = Some c ->
  cc_n c = size (sinks (build es)) /\
  forall w, size w = cc_n c -> is_word (cc_n c) (cc_mat c) w <->
    forall g, g \in Q -> is_word (cc_n sub) (cc_mat sub) [seq nth 0 w (index (face_at g k) (sinks (build es))) | k <- slots].
Proof.
move=> eP QU en wsub tc; have si := es_simple eP QU.
have [en' _ _ _ wd] := tanner_ok si wsub (es_degree eP QU en) tc; split=> // w sw.
have [_ _ em nm] := build_ok (es_cons eP QU) (es_some eP).
rewrite (wd w (fun t => nth 0 w (index t (sinks (build es))))); last by rewrite (es_sort eP QU) /assigns sw en'.
have srt g : g \in Q -> [seq nth 0 w (index t.1 (sinks (build es))) | t <- sort (leK qlt) (neighbors (build es) (inl g))] =
    [seq nth 0 w (index (face_at g k) (sinks (build es))) | k <- slots].
  by move=> hg; rewrite (tanner_order qlt_asym si (es_order eP QU hg)) -map_comp.
split=> [h g hg | h s hs]; last by have [g hg ->] := es_sources eP QU hs; rewrite srt //; apply: h.
case: (posnP (size A * size B)%N) => [z0 | pos].
  split=> [|r _]; rewrite en z0 ?big_ord0 // size_map size_iota //.
rewrite -srt //; apply: h; rewrite mem_filter; apply/andP; split.
  by apply/hasPn => e; rewrite em => /eP [g' [a [b [_ _ _ ->]]]].
rewrite nm; apply/hasP; exists (inl g, face g (anth 0) (bnth 0), Some (label A B (anth 0) (bnth 0))); last by rewrite /= eqxx.
by apply/eP; exists g, (anth 0), (bnth 0); rewrite anthA ?bnthB.
Qed.

(* the faces are numbered, and the words are determined by the faces at each node *)
Lemma structure gs p0 x z : fine p0 gs -> closed gs gs ->
  tanner_code qlt (gx_of gs) sx = Some x -> tanner_code qlt (gz_of gs) sz = Some z ->
  let num g a b := index (face g a b) (sinks (gx_of gs)) in
  [/\ forall g a b, g \in gs ++ zs_of gs -> a \in A -> b \in B -> (num g a b < cc_n x)%N,
      forall j, (j < cc_n x)%N -> exists g a b, [/\ g \in gs, a \in A, b \in B & num g a b = j],
      forall g a b g' a' b', g \in gs ++ zs_of gs -> a \in A -> b \in B -> g' \in gs ++ zs_of gs -> a' \in A -> b' \in B ->
        num g a b = num g' a' b' <-> corners g a b =i corners g' a' b',
      forall w, size w = cc_n x -> is_word (cc_n x) (cc_mat x) w <->
        forall g, g \in gs -> is_word (cc_n sx) (cc_mat sx) [seq nth 0 w (num g (anth k) (bnth k)) | k <- slots]
    & forall w, size w = cc_n z -> is_word (cc_n z) (cc_mat z) w <->
        forall g, g \in zs_of gs -> is_word (cc_n sz) (cc_mat sz) [seq nth 0 w (num g (anth k) (bnth k)) | k <- slots]].
Proof.
move=> [gsU gsp] cl tx tz num.
have ZU : {subset zs_of gs <= U} by move=> h /allpairsP [[a g] /= [ha hg ->]]; apply/UA/gsU.
have xPg := @xP gs; have zPg : forall e, _ := fun e => @zP gs e gsU cl.
have faces : sinks (gx_of gs) = sinks (gz_of gs).
  rewrite /gx_of /gz_of (es_sinks xPg gsU) (es_sinks zPg ZU) -!map_comp; congr foldl.
  by apply: eq_map => -[g [a b]].
have [nx' hx] := local_words xPg gsU nx wx tx; have [nz' hz] := local_words zPg ZU nz wz tz.
have inn g a b : g \in gs ++ zs_of gs -> a \in A -> b \in B -> face g a b \in sinks (gx_of gs).
  rewrite mem_cat => /orP [] hg ha hb.
    rewrite /gx_of (es_sinks xPg gsU) mem_add_list /=.
    apply/mapP; exists (inl g, face g a b, Some (label A B a b)) => //.
    by apply/xP; exists g, a, b.
  rewrite faces /gz_of (es_sinks zPg ZU) mem_add_list /=.
  apply/mapP; exists (inl g, face g a b, Some (label A B a b)) => //.
  by apply/zPg; exists g, a, b.
split.
- by move=> g a b hg ha hb; rewrite nx' index_mem inn.
- move=> j; rewrite nx' => hj; have [g [a [b [hg ha hb e]]]] := es_sink xPg gsU (mem_nth (inl [::]) hj).
  exists g, a, b; split=> //; rewrite /num -e index_uniq // filter_uniq //; by case: (es_simple xPg gsU).
- move=> g a b g' a' b' hg ha hb hg' ha' hb'; split=> [e | h]; last by rewrite /num (face_eq h).
  apply: face_mem; rewrite -(nth_index (inl [::]) (inn _ _ _ hg ha hb)) -/(num g a b) e.
  by rewrite /num nth_index ?inn.
- exact: hx.
move=> w sw; rewrite hz //; rewrite /num faces; exact: iff_refl.
Qed.

(* the two Tanner codes exist *)
Lemma tanner_codes gs p0 : fine p0 gs -> closed gs gs ->
  exists x z, tanner_code qlt (gx_of gs) sx = Some x /\ tanner_code qlt (gz_of gs) sz = Some z.
Proof.
move=> [gsU gsp] cl.
have ZU : {subset zs_of gs <= U} by move=> h /allpairsP [[a g] /= [ha hg ->]]; apply/UA/gsU.
have xPg := @xP gs; have zPg : forall e, _ := fun e => @zP gs e gsU cl.
have ex (es : seq (qnode * qnode * option nat)) (Q : seq perm) (eP : forall e, e \in es <->
  exists g a b, [/\ g \in Q, a \in A, b \in B & e = (inl g, face g a b, Some (label A B a b))]) (QU : {subset Q <= U}) (sub : ccode F) :
  cc_n sub = (size A * size B)%N -> exists c, tanner_code qlt (build es) sub = Some c.
  move=> en; apply: tanner_some; [exact: es_simple eP QU | exact: es_degree eP QU en | move=> e].
  have [_ _ -> _] := build_ok (es_cons eP QU) (es_some eP) => he.
  rewrite (es_sinks eP QU) mem_add_list /=; exact: map_f.
have [x ex'] := ex _ _ xPg gsU _ nx; have [z ez] := ex _ _ zPg ZU _ nz.
by exists x, z.
Qed.
End Commute.
End Complex.
