(* Tanner graphs: model of matrix_to_graph and graph_to_matrix in qldpc/codes/common.py:267-294 (ClassicalCode) and 779-814
   (QuditCode). *)
From mathcomp Require Import all_ssreflect.
Set Implicit Arguments.
Unset Strict Implicit.
Unset Printing Implicit Defensive.

(* ============================================================================== model *)
(* networkx.DiGraph (external): nodes and edges in order of insertion; adding a node or an edge again changes nothing but the
   data of the edge.  Node(index, is_data) is a pair, objects.py:155-176.  An edge runs from a check node to a data node and is
   identified by their indices; T is the type of its data *)
Definition node := (nat * bool)%type.
Record graph (T : Type) := Graph { nodes : seq node; edges : seq ((nat * nat) * T) }.
Definition add_node (s : seq node) (v : node) : seq node := if v \in s then s else rcons s v.
Fixpoint put (T : Type) (e : nat * nat) (f : option T -> T) (es : seq ((nat * nat) * T)) : seq ((nat * nat) * T) :=
  if es is (e', d) :: es' then if e' == e then (e', f (Some d)) :: es' else (e', d) :: put e f es' else [:: (e, f None)].
(* graph.add_edge(Node(i, False), Node(j, True)) followed by an update of the data of the edge *)
Definition add_edge (T : Type) (g : graph T) (i j : nat) (f : option T -> T) : graph T :=
  Graph (add_node (add_node (nodes g) (i, false)) (j, true)) (put (i, j) f (edges g)).
Definition empty_graph (T : Type) : graph T := Graph [::] [::].

(* matrix[i, j] = v; None is IndexError *)
Definition set_entry (T : Type) (z : T) (m n : nat) (M : option (seq (seq T))) (e : (nat * nat) * T) : option (seq (seq T)) :=
  if M is Some A then
    if (e.1.1 < m) && (e.1.2 < n) then Some (set_nth [::] A e.1.1 (set_nth z (nth [::] A e.1.1) e.1.2 e.2)) else None
  else None.
Definition num_data (T : Type) (g : graph T) := count (fun v : node => v.2) (nodes g).
Definition num_checks (T : Type) (g : graph T) := size (nodes g) - num_data g.
(* common.py:285-294: ClassicalCode.graph_to_matrix; the result is the shape and the rows of the matrix *)
Definition to_matrix (T : Type) (z : T) (g : graph T) : option (nat * nat * seq (seq T)) :=
  let n := num_data g in
  let m := num_checks g in
  omap (fun A => (m, n, A)) (foldl (set_entry z m n) (Some (nseq m (nseq n z))) (edges g)).

Section Classical.
Variables (F : eqType) (z : F).
(* zip( *np.nonzero(matrix)): indices of the nonzero entries, row by row *)
Definition nonzero (n : nat) (A : seq (seq F)) : seq (nat * nat) :=
  [seq ij <- [seq (i, j) | i <- iota 0 (size A), j <- iota 0 n] | nth z (nth [::] A ij.1) ij.2 != z].
(* common.py:267-283: ClassicalCode.matrix_to_graph *)
Definition matrix_to_graph (n : nat) (A : seq (seq F)) : graph F :=
  foldl (fun g ij => add_edge g ij.1 ij.2 (fun _ => nth z (nth [::] A ij.1) ij.2)) (empty_graph F) (nonzero n A).
Definition graph_to_matrix (g : graph F) : option (nat * nat * seq (seq F)) := to_matrix z g.
End Classical.

Section Qudit.
Variables (F : eqType) (z : F).
(* np.nonzero(matrix.reshape(len(matrix), 2, -1)): (row, xz, col); false is X *)
Definition nonzero_xz (n : nat) (A : seq (seq F)) : seq (nat * bool * nat) :=
  [seq c : nat * bool * nat <- [seq (ix, j) | ix <- [seq (i, xz) | i <- iota 0 (size A), xz <- [:: false; true]], j <- iota 0 n]
     | nth z (nth [::] A c.1.1) (nat_of_bool c.1.2 * n + c.2) != z].
(* common.py:786-793: vals_xz[xz] += int(matrix[row, xz, col]); each cell is visited once and the value starts at zero, so the
   sum is the entry *)
Definition set_xz (xz : bool) (v : F) (old : option (F * F)) : F * F :=
  let o := if old is Some o then o else (z, z) in if xz then (o.1, v) else (v, o.2).
(* common.py:779-802: QuditCode.matrix_to_graph for an FieldArray.  np.reshape(matrix, (0, 2, -1)) raises ValueError.
   For q = 2 the values are stored as Pauli operators; Pauli and QuditOperator are represented by their values here *)
Definition qmatrix_to_graph (n : nat) (A : seq (seq F)) : option (graph (F * F)) :=
  if A is [::] then None
  else Some (foldl (fun g c => add_edge g c.1.1 c.2 (set_xz c.1.2 (nth z (nth [::] A c.1.1) (nat_of_bool c.1.2 * n + c.2))))
              (empty_graph (F * F)) (nonzero_xz n A)).
(* common.py:804-814: QuditCode.graph_to_matrix *)
Definition qgraph_to_matrix (g : graph (F * F)) : option (nat * nat * seq (seq F)) :=
  omap (fun r => (r.1.1, 2 * r.1.2, [seq map fst row ++ map snd row | row <- r.2])) (to_matrix (z, z) g).
End Qudit.

(* ============================================================================= proofs *)
Definition elook (T : Type) (es : seq ((nat * nat) * T)) (e : nat * nat) : option T := omap snd (ohead [seq d <- es | d.1 == e]).

Section Generic.
Variable T : Type.
Implicit Types (es : seq ((nat * nat) * T)) (g : graph T).

Lemma put_keys e f es : [seq d.1 | d <- put e f es] =i e :: [seq d.1 | d <- es].
Proof.
elim: es => [|[e' d] es IH] x //=; case: eqP => [-> | _] /=; first by rewrite !inE orbA orbb.
by rewrite in_cons IH !inE orbCA.
Qed.
Lemma put_uniq e f es : uniq [seq d.1 | d <- es] -> uniq [seq d.1 | d <- put e f es].
Proof.
elim: es => [|[e' d] es IH] //= /andP [h1 h2]; case: eqP => [e1 | ne] /=; first by rewrite h1 h2.
by rewrite IH // andbT put_keys inE negb_or h1 andbT; apply/eqP.
Qed.
Lemma put_look e f es e' : elook (put e f es) e' = if e' == e then Some (f (elook es e)) else elook es e'.
Proof.
rewrite /elook; elim: es => [|[k d] es IH] /=; first by rewrite eq_sym; case: eqP.
case: (k =P e) => [-> | ne] /=; first by rewrite [e == e']eq_sym; case: eqP.
case: (k =P e') => [e1 | ne'] /=; last exact: IH.
by case: eqP => // e2; rewrite e1 e2 in ne.
Qed.
Lemma look_mem es e : isSome (elook es e) = (e \in [seq d.1 | d <- es]).
Proof. by rewrite /elook; elim: es => [|[k d] es IH] //=; rewrite inE eq_sym; case: eqP. Qed.

(* a graph that is well formed: distinct nodes, distinct edges, and the nodes are the ends of the edges *)
Definition gok g := [/\ uniq (nodes g), uniq [seq d.1 | d <- edges g],
  forall i, ((i, false) \in nodes g) = has (fun e : nat * nat => e.1 == i) [seq d.1 | d <- edges g]
  & forall j, ((j, true) \in nodes g) = has (fun e : nat * nat => e.2 == j) [seq d.1 | d <- edges g]].

Lemma add_node_mem s v : add_node s v =i v :: s.
Proof. by move=> x; rewrite /add_node; case: ifP => h; rewrite ?mem_rcons // inE; case: eqP => // ->. Qed.
Lemma add_node_uniq s v : uniq s -> uniq (add_node s v).
Proof. by rewrite /add_node; case: ifP => // h u; rewrite rcons_uniq h. Qed.

Lemma has_put (P : pred (nat * nat)) e f es : has P [seq d.1 | d <- put e f es] = P e || has P [seq d.1 | d <- es].
Proof. by rewrite (eq_has_r (put_keys e f es)). Qed.

Lemma gok_empty : gok (empty_graph T). Proof. by split. Qed.
Lemma gok_add g i j f : gok g -> gok (add_edge g i j f).
Proof.
move=> [h1 h2 h3 h4]; split=> /=.
- by do 2 apply: add_node_uniq.
- exact: put_uniq.
- by move=> k; rewrite !add_node_mem !inE add_node_mem inE h3 has_put /= !xpair_eqE andbF andbT /= eq_sym.
- by move=> k; rewrite !add_node_mem !inE add_node_mem inE h4 has_put /= !xpair_eqE andbF andbT /= eq_sym.
Qed.

(* the indices of the data nodes and of the check nodes *)
Definition idx b g := [seq v.1 | v <- nodes g & v.2 == b].
Lemma idx_uniq b g : gok g -> uniq (idx b g).
Proof.
move=> [h _ _ _]; rewrite map_inj_in_uniq ?filter_uniq // => [[x bx] [y by']]; rewrite !mem_filter /=.
by move=> /andP [/eqP -> _] /andP [/eqP -> _] ->.
Qed.
Lemma idx_mem b g i : (i \in idx b g) = ((i, b) \in nodes g).
Proof.
apply/mapP/idP => [[[x bx]] | h]; last by exists (i, b); rewrite // mem_filter /= eqxx h.
by rewrite mem_filter /= => /andP [/eqP -> h] ->.
Qed.
Lemma num_data_idx g : num_data g = size (idx true g).
Proof. by rewrite size_map size_filter; apply: eq_count => v /=; case: v.2. Qed.
Lemma num_checks_idx g : num_checks g = size (idx false g).
Proof.
rewrite /num_checks /num_data size_map size_filter -(count_predC (fun v : node => v.2) (nodes g)) addKn.
by apply: eq_count => v /=; case: v.2.
Qed.

(* writing all edges into a matrix *)
Definition shape (z : T) m n (A : seq (seq T)) := size A = m /\ forall i, i < m -> size (nth [::] A i) = n.
Lemma set_entries z m n es A : shape z m n A -> uniq [seq d.1 | d <- es] ->
  all (fun d => (d.1.1 < m) && (d.1.2 < n)) es ->
  exists2 B, foldl (set_entry z m n) (Some A) es = Some B & shape z m n B /\
    forall i j, i < m -> j < n -> nth z (nth [::] B i) j = if elook es (i, j) is Some v then v else nth z (nth [::] A i) j.
Proof.
elim: es A => [|[[i j] v] es IH] A sA //=; first by exists A.
move=> /andP [ni u] /andP [lt all]; rewrite lt; case/andP: lt => li lj.
have [sA1 sA2] := sA.
set A' := set_nth _ _ _ _; have sA' : shape z m n A'.
  split; first by rewrite size_set_nth sA1; apply/maxn_idPr.
  move=> k lk; rewrite nth_set_nth /=; case: eqP => [_ | _]; last exact: sA2.
  by rewrite size_set_nth sA2 //; apply/maxn_idPr.
have [B eB [sB hB]] := IH A' sA' u all; exists B => //; split=> // a b la lb; rewrite hB //.
rewrite {2}/elook /=; case: eqP => [[<- <-] | ne] /=; last first.
  rewrite -/(elook es (a, b)); case: (elook es (a, b)) => //.
  rewrite nth_set_nth /=; case: eqP => [ea | //]; rewrite nth_set_nth /=; case: eqP => [eb | _]; last by rewrite ea.
  by case: ne; rewrite ea eb.
case E: (elook es (i, j)) => [w|]; first by move: ni; rewrite -look_mem E.
by rewrite !nth_set_nth /= eqxx nth_set_nth /= eqxx.
Qed.

Lemma set_entries_err z m n es A d : List.In d es -> (m <= d.1.1) || (n <= d.1.2) -> foldl (set_entry z m n) A es = None.
Proof.
have none es' : foldl (set_entry z m n) None es' = None by elim: es'.
elim: es A => [|d' es IH] A //= [-> | h] bad; last by apply: IH.
by rewrite /set_entry !ltnNge -negb_or bad; case: A.
Qed.

Lemma to_matrix_ok z g m n : gok g -> idx false g =i iota 0 m -> idx true g =i iota 0 n ->
  exists B, to_matrix z g = Some (m, n, B) /\ shape z m n B /\
    forall i j, i < m -> j < n -> nth z (nth [::] B i) j = if elook (edges g) (i, j) is Some v then v else z.
Proof.
move=> ok ec ed; have [h1 h2 h3 h4] := ok.
have sc : num_checks g = m.
  by rewrite num_checks_idx (perm_size (uniq_perm (idx_uniq _ ok) (iota_uniq 0 m) ec)) size_iota.
have sd : num_data g = n.
  by rewrite num_data_idx (perm_size (uniq_perm (idx_uniq _ ok) (iota_uniq 0 n) ed)) size_iota.
rewrite /to_matrix sc sd.
have s0 : shape z m n (nseq m (nseq n z)).
  by split; [rewrite size_nseq | move=> i hi; rewrite nth_nseq hi size_nseq].
have rng : all (fun d : (nat * nat) * T => (d.1.1 < m) && (d.1.2 < n)) (edges g).
  rewrite -(all_map (fun d : (nat * nat) * T => d.1) (fun e : nat * nat => (e.1 < m) && (e.2 < n))).
  apply/allP => -[i j] he.
  have : i \in idx false g by rewrite idx_mem h3; apply/hasP; exists (i, j) => //=.
  have : j \in idx true g by rewrite idx_mem h4; apply/hasP; exists (i, j) => //=.
  by rewrite ec ed !mem_iota !add0n /= => -> ->.
have [B eB [sB hB]] := set_entries s0 h2 rng; exists B; rewrite eB /=; split=> //; split=> // i j hi hj.
by rewrite hB //; case: elook => //; rewrite nth_nseq hi nth_nseq hj.
Qed.
End Generic.

(* ---------------------------------------------------------------------------------------- classical codes *)
Section ClassicalProofs.
Variables (F : eqType) (z : F).
Implicit Types (A : seq (seq F)).
Local Notation ent A i j := (nth z (nth [::] A i) j).
Definition wfm (n : nat) (A : seq (seq F)) := all (fun r => size r == n) A.

Lemma mem_nonzero n A i j : ((i, j) \in nonzero z n A) = [&& i < size A, j < n & ent A i j != z].
Proof.
rewrite mem_filter /= andbC; apply/andP/and3P => [[/allpairsP [[a b] /= [h1 h2 [-> ->]]] ne] | [h1 h2 ne]].
  by rewrite !mem_iota !add0n in h1 h2.
by split=> //; apply/allpairsP; exists (i, j); rewrite !mem_iota !add0n.
Qed.
Lemma nonzero_uniq n A : uniq (nonzero z n A).
Proof. by apply/filter_uniq/allpairs_uniq; rewrite ?iota_uniq // => -[a b] [c d]. Qed.

Lemma fold_ok (T : Type) (f : nat * nat -> option T -> T) s (g : graph T) : gok g ->
  gok (foldl (fun g ij => add_edge g ij.1 ij.2 (f ij)) g s).
Proof. by elim: s g => [|c s IH] g h //=; apply/IH/gok_add. Qed.

Lemma fold_look A s (g : graph F) i j :
  elook (edges (foldl (fun g ij => add_edge g ij.1 ij.2 (fun _ => ent A ij.1 ij.2)) g s)) (i, j) =
  if (i, j) \in s then Some (ent A i j) else elook (edges g) (i, j).
Proof.
elim: s g => [|[a b] s IH] g //=; rewrite IH /= put_look inE.
by case: (_ \in s); rewrite ?orbT ?orbF //; case: eqP => // -[-> ->].
Qed.

Lemma graph_look n A i j : elook (edges (matrix_to_graph z n A)) (i, j) =
  if (i, j) \in nonzero z n A then Some (ent A i j) else None.
Proof. exact: fold_look. Qed.

Lemma graph_gok n A : gok (matrix_to_graph z n A).
Proof. exact: (@fold_ok _ (fun ij _ => ent A ij.1 ij.2) _ _ (gok_empty F)). Qed.

Lemma graph_edges n A : [seq d.1 | d <- edges (matrix_to_graph z n A)] =i nonzero z n A.
Proof. by move=> [i j]; rewrite -look_mem graph_look; case: ifP. Qed.

Lemma graph_checks n A i : (i \in idx false (matrix_to_graph z n A)) = (i < size A) && has (fun j => ent A i j != z) (iota 0 n).
Proof.
have [_ _ h _] := graph_gok n A; rewrite idx_mem h (eq_has_r (graph_edges n A)).
apply/hasP/andP => [[[a b]] | [hi /hasP [j hj ne]]].
  rewrite mem_nonzero => /and3P [h1 h2 h3] /= /eqP <-; split=> //; apply/hasP; exists b => //.
  by rewrite mem_iota.
by rewrite mem_iota add0n /= in hj; exists (i, j); rewrite ?mem_nonzero /= ?eqxx // hi ne hj.
Qed.
Lemma graph_data n A j : (j \in idx true (matrix_to_graph z n A)) = (j < n) && has (fun i => ent A i j != z) (iota 0 (size A)).
Proof.
have [_ _ _ h] := graph_gok n A; rewrite idx_mem h (eq_has_r (graph_edges n A)).
apply/hasP/andP => [[[a b]] | [hj /hasP [i hi ne]]].
  rewrite mem_nonzero => /and3P [h1 h2 h3] /= /eqP <-; split=> //; apply/hasP; exists a => //.
  by rewrite mem_iota.
by rewrite mem_iota add0n /= in hi; exists (i, j); rewrite ?mem_nonzero /= ?eqxx // hi ne hj.
Qed.

(* no row and no column is zero *)
Definition touched n A := (forall i, i < size A -> exists2 j, j < n & ent A i j <> z) /\
  (forall j, j < n -> exists2 i, i < size A & ent A i j <> z).

Lemma shape_eq n A B : wfm n A -> shape z (size A) n B -> (forall i j, i < size A -> j < n -> ent B i j = ent A i j) -> B = A.
Proof.
move=> /all_nthP w [s1 s2] h; apply: (@eq_from_nth _ [::]) => // i; rewrite s1 => hi.
have wi : size (nth [::] A i) = n by apply/eqP/w.
apply: (@eq_from_nth _ z); first by rewrite s2 // wi.
by move=> j; rewrite s2 // => hj; apply: h.
Qed.

Lemma roundtrip_iff n A : wfm n A ->
  graph_to_matrix z (matrix_to_graph z n A) = Some (size A, n, A) <-> touched n A.
Proof.
move=> w; split=> [e | [hr hc]]; last first.
  have [||B [e [sB hB]]] := @to_matrix_ok _ z (matrix_to_graph z n A) (size A) n (graph_gok n A).
  - move=> i; rewrite graph_checks mem_iota add0n /=; case: ltnP => //= hi.
    by have [j hj /eqP ne] := hr i hi; apply/hasP; exists j; rewrite ?mem_iota.
  - move=> j; rewrite graph_data mem_iota add0n /=; case: ltnP => //= hj.
    by have [i hi /eqP ne] := hc j hj; apply/hasP; exists i; rewrite ?mem_iota.
  rewrite /graph_to_matrix e; congr (Some (_, _, _)); apply: (shape_eq w sB) => i j hi hj.
  rewrite hB // graph_look mem_nonzero hi hj /=; case: eqP => //= ->.
have [em en] : num_checks (matrix_to_graph z n A) = size A /\ num_data (matrix_to_graph z n A) = n.
  by move: e; rewrite /graph_to_matrix /to_matrix; case: foldl => //= C [-> -> _].
rewrite num_checks_idx in em; rewrite num_data_idx in en.
have full b (k : nat) : size (idx b (matrix_to_graph z n A)) = k ->
    {subset idx b (matrix_to_graph z n A) <= iota 0 k} -> idx b (matrix_to_graph z n A) =i iota 0 k.
  move=> ek sub; have := uniq_min_size (idx_uniq b (graph_gok n A)) sub.
  by rewrite size_iota ek => /(_ (leqnn _)) [].
have fc := full false _ em _; have fd := full true _ en _.
split=> [i hi | j hj].
  have : i \in idx false (matrix_to_graph z n A).
    by rewrite fc ?mem_iota // => k; rewrite graph_checks mem_iota add0n => /andP [].
  rewrite graph_checks => /andP [_ /hasP [j]]; rewrite mem_iota add0n => hj /eqP ne.
  by exists j.
have : j \in idx true (matrix_to_graph z n A).
  by rewrite fd ?mem_iota // => k; rewrite graph_data mem_iota add0n => /andP [].
rewrite graph_data => /andP [_ /hasP [i]]; rewrite mem_iota add0n => hi /eqP ne.
by exists i.
Qed.
End ClassicalProofs.

(* -------------------------------------------------------------------------------------------- qudit codes *)
Section QuditProofs.
Variables (F : eqType) (z : F).
Implicit Types (A : seq (seq F)).
Local Notation ent A i j := (nth z (nth [::] A i) j).

(* the matrix of pairs (x, z) *)
Definition pairs n A := [seq [seq (nth z r j, nth z r (n + j)) | j <- iota 0 n] | r <- A].
Definition unpair (B : seq (seq (F * F))) := [seq map fst row ++ map snd row | row <- B].

Lemma unpairK n A : wfm (n + n) A -> unpair (pairs n A) = A.
Proof.
move=> /allP w; rewrite /unpair /pairs -map_comp -[RHS]map_id; apply/eq_in_map => r /w /eqP sr /=.
rewrite -!map_comp; apply: (@eq_from_nth _ z); first by rewrite size_cat !size_map size_iota sr.
move=> i; rewrite size_cat !size_map size_iota => hi; rewrite nth_cat size_map size_iota.
case: ltnP => h; first by rewrite (nth_map 0) ?size_iota // nth_iota.
by rewrite (nth_map 0) ?size_iota ?ltn_subLR // nth_iota ?ltn_subLR // add0n /= subnKC.
Qed.

Lemma pairs_ent n A i j : i < size A -> j < n -> nth (z, z) (nth [::] (pairs n A) i) j = (ent A i j, ent A i (n + j)).
Proof. by move=> hi hj; rewrite (nth_map [::]) // (nth_map 0) ?size_iota // nth_iota. Qed.

Lemma mem_nonzero_xz n A i b j : ((i, b, j) \in nonzero_xz z n A) = [&& i < size A, j < n & ent A i (nat_of_bool b * n + j) != z].
Proof.
have E : ((i, b, j) \in [seq (ix, j) | ix <- [seq (i, xz) | i <- iota 0 (size A), xz <- [:: false; true]], j <- iota 0 n]) =
    (i < size A) && (j < n).
  apply/allpairsP/andP => [[[[a b'] c] [/allpairsP [[a' b''] [h1 h2 [e1 e2]]] h3 [-> e3 ->]]] | [h1 h2]].
    by rewrite !mem_iota !add0n in h1 h3; rewrite e1; split; [case/andP: h1 | case/andP: h3].
  exists (i, b, j); split; rewrite ?mem_iota //.
  by apply/allpairsP; exists (i, b); split; rewrite ?mem_iota // !inE; case: (b).
by rewrite mem_filter E andbC andbA.
Qed.
Lemma nonzero_xz_uniq n A : uniq (nonzero_xz z n A).
Proof.
apply: filter_uniq; apply: allpairs_uniq; rewrite ?iota_uniq //; last by move=> [[a b] c] [[a' b'] c'].
by apply: allpairs_uniq; rewrite ?iota_uniq // => -[a b] [c d].
Qed.

Definition qfold n A (g : graph (F * F)) (s : seq (nat * bool * nat)) :=
  foldl (fun g c => add_edge g c.1.1 c.2 (set_xz z c.1.2 (ent A c.1.1 (nat_of_bool c.1.2 * n + c.2)))) g s.

Lemma qfold_ok n A s g : gok g -> gok (qfold n A g s).
Proof. by elim: s g => [|c s IH] g h //=; apply/IH/gok_add. Qed.

Lemma qfold_look n A s g i j : uniq s ->
  elook (edges (qfold n A g s)) (i, j) =
  if ((i, false, j) \in s) || ((i, true, j) \in s) then
    let o := odflt (z, z) (elook (edges g) (i, j)) in
    Some (if (i, false, j) \in s then ent A i j else o.1, if (i, true, j) \in s then ent A i (n + j) else o.2)
  else elook (edges g) (i, j).
Proof.
elim: s g => [|[[a b] c] s IH] g //= /andP [ni u].
rewrite IH //= put_look !inE !xpair_eqE /=.
case: (i =P a) => [ea | na] /=; last by [].
case: (j =P c) => [ec | nc] /=; last by rewrite !andbF.
rewrite !andbT -ea -ec; case: b ni => /= ni; rewrite -ea -ec in ni; rewrite (negbTE ni) /= ?orbT ?orbF ?mul1n ?mul0n ?add0n.
  by rewrite /set_xz; case: (_ \in s) => /=; case: (elook (edges g) (i, j)) => [[x y]|].
by rewrite /set_xz; case: (_ \in s) => /=; case: (elook (edges g) (i, j)) => [[x y]|].
Qed.

Lemma qgraph_ok n A g : qmatrix_to_graph z n A = Some g -> gok g /\ forall i j, elook (edges g) (i, j) =
  if [&& i < size A, j < n & (ent A i j, ent A i (n + j)) != (z, z)] then Some (ent A i j, ent A i (n + j)) else None.
Proof.
rewrite /qmatrix_to_graph => h.
have -> : g = qfold n A (empty_graph _) (nonzero_xz z n A) by case: (A) h => // r A' [<-].
split=> [|i j]; first exact/qfold_ok/gok_empty.
rewrite qfold_look ?nonzero_xz_uniq //= !mem_nonzero_xz /= mul0n add0n mul1n xpair_eqE negb_and.
case: (i < size A) => //=; case: (j < n) => //=.
by case: eqP => [->|] /=; case: eqP => [->|].
Qed.

(* no check is zero and every qudit is touched *)
Definition qtouched n A := (forall i, i < size A -> exists2 j, j < n + n & ent A i j <> z) /\
  (forall j, j < n -> exists2 i, i < size A & ent A i j <> z \/ ent A i (n + j) <> z).

Lemma qrange n A g b i : qmatrix_to_graph z n A = Some g -> i \in idx b g -> i < (if b then n else size A).
Proof.
move=> /qgraph_ok [[_ _ h3 h4] L]; rewrite idx_mem.
case: b; rewrite ?h3 ?h4 => /hasP [[a c]]; rewrite -look_mem L /=;
by case: ifP => // /and3P [h1 h2 _] _ /eqP <-.
Qed.

Lemma qroundtrip_iff n A : A <> [::] -> wfm (n + n) A ->
  obind (qgraph_to_matrix z) (qmatrix_to_graph z n A) = Some (size A, 2 * n, A) <-> qtouched n A.
Proof.
move=> nA w; have [g eg] : exists g, qmatrix_to_graph z n A = Some g by case: (A) nA => //= r A' _; eexists.
have [ok L] := qgraph_ok eg; have [_ _ h3 h4] := ok; rewrite eg /=.
have memc i : (i \in idx false g) <-> (i < size A /\ exists2 j, j < n + n & ent A i j <> z).
  rewrite idx_mem h3; split=> [/hasP [[a c]] | [hi [j hj /eqP ne]]].
    rewrite -look_mem L /= xpair_eqE negb_and; case: ifP => // /and3P [h1 h2 h] _ /eqP <-; split=> //.
    by case/orP: h => /eqP h; [exists c | exists (n + c)] => //; rewrite ?ltn_add2l // ltn_addr.
  apply/hasP; have [lt | ge] := ltnP j n; [exists (i, j) | exists (i, j - n)] => //=; rewrite -look_mem L hi /=.
    by rewrite lt xpair_eqE (negbTE ne).
  by rewrite ltn_subLR // hj xpair_eqE subnKC // (negbTE ne) andbF.
have memd j : (j \in idx true g) <-> (j < n /\ exists2 i, i < size A & ent A i j <> z \/ ent A i (n + j) <> z).
  rewrite idx_mem h4; split=> [/hasP [[a c]] | [hj [i hi ne]]].
    rewrite -look_mem L /= xpair_eqE negb_and; case: ifP => // /and3P [h1 h2 h] _ /eqP <-; split=> //.
    by exists a => //; case/orP: h => /eqP h; [left | right].
  apply/hasP; exists (i, j) => //=; rewrite -look_mem L hi hj /= xpair_eqE negb_and.
  by case: ne => /eqP ->; rewrite ?orbT.
have cov b (k : nat) : size (idx b g) = k -> {subset idx b g <= iota 0 k} -> idx b g =i iota 0 k.
  by move=> ek sub; have := uniq_min_size (idx_uniq b ok) sub; rewrite size_iota ek => /(_ (leqnn _)) [].
have rng b : {subset idx b g <= iota 0 (if b then n else size A)}.
  by move=> i hi; rewrite mem_iota add0n (qrange eg).
split=> [e | [hr hc]].
  have [em en] : size (idx false g) = size A /\ size (idx true g) = n.
    move: e; rewrite /qgraph_to_matrix /to_matrix num_checks_idx num_data_idx; case: foldl => //= C [-> e2 _]; split=> //.
    by apply/eqP; rewrite -(@eqn_pmul2l 2) // e2.
  split=> [i hi | j hj].
    have : i \in idx false g by rewrite (cov _ _ em (rng false)) mem_iota.
    by move/memc=> [].
  have : j \in idx true g by rewrite (cov _ _ en (rng true)) mem_iota.
  by move/memd=> [].
have [||B [e [sB hB]]] := @to_matrix_ok _ (z, z) g (size A) n ok.
- by move=> i; rewrite mem_iota add0n /=; apply/idP/idP => [/memc [] // | hi]; apply/memc; split=> //; apply: hr.
- by move=> j; rewrite mem_iota add0n /=; apply/idP/idP => [/memd [] // | hj]; apply/memd; split=> //; apply: hc.
rewrite /qgraph_to_matrix e /=; congr (Some (_, _, _)); rewrite -/(unpair B).
rewrite -[RHS](unpairK w); congr unpair.
apply: (@shape_eq _ (z, z) n); first by apply/allP => r /mapP [r' _ ->]; rewrite size_map size_iota.
  by rewrite /pairs size_map.
rewrite size_map => i j hi hj; rewrite hB // pairs_ent // L hi hj /=.
by case: eqP => //= ->.
Qed.
End QuditProofs.
