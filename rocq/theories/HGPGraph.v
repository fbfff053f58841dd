(* Hypergraph products of Tanner graphs: model of qldpc/codes/quantum.py:760-840 (HGPCode.get_graph_product, get_sector,
   get_product_node_map). *)
From mathcomp Require Import all_ssreflect all_algebra zify.
From Verif Require Import LinAlg RowReduce Css CssProofs TannerGraph Product.
Set Implicit Arguments.
Unset Strict Implicit.
Unset Printing Implicit Defensive.
Import GRing.Theory.
Local Open Scope ring_scope.

(* =============================================================================== model *)
Section Model.
Variable F : fieldType.
(* a node of the cartesian product of two graphs *)
Definition pnode := (node * node)%type.
(* nx.cartesian_product(graph_a, graph_b).edges(data=True) (external): the edges of graph_a at every node of graph_b and the
   edges of graph_b at every node of graph_a, with their data *)
Definition cart_edges (ga gb : graph F) : seq (pnode * pnode * F) :=
  [seq (((e.1.1, false), x), ((e.1.2, true), x), e.2) | e <- edges ga, x <- nodes gb] ++
  [seq ((x, (e.1.1, false)), (x, (e.1.2, true)), e.2) | x <- nodes ga, e <- edges gb].
(* quantum.py:809-812: get_sector; false is 0 *)
Definition sector (p : pnode) : bool * bool := (~~ p.1.2, ~~ p.2.2).
Definition data_sector (p : pnode) : bool := sector p \in [:: (false, false); (true, true)].
(* quantum.py:768-793: the body of the loop over edges.  The values of the edges are elements of the field *)
Definition orient (e : pnode * pnode * F) : pnode * pnode * (F * F) :=
  let: (fst, snd, val) := e in
  let: (q, c) := if data_sector fst then (fst, snd) else (snd, fst) in
  let op := (val, 0) in
  let op := if sector c == (false, true) then (op.2, op.1) else op in
  let op := if (op.2 != 0) && (sector q == (false, false)) then (- op.1, - op.2) else op in
  (c, q, op).
(* objects.py:171-174: Node.__lt__; sorted(nodes) *)
Definition node_lt (u v : node) : bool := if u.2 == v.2 then (u.1 < v.1)%N else u.2.
Definition sorted_nodes (s : seq node) : seq node := sort (fun u v => ~~ node_lt v u) s.
(* quantum.py:829-839: the loop of get_product_node_map *)
Fixpoint label (num_x num : nat) (s : seq pnode) (index_data index_check : nat) : seq (pnode * node) :=
  if s is p :: s' then
    if data_sector p then (p, (index_data, true)) :: label num_x num s' index_data.+1 index_check
    else (p, (((index_check + num_x) %% num)%N, false)) :: label num_x num s' index_data index_check.+1
  else [::].
(* quantum.py:814-840: get_product_node_map *)
Definition node_map (na nb : seq node) : seq (pnode * node) :=
  let num_data_a := count (fun v : node => v.2) na in
  let num_data_b := count (fun v : node => v.2) nb in
  let num_checks_a := (size na - num_data_a)%N in
  let num_checks_b := (size nb - num_data_b)%N in
  let num_checks_x := (num_checks_a * num_data_b)%N in
  let num_checks_z := (num_checks_b * num_data_a)%N in
  label num_checks_x (num_checks_x + num_checks_z) [seq (a, b) | a <- sorted_nodes na, b <- sorted_nodes nb] 0 0.
(* node_map[p] *)
Definition dict_get (T : eqType) (U : Type) (d : seq (T * U)) (k : T) : option U := omap snd (ohead [seq e <- d | e.1 == k]).
(* nx.relabel_nodes of one edge *)
Definition relabel_edge (nm : seq (pnode * node)) (g : option (graph (F * F))) (e : pnode * pnode * (F * F)) : option (graph (F * F)) :=
  if g is Some g then
    match dict_get nm e.1.1, dict_get nm e.1.2 with
    | Some (i, false), Some (j, true) => Some (add_edge g i j (fun _ => e.2))
    | _, _ => None
    end
  else None.
(* quantum.py:760-807: get_graph_product; `es` lists the edges of the cartesian product in the order in which networkx does.
   For fields of order two the operators become Pauli operators; both are represented by their values here *)
Definition graph_product (ga gb : graph F) (es : seq (pnode * pnode * F)) : option (graph (F * F)) :=
  foldl (relabel_edge (node_map (nodes ga) (nodes gb))) (Some (empty_graph (F * F))) (map orient es).
End Model.

(* =============================================================================== proofs *)
Lemma label_nth num_x num s a b k p0 : (k < size s)%N -> nth (p0, (0%N, false)) (label num_x num s a b) k =
  (nth p0 s k, if data_sector (nth p0 s k) then ((a + count data_sector (take k s))%N, true)
               else (((b + count (predC data_sector) (take k s) + num_x) %% num)%N, false)).
Proof.
elim: s a b k => [|p s IH] a b [|k] //=; first by case: ifP => /=; rewrite addn0.
by move=> lk; case: ifP => hp /=; rewrite IH //=; case: ifP => _; rewrite ?add0n ?add1n ?addSnnS.
Qed.
Lemma label_keys num_x num s a b : [seq e.1 | e <- label num_x num s a b] = s.
Proof. by elim: s a b => //= p s IH a b; case: ifP => _ /=; rewrite IH. Qed.
Lemma size_label num_x num s a b : size (label num_x num s a b) = size s.
Proof. by rewrite -(size_map fst) label_keys. Qed.

Lemma dict_get_nth (T U : eqType) (d : seq (T * U)) k x0 : uniq [seq e.1 | e <- d] -> (k < size d)%N ->
  dict_get d (nth x0 d k).1 = Some (nth x0 d k).2.
Proof.
rewrite /dict_get; elim: d k => [|e d IH] [|k] //= /andP [ni u] lk; first by rewrite eqxx.
case: eqP => [e1 | _]; last exact: IH.
by case/negP: ni; rewrite e1; apply/mapP; exists (nth x0 d k) => //; apply: mem_nth.
Qed.
Lemma dict_get_none (T U : eqType) (d : seq (T * U)) k : k \notin [seq e.1 | e <- d] -> dict_get d k = None.
Proof. by rewrite /dict_get; elim: d => [|e d IH] //=; rewrite inE negb_or eq_sym => /andP [/negPf -> /IH]. Qed.

(* ------------------------------------------------------------------------ sorted nodes *)
Definition full (m n : nat) (s : seq node) := uniq s /\ forall v : node, (v \in s) = (v.1 < if v.2 then n else m)%N.
Definition canon (m n : nat) : seq node := [seq (i, true) | i <- iota 0 n] ++ [seq (i, false) | i <- iota 0 m].
Lemma size_canon m n : size (canon m n) = (n + m)%N.
Proof. by rewrite size_cat !size_map !size_iota. Qed.
Lemma canon_uniq m n : uniq (canon m n).
Proof.
rewrite cat_uniq !map_inj_uniq ?iota_uniq /= ?andbT; try by move=> x y [].
by apply/hasPn => v /mapP [i _ ->]; apply/negP => /mapP [].
Qed.
Lemma canon_mem m n (v : node) : (v \in canon m n) = (v.1 < if v.2 then n else m)%N.
Proof.
case: v => i [] /=; rewrite mem_cat; apply/orP/idP.
- by case=> /mapP [j hj [->]] //; rewrite mem_iota add0n in hj.
- by move=> lt; left; apply/mapP; exists i; rewrite ?mem_iota.
- by case=> /mapP [j hj [->]] //; rewrite mem_iota add0n in hj.
- by move=> lt; right; apply/mapP; exists i; rewrite ?mem_iota.
Qed.
Lemma nth_canon m n k : (k < n + m)%N -> nth (0%N, false) (canon m n) k = if (k < n)%N then (k, true) else ((k - n)%N, false).
Proof.
move=> lk; rewrite nth_cat size_map size_iota; case: ltnP => h; rewrite (nth_map 0%N) ?size_iota ?nth_iota //; lia.
Qed.
Lemma node_le_total : total (fun u v => ~~ node_lt v u).
Proof. move=> [i b] [j c]; rewrite /node_lt /= eq_sym; case: b; case: c => //=; lia. Qed.
Lemma node_le_trans : transitive (fun u v => ~~ node_lt v u).
Proof. move=> [i b] [j c] [k d]; rewrite /node_lt /=; case: b; case: c; case: d => //=; lia. Qed.
Lemma node_le_anti : antisymmetric (fun u v => ~~ node_lt v u).
Proof. move=> [i b] [j c]; rewrite /node_lt /= eq_sym; case: b; case: c => //= h; congr (_, _); lia. Qed.
Lemma canon_sorted m n : sorted (fun u v => ~~ node_lt v u) (canon m n).
Proof.
apply/(sortedP (0%N, false)) => k; rewrite size_canon => lk; rewrite !nth_canon; try lia.
rewrite /node_lt; case: ltnP => h1; case: ltnP => h2 //=; lia.
Qed.
Lemma sorted_full m n s : full m n s -> sorted_nodes s = canon m n.
Proof.
move=> [u h]; apply: (sorted_eq node_le_trans node_le_anti); rewrite ?canon_sorted ?sort_sorted //; try exact: node_le_total.
by rewrite perm_sort; apply: uniq_perm; rewrite ?canon_uniq // => v; rewrite h canon_mem.
Qed.
Lemma full_perm m n s : full m n s -> perm_eq s (canon m n).
Proof. by move=> [u h]; apply: uniq_perm; rewrite ?canon_uniq // => v; rewrite h canon_mem. Qed.
Lemma count_canon m n : count (fun v : node => v.2) (canon m n) = n.
Proof.
rewrite count_cat !count_map (@eq_count _ _ predT) // count_predT size_iota (@eq_count _ _ pred0) // count_pred0; lia.
Qed.
Lemma full_graph (T : Type) (g : graph T) m n : gok g -> idx false g =i iota 0 m -> idx true g =i iota 0 n -> full m n (nodes g).
Proof.
move=> [u _ _ _] hc hd; split=> // -[i b] /=; rewrite -idx_mem.
by case: b; rewrite ?hc ?hd mem_iota add0n.
Qed.

(* ------------------------------------------------------------------------ the map of nodes *)
Section Labels.
Variables m1 n1 m2 n2 : nat.
Let sa := canon m1 n1.
Let sb := canon m2 n2.
Let s : seq pnode := [seq (a, b) | a <- sa, b <- sb].
Let p0 : pnode := ((0%N, false), (0%N, false)).

Lemma nth_s i k : (i < n1 + m1)%N -> (k < n2 + m2)%N ->
  nth p0 s (i * (n2 + m2) + k) = (nth (0%N, false) sa i, nth (0%N, false) sb k).
Proof.
move=> li lk; rewrite /s.
have gen (t : seq node) i' : (i' < size t)%N ->
    nth p0 [seq (a, b) | a <- t, b <- sb] (i' * (n2 + m2) + k) = (nth (0%N, false) t i', nth (0%N, false) sb k).
  elim: t i' => [|x t IH] [|i'] //= lt; rewrite nth_cat size_map size_canon.
    by rewrite mul0n add0n lk (nth_map (0%N, false)) ?size_canon.
  by rewrite mulSn -addnA ltnNge leq_addr /= addKn IH.
by rewrite gen // size_canon.
Qed.

Definition nD (t : seq node) := count (fun v : node => v.2) t.
Definition nC (t : seq node) := count (fun v : node => ~~ v.2) t.
Lemma count_pairs (t r : seq node) :
  count data_sector [seq (a, b) | a <- t, b <- r] = (nD t * nD r + nC t * nC r)%N /\
  count (predC data_sector) [seq (a, b) | a <- t, b <- r] = (nD t * nC r + nC t * nD r)%N.
Proof.
elim: t => [|[i b] t [IH1 IH2]] //=; rewrite !count_cat IH1 IH2 !count_map /nD /nC /=.
have e1 : count (preim (pair (i, b)) data_sector) r = if b then nD r else nC r.
  by case: (b); apply: eq_count => -[j []].
have e2 : count (preim (pair (i, b)) (predC data_sector)) r = if b then nC r else nD r.
  by case: (b); apply: eq_count => -[j []].
rewrite e1 e2; case: b {e1 e2} => /=; rewrite -/(nD _) -/(nC _) /nD /nC; split; lia.
Qed.
Lemma take_canon m n i : (i <= n + m)%N -> nD (take i (canon m n)) = minn i n /\ nC (take i (canon m n)) = (i - n)%N.
Proof.
elim: i => [|i IH] lt; first by rewrite take0 /= min0n sub0n.
have [h1 h2] := IH (ltnW lt); rewrite (take_nth (0%N, false)) ?size_canon // -cats1 /nD /nC !count_cat -/(nD _) -/(nC _) h1 h2.
by rewrite nth_canon //; case: ltnP => h /=; split; lia.
Qed.

Lemma take_s i k : (i < n1 + m1)%N -> (k < n2 + m2)%N ->
  take (i * (n2 + m2) + k) s = [seq (a, b) | a <- take i sa, b <- sb] ++ [seq (nth (0%N, false) sa i, b) | b <- take k sb].
Proof.
move=> li lk; rewrite /s.
have gen (t : seq node) i' : (i' < size t)%N -> take (i' * (n2 + m2) + k) [seq (a, b) | a <- t, b <- sb] =
    [seq (a, b) | a <- take i' t, b <- sb] ++ [seq (nth (0%N, false) t i', b) | b <- take k sb].
  elim: t i' => [|x t IH] [|i'] //= lt.
    by rewrite mul0n add0n take_cat size_map size_canon lk map_take.
  by rewrite mulSn -addnA take_cat size_map size_canon ltnNge leq_addr /= addKn IH // catA.
by rewrite gen // size_canon.
Qed.

Definition num_x := (m1 * n2)%N.
Definition num_z := (m2 * n1)%N.
Definition nmap := label num_x (num_x + num_z) s 0 0.
Lemma size_s : size s = ((n1 + m1) * (n2 + m2))%N.
Proof. by rewrite size_allpairs !size_canon. Qed.
Lemma uniq_s : uniq s.
Proof. by apply: allpairs_uniq; rewrite ?canon_uniq // => -[a b] [c d]. Qed.

Lemma get_label i k : (i < n1 + m1)%N -> (k < n2 + m2)%N ->
  dict_get nmap (nth (0%N, false) sa i, nth (0%N, false) sb k) = Some
    (match (i < n1)%N, (k < n2)%N with
     | true, true => ((i * n2 + k)%N, true)
     | false, false => ((n1 * n2 + (i - n1) * m2 + (k - n2))%N, true)
     | true, false => ((m1 * n2 + (i * m2 + (k - n2)))%N, false)
     | false, true => (((i - n1) * n2 + k)%N, false)
     end).
Proof.
move=> li lk; have lt : (i * (n2 + m2) + k < size s)%N.
  rewrite size_s; apply: (@leq_trans (i.+1 * (n2 + m2))%N); first by rewrite mulSn; lia.
  by rewrite leq_mul2r li orbT.
have lt' : (i * (n2 + m2) + k < size nmap)%N by rewrite size_label.
have := @dict_get_nth _ _ nmap (i * (n2 + m2) + k) (p0, (0%N, false)).
rewrite label_keys => /(_ uniq_s lt'); rewrite label_nth // nth_s //= => ->; congr Some.
rewrite take_s // !count_cat !count_map.
have [c1 c2] := count_pairs (take i sa) sb; rewrite c1 c2.
have [d1 d2] := @take_canon m1 n1 i (ltnW li); rewrite d1 d2.
have [d3 d4] := @take_canon m2 n2 k (ltnW lk).
have [d5 d6] := @take_canon m2 n2 (n2 + m2) (leqnn _); rewrite take_oversize ?size_canon // in d5 d6; rewrite d5 d6.
rewrite !nth_canon //.
have e1 b x : count (preim (pair (x, b)) data_sector) (take k sb) = if b then nD (take k sb) else nC (take k sb).
  by case: b; apply: eq_count => -[j []].
have e2 b x : count (preim (pair (x, b)) (predC data_sector)) (take k sb) = if b then nC (take k sb) else nD (take k sb).
  by case: b; apply: eq_count => -[j []].
have ds x b y c : data_sector ((x, b), (y, c)) = (b == c) by case: b; case: c.
case: (ltnP i n1) => hi; case: (ltnP k n2) => hk; rewrite ds /=; congr (_, _).
- by rewrite e1 d3; lia.
- rewrite e2 d4 modn_small; rewrite /num_x /num_z; nia.
- rewrite e2 d3 /num_x /num_z.
  have -> : (0 + (n1 * (n2 + m2 - n2) + (i - n1) * minn (n2 + m2) n2 + minn k n2) + m1 * n2 = (i - n1) * n2 + k + (m1 * n2 + m2 * n1))%N.
    by nia.
  rewrite modnDr modn_small //; nia.
- by rewrite e1 d4; nia.
Qed.

Definition inr (m n : nat) (u : node) := (u.1 < if u.2 then n else m)%N.
Lemma get_lab (u v : node) : inr m1 n1 u -> inr m2 n2 v -> dict_get nmap (u, v) = Some
    (match u.2, v.2 with
     | true, true => ((u.1 * n2 + v.1)%N, true)
     | false, false => ((n1 * n2 + (u.1 * m2 + v.1))%N, true)
     | true, false => ((m1 * n2 + (u.1 * m2 + v.1))%N, false)
     | false, true => ((u.1 * n2 + v.1)%N, false)
     end).
Proof.
case: u v => [i b] [k c]; rewrite /inr /= => li lk.
have hi : ((if b then i else n1 + i) < n1 + m1)%N by case: (b) li => li; lia.
have hk : ((if c then k else n2 + k) < n2 + m2)%N by case: (c) lk => lk; lia.
have := get_label hi hk; rewrite !nth_canon //.
case: b li {hi} => li; case: c lk {hk} => lk; rewrite ?li ?lk ?ltnNge ?leq_addr /= ?addKn => -> //.
by rewrite addnA.
Qed.
Definition cnode (i : nat) : pnode :=
  if (i < m1 * n2)%N then (((i %/ n2)%N, false), ((i %% n2)%N, true))
  else ((((i - m1 * n2) %/ m2)%N, true), (((i - m1 * n2) %% m2)%N, false)).
Definition qnode (j : nat) : pnode :=
  if (j < n1 * n2)%N then (((j %/ n2)%N, true), ((j %% n2)%N, true))
  else ((((j - n1 * n2) %/ m2)%N, false), (((j - n1 * n2) %% m2)%N, false)).
Lemma lt_pos a b c : (a < b * c)%N -> (0 < c)%N.
Proof. by case: c => //; rewrite muln0. Qed.
Lemma mul_lt a b x c : (a < b)%N -> (x < c)%N -> (a * c + x < b * c)%N.
Proof. by move=> h1 h2; apply: (@leq_trans (a.+1 * c)%N); [rewrite mulSn; lia | rewrite leq_mul2r h1 orbT]. Qed.

Lemma cnode_lab (u v : node) i : inr m1 n1 u -> inr m2 n2 v -> dict_get nmap (u, v) = Some (i, false) -> (u, v) = cnode i.
Proof.
move=> hu hv; rewrite get_lab //; case: u v hu hv => [x b] [y c]; rewrite /inr /=.
case: b; case: c => // hx hy [<-]; rewrite /cnode.
  rewrite ltnNge leq_addr /= addKn divnMDl ?modnMDl ?divn_small ?modn_small ?addn0 //; lia.
rewrite mul_lt // divnMDl ?modnMDl ?divn_small ?modn_small ?addn0 //; lia.
Qed.
Lemma qnode_lab (u v : node) i : inr m1 n1 u -> inr m2 n2 v -> dict_get nmap (u, v) = Some (i, true) -> (u, v) = qnode i.
Proof.
move=> hu hv; rewrite get_lab //; case: u v hu hv => [x b] [y c]; rewrite /inr /=.
case: b; case: c => // hx hy [<-]; rewrite /qnode.
  rewrite mul_lt // divnMDl ?modnMDl ?divn_small ?modn_small ?addn0 //; lia.
rewrite ltnNge leq_addr /= addKn divnMDl ?modnMDl ?divn_small ?modn_small ?addn0 //; lia.
Qed.
Definition num_checks_p := (m1 * n2 + n1 * m2)%N.
Definition num_qudits_p := (n1 * n2 + m1 * m2)%N.
Lemma cnode_in i : (i < num_checks_p)%N ->
  [/\ inr m1 n1 (cnode i).1, inr m2 n2 (cnode i).2 & dict_get nmap (cnode i) = Some (i, false)].
Proof.
move=> li; have [h1 h2] : inr m1 n1 (cnode i).1 /\ inr m2 n2 (cnode i).2.
  rewrite /cnode /inr; case: (ltnP i (m1 * n2)) => h /=; first by rewrite ltn_divLR ?ltn_pmod ?(lt_pos h).
  have h' : (i - m1 * n2 < n1 * m2)%N by move: li h; rewrite /num_checks_p; lia.
  by rewrite ltn_divLR ?ltn_pmod ?(lt_pos h').
split=> //; have e : cnode i = ((cnode i).1, (cnode i).2) by case: cnode.
rewrite e get_lab // /cnode; case: ltnP => h /=; rewrite -divn_eq // subnKC //.
Qed.
Lemma qnode_in j : (j < num_qudits_p)%N ->
  [/\ inr m1 n1 (qnode j).1, inr m2 n2 (qnode j).2 & dict_get nmap (qnode j) = Some (j, true)].
Proof.
move=> lj; have [h1 h2] : inr m1 n1 (qnode j).1 /\ inr m2 n2 (qnode j).2.
  rewrite /qnode /inr; case: (ltnP j (n1 * n2)) => h /=; first by rewrite ltn_divLR ?ltn_pmod ?(lt_pos h).
  have h' : (j - n1 * n2 < m1 * m2)%N by move: lj h; rewrite /num_qudits_p; lia.
  by rewrite ltn_divLR ?ltn_pmod ?(lt_pos h').
split=> //; have e : qnode j = ((qnode j).1, (qnode j).2) by case: qnode.
rewrite e get_lab // /qnode; case: ltnP => h /=; rewrite -divn_eq // subnKC //.
Qed.
(* labels of check nodes and qudit nodes are in range *)
Lemma lab_range (u v : node) : inr m1 n1 u -> inr m2 n2 v ->
  exists i, dict_get nmap (u, v) = Some (i, data_sector (u, v)) /\ (i < if data_sector (u, v) then num_qudits_p else num_checks_p)%N.
Proof.
move=> hu hv; rewrite get_lab //; case: u v hu hv => [x b] [y c]; rewrite /inr /=.
have ds : data_sector ((x, b), (y, c)) = (b == c) by case: b; case: c.
rewrite ds /num_qudits_p /num_checks_p; case: b {ds}; case: c => /= hx hy; eexists; split; try reflexivity.
- by rewrite ltn_addr // mul_lt.
- by rewrite ltn_add2l mul_lt.
- by rewrite ltn_addr // mul_lt.
- by rewrite ltn_add2l mul_lt.
Qed.
End Labels.

(* ------------------------------------------------------------------------ the edges *)
Section Edges.
Variable F : fieldType.
Definition lab2 (nm : seq (pnode * node)) (e : pnode * pnode * (F * F)) : option (nat * nat) :=
  match dict_get nm e.1.1, dict_get nm e.1.2 with
  | Some (i, false), Some (j, true) => Some (i, j)
  | _, _ => None
  end.
Lemma relabelE nm g e : relabel_edge nm (Some g) e = omap (fun k => add_edge g k.1 k.2 (fun _ => e.2)) (lab2 nm e).
Proof. by rewrite /relabel_edge /lab2; case: dict_get => [[i []]|] //; case: dict_get => [[j []]|]. Qed.

Lemma fold_rel nm (O : seq (pnode * pnode * (F * F))) (g : graph (F * F)) : gok g -> (forall e, e \in O -> isSome (lab2 nm e)) ->
  exists G, [/\ foldl (relabel_edge nm) (Some g) O = Some G, gok G,
    forall k v, elook (edges G) k = Some v -> elook (edges g) k = Some v \/ exists2 e, e \in O & lab2 nm e = Some k /\ e.2 = v,
    forall k, isSome (elook (edges g) k) -> isSome (elook (edges G) k) &
    forall e k, e \in O -> lab2 nm e = Some k -> isSome (elook (edges G) k)].
Proof.
elim: O g => [|e O IH] g ok hO; first by exists g; split=> // k v h; left.
have : isSome (lab2 nm e) by apply: hO; rewrite inE eqxx.
have fc : foldl (relabel_edge nm) (Some g) (e :: O) = foldl (relabel_edge nm) (relabel_edge nm (Some g) e) O by [].
rewrite fc relabelE; case ek: (lab2 nm e) => [k0|//] _.
rewrite [omap _ _]/=.
have [||G [h1 h2 h3 h4 h5]] := IH (add_edge g k0.1 k0.2 (fun _ => e.2)); first exact: gok_add.
  by move=> e' he; apply: hO; rewrite inE he orbT.
exists G; split=> //.
- move=> k v /h3 [|[e' he h]]; last by right; exists e' => //; rewrite inE he orbT.
  rewrite put_look; case: eqP => [-> [<-] | _ h]; last by left.
  by right; exists e; rewrite ?inE ?eqxx //; rewrite ek; case: (k0).
- by move=> k hk; apply: h4; rewrite put_look; case: ifP.
- move=> e' k; rewrite inE => /orP [/eqP -> | he]; last exact: h5.
  by rewrite ek => -[<-]; apply: h4; rewrite put_look; case: (k0) => a b; rewrite eqxx.
Qed.

Definition expected (ga gb : graph F) (c q : pnode) : option (F * F) :=
  match c, q with
  | ((ca, false), (db, true)), ((da, true), (db', true)) => if db == db' then omap (fun v => (v, 0)) (elook (edges ga) (ca, da)) else None
  | ((ca, false), (db, true)), ((ca', false), (cb, false)) => if ca == ca' then omap (fun v => (v, 0)) (elook (edges gb) (cb, db)) else None
  | ((da, true), (cb, false)), ((da', true), (db, true)) => if da == da' then omap (fun v => (0, - v)) (elook (edges gb) (cb, db)) else None
  | ((da, true), (cb, false)), ((ca, false), (cb', false)) => if cb == cb' then omap (fun v => (0, v)) (elook (edges ga) (ca, da)) else None
  | _, _ => None
  end.
Lemma look_in (T : eqType) (es : seq ((nat * nat) * T)) e : uniq [seq d.1 | d <- es] -> e \in es -> elook es e.1 = Some e.2.
Proof.
rewrite /elook; elim: es => [|d es IH] //= /andP [ni u]; rewrite inE => /orP [/eqP -> | he]; first by rewrite eqxx.
case: eqP => [e1 | _]; last exact: IH.
by case/negP: ni; rewrite e1; apply/mapP; exists e.
Qed.
Lemma in_look (T : eqType) (es : seq ((nat * nat) * T)) k v : elook es k = Some v -> (k, v) \in es.
Proof.
rewrite /elook; elim: es => [|[k' v'] es IH] //=; case: eqP => [-> [<-] | _ /IH h]; first by rewrite inE eqxx.
by rewrite inE h orbT.
Qed.

Lemma orient_ok (ga gb : graph F) e : gok ga -> gok gb -> e \in cart_edges ga gb ->
  expected ga gb (orient e).1.1 (orient e).1.2 = Some (orient e).2.
Proof.
move=> [_ ua _ _] [_ ub _ _]; rewrite mem_cat => /orP [] /allpairsP [[]].
  move=> [[ca da] v] [x []] [/= h _ ->]; have /= hl := look_in ua h; rewrite /orient /data_sector /sector /=.
    by rewrite hl !eqxx.
  by rewrite andbF /= hl !eqxx.
move=> [x []] [[cb db] v] [/= _ h ->]; have /= hl := look_in ub h; rewrite /orient /data_sector /sector /=.
  by case: (v =P 0) => [v0 | _] /=; rewrite hl !eqxx /= ?v0 ?oppr0.
by rewrite hl !eqxx.
Qed.

Lemma orient_onto (ga gb : graph F) c q v : c.1 \in nodes ga -> c.2 \in nodes gb -> q.1 \in nodes ga -> q.2 \in nodes gb ->
  expected ga gb c q = Some v -> exists2 e, e \in cart_edges ga gb & orient e = (c, q, v).
Proof.
case: c q => [[a b] [a' b']] [[x y] [x' y']] /=; case: b; case: b' => //; case: y; case: y' => // h1 h2 h3 h4; case: eqP => // e.
- subst x; case E: (elook _ _) => [w|] //= [<-]; exists ((a, true, (a', false)), (a, true, (x', true)), w).
    rewrite mem_cat; apply/orP; right; apply/allpairsP; exists ((a, true), ((a', x'), w)); split=> //; exact: in_look.
  by rewrite /orient /data_sector /sector /=; case: (w =P 0) => [-> | _] //=; rewrite oppr0.
- subst x'; case E: (elook _ _) => [w|] //= [<-]; exists ((x, false, (a', false)), (a, true, (a', false)), w).
    rewrite mem_cat; apply/orP; left; apply/allpairsP; exists (((x, a), w), (a', false)); split=> //; exact: in_look.
  by rewrite /orient /data_sector /sector /= andbF.
- subst x'; case E: (elook _ _) => [w|] //= [<-]; exists ((a, false, (a', true)), (x, true, (a', true)), w).
    rewrite mem_cat; apply/orP; left; apply/allpairsP; exists (((a, x), w), (a', true)); split=> //; exact: in_look.
  by rewrite /orient /data_sector /sector /= eqxx.
- subst x; case E: (elook _ _) => [w|] //= [<-]; exists ((a, false, (x', false)), (a, false, (a', true)), w).
    rewrite mem_cat; apply/orP; right; apply/allpairsP; exists ((a, false), ((x', a'), w)); split=> //; exact: in_look.
  by rewrite /orient /data_sector /sector /= eqxx.
Qed.
Lemma orient_nodes (ga gb : graph F) e : gok ga -> gok gb -> e \in cart_edges ga gb -> let o := orient e in
  [/\ o.1.1.1 \in nodes ga, o.1.1.2 \in nodes gb, o.1.2.1 \in nodes ga & o.1.2.2 \in nodes gb] /\
  data_sector o.1.1 = false /\ data_sector o.1.2 = true.
Proof.
move=> [_ _ a1 a2] [_ _ b1 b2].
have ea ca da v : ((ca, da), v) \in edges ga -> (ca, false) \in nodes ga /\ (da, true) \in nodes ga.
  move=> h; have hk : (ca, da) \in [seq d.1 | d <- edges ga] by apply/mapP; exists ((ca, da), v).
  by rewrite a1 a2; split; apply/hasP; exists (ca, da) => /=.
have eb ca da v : ((ca, da), v) \in edges gb -> (ca, false) \in nodes gb /\ (da, true) \in nodes gb.
  move=> h; have hk : (ca, da) \in [seq d.1 | d <- edges gb] by apply/mapP; exists ((ca, da), v).
  by rewrite b1 b2; split; apply/hasP; exists (ca, da) => /=.
rewrite mem_cat => /orP [] /allpairsP [[]].
  by move=> [[ca da] v] [x []] [/= h hx ->]; have [h1 h2] := ea _ _ _ h; split.
by move=> [x []] [[cb db] v] [/= hx h ->]; have [h1 h2] := eb _ _ _ h; split.
Qed.

Lemma has_data (g : graph F) i : gok g -> (i, false) \in nodes g -> exists j v, elook (edges g) (i, j) = Some v /\ (j, true) \in nodes g.
Proof.
move=> [_ _ h3 h4]; rewrite h3 => /hasP [[a j] hk /eqP /= e]; subst a; exists j.
have := hk; rewrite -look_mem; case E: (elook _ _) => [v|//] _; exists v; split=> //.
by rewrite h4; apply/hasP; exists (i, j) => /=.
Qed.
Lemma has_check (g : graph F) j : gok g -> (j, true) \in nodes g -> exists i v, elook (edges g) (i, j) = Some v /\ (i, false) \in nodes g.
Proof.
move=> [_ _ h3 h4]; rewrite h4 => /hasP [[i a] hk /eqP /= e]; subst a; exists i.
have := hk; rewrite -look_mem; case E: (elook _ _) => [v|//] _; exists v; split=> //.
by rewrite h3; apply/hasP; exists (i, j) => /=.
Qed.

Section Product.
Variables (ga gb : graph F) (m1 n1 m2 n2 : nat) (es : seq (pnode * pnode * F)).
Hypotheses (oka : gok ga) (okb : gok gb) (fa : full m1 n1 (nodes ga)) (fb : full m2 n2 (nodes gb)).
Hypothesis hes : es =i cart_edges ga gb.
Notation nm := (nmap m1 n1 m2 n2).

Lemma node_mapE : node_map (nodes ga) (nodes gb) = nm.
Proof.
rewrite /node_map /nmap (sorted_full fa) (sorted_full fb).
rewrite !(permP (full_perm fa)) !(permP (full_perm fb)) (perm_size (full_perm fa)) (perm_size (full_perm fb)).
by rewrite !count_canon !size_canon !addKn.
Qed.
Lemma in_a u : (u \in nodes ga) = inr m1 n1 u. Proof. by case: fa => _ ->. Qed.
Lemma in_b u : (u \in nodes gb) = inr m2 n2 u. Proof. by case: fb => _ ->. Qed.

Lemma lab2_some e : e \in map (@orient F) es -> exists i j, [/\ lab2 nm e = Some (i, j), e.1.1 = cnode m1 m2 n2 i, e.1.2 = qnode n1 m2 n2 j,
  (i < num_checks_p m1 n1 m2 n2)%N /\ (j < num_qudits_p m1 n1 m2 n2)%N & expected ga gb e.1.1 e.1.2 = Some e.2].
Proof.
case/mapP => e0; rewrite hes => he ->.
have ex := orient_ok oka okb he; have [[h1 h2 h3 h4] [h5 h6]] := orient_nodes oka okb he.
move: ex h1 h2 h3 h4 h5 h6; case: (orient e0) => [[[u v] [u' v']] w] /=; rewrite !in_a !in_b => ex h1 h2 h3 h4 h5 h6.
have [i [ei li]] := lab_range h1 h2; have [j [ej lj]] := lab_range h3 h4; rewrite h5 in ei li; rewrite h6 in ej lj.
exists i, j; split=> //; first by rewrite /lab2 /= ei ej.
  exact: (cnode_lab h1 h2 ei).
exact: (qnode_lab h3 h4 ej).
Qed.

Lemma product_graph : exists G, [/\ graph_product ga gb es = Some G, gok G,
  idx false G =i iota 0 (num_checks_p m1 n1 m2 n2), idx true G =i iota 0 (num_qudits_p m1 n1 m2 n2) &
  forall i j, (i < num_checks_p m1 n1 m2 n2)%N -> (j < num_qudits_p m1 n1 m2 n2)%N ->
    elook (edges G) (i, j) = expected ga gb (cnode m1 m2 n2 i) (qnode n1 m2 n2 j)].
Proof.
rewrite /graph_product node_mapE.
have [|G [h1 h2 h3 _ h5]] := @fold_rel nm (map (@orient F) es) (empty_graph (F * F)) (gok_empty _).
  by move=> e /lab2_some [i [j [-> _ _ _ _]]].
have look i j : (i < num_checks_p m1 n1 m2 n2)%N -> (j < num_qudits_p m1 n1 m2 n2)%N ->
    elook (edges G) (i, j) = expected ga gb (cnode m1 m2 n2 i) (qnode n1 m2 n2 j).
  move=> li lj; case E: (elook _ _) => [v|].
    case: (h3 _ _ E) => // -[e he [el ev]]; have [i' [j' [el' e1 e2 _ ex]]] := lab2_some he.
    by move: el'; rewrite el => -[ei ej]; rewrite ei ej -e1 -e2 ex ev.
  case E2: (expected _ _ _ _) => [v|//].
  have [c1 c2 c3] := cnode_in li; have [q1 q2 q3] := qnode_in lj; rewrite -in_a in c1; rewrite -in_b in c2; rewrite -in_a in q1; rewrite -in_b in q2.
  have [e he eo] := orient_onto c1 c2 q1 q2 E2.
  have ho : orient e \in map (@orient F) es by apply/mapP; exists e; rewrite // hes.
  by have := h5 _ (i, j) ho; rewrite eo /lab2 /= c3 q3 E => /(_ erefl).
have keys : forall i j, (i, j) \in [seq d.1 | d <- edges G] -> (i < num_checks_p m1 n1 m2 n2)%N /\ (j < num_qudits_p m1 n1 m2 n2)%N.
  move=> i j; rewrite -look_mem; case E: (elook _ _) => [v|//] _.
  case: (h3 _ _ E) => // -[e he [el ev]]; have [i' [j' [el' _ _ r _]]] := lab2_some he.
  by move: el'; rewrite el => -[-> ->].
have key c q v : c.1 \in nodes ga -> c.2 \in nodes gb -> q.1 \in nodes ga -> q.2 \in nodes gb -> expected ga gb c q = Some v ->
    exists2 k, lab2 nm (c, q, v) = Some k & k \in [seq d.1 | d <- edges G].
  move=> c1 c2 q1 q2 ex; have [e he eo] := orient_onto c1 c2 q1 q2 ex.
  have ho : orient e \in map (@orient F) es by apply/mapP; exists e; rewrite // hes.
  have [i [j [el _ _ _ _]]] := lab2_some ho; have hk := h5 _ _ ho el.
  by exists (i, j); [rewrite -eo | rewrite -look_mem].
have [_ _ g3 g4] := h2; exists G; split=> //.
- move=> i; rewrite idx_mem g3 mem_iota add0n /=; apply/hasP/idP => [[[a b]] /keys [h _] /eqP /= <- // | li].
  have [] := cnode_in li; rewrite -in_a -in_b; set c := cnode _ _ _ i => c1 c2 c3.
  have [q [v [q1 q2 ex]]] : exists q v, [/\ q.1 \in nodes ga, q.2 \in nodes gb & expected ga gb c q = Some v].
    move: c1 c2 c3; rewrite /c /cnode; case: ifP => _ /= c1 c2 _.
      have [da [v [h7 h8]]] := has_data oka c1; exists ((da, true), ((i %% n2)%N, true)), (v, 0).
      by rewrite /= eqxx h7.
    have [db [v [h7 h8]]] := has_data okb c2; exists (((i - m1 * n2) %/ m2)%N, true, (db, true)), (0, - v).
    by rewrite /= eqxx h7.
  have [[i' j'] el kin] := key _ _ _ c1 c2 q1 q2 ex; exists (i', j') => //=.
  by move: el; rewrite /lab2 /= c3; case: dict_get => [[j'' []]|] // [<- _].
- move=> j; rewrite idx_mem g4 mem_iota add0n /=; apply/hasP/idP => [[[a b]] /keys [_ h] /eqP /= <- // | lj].
  have [] := qnode_in lj; rewrite -in_a -in_b; set q := qnode _ _ _ j => q1 q2 q3.
  have [c [v [c1 c2 ex]]] : exists c v, [/\ c.1 \in nodes ga, c.2 \in nodes gb & expected ga gb c q = Some v].
    move: q1 q2 q3; rewrite /q /qnode; case: ifP => _ /= q1 q2 _.
      have [ca [v [h7 h8]]] := has_check oka q1; exists ((ca, false), ((j %% n2)%N, true)), (v, 0).
      by rewrite /= eqxx h7.
    have [da [v [h7 h8]]] := has_data oka q1; exists ((da, true), (((j - n1 * n2) %% m2)%N, false)), (0, v).
    by rewrite /= eqxx h7.
  have [[i' j'] el kin] := key _ _ _ c1 c2 q1 q2 ex; exists (i', j') => //=.
  by move: el; rewrite /lab2 /= q3; case: dict_get => [[j'' []]|] // [_ <-].
Qed.

Variables (A B : mat F).
Hypotheses (sA : size A = m1) (wA : wf n1 A) (sB : size B = m2) (wB : wf n2 B).
Hypothesis eA : forall i j, (i < m1)%N -> (j < n1)%N -> ent A i j = if elook (edges ga) (i, j) is Some v then v else 0.
Hypothesis eB : forall i j, (i < m2)%N -> (j < n2)%N -> ent B i j = if elook (edges gb) (i, j) is Some v then v else 0.
Notation N := (n1 * n2 + m1 * m2)%N.
Notation M := (m1 * n2 + n1 * m2)%N.

Lemma ent_id k i j : (i < k)%N -> (j < k)%N -> ent (idl F k) i j = (i == j)%:R.
Proof. exact: ent_mkmat. Qed.
Lemma if_omap (o : option F) (f : F -> F * F) (b : bool) : (if b then omap f o else None) = omap f (if b then o else None).
Proof. by case: b. Qed.

(* the entries of the product *)
Lemma expected_entries i j : (i < M)%N -> (j < N)%N ->
  (if expected ga gb (cnode m1 m2 n2 i) (qnode n1 m2 n2 j) is Some v then v else (0, 0)) =
  if (i < m1 * n2)%N then (ent (hgp_x n1 n2 A B) i j, 0) else (0, ent (hgp_z n1 n2 A B) (i - m1 * n2) j).
Proof.
move=> li lj; have wI k : wf k (idl F k) by exact: wf_idl.
have sI k : size (idl F k) = k by rewrite size_idl.
have wT : wf m2 (trl n2 B) by rewrite -sB; exact: wf_trl.
have wT' : wf m1 (trl n1 A) by rewrite -sA; exact: wf_trl.
have sT : size (trl n2 B) = n2 by rewrite size_trl.
have sT' : size (trl n1 A) = n1 by rewrite size_trl.
rewrite /cnode; case: (ltnP i (m1 * n2)) => hi.
  rewrite /hgp_x (@ent_hcat _ (n1 * n2)); first last.
  - by rewrite size_kron sA sI.
  - by rewrite !size_kron sA !sI sT.
  - exact: wf_kron.
  have n20 := lt_pos hi; have hq : (i %/ n2 < m1)%N by rewrite ltn_divLR.
  have hr : (i %% n2 < n2)%N by rewrite ltn_pmod.
  rewrite /qnode; case: (ltnP j (n1 * n2)) => hj.
    have hq' : (j %/ n2 < n1)%N by rewrite ltn_divLR.
    have hr' : (j %% n2 < n2)%N by rewrite ltn_pmod.
    rewrite (ent_kron wA (wI _)) ?sI ?sA // eA // ent_id //=.
    by case: eqP => _; rewrite ?mulr1 ?mulr0 //; case: elook.
  have hj' : (j - n1 * n2 < m1 * m2)%N by lia.
  have m20 := lt_pos hj'; have hq' : ((j - n1 * n2) %/ m2 < m1)%N by rewrite ltn_divLR.
  have hr' : ((j - n1 * n2) %% m2 < m2)%N by rewrite ltn_pmod.
  rewrite sA (ent_kron (wI _) wT) ?sI ?sT // ent_id // ent_trl ?sB // eB //=.
  by case: eqP => _; rewrite ?mul1r ?mul0r //; case: elook.
have hi' : (i - m1 * n2 < n1 * m2)%N by lia.
rewrite /hgp_z (@ent_hcat _ (n1 * n2)); first last.
- by rewrite size_mopp size_kron sI sB.
- by rewrite size_mopp !size_kron !sI sT' sB.
- by apply: wf_mopp; exact: wf_kron.
have m20 := lt_pos hi'; have hq : ((i - m1 * n2) %/ m2 < n1)%N by rewrite ltn_divLR.
have hr : ((i - m1 * n2) %% m2 < m2)%N by rewrite ltn_pmod.
rewrite /qnode; case: (ltnP j (n1 * n2)) => hj.
  have n20 := lt_pos hj; have hq' : (j %/ n2 < n1)%N by rewrite ltn_divLR.
  have hr' : (j %% n2 < n2)%N by rewrite ltn_pmod.
  rewrite ent_mopp (ent_kron (wI _) wB) ?sI ?sB // eB // ent_id //=.
  by case: eqP => _; rewrite ?mul1r ?mul0r ?oppr0 //; case: elook => //=; rewrite oppr0.
have hj' : (j - n1 * n2 < m1 * m2)%N by lia.
have hq' : ((j - n1 * n2) %/ m2 < m1)%N by rewrite ltn_divLR.
have hr' : ((j - n1 * n2) %% m2 < m2)%N by rewrite ltn_pmod.
rewrite sB (ent_kron wT' (wI _)) ?sI ?sT' // ent_id // ent_trl ?sA // eA //=.
by case: eqP => _; rewrite ?mulr1 ?mulr0 //; case: elook.
Qed.

Lemma product_matrix : exists2 G, graph_product ga gb es = Some G &
  qgraph_to_matrix 0 G = Some (M, (2 * N)%N, css_mat N (hgp_x n1 n2 A B) (hgp_z n1 n2 A B)).
Proof.
have [G [h1 h2 h3 h4 h5]] := product_graph; exists G => //.
have [C [e [[sC1 sC2] hC]]] := to_matrix_ok ((0 : F), (0 : F)) h2 h3 h4.
rewrite /qgraph_to_matrix e /=; congr (Some (_, _, _)).
have sx : size (hgp_x n1 n2 A B) = (m1 * n2)%N by rewrite -sA; apply: size_hgp_x.
have sz : size (hgp_z n1 n2 A B) = (n1 * m2)%N by rewrite -sB; apply: size_hgp_z.
have wx : wf N (hgp_x n1 n2 A B) by rewrite -sA -sB; apply: wf_hgp_x.
have wz : wf N (hgp_z n1 n2 A B) by rewrite -sA -sB; apply: wf_hgp_z.
apply: (@eq_from_nth _ [::]); first by rewrite size_map sC1 size_bdiag sx sz.
move=> i; rewrite size_map sC1 => li; rewrite (nth_map [::]) ?sC1 // /css_mat nth_bdiag ?sx ?sz //.
have si := sC2 _ li.
have row j : (j < N)%N -> nth (0, 0) (nth [::] C i) j =
    if (i < m1 * n2)%N then (ent (hgp_x n1 n2 A B) i j, 0) else (0, ent (hgp_z n1 n2 A B) (i - m1 * n2) j).
  by move=> lj; rewrite hC // h5 // expected_entries.
case: (ltnP i (m1 * n2)) row => hi row; congr (_ ++ _).
- apply: (@eq_from_nth _ 0); rewrite size_map si; first by rewrite (wf_nth wx) ?sx.
  by move=> j lj; rewrite (nth_map (0, 0)) ?si // row.
- apply: (@eq_from_nth _ 0); rewrite size_map si; first by rewrite size_nseq.
  by move=> j lj; rewrite (nth_map (0, 0)) ?si // row // nth_nseq lj.
- apply: (@eq_from_nth _ 0); rewrite size_map si; first by rewrite size_nseq.
  by move=> j lj; rewrite (nth_map (0, 0)) ?si // row // nth_nseq lj.
- apply: (@eq_from_nth _ 0); rewrite size_map si.
    by rewrite (wf_nth wz) ?sz //; move: li hi; rewrite /num_checks_p; clear; lia.
  by move=> j lj; rewrite (nth_map (0, 0)) ?si // row.
Qed.
End Product.
End Edges.
