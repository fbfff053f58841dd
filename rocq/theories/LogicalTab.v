(* Logical tableaus of physical circuits, and the sign corrections of transversal gates (circuits.py:102-165, 264-304, 370-520). *)
From mathcomp Require Import all_ssreflect all_algebra ring zify.
From Verif Require Import SignedPauli.
Set Implicit Arguments.
Unset Strict Implicit.
Unset Printing Implicit Defensive.
Import GRing.Theory.
Local Open Scope ring_scope.

(* circuits.py:422 (decoded_tableau), and 287: encoder.then(physical_tableau).then(decoder) *)
Definition decoded (n : nat) (E U D : tableau) : tableau := tthen n (tthen n E U) D.
(* circuits.py:423-431: the upper left block of one row, with the sign of the whole row *)
Definition ptrunc (k : nat) (p : spauli) : spauli := (p.1 - ycount (drop k p.2), take k p.2).
(* circuits.py:423-431, with stim's Tableau.from_numpy, which refuses images without the right commutation relations *)
Definition block (k : nat) (T : tableau) : tableau := [seq (ptrunc k h.1, ptrunc k h.2) | h <- take k T].
(* no X or Y factors; no factors at all *)
Definition noX (u : seq pq) : bool := all (fun a => ~~ a.1) u.
Definition triv (u : seq pq) : bool := all (fun a => a == pI) u.
(* circuits.py:438-441: no destabilizers in the images of Z operators, and of X operators of logical and gauge qubits *)
Definition no_destab (k g : nat) (T : tableau) : bool :=
  all (fun h => noX (drop (k + g) h.2.2)) T && all (fun h => noX (drop (k + g) h.1.2)) (take (k + g) T).
(* circuits.py:443-447: no logical factors in the images of gauge operators *)
Definition no_logical (k g : nat) (T : tableau) : bool := all (fun h => triv (take k h.1.2) && triv (take k h.2.2)) (take g (drop k T)).
(* circuits.py:409-449 (_get_logical_tableau_from_code_data); an error (of from_numpy or of an assert) is None. The encoder and the decoder are
   tableaus on n qubits, so the first assert holds; the physical circuit is given by its tableau U *)
Definition logical_data (k g n : nat) (E D U : tableau) : option tableau :=
  let T := decoded n E U D in
  if [&& tval k (block k T), no_destab k g T & no_logical k g T] then Some (block k T) else None.

(* ----------------------------------------------------------------------------------- bits *)
Lemma cross_cat u u' v v' : size u = size v -> cross (u ++ u') (v ++ v') = cross u v (+) cross u' v'.
Proof. by elim: u v => [|b u IH] [|c v] //= [e']; rewrite IH // addbA. Qed.
Lemma sympl_cat u u' v v' : size u = size v -> sympl (u ++ u') (v ++ v') = sympl u v (+) sympl u' v'.
Proof.
by move=> e; rewrite /sympl !cross_cat // -!addbA; congr (_ (+) _); rewrite !addbA; congr (_ (+) _); rewrite addbC.
Qed.
Lemma cross_noX u v : noX v -> cross u v = false.
Proof. by elim: u v => [|a u IH] [|b v] //= /andP [/negbTE -> /IH ->]; rewrite andbF. Qed.
Lemma sympl_noX u v : noX u -> noX v -> sympl u v = false.
Proof. by move=> hu hv; rewrite /sympl !cross_noX. Qed.
Lemma ycount_noX u : noX u -> ycount u = 0.
Proof. by elim: u => //= a u IH /andP [/negbTE -> /IH ->]; rewrite addr0. Qed.
Lemma ycount_cat u v : ycount (u ++ v) = ycount u + ycount v.
Proof. by elim: u => [|a u IH] /=; rewrite ?add0r // IH addrA. Qed.
Lemma noX_padd u v : noX u -> noX v -> noX (padd u v).
Proof. by elim: u v => [|a u IH] [|b v] //= /andP [/negbTE ha hu] /andP [/negbTE hb hv]; rewrite ha hb IH. Qed.
Lemma noX_nseq m : noX (nseq m pI). Proof. by elim: m. Qed.
Lemma trivP m u : size u = m -> triv u -> u = nseq m pI.
Proof. by elim: u m => [|a u IH] [|m] //= [e] /andP [/eqP -> h]; rewrite (IH _ e h). Qed.
Lemma triv_nseq m : triv (nseq m pI). Proof. by elim: m. Qed.
Lemma drop_padd j u v : drop j (padd u v) = padd (drop j u) (drop j v).
Proof. by elim: j u v => [|j IH] [|a u] [|b v] //=; rewrite ?drop0 // ?IH //; case: (drop _ _). Qed.
Lemma take_padd j u v : take j (padd u v) = padd (take j u) (take j v).
Proof. by elim: j u v => [|j IH] [|a u] [|b v] //=; rewrite /padd /= -/(padd _ _) IH. Qed.
Lemma drop_nseqI j m : drop j (nseq m pI) = nseq (m - j) pI.
Proof. by elim: j m => [|j IH] [|m] //=; rewrite ?IH ?subSS. Qed.
Lemma take_nseqI j m : take j (nseq m pI) = nseq (minn j m) pI.
Proof. by elim: j m => [|j IH] [|m] //=; rewrite IH minnSS. Qed.
Lemma triv_padd u v : triv u -> triv v -> triv (padd u v).
Proof. by elim: u v => [|a u IH] [|b v] //= /andP [/eqP -> hu] /andP [/eqP -> hv]; rewrite /= IH. Qed.
(* truncation keeps commutation relations of operators without destabilizers *)
Section Trunc.
Variables (n k : nat).
Hypothesis kn : (k <= n)%N.
Definition tail_ok (p : spauli) : bool := (size p.2 == n) && noX (drop k p.2).
Lemma sympl_trunc p q : tail_ok p -> tail_ok q -> sympl (ptrunc k p).2 (ptrunc k q).2 = sympl p.2 q.2.
Proof.
case/andP => /eqP sp hp /andP [/eqP sq hq].
by rewrite -[in RHS](cat_take_drop k p.2) -[in RHS](cat_take_drop k q.2) sympl_cat ?size_takel ?sp ?sq // [X in _ = _ (+) X]sympl_noX ?addbF.
Qed.
Lemma herm_trunc p : tail_ok p -> herm p -> herm (ptrunc k p).
Proof.
case/andP => /eqP sp hp; rewrite /herm /psign /ptrunc /= (ycount_noX hp) subr0.
by rewrite -{1 2}(cat_take_drop k p.2) ycount_cat (ycount_noX hp) addr0.
Qed.
Lemma size_trunc p : tail_ok p -> size (ptrunc k p).2 = k. Proof. by case/andP => /eqP sp _; rewrite /= size_takel ?sp. Qed.
Lemma tval_block T : tval n T -> all (fun h => tail_ok h.1 && tail_ok h.2) (take k T) -> tval k (block k T).
Proof.
move=> v a; apply: (@tval_map n k (ptrunc k) tail_ok _ _ _ _ a (tval_take k v)); [exact: sympl_trunc | exact: herm_trunc | by move=> p /size_trunc].
Qed.
(* the truncated tableau computes the first qubits of an image *)
Lemma papply_trunc t u : tval n t -> all (fun h => tail_ok h.1 && tail_ok h.2) t ->
  let p := papply n t u in tail_ok p /\ papply k [seq (ptrunc k h.1, ptrunc k h.2) | h <- t] u = (p.1, take k p.2).
Proof.
move=> + + /=; elim: t u => [|h t IH] u; first by move=> _ _; rewrite /tail_ok /= size_nseq eqxx drop_nseqI noX_nseq take_nseqI (minn_idPl kn).
case: u => [|a u]; first by move=> _ _; rewrite /tail_ok /= size_nseq eqxx drop_nseqI noX_nseq take_nseqI (minn_idPl kn).
move=> v /= /andP [/andP [t1 t2] ta]; have [s1 s2 _ _ vt] := tval_cons v; have [o e] := IH u vt ta.
have tr b p : tail_ok p -> ppow k b (ptrunc k p) = ((ppow n b p).1, take k (ppow n b p).2) /\ tail_ok (ppow n b p).
  case: b => // /andP [sp hp]; first by rewrite /ptrunc (ycount_noX hp) subr0 /tail_ok /= sp hp.
  by rewrite /tail_ok /= size_nseq eqxx drop_nseqI noX_nseq take_nseqI (minn_idPl kn).
have pmk p q : tail_ok p -> tail_ok q -> pm (p.1, take k p.2) (q.1, take k q.2) = ((pm p q).1, take k (pm p q).2) /\ tail_ok (pm p q).
  case/andP => /eqP sp hp /andP [/eqP sq hq]; split; last by rewrite /tail_ok size_pm ?sp ?sq // eqxx drop_padd noX_padd.
  rewrite /pm /= take_padd; congr (_ + tw _, _).
  by rewrite -[in RHS](cat_take_drop k p.2) -[in RHS](cat_take_drop k q.2) cross_cat ?size_takel ?sp ?sq // [X in _ = _ (+) X]cross_noX ?addbF.
have [e1 o1] := tr a.1 _ t1; have [e2 o2] := tr a.2 _ t2.
have [e3 o3] := pmk _ _ o1 o2; have [e4 o4] := pmk _ _ o3 o; by rewrite e e1 e2 e3 e4.
Qed.
End Trunc.
(* images of products of some of the operators *)
Lemma papply_mid n T a w c : tval n T -> size T = n -> (a + size w + c)%N = n ->
  papply n T (nseq a pI ++ w ++ nseq c pI) = papply n (take (size w) (drop a T)) w.
Proof.
move=> v sT e; have s1 : size (take a T) = a by rewrite size_takel // sT -e -addnA leq_addr.
have s2 : size (take (size w) (drop a T)) = size w by rewrite size_takel // size_drop sT -e -addnA addKn leq_addr.
have v1 := tval_take a v; have v2 := tval_drop a v; have v3 := tval_take (size w) v2; have v4 := tval_drop (size w) v2.
rewrite -{1}(cat_take_drop a T) papply_cat ?cat_take_drop ?size_nseq ?s1 // papply1 // pm1l ?size_papply //.
by rewrite -{1}(cat_take_drop (size w) (drop a T)) papply_cat ?cat_take_drop ?s2 // papply1 // pm1 // size_papply.
Qed.
Lemma papply_noX n t u (P : pred (seq pq)) : P (nseq n pI) -> (forall v w, size v = n -> size w = n -> P v -> P w -> P (padd v w)) ->
  tval n t -> all (fun h => P h.2.2) t -> noX u -> P (papply n t u).2.
Proof.
move=> P0 PD; elim: t u => [|h t IH] [|[x z] u] // v /= /andP [p2 pt] /andP [/negbTE -> hu]; have [s1 s2 _ _ vt] := tval_cons v.
have q2 : P (ppow n z h.2).2 by case: (z).
have e1 : size (nseq n pI) = n := size_nseq n pI; have e2 := size_ppow z s2; have e3 := size_papply u vt.
by apply: (PD _ _) => //; [rewrite size_padd ?e1 ?e2 | apply: (PD _ _) | apply: IH].
Qed.
Section Logical.
Variables (n k g : nat) (T : tableau).
Hypotheses (kg : (k + g <= n)%N) (v : tval n T) (sT : size T = n) (nd : no_destab k g T) (nl : no_logical k g T).
Let kn : (k <= n)%N := leq_trans (leq_addr g k) kg.
Let r0 : spauli * spauli := (pone n, pone n).
Lemma row_ok i : (i < k + g)%N -> tail_ok n (k + g) (nth r0 T i).1 && tail_ok n (k + g) (nth r0 T i).2.
Proof.
move=> hi; have hi' : (i < size T)%N by rewrite sT (leq_trans hi).
have [s1 s2 _ _ _] := tval_row v hi'; case/andP: nd => /allP a2 /allP a1; rewrite /tail_ok s1 s2 !eqxx a2 ?mem_nth //= andbT.
by apply: a1; rewrite -(nth_take _ hi) mem_nth // size_takel ?sT.
Qed.
Lemma all_row m (P : pred (spauli * spauli)) : (m <= n)%N -> (forall i, (i < m)%N -> P (nth r0 T i)) -> all P (take m T).
Proof.
move=> hm h; apply/(all_nthP r0) => i; rewrite size_takel ?sT // => hi; by rewrite nth_take // h.
Qed.
Lemma block_kg : tval (k + g) (block (k + g) T) /\ size (block (k + g) T) = (k + g)%N.
Proof.
split; last by rewrite size_map size_takel ?sT.
apply: (tval_block kg v); apply: all_row => // i hi; exact: row_ok.
Qed.
Lemma nth_block m i d : (m <= n)%N -> (i < m)%N -> nth d (block m T) i = (ptrunc m (nth r0 T i).1, ptrunc m (nth r0 T i).2).
Proof. by move=> hm hi; rewrite (nth_map r0) ?size_takel ?sT // nth_take. Qed.
(* stabilizers go to stabilizers *)
Lemma image_stab r : size r = (n - (k + g))%N -> noX r -> let p := papply n T (nseq (k + g) pI ++ r) in
  exists r', [/\ size r' = (n - (k + g))%N, noX r' & p.2 = nseq (k + g) pI ++ r'].
Proof.
move=> sr hr p; have sp : size p.2 = n := size_papply _ v.
have su : size (nseq (k + g) pI ++ r) = n by rewrite size_cat size_nseq sr subnKC.
have hp : noX (drop (k + g) p.2).
  apply: (@papply_noX n T _ (fun u => noX (drop (k + g) u))) => //; first by rewrite drop_nseqI noX_nseq.
  - by move=> a b _ _ ha hb; rewrite drop_padd noX_padd.
  - by case/andP: nd => /allP h _; apply/allP => x hx; apply: h.
  - by rewrite /noX all_cat -/(noX _) noX_nseq.
exists (drop (k + g) p.2); split => //; first by rewrite size_drop sp.
rewrite -{1}(cat_take_drop (k + g) p.2); congr (_ ++ _).
have [vb sb] := block_kg; apply: (comm0 vb sb); first by rewrite size_takel ?sp.
move=> i hi /=; rewrite nth_block //; have /andP [o1 o2] := row_ok hi; have hi' : (i < n)%N := leq_trans hi kg.
have tp : tail_ok n (k + g) p by rewrite /tail_ok sp eqxx hp.
have e := sympl_trunc kg tp; rewrite /ptrunc /= in e.
have sy a : sympl (nseq (k + g) pI ++ r) (single n i a) = (nth pI (nseq (k + g) pI ++ r) i).1 && a.2 (+) (nth pI (nseq (k + g) pI ++ r) i).2 && a.1.
  have := nth_sympl su hi'; rewrite nth_cat size_nseq hi nth_nseq hi => -[h1 h2].
  case: a => [[] []] /=; rewrite ?h1 ?h2 //; last by rewrite -[(false, false)]/pI single0 // sympl0.
  have -> : single n i (true, true) = padd (single n i (true, false)) (single n i (false, true)).
    by rewrite /single padd_cat // padd_nseq padd_cons padd_nseq.
  by rewrite symplC symplD ?size_single // symplC h2 symplC h1.
rewrite /ptrunc /= !e // -(tapply_opx v sT hi') -(tapply_opz v sT hi').
have -> : p = tapply n T (0, nseq (k + g) pI ++ r) by rewrite /tapply pph0.
by rewrite !sympl_tapply ?sT ?size_single //= !sy nth_cat size_nseq hi nth_nseq hi.
Qed.
(* gauge operators go to gauge operators, up to stabilizers *)
Definition gaugish (u : seq pq) : bool := triv (take k u) && noX (drop (k + g) u).
Lemma gaugish0 : gaugish (nseq n pI). Proof. by rewrite /gaugish take_nseqI drop_nseqI triv_nseq noX_nseq. Qed.
Lemma gaugishD a b : size a = n -> size b = n -> gaugish a -> gaugish b -> gaugish (padd a b).
Proof. by move=> _ _ /andP [a1 a2] /andP [b1 b2]; rewrite /gaugish take_padd drop_padd triv_padd ?noX_padd. Qed.
Lemma gauge_rows : all (fun h => gaugish h.1.2 && gaugish h.2.2) (take g (drop k T)).
Proof.
apply/(all_nthP r0) => i; rewrite size_take size_drop sT => hi.
have hi' : (i < g)%N by move: hi; case: ifP => // /negbT; rewrite -leqNgt => /(fun a b => leq_trans b a); apply.
have ik : (k + i < k + g)%N by rewrite ltn_add2l.
have := row_ok ik; rewrite nth_take // nth_drop => /andP [/andP [_ o1] /andP [_ o2]].
move: nl => /(all_nthP r0) /(_ i); rewrite size_take size_drop sT hi nth_take // nth_drop => /(_ isT) /andP [t1 t2].
by rewrite /gaugish t1 t2 o1 o2.
Qed.
Lemma image_gauge w : size w = g -> let p := papply n T (nseq k pI ++ w ++ nseq (n - (k + g)) pI) in
  exists w' r', [/\ size w' = g, size r' = (n - (k + g))%N, noX r' & p.2 = nseq k pI ++ w' ++ r'].
Proof.
move=> sw p; have sp : size p.2 = n := size_papply _ v.
have : gaugish p.2.
  rewrite /p papply_mid // ?sw; last by rewrite subnKC.
  apply: (papply_closed _ gaugish0 gaugishD); [exact: tval_take (tval_drop _ _) | exact: gauge_rows].
case/andP => t1 h1; exists (take g (drop k p.2)), (drop (k + g) p.2); split => //.
- by rewrite size_takel // size_drop sp leq_subRL.
- by rewrite size_drop sp.
- rewrite -{1}(cat_take_drop k p.2) -{1}(cat_take_drop g (drop k p.2)) drop_drop addnC; congr (_ ++ _).
  by apply: (trivP _ t1); rewrite size_takel ?sp.
Qed.
(* logical operators do not pick up gauge operators *)
Definition dropk (p : spauli) : spauli := (p.1, drop k p.2).
Lemma gauge_tab : let G := [seq (dropk h.1, dropk h.2) | h <- drop k (block (k + g) T)] in tval g G /\ size G = g.
Proof.
have [vb sb] := block_kg; split; last by rewrite size_map size_drop sb addKn.
apply: (@tval_map (k + g) g dropk (fun p => (size p.2 == k + g)%N && triv (take k p.2)) _ _ _ _ _ (tval_drop k vb)).
- move=> p q /andP [/eqP sp tp] /andP [/eqP sq tq].
  rewrite -[in RHS](cat_take_drop k p.2) -[in RHS](cat_take_drop k q.2) sympl_cat ?size_takel ?sp ?sq ?leq_addr //.
  by rewrite (@trivP k (take k q.2)) ?sympl0 // size_takel ?sq ?leq_addr.
- move=> p /andP [/eqP sp tp]; rewrite /herm /psign /= -{1 2}(cat_take_drop k p.2) ycount_cat.
  rewrite (@trivP k (take k p.2)) ?size_takel ?sp ?leq_addr // ycount_noX ?noX_nseq //; by rewrite add0r.
- by move=> p /andP [/eqP sp _] _; rewrite size_drop sp addKn.
apply/(all_nthP r0) => i; rewrite size_drop sb addKn => hi; have ik : (k + i < k + g)%N by rewrite ltn_add2l.
rewrite nth_drop nth_block //=; have /andP [/andP [/eqP s1 _] /andP [/eqP s2 _]] := row_ok ik.
rewrite !size_takel ?s1 ?s2 // !eqxx !take_take ?leq_addr //=.
have hi' : (i < size (take g (drop k T)))%N by rewrite size_takel // size_drop sT leq_subRL.
by move: nl => /(all_nthP r0) /(_ i hi'); rewrite nth_take // nth_drop.
Qed.
Definition loggish (u : seq pq) : bool := triv (take g (drop k u)) && noX (drop (k + g) u).
Lemma loggish0 : loggish (nseq n pI). Proof. by rewrite /loggish drop_nseqI take_nseqI drop_nseqI triv_nseq noX_nseq. Qed.
Lemma loggishD a b : size a = n -> size b = n -> loggish a -> loggish b -> loggish (padd a b).
Proof. by move=> _ _ /andP [a1 a2] /andP [b1 b2]; rewrite /loggish !drop_padd take_padd triv_padd ?noX_padd. Qed.
Lemma loggish_noX u : loggish u -> noX (drop k u).
Proof.
case/andP => t1 h1; rewrite -(cat_take_drop g (drop k u)) drop_drop addnC /noX all_cat -/(noX _) -/(noX _) h1 andbT.
by apply: sub_all t1 => a /eqP ->.
Qed.
Lemma logical_rows i : (i < k)%N -> loggish (nth r0 T i).1.2 && loggish (nth r0 T i).2.2.
Proof.
move=> hi; have ik : (i < k + g)%N := ltn_addr g hi; have /andP [o1 o2] := row_ok ik.
have [vg sg] := gauge_tab; have [vb sb] := block_kg.
have lem p q : tail_ok n (k + g) p -> p = tapply n T q -> size q.2 = n ->
    (forall j, (j < g)%N -> sympl q.2 (opx n (k + j)).2 = false /\ sympl q.2 (opz n (k + j)).2 = false) -> loggish p.2.
  move=> op ep sq hq; case/andP: (op) => /eqP sp hp; rewrite /loggish hp andbT.
  have -> : take g (drop k p.2) = nseq g pI; last exact: triv_nseq.
  apply: (comm0 vg sg); first by rewrite size_takel // size_drop sp leq_subRL.
  move=> j hj; have kj : (k + j < k + g)%N by rewrite ltn_add2l. have kjn := leq_trans kj kg.
  have dd : forall w, size w = (k + g)%N -> triv (take k w) -> sympl (take g (drop k p.2)) (drop k w) = sympl (take (k + g) p.2) w.
    move=> w sw tw'; rewrite -[in RHS](cat_take_drop k w) -[take (k + g) _](cat_take_drop k) sympl_cat; last first.
      by rewrite !size_takel ?sw ?leq_addr // sp.
    rewrite (@trivP k (take k w)) ?size_takel ?sw ?leq_addr // sympl0 addFb.
    by congr (sympl _ _); rewrite take_drop addnC.
  have /andP [t1 t2] : triv (take k (nth r0 T (k + j)).1.2) && triv (take k (nth r0 T (k + j)).2.2).
    have hi' : (j < size (take g (drop k T)))%N by rewrite size_takel // size_drop sT leq_subRL.
    by move: nl => /(all_nthP r0) /(_ j hi'); rewrite nth_take // nth_drop.
  have /andP [u1 u2] := row_ok kj; have [/eqP s1 _] := andP u1; have [/eqP s2 _] := andP u2.
  rewrite (nth_map r0) ?size_drop ?sb ?addKn // nth_drop nth_block //=.
  rewrite !dd ?size_takel ?s1 ?s2 // ?take_take ?leq_addr //.
  have e := sympl_trunc kg op; rewrite /ptrunc /= in e; rewrite !e //.
  by rewrite -(tapply_opx v sT kjn) -(tapply_opz v sT kjn) ep !sympl_tapply ?sT ?size_single //; apply: hq.
have hin : (i < n)%N := leq_trans ik kg; have ne j : (i == k + j)%N = false by apply/ltn_eqF/(leq_trans hi)/leq_addr.
apply/andP; split; [apply: (lem _ (opx n i) o1) | apply: (lem _ (opz n i) o2)]; rewrite ?tapply_opx ?tapply_opz ?size_single //.
all: by move=> j hj; have kj : (k + j < n)%N by [apply: leq_trans kg; rewrite ltn_add2l]; rewrite /= !sympl_single //= ne.
Qed.
Lemma rows_tail : all (fun h => tail_ok n k h.1 && tail_ok n k h.2) (take k T).
Proof.
apply: all_row => // i hi; have ik : (i < k + g)%N := ltn_addr g hi; have /andP [/andP [s1 _] /andP [s2 _]] := row_ok ik.
by have /andP [/loggish_noX l1 /loggish_noX l2] := logical_rows hi; rewrite /tail_ok s1 s2 l1 l2.
Qed.
Lemma block_val : tval k (block k T) /\ size (block k T) = k.
Proof. by split; [exact: tval_block rows_tail | rewrite size_map size_takel ?sT]. Qed.
Lemma image_logical u : size u = k -> let p := papply n T (u ++ nseq (n - k) pI) in
  exists r', [/\ size r' = (n - (k + g))%N, noX r' & p = ((papply k (block k T) u).1, (papply k (block k T) u).2 ++ nseq g pI ++ r')].
Proof.
move=> su p; have sp : size p.2 = n := size_papply _ v.
have ep : p = papply n (take k T) u by rewrite /p -[u ++ _]/(nseq 0 pI ++ u ++ _) papply_mid ?drop0 ?su ?subnKC.
have vk := tval_take k v; have [o e] := papply_trunc kn u vk rows_tail.
have lg : loggish p.2.
  rewrite ep; apply: (papply_closed _ loggish0 loggishD vk); apply: all_row => // i; exact: logical_rows.
have -> : papply k (block k T) u = (p.1, take k p.2) by rewrite e ep.
case/andP: lg => t1 h1; exists (drop (k + g) p.2); split => //; first by rewrite size_drop sp.
rewrite [LHS]surjective_pairing /=; congr (_, _).
rewrite -{1}(cat_take_drop k p.2) -{1}(cat_take_drop g (drop k p.2)) drop_drop addnC; congr (_ ++ (_ ++ _)).
by apply: (trivP _ t1); rewrite size_takel // size_drop sp leq_subRL.
Qed.
End Logical.

(* ------------------------------------------------------------------------------ specification *)
(* E and E' are encoders: E turns the Pauli operators of the first k qubits into logical operators, of the next g qubits into gauge operators,
   and the Z operators of the remaining qubits into stabilizers; U acts on the physical qubits *)
Definition implements (k g n : nat) (E E' U L : tableau) : Prop := forall p, size p.2 = k ->
  exists r, [/\ size r = (n - (k + g))%N, noX r & tapply n U (tapply n E (p.1, p.2 ++ nseq (n - k) pI)) =
    tapply n E' ((tapply k L p).1, (tapply k L p).2 ++ nseq g pI ++ r)].
Definition keeps_stabilizers (k g n : nat) (E E' U : tableau) : Prop := forall r, size r = (n - (k + g))%N -> noX r ->
  exists s r', [/\ size r' = (n - (k + g))%N, noX r' & tapply n U (tapply n E (0, nseq (k + g) pI ++ r)) = tapply n E' (s, nseq (k + g) pI ++ r')].
Definition keeps_gauge (k g n : nat) (E E' U : tableau) : Prop := forall w, size w = g ->
  exists s w' r', [/\ size w' = g, size r' = (n - (k + g))%N, noX r' &
    tapply n U (tapply n E (0, nseq k pI ++ w ++ nseq (n - (k + g)) pI)) = tapply n E' (s, nseq k pI ++ w' ++ r')].
(* ... with their signs, so that the code space is mapped to the code space *)
Definition keeps_code (k g n : nat) (E E' U : tableau) : Prop := forall r, size r = (n - (k + g))%N -> noX r ->
  exists r', [/\ size r' = (n - (k + g))%N, noX r' & tapply n U (tapply n E (0, nseq (k + g) pI ++ r)) = tapply n E' (0, nseq (k + g) pI ++ r')].

Section Spec.
Variables (n k g : nat) (E E' U : tableau).
Hypotheses (kg : (k + g <= n)%N) (vE : tval n E) (sE : size E = n) (vE' : tval n E') (sE' : size E' = n) (vU : tval n U) (sU : size U = n).
Let D := tinv n E'.
Let T := decoded n E U D.
Let kn : (k <= n)%N := leq_trans (leq_addr g k) kg.
Lemma vD : tval n D. Proof. exact: tval_tinv. Qed.
Lemma sD : size D = n. Proof. exact: size_tinv. Qed.
Lemma vT : tval n T. Proof. by apply: tval_then; rewrite ?vD ?sD //; apply: tval_then. Qed.
Lemma sT' : size T = n. Proof. by rewrite !size_map sE. Qed.
Lemma decodedE p : size p.2 = n -> tapply n E' (tapply n T p) = tapply n U (tapply n E p).
Proof.
move=> sp; have vEU : tval n (tthen n E U) by apply: tval_then.
by rewrite /T /decoded tapply_then ?vD ?sD // tapply_then // tinvE ?size_tapply // tapplyK ?size_tapply.
Qed.
Lemma decoded_eq p q : size p.2 = n -> size q.2 = n -> tapply n U (tapply n E p) = tapply n E' q -> tapply n T p = q.
Proof. by move=> sp sq; rewrite -decodedE // => /(tapply_inj vE' sE') -> //; rewrite size_tapply // vT. Qed.
Lemma size_log u : size u = k -> size (u ++ nseq (n - k) pI) = n. Proof. by move=> su; rewrite size_cat size_nseq su subnKC. Qed.
Lemma size_stab r : size r = (n - (k + g))%N -> size (nseq (k + g) pI ++ r) = n.
Proof. by move=> sr; rewrite size_cat size_nseq sr subnKC. Qed.
Lemma size_gauge w : size w = g -> size (nseq k pI ++ w ++ nseq (n - (k + g)) pI) = n.
Proof. by move=> sw; rewrite !size_cat !size_nseq sw addnA subnKC. Qed.

Lemma logical_dataP L : logical_data k g n E D U = Some L ->
  [/\ tval k L, size L = k, implements k g n E E' U L, keeps_stabilizers k g n E E' U & keeps_gauge k g n E E' U].
Proof.
rewrite /logical_data -/T; case: ifP => // /and3P [vb nd nl] [<-]; have vT := vT; have sT := sT'.
split=> //; first by rewrite size_map size_takel ?sT.
- move=> p sp; have [r [sr hr er]] := image_logical kg vT sT nd nl sp; exists r; split => //.
  by rewrite -decodedE ?size_log // /tapply er /pph /=.
- move=> r sr hr; have [r' [sr' hr' er]] := image_stab kg vT sT nd sr hr.
  exists (papply n T (nseq (k + g) pI ++ r)).1, r'; split => //.
  by rewrite -decodedE ?size_stab // {2}/tapply /pph /= add0r er.
- move=> w sw; have [w' [r' [sw' sr' hr' er]]] := image_gauge kg vT sT nd nl sw.
  exists (papply n T (nseq k pI ++ w ++ nseq (n - (k + g)) pI)).1, w', r'; split => //.
  by rewrite -decodedE ?size_gauge // {2}/tapply /pph /= add0r er.
Qed.
Lemma nth_single j a i : nth pI (single n j a) i = if i == j then a else pI.
Proof.
rewrite /single nth_cat size_nseq; case: (ltngtP i j) => [lt|gt|->]; rewrite ?nth_nseq ?lt //; last by rewrite subnn.
by case: (i - j)%N (subn_gt0 j i) => [|q]; rewrite ?gt //= nth_nseq; case: ifP.
Qed.
Lemma noX_nth r : (forall i, (i < size r)%N -> (nth pI r i).1 = false) -> noX r.
Proof. by move=> h; apply/(all_nthP pI) => i hi; rewrite h. Qed.
(* conversely *)
Lemma logical_data_def : keeps_stabilizers k g n E E' U -> keeps_gauge k g n E E' U -> logical_data k g n E D U = Some (block k T).
Proof.
move=> hs hg; have vT := vT; have sT := sT'.
pose m := (n - (k + g))%N; pose zs (b : seq bool) : seq pq := [seq (false, x) | x <- b].
have zsn b : noX (zs b) by rewrite /noX all_map; elim: b.
have zsK r : noX r -> zs [seq a.2 | a <- r] = r by elim: r => [|[x z] r IH] //= /andP [/negbTE -> /IH ->].
have im b : size b = m -> exists s r', [/\ size r' = m, noX r' & papply n T (nseq (k + g) pI ++ zs b) = (s, nseq (k + g) pI ++ r')].
  move=> sb; have szb : size (zs b) = (n - (k + g))%N by rewrite size_map.
  have [s [r' [sr hr e]]] := hs _ szb (zsn b); exists s, r'; split => //.
  by rewrite -(@decoded_eq (0, nseq (k + g) pI ++ zs b) (s, nseq (k + g) pI ++ r')) ?size_stab // /tapply pph0.
(* every Z-type operator of the last qubits is an image of one *)
have onto (i : nat) : (i < m)%N -> exists b, size b = m /\ (papply n T (nseq (k + g) pI ++ zs b)).2 = single n (k + g + i) (false, true).
  move=> hi; pose f (b : m.-tuple bool) : m.-tuple bool :=
    [tuple (nth pI (papply n T (nseq (k + g) pI ++ zs b)).2 (k + g + j)).2 | j < m].
  have fi : injective f.
    move=> a b e; have [s [r [sr hr ea]]] := im a (size_tuple a); have [s' [r' [sr' hr' eb]]] := im b (size_tuple b).
    have err : r = r'.
      rewrite -(zsK _ hr) -(zsK _ hr'); congr zs; apply: (@eq_from_nth _ false); rewrite !size_map sr ?sr' // => j hj.
      have := congr1 (fun t => tnth t (Ordinal hj)) e; rewrite !tnth_mktuple /= ea eb /= !nth_cat !size_nseq ltnNge leq_addr /= addKn.
      by rewrite !(nth_map pI) ?sr ?sr'.
    have sa : size (nseq (k + g) pI ++ zs a) = n by rewrite size_stab // size_map size_tuple.
    have sb : size (nseq (k + g) pI ++ zs b) = n by rewrite size_stab // size_map size_tuple.
    have : tapply n T (s' - s, nseq (k + g) pI ++ zs a) = tapply n T (0, nseq (k + g) pI ++ zs b).
      by rewrite /tapply /= ea eb /pph /= subrK err add0r.
    move=> et; have := congr1 (fun x : spauli => drop (k + g) x.2) (@tapply_inj n T (_, _) (_, _) vT sT sa sb et) => /=; rewrite !drop_size_cat ?size_nseq // => ez.
    apply: val_inj => /=; have: injective (fun x : bool => (false, x)) by move=> x y [].
    by move/inj_map; apply.
  have [h _ hK] := injF_bij fi; pose c : m.-tuple bool := [tuple (j == i :> nat) | j < m]; exists (h c); split; first exact: size_tuple.
  have [s [r [sr hr er]]] := im (h c) (size_tuple _); rewrite er /=; rewrite -(zsK _ hr).
  have -> : [seq a.2 | a <- r] = c.
    rewrite -[RHS](congr1 val (hK c)); apply: (@eq_from_nth _ false); rewrite size_map sr; first by rewrite size_tuple.
    move=> j hj.
    transitivity (tnth (f (h c)) (Ordinal hj)); last exact: tnth_nth.
    by rewrite (nth_map pI) ?sr // tnth_mktuple /= er /= nth_cat size_nseq ltnNge leq_addr /= addKn.
  rewrite /single (nseqD (k + g) i) -catA; congr (_ ++ _); apply: (@eq_from_nth _ pI).
    rewrite size_map size_tuple size_cat /= !size_nseq; move: hi; rewrite /m; clear; lia.
  rewrite size_map size_tuple => j hj; rewrite /zs (nth_map false) ?size_tuple //.
  rewrite (_ : nth false c j = tnth c (Ordinal hj)); last by rewrite (tnth_nth false).
  rewrite tnth_mktuple /=.
  rewrite nth_cat size_nseq; case: (ltngtP j i) => [lt|gt|->]; rewrite ?nth_nseq ?lt //; last by rewrite subnn.
  by case: (j - i)%N (gt) (subn_gt0 i j) => [|q]; rewrite ?gt //= nth_nseq; case: ifP.
(* operators that commute with the stabilizers are mapped to operators without destabilizers *)
have nox u : size u = n -> noX (drop (k + g) u) -> noX (drop (k + g) (papply n T u).2).
  move=> su hu; have sp : size (papply n T u).2 = n by rewrite size_papply.
  apply: noX_nth => i; rewrite size_drop sp => hi; have kin : (k + g + i < n)%N by move: hi; clear; lia.
  have [b [sb eb]] := onto i hi; rewrite nth_drop; have := nth_sympl sp kin; move/(congr1 fst) => /= <-.
  have szb : size (nseq (k + g) pI ++ zs b) = n by rewrite size_stab // size_map sb.
  have e1 : (papply n T u).2 = (tapply n T (0, u)).2 by [].
  have e2 : single n (k + g + i) (false, true) = (tapply n T (0, nseq (k + g) pI ++ zs b)).2 by rewrite -eb.
  rewrite e1 e2 sympl_tapply ?sT //= -{1}(cat_take_drop (k + g) u) sympl_cat ?size_takel ?su ?size_nseq // sympl0 /=.
  by rewrite sympl_noX.
have drop_single j a : (j < n)%N -> (j < k + g)%N || ~~ a.1 -> noX (drop (k + g) (single n j a)).
  move=> hj h; apply: noX_nth => i _; rewrite nth_drop nth_single; case: eqP => // e.
  by move: h; rewrite -e ltnNge leq_addr /= => /negbTE.
have nd : no_destab k g T.
  apply/andP; split.
    apply/(all_nthP (pone n, pone n)) => j; rewrite sT => hj; rewrite -tapply_opz //.
    by apply: nox; rewrite ?size_single //; apply: drop_single; rewrite // orbT.
  apply: (all_row sT kg) => j hj; have hjn : (j < n)%N := leq_trans hj kg; rewrite -tapply_opx //.
  by apply: nox; rewrite ?size_single //; apply: drop_single; rewrite // hj.
have nl : no_logical k g T.
  apply/(all_nthP (pone n, pone n)) => j; rewrite size_takel ?size_drop ?sT ?leq_subRL // => hj.
  have kj : (k + j < n)%N by apply: leq_trans kg; rewrite ltn_add2l.
  rewrite nth_take // nth_drop -tapply_opz // -tapply_opx //.
  have gs a : triv (take k (tapply n T (0, single n (k + j) a)).2).
    have sw : size (single g j a) = g by rewrite size_single.
    have [s [w' [r' [sw' sr' hr' e]]]] := hg _ sw.
    rewrite (@decoded_eq _ (s, nseq k pI ++ w' ++ r')) ?size_single //.
    - by rewrite take_size_cat ?size_nseq // triv_nseq.
    - by rewrite !size_cat size_nseq sw' sr' addnA subnKC.
    - rewrite -e; congr (tapply n U (tapply n E (0, _))); rewrite /single nseqD -!catA /= -nseqD; congr (_ ++ (_ ++ (_ :: nseq _ _))).
      by move: kj kg hj; clear; lia.
  by rewrite !gs.
have [vb _] := block_val kg vT sT nd nl; by rewrite /logical_data -/T vb nd nl.
Qed.
End Spec.
(* the logical tableau is determined by what it implements *)
Lemma implements_inj n k g E E' U L L' : (k + g <= n)%N -> tval n E' -> size E' = n -> tval k L -> size L = k -> tval k L' -> size L' = k ->
  implements k g n E E' U L -> implements k g n E E' U L' -> L = L'.
Proof.
move=> kg vE' sE' vL sL vL' sL' h h'; have kn : (k <= n)%N := leq_trans (leq_addr g k) kg.
have ap p : size p.2 = k -> tapply k L p = tapply k L' p.
  move=> sp; have [r [sr _ e]] := h p sp; have [r' [sr' _]] := h' p sp; rewrite e.
  have sz q w : size q = k -> size w = (n - (k + g))%N -> size (q ++ nseq g pI ++ w) = n.
    by move=> sq sw; rewrite !size_cat size_nseq sq sw addnA subnKC.
  move/(@tapply_inj n E' (_, _) (_, _) vE' sE' (sz _ _ (size_tapply _ vL) sr) (sz _ _ (size_tapply _ vL') sr')) => e'.
  have := congr1 fst e'; have := congr1 (fun x : spauli => take k x.2) e' => /=; rewrite !take_size_cat ?size_tapply // => e2 e1.
  by rewrite [LHS]surjective_pairing [RHS]surjective_pairing; congr (_, _); [exact: e1 | exact: e2].
apply: (@eq_from_nth _ (pone k, pone k)); rewrite sL ?sL' // => i hi.
rewrite [LHS]surjective_pairing [RHS]surjective_pairing -!tapply_opx // -!tapply_opz // !ap ?size_single //.
Qed.
Section Compose.
Variables (n k g : nat).
Hypothesis kg : (k + g <= n)%N.
Lemma pm_log s a r r' : size a = k -> size r = (n - (k + g))%N -> size r' = (n - (k + g))%N -> noX r' ->
  pm (s, a ++ nseq g pI ++ r) (0, nseq (k + g) pI ++ r') = (s, a ++ nseq g pI ++ padd r r').
Proof.
move=> sa sr sr' hr; rewrite /pm /= nseqD -catA !padd_cat ?size_nseq // padd0 // padd_nseq; congr (_, _).
by rewrite !cross_cat ?size_nseq // !cross0 cross_noX // !addr0.
Qed.
Lemma implements_then E E' E'' U1 U2 L1 L2 : tval n E -> size E = n -> tval n E' -> size E' = n -> tval n E'' -> size E'' = n ->
  tval n U1 -> size U1 = n -> tval n U2 -> size U2 = n -> tval k L1 -> size L1 = k -> tval k L2 -> size L2 = k ->
  implements k g n E E' U1 L1 -> implements k g n E' E'' U2 L2 -> keeps_code k g n E' E'' U2 ->
  implements k g n E E'' (tthen n U1 U2) (tthen k L1 L2).
Proof.
move=> vE sE vE' sE' vE'' sE'' v1 s1 v2 s2 vL1 sL1 vL2 sL2 h1 h2 h3 p sp; have kn : (k <= n)%N := leq_trans (leq_addr g k) kg.
have [r [sr hr e]] := h1 p sp; have [r2 [sr2 hr2 e2]] := h2 (tapply k L1 p) (size_tapply p vL1); have [r3 [sr3 hr3 e3]] := h3 r sr hr.
exists (padd r2 r3); split; rewrite ?size_padd ?noX_padd ?sr2 ?sr3 //.
rewrite [tapply n (tthen _ _ _) _]tapply_then // e [tapply k (tthen _ _ _) _]tapply_then //.
set q := tapply k L1 p in e e2 *; have sq : size q.2 = k by exact: size_tapply.
have sn : size (nseq (n - (k + g)) pI) = (n - (k + g))%N by rewrite size_nseq.
have -> : (q.1, q.2 ++ nseq g pI ++ r) = pm (q.1, q.2 ++ nseq (n - k) pI) (0, nseq (k + g) pI ++ r).
  have -> : nseq (n - k) pI = nseq g pI ++ nseq (n - (k + g)) pI by rewrite -nseqD; congr nseq; move: kg; clear; lia.
  by rewrite pm_log // paddC padd0.
have z1 : size (q.2 ++ nseq (n - k) pI) = n by rewrite size_cat size_nseq sq subnKC.
have z2 : size (nseq (k + g) pI ++ r) = n by rewrite size_cat size_nseq sr subnKC.
rewrite tapplyM ?sE' // tapplyM ?s2 ?size_tapply // e2 e3 -tapplyM ?sE'' //=.
- by rewrite pm_log // size_papply.
- by rewrite !size_cat size_nseq size_papply // sr2 addnA subnKC.
- by rewrite size_cat size_nseq sr3 subnKC.
Qed.
End Compose.

(* ------------------------------------------------------------------------------ transversal gates *)
(* circuits.py:291-295 (decoded_correction): X on the qubits whose Z operator changes sign *)
Definition correction (k n : nat) (T : tableau) : seq pq :=
  nseq k pI ++ [seq if psign (tapply n T (opz n a)) == 0 then pI else (true, false) | a <- iota k (n - k)].
(* circuits.py:296-297: the correction, encoded, in front of the circuit; Pauli gates ignore the phase of the operator (370-376) *)
Definition prepend (n : nat) (E : tableau) (q : seq pq) (U : tableau) : tableau := tthen n (tpauli n (tapply n E (0, q)).2) U.
(* circuits.py:264-304 (_get_transversal_automorphism_data), from the circuit of the automorphism (tableau U) on *)
Definition transversal_data (k g n : nat) (E D U : tableau) : option (tableau * tableau) :=
  let U' := prepend n E (correction k n (decoded n E U D)) U in
  if logical_data k g n E D U' is Some L then Some (L, U') else None.
(* circuits.py:139-152 (_is_pauli_tableau) *)
Definition tbits (t : tableau) : seq (seq pq * seq pq) := [seq (h.1.2, h.2.2) | h <- t].
Definition is_pauli_tableau (t : tableau) : bool := tbits t == tbits (tid (size t)).
(* circuits.py:154-164 (_tableaus_are_equivalent_mod_paulis) *)
Definition equiv_mod_paulis (t1 t2 : tableau) : bool := tbits t1 == tbits t2.
(* circuits.py:119-136 (get_transversal_ops), with the data of the generators of the automorphism group in order *)
Definition get_ops (redundancies : bool) (data : seq (tableau * tableau)) : seq (tableau * tableau) :=
  foldl (fun ops d => if redundancies || ~~ (is_pauli_tableau d.1 || has (fun o => equiv_mod_paulis d.1 o.1) ops) then rcons ops d else ops) [::] data.
(* circuits.py:488-500: the loop over the automorphism group, until all gates are found. The circuits of its elements are the list Us, and the
   encoder of the code after each circuit is Ef U (that of the code itself unless deform_code is set); an error is None *)
Fixpoint match_loop (k g n : nat) (E : tableau) (Ef : tableau -> tableau) (targets : seq tableau) (Us : seq tableau)
    (found : seq (option (tableau * tableau))) : option (seq (option (tableau * tableau))) :=
  if Us is U :: Us' then
    if transversal_data k g n E (tinv n (Ef U)) U is Some d then
      let found' := [seq if (x.2 == None) && equiv_mod_paulis x.1 d.1 then Some d else x.2 | x <- zip targets found] in
      if all isSome found' then Some found' else match_loop k g n E Ef targets Us' found'
    else None
  else Some found.
(* circuits.py:511-515: logical operators whose signs differ; code.get_logical_ops are the images of X_i and Z_i under the encoder *)
Definition correction_step (k n : nat) (E Ll Lm : tableau) (c : seq pq) (i : nat) : seq pq :=
  let l := nth (pone k, pone k) Ll i in let m := nth (pone k, pone k) Lm i in
  let c1 := if psign l.1 != psign m.1 then padd c (tapply n E (opz n i)).2 else c in
  if psign l.2 != psign m.2 then padd c1 (tapply n E (opx n i)).2 else c1.
(* circuits.py:508-515: for all logical qubits *)
Definition logical_correction (k n : nat) (E Ll Lm : tableau) : seq pq := foldl (correction_step k n E Ll Lm) (nseq n pI) (iota 0 k).
(* circuits.py:453-520 (get_transversal_circuits), as a list of tableaus of circuits; the requested gates are given by their tableaus. Without
   logical qubits the circuit "I -1" of line 478 is a parse error, which is not modelled *)
Definition get_circuits (k g n : nat) (E : tableau) (Ef : tableau -> tableau) (targets Us : seq tableau) : option (seq (option tableau)) :=
  if match_loop k g n E Ef targets Us (nseq (size targets) None) is Some found then
    Some [seq if x.2 is Some d then Some (tthen n (tpauli n (logical_correction k n E x.1 d.1)) d.2) else None | x <- zip targets found]
  else None.

Section Prepend.
Variables (n k g : nat) (E E' U : tableau).
Hypotheses (kg : (k + g <= n)%N) (vE : tval n E) (sE : size E = n) (vE' : tval n E') (sE' : size E' = n) (vU : tval n U) (sU : size U = n).
Variable q : seq pq.
Hypothesis sq : size q = n.
Let D := tinv n E'.
Let U' := prepend n E q U.
Let sEq : size (tapply n E (0, q)).2 = n := size_tapply _ vE.
Lemma val_prepend : tval n U'. Proof. by apply: tval_then => //; apply: tval_tpauli. Qed.
Lemma size_prepend : size U' = n. Proof. by rewrite size_map size_tpauli. Qed.
Lemma prependE p : size p.2 = n -> tapply n U' (tapply n E p) = pph (tw (sympl q p.2)) (tapply n U (tapply n E p)).
Proof.
move=> sp; rewrite /U' /prepend tapply_then ?tval_tpauli // tapply_tpauli ?size_tapply // tapply_ph.
by rewrite -(@sympl_tapply n E (0, q) p) ?sE.
Qed.
Lemma prepend_stab : keeps_stabilizers k g n E E' U' <-> keeps_stabilizers k g n E E' U.
Proof.
split=> h r sr hr; have [s [r' [sr' hr' e]]] := h r sr hr;
  (exists (tw (sympl q (nseq (k + g) pI ++ r)) + s), r'; split => //; move: e; rewrite prependE ?(size_stab kg) //= => e).
  rewrite -[X in _ = tapply n E' X]/(pph (tw (sympl q (nseq (k + g) pI ++ r))) (s, nseq (k + g) pI ++ r')) tapply_ph -e pphD tw2 pph0 //.
by rewrite -[X in _ = tapply n E' X]/(pph (tw (sympl q (nseq (k + g) pI ++ r))) (s, nseq (k + g) pI ++ r')) tapply_ph -e.
Qed.
Lemma prepend_gauge : keeps_gauge k g n E E' U' <-> keeps_gauge k g n E E' U.
Proof.
split=> h w sw; have [s [w' [r' [sw' sr' hr' e]]]] := h w sw;
  (exists (tw (sympl q (nseq k pI ++ w ++ nseq (n - (k + g)) pI)) + s), w', r'; split => //; move: e; rewrite prependE ?(size_gauge kg) //= => e).
  rewrite -[X in _ = tapply n E' X]/(pph (tw (sympl q (nseq k pI ++ w ++ nseq (n - (k + g)) pI))) (s, nseq k pI ++ w' ++ r')) tapply_ph -e pphD tw2 pph0 //.
by rewrite -[X in _ = tapply n E' X]/(pph (tw (sympl q (nseq k pI ++ w ++ nseq (n - (k + g)) pI))) (s, nseq k pI ++ w' ++ r')) tapply_ph -e.
Qed.
Lemma prepend_implements L L' : (forall p, size p.2 = k -> tapply k L' p = pph (tw (sympl q (p.2 ++ nseq (n - k) pI))) (tapply k L p)) ->
  implements k g n E E' U L -> implements k g n E E' U' L'.
Proof.
move=> hL h p sp; have [r [sr hr e]] := h p sp; exists r; split => //.
by rewrite prependE ?(size_log kg) // e hL //= -tapply_ph.
Qed.
Lemma prepend_logical L L' : tval k L' -> size L' = k ->
  (forall p, size p.2 = k -> tapply k L' p = pph (tw (sympl q (p.2 ++ nseq (n - k) pI))) (tapply k L p)) ->
  logical_data k g n E D U = Some L -> logical_data k g n E D U' = Some L'.
Proof.
move=> vL' sL' hL /(logical_dataP kg vE sE vE' sE' vU sU) [vL sL iL hs hg].
have e := logical_data_def kg vE sE vE' sE' val_prepend size_prepend (prepend_stab.2 hs) (prepend_gauge.2 hg).
have [vL2 sL2 iL2 _ _] := logical_dataP kg vE sE vE' sE' val_prepend size_prepend e.
by rewrite e; congr Some; apply: (implements_inj kg vE' sE' vL2 sL2 vL' sL' iL2 (prepend_implements hL iL)).
Qed.
Lemma prepend_defined : isSome (logical_data k g n E D U') -> isSome (logical_data k g n E D U).
Proof.
case e: logical_data => [L|] // _; have [_ _ _ /prepend_stab hs /prepend_gauge hg] := logical_dataP kg vE sE vE' sE' val_prepend size_prepend e.
by rewrite (logical_data_def kg vE sE vE' sE' vU sU hs hg).
Qed.
End Prepend.
(* signs of Hermitian operators *)
Lemma psign_ph s p : psign (pph s p) = s + psign p. Proof. by rewrite /psign /pph /= addrA. Qed.
Lemma psign_opz n i : psign (opz n i) = 0. Proof. by rewrite /psign /opz ycount_single // subr0. Qed.
Lemma half0 (x : 'Z_4) : x + x = 0 -> x != 0 -> x = 2%:R.
Proof. by case: x => [[|[|[|[|m]]]] hm] //= /(congr1 val) //= _ _; apply: val_inj. Qed.
Lemma herm_signs p q : herm p -> herm q -> psign p != psign q -> psign p = tw true + psign q.
Proof.
rewrite /herm => /eqP hp /eqP hq; rewrite -subr_eq0 => h; rewrite -[tw true](@half0 (psign p - psign q)) ?subrK //.
by rewrite addrACA hp -opprD hq subr0.
Qed.
Lemma same_row p q : psign p = psign q -> p.2 = q.2 -> p = q.
Proof. by case: p q => [s u] [s' u'] /= + e; rewrite /psign /= e => /addIr ->. Qed.
Lemma papply_plus n t u : tval n t -> all (fun h => (h.2.1 == 0) && noX h.2.2) t -> noX u -> (papply n t u).1 = 0 /\ noX (papply n t u).2.
Proof.
elim: t u => [|h t IH] [|[x z] u] v; rewrite /= ?noX_nseq // => /andP [/andP [/eqP p2 q2] pt] /andP [/negbTE -> hu].
have [s1 s2 _ _ vt] := tval_cons v; have [e1 e2] := IH u vt pt hu.
have q3 : noX (ppow n z h.2).2 by case: (z); rewrite //= noX_nseq.
have q4 : (ppow n z h.2).1 = 0 by case: (z).
by rewrite !cross_noX // e1 q4 !addr0 !noX_padd // noX_nseq.
Qed.

Section Transversal.
Variables (n k g : nat) (E E' U : tableau).
Hypotheses (kg : (k + g <= n)%N) (vE : tval n E) (sE : size E = n) (vE' : tval n E') (sE' : size E' = n) (vU : tval n U) (sU : size U = n).
Let D := tinv n E'.
Let T := decoded n E U D.
Let q := correction k n T.
Let U' := prepend n E q U.
Let kn : (k <= n)%N := leq_trans (leq_addr g k) kg.
Lemma size_corr : size q = n. Proof. by rewrite size_cat size_nseq size_map size_iota subnKC. Qed.
Lemma nth_corr a : (k <= a < n)%N -> nth pI q a = if psign (tapply n T (opz n a)) == 0 then pI else (true, false).
Proof.
case/andP => ka an; rewrite nth_cat size_nseq ltnNge ka /= (nth_map 0%N) ?size_iota ?ltn_sub2r ?nth_iota ?subnKC //.
all: by move: ka an; clear; lia.
Qed.
Lemma corr_plus a : (k <= a < n)%N -> psign (tapply n (decoded n E U' D) (opz n a)) = 0.
Proof.
move=> ka; have an : (a < n)%N by case/andP: ka.
have vU' : tval n U' := val_prepend vE vU sU q; have sU' : size U' = n := size_prepend n E U q.
have vT : tval n T := vT vE vE' sE' vU sU.
have so : size (opz n a).2 = n by rewrite size_single.
have e : tapply n (decoded n E U' D) (opz n a) = pph (tw (sympl q (opz n a).2)) (tapply n T (opz n a)).
  apply: (decoded_eq vE vE' sE' vU' sU' so); first by rewrite size_papply.
  by rewrite prependE ?size_corr // tapply_ph decodedE.
have hz : herm (tapply n T (opz n a)) by apply: herm_tapply; rewrite ?so ?size_map ?sE // /herm psign_opz addr0.
rewrite e psign_ph; have := nth_sympl size_corr an => /(congr1 fst) /= ->; rewrite nth_corr //.
by case: eqP => [->|/eqP h] /=; rewrite ?addr0 //; move/eqP: hz => /half0 -> //; apply: val_inj.
Qed.
Lemma corr_logical (p : spauli) : size p.2 = k -> sympl q (p.2 ++ nseq (n - k) pI) = false.
Proof.
by move=> sp; rewrite /q /correction sympl_cat ?size_nseq // sympl0 symplC sympl0.
Qed.
Lemma transversal_dataP L V : transversal_data k g n E D U = Some (L, V) ->
  [/\ V = U', logical_data k g n E D U = Some L, logical_data k g n E D V = Some L & keeps_code k g n E E' V].
Proof.
rewrite /transversal_data -/T -/q -/U'; case e: (logical_data k g n E D U') => [L'|] // [<- <-].
have vU' : tval n U' := val_prepend vE vU sU q; have sU' : size U' = n := size_prepend n E U q.
have [vL sL iL _ _] := logical_dataP kg vE sE vE' sE' vU' sU' e.
have eU : logical_data k g n E D U = Some L'.
  have : isSome (logical_data k g n E D U) by apply: (prepend_defined kg vE sE vE' sE' vU sU size_corr); rewrite -/D -/U' e.
  case e2: (logical_data k g n E D U) => [L2|] // _; have [vL2 sL2 iL2 _ _] := logical_dataP kg vE sE vE' sE' vU sU e2.
  congr Some; apply: (implements_inj kg vE' sE' vL2 sL2 vL sL _ iL).
  by apply: (prepend_implements kg vE sE vU sU size_corr _ iL2) => p sp; rewrite corr_logical // pph0.
split => // r sr hr; pose T' := decoded n E U' D.
have vT : tval n T' := vT vE vE' sE' vU' sU'; have sT : size T' = n by rewrite !size_map.
move: (e); rewrite /logical_data -/T'; case: ifP => // /and3P [_ nd nl] _.
have [r' [sr' hr' er]] := image_stab kg vT sT nd sr hr; exists r'; split => //.
rewrite -(decodedE vE vE' sE' vU' sU') ?(size_stab kg) //; congr (tapply n E' _).
rewrite -/D -/T' [LHS]surjective_pairing -/T'; congr (_, _); last exact: er.
rewrite /= add0r; have -> : nseq (k + g) pI ++ r = nseq (k + g) pI ++ r ++ nseq 0 pI by rewrite cats0.
rewrite papply_mid // ?sr; last by move: kg; clear; lia.
rewrite take_oversize ?size_drop ?sT //; have [] // := @papply_plus n (drop (k + g) T') r _ _ hr; first exact: tval_drop.
apply/(all_nthP (pone n, pone n)) => i; rewrite size_drop sT nth_drop => hi; have ki : (k + g + i < n)%N by move: hi; clear; lia.
rewrite -tapply_opz //.
have ss : single n (k + g + i) (false, true) = nseq (k + g) pI ++ single (n - (k + g)) i (false, true).
  rewrite /single nseqD -catA; congr (_ ++ (_ ++ (_ :: nseq _ _))); move: hi; clear; lia.
have sss : size (single (n - (k + g)) i (false, true)) = (n - (k + g))%N by rewrite size_single.
have nX : noX (single (n - (k + g)) i (false, true)) by rewrite /single /noX all_cat /= !all_nseq /= !orbT.
have [r2 [sr2 hr2 er2]] := image_stab kg vT sT nd sss nX.
have n2 : noX (tapply n T' (opz n (k + g + i))).2 by rewrite /tapply /opz /= ss er2 /noX all_cat -/(noX _) -/(noX _) noX_nseq.
have ka : (k <= k + g + i < n)%N by rewrite ki andbT -addnA leq_addr.
by have := corr_plus ka; rewrite -/T' {1}/psign (ycount_noX n2) subr0 n2 andbT => /eqP.
Qed.
Lemma transversal_def : isSome (transversal_data k g n E D U) = isSome (logical_data k g n E D U).
Proof.
rewrite /transversal_data -/T -/q -/U'; apply/idP/idP.
  case e: logical_data => [L|] // _; apply: (prepend_defined kg vE sE vE' sE' vU sU size_corr); by rewrite -/D -/U' e.
case e: (logical_data k g n E D U) => [L|] // _; have [vL sL _ _ _] := logical_dataP kg vE sE vE' sE' vU sU e.
by rewrite (prepend_logical kg vE sE vE' sE' vU sU size_corr vL sL _ e) // => p sp; rewrite corr_logical // pph0.
Qed.
End Transversal.
(* tableaus that agree up to signs *)
Section Equiv.
Variable k : nat.
Lemma equivP L M : tval k L -> size L = k -> tval k M -> size M = k ->
  reflect (forall p, size p.2 = k -> (tapply k L p).2 = (tapply k M p).2) (equiv_mod_paulis L M).
Proof.
move=> vL sL vM sM; apply: (iffP eqP) => [e p _|h].
  rewrite /tapply /=; move: (p.2) => u {sL sM p}; elim: L M u vL vM e => [|h L IH] [|h' M] //= [|a u] // vL vM [e1 e2 e].
  have [_ _ _ _ vL'] := tval_cons vL; have [_ _ _ _ vM'] := tval_cons vM; rewrite /= (IH M u) //.
  by case: a => [[] []] /=; rewrite ?e1 ?e2.
apply: (@eq_from_nth _ ([::], [::])); rewrite !size_map sL ?sM // => i hi.
rewrite !(nth_map (pone k, pone k)) ?sL ?sM // -!tapply_opx // -!tapply_opz //.
by rewrite !h ?size_single.
Qed.
Lemma is_pauliP L : tval k L -> size L = k -> reflect (forall p, size p.2 = k -> (tapply k L p).2 = p.2) (is_pauli_tableau L).
Proof.
move=> vL sL; rewrite /is_pauli_tableau sL; apply: (iffP (equivP vL sL (tval_tid k) (size_tid k))) => h p sp.
  by rewrite h // tapply_tid.
by rewrite h // tapply_tid.
Qed.
Definition sdiff (Ll Lm : tableau) (i : nat) : pq :=
  let l := nth (pone k, pone k) Ll i in let m := nth (pone k, pone k) Lm i in (psign l.2 != psign m.2, psign l.1 != psign m.1).
Lemma nth_padd u v j : size u = size v -> nth pI (padd u v) j = pqadd (nth pI u j) (nth pI v j).
Proof. by elim: u v j => [|a u IH] [|b v] [|j] //= [e]; rewrite -/(padd _ _) IH. Qed.
Lemma logical_corrE n E Ll Lm : (k <= n)%N -> tval n E -> size E = n -> exists q, [/\ size q = n, logical_correction k n E Ll Lm = (tapply n E (0, q)).2
  & forall j, nth pI q j = if (j < k)%N then sdiff Ll Lm j else pI].
Proof.
move=> kn vE sE; rewrite /logical_correction; set f := correction_step k n E Ll Lm.
suff gen m : (m <= k)%N -> exists q, [/\ size q = n, foldl f (nseq n pI) (iota 0 m) = (tapply n E (0, q)).2
  & forall j, nth pI q j = if (j < m)%N then sdiff Ll Lm j else pI] by exact: gen.
elim: m => [_|m IH hm].
  by exists (nseq n pI); rewrite size_nseq /tapply papply1 // pph0; split => // j; rewrite nth_nseq; case: ifP.
have [q [sq eq hq]] := IH (ltnW hm); have mn : (m < n)%N := leq_trans hm kn; pose d := sdiff Ll Lm m.
exists (padd q (single n m d)); rewrite size_padd ?size_single //; split => //.
  rewrite -addn1 iotaD foldl_cat eq /= add0n /f /correction_step.
  have st u a : size u = n -> padd (papply n E u).2 (papply n E (single n m a)).2 = (papply n E (padd u (single n m a))).2.
    by move=> su; have := @papplyM n E u (single n m a) vE; rewrite sE su size_single // => /(_ erefl erefl) /(congr1 snd).
  have s0 : padd q (single n m pI) = q by rewrite single0 // padd0.
  have sA : size (padd q (single n m (false, true))) = n by rewrite size_padd // size_single.
  rewrite /d /sdiff; case: (psign _ != psign _); case: (psign _ != psign _) => /=; rewrite ?st // ?s0 //.
  by rewrite -paddA; congr (papply n E (padd q _)).2; rewrite /single padd_cat // padd_nseq padd_cons padd_nseq.
move=> j; rewrite nth_padd ?size_single // hq nth_single ltnS.
by case: (ltngtP j m) => [lt|gt|->] //=; rewrite /pqadd /= ?addbF -?surjective_pairing.
Qed.
Lemma signs_eq Ll Lm q : tval k Ll -> size Ll = k -> tval k Lm -> size Lm = k -> equiv_mod_paulis Ll Lm -> size q = k ->
  (forall j, (j < k)%N -> nth pI q j = sdiff Ll Lm j) -> forall p, size p.2 = k -> tapply k Ll p = pph (tw (sympl q p.2)) (tapply k Lm p).
Proof.
move=> vl sl vm sm /eqP e sq hq p sp.
have -> : Ll = tthen k (tpauli k q) Lm; last by rewrite tapply_then ?tval_tpauli // tapply_tpauli // tapply_ph.
apply: (@eq_from_nth _ (pone k, pone k)); rewrite sl ?size_map ?size_iota // => i hi.
rewrite /tthen /tpauli -map_comp (nth_map 0%N) ?size_iota // nth_iota // add0n /= !tapply_ph tapply_opx // tapply_opz //.
have := hq i hi; rewrite -(nth_sympl sq hi) /sdiff => -[hz hx]; rewrite hx hz.
have [_ _ hl1 hl2 _] := tval_row vl (etrans (congr1 _ sl) hi); have [_ _ hm1 hm2 _] := tval_row vm (etrans (congr1 _ sm) hi).
have [b1 b2] : (nth (pone k, pone k) Ll i).1.2 = (nth (pone k, pone k) Lm i).1.2 /\ (nth (pone k, pone k) Ll i).2.2 = (nth (pone k, pone k) Lm i).2.2.
  have := congr1 (fun s => nth ([::], [::]) s i) e; rewrite !(nth_map (pone k, pone k)) ?sl ?sm // => -[-> ->]; by [].
rewrite [LHS]surjective_pairing; congr (_, _); apply: same_row => //; rewrite psign_ph; case: (boolP (_ != _)) => h /=.
- exact: herm_signs.
- by rewrite add0r; apply/eqP; rewrite -[_ == _]negbK.
- exact: herm_signs.
- by rewrite add0r; apply/eqP; rewrite -[_ == _]negbK.
Qed.
End Equiv.
Lemma match_loopP k g n E Ef ts Us found F : size found = size ts -> match_loop k g n E Ef ts Us found = Some F -> size F = size ts /\
  forall t, (t < size ts)%N -> match nth None found t, nth None F t with
    | Some d, x => x = Some d
    | None, Some d => exists2 U, U \in Us & transversal_data k g n E (tinv n (Ef U)) U = Some d /\ equiv_mod_paulis (nth [::] ts t) d.1
    | None, None => forall U, U \in Us -> exists2 d, transversal_data k g n E (tinv n (Ef U)) U = Some d & ~~ equiv_mod_paulis (nth [::] ts t) d.1
    end.
Proof.
elim: Us found => [|U Us IH] found sf /=; first by case=> <-; split => // t ht; case: (nth _ _ _).
case ed: transversal_data => [d|] //; set f' := [seq _ | x <- zip ts found].
have sf' : size f' = size ts by rewrite size_map size_zip sf minnn.
have nf t : (t < size ts)%N -> nth None f' t = if (nth None found t == None) && equiv_mod_paulis (nth [::] ts t) d.1 then Some d else nth None found t.
  by move=> ht; rewrite (nth_map ([::], None)) ?size_zip ?sf ?minnn // nth_zip ?sf.
case: ifP => ha.
  case=> <-; split => // t ht; have := nf t ht; have := allP ha (nth None f' t); rewrite mem_nth ?sf' // => /(_ isT).
  move=> + e; rewrite e; case: (nth None found t) => [d'|] //=; case: ifP => // he _; exists U; by rewrite ?mem_head.
move/(IH f' sf') => [sF hF]; split => // t ht; have := hF t ht; rewrite nf //.
case: (nth None found t) => [d'|] //=; case: ifP => he.
  by move=> ->; exists U; rewrite ?mem_head.
case: (nth None F t) => [d'|].
  by case=> V hV h; exists V; rewrite // inE hV orbT.
by move=> h V; rewrite inE => /orP [/eqP ->|/h //]; exists d; rewrite ?he.
Qed.
Section Circuits.
Variables (n k g : nat) (E : tableau) (Ef : tableau -> tableau) (ts Us : seq tableau).
Hypotheses (kg : (k + g <= n)%N) (vE : tval n E) (sE : size E = n) (vEf : forall U, U \in Us -> tval n (Ef U) && (size (Ef U) == n)).
Hypotheses (vUs : forall U, U \in Us -> tval n U && (size U == n)) (vts : forall L, L \in ts -> tval k L && (size L == k)).
Lemma get_circuitsP res : get_circuits k g n E Ef ts Us = Some res -> size res = size ts /\ forall t, (t < size ts)%N ->
  match nth None res t with
  | Some V => exists2 U, U \in Us & [/\ logical_data k g n E (tinv n (Ef U)) V = Some (nth [::] ts t), keeps_code k g n E (Ef U) V
      & exists2 c, size c = n & V = tthen n (tpauli n c) U]
  | None => forall U, U \in Us -> exists2 L, logical_data k g n E (tinv n (Ef U)) U = Some L & ~~ equiv_mod_paulis (nth [::] ts t) L
  end.
Proof.
rewrite /get_circuits; case ef: match_loop => [F|] // [<-].
have [sF hF] := match_loopP (size_nseq _ _) ef; rewrite size_map size_zip sF minnn; split => // t ht.
rewrite (nth_map ([::], None)) ?size_zip ?sF ?minnn // nth_zip ?sF //=; have := hF t ht; rewrite nth_nseq ht.
case: (nth None F t) => [[L V]|] /= h; last first.
  move=> U hU; have [[L V] e ne] := h U hU; exists L => //; have /andP [v1 /eqP s1] := vEf hU; have /andP [v2 /eqP s2] := vUs hU.
  by have [_ -> _ _] := transversal_dataP kg vE sE v1 s1 v2 s2 e.
case: h => U hU [e eqv]; exists U => //; have /andP [v1 /eqP s1] := vEf hU; have /andP [v2 /eqP s2] := vUs hU.
have [eV eL eLV kV] := transversal_dataP kg vE sE v1 s1 v2 s2 e; have /andP [vt /eqP st] := vts (mem_nth [::] ht).
set tt := nth [::] ts t in eqv vt st *.
have kn : (k <= n)%N := leq_trans (leq_addr g k) kg; have [q [sq eq hq]] := logical_corrE tt L kn vE sE.
have vV : tval n V by rewrite eV; apply: val_prepend. have sV : size V = n by rewrite eV size_prepend.
have [vL sL _ _ _] := logical_dataP kg vE sE v1 s1 v2 s2 eL.
have qd : q = take k q ++ nseq (n - k) pI.
  rewrite -{1}(cat_take_drop k q); congr (_ ++ _); apply: (@eq_from_nth _ pI); rewrite size_drop sq ?size_nseq // => j hj.
  by rewrite nth_drop hq ltnNge leq_addr /= nth_nseq hj.
have sk : size (take k q) = k by rewrite size_takel ?sq.
have sgn : forall p, size p.2 = k -> tapply k tt p = pph (tw (sympl q (p.2 ++ nseq (n - k) pI))) (tapply k L p).
  move=> p sp; rewrite (@signs_eq k tt L (take k q) vt st vL sL eqv sk) //; last by move=> j hj; rewrite nth_take // hq hj.
  by rewrite [in RHS]qd sympl_cat ?sp // sympl0 addbF.
rewrite eq; split.
- exact: (@prepend_logical n k g E (Ef U) V kg vE sE v1 s1 vV sV q sq L tt vt st sgn eLV).
- move=> r sr hr; have [r' [sr' hr' er]] := kV r sr hr; exists r'; split => //.
  rewrite -/(prepend n E q V) prependE ?(size_stab kg) // er qd nseqD -catA sympl_cat ?sk ?size_nseq // sympl0 symplC sympl0; exact: pph0.
- have vp : tval n (tpauli n (tapply n E (0, q)).2) by apply: tval_tpauli; rewrite size_papply.
  exists (padd (tapply n E (0, q)).2 (tapply n E (0, correction k n (decoded n E U (tinv n (Ef U))))).2).
    by rewrite size_padd !size_papply.
  rewrite eV /prepend; set c1 := (tapply n E (0, q)).2; set c2 := (tapply n E (0, correction _ _ _)).2.
  have z1 : size c1 = n by rewrite size_papply. have z2 : size c2 = n by rewrite size_papply.
  have ap p : size p.2 = n -> tapply n (tthen n (tpauli n c2) U) p = pph (tw (sympl c2 p.2)) (tapply n U p).
    by move=> sp; rewrite tapply_then ?tval_tpauli // tapply_tpauli // tapply_ph.
  move: (tthen n (tpauli n c2) U) ap => W ap; rewrite /tthen -!map_comp; apply/eq_in_map => i; rewrite mem_iota add0n => /andP [_ hi].
  have ss a : size (single n i a) = n by rewrite size_single.
  rewrite /= !tapply_ph !ap ?ss // !pphD.
  by rewrite !(@symplD c1 c2) ?ss ?z1 ?z2 // !twD.
Qed.
End Circuits.
Lemma get_opsP data : let ops := get_ops false data in
  [/\ subseq ops data, all (fun d => ~~ is_pauli_tableau d.1) ops, pairwise (fun o d => ~~ equiv_mod_paulis d.1 o.1) ops
    & forall d, d \in data -> is_pauli_tableau d.1 \/ exists2 o, o \in ops & equiv_mod_paulis d.1 o.1].
Proof.
rewrite /get_ops; elim/last_ind: data => [|data d]; first by split.
rewrite foldl_rcons; set ops := foldl _ _ _; case=> [ss np pw cv]; rewrite orFb.
case: (boolP (is_pauli_tableau d.1 || _)) => h /=.
  split=> //; first by apply: subseq_trans ss _; rewrite -cats1 prefix_subseq.
  move=> x; rewrite mem_rcons inE => /orP [/eqP ->|/cv //]; case/orP: h => [h|/hasP [o ho he]]; [by left | by right; exists o].
case/norP: h => h1 h2; split.
- by rewrite -!cats1 cat_subseq.
- by rewrite all_rcons h1.
- by rewrite pairwise_rcons pw andbT; apply/allP => o ho; move/hasPn: h2 => /(_ o ho).
- move=> x; rewrite mem_rcons inE => /orP [/eqP ->|/cv [hx|[o ho he]]]; [right | by left | right].
    by exists d; rewrite ?mem_rcons ?mem_head // /equiv_mod_paulis.
  by exists o; rewrite // mem_rcons inE ho orbT.
Qed.
