(* Proofs about quantum Tanner codes: the covers of the group and the local codes. *)
From mathcomp Require Import all_ssreflect all_algebra zify.
From Verif Require Import LinAlg RowReduce Kron Classical ClassicalProofs ClassicalProofs2 TannerCode Symplectic Quantum Css PermGroup SymSubset QTanner.
Set Implicit Arguments.
Unset Strict Implicit.
Unset Printing Implicit Defensive.
Import GRing.Theory.
Local Open Scope ring_scope.

(* ---------------------------------------------------------------- products of groups *)
Section Product.
Variables n m : nat.
Lemma size_pten p q : size (pten p q) = (size p + size q)%N.
Proof. by rewrite size_cat size_map. Qed.
Lemma pten_valid p q : valid n p -> valid m q -> valid (n + m) (pten p q).
Proof.
move=> vp vq; rewrite /valid /pten iotaD (valid_size vp); apply: perm_cat => //.
rewrite add0n; have {2}-> : n = (n + 0)%N by rewrite addn0.
rewrite iotaDl; rewrite (_ : map _ q = [seq (n + v)%N | v <- q]); first exact: perm_map.
by apply: eq_map => v; rewrite addnC.
Qed.
Lemma pten_mul p q p' q' : valid n p -> valid m q -> valid n p' -> valid m q' ->
  pmul (pten p q) (pten p' q') = pten (pmul p p') (pmul q q').
Proof.
move=> vp vq vp' vq'; rewrite /pten /pmul map_cat size_map (valid_size vp); congr (_ ++ _).
  by apply/eq_in_map => v; rewrite (valid_mem _ vp) => hv; rewrite nth_cat (valid_size vp') hv.
rewrite -!map_comp; apply/eq_in_map => v; rewrite (valid_mem _ vq) => hv /=.
rewrite nth_cat (valid_size vp') ltnNge leq_addl /= addnK (nth_map 0%N) ?(valid_size vq') //.
Qed.
Lemma pten_inj p q p' q' : valid n p -> valid n p' -> pten p q = pten p' q' -> p = p' /\ q = q'.
Proof.
move=> vp vp' /eqP; rewrite /pten (valid_size vp) (valid_size vp') eqseq_cat ?(valid_size vp) ?(valid_size vp') //.
by case/andP => /eqP -> /eqP /inj_map -> // x y /addIn.
Qed.
Lemma pten_id : pid (n + m) = pten (pid n) (pid m).
Proof.
rewrite /pid /pten size_iota iotaD add0n; congr (_ ++ _); rewrite -{1}[n]addn0 iotaDl.
by apply: eq_map => v; rewrite addnC.
Qed.
Lemma pten_inv p q : valid n p -> valid m q -> pinv (pten p q) = pten (pinv p) (pinv q).
Proof.
move=> vp vq; have vt := pten_valid vp vq; have vt' := pten_valid (valid_pinv vp) (valid_pinv vq).
rewrite -[LHS](pmulp1 (valid_pinv vt)) pten_id -(pmulpV vp) -(pmulpV vq) -pten_mul ?valid_pinv // (@pmulA (n + m)) ?valid_pinv //.
by rewrite (@pmulVp (n + m)) // pmul1p.
Qed.
Variables G W : group.
Hypotheses (gG : grp_ok n G) (gW : grp_ok m W).
Definition gprod : group := [seq pten p q | p <- G, q <- W].
Lemma gprodP x : x \in gprod -> exists p q, [/\ p \in G, q \in W & x = pten p q].
Proof. by case/allpairsP => [[p q] /= [hp hq ->]]; exists p, q. Qed.
Lemma mem_gprod p q : p \in G -> q \in W -> pten p q \in gprod.
Proof. by move=> hp hq; apply/allpairsP; exists (p, q). Qed.
Lemma gprod_ok : grp_ok (n + m) gprod.
Proof.
split.
- apply: allpairs_uniq; [by case: gG | by case: gW |].
  move=> [p q] [p' q'] /allpairsP [[? ?] /= [h1 h2 [-> ->]]] /allpairsP [[? ?] /= [h3 h4 [-> ->]]] /= e.
  by have [-> ->] := pten_inj (g_valid gG h1) (g_valid gG h3) e.
- by apply/allP => x /gprodP [p [q [hp hq ->]]]; apply: pten_valid; [exact: (g_valid gG) | exact: (g_valid gW)].
- by rewrite pten_id; apply: mem_gprod; [exact: (g_one gG) | exact: (g_one gW)].
- move=> x y /gprodP [p [q [hp hq ->]]] /gprodP [p' [q' [hp' hq' ->]]].
  rewrite pten_mul; [|exact: (g_valid gG)|exact: (g_valid gW)|exact: (g_valid gG)|exact: (g_valid gW)].
  by apply: mem_gprod; [exact: (g_mul gG) | exact: (g_mul gW)].
move=> x /gprodP [p [q [hp hq ->]]]; rewrite pten_inv; [|exact: (g_valid gG)|exact: (g_valid gW)].
by apply: mem_gprod; [exact: (g_inv gG) | exact: (g_inv gW)].
Qed.
End Product.

(* ---------------------------------------------------------------- covers *)
(* the groups of the covers *)
Definition W2 : group := [:: z2id; z2sh].
Definition W4 : group := [:: pten z2id z2id; pten z2id z2sh; pten z2sh z2id; pten z2sh z2sh].
Definition wgroup (bip : bool) : group := if bip then W2 else W4.
Definition wsize (bip : bool) : nat := (if bip then 2 else 4)%N.
Definition wa (bip : bool) : perm := if bip then z2sh else pten z2sh z2id.
Definition wb (bip : bool) : perm := if bip then z2sh else pten z2id z2sh.
Definition wodd (bip : bool) : seq perm := [:: wa bip; wb bip].
Lemma grp_of n (G : group) : [&& uniq G, all (valid n) G, pid n \in G, all (fun p => all (fun q => pmul p q \in G) G) G
  & all (fun p => pinv p \in G) G] -> grp_ok n G.
Proof.
case/and5P => h1 h2 h3 /allP h4 /allP h5; split=> // p q pG qG.
by move/allP: (h4 p pG); apply.
Qed.
Lemma wgroup_ok bip : grp_ok (wsize bip) (wgroup bip).
Proof. by apply: grp_of; case: bip; vm_compute. Qed.

Section Cover.
Variables (n : nat) (G : group) (bip : bool) (A0 B0 A B : seq perm).
Hypothesis gG : grp_ok n G.
Hypotheses (uA0 : uniq A0) (uB0 : uniq B0) (A0G : {subset A0 <= G}) (B0G : {subset B0 <= G}).
Hypotheses (symA0 : forall a, a \in A0 -> pinv a \in A0) (symB0 : forall b, b \in B0 -> pinv b \in B0).
Hypothesis tnc : bip -> no_conjugacy G A0 B0.
Hypotheses (pA : perm_eq A (cover_a bip A0)) (pB : perm_eq B (cover_b bip B0)).
Let W := wgroup bip.
Let m := wsize bip.
Definition cover_group := gprod G W.
Lemma cg_ok : grp_ok (n + m) cover_group.
Proof. by apply: gprod_ok gG (wgroup_ok bip). Qed.
Lemma waW : wa bip \in W. Proof. by rewrite /W; case: (bip). Qed.
Lemma wbW : wb bip \in W. Proof. by rewrite /W; case: (bip). Qed.
Lemma cA x : x \in A -> exists2 a, a \in A0 & x = pten a (wa bip).
Proof. by rewrite (perm_mem pA) mem_undup => /mapP [a ha ->]; exists a. Qed.
Lemma cB x : x \in B -> exists2 b, b \in B0 & x = pten b (wb bip).
Proof. by rewrite (perm_mem pB) mem_undup => /mapP [a ha ->]; exists a. Qed.
Lemma cA_mem a : a \in A0 -> pten a (wa bip) \in A.
Proof. by move=> ha; rewrite (perm_mem pA) mem_undup; apply/mapP; exists a. Qed.
Lemma cB_mem a : a \in B0 -> pten a (wb bip) \in B.
Proof. by move=> ha; rewrite (perm_mem pB) mem_undup; apply/mapP; exists a. Qed.
Let vG p : p \in G -> valid n p. Proof. exact: (g_valid gG). Qed.
Let vW p : p \in W -> valid m p. Proof. exact: (g_valid (wgroup_ok bip)). Qed.
Lemma cA_uniq : uniq A. Proof. by rewrite (perm_uniq pA) undup_uniq. Qed.
Lemma cB_uniq : uniq B. Proof. by rewrite (perm_uniq pB) undup_uniq. Qed.
Lemma cA_size : size A = size A0.
Proof.
rewrite (perm_size pA) /cover_a undup_id ?size_map // map_inj_in_uniq // => a a' /A0G ha /A0G ha' e.
by have [-> _] := pten_inj (vG ha) (vG ha') e.
Qed.
Lemma cB_size : size B = size B0.
Proof.
rewrite (perm_size pB) /cover_b undup_id ?size_map // map_inj_in_uniq // => a a' /B0G ha /B0G ha' e.
by have [-> _] := pten_inj (vG ha) (vG ha') e.
Qed.
Lemma cA_sub : {subset A <= cover_group}.
Proof. by move=> x /cA [a ha ->]; apply: mem_gprod; [exact: A0G | exact: waW]. Qed.
Lemma cB_sub : {subset B <= cover_group}.
Proof. by move=> x /cB [a ha ->]; apply: mem_gprod; [exact: B0G | exact: wbW]. Qed.
Lemma cA_sym a : a \in A -> pinv a \in A.
Proof.
case/cA => x hx ->; rewrite (@pten_inv n m) ?vW ?waW //; last exact/vG/A0G.
have -> : pinv (wa bip) = wa bip by case: (bip).
exact/cA_mem/symA0.
Qed.
Lemma cB_sym a : a \in B -> pinv a \in B.
Proof.
case/cB => x hx ->; rewrite (@pten_inv n m) ?vW ?wbW //; last exact/vG/B0G.
have -> : pinv (wb bip) = wb bip by case: (bip).
exact/cB_mem/symB0.
Qed.
Definition cpar (x : perm) : bool := [seq (v - n)%N | v <- drop n x] \in wodd bip.
Lemma cparE p q : valid n p -> cpar (pten p q) = (q \in wodd bip).
Proof.
move=> vp; rewrite /cpar /pten drop_size_cat ?(valid_size vp) // -map_comp.
by rewrite (@eq_map _ _ _ id) ?map_id // => v /=; rewrite addnK.
Qed.
Lemma cparA a g : a \in A -> g \in cover_group -> cpar (pmul a g) = ~~ cpar g.
Proof.
case/cA => x hx -> /gprodP [p [q [hp hq ->]]].
have vx := vG (A0G hx); have vp := vG hp; rewrite (@pten_mul n m) ?vW ?waW // !cparE ?valid_pmul //.
have /allP : all (fun q => (pmul (wa bip) q \in wodd bip) == (q \notin wodd bip)) W by rewrite /W; case: (bip).
by move/(_ q hq)/eqP.
Qed.
Lemma cparB b g : b \in B -> g \in cover_group -> cpar (pmul g b) = ~~ cpar g.
Proof.
case/cB => x hx -> /gprodP [p [q [hp hq ->]]].
have vx := vG (B0G hx); have vp := vG hp; rewrite (@pten_mul n m) ?vW ?wbW // !cparE ?valid_pmul //.
have /allP : all (fun q => (pmul q (wb bip) \in wodd bip) == (q \notin wodd bip)) W by rewrite /W; case: (bip).
by move/(_ q hq)/eqP.
Qed.
Lemma c_noconj a b g : a \in A -> b \in B -> g \in cover_group -> pmul a g <> pmul g b.
Proof.
case/cA => x hx -> /cB [y hy ->] /gprodP [p [q [hp hq ->]]].
have vx := vG (A0G hx); have vy := vG (B0G hy); have vp := vG hp.
rewrite !(@pten_mul n m) ?vW ?waW ?wbW // => e.
have [e1 e2] := pten_inj (valid_pmul vx vp) (valid_pmul vp vy) e.
case eb: bip.
  by move/allP: (tnc eb) => /(_ p hp) /allP /(_ x hx) /allP /(_ y hy); rewrite e1 eqxx.
have /allP : all (fun q => pmul (wa bip) q != pmul q (wb bip)) W by rewrite /W eb.
by move/(_ q hq); rewrite e2 eqxx.
Qed.
End Cover.

(* ---------------------------------------------------------------- local codes *)
Section Local.
Variable F : fieldType.
Lemma dual_orth (c : ccode F) y w : code_ok c -> is_word (cc_n c) (cc_mat c) y -> is_word (cc_n c) (cc_mat (dual c)) w ->
  \sum_(j < cc_n c) nth 0 y j * nth 0 w j = 0.
Proof.
move=> ok hy [_ hw]; have [_ sp _] := gen_basis ok; have [cs [_ _ ey]] := sp y hy.
transitivity (\sum_(i < size (generator c)) nth 0 cs i * \sum_(j < cc_n c) nth 0 (nth [::] (generator c) i) j * nth 0 w j).
  under eq_bigr => j _ do rewrite (ey j) // mulr_suml.
  rewrite exchange_big; apply: eq_bigr => i _; rewrite mulr_sumr; apply: eq_bigr => j _; by rewrite mulrA.
by apply: big1 => i _; rewrite hw ?mulr0 // mem_nth.
Qed.
Variables ca cb : ccode F.
Hypotheses (oka : code_ok ca) (okb : code_ok cb).
Definition sub_x := dual (tensor_product ca cb).
Definition sub_z := dual (tensor_product (dual ca) (dual cb)).
Lemma tensor_ok (a b : ccode F) : code_ok a -> code_ok b -> code_ok (tensor_product a b).
Proof.
move=> ha hb; apply: dual_ok; apply: mkcode_ok; apply: wf_kron; exact: basis_wf (gen_basis _).
Qed.
Lemma sub_word (a b : ccode F) r : code_ok a -> code_ok b -> r \in cc_mat (dual (tensor_product a b)) ->
  size r = (cc_n a * cc_n b)%N /\
  (forall j, (j < cc_n b)%N -> is_word (cc_n a) (cc_mat a) [seq nth 0 r (i * cc_n b + j) | i <- iota 0 (cc_n a)]) /\
  (forall i, (i < cc_n a)%N -> is_word (cc_n b) (cc_mat b) [seq nth 0 r (i * cc_n b + j) | j <- iota 0 (cc_n b)]).
Proof.
move=> ha hb hr; have [h _ _] := gen_basis (tensor_ok ha hb); have hw := h _ hr; have [sr _] := hw.
by split=> //; apply/(tensor_words ha hb sr).
Qed.
Lemma sub_rows r0 r1 : r0 \in cc_mat sub_x -> r1 \in cc_mat sub_z -> forall i i', (i < cc_n ca)%N -> (i' < cc_n ca)%N ->
  \sum_(j < cc_n cb) nth 0 r0 (i * cc_n cb + j) * nth 0 r1 (i' * cc_n cb + j) = 0.
Proof.
move=> h0 h1 i i' hi hi'; have [_ [_ w0]] := sub_word oka okb h0; have [_ [_ w1]] := sub_word (dual_ok oka) (dual_ok okb) h1.
rewrite -[RHS](dual_orth okb (w0 i hi) (w1 i' hi')); apply: eq_bigr => j _.
by rewrite !(nth_map 0%N) ?size_iota // !nth_iota.
Qed.
Lemma sub_cols r0 r1 : r0 \in cc_mat sub_x -> r1 \in cc_mat sub_z -> forall j j', (j < cc_n cb)%N -> (j' < cc_n cb)%N ->
  \sum_(i < cc_n ca) nth 0 r0 (i * cc_n cb + j) * nth 0 r1 (i * cc_n cb + j') = 0.
Proof.
move=> h0 h1 j j' hj hj'; have [_ [w0 _]] := sub_word oka okb h0; have [_ [w1 _]] := sub_word (dual_ok oka) (dual_ok okb) h1.
rewrite -[RHS](dual_orth oka (w0 j hj) (w1 j' hj')); apply: eq_bigr => i _.
by rewrite !(nth_map 0%N) ?size_iota // !nth_iota.
Qed.
End Local.

(* ---------------------------------------------------------------- quantum Tanner codes *)
Section Final.
Variables (F : fieldType) (n : nat) (G : group) (bip : bool) (A0 B0 : seq perm) (ca cb : ccode F).
Variables (popn : seq perm -> nat) (iter : seq perm -> seq perm) (fuel : nat).
Hypothesis gG : grp_ok n G.
Hypotheses (uA0 : uniq A0) (uB0 : uniq B0) (A0G : {subset A0 <= G}) (B0G : {subset B0 <= G}).
Hypotheses (symA0 : forall a, a \in A0 -> pinv a \in A0) (symB0 : forall b, b \in B0 -> pinv b \in B0).
Hypothesis tnc : bip -> no_conjugacy G A0 B0.
Hypothesis iterP : forall s, perm_eq (iter s) s.
Hypotheses (oka : code_ok ca) (okb : code_ok cb).
Hypotheses (na : cc_n ca = size A0) (nb : cc_n cb = size B0).
Let A := iter (cover_a bip A0).
Let B := iter (cover_b bip B0).
Let U := cover_group G bip.
Let pA := iterP (cover_a bip A0).
Let pB := iterP (cover_b bip B0).
Let gU : grp_ok (n + wsize bip) U := cg_ok bip gG.
Let uA : uniq A := cA_uniq pA.
Let uB : uniq B := cB_uniq pB.
Let AU : {subset A <= U} := cA_sub A0G pA.
Let BU : {subset B <= U} := cB_sub B0G pB.
Let symA := cA_sym gG A0G symA0 pA.
Let symB := cB_sym gG B0G symB0 pB.
Let parA := cparA gG A0G pA.
Let parB := cparB gG B0G pB.
Let nconj := c_noconj gG A0G B0G tnc pA pB.
Let szA : size A = cc_n ca. Proof. by rewrite na (cA_size gG uA0 A0G pA). Qed.
Let szB : size B = cc_n cb. Proof. by rewrite nb (cB_size gG uB0 B0G pB). Qed.
Let nx : cc_n (sub_x ca cb) = (size A * size B)%N. Proof. by rewrite szA szB. Qed.
Let nz : cc_n (sub_z ca cb) = (size A * size B)%N. Proof. by rewrite szA szB. Qed.
Let wx : wf (cc_n (sub_x ca cb)) (cc_mat (sub_x ca cb)).
Proof. exact: basis_wf (gen_basis (tensor_ok oka okb)). Qed.
Let wz : wf (cc_n (sub_z ca cb)) (cc_mat (sub_z ca cb)).
Proof. exact: basis_wf (gen_basis (tensor_ok (dual_ok oka) (dual_ok okb))). Qed.
Let rows r0 r1 : r0 \in cc_mat (sub_x ca cb) -> r1 \in cc_mat (sub_z ca cb) -> forall i i', (i < size A)%N -> (i' < size A)%N ->
  \sum_(j < size B) nth 0 r0 (i * size B + j) * nth 0 r1 (i' * size B + j) = 0.
Proof. by rewrite szA szB; exact: sub_rows. Qed.
Let cols r0 r1 : r0 \in cc_mat (sub_x ca cb) -> r1 \in cc_mat (sub_z ca cb) -> forall j j', (j < size B)%N -> (j' < size B)%N ->
  \sum_(i < size A) nth 0 r0 (i * size B + j) * nth 0 r1 (i * size B + j') = 0.
Proof. by rewrite szA szB; exact: sub_cols. Qed.

Lemma qt_ok c : qt_code popn iter A0 B0 ca cb bip fuel = Some c ->
  exists gs p0 x z, [/\ fine U (cpar n bip) p0 gs, closed A B gs gs /\ pid (n + wsize bip) \in gs,
    tanner_code qlt (gx_of A B gs) (sub_x ca cb) = Some x /\ tanner_code qlt (gz_of A B gs) (sub_z ca cb) = Some z,
    c = mkcss (cc_n x) (cc_mat x) (cc_mat z) (Some false) &
    [/\ cc_n x = cc_n z, wf (cc_n x) (cc_mat x), wf (cc_n z) (cc_mat z) &
      forall r s, r \in cc_mat x -> s \in cc_mat z -> \sum_(j < cc_n x) nth 0 r j * nth 0 s j = 0]].
Proof.
rewrite /qt_code -/A -/B -/(sub_x ca cb) -/(sub_z ca cb).
case e: (get_subgraphs _ _ _ _) => [[gx gz] |] //.
have [gs [p0 [-> -> fi cl one]]] := subgraphsP gU AU BU parA parB nconj e.
case tx: (tanner_code _ _ _) => [x|] //; case tz: (tanner_code _ _ _) => [z|] //; case: ifP => // _ [<-].
exists gs, p0, x, z; split=> //.
exact: (commute_nodes gU uA uB AU BU symA symB parA parB nconj nx nz wx wz rows cols fi cl tx tz).
Qed.

Lemma qt_some : (size U < fuel)%N -> A0 <> [::] -> exists c, qt_code popn iter A0 B0 ca cb bip fuel = Some c.
Proof.
move=> hf ne; rewrite /qt_code -/A -/B -/(sub_x ca cb) -/(sub_z ca cb).
have neA : A <> [::] by move=> e; move: szA; rewrite na e; case: (A0) ne.
have := @subgraphs_end _ _ gU A B AU BU symB _ parA parB nconj popn fuel hf neA.
case e: (get_subgraphs _ _ _ _) => [[gx gz] |] // _.
have [gs [p0 [-> -> fi cl one]]] := subgraphsP gU AU BU parA parB nconj e.
have [x [z [tx tz]]] := tanner_codes gU uA uB AU BU symA symB parA parB nconj nx nz fi cl.
have [en _ _ _] := commute_nodes gU uA uB AU BU symA symB parA parB nconj nx nz wx wz rows cols fi cl tx tz.
by rewrite tx tz en eqxx; eexists.
Qed.

Lemma sort_iter (s : seq perm) : sort ple (iter s) = sort ple s.
Proof. apply/perm_sortP => //; [exact: ple_total | exact: ple_trans | exact: ple_anti]. Qed.

Lemma qt_local c : qt_code popn iter A0 B0 ca cb bip fuel = Some c ->
  exists (Vx Vz : seq perm) (num : perm -> perm -> perm -> nat),
    let sa i := nth [::] (sort ple (cover_a bip A0)) i in let sb i := nth [::] (sort ple (cover_b bip B0)) i in
    let A := cover_a bip A0 in let B := cover_b bip B0 in
    let view (w : seq F) (g : perm) := [seq nth 0 w (num g (sa (k %/ cc_n cb)%N) (sb (k %% cc_n cb)%N)) | k <- iota 0 (cc_n ca * cc_n cb)] in
  [/\ [/\ pid (n + wsize bip) \in Vx, forall g a b, g \in Vx -> a \in A -> b \in B -> pmul (pmul a g) b \in Vx
        & forall h, h \in Vz <-> exists a g, [/\ a \in A, g \in Vx & h = pmul a g]],
      (forall g a b, g \in Vx ++ Vz -> a \in A -> b \in B -> (num g a b < c_n c)%N) /\
      (forall j, (j < c_n c)%N -> exists g a b, [/\ g \in Vx, a \in A, b \in B & num g a b = j]),
      forall g a b g' a' b', g \in Vx ++ Vz -> a \in A -> b \in B -> g' \in Vx ++ Vz -> a' \in A -> b' \in B ->
        num g a b = num g' a' b' <-> [:: g; pmul a g; pmul g b; pmul (pmul a g) b] =i [:: g'; pmul a' g'; pmul g' b'; pmul (pmul a' g') b'],
      forall w, size w = c_n c -> (forall r, r \in c_x c -> dot r w = 0) <->
        forall g, g \in Vx -> is_word (cc_n ca * cc_n cb) (cc_mat (sub_x ca cb)) (view w g)
    & forall w, size w = c_n c -> (forall r, r \in c_z c -> dot r w = 0) <->
        forall g, g \in Vz -> is_word (cc_n ca * cc_n cb) (cc_mat (sub_z ca cb)) (view w g)].
Proof.
move=> hc; have [gs [p0 [x [z [fi [cl one] [tx tz] -> [en wX wZ _]]]]]] := qt_ok hc.
have [s1 s2 s3 s4 s5] := structure gU uA uB AU BU symA symB parA parB nconj nx nz wx wz fi cl tx tz.
have mA a : (a \in cover_a bip A0) = (a \in A) by rewrite (perm_mem pA).
have mB a : (a \in cover_b bip B0) = (a \in B) by rewrite (perm_mem pB).
have dotw m (M : mat F) w : wf m M -> size w = m -> (forall r, r \in M -> dot r w = 0) <-> is_word m M w.
  move=> wM sw; split=> [h | [_ h] r hr]; last by rewrite (dotE (n := m)) ?h // (wfP _ _ wM _ hr).
  by split=> // r hr; rewrite -[RHS](h r hr) (dotE (n := m)) // (wfP _ _ wM _ hr).
exists gs, (zs_of A gs), (fun g a b => index (face g a b) (sinks (gx_of A B gs))) => /=; split.
- split=> // [g a b hg | h]; first by rewrite mA mB; exact: cl.
  split=> [/allpairsP [[a g] /= [ha hg ->]] | [a [g [ha hg ->]]]]; first by exists a, g; rewrite mA.
  by apply/allpairsP; exists (a, g); split=> //; rewrite -mA.
- split=> [g a b hg | j hj]; first by rewrite mA mB; exact: s1.
  by have [g [a [b [hg ha hb e]]]] := s2 j hj; exists g, a, b; rewrite mA mB.
- move=> g a b g' a' b' hg; rewrite !mA !mB => ha hb hg' ha' hb'; exact: s3.
- move=> w sw; rewrite (dotw _ _ _ wX sw) (s4 w sw) /slots /anth /bnth szA szB /A /B !sort_iter; exact: iff_refl.
move=> w sw; rewrite en in sw; rewrite (dotw _ _ _ wZ sw) (s5 w sw) /slots /anth /bnth szA szB /A /B !sort_iter; exact: iff_refl.
Qed.
End Final.
