(* Concatenation of qudit codes. *)
From mathcomp Require Import all_ssreflect all_algebra zify.
From Verif Require Import LinAlg RowReduce Classical ClassicalProofs ClassicalProofs2 Symplectic Quantum QuantumProofs
  QuantumPerm QuantumStab QuantumLogs QuantumOps QuantumStack.
Set Implicit Arguments.
Unset Strict Implicit.
Unset Printing Implicit Defensive.
Import GRing.Theory.
Local Open Scope ring_scope.

Section Concat.
Variable F : fieldType.
Notation vec := (seq F).
Notation mat := (seq (seq F)).

(* ----------------------------------------------------------- encoding by logical operators *)
Definition enc n (L : mat) (u : vec) : vec := [seq dot u c | c <- trl (n + n) L].

Lemma mull_enc n (A L : mat) : mull (n + n) A L = map (enc n L) A. Proof. by []. Qed.

Lemma size_enc n L u : size (enc n L u) = (n + n)%N.
Proof. by rewrite size_map size_trl. Qed.

Lemma rv_enc n k (L : mat) u : size L = k -> size u = k -> rv (n + n) (enc n L u) = rv k u *m mx k (n + n) L.
Proof.
move=> sL su.
have := @mx_mull F 1 k (n + n) [:: u] L erefl; rewrite /wf /= su eqxx sL => /(_ isT erefl).
have e (p : nat) (v : vec) : mx 1 p [:: v] = rv p v by apply/matrixP => i j; rewrite !mxE ord1.
by rewrite !e.
Qed.

Lemma enc_comb n (L : mat) u : size u = size L -> is_comb (n + n) L u (enc n L u).
Proof. by move=> su; apply/is_combE; rewrite ?size_enc //; apply: rv_enc. Qed.

Section One.
Variables (n k : nat) (A L : mat).
Hypothesis lb : logical_basis n k A L.
Hypothesis wA : wf (n + n) A.
Let Lm := mx (k + k) (n + n) L.
Let sL : size L = (k + k)%N. Proof. by case: lb => [[]]. Qed.
Let wL : wf (n + n) L. Proof. by case: lb => [[]]. Qed.

Lemma log_gram : Lm *m symJ F n *m Lm^T = symJ F k.
Proof.
have [[_ _ h] _] := lb; apply/matrixP => i j; rewrite gram_ent // h //.
have [i' -> | i' ->] := split_ordP i; have [j' -> | j' ->] := split_ordP j.
- rewrite block_mxEul mxE !eqF ?subr0 //=; have := ltn_ord i'; have := ltn_ord j'; lia.
- rewrite block_mxEur mxE -val_eqE /=.
  have -> : (i' == k + j' + k :> nat)%N = false by have := ltn_ord i'; lia.
  have -> : (k + j' == i' + k :> nat)%N = (i' == j' :> nat) by lia.
  by rewrite subr0.
- rewrite block_mxEdl !mxE -val_eqE /=.
  have -> : (j' == k + i' + k :> nat)%N = false by have := ltn_ord j'; lia.
  have -> : (k + i' == j' + k :> nat)%N = (i' == j' :> nat) by lia.
  by rewrite sub0r.
rewrite block_mxEdr mxE !eqF ?subr0 //=; have := ltn_ord i'; have := ltn_ord j'; lia.
Qed.

Lemma log_free : row_free Lm.
Proof.
have h : \rank (symJ F k) = (k + k)%N by rewrite mxrank_unit ?symJ_unit.
by apply/eqP/anti_leq; rewrite rank_leq_row -{1}h -log_gram -mulmxA mxrankM_maxl.
Qed.

Lemma enc_symp u v : size u = (k + k)%N -> size v = (k + k)%N -> symp n (enc n L u) (enc n L v) = symp k u v.
Proof.
move=> su sv; apply: symp_of; rewrite ?size_enc // !(rv_enc _ sL) // trmx_mul !mulmxA.
by rewrite -(mulmxA _ Lm) -(mulmxA _ (Lm *m _)) log_gram symp_rv.
Qed.

Lemma mx_comm : sp (n + n) A *m symJ F n *m Lm^T = 0.
Proof.
have [_ h] := lb; have := proj1 (commP wA wL) h; rewrite /Lm => e.
by apply/matrixP => i j; rewrite gram_ent // ?h ?mxE // mem_nth // ?sL.
Qed.

Lemma enc_comm r u : r \in A -> size u = (k + k)%N -> symp n r (enc n L u) = 0.
Proof.
move=> rA su; have sr : size r = (n + n)%N by move/wfP: wA; apply.
apply: symp_of; rewrite ?size_enc // (rv_enc _ sL) // trmx_mul mulmxA.
have -> : rv (n + n) r *m symJ F n *m Lm^T = 0.
  have ir : (index r A < size A)%N by rewrite index_mem.
  by have := congr1 (row (Ordinal ir)) mx_comm; rewrite !row_mul row0 row_of_mx /= nth_index.
by rewrite mul0mx raddf0.
Qed.

Lemma sp_enc (B : mat) : wf (k + k) B -> (sp (n + n) (map (enc n L) B) :=: sp (k + k) B *m Lm)%MS.
Proof.
move=> wB; suff -> : sp (k + k) B *m Lm = mx (size B) (n + n) (map (enc n L) B) by apply: sp_mx; rewrite size_map.
apply/row_matrixP => i; rewrite row_mul !row_of_mx (nth_map [::]) // (rv_enc _ sL) //; exact: wf_nth.
Qed.

Lemma wf_enc (B : mat) : wf (n + n) (map (enc n L) B).
Proof. by apply/wfP => r /mapP [u _ ->]; rewrite size_enc. Qed.

Lemma concat_counts (B : mat) g k' g' : wf (k + k) B -> counts n A k g -> counts k B k' g' ->
  counts n (A ++ map (enc n L) B) k' (g + g').
Proof.
move=> wB /(countsG _ _ wA (eqmx_refl _)) [e1 e2] /(countsG _ _ wB (eqmx_refl _)) [e3 e4].
have wC : wf (n + n) (A ++ map (enc n L) B) by rewrite wf_cat wA wf_enc.
have e : (sp (n + n) (A ++ map (enc n L) B) :=: col_mx (sp (n + n) A) (sp (k + k) B *m Lm))%MS.
  apply: eqmx_trans (sp_cat _ _ _) _.
  apply: eqmx_trans (eqmx_sym (addsmxE _ _)) _; apply: eqmx_trans _ (addsmxE _ _).
  apply: adds_eqmx; first exact: sp_mx.
  by apply: eqmx_trans (sp_enc wB); apply/eqmx_sym/sp_mx; rewrite size_map.
apply/(countsG _ _ wC e).
have c1 := mx_comm; have c2 := log_gram; have fr := log_free; move: Lm c1 c2 fr => M c1 c2 fr.
move: (sp (n + n) A) (sp (k + k) B) e1 e2 e3 e4 c1 => P Q e1 e2 e3 e4 c1.
have c3 : M *m symJ F n *m P^T = 0 by rewrite symJ_antisym c1 trmx0 oppr0.
have g12 : P *m symJ F n *m (Q *m M)^T = 0 by rewrite trmx_mul mulmxA c1 mul0mx.
have g21 : Q *m M *m symJ F n *m P^T = 0 by rewrite symJ_antisym g12 trmx0 oppr0.
have g22 : Q *m M *m symJ F n *m (Q *m M)^T = Q *m symJ F k *m Q^T.
  by rewrite trmx_mul !mulmxA -(mulmxA _ M) -(mulmxA _ (M *m _)) c2.
rewrite tr_col_mx mul_col_mx mul_col_row g12 g21 g22 rank_diag_block_mx e1 e3; split; first by lia.
have cap : \rank (P :&: Q *m M)%MS = 0%N.
  apply/eqP; rewrite mxrank_eq0; apply/eqP/row_matrixP => i; rewrite row0.
  set x := row i _; have : (x <= P :&: Q *m M)%MS by apply: row_sub.
  rewrite sub_capmx => /andP [/submxP [a ea] /submxP [b eb]].
  have : x *m symJ F n *m M^T = 0 by rewrite ea -!mulmxA [P *m _]mulmxA c1 mulmx0.
  rewrite eb !mulmxA -(mulmxA _ M) -(mulmxA _ (M *m _)) c2 => z.
  have {}z : b *m Q = 0.
    by apply: (row_free_inj (A := symJ F k)); rewrite ?row_free_unit ?symJ_unit // mul0mx.
  by rewrite z mul0mx.
have := mxrank_sum_cap P (Q *m M); rewrite cap addsmxE addn0 mxrankMfree // => ->; lia.
Qed.

Lemma concat_comm (B : mat) : wf (k + k) B -> commuting n A -> commuting k B ->
  commuting n (A ++ map (enc n L) B).
Proof.
move=> /wfP wB cA cB u v; rewrite !mem_cat => /orP [uA | /mapP [u' uB ->]] /orP [vA | /mapP [v' vB ->]].
- exact: cA.
- by apply: enc_comm => //; apply: wB.
- by rewrite symp_anti enc_comm ?oppr0 //; apply: wB.
by rewrite enc_symp ?cB //; apply: wB.
Qed.

Lemma concat_logs (B K : mat) k' : wf (k + k) B -> logical_basis k k' B K ->
  logical_basis n k' (A ++ map (enc n L) B) (map (enc n L) K).
Proof.
move=> /wfP wB [[sK wK dK] cK]; split.
  split; rewrite ?size_map ?wf_enc // => i j li lj; rewrite !(nth_map [::]) ?sK // enc_symp ?dK //.
    by apply: wf_nth; rewrite ?sK.
  by apply: wf_nth; rewrite ?sK.
move: wK => /wfP wK r l; rewrite mem_cat => /orP [rA | /mapP [u uB ->]] /mapP [v vK ->].
  by apply: enc_comm => //; apply: wK.
by rewrite enc_symp ?cK //; [apply: wB | apply: wK].
Qed.
End One.

(* ------------------------------------------------------------------- permuting the logicals *)
Lemma permuted_logs n k (A L : mat) (w : seq nat) : perm_eq w (iota 0 k) -> logical_basis n k A L ->
  logical_basis n k A (permute_logs w k L).
Proof.
move=> pw [[sL wL dL] cL].
have sw : size w = k by rewrite (perm_size pw) size_iota.
have uw : uniq w by rewrite (perm_uniq pw) iota_uniq.
have bw i : (i < k)%N -> (nth 0%N w i < k)%N.
  by move=> li; have := mem_nth 0%N (_ : (i < size w)%N); rewrite sw (perm_mem pw) mem_iota => /(_ li).
pose s i := if (i < k)%N then nth 0%N w i else (k + nth 0%N w (i - k))%N.
have ns i : (i < k + k)%N -> nth [::] (permute_logs w k L) i = nth [::] L (s i) /\ (s i < k + k)%N.
  move=> li; rewrite /permute_logs /s nth_cat size_map sw; case: ifP => lt.
    by rewrite (nth_map 0%N) ?sw // nth_take ?bw //; split=> //; have := bw _ lt; lia.
  have lt' : (i - k < k)%N by lia.
  by rewrite (nth_map 0%N) ?sw // nth_drop; split=> //; have := bw _ lt'; lia.
have es i j : (i < k + k)%N -> (j < k + k)%N -> (s j == s i + k)%N = (j == i + k)%N.
  move=> li lj; rewrite /s; case: (ltnP i k) => hi; case: (ltnP j k) => hj.
  - by have := bw _ hi; have := bw _ hj; lia.
  - have hj' : (j - k < k)%N by lia.
    rewrite addnC eqn_add2r nth_uniq ?sw //; lia.
  - have := bw _ hj; lia.
  have hj' : (j - k < k)%N by lia.
  have hi' : (i - k < k)%N by lia.
  have := bw _ hj'; have := bw _ hi'; lia.
split.
  split; first by rewrite size_cat !size_map sw.
    apply/wfP => r; rewrite mem_cat => /orP [] /mapP [i]; rewrite (perm_mem pw) mem_iota /= add0n => li ->.
      by rewrite nth_take //; apply: wf_nth; rewrite // sL; lia.
    by rewrite nth_drop; apply: wf_nth; rewrite // sL; lia.
  move=> i j li lj; have [-> bi] := ns _ li; have [-> bj] := ns _ lj.
  by rewrite dL // !es.
move=> r l rA; rewrite mem_cat => lP; apply: cL rA _.
have: (exists2 i, (i < k + k)%N & l = nth [::] (permute_logs w k L) i).
  have : l \in permute_logs w k L by rewrite mem_cat.
  move=> /(nthP [::]) [i li <-]; exists i => //; by move: li; rewrite size_cat !size_map sw.
by case=> i li ->; have [-> bi] := ns _ li; apply: mem_nth; rewrite sL.
Qed.

Lemma default_perm no ki : perm_eq (default_wiring no ki) (iota 0 (no * ki)).
Proof.
apply: uniq_perm; rewrite ?iota_uniq //.
  apply: (allpairs_uniq (f := fun a b => b * ki + a)%N); rewrite ?iota_uniq //.
  move=> [a b] [a' b'] /allpairsP [[x y] [/= hx _ [-> ->]]] /allpairsP [[x' y'] [/= hx' _ [-> ->]]] /= e.
  move: hx hx'; rewrite !mem_iota /= !add0n => hx hx'.
  have ex : x = x' by have := congr1 (modn^~ ki) e; rewrite /= !modnMDl !modn_small.
  by congr pair => //; move: e; rewrite ex => /eqP; rewrite eqn_add2r eqn_pmul2r; [move/eqP | lia].
move=> i; rewrite mem_iota /= add0n; apply/allpairsP/idP => [[[a b]] /= [] | li].
  by rewrite !mem_iota !add0n /= => ha hb ->; nia.
have k0 : (0 < ki)%N by lia.
exists (i %% ki, i %/ ki)%N; rewrite /= !mem_iota !add0n /= ltn_mod k0 ltn_divLR // li.
by split=> //; apply: divn_eq.
Qed.

(* ------------------------------------------------------------------------------ concatenate *)
Definition has_logs (c : qcode F) : Prop := exists L, get_logical_ops c = Some L /\ valid_logs c L.

Lemma stacked (c : qcode F) b : q_ok c -> has_logs c -> (0 < b)%N ->
  exists c1 L, [/\ (if (1 < b)%N then q_stack (nseq b c) true else Some c) = Some c1, q_ok c1,
                 get_logical_ops c1 = Some L, valid_logs c1 L
               & [/\ q_n c1 = (b * q_n c)%N, q_dimension c1 = (b * q_dimension c)%N,
                     q_gauge_dimension c1 = (b * q_gauge_dimension c)%N, q_sub c1 = q_sub c
                   & q_mat c1 = if (1 < b)%N then stack_mat (nseq b (q_n c, q_mat c)) else q_mat c]].
Proof.
move=> ok [L [eL vL]] b0; have [b1 | b1] := ltnP 1 b; last first.
  have -> : b = 1%N by lia.
  by exists c, L; split=> //; split; rewrite ?mul1n.
have nb i : (i < size (nseq b c))%N -> nth (cdflt F) (nseq b c) i = c.
  by rewrite size_nseq => li; rewrite nth_nseq li.
have sm (f : qcode F -> nat) : sumn [seq f x | x <- nseq b c] = (b * f c)%N by rewrite map_nseq sumn_nseq mulnC.
have := @q_stack_ok F (nseq b c) true; case.
- by move=> i /nb ->.
- by move=> _ i /nb ->; exists L.
move=> c1 [e1 ok1 en em [ed eg es el]]; have [L1 eL1 vL1] := el isT.
exists c1, L1; split=> //; first by rewrite /get_logical_ops eL1.
split; rewrite ?en ?ed ?eg ?sm // ?es ?em ?map_nseq //.
by rewrite has_nseq b0.
Qed.

Theorem concatenate_ok (inner outer : qcode F) wiring (inherit : bool) :
  let w := if wiring is Some w then w else default_wiring (q_n outer) (q_dimension inner) in
  q_ok inner -> q_ok outer -> has_logs inner -> has_logs outer ->
  (0 < q_dimension inner)%N -> (0 < q_n outer)%N -> (0 < size w)%N ->
  (q_dimension inner %| size w)%N -> (q_n outer %| size w)%N -> perm_eq w (iota 0 (size w)) ->
  let bi := (size w %/ q_dimension inner)%N in let bo := (size w %/ q_n outer)%N in
  exists c inner1 outer1 L K,
    [/\ concatenate inner outer wiring inherit =
          Some (c, (if (1 < bi)%N then inner else set_logs inner (permute_logs w (size w) L), outer)),
        (if (1 < bi)%N then q_stack (nseq bi inner) true else Some inner) = Some inner1,
        (if (1 < bo)%N then q_stack (nseq bo outer) true else Some outer) = Some outer1,
        get_logical_ops inner1 = Some L & get_logical_ops outer1 = Some K] /\
    [/\ q_ok c, q_n c = (bi * q_n inner)%N, q_dimension c = (bo * q_dimension outer)%N,
        q_gauge_dimension c = (bi * q_gauge_dimension inner + bo * q_gauge_dimension outer)%N
      & q_sub c = q_sub inner || q_sub outer] /\
    [/\ q_mat c = q_mat inner1 ++ map (enc (q_n inner1) (permute_logs w (size w) L)) (q_mat outer1),
        inherit -> q_logs c = Some (map (enc (q_n inner1) (permute_logs w (size w) L)) K),
        inherit -> logical_basis (q_n c) (q_dimension c) (q_mat c) (map (enc (q_n inner1) (permute_logs w (size w) L)) K)
      & ~~ inherit -> q_logs c = None].
Proof.
move=> w oki oko li lo k0 n0 w0 dk dn pw bi bo.
have bi0 : (0 < bi)%N by rewrite divn_gt0 //; apply: dvdn_leq.
have bo0 : (0 < bo)%N by rewrite divn_gt0 //; apply: dvdn_leq.
have [c1 [L [e1 ok1 eL vL [n1 d1 g1 s1 m1]]]] := stacked oki li bi0.
have [c2 [K [e2 ok2 eK vK [n2 d2 g2 s2 m2]]]] := stacked oko lo bo0.
have d1' : q_dimension c1 = size w by rewrite d1 divnK.
have n2' : q_n c2 = size w by rewrite n2 divnK.
pose P := permute_logs w (size w) L.
have lP : logical_basis (q_n c1) (size w) (q_mat c1) P by apply: permuted_logs => //; rewrite -d1'.
have [wA h1 _ _ _] := ok1; have [wB h2 _ _ _] := ok2; rewrite n2' in wB h2.
have vK' : logical_basis (size w) (q_dimension c2) (q_mat c2) K by rewrite -n2'.
have dc1 := dimension_counts ok1; have dc2 := dimension_counts ok2; rewrite d1' in dc1; rewrite n2' in dc2.
have hc := concat_counts lP wA wB dc1 dc2.
have hl := concat_logs lP wA wB vK'.
set c := concat_core (set_logs c1 P) c2 P (if inherit then K else [::]) inherit.
have ec : q_n c = q_n c1 /\ q_mat c = q_mat c1 ++ map (enc (q_n c1) P) (q_mat c2).
  by rewrite /c /concat_core; case: (inherit).
have okc : q_ok c.
  have okm : q_ok (mkq (q_n c1) (q_mat c1 ++ map (enc (q_n c1) P) (q_mat c2)) (Some (q_sub c1 || q_sub c2))).
    apply: q_ok_mk; first by rewrite wf_cat wA wf_enc.
    move=> [/norP]; rewrite -!eqbF_neg => -[/eqP z1 /eqP z2].
    exact: concat_comm lP wA _ wB (h1 z1) (h2 z2).
  rewrite /c /concat_core; case: (inherit) => //=.
  case: okm => a1 a2 a3 a4 a5; split=> //= l [<-].
  by exists (q_dimension c2), (q_gauge_dimension c1 + q_gauge_dimension c2)%N.
have dcc := dimension_counts okc; case: (ec) => ec1 ec2; rewrite ec1 ec2 in dcc.
have wC : wf (q_n c1 + q_n c1) (q_mat c1 ++ map (enc (q_n c1) P) (q_mat c2)) by rewrite wf_cat wA wf_enc.
have [ed eg] := counts_unique wC dcc hc.
have ein : (1 < bi)%N = false -> c1 = inner by move=> h; move: e1; rewrite h => -[].
exists c, c1, c2, L, K; split.
  split=> //; rewrite /concatenate -/w k0 n0 /= (eqP dk) (eqP dn) /= -/bi -/bo e1 e2 eL d1' eqxx andbT.
  have -> : all (fun i => i < size w)%N w by apply/allP => i; rewrite (perm_mem pw) mem_iota.
  by rewrite eK /c; case: (inherit) => /=; case: ifP => // /ein ->.
split; first by split=> //; rewrite ?ec1 ?ed ?eg ?n1 ?d2 ?g1 ?g2 //; rewrite /c /concat_core; case: (inherit); rewrite /= s1 s2.
split; rewrite ?ec1 ?ec2 //; rewrite -?/P.
- by rewrite /c /concat_core; case: (inherit).
- by move=> _; rewrite ed; exact: hl.
by rewrite /c /concat_core; case: (inherit).
Qed.
End Concat.
